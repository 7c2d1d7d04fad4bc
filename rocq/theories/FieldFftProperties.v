(** Claim C47: transforms stay inside the buffers of the field. *)
From Coq Require Import List Arith ZArith NArith Bool Lia.
From Verif Require Import AllocModel AllocProperties FieldModel FieldProofs FieldProperties.
Import ListNotations.

(** ** Specification *)
(** n bytes from a lie inside the N bytes from x. *)
Definition inside (a : option addr) (n : nat) (x : option addr) (N : nat) : Prop :=
  exists p o u, a = Some (p, o) /\ x = Some (p, u) /\ u <= o /\ o + n <= u + N.
(** The buffers of a freshly created field, [m2n] bytes being there for the third. *)
Definition buffers (s : scalar) (m2n : nat) : list (option addr * nat) :=
  [(pm s, v3 s * fSize s); (pv s, n2 s * (Lz s + 2) * fSize s); (pm2 s, m2n)].
(** Everything a transform reads and writes lies in the buffers, each side within one,
    and the two sides are the same region or separate ones. *)
Definition plan_fits (s : scalar) (m2n : nat) (p : plan) : Prop :=
  let '(k, accs) := plan_access p s in
  forall a b, In (a, b) accs ->
    (exists x N, In (x, N) (buffers s m2n) /\ inside a (plan_bytes k s) x N) /\
    (exists x N, In (x, N) (buffers s m2n) /\ inside b (plan_bytes k s) x N) /\
    (a = b \/ apart a (plan_bytes k s) b (plan_bytes k s)).

(** ** Proofs *)
Section Arith.
  Variables n1 Lz Ng pr : nat.
  Hypothesis H2 : 2 <= n1.
  Lemma pad_le_double : n1 * (n1 + 2) * Lz * pr <= n1 * n1 * Lz * (pr * 2).
  Proof.
    replace (n1 * n1 * Lz * (pr * 2)) with (n1 * (2 * n1) * Lz * pr) by ring.
    apply Nat.mul_le_mono_r, Nat.mul_le_mono_r, Nat.mul_le_mono_l. lia.
  Qed.
  Lemma pad_le_ghosts : Lz <= Ng * n1 -> n1 * (n1 + 2) * Lz * pr <= n1 * n1 * (Lz + 2 * Ng) * pr.
  Proof.
    intros H. apply Nat.mul_le_mono_r.
    replace (n1 * (n1 + 2) * Lz) with (n1 * n1 * Lz + 2 * n1 * Lz) by ring.
    replace (n1 * n1 * (Lz + 2 * Ng)) with (n1 * n1 * Lz + 2 * n1 * (Ng * n1)) by ring.
    apply Nat.add_le_mono_l, Nat.mul_le_mono_l. exact H.
  Qed.
End Arith.

Lemma inside_intro p o u n N : u <= o -> o + n <= u + N -> inside (Some (p, o)) n (Some (p, u)) N.
Proof. intros. exists p, o, u. auto. Qed.


(** C47 for complex fields, if there is room for two rows and no more slices than ghost
    slices times rows: every transform stays in the buffers.
    Missing: the other sizes; see the refutation. *)
Theorem complex_transforms_fit_partial pick mAl pr lg nLx nLz Ngg w0 s w : machine mAl pr ->
  2 <= nLx -> nLz <= Ngg * nLx ->
  construct pick mAl pr false lg SAXION nLx nLz Ngg w0 = Ok (s, w) ->
  forall p, plan_fits s (v3 s * fSize s) p.
Proof.
  intros M Hx Hz E p.
  destruct (construct_complex _ _ _ _ _ _ _ _ _ _ _ _ (or_introl eq_refl) E) as (bm & bv & bs & b2 & k & bz & br & Hs & Hk & Ex).
  assert (A : forallb is_alloc ([OAlign (Some bm) (nLx * nLx * (nLz + 2 * Ngg) * (pr * 2)); OAlign (Some bv) (nLx * nLx * (nLz + 2) * (pr * 2));
            OTrack (Some bs) (nLx * nLx * nLz)] ++ m2_ops b2 k ++ [OAlign (Some bz) mAl; OAlign (Some br) mAl]) = true) by (destruct b2; reflexivity).
  destruct (allocs _ _ _ A Ex) as (_ & N & _ & _). clear A Ex.
  destruct b2 as [p2|].
  2:{ exfalso. unfold construct in E. destruct (negb _); [discriminate|]. apply bind_ok in E as ([[[[m v] str] rvg] w1] & _ & E).
      apply bind_ok in E as ([m2 w2] & _ & E). destruct m2; cbn in E; [|discriminate].
      apply bind_ok in E as (w3 & _ & E). apply bind_ok in E as (w4 & _ & E). apply bind_ok in E as ([z w5] & _ & E). apply bind_ok in E as ([R w6] & _ & E).
      injection E as E _. rewrite <- E in Hs. discriminate. }
  assert (Ns : bm <> bv /\ bm <> p2 /\ bv <> p2).
  { cbn in N. apply NoDup_cons_iff in N as [Ha Hb]. apply NoDup_cons_iff in Hb as [Hb _]. cbn in Ha, Hb. intuition congruence. }
  destruct Ns as (N1 & N2 & N3).
  pose proof (pad_le_double nLx nLz pr Hx) as Q1. pose proof (pad_le_ghosts nLx nLz Ngg pr Hz) as Q2.
  set (V := nLx * nLx * nLz) in *. set (P := nLx * (nLx + 2) * nLz * pr) in *.
  assert (E1 : nLx * nLx * (nLz + 2 * Ngg) * (pr * 2) = V * (pr * 2) + 2 * (nLx * nLx * Ngg) * (pr * 2)) by (unfold V; ring).
  assert (E2 : nLx * nLx * (nLz + 2) * (pr * 2) = V * (pr * 2) + nLx * nLx * 2 * (pr * 2)) by (unfold V; ring).
  assert (E3 : pr * 2 * (nLx * nLx) * Ngg = (nLx * nLx * Ngg) * (pr * 2)) by ring.
  assert (E4 : nLx * nLx * (nLz + 2 * Ngg) * pr = V * pr + 2 * (nLx * nLx * Ngg) * pr) by (unfold V; ring).
  assert (E5 : V * (pr * 2) = V * pr + V * pr) by ring.
  assert (E6 : V * (2 * pr) = V * (pr * 2)) by ring.
  set (G := nLx * nLx * Ngg) in *. set (W := nLx * nLx * 2 * (pr * 2)) in *.
  assert (E7 : 2 * G * (pr * 2) = 2 * (G * (pr * 2))) by ring.
  assert (E8 : 2 * (G * pr) + 2 * (G * pr) = 2 * (G * (pr * 2))) by ring.
  assert (E9 : 2 * G * pr = 2 * (G * pr)) by ring.
  unfold plan_fits. rewrite Hs.
  destruct p; cbn [plan_access]; intros a b Hin; cbn [In] in Hin;
    unfold buffers, mStart, m2half, m2Start, plan_bytes, fresh_scalar, off in Hin |- *; cbn [pm pv pm2 fSize n2 n1 Lz Ng v3 n3 prec nData m2_addr option_map fst snd] in Hin |- *;
    fold V in Hin |- *; fold P in Hin |- *; fold G in Hin |- *;
    repeat (destruct Hin as [Hin|Hin]; [injection Hin as <- <-|]); try (destruct Hin);
    (split; [|split]);
    try (eexists _, _; split; [left; reflexivity|]; apply inside_intro; lia);
    try (eexists _, _; split; [right; left; reflexivity|]; apply inside_intro; lia);
    try (eexists _, _; split; [right; right; left; reflexivity|]; apply inside_intro; lia);
    try (left; reflexivity); right; left; congruence.
Qed.
Print Assumptions complex_transforms_fit_partial.

(** Transforms between real and complex grids, and the complex one in the third buffer. *)
Definition angle_plan (p : plan) : bool :=
  match p with
  | CtoC_M2toM2 | PSPEC_AX | RHO_SX | RtoC_M2StoM2S | RtoC_MtoM_WKB | RtoC_VtoV_WKB | RtoC_M2toM2_WKB | RtoC_M2toM | RtoC_M2toV => true
  | _ => false
  end.
(** C47 for angle fields: the same for these transforms, if moreover there are no more
    slices than rows. Missing: other transforms and sizes, see the refutations. *)
Theorem angle_transforms_fit_partial pick mAl pr t nLx nLz Ngg w0 s w : machine mAl pr ->
  t = AXION \/ t = AXION_MOD -> 2 <= nLx -> nLz <= Ngg * nLx -> nLz <= nLx ->
  construct pick mAl pr false false t nLx nLz Ngg w0 = Ok (s, w) ->
  forall p, angle_plan p = true -> plan_fits s (2 * (v3 s * fSize s)) p.
Proof.
  intros M Ht Hx Hz Hz1 E p Hp. assert (Ht' : angle_kind t) by (unfold angle_kind; tauto).
  destruct (construct_angle _ _ _ _ _ _ _ _ _ _ _ _ Ht' E) as (bm & bs & b2 & k & bz & br & Hs & Hk & _ & Ex).
  assert (A : forallb is_alloc ([OAlign (Some bm) (nLx * nLx * (nLz + 2 * Ngg) * pr + nLx * nLx * (nLz + 2) * pr);
            OTrack (Some bs) (nLx * nLx * nLz)] ++ m2_ops b2 k ++ [OAlign (Some bz) mAl; OAlign (Some br) mAl]) = true) by (destruct b2; reflexivity).
  destruct (allocs _ _ _ A Ex) as (_ & N & _ & _). clear A Ex.
  destruct b2 as [p2|].
  2:{ exfalso. unfold construct in E. destruct (negb _); [discriminate|]. apply bind_ok in E as ([[[[m v] str] rvg] w1] & _ & E).
      apply bind_ok in E as ([m2 w2] & _ & E). destruct m2; cbn in E; [|discriminate].
      apply bind_ok in E as (w3 & _ & E). apply bind_ok in E as (w4 & _ & E). apply bind_ok in E as ([z w5] & _ & E). apply bind_ok in E as ([R w6] & _ & E).
      injection E as E _. rewrite <- E in Hs. discriminate. }
  assert (N2 : bm <> p2).
  { cbn in N. apply NoDup_cons_iff in N as [Ha Hb]. cbn in Ha. intuition congruence. }
  pose proof (pad_le_double nLx nLz pr Hx) as Q1. pose proof (pad_le_ghosts nLx nLz Ngg pr Hz) as Q2.
  pose proof (pad_le_ghosts nLx nLz 1 pr ltac:(lia)) as Q3.
  assert (Hd : pr * nData t = pr) by (destruct Ht; subst; cbn; lia).
  set (V := nLx * nLx * nLz) in *. set (P := nLx * (nLx + 2) * nLz * pr) in *.
  assert (E3 : pr * (nLx * nLx) * Ngg = (nLx * nLx * Ngg) * pr) by ring.
  assert (E4 : nLx * nLx * (nLz + 2 * Ngg) * pr = V * pr + 2 * (nLx * nLx * Ngg) * pr) by (unfold V; ring).
  assert (E2 : nLx * nLx * (nLz + 2) * pr = V * pr + nLx * nLx * 2 * pr) by (unfold V; ring).
  assert (E2' : nLx * nLx * (nLz + 2 * 1) * pr = nLx * nLx * (nLz + 2) * pr) by ring.
  assert (E5 : V * (pr * 2) = V * pr + V * pr) by ring.
  assert (E6 : V * (2 * pr) = V * pr + V * pr) by ring.
  set (G := nLx * nLx * Ngg) in *. set (W := nLx * nLx * 2 * pr) in *.
  assert (E9 : 2 * G * pr = 2 * (G * pr)) by ring.
  unfold plan_fits. rewrite Hs.
  destruct p; try discriminate; cbn [plan_access]; intros a b Hin; cbn [In] in Hin;
    unfold buffers, mStart, m2half, m2Start, plan_bytes, fresh_scalar, off in Hin |- *; cbn [pm pv pm2 fSize n2 n1 Lz Ng v3 n3 prec m2_addr option_map fst snd] in Hin |- *; rewrite ?Hd in Hin; rewrite ?Hd;
    fold V in Hin |- *; fold P in Hin |- *; fold G in Hin |- *;
    repeat (destruct Hin as [Hin|Hin]; [injection Hin as <- <-|]); try (destruct Hin);
    (split; [|split]);
    try (eexists _, _; split; [left; reflexivity|]; apply inside_intro; lia);
    try (eexists _, _; split; [right; left; reflexivity|]; apply inside_intro; lia);
    try (eexists _, _; split; [right; right; left; reflexivity|]; apply inside_intro; lia);
    try (left; reflexivity); right; left; congruence.
Qed.
Print Assumptions angle_transforms_fit_partial.

(** The plans made when a field is created: all fit for a complex field; for an angle
    field, all that are made without the spectral option. *)
Theorem constructor_plans_fit_partial pick mAl pr t fpectral nLx nLz Ngg w0 s w p : machine mAl pr ->
  t = SAXION \/ (t = AXION \/ t = AXION_MOD) /\ fpectral = false ->
  2 <= nLx -> nLz <= Ngg * nLx -> nLz <= nLx ->
  construct pick mAl pr false false t nLx nLz Ngg w0 = Ok (s, w) ->
  In p (constructor_plans s false fpectral) -> exists n, holds w (pm2 s) n /\ plan_fits s n p.
Proof.
  intros M Ht Hx Hz Hz1 E Hin. destruct Ht as [-> | [Ht ->]].
  - exists (v3 s * fSize s). split; [|eapply complex_transforms_fit_partial; eassumption].
    destruct (sound_complex _ _ _ _ _ SAXION _ _ _ _ _ _ [] M eq_refl E I) as [(_&_&_&_&_&_&_&_&Q&_) _]. cbn in Q.
    destruct Q as [Q|[Q _]]; [|exact Q]. exfalso.
    pose proof (complex_transforms_fit_partial _ _ _ _ _ _ _ _ _ _ M Hx Hz E PSPEC_AX) as F. cbn in F.
    destruct (F _ _ (or_introl eq_refl)) as [(x & N & _ & (q & o & u & E1 & _)) _]. congruence.
  - exists (2 * (v3 s * fSize s)). assert (Ht' : angle_kind t) by (unfold angle_kind; tauto). split.
    + destruct (construct_angle _ _ _ _ _ _ _ _ _ _ _ _ Ht' E) as (bm & bs & b2 & k & bz & br & Hs & Hk & Hk2 & Ex).
      assert (A : forallb is_alloc ([OAlign (Some bm) (nLx * nLx * (nLz + 2 * Ngg) * pr + nLx * nLx * (nLz + 2) * pr);
            OTrack (Some bs) (nLx * nLx * nLz)] ++ m2_ops b2 k ++ [OAlign (Some bz) mAl; OAlign (Some br) mAl]) = true) by (destruct b2; reflexivity).
      assert (Hd : pr * nData t = pr) by (destruct Ht; subst; cbn; lia).
      pose proof (angle_transforms_fit_partial _ _ _ _ _ _ _ _ _ _ M Ht Hx Hz Hz1 E PSPEC_AX eq_refl) as F. cbn in F.
      destruct (F _ _ (or_introl eq_refl)) as [(x & N & _ & (q & o & u & E1 & _)) _].
      destruct b2 as [p2|]; [|subst s; discriminate].
      exists p2, 0, k. split; [subst s; reflexivity|]. split; [apply (allocs_size _ _ _ _ _ A Ex); right; right; left; reflexivity|].
      rewrite Hk2 by reflexivity. subst s. cbn [v3 fSize fresh_scalar]. rewrite Hd. lia.
    + eapply angle_transforms_fit_partial; try eassumption. unfold constructor_plans in Hin.
      destruct (construct_angle _ _ _ _ _ _ _ _ _ _ _ _ Ht' E) as (bm & bs & b2 & k & bz & br & Hs & _).
      subst s. cbn [fType fresh_scalar] in Hin. destruct Ht; subst t; cbn in Hin; destruct Hin as [<-|[]]; reflexivity.
Qed.
Print Assumptions constructor_plans_fit_partial.

(** C47 is false with the spectral option for angle fields: the transform of the velocity
    planned at creation runs past the end of its block. *)
Theorem spectral_angle_plan_refuted pick mAl pr lg lowmem t nLx nLz Ngg w0 s w : machine mAl pr ->
  t = AXION \/ t = AXION_MOD -> 0 < nLx -> 2 < nLz ->
  construct pick mAl pr lowmem lg t nLx nLz Ngg w0 = Ok (s, w) ->
  In CtoC_VtoV (constructor_plans s lowmem true) /\
  exists a, In (a, a) (snd (plan_access CtoC_VtoV s)) /\ ~ holds w a (plan_bytes C2C s).
Proof.
  intros M Ht Hx Hz E. assert (Ht' : angle_kind t) by (unfold angle_kind; tauto).
  destruct (construct_angle _ _ _ _ _ _ _ _ _ _ _ _ Ht' E) as (bm & bs & b2 & k & bz & br & Hs & Hk & Hk2 & Ex).
  assert (A : forallb is_alloc ([OAlign (Some bm) (nLx * nLx * (nLz + 2 * Ngg) * pr + nLx * nLx * (nLz + 2) * pr);
            OTrack (Some bs) (nLx * nLx * nLz)] ++ m2_ops b2 k ++ [OAlign (Some bz) mAl; OAlign (Some br) mAl]) = true) by (destruct b2; reflexivity).
  pose proof (allocs_size _ _ _ bm _ A Ex ltac:(left; reflexivity)) as Sz.
  split.
  - unfold constructor_plans. replace (fType s) with t by (subst s; reflexivity). destruct Ht; subst t; cbn; tauto.
  - exists (pv s). split; [left; reflexivity|]. intros (p & o & z & Ep & Eb & Hle). subst s. cbn in Ep. injection Ep as <- <-.
    rewrite Sz in Eb. injection Eb as <-. cbn [plan_bytes n3 prec fresh_scalar] in Hle.
    assert (nLx * nLx * (nLz + 2) * pr < nLx * nLx * nLz * (2 * pr)); [|lia].
    replace (nLx * nLx * nLz * (2 * pr)) with (nLx * nLx * (2 * nLz) * pr) by ring.
    apply Nat.mul_lt_mono_pos_r; [destruct M as [_ [-> | ->]]; lia|].
    apply Nat.mul_lt_mono_pos_l; [apply Nat.mul_pos_pos; auto|lia].
Qed.
Print Assumptions spectral_angle_plan_refuted.

(** Nor for complex fields in low-memory mode: the plan for spectra, always made, is made
    for a buffer that does not exist. *)
Theorem lowmem_plan_refuted pick mAl pr lg nLx nLz Ngg w0 s w :
  construct pick mAl pr true lg SAXION nLx nLz Ngg w0 = Ok (s, w) ->
  In PSPEC_AX (constructor_plans s true false) /\ plan_access PSPEC_AX s = (R2C, [(None, None); (None, None)]).
Proof.
  intros E. unfold construct in E. destruct (negb _); [discriminate|]. apply bind_ok in E as ([[[[m v] str] rvg] w1] & _ & E).
  cbn [m2_buffer bindo negb andb] in E.
  apply bind_ok in E as (w3 & _ & E). apply bind_ok in E as (w4 & _ & E). apply bind_ok in E as ([z w5] & _ & E). apply bind_ok in E as ([R w6] & _ & E).
  injection E as <- _. cbn. auto.
Qed.
Print Assumptions lowmem_plan_refuted.

(** Nor if there are more slices than ghost slices times rows: the in-place transform of
    the field of an angle type overwrites the velocity. *)
Theorem tall_slab_plan_refuted pick mAl pr lg lowmem t nLx nLz Ngg w0 s w : machine mAl pr ->
  t = AXION \/ t = AXION_MOD -> 0 < nLx -> Ngg * nLx < nLz ->
  construct pick mAl pr lowmem lg t nLx nLz Ngg w0 = Ok (s, w) ->
  ~ apart (pm s) (plan_bytes R2C s) (pv s) (n3 s * fSize s).
Proof.
  intros M Ht Hx Hz E. assert (Ht' : angle_kind t) by (unfold angle_kind; tauto).
  destruct (construct_angle _ _ _ _ _ _ _ _ _ _ _ _ Ht' E) as (bm & bs & b2 & k & bz & br & -> & _).
  assert (Hd : pr * nData t = pr) by (destruct Ht; subst; cbn; lia).
  cbn [apart pm pv n3 fSize fresh_scalar plan_bytes n1 Lz prec]. rewrite Hd.
  assert (0 < nLx * nLx * nLz * pr) by (repeat apply Nat.mul_pos_pos; try lia; destruct M as [_ [-> | ->]]; lia).
  assert (nLx * nLx * (nLz + 2 * Ngg) * pr < nLx * (nLx + 2) * nLz * pr); [|intros [Q|[Q|Q]]; [congruence|lia|lia]].
  apply Nat.mul_lt_mono_pos_r; [destruct M as [_ [-> | ->]]; lia|].
  replace (nLx * (nLx + 2) * nLz) with (nLx * nLx * nLz + nLx * 2 * nLz) by ring.
  replace (nLx * nLx * (nLz + 2 * Ngg)) with (nLx * nLx * nLz + nLx * 2 * (Ngg * nLx)) by ring.
  apply Nat.add_lt_mono_l, Nat.mul_lt_mono_pos_l; lia.
Qed.
Print Assumptions tall_slab_plan_refuted.

(** Fields that meet the hypotheses. *)
Example plans_ex :
  (exists s w, construct sys 16 8 false false SAXION 4 3 1 start = Ok (s, w)) /\
  (exists s w, construct sys 32 4 false false AXION 8 3 2 start = Ok (s, w)).
Proof.
  split.
  - destruct (construct sys 16 8 false false SAXION 4 3 1 start) as [[s w]| |] eqn:E; [eauto| |]; vm_compute in E; discriminate.
  - destruct (construct sys 32 4 false false AXION 8 3 2 start) as [[s w]| |] eqn:E; [eauto| |]; vm_compute in E; discriminate.
Qed.
