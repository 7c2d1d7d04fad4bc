(** Winding of the phase around a plaquette. *)
From Coq Require Import List Arith ZArith QArith Qreals Lqa Reals Lia Lra.
From Verif Require Import Base StrModel StrSpec StrProofs.
Local Open Scope R_scope.
Ltac Zify.zify_post_hook ::= idtac.

Lemma Q2R_0 : Q2R 0 = 0.
Proof. unfold Q2R; cbn. lra. Qed.
Lemma Qltb_0_R : forall q, Qltb 0 q = true <-> 0 < Q2R q.
Proof.
  intros q. rewrite Qltb_iff. split; intros H.
  - apply Qlt_Rlt in H. now rewrite Q2R_0 in H.
  - apply Rlt_Qlt. now rewrite Q2R_0.
Qed.

Lemma sin_turns : forall k t, sin (t + 2 * IZR k * PI) = sin t.
Proof.
  intros k t. destruct (Z_le_gt_dec 0 k) as [H | H].
  - rewrite <- (Z2Nat.id k H). rewrite <- INR_IZR_INZ. apply sin_period.
  - set (n := Z.to_nat (- k)). assert (E : IZR k = - INR n).
    { unfold n. rewrite INR_IZR_INZ, Z2Nat.id by lia. rewrite opp_IZR. lra. }
    rewrite E. rewrite <- (sin_period (t + 2 * - INR n * PI) n). f_equal. ring.
Qed.

(** The half plane of a phase, counted along the phase: 2k for the open upper half planes,
    2k+1 for the closed lower ones. *)
Definition level (t : R) (n : Z) : Prop :=
  exists k : Z, (n = 2 * k)%Z /\ 2 * IZR k * PI < t < (2 * IZR k + 1) * PI \/
                (n = 2 * k + 1)%Z /\ (2 * IZR k + 1) * PI <= t <= (2 * IZR k + 2) * PI.

Lemma level_exists : forall t, exists n, level t n.
Proof.
  intros t. assert (HP := PI_RGT_0).
  destruct (archimed (t / (2 * PI))) as [A1 A2]. set (u := up (t / (2 * PI))) in *.
  set (k := (u - 1)%Z).
  assert (Ek : IZR k = IZR u - 1) by (unfold k; rewrite minus_IZR; reflexivity).
  assert (E : t / (2 * PI) * (2 * PI) = t) by (field; lra).
  assert (B1 : 2 * IZR k * PI <= t) by nra.
  assert (B2 : t < (2 * IZR k + 2) * PI) by nra.
  destruct (Rle_lt_dec ((2 * IZR k + 1) * PI) t) as [C | C].
  - exists (2 * k + 1)%Z. exists k. right. split; [ reflexivity | lra ].
  - destruct (Rle_lt_or_eq_dec _ _ B1) as [D | D].
    + exists (2 * k)%Z. exists k. left. split; [ reflexivity | lra ].
    + exists (2 * (k - 1) + 1)%Z. exists (k - 1)%Z. right. split; [ reflexivity | ]. rewrite minus_IZR. nra.
Qed.
Lemma level_bounds : forall t n, level t n -> IZR n * PI <= t <= (IZR n + 1) * PI.
Proof.
  intros t n (k & [[-> H] | [-> H]]); rewrite ?plus_IZR, ?mult_IZR; lra.
Qed.
Lemma level_even : forall t n, level t n -> Z.even n = true -> IZR n * PI < t < (IZR n + 1) * PI.
Proof.
  intros t n (k & [[-> H] | [-> H]]) E.
  - rewrite mult_IZR. lra.
  - exfalso. rewrite Z.even_add, Z.even_mul in E. cbn in E. discriminate.
Qed.
Lemma level_sin : forall t n, level t n -> (0 < sin t <-> Z.even n = true).
Proof.
  intros t n (k & [[-> H] | [-> H]]).
  - rewrite Z.even_mul. cbn [Z.even orb]. split; [ reflexivity | intros _ ].
    replace t with ((t - 2 * IZR k * PI) + 2 * IZR k * PI) by ring. rewrite sin_turns. apply sin_gt_0; lra.
  - rewrite Z.even_add, Z.even_mul. cbn [Z.even orb Bool.eqb]. split; [ intros C | discriminate ].
    exfalso. replace t with ((t - 2 * IZR k * PI) + 2 * IZR k * PI) in C by ring. rewrite sin_turns in C.
    assert (sin (t - 2 * IZR k * PI) <= 0) by (apply sin_le_0; lra). lra.
Qed.
Lemma level_shift : forall t n w, level t n -> level (t + 2 * PI * IZR w) (n + 2 * w).
Proof.
  intros t n w (k & [[-> H] | [-> H]]); exists (k + w)%Z; rewrite plus_IZR.
  - left. split; [ lia | ]. nra.
  - right. split; [ lia | ]. nra.
Qed.
Lemma level_unique : forall t n n', level t n -> level t n' -> n = n'.
Proof.
  intros t n n' H H'. assert (HP := PI_RGT_0).
  assert (E : Z.even n = Z.even n').
  { apply Bool.eq_iff_eq_true. rewrite <- (level_sin t n H). apply level_sin. assumption. }
  assert (B := level_bounds t n H). assert (B' := level_bounds t n' H').
  assert (C : IZR n <= IZR n' + 1) by nra. assert (C' : IZR n' <= IZR n + 1) by nra.
  rewrite <- plus_IZR in C, C'. apply le_IZR in C, C'.
  assert (D : (n = n' \/ n = n' + 1 \/ n' = n + 1)%Z) by lia.
  destruct D as [-> | [-> | ->]]; [ reflexivity | | ]; exfalso; rewrite Z.even_add in E; cbn in E;
  destruct (Z.even n') || destruct (Z.even n); discriminate.
Qed.

(** the count of one edge in the scalar finder *)
Definition edge (a b : cplx) : Z :=
  if Bool.eqb (Qltb 0 (im a)) (Qltb 0 (im b)) then 0%Z
  else if Qltb 0 (im a * re b - re a * im b) then 1%Z else (-1)%Z.
Lemma stringHand_edges : forall a b c d, stringHand a b c d = (edge a b + edge b c + edge c d + edge d a)%Z.
Proof. reflexivity. Qed.

Lemma phase_up : forall a t n, hasPhase a t -> level t n -> Qltb 0 (im a) = Z.even n.
Proof.
  intros a t n (r & Hr & _ & Hi) H. apply Bool.eq_iff_eq_true. rewrite Qltb_0_R, Hi, <- (level_sin t n H).
  split; intros C; nra.
Qed.
Lemma edge_level : forall a b t s n n', hasPhase a t -> hasPhase b s -> Rabs (s - t) < PI ->
  level t n -> level s n' -> edge a b = (n - n')%Z.
Proof.
  intros a b t s n n' Ha Hb Hd Ht Hs. assert (HP := PI_RGT_0).
  unfold edge. rewrite (phase_up a t n Ha Ht), (phase_up b s n' Hb Hs).
  apply Rabs_def2 in Hd.
  assert (B := level_bounds t n Ht). assert (B' := level_bounds s n' Hs).
  assert (D : (n' = n \/ n' = n + 1 \/ n' = n - 1)%Z).
  { assert (C : IZR n < IZR n' + 2) by nra. assert (C' : IZR n' < IZR n + 2) by nra.
    rewrite <- plus_IZR in C, C'. apply lt_IZR in C, C'. lia. }
  assert (Cr : Qltb 0 (im a * re b - re a * im b) = true <-> 0 < sin (t - s)).
  { rewrite Qltb_0_R, Q2R_minus, !Q2R_mult.
    destruct Ha as (ra & Hra & -> & ->). destruct Hb as (rb & Hrb & -> & ->).
    rewrite sin_minus. replace (ra * sin t * (rb * cos s) - ra * cos t * (rb * sin s)) with (ra * rb * (sin t * cos s - cos t * sin s)) by ring.
    assert (0 < ra * rb) by nra. split; intros C; nra. }
  destruct D as [-> | [-> | ->]].
  - rewrite Bool.eqb_reflx. lia.
  - assert (E : Bool.eqb (Z.even n) (Z.even (n + 1)) = false) by (rewrite Z.even_add; destruct (Z.even n); reflexivity).
    rewrite E.
    assert (Lt : t < s).
    { rewrite plus_IZR in B'. destruct (Z.even n) eqn:En.
      - pose proof (level_even t n Ht En). lra.
      - assert (En' : Z.even (n + 1) = true) by (rewrite Z.even_add, En; reflexivity).
        pose proof (level_even s (n + 1) Hs En') as X. rewrite plus_IZR in X. lra. }
    assert (Sn : sin (t - s) < 0) by (apply sin_lt_0_var; lra).
    destruct (Qltb 0 (im a * re b - re a * im b)); [ exfalso; assert (0 < sin (t - s)) by (now apply Cr); lra | lia ].
  - assert (E : Bool.eqb (Z.even n) (Z.even (n - 1)) = false) by (rewrite Z.even_sub; destruct (Z.even n); reflexivity).
    rewrite E.
    assert (Lt : s < t).
    { rewrite minus_IZR in B'. destruct (Z.even n) eqn:En.
      - pose proof (level_even t n Ht En). lra.
      - assert (En' : Z.even (n - 1) = true) by (rewrite Z.even_sub, En; reflexivity).
        pose proof (level_even s (n - 1) Hs En') as X. rewrite minus_IZR in X. lra. }
    assert (Sn : 0 < sin (t - s)) by (apply sin_gt_0; lra).
    apply Cr in Sn. rewrite Sn. lia.
Qed.

(** The scalar count is minus twice the winding number. *)
Lemma hand_winds : forall a b c d w, winds a b c d w -> stringHand a b c d = (- 2 * w)%Z.
Proof.
  intros a b c d w (t0 & t1 & t2 & t3 & t4 & P0 & P1 & P2 & P3 & P4 & (D1 & D2 & D3 & D4) & E).
  destruct (level_exists t0) as [n0 L0]. destruct (level_exists t1) as [n1 L1].
  destruct (level_exists t2) as [n2 L2]. destruct (level_exists t3) as [n3 L3].
  assert (L4 : level t4 (n0 + 2 * w)) by (rewrite E; now apply level_shift).
  rewrite stringHand_edges.
  rewrite (edge_level a b t0 t1 n0 n1), (edge_level b c t1 t2 n1 n2), (edge_level c d t2 t3 n2 n3), (edge_level d a t3 t4 n3 (n0 + 2 * w)) by assumption.
  lia.
Qed.

(** Without values on the real axis the vector finder counts the same. *)
Lemma turn_edge : forall a b, ~ (im a == 0)%Q -> ~ (im b == 0)%Q -> turn a b = edge a b.
Proof.
  intros a b Ha Hb. unfold turn, edge.
  destruct (Qltb 0 (im a)) eqn:Ea; [ apply Qltb_iff in Ea | apply Qltb_false in Ea ];
  (destruct (Qltb 0 (im b)) eqn:Eb; [ apply Qltb_iff in Eb | apply Qltb_false in Eb ]); cbn [Bool.eqb];
  destruct (Qltb (im a * im b) 0) eqn:Em; try reflexivity;
  try apply Qltb_iff in Em; try apply Qltb_false in Em; exfalso.
  - Lqa.nra.
  - assert (im b < 0)%Q by (destruct (Qle_lt_or_eq _ _ Eb); [ assumption | contradiction ]). Lqa.nra.
  - assert (im a < 0)%Q by (destruct (Qle_lt_or_eq _ _ Ea); [ assumption | contradiction ]). Lqa.nra.
  - Lqa.nra.
Qed.

(** ** Phases exist *)
Lemma phase_exists : forall x y, (x <> 0 \/ y <> 0) -> exists r t, 0 < r /\ x = r * cos t /\ y = r * sin t.
Proof.
  intros x y H. set (r := sqrt (x * x + y * y)).
  assert (Hp : 0 < x * x + y * y) by (destruct H; nra).
  assert (Hr : 0 < r) by (apply sqrt_lt_R0; exact Hp).
  assert (Hrr : r * r = x * x + y * y) by (apply sqrt_sqrt; lra).
  assert (Hx : -1 <= x / r <= 1).
  { assert (E : x / r * r = x) by (field; lra). split; [ | ].
    - destruct (Rle_lt_dec (-1) (x / r)) as [? | C]; [ assumption | exfalso ]. assert (x < - r) by nra. nra.
    - destruct (Rle_lt_dec (x / r) 1) as [? | C]; [ assumption | exfalso ]. assert (r < x) by nra. nra. }
  assert (Hs : (sin (acos (x / r)) * r) * (sin (acos (x / r)) * r) = y * y).
  { assert (S2 := sin2_cos2 (acos (x / r))). rewrite (cos_acos _ Hx) in S2. unfold Rsqr in S2.
    assert (E : x / r * r = x) by (field; lra).
    replace (sin (acos (x / r)) * r * (sin (acos (x / r)) * r)) with ((1 - x / r * (x / r)) * (r * r)) by (rewrite <- S2; ring).
    replace ((1 - x / r * (x / r)) * (r * r)) with (r * r - (x / r * r) * (x / r * r)) by ring.
    rewrite E, Hrr. ring. }
  assert (Hsp : 0 <= sin (acos (x / r)) * r).
  { assert (A := acos_bound (x / r)). assert (0 <= sin (acos (x / r))) by (apply sin_ge_0; lra). nra. }
  destruct (Rle_lt_dec 0 y) as [Hy | Hy].
  - exists r, (acos (x / r)). split; [ exact Hr | ]. split; [ rewrite cos_acos by assumption; field; lra | nra ].
  - exists r, (- acos (x / r)). split; [ exact Hr | ]. rewrite cos_neg, sin_neg.
    split; [ rewrite cos_acos by assumption; field; lra | nra ].
Qed.
Lemma hasPhase_exists : forall a, ~ (im a == 0)%Q -> exists t, hasPhase a t.
Proof.
  intros a H. destruct (phase_exists (Q2R (re a)) (Q2R (im a))) as (r & t & Hr & Hx & Hy).
  - right. intros C. apply H. apply eqR_Qeq. now rewrite C, Q2R_0.
  - exists t, r. auto.
Qed.
Lemma cos_turns : forall k t, cos (t + 2 * IZR k * PI) = cos t.
Proof.
  intros k t. rewrite !cos_sin. replace (PI / 2 + (t + 2 * IZR k * PI)) with ((PI / 2 + t) + 2 * IZR k * PI) by ring.
  apply sin_turns.
Qed.
Lemma hasPhase_turns : forall a t k, hasPhase a t -> hasPhase a (t + 2 * IZR k * PI).
Proof. intros a t k (r & Hr & Hx & Hy). exists r. rewrite cos_turns, sin_turns. auto. Qed.
(** A phase of b within half a turn of t. *)
Lemma next_phase : forall a b t, genericEdge a b -> hasPhase a t -> exists s, hasPhase b s /\ Rabs (s - t) < PI.
Proof.
  intros a b t (Ha & Hb & Hg) Ht. assert (HP := PI_RGT_0).
  destruct (hasPhase_exists b Hb) as [s0 Hs0].
  set (v := (t - s0 + PI) / (2 * PI)).
  destruct (archimed v) as [A1 A2]. set (k := (up v - 1)%Z).
  assert (Ek : IZR k = IZR (up v) - 1) by (unfold k; rewrite minus_IZR; reflexivity).
  assert (Ev : v * (2 * PI) = t - s0 + PI) by (unfold v; field; lra).
  set (s := s0 + 2 * IZR k * PI).
  assert (Hs : hasPhase b s) by now apply hasPhase_turns.
  assert (B : - PI <= t - s /\ t - s < PI \/ True) by tauto. clear B.
  assert (B1 : s - t <= PI) by (unfold s; nra).
  assert (B2 : - PI < s - t) by (unfold s; nra).
  exists s. split; [ exact Hs | ]. apply Rabs_def1; [ | lra ].
  destruct (Rle_lt_or_eq_dec _ _ B1) as [C | C]; [ exact C | exfalso ].
  apply Hg. destruct Ht as (ra & Hra & Ax & Ay). destruct Hs as (rb & Hrb & Bx & By).
  assert (Es : s = t + PI) by lra. rewrite Es, neg_cos in Bx. rewrite Es, neg_sin in By.
  assert (Si : sin t <> 0).
  { intros C0. apply Ha. apply eqR_Qeq. rewrite Ay, C0, Q2R_0. ring. }
  split.
  - apply eqR_Qeq. rewrite Q2R_minus, !Q2R_mult, Ax, Ay, Bx, By, Q2R_0. ring.
  - apply Rlt_Qlt. rewrite Q2R_mult, Ay, By, Q2R_0.
    assert (0 < sin t * sin t) by nra. assert (0 < ra * rb) by nra.
    replace (ra * sin t * (rb * - sin t)) with (- ((ra * rb) * (sin t * sin t))) by ring. nra.
Qed.

Lemma phases_differ : forall a t s, hasPhase a t -> hasPhase a s -> exists w, s = t + 2 * PI * IZR w.
Proof.
  intros a t s (r & Hr & Ax & Ay) (r' & Hr' & Bx & By). assert (HP := PI_RGT_0).
  assert (Er : r = r').
  { assert (S1 := sin2_cos2 t). assert (S2 := sin2_cos2 s). unfold Rsqr in S1, S2.
    assert (r * r = r' * r').
    { replace (r * r) with (r * r * (sin t * sin t + cos t * cos t)) by (rewrite S1; ring).
      replace (r' * r') with (r' * r' * (sin s * sin s + cos s * cos s)) by (rewrite S2; ring).
      replace (r * r * (sin t * sin t + cos t * cos t)) with ((r * sin t) * (r * sin t) + (r * cos t) * (r * cos t)) by ring.
      replace (r' * r' * (sin s * sin s + cos s * cos s)) with ((r' * sin s) * (r' * sin s) + (r' * cos s) * (r' * cos s)) by ring.
      rewrite <- Ax, <- Ay, <- Bx, <- By. reflexivity. }
    nra. }
  subst r'.
  assert (Ec : cos t = cos s) by nra. assert (Es : sin t = sin s) by nra.
  (* reduce to one turn *)
  set (v := (s - t) / (2 * PI)). destruct (archimed v) as [A1 A2]. set (k := (up v - 1)%Z).
  assert (Ek : IZR k = IZR (up v) - 1) by (unfold k; rewrite minus_IZR; reflexivity).
  assert (Ev : v * (2 * PI) = s - t) by (unfold v; field; lra).
  set (d := s - t - 2 * IZR k * PI).
  assert (D1 : 0 <= d < 2 * PI) by (unfold d; split; nra).
  assert (Cd : cos d = 1).
  { unfold d. replace (s - t - 2 * IZR k * PI) with ((s - t) + 2 * IZR (- k) * PI) by (rewrite opp_IZR; ring).
    rewrite cos_turns, cos_minus, <- Ec, <- Es. assert (S1 := sin2_cos2 t). unfold Rsqr in S1. lra. }
  exists k.
  destruct (Rle_lt_or_eq_dec _ _ (proj1 D1)) as [C | C].
  - exfalso. destruct (Rle_lt_dec d PI) as [C' | C'].
    + assert (cos d < cos 0) by (apply cos_decreasing_1; lra). rewrite cos_0 in *. lra.
    + assert (cos (2 * PI - d) < cos 0) by (apply cos_decreasing_1; lra).
      replace (2 * PI - d) with (- d + 2 * PI) in H by ring. rewrite cos_2PI_shift in H || (replace (- d + 2 * PI) with (- d + 2 * IZR 1 * PI) in H by (simpl; ring); rewrite cos_turns, cos_neg, cos_0 in H; lra).
  - unfold d in C. lra.
Qed.
Lemma winds_exists : forall a b c d, genericEdge a b -> genericEdge b c -> genericEdge c d -> genericEdge d a ->
  exists w, winds a b c d w.
Proof.
  intros a b c d G1 G2 G3 G4.
  destruct (hasPhase_exists a (proj1 G1)) as [t0 P0].
  destruct (next_phase a b t0 G1 P0) as (t1 & P1 & D1).
  destruct (next_phase b c t1 G2 P1) as (t2 & P2 & D2).
  destruct (next_phase c d t2 G3 P2) as (t3 & P3 & D3).
  destruct (next_phase d a t3 G4 P3) as (t4 & P4 & D4).
  destruct (phases_differ a t0 t4 P0 P4) as [w E].
  exists w, t0, t1, t2, t3, t4. auto 10.
Qed.
Lemma winds_small : forall a b c d w, winds a b c d w -> (-1 <= w <= 1)%Z.
Proof.
  intros a b c d w (t0 & t1 & t2 & t3 & t4 & _ & _ & _ & _ & _ & (D1 & D2 & D3 & D4) & E).
  assert (HP := PI_RGT_0). apply Rabs_def2 in D1, D2, D3, D4.
  assert (A : IZR w < 2) by nra. assert (B : -2 < IZR w) by nra.
  apply lt_IZR in A, B. lia.
Qed.
