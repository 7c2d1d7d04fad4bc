(** Claims C16, C46, C47 and C49. *)
From Coq Require Import List Arith ZArith NArith Bool Lia.
From Verif Require Import AllocModel AllocProperties FieldModel FieldProofs.
Import ListNotations.

(** ** Specification *)
(** The machines the code is compiled for: register width and precision, in bytes. *)
Definition machine (mAl pr : nat) : Prop := (mAl = 16 \/ mAl = 32 \/ mAl = 64) /\ (pr = 4 \/ pr = 8).
(** Numbers per site. *)
Definition components (t : ftype) : nat := match t with SAXION | SX_RD | NAXION => 2 | _ => 1 end.
(** n bytes from the address lie in a block in use. *)
Definition holds (w : world) (a : option addr) (n : nat) : Prop :=
  exists p o s, a = Some (p, o) /\ block_size w p = Some s /\ o + n <= s.
Definition apart (a : option addr) (na : nat) (b : option addr) (nb : nat) : Prop :=
  match a, b with
  | Some (p, o), Some (q, u) => p <> q \/ o + na <= u \/ u + nb <= o
  | _, _ => True
  end.
(** Bytes of the velocity buffer a type uses: two slices more than the field, or with
    ghosts as the field itself for PAXION. *)
Definition v_bytes (s : scalar) : nat :=
  match fType s with PAXION => v3 s * fSize s | _ => n2 s * (Lz s + 2) * fSize s end.
(** The recorded sizes agree with the type, and the buffers are there. *)
Definition sound (w : world) (s : scalar) : Prop :=
  fSize s = prec s * components (fType s) /\ shift s * fSize s = mAlign s /\
  n2 s = n1 s * n1 s /\ n3 s = n2 s * Lz s /\ v3 s = n2 s * (Lz s + 2 * Ng s) /\
  holds w (pm s) (v3 s * fSize s) /\ holds w (pv s) (v_bytes s) /\ apart (pm s) (v3 s * fSize s) (pv s) (v_bytes s) /\
  (pm2 s = None \/ holds w (pm2 s) (v3 s * fSize s) /\ apart (pm2 s) (v3 s * fSize s) (pm s) (v3 s * fSize s) /\
                   apart (pm2 s) (v3 s * fSize s) (pv s) (v_bytes s)) /\
  holds w (pstr s) (n3 s).

(** What a request is meant to do: angle fields can become complex, Naxion or Paxion
    fields, complex ones angle fields; anything else is refused and changes nothing. *)
Definition angle (t : ftype) : bool := match t with AXION | AXION_MOD | AX_RD | AX_MOD_RD => true | _ => false end.
Definition next (cur req : ftype) : ftype :=
  match req with
  | AXION | AXION_MOD => match cur with SAXION | SX_RD | NAXION => req | _ => cur end
  | SAXION | NAXION | PAXION => if angle cur then req else cur
  | _ => cur
  end.
Fixpoint types (t : ftype) (es : list event) : ftype :=
  match es with
  | [] => t
  | ESet r :: es => types (next t r) es
  | EDims _ _ :: es => types t es
  end.
(** The requests for which the claim is proved. [complex]: created as a complex field;
    [ng], [lz]: ghost slices, and slices at creation. *)
Definition legal (complex : bool) (ng lz : nat) (cur req : ftype) : bool :=
  match cur with
  | WKB => true
  | _ => match req with
    | NAXION => angle cur && complex
    | AXION | AXION_MOD => match cur with PAXION | FAXION => false | _ => true end
    | SAXION => negb (angle cur) || complex
    | PAXION => negb (angle cur) || (if complex then 2 * ng <=? lz + 4 else ng <=? 1)
    | _ => true
    end
  end.
Fixpoint legal_history (complex : bool) (ng lz : nat) (t : ftype) (es : list event) : Prop :=
  match es with
  | [] => True
  | ESet r :: es => legal complex ng lz t r = true /\ legal_history complex ng lz (next t r) es
  | EDims _ _ :: es => legal_history complex ng lz t es
  end.
Definition is_complex (t : ftype) : bool := match t with SAXION | SX_RD => true | _ => false end.

(** ** Proofs *)
Definition sizes (s : scalar) : Prop := fSize s = prec s * components (fType s) /\ shift s * fSize s = mAlign s.
(** The types a field can have, by how it was created. *)
Definition reach (complex : bool) (ng lz : nat) (t : ftype) : bool :=
  if complex then match t with SAXION | SX_RD | AXION | AXION_MOD | NAXION => true | PAXION => 2 * ng <=? lz + 4 | _ => false end
  else match t with AXION | AXION_MOD | AX_RD | AX_MOD_RD | WKB => true | PAXION => ng <=? 1 | _ => false end.

Lemma set_step complex ng lz s r : machine (mAlign s) (prec s) -> sizes s -> reach complex ng lz (fType s) = true ->
  legal complex ng lz (fType s) r = true ->
  sizes (setField s r) /\ fType (setField s r) = next (fType s) r /\ reach complex ng lz (next (fType s) r) = true.
Proof.
  intros M (S1 & S2) Hr Hl. unfold sizes.
  destruct s as [t pr mAl fs sh n1 n2 n3 Lz Ng v3 a1 a2 a3 a4 a5 a6 a7 a8 a9]. cbn [fType prec mAlign fSize shift] in *. subst fs.
  assert (sh = mAl / (pr * components t)) as ->.
  { destruct M as [[-> | [-> | ->]] [-> | ->]]; destruct t; cbn in *; lia. }
  destruct complex; destruct t; cbn in Hr; try discriminate; destruct r; cbn in Hl; try discriminate; cbn;
    (split; [split; [try lia|]|split; [try reflexivity|try reflexivity; try exact Hr; try exact Hl]]);
    try exact S2; destruct M as [[-> | [-> | ->]] [-> | ->]]; reflexivity.
Qed.

Lemma history complex ng lz es : forall s, machine (mAlign s) (prec s) -> sizes s -> reach complex ng lz (fType s) = true ->
  legal_history complex ng lz (fType s) es ->
  sizes (applies es s) /\ fType (applies es s) = types (fType s) es /\ reach complex ng lz (types (fType s) es) = true.
Proof.
  induction es as [|e es IH]; intros s M S Hr Hl; [cbn; auto|].
  destruct e as [r|nx nz]; cbn [types legal_history] in *.
  - destruct Hl as [Hl1 Hl2]. destruct (set_step _ _ _ _ _ M S Hr Hl1) as (S' & T' & R'). rewrite <- T' in *.
    change (applies (ESet r :: es) s) with (applies es (setField s r)). apply IH; auto.
    pose proof (apply_ptrs (ESet r) s) as (_&_&_&_&_&_&P1&P2&_). cbn in P1, P2. rewrite P1, P2. exact M.
  - change (applies (EDims nx nz :: es) s) with (applies es (setDims s nx nz)).
    assert (T : fType (setDims s nx nz) = fType s) by (unfold setDims; destruct (_ && _); reflexivity).
    rewrite <- T. apply IH; rewrite ?T; auto.
    + pose proof (apply_ptrs (EDims nx nz) s) as (_&_&_&_&_&_&P1&P2&_). cbn in P1, P2. rewrite P1, P2. exact M.
    + unfold sizes, setDims in *. destruct (_ && _); exact S.
Qed.

Lemma complex_components t : is_complex t = true -> nData t = 2 /\ components t = 2.
Proof. destruct t; try discriminate; auto. Qed.

Lemma dims_mono s s0 : dims_ok s -> dims_ok s0 -> n1 s <= n1 s0 -> Lz s <= Lz s0 -> n2 s <= n2 s0 /\ n3 s <= n3 s0.
Proof.
  intros (A1 & A2 & _) (B1 & B2 & _) L1 L2. assert (n2 s <= n2 s0) by (rewrite A1, B1; apply Nat.mul_le_mono; auto).
  split; [auto|]. rewrite A2, B2. apply Nat.mul_le_mono; auto.
Qed.

Lemma in_ops_m2 b2 k x ops1 ops2 : In x (blocks ops1) \/ In x (blocks (m2_ops b2 k)) \/ In x (blocks ops2) -> In x (blocks (ops1 ++ m2_ops b2 k ++ ops2)).
Proof.
  assert (B : forall a b, blocks (a ++ b) = blocks a ++ blocks b).
  { induction a as [|o a IH]; intros b; [reflexivity|]. cbn [app]. rewrite blocks_cons, (blocks_cons o a), IH, app_assoc. reflexivity. }
  rewrite !B, !in_app_iff. tauto.
Qed.
Lemma blocks_app a : forall b, blocks (a ++ b) = blocks a ++ blocks b.
Proof. induction a as [|o a IH]; intros b; [reflexivity|]. cbn [app]. rewrite blocks_cons, (blocks_cons o a), IH, app_assoc. reflexivity. Qed.

(** The size of a region never grows beyond what was created. *)
Lemma region_le a A b B c C : a <= A -> b <= B -> c <= C -> a * b * c <= A * B * C.
Proof. intros. apply Nat.mul_le_mono; [apply Nat.mul_le_mono|]; auto. Qed.


Lemma sound_complex pick mAl pr lowmem lg t nLx nLz Ngg w0 s w es : machine mAl pr -> is_complex t = true ->
  construct pick mAl pr lowmem lg t nLx nLz Ngg w0 = Ok (s, w) ->
  legal_history true Ngg nLz t es ->
  sound w (applies es s) /\ fType (applies es s) = types t es.
Proof.
  intros M Ht E Hl.
  assert (CK : complex_kind t) by (unfold complex_kind; destruct t; try discriminate; auto).
  destruct (construct_complex _ _ _ _ _ _ _ _ _ _ _ _ CK E)
    as (bm & bv & bs & b2 & k & bz & br & Hs & Hk & Ex).
  assert (A : forallb is_alloc ([OAlign (Some bm) (nLx * nLx * (nLz + 2 * Ngg) * (pr * 2)); OAlign (Some bv) (nLx * nLx * (nLz + 2) * (pr * 2));
            OTrack (Some bs) (nLx * nLx * nLz)] ++ m2_ops b2 k ++ [OAlign (Some bz) mAl; OAlign (Some br) mAl]) = true) by (destruct b2; reflexivity).
  destruct (allocs _ _ _ A Ex) as (_ & N & _ & _).
  pose proof (fun p n => allocs_size _ _ _ p n A Ex) as Sz. clear Ex A.
  assert (Szm := Sz bm _ ltac:(left; reflexivity)). assert (Szv := Sz bv _ ltac:(right; left; reflexivity)).
  assert (Szs := Sz bs _ ltac:(right; right; left; reflexivity)).
  assert (Sz2 : forall p, b2 = Some p -> block_size w p = Some k).
  { intros p ->. apply Sz. right; right; right; left; reflexivity. }
  clear Sz.
  destruct (complex_components t Ht) as [Hn Hc].
  assert (Dok : dims_ok s) by (subst s; unfold dims_ok; cbn; auto).
  destruct (applies_dims es s Dok) as (D' & L1 & L2). pose proof (applies_ptrs es s) as (P1&P2&P3&P4&_&_&P7&P8&P9).
  destruct (dims_mono _ _ D' Dok L1 L2) as [L3 L4].
  destruct (history true Ngg nLz es s) as (S' & T' & R').
  { subst s. exact M. } { subst s. unfold sizes. cbn. rewrite Hn, Hc. split; [reflexivity|]. destruct M as [[-> | [-> | ->]] [-> | ->]]; reflexivity. }
  { subst s. cbn. destruct t; try discriminate; reflexivity. } { subst s. exact Hl. }
  assert (Tt : fType s = t) by (subst s; reflexivity). rewrite Tt in T', R'. split; [|exact T'].
  set (s' := applies es s) in *.
  assert (Hf : fSize s' <= pr * 2).
  { destruct S' as [-> _]. rewrite P7. replace (prec s) with pr by (subst s; reflexivity).
    apply Nat.mul_le_mono; [lia|]. rewrite T'. destruct (types t es); cbn; lia. }
  assert (N1 : n2 s = nLx * nLx) by (subst s; reflexivity). assert (N2 : Lz s = nLz) by (subst s; reflexivity).
  assert (N3 : Ng s = Ngg) by (subst s; reflexivity). assert (N4 : n3 s = nLx * nLx * nLz) by (subst s; reflexivity).
  destruct D' as (D1 & D2 & D3).
  assert (Hm : v3 s' * fSize s' <= nLx * nLx * (nLz + 2 * Ngg) * (pr * 2)).
  { rewrite D3. apply region_le; [lia| |exact Hf]. rewrite P9, N3. lia. }
  assert (Hv : v_bytes s' <= nLx * nLx * (nLz + 2) * (pr * 2)).
  { unfold v_bytes.
    assert (G : n2 s' * (Lz s' + 2) * fSize s' <= nLx * nLx * (nLz + 2) * (pr * 2)) by (apply region_le; [lia|lia|exact Hf]).
    destruct (fType s') eqn:FT; try exact G. clear G.
    assert (Hf1 : fSize s' = pr) by (destruct S' as [-> _]; rewrite FT, P7; subst s; cbn; lia). rewrite Hf1, D3.
    rewrite <- T' in R'. cbn in R'. apply Nat.leb_le in R'. rewrite P9, N3.
    assert (n2 s' * (Lz s' + 2 * Ngg) <= nLx * nLx * (2 * (nLz + 2))) by (apply Nat.mul_le_mono; lia).
    replace (nLx * nLx * (nLz + 2) * (pr * 2)) with (nLx * nLx * (2 * (nLz + 2)) * pr) by ring.
    apply Nat.mul_le_mono_r. exact H. }
  assert (Nmv : bm <> bv) by (cbn in N; apply NoDup_cons_iff in N as [Ha _]; cbn in Ha; intuition congruence).
  unfold sound. destruct S' as [S1 S2]. rewrite P1, P2, P3, P4, P8.
  replace (pm s) with (Some (bm, 0)) by (subst s; reflexivity). replace (pv s) with (Some (bv, 0)) by (subst s; reflexivity).
  replace (pm2 s) with (m2_addr b2) by (subst s; reflexivity). replace (pstr s) with (Some (bs, 0)) by (subst s; reflexivity).
  split; [exact S1|]. split; [rewrite S2; exact P8|]. split; [exact D1|]. split; [exact D2|]. split; [exact D3|].
  split; [exists bm, 0, (nLx * nLx * (nLz + 2 * Ngg) * (pr * 2)); auto|].
  split; [exists bv, 0, (nLx * nLx * (nLz + 2) * (pr * 2)); auto|].
  split; [left; exact Nmv|].
  split; [|exists bs, 0, (nLx * nLx * nLz); repeat split; auto; lia].
  destruct b2 as [p2|]; [right|left; reflexivity]. cbn [m2_addr option_map].
  assert (N2m : p2 <> bm /\ p2 <> bv).
  { cbn in N. apply NoDup_cons_iff in N as [Ha Hb]. apply NoDup_cons_iff in Hb as [Hb _]. cbn in Ha, Hb. intuition congruence. }
  split; [exists p2, 0, k; repeat split; auto; lia|]. split; left; tauto.
Qed.

Lemma sound_angle pick mAl pr lowmem lg t nLx nLz Ngg w0 s w es : machine mAl pr -> angle_kind t ->
  construct pick mAl pr lowmem lg t nLx nLz Ngg w0 = Ok (s, w) ->
  legal_history false Ngg nLz t es ->
  sound w (applies es s) /\ fType (applies es s) = types t es.
Proof.
  intros M Ht E Hl.
  destruct (construct_angle _ _ _ _ _ _ _ _ _ _ _ _ Ht E) as (bm & bs & b2 & k & bz & br & Hs & Hk & _ & Ex).
  assert (A : forallb is_alloc ([OAlign (Some bm) (nLx * nLx * (nLz + 2 * Ngg) * pr + nLx * nLx * (nLz + 2) * pr);
            OTrack (Some bs) (nLx * nLx * nLz)] ++ m2_ops b2 k ++ [OAlign (Some bz) mAl; OAlign (Some br) mAl]) = true) by (destruct b2; reflexivity).
  destruct (allocs _ _ _ A Ex) as (_ & N & _ & _).
  pose proof (fun p n => allocs_size _ _ _ p n A Ex) as Sz. clear Ex A.
  assert (Szm := Sz bm _ ltac:(left; reflexivity)).
  assert (Szs := Sz bs _ ltac:(right; left; reflexivity)).
  assert (Sz2 : forall p, b2 = Some p -> block_size w p = Some k).
  { intros p ->. apply Sz. right; right; left; reflexivity. }
  clear Sz.
  assert (Hc : pr * nData t = pr /\ components t = 1) by (destruct Ht as [|[|[|[|]]]]; subst; cbn; lia). destruct Hc as [Hn Hc].
  assert (Dok : dims_ok s) by (subst s; unfold dims_ok; cbn; auto).
  destruct (applies_dims es s Dok) as (D' & L1 & L2). pose proof (applies_ptrs es s) as (P1&P2&P3&P4&_&_&P7&P8&P9).
  destruct (dims_mono _ _ D' Dok L1 L2) as [L3 L4].
  assert (Tt : fType s = t) by (subst s; reflexivity).
  destruct (history false Ngg nLz es s) as (S' & T' & R').
  { subst s. exact M. } { subst s. unfold sizes, fresh_scalar. cbn [fSize prec fType shift mAlign]. rewrite Hn, Hc. split; [lia|]. destruct M as [[-> | [-> | ->]] [-> | ->]]; reflexivity. }
  { rewrite Tt. destruct Ht as [|[|[|[|]]]]; subst; reflexivity. } { rewrite Tt. exact Hl. }
  rewrite Tt in T', R'. split; [|exact T'].
  set (s' := applies es s) in *.
  assert (Hf : fSize s' = pr).
  { destruct S' as [-> _]. rewrite P7. replace (prec s) with pr by (subst s; reflexivity).
    rewrite T'. destruct (types t es); cbn in *; try discriminate; lia. }
  assert (N1 : n2 s = nLx * nLx) by (subst s; reflexivity). assert (N2 : Lz s = nLz) by (subst s; reflexivity).
  assert (N3 : Ng s = Ngg) by (subst s; reflexivity). assert (N4 : n3 s = nLx * nLx * nLz) by (subst s; reflexivity).
  destruct D' as (D1 & D2 & D3).
  assert (Hm : v3 s' * fSize s' <= nLx * nLx * (nLz + 2 * Ngg) * pr).
  { rewrite D3. apply region_le; [lia| |lia]. rewrite P9, N3. lia. }
  assert (Hv : v_bytes s' <= nLx * nLx * (nLz + 2) * pr).
  { unfold v_bytes.
    assert (G : n2 s' * (Lz s' + 2) * fSize s' <= nLx * nLx * (nLz + 2) * pr) by (apply region_le; lia).
    destruct (fType s') eqn:FT; try exact G. clear G. rewrite <- T' in R'. cbn [reach] in R'. apply Nat.leb_le in R'.
    rewrite D3, P9, N3. apply region_le; lia. }
  unfold sound. destruct S' as [S1 S2]. rewrite P1, P2, P3, P4, P8.
  replace (pm s) with (Some (bm, 0)) by (subst s; reflexivity).
  replace (pv s) with (Some (bm, nLx * nLx * (nLz + 2 * Ngg) * pr)) by (subst s; reflexivity).
  replace (pm2 s) with (m2_addr b2) by (subst s; reflexivity). replace (pstr s) with (Some (bs, 0)) by (subst s; reflexivity).
  split; [exact S1|]. split; [rewrite S2; exact P8|]. split; [exact D1|]. split; [exact D2|]. split; [exact D3|].
  split; [eexists bm, 0, _; split; [reflexivity|]; split; [exact Szm|]; lia|].
  split; [eexists bm, _, _; split; [reflexivity|]; split; [exact Szm|]; lia|].
  split; [right; left; lia|].
  split; [|exists bs, 0, (nLx * nLx * nLz); repeat split; auto; lia].
  destruct b2 as [p2|]; [right|left; reflexivity]. cbn [m2_addr option_map].
  assert (N2m : p2 <> bm). { cbn in N. apply NoDup_cons_iff in N as [Ha Hb]. cbn in Ha. intuition congruence. }
  split; [exists p2, 0, k; repeat split; auto; lia|]. split; left; tauto.
Qed.

(** C16, for the requests for which it is true: after every legal sequence of requests
    to change type or to shrink the grid, the type is the one requested, sizes agree
    with it, and every buffer is in use, large enough and separate.
    Missing: the requests that [legal] excludes, for which the claim is false (below). *)
Theorem type_changes_partial pick mAl pr lowmem lg t nLx nLz Ngg w0 s w es : machine mAl pr ->
  complex_kind t \/ angle_kind t ->
  construct pick mAl pr lowmem lg t nLx nLz Ngg w0 = Ok (s, w) ->
  legal_history (is_complex t) Ngg nLz t es ->
  sound w (applies es s) /\ fType (applies es s) = types t es.
Proof.
  intros M [Ht|Ht] E Hl.
  - assert (is_complex t = true) by (destruct Ht; subst; reflexivity). rewrite H in Hl. eapply sound_complex; eassumption.
  - assert (is_complex t = false) by (destruct Ht as [|[|[|[|]]]]; subst; reflexivity). rewrite H in Hl. eapply sound_angle; eassumption.
Qed.
Print Assumptions type_changes_partial.

(** C16 is false: on a consistent field that is not an angle field the request NAXION is
    reported as an error and yet changes the field, and a Paxion (or Faxion) field that is
    asked to become an angle field halves its element size. *)
Theorem refused_request_refuted w s r : machine (mAlign s) (prec s) -> sound w s ->
  (r = NAXION /\ (fType s = SAXION \/ fType s = SX_RD \/ fType s = NAXION \/ fType s = PAXION \/ fType s = FAXION)) \/
  ((r = AXION \/ r = AXION_MOD) /\ (fType s = PAXION \/ fType s = FAXION)) ->
  setField s r <> s /\ ~ sound w (setField s r).
Proof.
  intros M S H. destruct S as (S1 & S2 & _).
  destruct s as [t pr mAl fs sh n1 n2 n3 Lz Ng v3 a1 a2 a3 a4 a5 a6 a7 a8 a9]. cbn [fType prec mAlign fSize shift] in *.
  assert (G : forall x y : scalar, ~ (fSize x = fSize y /\ shift x = shift y) -> x <> y) by (intros x y Hn ->; apply Hn; auto).
  assert (Sh : sh = mAl / (pr * components t)).
  { subst fs. destruct M as [[-> | [-> | ->]] [-> | ->]]; destruct t; cbn in *; lia. }
  subst fs. rewrite Sh in *. clear Sh.
  destruct H as [[-> [-> | [-> | [-> | [-> | ->]]]]] | [[-> | ->] [-> | ->]]];
    (split; [apply G; cbn; intros [? ?]|unfold sound; cbn; intros (Q1 & Q2 & _)]);
    destruct M as [[-> | [-> | ->]] [-> | ->]]; cbn in *; lia.
Qed.
Print Assumptions refused_request_refuted.

(** A field created as an angle field cannot be made complex or Naxion, nor Paxion with
    more than one ghost slice: its buffers then overlap or are too small. *)
Theorem angle_created_refuted pick mAl pr lowmem lg t nLx nLz Ngg w0 s w r : machine mAl pr ->
  angle_kind t -> t <> WKB -> 0 < nLx -> 0 < nLz ->
  construct pick mAl pr lowmem lg t nLx nLz Ngg w0 = Ok (s, w) ->
  r = SAXION \/ r = NAXION \/ (r = PAXION /\ 1 < Ngg) ->
  fType (setField s r) = r /\ ~ sound w (setField s r).
Proof.
  intros M Ht Hw Hx Hz E Hr.
  destruct (construct_angle _ _ _ _ _ _ _ _ _ _ _ _ Ht E) as (bm & bs & b2 & k & bz & br & Hs & Hk & _ & Ex).
  assert (A : forallb is_alloc ([OAlign (Some bm) (nLx * nLx * (nLz + 2 * Ngg) * pr + nLx * nLx * (nLz + 2) * pr);
            OTrack (Some bs) (nLx * nLx * nLz)] ++ m2_ops b2 k ++ [OAlign (Some bz) mAl; OAlign (Some br) mAl]) = true) by (destruct b2; reflexivity).
  pose proof (allocs_size _ _ _ bm _ A Ex ltac:(left; reflexivity)) as Szm. clear A Ex.
  assert (Hpr : 0 < pr) by (destruct M as [_ [-> | ->]]; lia).
  assert (Hd : pr * nData t = pr) by (destruct Ht as [|[|[|[|]]]]; subst; cbn; lia).
  assert (Hax : has t AXION = true) by (destruct Ht as [|[|[|[|]]]]; subst; reflexivity).
  assert (Hw' : ftype_eqb t WKB = false) by (destruct Ht as [|[|[|[|]]]]; subst; try reflexivity; congruence).
  assert (V : 0 < nLx * nLx) by (apply Nat.mul_pos_pos; auto).
  subst s. unfold setField, fresh_scalar. cbn [fType fSize shift]. rewrite Hw', Hax, Hd.
  assert (Hpos : 0 < nLx * nLx * (nLz + 2 * Ngg) * pr) by (apply Nat.mul_pos_pos; [apply Nat.mul_pos_pos; lia|auto]).
  destruct Hr as [-> | [-> | [-> Hg]]]; (split; [reflexivity|]); unfold sound, v_bytes; cbn [upd fType fSize shift mAlign prec n1 n2 n3 Lz Ng v3 pm pv pm2 pstr negb];
    intros (Q1 & Q2 & _ & _ & _ & Q6 & Q7 & Q8 & _).
  - cbn [apart] in Q8. destruct Q8 as [Q8|[Q8|Q8]]; [congruence|lia|].
    destruct Q7 as (p & o & z & Ep & Eb & Hle). injection Ep as <- <-. rewrite Szm in Eb. injection Eb as <-.
    assert (0 < nLx * nLx * (nLz + 2) * pr) by (apply Nat.mul_pos_pos; [apply Nat.mul_pos_pos; lia|auto]). lia.
  - cbn [apart] in Q8. destruct Q8 as [Q8|[Q8|Q8]]; [congruence|lia|].
    assert (0 < nLx * nLx * (nLz + 2) * pr) by (apply Nat.mul_pos_pos; [apply Nat.mul_pos_pos; lia|auto]).
    destruct Q7 as (p & o & z & Ep & Eb & Hle). injection Ep as <- <-. rewrite Szm in Eb. injection Eb as <-. lia.
  - destruct Q7 as (p & o & z & Ep & Eb & Hle). injection Ep as <- <-. rewrite Szm in Eb. injection Eb as <-.
    assert (nLx * nLx * (nLz + 2) * pr < nLx * nLx * (nLz + 2 * Ngg) * pr); [|lia].
    apply Nat.mul_lt_mono_pos_r; [auto|]. apply Nat.mul_lt_mono_pos_l; [auto|]. lia.
Qed.
Print Assumptions angle_created_refuted.

(** ** Destruction *)
Lemma destroy_frees s w bm bv b2 bs bz br :
  pm s = Some (bm, 0) -> (has (fType s) SAXION = true -> pv s = Some (bv, 0)) -> pm2 s = m2_addr b2 ->
  pstr s = Some (bs, 0) -> pz s = Some (bz, 0) -> pR s = Some (br, 0) ->
  destroy s w = execs (frees ([bm] ++ (if has (fType s) SAXION then [bv] else []) ++ (match b2 with Some p => [p] | None => [] end) ++ [bs; bz; br])) w.
Proof.
  intros H1 H2 H3 H4 H5 H6. unfold destroy. rewrite H1, H3, H4, H5, H6.
  assert (T : forall (o : outcome world), bindo o (fun w => Ok w) = o) by (intros []; reflexivity).
  destruct (has (fType s) SAXION) eqn:Hh; [rewrite H2 by reflexivity|]; destruct b2 as [p2|];
    cbn [m2_addr option_map opt_free app frees map execs exec];
    repeat (match goal with |- bindo ?e _ = bindo ?e _ => destruct e; cbn [bindo]; try reflexivity end);
    rewrite ?T; reflexivity.
Qed.

Lemma types_reach t es complex ng lz : reach complex ng lz t = true -> legal_history complex ng lz t es -> reach complex ng lz (types t es) = true.
Proof.
  revert t. induction es as [|[r|nx nz] es IH]; intros t Hr Hl; cbn [types legal_history] in *; [exact Hr| |auto].
  destruct Hl as [H1 H2]. apply IH; [|exact H2].
  destruct complex; destruct t; cbn in Hr; try discriminate; destruct r; cbn in H1; try discriminate; cbn; auto.
Qed.

(** C46, where it is true: a field that at the end is again a complex field, having been
    created as one, or that was created as an angle field, is destroyed without error and
    its memory, and only its memory, is released: the blocks in use, the table and the
    totals are those before it was created.
    Missing: fields that end with another type; there the claim is false (below). *)
Theorem destroy_releases_partial pick mAl pr lowmem lg t nLx nLz Ngg os w0 s w es : machine mAl pr ->
  execs os start = Ok w0 ->
  construct pick mAl pr lowmem lg t nLx nLz Ngg w0 = Ok (s, w) ->
  legal_history (is_complex t) Ngg nLz t es ->
  (complex_kind t /\ complex_kind (types t es)) \/ angle_kind t ->
  exists w2, destroy (applies es s) w = Ok w2 /\ heap w2 = heap w0 /\ table w2 = table w0 /\
    trackAlignMem w2 = trackAlignMem w0 /\ trackAllocMem w2 = trackAllocMem w0.
Proof.
  intros M E0 E Hl [[Ht Ht']|Ht].
  - destruct (construct_complex _ _ _ _ _ _ _ _ _ _ _ _ Ht E) as (bm & bv & bs & b2 & k & bz & br & Hs & _ & Ex).
    assert (IC : is_complex t = true) by (destruct Ht; subst; reflexivity). rewrite IC in Hl.
    destruct (sound_complex _ _ _ _ _ _ _ _ _ _ _ _ _ M IC E Hl) as [_ T].
    pose proof (applies_ptrs es s) as (P1&P2&P3&P4&P5&P6&_).
    assert (Hh : has (fType (applies es s)) SAXION = true) by (rewrite T; destruct Ht' as [-> | ->]; reflexivity).
    rewrite (destroy_frees _ w bm bv b2 bs bz br); [|rewrite ?P1, ?P2, ?P3, ?P4, ?P5, ?P6; subst s; reflexivity ..].
    rewrite Hh. match type of Ex with execs ?o _ = _ => assert (A : forallb is_alloc o = true) by (destruct b2; reflexivity) end.
    pose proof (allocs _ _ _ A Ex) as (_ & N & _ & _). eapply restore; [exact E0|exact A|exact Ex| |].
    + destruct b2 as [p2|]; cbn in N |- *; repeat match goal with H : NoDup (_ :: _) |- _ => apply NoDup_cons_iff in H; destruct H end; cbn in *;
        repeat constructor; cbn; intuition congruence.
    + intros p. destruct b2 as [p2|]; cbn; tauto.
  - destruct (construct_angle _ _ _ _ _ _ _ _ _ _ _ _ Ht E) as (bm & bs & b2 & k & bz & br & Hs & _ & _ & Ex).
    assert (IC : is_complex t = false) by (destruct Ht as [|[|[|[|]]]]; subst; reflexivity). rewrite IC in Hl.
    destruct (sound_angle _ _ _ _ _ _ _ _ _ _ _ _ _ M Ht E Hl) as [_ T].
    pose proof (applies_ptrs es s) as (P1&P2&P3&P4&P5&P6&_).
    assert (Hh : has (fType (applies es s)) SAXION = false).
    { rewrite T. pose proof (types_reach t es false Ngg nLz ltac:(destruct Ht as [|[|[|[|]]]]; subst; reflexivity) Hl) as R.
      destruct (types t es); cbn in R; try discriminate; reflexivity. }
    rewrite (destroy_frees _ w bm bm b2 bs bz br); [|rewrite ?P1, ?P2, ?P3, ?P4, ?P5, ?P6, ?Hh; subst s; try reflexivity; try discriminate ..].
    rewrite Hh. match type of Ex with execs ?o _ = _ => assert (A : forallb is_alloc o = true) by (destruct b2; reflexivity) end.
    pose proof (allocs _ _ _ A Ex) as (_ & N & _ & _). eapply restore; [exact E0|exact A|exact Ex| |].
    + destruct b2 as [p2|]; cbn in N |- *; repeat match goal with H : NoDup (_ :: _) |- _ => apply NoDup_cons_iff in H; destruct H end; cbn in *;
        repeat constructor; cbn; intuition congruence.
    + intros p. destruct b2 as [p2|]; cbn; tauto.
Qed.
Print Assumptions destroy_releases_partial.

(** C46 is false of a complex field that has become an angle, Naxion or Paxion field:
    its velocity buffer is never released, and no pointer to it is left. *)
Theorem converted_field_leaks_refuted pick mAl pr lowmem lg t nLx nLz Ngg w0 s w es : machine mAl pr ->
  complex_kind t ->
  construct pick mAl pr lowmem lg t nLx nLz Ngg w0 = Ok (s, w) ->
  legal_history true Ngg nLz t es -> ~ complex_kind (types t es) ->
  exists w2 p, destroy (applies es s) w = Ok w2 /\ pv s = Some (p, 0) /\ live w0 p = false /\ live w2 p = true.
Proof.
  intros M Ht E Hl Hn.
  destruct (construct_complex _ _ _ _ _ _ _ _ _ _ _ _ Ht E) as (bm & bv & bs & b2 & k & bz & br & Hs & _ & Ex).
  assert (IC : is_complex t = true) by (destruct Ht; subst; reflexivity).
  destruct (sound_complex _ _ _ _ _ _ _ _ _ _ _ _ _ M IC E Hl) as [_ T].
  pose proof (applies_ptrs es s) as (P1&P2&P3&P4&P5&P6&_).
  assert (Hh : has (fType (applies es s)) SAXION = false).
  { rewrite T. pose proof (types_reach t es true Ngg nLz ltac:(destruct Ht; subst; reflexivity) Hl) as R. unfold complex_kind in Hn.
    destruct (types t es); cbn in R; try discriminate; try reflexivity; tauto. }
  rewrite (destroy_frees _ w bm bv b2 bs bz br); [|rewrite ?P1, ?P2, ?P3, ?P4, ?P5, ?P6; subst s; reflexivity ..].
  rewrite Hh. match type of Ex with execs ?o _ = _ => assert (A : forallb is_alloc o = true) by (destruct b2; reflexivity) end.
  pose proof (allocs _ _ _ A Ex) as (Hh1 & N & F & _).
  set (ps := [bm] ++ [] ++ match b2 with Some p => [p] | None => [] end ++ [bs; bz; br]).
  assert (Nps : NoDup ps /\ ~ In bv ps).
  { unfold ps. destruct b2 as [p2|]; cbn in N |- *; repeat match goal with H : NoDup (_ :: _) |- _ => apply NoDup_cons_iff in H; destruct H end; cbn in *;
      (split; [repeat constructor; cbn; intuition congruence|intuition congruence]). }
  destruct Nps as [Nps Hbv].
  destruct (frees_all ps w Nps) as (w2 & E2 & H2).
  { intros p Hp. apply live_in. rewrite Hh1, map_app, map_rev, in_app_iff, <- in_rev. left. unfold ps in Hp. destruct b2; cbn in Hp |- *; tauto. }
  exists w2, bv. split; [exact E2|]. split; [subst s; reflexivity|]. split; [apply F; cbn; tauto|].
  apply live_in. rewrite H2. apply in_map_iff. exists (bv, nLx * nLx * (nLz + 2) * (pr * 2)). split; [reflexivity|].
  apply filter_In. split.
  - rewrite Hh1. apply in_app_iff. left. apply -> in_rev. right. left. reflexivity.
  - apply negb_true_iff. apply not_true_iff_false. intros Hc. apply existsb_exists in Hc as (q & Hq & Eq). apply Nat.eqb_eq in Eq. cbn in Eq. subst q. contradiction.
Qed.
Print Assumptions converted_field_leaks_refuted.

(** Nor of an angle field made complex: its destruction releases an address inside a block. *)
Theorem angle_to_complex_destroy_refuted pick mAl pr lowmem lg t nLx nLz Ngg w0 s w : machine mAl pr ->
  angle_kind t -> t <> WKB ->
  construct pick mAl pr lowmem lg t nLx nLz Ngg w0 = Ok (s, w) ->
  destroy (setField s SAXION) w = Undefined.
Proof.
  intros M Ht Hw E.
  destruct (construct_angle _ _ _ _ _ _ _ _ _ _ _ _ Ht E) as (bm & bs & b2 & k & bz & br & Hs & Hk & _ & Ex).
  assert (Hax : has t AXION = true) by (destruct Ht as [|[|[|[|]]]]; subst; reflexivity).
  assert (Hw' : ftype_eqb t WKB = false) by (destruct Ht as [|[|[|[|]]]]; subst; try reflexivity; congruence).
  assert (Hset : setField s SAXION = upd s SAXION (fSize s * 2) (shift s / 2)).
  { unfold setField. replace (fType s) with t by (subst s; reflexivity). rewrite Hw', Hax. reflexivity. }
  rewrite Hset. unfold destroy. replace (pm (upd s SAXION (fSize s * 2) (shift s / 2))) with (Some (bm, 0)) by (subst s; reflexivity).
  replace (pv (upd s SAXION (fSize s * 2) (shift s / 2))) with (Some (bm, nLx * nLx * (nLz + 2 * Ngg) * pr)) by (subst s; reflexivity).
  match type of Ex with execs ?o _ = _ => assert (A : forallb is_alloc o = true) by (destruct b2; reflexivity) end.
  pose proof (allocs _ _ _ A Ex) as (Hh1 & _).
  destruct (free_ok w bm) as (w1 & E1 & H1).
  { apply live_in. rewrite Hh1, map_app, map_rev, in_app_iff, <- in_rev. left. left. reflexivity. }
  cbn [opt_free fType upd]. cbn [exec] in E1. rewrite E1. cbn [bindo]. change (has SAXION SAXION) with true. cbv iota.
  replace (trackFree (Some (bm, nLx * nLx * (nLz + 2 * Ngg) * pr)) w1) with (@Undefined world); [reflexivity|].
  symmetry. unfold trackFree. cbn [sys_free]. assert (L : live w1 bm = false).
  { apply live_notin. rewrite H1. intros Hc. apply in_map_iff in Hc as (b & Eb & Hb). apply filter_In in Hb as [_ Hb].
    rewrite Eb, Nat.eqb_refl in Hb. discriminate. }
  rewrite L, andb_false_r. destruct (match tlookup (table w1) _ with Some x => x | None => (ALLOC_TRACK, 0) end). reflexivity.
Qed.
Print Assumptions angle_to_complex_destroy_refuted.

(** Nor of Paxion and Faxion fields. *)
Definition sys (k : nat) : option nat := Some k.
Definition still_live (t : ftype) (es : list event) : outcome (list nat) :=
  '(s, w) <- construct sys 16 8 false false t 2 2 1 start;;
  'w <- destroy (applies es s) w;; Ok (map fst (heap w)).
Theorem paxion_faxion_leak_refuted :
  still_live PAXION [] = Ok [7; 6; 5; 4; 2; 1; 0] /\ still_live FAXION [] = Ok [7; 6; 5; 4].
Proof. split; vm_compute; reflexivity. Qed.
Print Assumptions paxion_faxion_leak_refuted.

(** Histories that meet the hypotheses: a complex field made an angle field, then a
    Paxion field; one made an angle field and complex again; and the world restored. *)
Example type_changes_ex :
  legal_history true 1 2 SAXION [ESet AXION; ESet AXION_MOD; ESet SAXION; EDims 1 1; ESet AXION; ESet PAXION] /\
  types SAXION [ESet AXION; ESet AXION_MOD; ESet SAXION; EDims 1 1; ESet AXION; ESet PAXION] = PAXION /\
  still_live SAXION [ESet AXION; ESet SAXION] = Ok [] /\
  still_live SAXION [ESet AXION] = Ok [1] /\
  still_live AXION [ESet PAXION] = Ok [].
Proof. repeat split; vm_compute; reflexivity. Qed.

(** ** Alignment *)
(** Where the field and velocity start, relative to the start of their (aligned) block. *)
Definition offset (a : option addr) : nat := match a with Some (_, o) => o | None => 0 end.

(** C49, for grids whose side is a multiple of 4: with every legal change of type, each
    slice of the field and of the velocity starts at a multiple of the register width.
    Missing: other sides, for which it is false (below). *)
Theorem slices_aligned_partial pick mAl pr lowmem lg t nLx nLz Ngg w0 s w es z : machine mAl pr ->
  complex_kind t \/ angle_kind t -> Nat.divide 4 nLx ->
  construct pick mAl pr lowmem lg t nLx nLz Ngg w0 = Ok (s, w) ->
  legal_history (is_complex t) Ngg nLz t es -> (forall nx nz, ~ In (EDims nx nz) es) ->
  let s' := applies es s in
  (Nat.divide mAl (offset (mStart s') + z * (n2 s' * fSize s'))) /\ (Nat.divide mAl (offset (vStart s') + z * (n2 s' * fSize s'))).
Proof.
  intros M Ht [q ->] E Hl Hd s'.
  destruct (type_changes_partial _ _ _ _ _ _ _ _ _ _ _ _ _ M Ht E Hl) as [(S1 & S2 & _) T]. fold s' in S1, S2, T.
  assert (N2 : forall es s, (forall nx nz, ~ In (EDims nx nz) es) -> n2 (applies es s) = n2 s).
  { clear. induction es as [|[r|nx nz] es IH]; intros s H; [reflexivity| |exfalso; eapply H; left; reflexivity].
    change (applies (ESet r :: es) s) with (applies es (setField s r)). rewrite IH.
    - unfold setField. destruct (ftype_eqb _ _); [reflexivity|]. destruct r; try reflexivity; destruct (has _ _); reflexivity.
    - intros nx nz Hi. apply (H nx nz). right. exact Hi. }
  specialize (N2 es s Hd). fold s' in N2. pose proof (applies_ptrs es s) as (P1&P2&_&_&_&_&P7&P8&P9). fold s' in P1, P2, P7, P8, P9.
  assert (K : n2 s = q * 4 * (q * 4) /\ prec s = pr /\ offset (pm s) = 0 /\
              (offset (pv s) = 0 \/ offset (pv s) = q * 4 * (q * 4) * (nLz + 2 * Ngg) * pr)).
  { destruct Ht as [Ht|Ht].
    - destruct (construct_complex _ _ _ _ _ _ _ _ _ _ _ _ Ht E) as (bm & bv & bs & b2 & k & bz & br & -> & _). cbn. auto.
    - destruct (construct_angle _ _ _ _ _ _ _ _ _ _ _ _ Ht E) as (bm & bs & b2 & k & bz & br & -> & _). cbn. auto. }
  destruct K as (K1 & K2 & K3 & K4).
  assert (A0 : forall c, (Nat.divide mAl (q * 4 * (q * 4) * pr * c))).
  { intros c. apply Nat.divide_mul_l. replace (q * 4 * (q * 4) * pr) with (16 * pr * (q * q)) by ring. apply Nat.divide_mul_l.
    destruct M as [[-> | [-> | ->]] [-> | ->]]; (eexists; reflexivity) || (exists 4; reflexivity) || (exists 2; reflexivity) || (exists 8; reflexivity) || (exists 1; reflexivity). }
  assert (A1 : forall c, (Nat.divide mAl (n2 s' * fSize s' * c))).
  { intros c. rewrite N2, K1, S1, P7, K2. replace (q * 4 * (q * 4) * (pr * components (fType s')) * c) with (q * 4 * (q * 4) * pr * (components (fType s') * c)) by ring. apply A0. }
  assert (Om : forall a k, Nat.divide mAl (offset a) -> Nat.divide mAl k -> Nat.divide mAl (offset (off a k))).
  { intros [[p o]|] k H1 H2; [|exact H1]. cbn in *. apply Nat.divide_add_r; auto. }
  assert (Ak : Nat.divide mAl (fSize s' * n2 s' * Ng s')).
  { replace (fSize s' * n2 s' * Ng s') with (n2 s' * fSize s' * Ng s') by ring. apply A1. }
  assert (Am : Nat.divide mAl (offset (pm s'))) by (rewrite P1, K3; exists 0; reflexivity).
  assert (Av : Nat.divide mAl (offset (pv s'))).
  { rewrite P2. destruct K4 as [-> | ->]; [exists 0; reflexivity|].
    replace (q * 4 * (q * 4) * (nLz + 2 * Ngg) * pr) with (q * 4 * (q * 4) * pr * (nLz + 2 * Ngg)) by ring. apply A0. }
  split; (apply Nat.divide_add_r; [|rewrite Nat.mul_comm; apply A1]).
  - apply Om; auto.
  - unfold vStart. destruct (ftype_eqb _ _); auto.
Qed.
Print Assumptions slices_aligned_partial.

(** C49 is false for a complex field with a side of 6 on a machine with 64-byte registers:
    it is accepted when it is created and, when it becomes an angle field, its slices
    start between two multiples of 64. *)
Theorem slices_aligned_refuted :
  exists s w, construct sys 64 8 false false SAXION 6 2 1 start = Ok (s, w) /\
    offset (mStart s) mod 64 = 0 /\ offset (mStart (setField s AXION)) mod 64 = 32.
Proof.
  destruct (construct sys 64 8 false false SAXION 6 2 1 start) as [[s w]| |] eqn:E.
  - exists s, w. split; [reflexivity|]. revert E. vm_compute. intros E. injection E as <- <-. split; reflexivity.
  - vm_compute in E. discriminate.
  - vm_compute in E. discriminate.
Qed.
Print Assumptions slices_aligned_refuted.
