(** Proofs about index conversions. *)
From Coq Require Import Arith Lia Bool ZArith ZifyBool ZifyNat.
From Verif Require Import IndexModel.

Lemma divmod_ex a b : 0 < b -> exists q r, a / b = q /\ a = b * q + r /\ r < b.
Proof.
  intros H. exists (a / b), (a mod b). split; [reflexivity|]. split.
  - apply Nat.div_mod. lia.
  - apply Nat.mod_upper_bound. lia.
Qed.

Lemma vec2Idx_idx2Vec L idx : 0 < L -> vec2Idx L (idx2Vec L idx) = idx.
Proof.
  intros HL. unfold vec2Idx, idx2Vec.
  destruct (divmod_ex idx L HL) as (t & r1 & -> & E1 & H1).
  destruct (divmod_ex t L HL) as (z & r2 & -> & E2 & H2).
  replace (t - z * L) with r2 by lia. replace (idx - t * L) with r1 by lia.
  replace (r2 + L * z) with t by lia. lia.
Qed.

Lemma idx2Vec_range L idx : 0 < L ->
  let '(x, y, z) := idx2Vec L idx in x < L /\ y < L.
Proof.
  intros HL. unfold idx2Vec.
  destruct (divmod_ex idx L HL) as (t & r1 & -> & E1 & H1).
  destruct (divmod_ex t L HL) as (z & r2 & -> & E2 & H2).
  split; lia.
Qed.

Lemma div_unique_nat a b q r : r < b -> a = b * q + r -> a / b = q.
Proof. intros. symmetry. eapply Nat.div_unique; eauto. Qed.

Lemma idx2Vec_vec2Idx L x y z : x < L -> y < L ->
  idx2Vec L (vec2Idx L (x, y, z)) = (x, y, z).
Proof.
  intros Hx Hy. unfold vec2Idx, idx2Vec.
  assert (E1 : (x + L * (y + L * z)) / L = y + L * z).
  { apply div_unique_nat with x; lia. }
  rewrite E1.
  assert (E2 : (y + L * z) / L = z).
  { apply div_unique_nat with y; lia. }
  rewrite E2. repeat f_equal; lia.
Qed.

Lemma idx2VecPad_spec L x y z : x < L + 2 -> y < L ->
  idx2VecPad L (x + (L + 2) * (y + L * z)) = (x, y, z).
Proof.
  intros Hx Hy. unfold idx2VecPad.
  assert (E1 : (x + (L + 2) * (y + L * z)) / (L + 2) = y + L * z).
  { apply div_unique_nat with x; lia. }
  rewrite E1.
  assert (E2 : (y + L * z) / L = z).
  { apply div_unique_nat with y; lia. }
  rewrite E2. repeat f_equal; lia.
Qed.

Lemma idx2VecPad_inv L idx : 0 < L ->
  let '(x, y, z) := idx2VecPad L idx in
  x < L + 2 /\ y < L /\ idx = x + (L + 2) * (y + L * z).
Proof.
  intros HL. unfold idx2VecPad.
  destruct (divmod_ex idx (L + 2) ltac:(lia)) as (t & r1 & -> & E1 & H1).
  destruct (divmod_ex t L HL) as (z & r2 & -> & E2 & H2).
  split; [lia|]. split; [lia|].
  replace (t - z * L + L * z) with t by lia. lia.
Qed.

Lemma usub_ok W a b : b <= a -> a < W -> usub W a b = a - b.
Proof.
  intros H1 H2. unfold usub. replace (a + (W - b)) with ((a - b) + 1 * W) by lia.
  rewrite Nat.mod_add by lia. apply Nat.mod_small. lia.
Qed.
Lemma uadd_ok W a b : a + b < W -> uadd W a b = a + b.
Proof. intros. apply Nat.mod_small. auto. Qed.
(** Subtract then add, possibly through a wrap. *)
Lemma usub_uadd W a b c : b <= W -> b <= a + c -> a + c < W + b -> uadd W (usub W a b) c = a + c - b.
Proof.
  intros H0 H1 H2. unfold usub, uadd. rewrite Nat.add_mod_idemp_l by lia.
  replace (a + (W - b) + c) with ((a + c - b) + 1 * W) by lia.
  rewrite Nat.mod_add by lia. apply Nat.mod_small. lia.
Qed.

Lemma neigh_spec W L x y z : 2 <= L -> x < L -> y < L -> L * L * (z + 2) <= W ->
  idx2VecNeigh W L (vec2Idx L (x, y, z)) =
  ((x, y, z),
   (vec2Idx L ((x + 1) mod L, y, z), vec2Idx L ((x + L - 1) mod L, y, z),
    vec2Idx L (x, (y + 1) mod L, z), vec2Idx L (x, (y + L - 1) mod L, z))).
Proof.
  intros HL Hx Hy HW.
  pose proof (idx2Vec_vec2Idx L x y z Hx Hy) as E. unfold idx2Vec in E.
  unfold idx2VecNeigh.
  set (idx := vec2Idx L (x, y, z)) in *.
  assert (Ei : idx = x + L * (y + L * z)) by reflexivity. clearbody idx.
  injection E; intros E2 E1 E0. rewrite E2 in *.
  rewrite E0. rewrite E1. clear E E0 E1 E2.
  assert (Mp : forall a, a < L -> (a + 1) mod L = if a =? L - 1 then 0 else a + 1).
  { intros a Ha. destruct (Nat.eqb_spec a (L - 1)).
    - replace (a + 1) with L by lia. apply Nat.mod_same; lia.
    - apply Nat.mod_small; lia. }
  assert (Mm : forall a, a < L -> (a + L - 1) mod L = if a =? 0 then L - 1 else a - 1).
  { intros a Ha. destruct (Nat.eqb_spec a 0).
    - subst. apply Nat.mod_small; lia.
    - replace (a + L - 1) with ((a - 1) + 1 * L) by lia.
      rewrite Nat.mod_add by lia. apply Nat.mod_small; lia. }
  rewrite !Mp, !Mm by auto. unfold vec2Idx. clear Mp Mm.
  assert (D : forall a, L * (a + L * z) = L * a + L * (L * z)) by (intros; apply Nat.mul_add_distr_l).
  assert (P1 : L * (L - 1) = L * L - L) by (rewrite Nat.mul_sub_distr_l; lia).
  assert (P2 : L * (y - 1) = L * y - L) by (rewrite Nat.mul_sub_distr_l; lia).
  assert (P3 : L * (y + 1) = L * y + L) by lia.
  assert (P4 : L + L <= L * L) by (clear -HL; nia).
  assert (P5 : y <> 0 -> L <= L * y) by (intros; destruct y; [lia|rewrite Nat.mul_succ_r; lia]).
  assert (P6 : L * y + L <= L * L) by (rewrite <- P3; apply Nat.mul_le_mono_l; lia).
  assert (HW' : L * (L * z) + L * L + L * L <= W) by (clear -HW; lia).
  assert (Y0 : y = 0 -> L * y = 0) by (intros ->; lia).
  assert (YL : y = L - 1 -> L * y = L * L - L) by (intros ->; exact P1).
  assert (Q : forall a b c d a' b' c' d' : nat,
     a = a' -> b = b' -> c = c' -> d = d' -> (a, b, c, d) = (a', b', c', d')) by (intros; subst; reflexivity).
  rewrite D in Ei. rewrite !D. clear D HW.
  set (LLz := L * (L * z)) in *. clearbody LLz.
  set (LL := L * L) in *. clearbody LL.
  set (Ly := L * y) in *. clearbody Ly.
  assert (R1 : forall c, c <= LL -> uadd W idx c = idx + c) by (intros; apply uadd_ok; lia).
  assert (R2 : forall c, c <= idx -> usub W idx c = idx - c) by (intros; apply usub_ok; lia).
  assert (R3 : forall b c, b <= c -> c <= LL -> usub W (uadd W idx c) b = idx + c - b)
    by (intros; rewrite R1 by lia; apply usub_ok; lia).
  assert (R4 : forall b c, b <= LL -> c <= LL -> b <= idx + c -> uadd W (usub W idx b) c = idx + c - b)
    by (intros; apply usub_uadd; lia).
  destruct (Nat.eqb_spec x 0); destruct (Nat.eqb_spec x (L - 1)); try lia;
  destruct (Nat.eqb_spec y 0); destruct (Nat.eqb_spec y (L - 1)); try lia;
  rewrite ?R3, ?R4 by lia; rewrite ?R1, ?R2 by lia;
  rewrite ?P1, ?P2, ?P3;
  f_equal; apply Q; rewrite ?Nat.mul_0_r; lia.
Qed.
