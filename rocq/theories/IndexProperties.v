(** Claims C04 and C05. A site of an L x L x D grid is a triple with x, y < L and
    z < D; its number is x + L*(y + L*z). *)
From Coq Require Import Arith Lia Bool.
From Verif Require Import IndexModel IndexProofs.

(** C04: number -> coordinates -> number, and coordinates -> number -> coordinates;
    numbers below L*L*D correspond exactly to sites of a box of depth D. *)
Theorem index_roundtrip (L : nat) : 0 < L ->
  (forall idx, vec2Idx L (idx2Vec L idx) = idx) /\
  (forall x y z, x < L -> y < L -> idx2Vec L (vec2Idx L (x, y, z)) = (x, y, z)) /\
  (forall D idx, idx < L * L * D ->
     exists x y z, idx2Vec L idx = (x, y, z) /\ x < L /\ y < L /\ z < D /\ idx = x + L * (y + L * z)).
Proof.
  intros HL. split; [|split].
  - intros idx. exact (vec2Idx_idx2Vec L idx HL).
  - exact (idx2Vec_vec2Idx L).
  - intros D idx H. destruct (idx2Vec L idx) as [[x y] z] eqn:E.
    pose proof (idx2Vec_range L idx HL) as R. rewrite E in R.
    pose proof (vec2Idx_idx2Vec L idx HL) as V. rewrite E in V. unfold vec2Idx in V.
    exists x, y, z. repeat split; try tauto; [|congruence].
    assert (L * L * z < L * L * D) by lia. nia.
Qed.
Print Assumptions index_roundtrip.

(** C04: the padded conversion is inverse to x + (L+2)*(y + L*z) with x < L+2; the
    cells that are not padding (x < L) are in bijection with the plain numbers. *)
Theorem padded_index_roundtrip (L : nat) : 0 < L ->
  (forall x y z, x < L + 2 -> y < L -> idx2VecPad L (x + (L + 2) * (y + L * z)) = (x, y, z)) /\
  (forall idx, exists x y z, idx2VecPad L idx = (x, y, z) /\ x < L + 2 /\ y < L /\
                             idx = x + (L + 2) * (y + L * z)) /\
  (forall i j x y z, idx2VecPad L i = (x, y, z) -> idx2VecPad L j = (x, y, z) -> i = j).
Proof.
  intros HL. split; [|split].
  - exact (idx2VecPad_spec L).
  - intros idx. pose proof (idx2VecPad_inv L idx HL) as H.
    destruct (idx2VecPad L idx) as [[x y] z]. exists x, y, z. tauto.
  - intros i j x y z Hi Hj.
    pose proof (idx2VecPad_inv L i HL) as A. rewrite Hi in A.
    pose proof (idx2VecPad_inv L j HL) as B. rewrite Hj in B. lia.
Qed.
Print Assumptions padded_index_roundtrip.

(** C05, for lengths of at least two and grids whose numbers fit in a word of size
    [W] (2^64) with two slices to spare: the neighbours are the periodic ones. *)
Theorem neighbours_periodic_partial (W L x y z : nat) :
  2 <= L -> x < L -> y < L -> L * L * (z + 2) <= W ->
  idx2VecNeigh W L (x + L * (y + L * z)) =
  ((x, y, z),
   ( ((x + 1) mod L) + L * (y + L * z), ((x + L - 1) mod L) + L * (y + L * z),
     x + L * ((y + 1) mod L + L * z), x + L * ((y + L - 1) mod L + L * z))).
Proof. exact (neigh_spec W L x y z). Qed.
Print Assumptions neighbours_periodic_partial.

(** C05: +x after -x, -x after +x, and the same in y, return to the start. *)
Theorem neighbours_inverse (W L x y z : nat) :
  2 <= L -> x < L -> y < L -> L * L * (z + 2) <= W ->
  let idx := x + L * (y + L * z) in
  let '(px, mx, py, my) := snd (idx2VecNeigh W L idx) in
  snd (fst (fst (snd (idx2VecNeigh W L px)))) = idx /\
  fst (fst (fst (snd (idx2VecNeigh W L mx)))) = idx /\
  snd (snd (idx2VecNeigh W L py)) = idx /\
  snd (fst (snd (idx2VecNeigh W L my))) = idx.
Proof.
  intros HL Hx Hy HW idx.
  change idx with (vec2Idx L (x, y, z)).
  assert (HM : forall a, a < L -> ((a + 1) mod L + L - 1) mod L = a /\ ((a + L - 1) mod L + 1) mod L = a).
  { intros a Ha. split.
    - destruct (Nat.eq_dec a (L - 1)) as [->|].
      + replace (L - 1 + 1) with L by lia. rewrite Nat.mod_same by lia. apply Nat.mod_small; lia.
      + rewrite (Nat.mod_small (a + 1)) by lia. replace (a + 1 + L - 1) with (a + 1 * L) by lia.
        rewrite Nat.mod_add by lia. apply Nat.mod_small; lia.
    - destruct (Nat.eq_dec a 0) as [->|].
      + rewrite (Nat.mod_small (0 + L - 1)) by lia. replace (0 + L - 1 + 1) with L by lia. apply Nat.mod_same; lia.
      + replace (a + L - 1) with ((a - 1) + 1 * L) by lia. rewrite Nat.mod_add by lia.
        rewrite (Nat.mod_small (a - 1)) by lia. replace (a - 1 + 1) with a by lia. apply Nat.mod_small; lia. }
  assert (Hm : forall a, a mod L < L) by (intros; apply Nat.mod_upper_bound; lia).
  rewrite neigh_spec by auto. cbn [snd fst].
  rewrite !neigh_spec by auto. cbn [snd fst].
  destruct (HM x Hx) as [-> ->]. destruct (HM y Hy) as [-> ->]. auto.
Qed.
Print Assumptions neighbours_inverse.

(** C05 fails on the degenerate length 1: the +x neighbour of site 0 is reported
    as site 1, not site 0, although the row has only one site. *)
Theorem neighbours_length1_refuted :
  exists W L idx, L = 1 /\ L * L * 8 <= W /\
    fst (fst (fst (snd (idx2VecNeigh W L idx)))) <> idx.
Proof. exists 64, 1, 0. vm_compute. repeat split; try lia. Qed.
Print Assumptions neighbours_length1_refuted.

Example neigh_ex : 4 * 4 * (0 + 2) <= 256 /\
  idx2VecNeigh 256 4 (3 + 4 * (0 + 4 * 0)) = ((3, 0, 0), (0, 2, 7, 15)).
Proof. split; [vm_compute; lia|reflexivity]. Qed.
