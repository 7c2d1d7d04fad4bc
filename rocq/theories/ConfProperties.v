(** Theorems about saving and restoring a field (C54, C55). *)
From Coq Require Import List Arith Lia Permutation Bool String.
From Verif Require Import ConfModel ConfSpec ConfProofs.
Import ListNotations.
Local Open Scope nat_scope.

Section One.
Context {A : Type}.
(** one dataset, written by the ranks of [g] and read by those of [g'] *)
Lemma round_trip (g g' : cgeom) beg beg' (a a' : nat -> nat -> A) order junk :
  anyOrder (cR g) (cD g) order -> cN g' = cN g -> cW g' = cW g -> (cR g * cD g) mod cR g' = 0 -> 1 <= cR g' ->
  let nz := cR g * cD g / cR g' in
  let b := fun r => readData (slab g') nz beg' r (writeData g beg a order) junk (a' r) in
  sameField (cN g) (cW g) (cR g * cD g) (cD g) beg nz beg' a b /\
  restSame (cN g) (cW g) nz beg' (cR g') a' b.
Proof.
  intros HO EN EW HM HR nz b. assert (ES : slab g' = slab g) by (unfold slab; rewrite EN, EW; reflexivity).
  assert (T : cR g * cD g = nz * cR g').
  { unfold nz. pose proof (Nat.div_mod (cR g * cD g) (cR g') ltac:(lia)) as D. rewrite HM in D. lia. }
  split.
  - intros c x y Z Hc Hx Hy HZ. unfold inBox, b, readData. rewrite ES, read_all by lia.
    assert (NZ : nz <> 0) by (intros E; rewrite T, E in HZ; lia).
    pose proof (Nat.div_mod Z nz NZ) as D. pose proof (Nat.mod_upper_bound Z nz NZ) as U.
    pose proof (site_in (cN g) (cW g) c x y Hc Hx Hy) as S.
    set (i := (y * cN g + x) * cW g + c) in *.
    assert (P : forall k, (k * (cN g * cN g) + y * cN g + x) * cW g + c = k * slab g + i).
    { intros k. unfold i, slab. ring. }
    rewrite <- (Nat.add_assoc beg'), P, <- (Nat.add_assoc beg), P.
    fold (slab g) in S.
    replace (_ && _) with true.
    2:{ symmetry. apply in_range. assert ((Z mod nz + 1) * slab g <= nz * slab g) by (apply Nat.mul_le_mono_r; lia). lia. }
    replace (Z / nz * nz * slab g + (beg' + (Z mod nz * slab g + i) - beg')) with (Z * slab g + i).
    + rewrite write_all by (auto; lia). f_equal. lia.
    + rewrite D at 1. rewrite Nat.mul_add_distr_r. lia.
  - intros r p Hr Hp. unfold b, readData. rewrite ES, read_all by lia.
    destruct (_ && _) eqn:E; [|reflexivity]. apply in_range in E. unfold slab in E. lia.
Qed.
End One.

(** A field saved by any number of ranks, whatever the order in which the slices reach the file, and read by any
    number of ranks that divides the depth, is the same field; ghosts and the rest of the arrays are left
    alone; and nothing unwritten is read ([junk] is arbitrary). (Partial: exact numbers, equal sizes and types.) *)
Theorem save_restore_partial {A} (g g' : cgeom) (m v m' v' : nat -> nat -> A) order vorder mf vf junk :
  anyOrder (cR g) (cD g) order -> anyOrder (cR g) (cD g) vorder -> cN g' = cN g -> cW g' = cW g ->
  1 <= cR g' -> (cR g * cD g) mod cR g' = 0 ->
  writeConf g true m v order vorder = (mf, Some vf) ->
  exists m1 v1, readConf (cR g * cD g) g' mf vf junk m' v' = Loaded _ (m1, v1) /\
    let nz := cR g * cD g / cR g' in
    sameField (cN g) (cW g) (cR g * cD g) (cD g) (mBeg g) nz (mBeg g') m m1 /\
    sameField (cN g) (cW g) (cR g * cD g) (cD g) (vBeg g) nz (vBeg g') v v1 /\
    restSame (cN g) (cW g) nz (mBeg g') (cR g') m' m1 /\ restSame (cN g) (cW g) nz (vBeg g') (cR g') v' v1.
Proof.
  intros HO HV EN EW HR HM HW. unfold writeConf in HW. injection HW as <- <-.
  unfold readConf. rewrite HM. cbn [Nat.eqb]. do 2 eexists. split; [reflexivity|]. cbv zeta.
  destruct (round_trip g g' (mBeg g) (mBeg g') m m' order junk HO EN EW HM HR) as [M1 M2].
  destruct (round_trip g g' (vBeg g) (vBeg g') v v' vorder junk HV EN EW HM HR) as [V1 V2].
  repeat split; assumption.
Qed.

(** The file itself does not depend on the order of the writes, nor on how many ranks wrote it *)
Theorem saved_file_unique {A} (g h : cgeom) (m n : nat -> nat -> A) o o' :
  anyOrder (cR g) (cD g) o -> anyOrder (cR h) (cD h) o' ->
  cN h = cN g -> cW h = cW g -> cR h * cD h = cR g * cD g -> 1 <= cW g ->
  (sameField (cN g) (cW g) (cR g * cD g) (cD g) (mBeg g) (cD h) (mBeg h) m n <->
   forall p, writeData h (mBeg h) n o' p = writeData g (mBeg g) m o p).
Proof.
  intros HO HO' EN EW ET HW. assert (ES : slab h = slab g) by (unfold slab; rewrite EN, EW; reflexivity).
  split.
  - intros S p. destruct (Nat.lt_ge_cases p (cR g * cD g * slab g)) as [L|L].
    + assert (HS : slab g <> 0) by (intros E; rewrite E in L; lia).
      pose proof (Nat.div_mod p (slab g) HS) as D. pose proof (Nat.mod_upper_bound p (slab g) HS) as U.
      assert (Q : p / slab g < cR g * cD g) by (apply Nat.div_lt_upper_bound; lia).
      pose proof (write_all g (mBeg g) m o (p / slab g) (p mod slab g) HO U Q) as WG.
      pose proof (write_all h (mBeg h) n o' (p / slab g) (p mod slab g) HO' ltac:(rewrite ES; exact U) ltac:(rewrite ET; exact Q)) as WH.
      rewrite ES in WH. replace (p / slab g * slab g + p mod slab g) with p in WG, WH by lia.
      rewrite WG, WH. f_equal. clear WG WH.
      set (q := p / slab g) in *. set (i := p mod slab g) in *.
      assert (HN : cN g <> 0) by (intros E; unfold slab in HS; rewrite E in HS; lia).
      pose proof (Nat.div_mod i (cW g) ltac:(lia)) as D1. pose proof (Nat.mod_upper_bound i (cW g) ltac:(lia)) as U1.
      assert (I : i / cW g < cN g * cN g) by (apply Nat.div_lt_upper_bound; [lia|]; unfold slab in U; lia).
      pose proof (Nat.div_mod (i / cW g) (cN g) HN) as D2. pose proof (Nat.mod_upper_bound (i / cW g) (cN g) HN) as U2.
      specialize (S (i mod cW g) (i / cW g mod cN g) (i / cW g / cN g) q U1 U2 ltac:(apply Nat.div_lt_upper_bound; lia) Q).
      unfold inBox in S.
      assert (P : forall k, (k * (cN g * cN g) + i / cW g / cN g * cN g + i / cW g mod cN g) * cW g + i mod cW g = slab g * k + i).
      { intros k. unfold slab. rewrite D1 at 4. rewrite D2 at 3. ring. }
      rewrite <- (Nat.add_assoc (mBeg h)), P, <- (Nat.add_assoc (mBeg g)), P in S.
      rewrite !Nat.add_assoc in S. exact S.
    + rewrite !write_none; auto; rewrite ?ET, ?ES; exact L.
  - intros F c x y Z Hc Hx Hy HZ. pose proof (site_in (cN g) (cW g) c x y Hc Hx Hy) as S. fold (slab g) in S.
    specialize (F (Z * slab g + ((y * cN g + x) * cW g + c))).
    replace (writeData h (mBeg h) n o' (Z * slab g + ((y * cN g + x) * cW g + c)))
      with (writeData h (mBeg h) n o' (Z * slab h + ((y * cN g + x) * cW g + c))) in F by (rewrite ES; reflexivity).
    rewrite !write_all in F by (auto; rewrite ?ES, ?ET; assumption). injection F as F. rewrite ES in F.
    unfold inBox.
    assert (P : forall k, (k * (cN g * cN g) + y * cN g + x) * cW g + c = slab g * k + ((y * cN g + x) * cW g + c)).
    { intros k. unfold slab. ring. }
    rewrite <- (Nat.add_assoc (mBeg h)), P, <- (Nat.add_assoc (mBeg g)), P.
    etransitivity; [|etransitivity; [exact F|]]; f_equal; apply Nat.add_assoc || (symmetry; apply Nat.add_assoc).
Qed.

(** A depth that the reading ranks do not divide is refused: nothing is loaded *)
Theorem restore_uneven {A} depth g (mf vf : @file A) junk m v :
  depth mod cR g <> 0 -> readConf depth g mf vf junk m v = Exited _.
Proof. intros H. unfold readConf. apply Nat.eqb_neq in H. rewrite H. reflexivity. Qed.

(** ** Types *)
(** The fields that come back with the type they were saved with *)
Theorem kind_restored k :
  kindRead (kindName k) = Some k <-> In k [Saxion; Axion; AxionMod; Paxion].
Proof. destruct k; cbn; split; intros H; try reflexivity; try discriminate; intuition discriminate. Qed.
(** Not every field can be restored: one kind is written and then refused *)
Theorem kind_restored_refuted : kindRead (kindName Naxion) = None /\ kindRead (kindName WKB) = Some Axion.
Proof. split; reflexivity. Qed.
(** Whatever is accepted has as many numbers per site as were written *)
Theorem width_restored k k' : kindRead (kindName k) = Some k' -> widthRead k' = widthWritten k.
Proof. destruct k; cbn; intros H; try discriminate H; injection H as <-; reflexivity. Qed.

(** ** Sizes *)
(** The size asked for is given exactly when both directions grow, both shrink or both stay *)
Theorem size_restored sN sZ nx nz :
  finalSize sN sZ nx nz = (sN, sZ) <->
  (nx < sN /\ nz < sZ) \/ (sN < nx /\ sZ < nz) \/ (sN = nx /\ sZ = nz).
Proof.
  unfold finalSize, createdSize.
  destruct (Nat.ltb_spec nx sN), (Nat.ltb_spec nz sZ), (Nat.ltb_spec sN nx), (Nat.ltb_spec sZ nz),
    (Nat.eqb_spec sN nx), (Nat.eqb_spec sZ nz); cbn [andb]; split; intros K; try (injection K as K1 K2); try lia;
    try reflexivity; f_equal; lia.
Qed.
(** Otherwise the file's size is silently kept *)
Theorem size_restored_refuted sN sZ nx nz :
  ~ ((nx < sN /\ nz < sZ) \/ (sN < nx /\ sZ < nz) \/ (sN = nx /\ sZ = nz)) ->
  finalSize sN sZ nx nz = (nx, nz) /\ finalSize sN sZ nx nz <> (sN, sZ).
Proof.
  intros H. unfold finalSize, createdSize.
  destruct (Nat.ltb_spec nx sN), (Nat.ltb_spec nz sZ), (Nat.ltb_spec sN nx), (Nat.ltb_spec sZ nz),
    (Nat.eqb_spec sN nx), (Nat.eqb_spec sZ nz); cbn [andb]; try lia; split; try reflexivity; intros K; injection K; lia.
Qed.

(** ** Cases *)
(** two ranks of three slices write in a mixed order, three ranks of two slices read *)
Definition exW : cgeom := CGeom 2 3 2 2 8 4.
Definition exR : cgeom := CGeom 2 2 3 2 8 0.
Definition exM (r p : nat) : nat := 100 * r + p.
Definition exOrder := [(1, 2); (0, 0); (1, 0); (0, 2); (0, 1); (1, 1)].
Example ex_order : anyOrder 2 3 exOrder.
Proof.
  unfold anyOrder. apply NoDup_Permutation.
  - repeat constructor; cbn; intuition discriminate.
  - cbn [seq list_prod map app]. repeat constructor; cbn; intuition discriminate.
  - intros [a b]. cbn. intuition.
Qed.
Example ex_restored :
  match readConf 6 exR (writeData exW 8 exM exOrder) (writeData exW 4 exM exOrder) (fun _ => 0) (fun _ _ => 7) (fun _ _ => 7) with
  | Loaded _ (m, v) => (map (m 1) (seq 7 18), m 2 8, m 2 16) = (7 :: map (exM 0) (seq 24 8) ++ map (exM 1) (seq 8 8) ++ [7], exM 1 16, exM 1 24)
  | Exited _ => False
  end.
Proof. vm_compute. reflexivity. Qed.
Example ex_uneven : 6 mod cR (CGeom 2 1 4 2 0 0) <> 0. Proof. vm_compute. discriminate. Qed.
Example ex_mixed_size : finalSize 64 16 32 32 = (32, 32). Proof. reflexivity. Qed.

Print Assumptions save_restore_partial. Print Assumptions saved_file_unique. Print Assumptions restore_uneven.
Print Assumptions kind_restored. Print Assumptions kind_restored_refuted. Print Assumptions width_restored.
Print Assumptions size_restored. Print Assumptions size_restored_refuted.
