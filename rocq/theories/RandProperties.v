(** The named initial configurations: C88. *)
From Coq Require Import Reals List Arith ZArith Bool Lia Lra.
From Verif Require Import KernelModel ForceSpec EnergyModel EnergySpec ConserveSpec ConserveBoxProofs InitModel InitSpec InitProofs InitBoxProofs InitFieldProofs InitProperties
  RandModel RandSpec.
Import ListNotations.
Open Scope R_scope.

(** ** Lemmas *)
Lemma image_fold0 : forall n i, (i < n)%nat -> image n i (fold0 n i).
Proof.
  intros n i H. unfold image, fold0. pose proof (Nat.div_mod n 2 ltac:(lia)) as D. pose proof (Nat.mod_upper_bound n 2 ltac:(lia)) as B.
  set (h := (n / 2)%nat) in *. clearbody h. destruct (h <? i)%nat eqn:E; [apply Nat.ltb_lt in E|apply Nat.ltb_ge in E].
  - split; [exists 1%Z; lia | lia].
  - split; [exists 0%Z; lia | lia].
Qed.
Lemma image_square : forall n i d e, (0 < n)%nat -> image n i d -> image n i e -> (d * d = e * e)%Z.
Proof.
  intros n i d e Hn [[k Hk] A] [[l Hl] B].
  assert (E : (d - e = (l - k) * Z.of_nat n)%Z) by lia.
  assert (C : (l - k = 0 \/ l - k = 1 \/ l - k = -1)%Z).
  { assert (Z.abs (d - e) <= Z.of_nat n)%Z by lia. rewrite E, Z.abs_mul in H. assert (Z.abs (l - k) <= 1)%Z; [|lia].
    apply (Zmult_le_reg_r _ _ (Z.abs (Z.of_nat n))); lia. }
  destruct C as [C|[C|C]]; rewrite C in E.
  - f_equal; lia.
  - replace d with (- e)%Z by lia. ring.
  - replace d with (- e)%Z by lia. ring.
Qed.
Lemma near2_images : forall n x y z dx dy dz, (x < n)%nat -> (y < n)%nat -> (z < n)%nat -> image n x dx -> image n y dy -> image n z dz ->
  near2 n x y z = (dx * dx + dy * dy + dz * dz)%Z.
Proof.
  intros n x y z dx dy dz Hx Hy Hz A B C. unfold near2.
  rewrite (image_square n x (fold0 n x) dx), (image_square n y (fold0 n y) dy), (image_square n z (fold0 n z) dz) by (lia || assumption || (apply image_fold0; assumption)).
  reflexivity.
Qed.
Lemma usquare_small : forall a, (a * a < 2 ^ 64)%Z -> usquare a = (a * a)%Z.
Proof.
  intros a H. unfold usquare, szt. rewrite <- Z.mul_mod by lia. apply Z.mod_small. split; [apply Z.square_nonneg | exact H].
Qed.
Lemma small_square : forall a b, (0 <= b)%Z -> (Z.abs a <= b)%Z -> (a * a <= b * b)%Z.
Proof. intros a b H H'. rewrite <- (Z.abs_square a). apply Z.mul_le_mono_nonneg; lia. Qed.
Lemma far2_exact : forall n x y z, (Z.of_nat n <= 2 ^ 30)%Z -> (x < n)%nat -> (y < n)%nat -> (z < n)%nat ->
  far2 n x y z = ((Z.of_nat x - Z.of_nat (n / 2)) * (Z.of_nat x - Z.of_nat (n / 2)) + (Z.of_nat y - Z.of_nat (n / 2)) * (Z.of_nat y - Z.of_nat (n / 2)) + fold0 n z * fold0 n z)%Z.
Proof.
  intros n x y z Hn Hx Hy Hz. unfold far2. cbv zeta.
  pose proof (Nat.div_mod n 2 ltac:(lia)) as D. set (h := (n / 2)%nat) in *.
  destruct (image_fold0 n z Hz) as [_ Bz]. set (f := fold0 n z) in *. clearbody f.
  assert (Sx : ((Z.of_nat x - Z.of_nat h) * (Z.of_nat x - Z.of_nat h) <= 2 ^ 30 * 2 ^ 30)%Z) by (apply small_square; lia).
  assert (Sy : ((Z.of_nat y - Z.of_nat h) * (Z.of_nat y - Z.of_nat h) <= 2 ^ 30 * 2 ^ 30)%Z) by (apply small_square; lia).
  assert (Sz : (f * f <= 2 ^ 30 * 2 ^ 30)%Z) by (apply small_square; lia).
  pose proof (Z.square_nonneg (Z.of_nat x - Z.of_nat h)) as Px. pose proof (Z.square_nonneg (Z.of_nat y - Z.of_nat h)) as Py. pose proof (Z.square_nonneg f) as Pz.
  rewrite !usquare_small by lia. unfold szt.
  revert Sx Sy Sz Px Py Pz. generalize ((Z.of_nat x - Z.of_nat h) * (Z.of_nat x - Z.of_nat h))%Z ((Z.of_nat y - Z.of_nat h) * (Z.of_nat y - Z.of_nat h))%Z (f * f)%Z.
  intros a b c Sx Sy Sz Px Py Pz. rewrite (Z.mod_small (a + b)), (Z.mod_small c), Z.mod_small by lia. reflexivity.
Qed.
Lemma cellAt_spot : forall g r x y z, cube g -> (0 < gRanks g)%nat -> (x < gL g)%nat -> (y < gL g)%nat ->
  cellAt (gL g) (gRanks g) r (spot g x y z) = (x, y, r * gZ g + z)%nat.
Proof.
  intros g r x y z C HR Hx Hy. destruct (decode g x y z Hx Hy) as (A & B & D). unfold cellAt.
  assert (HL : (gL g <> 0)%nat) by lia. assert (HS : (gL g * gL g <> 0)%nat) by (apply Nat.neq_mul_0; auto).
  rewrite D. replace (gL g / gRanks g)%nat with (gZ g) by (unfold cube in C; rewrite C at 1; rewrite Nat.mul_comm; symmetry; apply Nat.div_mul; lia).
  assert (E : (spot g x y z mod (gL g * gL g) = y * gL g + x)%nat).
  { unfold spot. rewrite <- Nat.add_assoc, Nat.add_comm, Nat.mod_add, Nat.mod_small by (auto; apply xy_lt; assumption). reflexivity. }
  rewrite E. rewrite Nat.add_comm, Nat.mod_add, Nat.mod_small by lia. rewrite Nat.div_add, Nat.div_small by lia. rewrite Nat.add_0_l, (Nat.add_comm z); reflexivity.
Qed.
Lemma randConf_holds : forall p k c vo g u1 u2 w M, (forall r x y z, (r < gRanks g)%nat -> (x < gL g)%nat -> (y < gL g)%nat -> (z < gZ g)%nat ->
    written p k c vo g u1 u2 (fun r i => wM w r (mStart g + i)%nat) r (spot g x y z) = Some (M (x, y, r * gZ g + z)%nat)) -> holds g M (randConf p k c vo g u1 u2 w).
Proof. intros. unfold randConf. apply put_holds. assumption. Qed.
Lemma kCri2_is : forall c n, (0 < n)%nat -> iKcr c <> 0 -> kCri2 c n = (iSide c / INR n) ^ 2 / (2 * iKcr c ^ 2).
Proof. intros c n Hn Hk. unfold kCri2. rewrite mult_INR. assert (INR n <> 0) by (apply not_0_INR; lia). field. auto. Qed.
Lemma depth_cube : forall g, cube g -> depth g = gL g.
Proof. intros g H. unfold depth, cube in *. lia. Qed.

(** ** Lumps *)
(** In a cubic box the minicluster at the corner is a Gaussian lump of the wanted width, for
    every number of ranks and whatever was in the array before; but its height is 1. *)
Theorem minicluster0_is_gaussian : forall p c vo g u1 u2 w, sane g -> cube g -> iKcr c <> 0 ->
  exists M, holds g M (randConf p MiniCluster0 c vo g u1 u2 w) /\ wV (randConf p MiniCluster0 c vo g u1 u2 w) = wV w /\
    forall x y z dx dy dz, In (x, y, z) (sites g) -> image (gL g) x dx -> image (gL g) y dy -> image (gL g) z dz ->
      M (x, y, z) = vacuum 1 (gaussLump (if Rlt_dec 0 (iMode0 c) then 1 else 0) (iKcr c) (farFrom (iSide c) (gL g) dx dy dz)).
Proof.
  intros p c vo g u1 u2 w S C HK. pose proof (depth_cube g C) as DC. pose proof S as (HL & HN & HZ & HR & _).
  exists (fun q => let '(x, y, z) := q in polar 1 (exp (- IZR (near2 (gL g) x y z) * kCri2 c (gL g)) * mod0 c)). split; [|split; [reflexivity|]].
  - apply randConf_holds. intros r x y z Hr Hx Hy Hz. unfold written. destruct p; cbn [dispatch value];
      rewrite (cellAt_spot g r x y z C) by assumption; unfold value; destruct (iWave c) as [[kx ky] kz]; reflexivity.
  - intros x y z dx dy dz Hs A B D. apply in_box in Hs. rewrite DC in Hs.
    rewrite (near2_images (gL g) x y z dx dy dz) by (tauto || assumption).
    unfold vacuum, polar, gaussLump, farFrom, mod0. rewrite kCri2_is by (lia || assumption).
    replace (- IZR (dx * dx + dy * dy + dz * dz) * ((iSide c / INR (gL g)) ^ 2 / (2 * iKcr c ^ 2))) with (- ((iSide c / INR (gL g)) ^ 2 * IZR (dx * dx + dy * dy + dz * dz)) / (2 * iKcr c ^ 2)).
    2:{ unfold Rdiv. ring. }
    rewrite (Rmult_comm (exp _)). reflexivity.
Qed.
(** The one at the centre: in x and y around the middle of the box, in z around its face.
    The wrap-around of the unsigned differences does no harm. *)
Theorem minicluster_is_gaussian : forall p c vo g u1 u2 w, sane g -> cube g -> iKcr c <> 0 -> (Z.of_nat (gL g) <= 2 ^ 30)%Z ->
  exists M, holds g M (randConf p MiniCluster c vo g u1 u2 w) /\
    forall x y z dz, In (x, y, z) (sites g) -> image (gL g) z dz ->
      M (x, y, z) = vacuum 1 (gaussLump (if Rlt_dec 0 (iMode0 c) then 1 else 0) (iKcr c)
        (farFrom (iSide c) (gL g) (Z.of_nat x - Z.of_nat (gL g / 2)) (Z.of_nat y - Z.of_nat (gL g / 2)) dz)).
Proof.
  intros p c vo g u1 u2 w S C HK HB. pose proof (depth_cube g C) as DC. pose proof S as (HL & HN & HZ & HR & _).
  exists (fun q => let '(x, y, z) := q in polar 1 (exp (- IZR (far2 (gL g) x y z) * kCri2 c (gL g)) * mod0 c)). split.
  - apply randConf_holds. intros r x y z Hr Hx Hy Hz. unfold written. destruct p; cbn [dispatch value];
      rewrite (cellAt_spot g r x y z C) by assumption; unfold value; destruct (iWave c) as [[kx ky] kz]; reflexivity.
  - intros x y z dz Hs D. apply in_box in Hs. rewrite DC in Hs.
    rewrite far2_exact by tauto. rewrite (image_square (gL g) z (fold0 (gL g) z) dz) by (lia || assumption || (apply image_fold0; tauto)).
    unfold vacuum, polar, gaussLump, farFrom, mod0. rewrite kCri2_is by (lia || assumption).
    set (q := ((Z.of_nat x - Z.of_nat (gL g / 2)) * (Z.of_nat x - Z.of_nat (gL g / 2)) + (Z.of_nat y - Z.of_nat (gL g / 2)) * (Z.of_nat y - Z.of_nat (gL g / 2)) + dz * dz)%Z).
    replace (- IZR q * ((iSide c / INR (gL g)) ^ 2 / (2 * iKcr c ^ 2))) with (- ((iSide c / INR (gL g)) ^ 2 * IZR q) / (2 * iKcr c ^ 2)).
    2:{ unfold Rdiv. ring. }
    rewrite (Rmult_comm (exp _)). reflexivity.
Qed.
(** The axiton, in single precision. *)
Theorem axiton_single : forall c vo g u1 u2 w, sane g -> cube g -> iKcr c <> 0 ->
  exists M, holds g M (randConf Single Axiton c vo g u1 u2 w) /\
    forall x y z dx dy dz, In (x, y, z) (sites g) -> image (gL g) x dx -> image (gL g) y dy -> image (gL g) z dz ->
      M (x, y, z) = vacuum 1 (tailLump (if Rlt_dec 0 (iMode0 c) then 1 else 0) (iKcr c) (farFrom (iSide c) (gL g) dx dy dz)).
Proof.
  intros c vo g u1 u2 w S C HK. pose proof (depth_cube g C) as DC. pose proof S as (HL & HN & HZ & HR & _).
  exists (fun q => let '(x, y, z) := q in polar 1 (mod0 c / (IZR (near2 (gL g) x y z) * kCri2 c (gL g) + 1))). split.
  - apply randConf_holds. intros r x y z Hr Hx Hy Hz. unfold written. cbn [dispatch value];
      rewrite (cellAt_spot g r x y z C) by assumption; unfold value; destruct (iWave c) as [[kx ky] kz]; reflexivity.
  - intros x y z dx dy dz Hs A B D. apply in_box in Hs. rewrite DC in Hs.
    rewrite (near2_images (gL g) x y z dx dy dz) by (tauto || assumption).
    unfold vacuum, polar, tailLump, farFrom, mod0. rewrite kCri2_is by (lia || assumption).
    replace (IZR (dx * dx + dy * dy + dz * dz) * ((iSide c / INR (gL g)) ^ 2 / (2 * iKcr c ^ 2)) + 1) with (1 + (iSide c / INR (gL g)) ^ 2 * IZR (dx * dx + dy * dy + dz * dz) / (2 * iKcr c ^ 2)).
    2:{ unfold Rdiv. ring. }
    reflexivity.
Qed.
Definition g4 : grid := Grid 4 2 1 2 1000.
Example lumps_meet : sane g4 /\ cube g4 /\ (Z.of_nat (gL g4) <= 2 ^ 30)%Z /\ In (3, 0, 2)%nat (sites g4) /\ image 4 3 (-1) /\ image 4 0 0 /\ image 4 2 2.
Proof.
  split; [exact g2_sane|]. split; [reflexivity|]. split; [cbn; lia|]. split; [apply in_box; cbn; lia|].
  split; [split; [exists 1%Z|]; cbn; lia|]. split; split; try (exists 0%Z); cbn; lia.
Qed.
(** In double precision the axiton is another configuration: its modulus is the width. *)
Theorem axiton_double_refuted : ~ (forall p c vo g u1 u2 w, sane g -> cube g -> iKcr c <> 0 ->
  exists M, holds g M (randConf p Axiton c vo g u1 u2 w) /\ forall x, In x (sites g) -> size (M x) = 1).
Proof.
  intros K. set (c := Wish 1 2 1 1 1 (0, 0, 0)). set (w := place g4 (fun _ => (0, 0)) (fun _ => (0, 0))).
  destruct (K Double c (fun _ _ => (1, 0)) g4 (fun _ _ => 0) (fun _ _ => 0) w g2_sane eq_refl ltac:(cbn; lra)) as (M & H & Z).
  specialize (Z (0, 0, 0)%nat ltac:(apply in_box; cbn; lia)).
  pose proof (H 0%nat 0%nat 0%nat 0%nat ltac:(cbn; lia) ltac:(cbn; lia) ltac:(cbn; lia) ltac:(cbn; lia)) as E.
  assert (X : exists a, Some (polar 2 a) = Some (M (0, 0, 0)%nat)) by (eexists; exact E). destruct X as [a X].
  injection X as X. rewrite <- X in Z. unfold polar in Z. pose proof (size_times 2 (cos a, sin a) ltac:(lra)) as T.
  unfold times in T. cbn [fst snd] in T. rewrite Z in T.
  unfold size, sq, dot in T. cbn [fst snd] in T. pose proof (sin2_cos2 a) as Q. unfold Rsqr in Q.
  replace (cos a * cos a + sin a * sin a) with 1 in T by lra. rewrite sqrt_1 in T. lra.
Qed.
(** ** Amplitude *)
(** Only the sign of the amplitude matters, except for the radius of the loops. *)
Theorem amplitude_only_sign : forall k c c' Lx Tz u1 u2 old x, k <> StringXY -> k <> StringYZ ->
  (0 < iMode0 c <-> 0 < iMode0 c') -> iKcr c = iKcr c' -> iKMax c = iKMax c' -> iSide c = iSide c' -> iWave c = iWave c' ->
  value k c Lx Tz u1 u2 old x = value k c' Lx Tz u1 u2 old x.
Proof.
  intros k c c' Lx Tz u1 u2 old [[x y] z] N1 N2 HM HK HX HS HW.
  assert (E : mod0 c = mod0 c') by (unfold mod0; destruct (Rlt_dec 0 (iMode0 c)); destruct (Rlt_dec 0 (iMode0 c')); tauto || reflexivity).
  assert (E2 : kCri2 c Lx = kCri2 c' Lx) by (unfold kCri2; rewrite HS, HK; reflexivity).
  unfold value. rewrite HW, E, E2, HK, HX. destruct k; try reflexivity; congruence.
Qed.
Theorem amplitude_refuted : ~ (forall p c vo g u1 u2 w, sane g -> cube g -> iKcr c <> 0 -> 0 < iMode0 c < PI ->
  exists M, holds g M (randConf p MiniCluster0 c vo g u1 u2 w) /\ M (0, 0, 0)%nat = vacuum 1 (iMode0 c)).
Proof.
  intros K. set (c := Wish 2 1 1 1 1 (0, 0, 0)). set (w := place g4 (fun _ => (0, 0)) (fun _ => (0, 0))).
  pose proof PI2_1 as P.
  destruct (K Single c (fun _ _ => (1, 0)) g4 (fun _ _ => 0) (fun _ _ => 0) w g2_sane eq_refl ltac:(cbn; lra) ltac:(cbn; lra)) as (M & H & Z).
  destruct (minicluster0_is_gaussian Single c (fun _ _ => (1, 0)) g4 (fun _ _ => 0) (fun _ _ => 0) w g2_sane eq_refl ltac:(cbn; lra)) as (M' & H' & _ & Q).
  assert (I0 : In (0, 0, 0)%nat (sites g4)) by (apply in_box; cbn; lia).
  assert (J0 : image (gL g4) 0 0) by (split; [exists 0%Z|]; cbn; lia).
  specialize (Q _ _ _ _ _ _ I0 J0 J0 J0). rewrite (holds_unique g4 M M' _ _ g2_sane H H' I0) in Z. rewrite Z in Q.
  unfold gaussLump, farFrom, vacuum in Q. cbn [iMode0 c] in Q. destruct (Rlt_dec 0 2) as [_|B]; [|lra].
  change (IZR (0 * 0 + 0 * 0 + 0 * 0)) with 0 in Q. rewrite Rmult_0_r in Q. unfold Rdiv in Q. rewrite Ropp_0, Rmult_0_l, exp_0, Rmult_1_r in Q.
  injection Q as Q _. pose proof (cos_decreasing_1 1 2 ltac:(lra) ltac:(lra) ltac:(lra) ltac:(lra) ltac:(lra)). lra.
Qed.
(** ** Ranks *)
(** In a cubic box nothing depends on the number of ranks. *)
Theorem same_for_any_split : forall p k c vo g g' u w w', k <> Rand -> k <> AxNoise -> k <> SaxNoise -> k <> VelRand -> k <> StrWave ->
  sane g -> sane g' -> cube g -> cube g' -> gL g = gL g' ->
  forall M M', holds g M (randConf p k c vo g u u w) -> holds g' M' (randConf p k c vo g' u u w') -> forall x, In x (sites g) -> M x = M' x.
Proof.
  intros p k c vo g g' u w w' N1 N2 N3 N4 N5 S S' C C' EL M M' H H' x Hx.
  assert (G : forall g w M, sane g -> cube g -> holds g M (randConf p k c vo g u u w) -> forall x, In x (sites g) ->
     value (dispatch p k) c (gL g) (gL g) 0 0 None x = Some (M x)).
  { clear - N1 N2 N3 N4 N5. intros g w M S C H [[x y] kz] Hx. apply in_box in Hx. destruct Hx as (Hx & Hy & Hk).
    destruct (slices g kz S Hk) as (r & z & Hr & Hz & ->). specialize (H r x y z Hr Hx Hy Hz). unfold randConf in H. cbn [wM] in H. unfold putOwned in H.
    pose proof (spot_owned g x y z Hx Hy Hz) as [A B]. apply Nat.leb_le in A. apply Nat.ltb_lt in B. rewrite A, B in H. cbn [andb] in H.
    rewrite <- start_spot in H. replace (mStart g + spot g x y z - mStart g)%nat with (spot g x y z) in H by lia. rewrite <- H.
    unfold written. pose proof (depth_cube g C) as DC. unfold depth in DC. rewrite DC. rewrite (cellAt_spot g r x y z C) by (destruct S as (_ & _ & _ & HR & _); lia || assumption).
    destruct p, k; try congruence; cbn [dispatch]; unfold value; destruct (iWave c) as [[kx ky] kw]; reflexivity. }
  pose proof (G g w M S C H x Hx) as A. assert (Hx' : In x (sites g')) by (unfold sites in *; rewrite (depth_cube g C) in Hx; rewrite (depth_cube g' C'), <- EL; exact Hx).
  pose proof (G g' w' M' S' C' H' x Hx') as B. rewrite <- EL, A in B. injection B as B. auto.
Qed.
Definition g5 : grid := Grid 4 8 1 1 1000.
Definition g6 : grid := Grid 4 4 1 2 1000.
Example g5_sane : sane g5. Proof. unfold sane, g5; cbn; lia. Qed.
Example g6_sane : sane g6. Proof. unfold sane, g6; cbn; lia. Qed.
Example same_for_any_split_meets : sane g4 /\ sane (Grid 4 4 1 1 1000) /\ cube g4 /\ cube (Grid 4 4 1 1 1000) /\ gL g4 = gL (Grid 4 4 1 1 1000).
Proof. split; [exact g2_sane|]. split; [unfold sane; cbn; lia|]. repeat split. Qed.
(** In a box that is not a cube the slices are placed as if it were, and the field depends on
    the number of ranks. *)
Theorem long_box_refuted : ~ (forall p k c vo g g' u w w', sane g -> sane g' -> gL g = gL g' -> depth g = depth g' ->
  forall M M', holds g M (randConf p k c vo g u u w) -> holds g' M' (randConf p k c vo g' u u w') -> k = MiniCluster0 -> forall x, In x (sites g) -> M x = M' x).
Proof.
  intros K. set (c := Wish 1 1 1 1 1 (0, 0, 0)). set (w g := place g (fun _ => (0, 0)) (fun _ => (0, 0))).
  set (F g := fun q : ConserveSpec.cell => let '(x, y, z) := q in polar 1 (exp (- IZR (near2 4 x y (z mod gZ g + z / gZ g * (4 / gRanks g))) * kCri2 c 4) * mod0 c)).
  assert (HF : forall g, gL g = 4%nat -> (gZ g = 8 /\ gRanks g = 1 \/ gZ g = 4 /\ gRanks g = 2)%nat -> holds g (F g) (randConf Single MiniCluster0 c (fun _ _ => (1, 0)) g (fun _ _ => 0) (fun _ _ => 0) (w g))).
  { intros g E4 E. apply randConf_holds. intros r x y z Hr Hx Hy Hz. unfold written. cbn [dispatch]. rewrite !E4 in *.
    unfold cellAt. destruct (decode g x y z ltac:(lia) ltac:(lia)) as (_ & _ & D). rewrite E4 in D. rewrite D.
    assert (Q : (spot g x y z mod (4 * 4) = y * 4 + x)%nat).
    { unfold spot. rewrite E4. rewrite <- Nat.add_assoc, Nat.add_comm, Nat.mod_add, Nat.mod_small by lia. reflexivity. }
    rewrite Q. rewrite (Nat.add_comm (y * 4) x), Nat.mod_add, Nat.mod_small, Nat.div_add, Nat.div_small by lia. unfold value. cbn [iWave c]. unfold F.
    assert (R1 : ((r * gZ g + z) mod gZ g = z)%nat) by (rewrite Nat.add_comm, Nat.mod_add, Nat.mod_small by lia; reflexivity).
    assert (R2 : ((r * gZ g + z) / gZ g = r)%nat) by (rewrite Nat.add_comm, Nat.div_add, Nat.div_small by lia; reflexivity).
    rewrite R1, R2. replace (0 + y)%nat with y by lia. reflexivity. }
  pose proof (HF g5 eq_refl (or_introl (conj eq_refl eq_refl))) as H5. pose proof (HF g6 eq_refl (or_intror (conj eq_refl eq_refl))) as H6.
  pose proof (K Single MiniCluster0 c (fun _ _ => (1, 0)) g5 g6 (fun _ _ => 0) (w g5) (w g6) g5_sane g6_sane eq_refl eq_refl _ _ H5 H6 eq_refl (0, 0, 4)%nat ltac:(apply in_box; cbn; lia)) as E.
  assert (E' : polar 1 (exp (- IZR 0 * kCri2 c 4) * mod0 c) = polar 1 (exp (- IZR 4 * kCri2 c 4) * mod0 c)) by exact E.
  unfold mod0 in E'. cbn [iMode0 c] in E'. destruct (Rlt_dec 0 1) as [_|B]; [|lra].
  rewrite kCri2_is in E' by (lia || (cbn; lra)). cbn [iSide iKcr c] in E'. unfold polar in E'. apply (f_equal fst) in E'. cbn [fst] in E'.
  assert (A0 : exp (- IZR 0 * ((1 / INR 4) ^ 2 / (2 * 1 ^ 2))) * 1 = 1) by (replace (- IZR 0 * ((1 / INR 4) ^ 2 / (2 * 1 ^ 2))) with 0 by (cbn; field); rewrite exp_0; ring).
  rewrite A0 in E'. set (t := - IZR 4 * ((1 / INR 4) ^ 2 / (2 * 1 ^ 2))) in *.
  assert (T : t = - (1 / 8)) by (unfold t; rewrite INR_IZR_INZ; cbn; field).
  assert (P1 : exp t < 1) by (rewrite <- exp_0; apply exp_increasing; lra). pose proof (exp_pos t) as P0. pose proof PI2_1.
  assert (X : 1 * cos 1 < 1 * cos (exp t * 1)) by (rewrite !Rmult_1_l, Rmult_1_r; apply cos_decreasing_1; lra).
  lra.
Qed.
(** ** Noise *)
Theorem noise_bounds : forall c Lx Tz u1 u2 old x, -1 <= u1 <= 1 -> 0 <= iKcr c ->
  (exists th, value AxNoise c Lx Tz u1 u2 old x = Some (vacuum 1 th) /\ Rabs (th - mod0 c) <= iKcr c) /\
  (exists r, value SaxNoise c Lx Tz u1 u2 old x = Some (vacuum r (mod0 c)) /\ Rabs (r - 1) <= iKcr c) /\
  (exists b, value VelRand c Lx Tz u1 u2 old x = Some (0, b) /\ Rabs b <= 1).
Proof.
  intros c Lx Tz u1 u2 old [[x y] z] Hu Hk. unfold value. destruct (iWave c) as [[kx ky] kz].
  assert (A : Rabs (u1 * iKcr c) <= iKcr c).
  { rewrite Rabs_mult, (Rabs_pos_eq (iKcr c)) by exact Hk. rewrite <- (Rmult_1_l (iKcr c)) at 2. apply Rmult_le_compat_r; [exact Hk|]. apply Rabs_le. lra. }
  split; [|split].
  - eexists. split; [reflexivity|]. replace (mod0 c + u1 * iKcr c - mod0 c) with (u1 * iKcr c) by ring. exact A.
  - eexists. split; [reflexivity|]. replace (u1 * iKcr c + 1 - 1) with (u1 * iKcr c) by ring. exact A.
  - eexists. split; [reflexivity|]. unfold mod0. destruct (Rlt_dec 0 (iMode0 c)); apply Rabs_le; lra.
Qed.
(** ** Waves of strings *)
(** They multiply what is in the array, which a new field has filled with zeros: they stay
    zeros, and normalising them gives something that is not a number. *)
Theorem string_wave_stays_zero : forall p c vo g u1 u2 w, holds g (fun _ => (0, 0)) w -> holds g (fun _ => (0, 0)) (randConf p StrWave c vo g u1 u2 w).
Proof.
  intros p c vo g u1 u2 w H. apply randConf_holds. intros r x y z Hr Hx Hy Hz. unfold written.
  assert (D : dispatch p StrWave = StrWave) by (destruct p; reflexivity). rewrite D. assert (O : wM w r (mStart g + spot g x y z)%nat = Some (0, 0)) by (rewrite start_spot; apply H; assumption).
  unfold wave. cbv beta zeta. rewrite O. destruct (_ <? _)%nat; [|reflexivity]. cbn [cmul fst snd]. do 2 f_equal; ring.
Qed.
Theorem string_wave_refuted : ~ (forall p p' low c vo g u1 u2 w, sane g -> holds g (fun _ => (0, 0)) w ->
  exists w' M, normalise p' g low InM (randConf p StrWave c vo g u1 u2 w) = Done w' /\ holds g M w').
Proof.
  intros K. set (c := Wish 1 1 1 1 1 (0, 0, 0)).
  pose proof (proj1 (place_holds g4 (fun _ => (0, 0)) (fun _ => (0, 0)))) as H0.
  destruct (K Double Double false c (fun _ _ => (1, 0)) g4 (fun _ _ => 0) (fun _ _ => 0) _ g2_sane H0) as (w' & M & E & H).
  injection E as <-. specialize (H 0%nat 0%nat 0%nat 0%nat ltac:(cbn; lia) ltac:(cbn; lia) ltac:(cbn; lia) ltac:(cbn; lia)).
  assert (X : toUnit (Some (0 * 1 - 0 * 0, 0 * 0 + 0 * 1)) = Some (M (0, 0, 0)%nat)) by exact H.
  replace (0 * 1 - 0 * 0, 0 * 0 + 0 * 1) with (0, 0) in X by (f_equal; ring). rewrite toUnit_zero in X. discriminate X.
Qed.
(** ** Loops of string *)
Lemma loop_parts : forall a rho z, ((rho + a) * (rho + a) + z * z) * ((rho - a) * (rho - a) + z * z) = (rho * rho + z * z - a * a) * (rho * rho + z * z - a * a) + 4 * (a * a * (z * z)).
Proof. intros. ring. Qed.
(** The angle of a loop lies between 0 and 3.14159265 on each side of its plane; in the plane
    it takes the largest value inside the loop and zero outside; only on the loop itself it is
    not a number. *)
Theorem loop_angle : forall a rho z, 0 < a -> 0 <= rho ->
  match loopAngle a rho z with
  | Some t => 0 <= t <= 3.14159265 /\ (z = 0 -> rho < a -> t = 3.14159265) /\ (z = 0 -> a < rho -> t = 0)
  | None => z = 0 /\ rho = a
  end.
Proof.
  intros a rho z Ha Hr. unfold loopAngle. cbv zeta. rewrite loop_parts. set (s := rho * rho + z * z - a * a).
  assert (N : 0 <= s * s + 4 * (a * a * (z * z))).
  { pose proof (Rle_0_sqr s) as A. pose proof (Rmult_le_pos _ _ (Rle_0_sqr a) (Rle_0_sqr z)) as B. unfold Rsqr in *. lra. }
  destruct (Req_EM_T (sqrt (s * s + 4 * (a * a * (z * z)))) 0) as [E|E].
  - apply sqrt_eq_0 in E; [|exact N]. pose proof (Rle_0_sqr s) as A. pose proof (Rmult_le_pos _ _ (Rle_0_sqr a) (Rle_0_sqr z)) as B. unfold Rsqr in *.
    assert (Z : a * a * (z * z) = 0) by lra. assert (Sz : s * s = 0) by lra.
    assert (z = 0). { apply Rmult_integral in Z. destruct Z as [Z|Z]; [apply Rmult_integral in Z; lra|]. apply Rmult_integral in Z. lra. }
    assert (s = 0) by (apply Rmult_integral in Sz; lra). split; [assumption|]. subst z. unfold s in H0.
    assert (P : (rho - a) * (rho + a) = 0) by lra. apply Rmult_integral in P. lra.
  - set (q := sqrt (s * s + 4 * (a * a * (z * z)))) in *.
    assert (Q0 : 0 < q) by (pose proof (sqrt_pos (s * s + 4 * (a * a * (z * z)))); fold q in H; lra).
    assert (QQ : q * q = s * s + 4 * (a * a * (z * z))) by (apply sqrt_sqrt, N).
    assert (SQ : Rabs s <= q).
    { unfold q. rewrite <- sqrt_Rsqr_abs. apply sqrt_le_1_alt. unfold Rsqr. pose proof (Rmult_le_pos _ _ (Rle_0_sqr a) (Rle_0_sqr z)) as B. unfold Rsqr in B. lra. }
    assert (F : (4 * a * a - ((rho + a) * (rho + a) + z * z) - ((rho - a) * (rho - a) + z * z)) / (4 * q) = - (s / q) / 2) by (unfold s; field; lra).
    rewrite F. assert (SB : -1 <= s / q <= 1).
    { split; apply (Rmult_le_reg_r q); try exact Q0; unfold Rdiv; rewrite Rmult_assoc, Rinv_l by lra; [apply Rabs_def2_le in SQ || idtac|]; pose proof (Rle_abs s); pose proof (Rle_abs (- s)) as G; rewrite Rabs_Ropp in G; lra. }
    split; [|split].
    + generalize dependent (s / q). intros v _ V. lra.
    + intros -> Hi. assert (Sn : s < 0). { unfold s. assert (rho * rho < a * a) by (apply Rmult_le_0_lt_compat; lra). lra. }
      assert (q = - s). { apply Rsqr_inj; try lra. unfold Rsqr. rewrite QQ. ring. }
      replace (s / q) with (-1) by (rewrite H; field; lra). lra.
    + intros -> Hi. assert (Sn : 0 < s). { unfold s. assert (a * a < rho * rho) by (apply Rmult_le_0_lt_compat; lra). lra. }
      assert (q = s). { apply Rsqr_inj; try lra. unfold Rsqr. rewrite QQ. ring. }
      replace (s / q) with 1 by (rewrite H; field; lra). lra.
Qed.
(** A loop that passes through a point of the lattice. *)
Theorem loop_through_point_refuted : ~ (forall c Lx Tz u1 u2 old x y z, (x < Lx)%nat -> (y < Lx)%nat -> (z < Tz)%nat -> value StringXY c Lx Tz u1 u2 old (x, y, z) <> None).
Proof.
  intros K. apply (K (Wish (1 / 4) 1 1 1 1 (0, 0, 0)) 4%nat 4%nat 0 0 None 3%nat 2%nat 1%nat); try lia.
  unfold value. cbn [iWave].
  assert (E1 : ringZ (Wish (1 / 4) 1 1 1 1 (0, 0, 0)) 4 1 = 0).
  { unfold ringZ. cbn [iKCrit]. replace (INR 1 - 1) with 0 by (cbn; ring). replace (INR 4 / 2) with 2 by (cbn; field).
    destruct (Rlt_dec 2 0); [lra|]. destruct (Rlt_dec 2 (- 0)); [lra|]. reflexivity. }
  rewrite E1. change (szt (usquare (Z.of_nat 3 - Z.of_nat (4 / 2)) + usquare (Z.of_nat 2 - Z.of_nat (4 / 2)))) with 1%Z. rewrite sqrt_1.
  assert (E2 : INR 4 * strR (Wish (1 / 4) 1 1 1 1 (0, 0, 0)) = 1) by (unfold strR; cbn [iMode0]; destruct (Rlt_dec 0 (1 / 4)); [cbn; field | lra]).
  rewrite E2. pose proof (loop_angle 1 1 0 ltac:(lra) ltac:(lra)) as L. unfold loopAngle in *. cbv zeta in *.
  replace (((1 + 1) * (1 + 1) + 0 * 0) * ((1 - 1) * (1 - 1) + 0 * 0)) with 0 in * by ring. rewrite sqrt_0 in *. destruct (Req_EM_T 0 0); [reflexivity | lra].
Qed.
(** ** Where the loops are *)
Lemma loop_seen : forall a rho z, ~ (z = 0 /\ (rho = a \/ rho = - a)) -> loopAngle a rho z = Some (ringPhase a rho z).
Proof.
  intros a rho z N. unfold loopAngle, ringPhase, cosSeen. cbv zeta.
  assert (Q : forall u, 0 <= u * u + z * z) by (intros u; pose proof (Rle_0_sqr u); pose proof (Rle_0_sqr z); unfold Rsqr in *; lra).
  assert (P : forall u, (u <> 0 \/ z <> 0) -> 0 < u * u + z * z).
  { intros u [H|H]; pose proof (Rsqr_pos_lt _ H) as X; [pose proof (Rle_0_sqr z) as Y | pose proof (Rle_0_sqr u) as Y]; unfold Rsqr in *; lra. }
  assert (A : 0 < (rho + a) * (rho + a) + z * z).
  { apply P. destruct (Req_dec z 0) as [E|E]; [left|right; exact E]. intros E2. apply N. split; [exact E|]. right. lra. }
  assert (B : 0 < (rho - a) * (rho - a) + z * z).
  { apply P. destruct (Req_dec z 0) as [E|E]; [left|right; exact E]. intros E2. apply N. split; [exact E|]. left. lra. }
  rewrite sqrt_mult by lra.
  assert (SA := sqrt_lt_R0 _ A). assert (SB := sqrt_lt_R0 _ B).
  replace ((rho + a) ^ 2 + z ^ 2) with ((rho + a) * (rho + a) + z * z) by ring. replace ((rho - a) ^ 2 + z ^ 2) with ((rho - a) * (rho - a) + z * z) by ring.
  set (p := sqrt ((rho + a) * (rho + a) + z * z)) in *. set (q := sqrt ((rho - a) * (rho - a) + z * z)) in *.
  destruct (Req_EM_T (p * q) 0) as [E|E]; [apply Rmult_integral in E; lra|].
  do 2 f_equal. replace 0.5 with (1 / 2) by lra. field. lra.
Qed.
Lemma above_ringZ : forall c n z d, (z < n)%nat -> 0 <= iKCrit c <= INR n -> above n z (iKCrit c) d -> ringZ c n z = d.
Proof.
  intros c n z d Hz HK [[k ->] A].
  assert (Z0 : 0 <= INR z) by apply pos_INR. assert (Z1 : INR z + 1 <= INR n) by (rewrite <- S_INR; apply le_INR; lia).
  assert (E : exists m : Z, ringZ c n z = INR z - iKCrit c + IZR m * INR n /\ Rabs (ringZ c n z) <= INR n / 2).
  { unfold ringZ. destruct (Rlt_dec (INR n / 2) (INR z - iKCrit c)) as [L|L].
    - destruct (Rlt_dec (INR n / 2) (- (INR z - iKCrit c - INR n))) as [L2|L2]; [exfalso; lra|]. exists (-1)%Z. split; [ring|]. apply Rabs_le. lra.
    - destruct (Rlt_dec (INR n / 2) (- (INR z - iKCrit c))) as [L2|L2].
      + exists 1%Z. split; [ring|]. apply Rabs_le. lra.
      + exists 0%Z. split; [ring|]. apply Rabs_le. lra. }
  destruct E as (m & E & B). rewrite E in *. clear E.
  assert (D : Rabs (IZR (m - k) * INR n) < INR n).
  { replace (IZR (m - k) * INR n) with ((INR z - iKCrit c + IZR m * INR n) - (INR z - iKCrit c + IZR k * INR n)) by (rewrite minus_IZR; ring).
    eapply Rle_lt_trans; [apply Rabs_triang|]. rewrite Rabs_Ropp. lra. }
  rewrite Rabs_mult, (Rabs_right (INR n)) in D by lra.
  assert (M : Rabs (IZR (m - k)) < 1). { apply (Rmult_lt_reg_r (INR n)); lra. }
  rewrite Rabs_Zabs in M. apply (lt_IZR _ 1) in M. replace m with k by lia. reflexivity.
Qed.
Lemma two_squares : forall n a b, (Z.of_nat n <= 2 ^ 30)%Z -> (Z.abs a <= Z.of_nat n)%Z -> (Z.abs b <= Z.of_nat n)%Z ->
  szt (usquare a + usquare b) = (a * a + b * b)%Z /\ szt (szt (a * a) + usquare b) = (a * a + b * b)%Z.
Proof.
  intros n a b Hn Ha Hb.
  assert (Sx : (a * a <= 2 ^ 30 * 2 ^ 30)%Z) by (apply small_square; lia). assert (Sy : (b * b <= 2 ^ 30 * 2 ^ 30)%Z) by (apply small_square; lia).
  pose proof (Z.square_nonneg a) as Px. pose proof (Z.square_nonneg b) as Py.
  rewrite !usquare_small by lia. unfold szt. rewrite (Z.mod_small (a * a)) by lia. rewrite !Z.mod_small by lia. auto.
Qed.
(** A loop around the middle of the box in the plane z = kCrit, of radius iMode0 times the
    side; the phase is positive above and negative below and in the plane. *)
Theorem loop_xy : forall p c vo g u1 u2 w r x y z d, sane g -> cube g -> (Z.of_nat (gL g) <= 2 ^ 30)%Z ->
  (r < gRanks g)%nat -> (x < gL g)%nat -> (y < gL g)%nat -> (z < gZ g)%nat ->
  0 <= iKCrit c <= INR (gL g) -> 0 < iMode0 c -> above (gL g) (r * gZ g + z) (iKCrit c) d -> d <> 0.01 ->
  let rho := sqrt ((INR x - INR (gL g / 2)) ^ 2 + (INR y - INR (gL g / 2)) ^ 2) in
  ~ (d = 0 /\ rho = INR (gL g) * iMode0 c) ->
  wM (randConf p StringXY c vo g u1 u2 w) r (spot g x y (gNg g + z)) =
    Some (vacuum 1 ((if Rlt_dec 0.01 d then 1 else -1) * ringPhase (INR (gL g) * iMode0 c) rho d)).
Proof.
  intros p c vo g u1 u2 w r x y z d SN C HB Hr Hx Hy Hz HK HM HA HD rho NR. pose proof SN as (HL & HN & HZ & HR & _).
  assert (W : wM (randConf p StringXY c vo g u1 u2 w) r (spot g x y (gNg g + z)) =
     value StringXY c (gL g) (gRanks g * gZ g) 0 0 None (x, y, r * gZ g + z)%nat).
  { cbn [randConf wM]. unfold putOwned. pose proof (spot_owned g x y z Hx Hy Hz) as [A B]. apply Nat.leb_le in A. apply Nat.ltb_lt in B. rewrite A, B. cbn [andb].
    replace (spot g x y (gNg g + z) - mStart g)%nat with (spot g x y z) by (rewrite <- start_spot; lia).
    unfold written. destruct p; cbn [dispatch]; rewrite (cellAt_spot g r x y z C) by assumption; unfold value; destruct (iWave c) as [[kx ky] kz]; reflexivity. }
  rewrite W. unfold value. destruct (iWave c) as [[kx ky] kz].
  assert (HD2 : (gRanks g * gZ g = gL g)%nat) by (unfold cube in C; lia). rewrite HD2.
  assert (Hs : (r * gZ g + z < gL g)%nat). { rewrite <- HD2. assert (r * gZ g + gZ g <= gRanks g * gZ g)%nat; [|lia]. replace (r * gZ g + gZ g)%nat with ((r + 1) * gZ g)%nat by ring. apply Nat.mul_le_mono_r. lia. }
  rewrite (above_ringZ c (gL g) _ d Hs HK HA).
  pose proof (Nat.div_mod (gL g) 2 ltac:(lia)) as DM.
  destruct (two_squares (gL g) (Z.of_nat x - Z.of_nat (gL g / 2)) (Z.of_nat y - Z.of_nat (gL g / 2)) HB) as [T _]; [lia..|]. rewrite T.
  assert (RH : sqrt (IZR ((Z.of_nat x - Z.of_nat (gL g / 2)) * (Z.of_nat x - Z.of_nat (gL g / 2)) + (Z.of_nat y - Z.of_nat (gL g / 2)) * (Z.of_nat y - Z.of_nat (gL g / 2)))) = rho).
  { unfold rho. f_equal. rewrite plus_IZR, !mult_IZR, !minus_IZR, <- !INR_IZR_INZ. ring. }
  rewrite RH. assert (SR : strR c = iMode0 c) by (unfold strR; destruct (Rlt_dec 0 (iMode0 c)); [reflexivity | lra]). rewrite SR.
  assert (LP : 0 < INR (gL g)) by (apply lt_0_INR; lia). assert (AP : 0 < INR (gL g) * iMode0 c) by (apply Rmult_lt_0_compat; assumption).
  assert (RP : 0 <= rho) by apply sqrt_pos.
  rewrite loop_seen. 2:{ intros [E [E2|E2]]; [apply NR; auto | lra]. }
  destruct (Req_EM_T d 0.01) as [E|_]; [contradiction|]. unfold vacuum, polar. do 2 f_equal.
  - f_equal. f_equal. destruct (Rlt_dec 0.01 d) as [L|L]; [rewrite (Rabs_right (-0.01 + d)) by lra | rewrite (Rabs_left (-0.01 + d)) by lra]; field; lra.
  - f_equal. f_equal. destruct (Rlt_dec 0.01 d) as [L|L]; [rewrite (Rabs_right (-0.01 + d)) by lra | rewrite (Rabs_left (-0.01 + d)) by lra]; field; lra.
Qed.
Example loop_xy_meets : sane g4 /\ cube g4 /\ above (gL g4) (0 * gZ g4 + 1) 2 (-1) /\
  ~ (-1 = 0 /\ sqrt ((INR 1 - INR (gL g4 / 2)) ^ 2 + (INR 3 - INR (gL g4 / 2)) ^ 2) = INR (gL g4) * (1 / 4)).
Proof.
  split; [exact g2_sane|]. split; [reflexivity|]. split; [|lra]. split; [exists 0%Z; cbn; lra|]. rewrite Rabs_left by lra. cbn. lra.
Qed.
(** A loop in the plane x = Lx/2 around the middle of the face z = 0; the phase is negative
    beyond the plane. *)
Theorem loop_yz : forall p c vo g u1 u2 w r x y z dz, sane g -> cube g -> (Z.of_nat (gL g) <= 2 ^ 30)%Z ->
  (r < gRanks g)%nat -> (x < gL g)%nat -> (y < gL g)%nat -> (z < gZ g)%nat -> 0 < iMode0 c -> image (gL g) (r * gZ g + z) dz ->
  let rho := sqrt (IZR dz ^ 2 + (INR y - INR (gL g / 2)) ^ 2) in
  let d := INR x - INR (gL g / 2) in
  ~ (d = 0 /\ rho = INR (gL g) * iMode0 c) ->
  wM (randConf p StringYZ c vo g u1 u2 w) r (spot g x y (gNg g + z)) =
    Some (vacuum 1 ((if Rlt_dec 0 d then -1 else 1) * ringPhase (INR (gL g) * iMode0 c) rho d)).
Proof.
  intros p c vo g u1 u2 w r x y z dz SN C HB Hr Hx Hy Hz HM HA rho d NR. pose proof SN as (HL & HN & HZ & HR & _).
  assert (W : wM (randConf p StringYZ c vo g u1 u2 w) r (spot g x y (gNg g + z)) =
     value StringYZ c (gL g) (gRanks g * gZ g) 0 0 None (x, y, r * gZ g + z)%nat).
  { cbn [randConf wM]. unfold putOwned. pose proof (spot_owned g x y z Hx Hy Hz) as [A B]. apply Nat.leb_le in A. apply Nat.ltb_lt in B. rewrite A, B. cbn [andb].
    replace (spot g x y (gNg g + z) - mStart g)%nat with (spot g x y z) by (rewrite <- start_spot; lia).
    unfold written. destruct p; cbn [dispatch]; rewrite (cellAt_spot g r x y z C) by assumption; unfold value; destruct (iWave c) as [[kx ky] kz]; reflexivity. }
  rewrite W. unfold value. destruct (iWave c) as [[kx ky] kz].
  assert (HD2 : (gRanks g * gZ g = gL g)%nat) by (unfold cube in C; lia).
  assert (Hs : (r * gZ g + z < gL g)%nat). { rewrite <- HD2. assert (r * gZ g + gZ g <= gRanks g * gZ g)%nat; [|lia]. replace (r * gZ g + gZ g)%nat with ((r + 1) * gZ g)%nat by ring. apply Nat.mul_le_mono_r. lia. }
  pose proof (Nat.div_mod (gL g) 2 ltac:(lia)) as DM. pose proof (image_fold0 (gL g) _ Hs) as HF.
  destruct (two_squares (gL g) (fold0 (gL g) (r * gZ g + z)) (Z.of_nat y - Z.of_nat (gL g / 2)) HB) as [_ T]; [destruct HF; lia | lia |]. rewrite T.
  rewrite (image_square (gL g) _ _ dz ltac:(lia) HF HA).
  assert (RH : sqrt (IZR (dz * dz + (Z.of_nat y - Z.of_nat (gL g / 2)) * (Z.of_nat y - Z.of_nat (gL g / 2)))) = rho).
  { unfold rho. f_equal. rewrite plus_IZR, !mult_IZR, !minus_IZR, <- !INR_IZR_INZ. ring. }
  rewrite RH. assert (SR : strR c = iMode0 c) by (unfold strR; destruct (Rlt_dec 0 (iMode0 c)); [reflexivity | lra]). rewrite SR.
  rewrite usquare_small. 2:{ assert (Q : ((Z.of_nat x - Z.of_nat (gL g / 2)) * (Z.of_nat x - Z.of_nat (gL g / 2)) <= 2 ^ 30 * 2 ^ 30)%Z) by (apply small_square; lia). lia. }
  assert (XD : sqrt (IZR ((Z.of_nat x - Z.of_nat (gL g / 2)) * (Z.of_nat x - Z.of_nat (gL g / 2)))) = Rabs d).
  { rewrite mult_IZR, minus_IZR, <- !INR_IZR_INZ. apply sqrt_Rsqr_abs. }
  rewrite XD.
  assert (LP : 0 < INR (gL g)) by (apply lt_0_INR; lia). assert (AP : 0 < INR (gL g) * iMode0 c) by (apply Rmult_lt_0_compat; assumption).
  assert (RP : 0 <= rho) by apply sqrt_pos.
  rewrite loop_seen. 2:{ intros [E [E2|E2]]; [|lra]. apply NR. split; [|exact E2]. destruct (Req_dec d 0) as [|N]; [assumption|]. apply Rabs_no_R0 in N. contradiction. }
  assert (RA : ringPhase (INR (gL g) * iMode0 c) rho (Rabs d) = ringPhase (INR (gL g) * iMode0 c) rho d).
  { unfold ringPhase, cosSeen. rewrite pow2_abs. replace (Rabs d * Rabs d) with (d * d) by (pose proof (pow2_abs d); cbn [pow] in *; lra). reflexivity. }
  rewrite RA. assert (SG : (if (gL g / 2 <? x)%nat then - ringPhase (INR (gL g) * iMode0 c) rho d else ringPhase (INR (gL g) * iMode0 c) rho d) =
    (if Rlt_dec 0 d then -1 else 1) * ringPhase (INR (gL g) * iMode0 c) rho d).
  { destruct (gL g / 2 <? x)%nat eqn:Q; [apply Nat.ltb_lt in Q; apply lt_INR in Q|apply Nat.ltb_ge in Q; apply le_INR in Q]; unfold d; destruct (Rlt_dec 0 (INR x - INR (gL g / 2))); lra. }
  rewrite SG. reflexivity.
Qed.
(** One mode along x and one period along y; and the mode of the parametric resonance. *)
Theorem one_mode : forall p c vo g u1 u2 w, sane g -> cube g -> exists M, holds g M (randConf p Ax1Mode c vo g u1 u2 w) /\
  forall x y z, M (x, y, z) = vacuum 1 ((if Rlt_dec 0 (iMode0 c) then 1 else 0) * ripple (gL g) (INR (iKMax c)) 1 0 x y z).
Proof.
  intros p c vo g u1 u2 w SN C. pose proof SN as (HL & HN & HZ & HR & _). eexists. split.
  - apply randConf_holds. intros r x y z Hr Hx Hy Hz. unfold written.
    assert (D : dispatch p Ax1Mode = Ax1Mode) by (destruct p; reflexivity). rewrite D.
    rewrite (cellAt_spot g r x y z C) by assumption. unfold value. destruct (iWave c) as [[kx ky] kz].
    instantiate (1 := fun q => let '(x, y, _) := q in polar 1 (mod0 c * cos (6.2831853 * INR (x * iKMax c + y) / INR (gL g)))). reflexivity.
  - intros x y z. cbv beta iota. unfold vacuum, polar, mod0, ripple. rewrite plus_INR, mult_INR.
    replace (INR (iKMax c) * INR x + 1 * INR y + 0 * INR z) with (INR x * INR (iKMax c) + INR y) by ring. reflexivity.
Qed.
Theorem resonance_mode : forall p c vo g u1 u2 w kx ky kz, sane g -> cube g -> iWave c = (kx, ky, kz) -> exists M, holds g M (randConf p ParRes c vo g u1 u2 w) /\
  forall x y z, M (x, y, z) = vacuum (iKcr c) ((if Rlt_dec 0 (iMode0 c) then 1 else 0) * ripple (gL g) kx ky kz x y z).
Proof.
  intros p c vo g u1 u2 w kx ky kz SN C HW. pose proof SN as (HL & HN & HZ & HR & _). eexists. split.
  - apply randConf_holds. intros r x y z Hr Hx Hy Hz. unfold written.
    assert (D : dispatch p ParRes = ParRes) by (destruct p; reflexivity). rewrite D.
    rewrite (cellAt_spot g r x y z C) by assumption. unfold value. rewrite HW.
    instantiate (1 := fun q => let '(x, y, z) := q in polar (iKcr c) (mod0 c * cos (6.2831853 * (INR x * kx + INR y * ky + INR z * kz) / INR (gL g)))). reflexivity.
  - intros x y z. cbv beta iota. unfold vacuum, polar, mod0, ripple.
    replace (kx * INR x + ky * INR y + kz * INR z) with (INR x * kx + INR y * ky + INR z * kz) by ring. reflexivity.
Qed.
Print Assumptions loop_xy.
Print Assumptions loop_yz.
Print Assumptions one_mode.
Print Assumptions resonance_mode.
Print Assumptions minicluster0_is_gaussian.
Print Assumptions minicluster_is_gaussian.
Print Assumptions axiton_single.
Print Assumptions axiton_double_refuted.
Print Assumptions amplitude_only_sign.
Print Assumptions amplitude_refuted.
Print Assumptions same_for_any_split.
Print Assumptions long_box_refuted.
Print Assumptions noise_bounds.
Print Assumptions string_wave_stays_zero.
Print Assumptions string_wave_refuted.
Print Assumptions loop_angle.
Print Assumptions loop_through_point_refuted.
