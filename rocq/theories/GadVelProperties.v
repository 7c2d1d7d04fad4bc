(** Theorems about the velocities, the interpolation and the positions of the Gadget writer. *)
From Coq Require Import Lqa Lra Reals List Arith ZArith Bool Lia.
From Verif Require Import GadModel GadSpec GadProofs.
Import ListNotations.
Open Scope R_scope.
Ltac Zify.zify_post_hook ::= idtac.

(** ** Phases *)
Lemma tan_shift a : cos a <> 0 -> tan (a + PI) = tan a.
Proof. intros C. unfold tan. rewrite neg_sin, neg_cos. field. exact C. Qed.
Lemma at2_polar r a : 0 < r -> - PI < a < PI -> at2 (r * sin a) (r * cos a) = a.
Proof.
  intros R [A B]. pose proof PI_RGT_0 as PI0. unfold at2.
  assert (Q : forall c, c <> 0 -> r * sin a / (r * c) = sin a / c) by (intros c C; field; split; lra).
  destruct (Rlt_dec (- (PI / 2)) a) as [L|L]; [destruct (Rlt_dec a (PI / 2)) as [U|U]|].
  - assert (C : 0 < cos a) by (apply cos_gt_0; lra). destruct (Rlt_dec 0 (r * cos a)) as [_|N]; [|exfalso; apply N, Rmult_lt_0_compat; assumption].
    rewrite Q by lra. change (sin a / cos a) with (tan a). apply atan_tan. lra.
  - destruct (Req_dec a (PI / 2)) as [->|N].
    + rewrite cos_PI2, sin_PI2, Rmult_0_r, Rmult_1_r. destruct (Rlt_dec 0 0); [lra|]. destruct (Rlt_dec 0 r); lra.
    + assert (C : cos a < 0) by (apply cos_lt_0; lra). assert (S : 0 < sin a) by (apply sin_gt_0; lra).
      assert (RC : r * cos a < 0) by (assert (0 < r * (- cos a)) by (apply Rmult_lt_0_compat; lra); lra).
      assert (RS : 0 < r * sin a) by (apply Rmult_lt_0_compat; assumption).
      destruct (Rlt_dec 0 (r * cos a)); [lra|]. destruct (Rlt_dec (r * cos a) 0); [|lra]. destruct (Rlt_dec (r * sin a) 0); [lra|].
      rewrite Q by lra. change (sin a / cos a) with (tan a). replace a with ((a - PI) + PI) at 1 by lra. rewrite tan_shift.
      * rewrite atan_tan by lra. lra.
      * replace (a - PI) with (- (PI - a)) by lra. rewrite cos_neg, Rtrigo_facts.cos_pi_minus. lra.
  - destruct (Req_dec a (- (PI / 2))) as [->|N].
    + rewrite cos_neg, sin_neg, cos_PI2, sin_PI2. rewrite Rmult_0_r. destruct (Rlt_dec 0 0); [lra|]. destruct (Rlt_dec 0 (r * - (1))); [lra|]. destruct (Rlt_dec (r * - (1)) 0); lra.
    + assert (C : cos a < 0). { rewrite <- cos_neg. apply cos_lt_0; lra. }
      assert (S : sin a < 0). { assert (0 < sin (- a)) by (apply sin_gt_0; lra). rewrite sin_neg in *. lra. }
      assert (RC : r * cos a < 0) by (assert (0 < r * (- cos a)) by (apply Rmult_lt_0_compat; lra); lra).
      assert (RS : r * sin a < 0) by (assert (0 < r * (- sin a)) by (apply Rmult_lt_0_compat; lra); lra).
      destruct (Rlt_dec 0 (r * cos a)); [lra|]. destruct (Rlt_dec (r * cos a) 0); [|lra]. destruct (Rlt_dec (r * sin a) 0); [|lra].
      rewrite Q by lra. change (sin a / cos a) with (tan a). rewrite <- tan_shift by lra. rewrite atan_tan by lra. lra.
Qed.
(** The gradient of a component is half the phase difference between its two neighbours, for every
    amplitude and every phase of the site, as long as no step reaches half a turn *)
Theorem gradient_is_phase A Ap Am p a b : 0 < A -> 0 < Ap -> 0 < Am -> - PI < a < PI -> - PI < b < PI ->
  gradOf (A * cos p) (A * sin p) (Ap * cos (p + a)) (Ap * sin (p + a)) (Am * cos (p - b)) (Am * sin (p - b)) = (a + b) / 2.
Proof.
  intros HA HP HM [a1 a2] [b1 b2]. unfold gradOf.
  assert (K : forall B t, - (B * cos (p + t)) * (A * sin p) + B * sin (p + t) * (A * cos p) = A * B * sin t).
  { intros B t. replace t with ((p + t) - p) at 3 by lra. rewrite sin_minus. ring. }
  assert (K' : forall B t, B * cos (p + t) * (A * cos p) + B * sin (p + t) * (A * sin p) = A * B * cos t).
  { intros B t. replace t with ((p + t) - p) at 3 by lra. rewrite cos_minus. ring. }
  replace (p - b) with (p + - b) by lra. rewrite !K, !K'. rewrite !at2_polar by (try (apply Rmult_lt_0_compat; assumption); lra).
  lra.
Qed.
(** A step of half a turn or more is read as its remainder: a wave with 3/4 of a turn per site seems to
    go the other way *)
Theorem gradient_aliased A p : 0 < A ->
  let a := 3 * PI / 2 in
  gradOf (A * cos p) (A * sin p) (A * cos (p + a)) (A * sin (p + a)) (A * cos (p - a)) (A * sin (p - a)) = - (PI / 2).
Proof.
  intros HA a. pose proof PI_RGT_0 as PI0. assert (E : forall x, cos (x + 2 * PI) = cos x /\ sin (x + 2 * PI) = sin x).
  { intros x. split; [rewrite cos_plus|rewrite sin_plus]; rewrite cos_2PI, sin_2PI; ring. }
  replace (p + a) with (p + - (PI / 2) + 2 * PI) by (unfold a; lra). destruct (E (p + - (PI / 2))) as [-> ->].
  replace (cos (p - a)) with (cos (p - - (PI / 2))) by (rewrite <- (proj1 (E (p - a))); f_equal; unfold a; lra).
  replace (sin (p - a)) with (sin (p - - (PI / 2))) by (rewrite <- (proj2 (E (p - a))); f_equal; unfold a; lra).
  rewrite gradient_is_phase by (try assumption; lra). lra.
Qed.
(** The velocity lacks the division by the distance of the sites: a wave of wave number k gets its
    velocity times that distance *)
Theorem velocity_units_refuted A p k delta zV ma : 0 < A -> 0 < delta -> - PI < k * delta < PI -> 0 < zV -> 0 < ma -> k <> 0 ->
  let g := gradOf (A * cos p) (A * sin p) (A * cos (p + k * delta)) (A * sin (p + k * delta)) (A * cos (p - k * delta)) (A * sin (p - k * delta)) in
  velOut g zV ma = delta * truVel k zV ma /\ (delta <> 1 -> velOut g zV ma <> truVel k zV ma).
Proof.
  intros HA D0 B Z M K g. assert (E : velOut g zV ma = delta * truVel k zV ma).
  { unfold g. rewrite gradient_is_phase by assumption. unfold velOut, truVel. field. lra. }
  split; [exact E|]. intros D1. rewrite E. intros C. apply D1. assert (T : truVel k zV ma <> 0).
  { unfold truVel. apply Rmult_integral_contrapositive_currified; [|lra]. apply Rmult_integral_contrapositive_currified; [exact K|]. apply Rinv_neq_0_compat. apply Rgt_not_eq, Rmult_lt_0_compat; assumption. }
  apply (Rmult_eq_reg_r (truVel k zV ma)); [lra|exact T].
Qed.
Example wave_quarter : gradOf 2 0 0 3 0 (-1) = PI / 2.
Proof.
  pose proof PI_RGT_0. pose proof (gradient_is_phase 2 3 1 0 (PI / 2) (PI / 2)) as G. rewrite cos_0, sin_0, !Rplus_0_l, cos_PI2, sin_PI2, Rminus_0_l, cos_neg, sin_neg, cos_PI2, sin_PI2 in G.
  replace (PI / 2) with ((PI / 2 + PI / 2) / 2) by lra. rewrite <- G by lra. f_equal; lra.
Qed.
(** The velocities of a slab are collected behind the end of the field they are put into *)
Theorem velocity_buffer_refuted n lz ng : (0 < n)%nat -> (ng <= 2 * lz)%nat -> (vEnd n lz ng < velocityPlace n lz ng)%nat.
Proof.
  intros N G. unfold vEnd, velocityPlace. replace (n * n * (lz + 2 * ng))%nat with (n * n * lz + 2 * (n * n * ng))%nat by ring.
  replace (n * n * (2 * lz + 1))%nat with (n * n * (2 * lz) + n * n)%nat by ring.
  assert (P : (0 < n * n)%nat) by (apply Nat.mul_pos_pos; exact N). assert (M : (n * n * ng <= n * n * (2 * lz))%nat) by (apply Nat.mul_le_mono_l; exact G). lia.
Qed.
(** Smoothed velocities: those along x are gone before they are written *)
Theorem smoothed_x_refuted roff d vx i : Nat.Even roff -> (i < roff)%nat -> forall w, meanPass roff d (smoothX vx) i <> Vel w.
Proof.
  intros [k E] L w. unfold meanPass. replace (i <? 2 * (roff / 2))%nat with true; [discriminate|]. symmetry. apply Nat.ltb_lt. subst roff. rewrite (Nat.mul_comm 2 k), Nat.div_mul by lia. lia.
Qed.
(** The option that displaces particles never does; it smooths *)
Theorem displacement_option_refuted pv sv : voidFlags pv sv true = (pv, true, false) /\ voidFlags pv sv false = (pv, sv, false).
Proof. unfold voidFlags. rewrite orb_true_r, orb_false_r. split; reflexivity. Qed.

(** ** Interpolation *)
Lemma upSite_split n x y z a b c : (x < n)%nat -> (y < n)%nat -> (1 < n)%nat ->
  upSite n x y z a b c = ((if a then (if (x =? n - 1)%nat then 0 else x + 1) else x) + n * ((if b then (if (y =? n - 1)%nat then 0 else y + 1) else y) + n * (if c then z + 1 else z)))%nat.
Proof.
  intros X Y N. unfold upSite.
  assert (M : forall w (e : bool), (w < n)%nat -> ((w + if e then 1 else 0) mod n = if e then (if (w =? n - 1)%nat then 0 else w + 1) else w)%nat).
  { intros w [] W; [|rewrite Nat.add_0_r; apply Nat.mod_small, W]. destruct (w =? n - 1)%nat eqn:E.
    - apply Nat.eqb_eq in E. replace (w + 1)%nat with n by lia. apply Nat.mod_same. lia.
    - apply Nat.eqb_neq in E. apply Nat.mod_small. lia. }
  rewrite !M by assumption. f_equal. f_equal. f_equal. f_equal. destruct c; lia.
Qed.
(** The eight corners are the right ones everywhere but in the last column of x *)
Theorem corners_partial n x y z a b c : (1 < n)%nat -> (x < n - 1)%nat -> (y < n)%nat -> corner n (x + n * (y + n * z)) a b c = upSite n x y z a b c.
Proof.
  intros N X Y. rewrite upSite_split by lia. unfold corner. rewrite coordOf_at by lia. unfold nbPx, nbPy.
  replace (x =? n - 1)%nat with false by (symmetry; apply Nat.eqb_neq; lia).
  replace (if (x =? 0)%nat then (x + n * (y + n * z) + 1)%nat else (x + n * (y + n * z) + 1)%nat) with (x + n * (y + n * z) + 1)%nat by (destruct (x =? 0)%nat; reflexivity).
  destruct (y =? n - 1)%nat eqn:EY.
  - apply Nat.eqb_eq in EY. replace (y =? 0)%nat with false by (symmetry; apply Nat.eqb_neq; lia).
    assert (Q : (x + n * (y + n * z) + n - n * n = x + n * (n * z))%nat).
    { assert (E : (n * y + n = n * n)%nat) by (replace n with (S y) by lia; ring). rewrite Nat.mul_add_distr_l.
      set (nn := (n * n)%nat) in *. set (ny := (n * y)%nat) in *. set (nnz := (n * (n * z))%nat) in *. clearbody nn ny nnz. lia. }
    rewrite Q. destruct a, b, c; ring.
  - replace (if (y =? 0)%nat then (x + n * (y + n * z) + n)%nat else (x + n * (y + n * z) + n)%nat) with (x + n * (y + n * z) + n)%nat by (destruct (y =? 0)%nat; reflexivity).
    destruct a, b, c; ring.
Qed.
(** In the last column they are right but for (1,0,1) and, in the last row, (1,1,0) and (1,1,1) *)
Theorem last_column_partial n y z a b c : (1 < n)%nat -> (y < n)%nat -> a = false \/ (b = false /\ c = false) \/ (b = true /\ (y < n - 1)%nat) ->
  corner n ((n - 1) + n * (y + n * z)) a b c = upSite n (n - 1) y z a b c.
Proof.
  intros N Y H. rewrite upSite_split by lia. unfold corner. rewrite coordOf_at by lia. unfold nbPx, nbPy. rewrite Nat.eqb_refl.
  replace (n - 1 =? 0)%nat with false by (symmetry; apply Nat.eqb_neq; lia).
  assert (W : (n - 1 + n * (y + n * z) + 1 - n = n * (y + n * z))%nat) by lia. rewrite W.
  destruct (y =? n - 1)%nat eqn:EY.
  - apply Nat.eqb_eq in EY. replace (y =? 0)%nat with false by (symmetry; apply Nat.eqb_neq; lia).
    assert (Q : (n - 1 + n * (y + n * z) + n - n * n = n - 1 + n * (n * z))%nat).
    { assert (E : (n * y + n = n * n)%nat) by (replace n with (S y) by lia; ring). rewrite Nat.mul_add_distr_l.
      set (nn := (n * n)%nat) in *. set (ny := (n * y)%nat) in *. set (nnz := (n * (n * z))%nat) in *. clearbody nn ny nnz. lia. }
    rewrite Q. destruct H as [->|[[-> ->]|[_ L]]]; [destruct b, c; ring|destruct a; ring|lia].
  - replace (if (y =? 0)%nat then (n - 1 + n * (y + n * z) + n)%nat else (n - 1 + n * (y + n * z) + n)%nat) with (n - 1 + n * (y + n * z) + n)%nat by (destruct (y =? 0)%nat; reflexivity).
    destruct H as [->|[[-> ->]|[-> _]]]; [destruct b, c; ring|destruct a; ring|destruct a, c; ring].
Qed.
(** In the last column the corner (1,0,1) is a site of another column *)
Theorem corners_refuted n y z : (1 < n)%nat -> (y < n)%nat -> corner n ((n - 1) + n * (y + n * z)) true false true <> upSite n (n - 1) y z true false true.
Proof.
  intros N Y. rewrite upSite_split by lia. unfold corner. rewrite coordOf_at by lia. rewrite Nat.eqb_refl.
  replace (0 + n * (y + n * (z + 1)))%nat with (n * (y + n * z) + n * n)%nat by ring. lia.
Qed.
(** In the last slice of a rank the masses are read behind those of the rank *)
Theorem corner_slice_refuted n lz x y a b : (1 < n)%nat -> (0 < lz)%nat -> (x < n - 1)%nat -> (y < n)%nat ->
  (n * n * lz <= corner n (x + n * (y + n * (lz - 1))) a b true)%nat.
Proof.
  intros N L X Y. rewrite corners_partial by assumption. unfold upSite. set (u := Nat.modulo _ _). set (w := Nat.modulo _ _). replace (lz - 1 + 1)%nat with lz by lia.
  replace (n * (w + n * lz))%nat with (n * w + n * n * lz)%nat by ring. lia.
Qed.
(** A weighted mean of eight values: it stays between their bounds, and no displacement gives the site itself *)
Theorem interpolation_mean n i f dx dy dz lo hi : 0 <= dx <= 1 -> 0 <= dy <= 1 -> 0 <= dz <= 1 -> (forall j, lo <= f j <= hi) ->
  lo <= cicInterp n i f dx dy dz <= hi /\ cicInterp n i f 0 0 0 = f i.
Proof.
  intros X Y Z B. split.
  - unfold cicInterp. generalize (B (corner n i false false false)), (B (corner n i true false false)), (B (corner n i false true false)), (B (corner n i true true false)), (B (corner n i false false true)), (B (corner n i true false true)), (B (corner n i false true true)), (B (corner n i true true true)).
    generalize (f (corner n i false false false)), (f (corner n i true false false)), (f (corner n i false true false)), (f (corner n i true true false)), (f (corner n i false false true)), (f (corner n i true false true)), (f (corner n i false true true)), (f (corner n i true true true)).
    intros f0 f1 f2 f3 f4 f5 f6 f7 B0 B1 B2 B3 B4 B5 B6 B7.
    assert (W : forall p q s, 0 <= p <= 1 -> 0 <= q <= 1 -> 0 <= s <= 1 -> 0 <= p * q * s) by (intros; apply Rmult_le_pos; [apply Rmult_le_pos|]; lra).
    assert (C : forall g w, lo <= g <= hi -> 0 <= w -> lo * w <= g * w <= hi * w) by (intros g w G P; split; apply Rmult_le_compat_r; lra).
    pose proof (C f0 _ B0 (W (1 - dx) (1 - dy) (1 - dz) ltac:(lra) ltac:(lra) ltac:(lra))) as E0. pose proof (C f1 _ B1 (W dx (1 - dy) (1 - dz) ltac:(lra) ltac:(lra) ltac:(lra))) as E1.
    pose proof (C f2 _ B2 (W (1 - dx) dy (1 - dz) ltac:(lra) ltac:(lra) ltac:(lra))) as E2. pose proof (C f3 _ B3 (W dx dy (1 - dz) ltac:(lra) ltac:(lra) ltac:(lra))) as E3.
    pose proof (C f4 _ B4 (W (1 - dx) (1 - dy) dz ltac:(lra) ltac:(lra) ltac:(lra))) as E4. pose proof (C f5 _ B5 (W dx (1 - dy) dz ltac:(lra) ltac:(lra) ltac:(lra))) as E5.
    pose proof (C f6 _ B6 (W (1 - dx) dy dz ltac:(lra) ltac:(lra) ltac:(lra))) as E6. pose proof (C f7 _ B7 (W dx dy dz ltac:(lra) ltac:(lra) ltac:(lra))) as E7.
    assert (ONE : forall g, g = g * ((1 - dx) * (1 - dy) * (1 - dz)) + g * (dx * (1 - dy) * (1 - dz)) + g * ((1 - dx) * dy * (1 - dz)) + g * (dx * dy * (1 - dz)) + g * ((1 - dx) * (1 - dy) * dz) + g * (dx * (1 - dy) * dz) + g * ((1 - dx) * dy * dz) + g * (dx * dy * dz)) by (intros; ring).
    pose proof (ONE lo) as OL. pose proof (ONE hi) as OH. split; lra.
  - unfold cicInterp. assert (C : corner n i false false false = i) by (unfold corner; destruct (coordOf n i) as [[x y] z]; reflexivity). rewrite C. ring.
Qed.
Example corner_inner : corner 4 (1 + 4 * (3 + 4 * 2)) true true true = upSite 4 1 3 2 true true true.
Proof. apply corners_partial; lia. Qed.

(** ** Positions of scattered particles *)
(** A particle scattered by no more than the size of the box ends inside it, at the place it stands for *)
Theorem scatter_in_box_partial n L g c : 0 < L -> (c < n)%nat -> - INR n <= g <= INR n - 1 -> inBox L (place1 n L (1 / 2 + g) c) /\ sameMod L (place1 n L (1 / 2 + g) c) ((INR c + (1 / 2 + g)) * L / INR n).
Proof.
  intros P C [G1 G2]. split; [|apply wrapOnce_mod]. unfold place1, inBox. assert (N : 0 < INR n) by (apply lt_0_INR; lia). apply lt_INR in C as C'. pose proof (pos_INR c) as C0.
  assert (C1 : INR c <= INR n - 1). { assert (Q : INR (S c) <= INR n) by (apply le_INR; lia). rewrite S_INR in Q. lra. }
  set (t := (INR c + (1 / 2 + g)) / INR n). replace ((INR c + (1 / 2 + g)) * L / INR n) with (t * L) by (unfold t; field; lra).
  assert (T1 : -1 <= t). { unfold t. apply (Rmult_le_reg_r (INR n)); [exact N|]. unfold Rdiv. rewrite Rmult_assoc, Rinv_l by lra. lra. }
  assert (T2 : t <= 2). { unfold t. apply (Rmult_le_reg_r (INR n)); [exact N|]. unfold Rdiv. rewrite Rmult_assoc, Rinv_l by lra. lra. }
  assert (L1 : - 1 * L <= t * L) by (apply Rmult_le_compat_r; lra). assert (L2 : t * L <= 2 * L) by (apply Rmult_le_compat_r; lra).
  unfold wrapOnce. destruct (Rlt_dec (t * L) 0); [destruct (Rlt_dec L (t * L + L))|destruct (Rlt_dec L (t * L))]; lra.
Qed.
(** A wider scatter leaves the box: it is folded back only once *)
Theorem scatter_in_box_refuted n L g c : 0 < L -> (c < n)%nat -> 2 * INR n <= g -> ~ inBox L (place1 n L (1 / 2 + g) c).
Proof.
  intros P C G. unfold place1, inBox. assert (N : 0 < INR n) by (apply lt_0_INR; lia). pose proof (pos_INR c) as C0.
  set (t := (INR c + (1 / 2 + g)) / INR n). replace ((INR c + (1 / 2 + g)) * L / INR n) with (t * L) by (unfold t; field; lra).
  assert (T2 : 2 < t). { unfold t. apply (Rmult_lt_reg_r (INR n)); [exact N|]. unfold Rdiv. rewrite Rmult_assoc, Rinv_l by lra. lra. }
  assert (L2 : 2 * L < t * L) by (apply Rmult_lt_compat_r; lra).
  unfold wrapOnce. destruct (Rlt_dec (t * L) 0); [lra|]. destruct (Rlt_dec L (t * L)); lra.
Qed.
Example scatter_one : inBox 10 (place1 4 10 (1 / 2 + -2) 1) /\ ~ inBox 10 (place1 4 10 (1 / 2 + 9) 1).
Proof. split; [apply scatter_in_box_partial|apply scatter_in_box_refuted]; cbn [INR]; try lra; try lia. Qed.

Print Assumptions gradient_is_phase.
Print Assumptions corners_partial.
Print Assumptions last_column_partial.
