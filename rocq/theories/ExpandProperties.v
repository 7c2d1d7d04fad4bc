(** C124: reading into a finer grid. C125: reading an axion-only file for the complex field. *)
From Coq Require Import Lqa Lra Reals List Arith Bool Lia.
From Verif Require Import ConserveProofs PaxProofs ExpandModel ExpandSpec ExpandProofs.
Import ListNotations.
Local Open Scope R_scope.
Ltac Zify.zify_post_hook ::= idtac.

(** The same whole factor in all directions: the finer field is the coarser one taken linear between its sites, over the ends of ranks and around the box, whatever m2
    held, in whatever order threads take the cells. *)
Theorem expand_partial a K nx nz Ng s m2 order p ix iy iz : (2 <= a)%nat -> (1 <= nx)%nat -> (1 <= nz)%nat -> (1 <= Ng)%nat -> (p < K)%nat -> allCells nx nz order ->
  (ix < a * nx)%nat -> (iy < a * nx)%nat -> (iz < a * nz)%nat ->
  expandField K nx nz (a * nx) (a * nz) Ng s m2 order p (ix + a * nx * (iy + a * nx * iz))%nat =
  trilinear nx (a * nx) (K * nz) (K * (a * nz)) (fileField nx nz s) ix iy (p * (a * nz) + iz).
Proof.
  intros Ha Hx Hz Hg Hp [_ HO] Lx Ly Lz. unfold expandField. rewrite expand_right by (exact HO || lia). apply right_trilinear; assumption.
Qed.
Lemma two_cells zs : zs = [0; 1]%nat \/ zs = [1; 0]%nat -> allCells 2 2 (bySlices 2 zs).
Proof.
  intros H. split.
  - destruct H as [->| ->]; cbn; repeat constructor; cbn; intuition congruence.
  - intros x y z. rewrite bySlices_in. destruct H as [->| ->]; cbn [In]; lia.
Qed.
(** Two ranks of 2*2*2 sites with the height of a site as field, to twice as many: the last slice of rank 0 is between heights 1 and 2. *)
Example expand_case : expandField 2 2 2 4 4 1 (fun p i => INR (2 * p + i / 4)) (fun _ _ => 7) (bySlices 2 [1; 0]%nat) 0 (1 + 4 * (2 + 4 * 3))%nat = 3 / 2.
Proof.
  rewrite (expand_partial 2 2 2 2 1 _ _ (bySlices 2 [1; 0]%nat) 0 1 2 3) by first [lia | apply two_cells; right; reflexivity].
  replace (2 * (2 * 2))%nat with (2 * 4)%nat by reflexivity. unfold trilinear, linear, fileField. cbn. field.
Qed.
(** The sites of the coarser grid keep their values. *)
Theorem expand_kept a K nx nz Ng s m2 order p x y z : (2 <= a)%nat -> (1 <= Ng)%nat -> (p < K)%nat -> allCells nx nz order -> (x < nx)%nat -> (y < nx)%nat -> (z < nz)%nat ->
  expandField K nx nz (a * nx) (a * nz) Ng s m2 order p (a * x + a * nx * (a * y + a * nx * (a * z)))%nat = s p (x + nx * (y + nx * z))%nat.
Proof.
  intros Ha Hg Hp HO Lx Ly Lz.
  rewrite expand_partial by (assumption || lia || (apply Nat.mul_lt_mono_pos_l; lia)).
  replace (K * (a * nz))%nat with (a * (K * nz))%nat by ring. assert (T1 : (1 * 1 <= K * nz)%nat) by (apply Nat.mul_le_mono; lia). rewrite trilinear_coarse by lia.
  unfold coarse. cbv zeta. replace (p * (a * nz) + a * z)%nat with ((p * nz + z) * a)%nat by ring. rewrite (Nat.mul_comm a x), (Nat.mul_comm a y). rewrite !Nat.mod_mul, !Nat.div_mul by lia.
  destruct (next_slice K nz p z ltac:(lia) Hp Lz) as [N1 [N2 _]]. unfold fileField at 1. rewrite N1, N2. cbn [INR]. unfold Rdiv. rewrite !Rmult_0_l. ring.
Qed.
Example expand_kept_case : expandField 2 2 2 4 4 1 (fun p i => INR (2 * p + i / 4)) (fun _ _ => 7) (bySlices 2 [1; 0]%nat) 1 (2 * 1 + 4 * (2 * 1 + 4 * (2 * 1)))%nat = 3.
Proof. rewrite (expand_kept 2 2 2 2 1 _ _ (bySlices 2 [1; 0]%nat) 1 1 1 1) by first [lia | apply two_cells; right; reflexivity]. cbn. ring. Qed.
(** What lies behind the field is not touched. *)
Theorem expand_rest_partial a K nx nz Ng s m2 order p j : (2 <= a)%nat -> (1 <= nx)%nat -> (1 <= nz)%nat -> allCells nx nz order -> (a * nx * (a * nx) * (a * nz) <= j)%nat ->
  expandField K nx nz (a * nx) (a * nz) Ng s m2 order p j = s p j.
Proof. intros Ha Hx Hz [_ HO] L. unfold expandField. apply expand_rest; assumption || lia. Qed.
Example expand_rest_case : expandField 2 2 2 4 4 1 (fun p i => INR i) (fun _ _ => 7) (bySlices 2 [1; 0]%nat) 1 64%nat = 64.
Proof. rewrite (expand_rest_partial 2 2 2 2) by first [apply two_cells; right; reflexivity | cbn; lia]. rewrite INR_IZR_INZ. reflexivity. Qed.

(** From 2 sites to 3, a site gets one value or another, as threads come first or last; neither order is wrong. *)
Definition heights : nat -> array := fun _ i => INR (i / 4).
Lemma uneven_forth : expandField 1 2 2 3 3 1 heights (fun _ _ => 0) (bySlices 2 [0; 1]%nat) 0 9%nat = 4 / 3.
Proof.
  unfold expandField. set (m := source 1 2 2 3 3 1 heights (fun _ _ => 0) 0).
  transitivity (mix 2 3 m 0 0 1 0 0 1); [generalize m (heights 0%nat); intros m0 s0; cbv -[mix]; reflexivity|].
  unfold mix. cbv zeta. cbn [Nat.add Nat.mul Nat.modulo Nat.divmod fst snd Nat.sub]. 
  assert (M4 : m 4%nat = 1) by (cbv -[IZR INR Rplus]; cbn; lra). assert (M8 : m 8%nat = 0) by (cbv -[IZR INR Rplus]; cbn; lra).
  rewrite M4, M8. cbn [INR]. field.
Qed.
Lemma uneven_back : expandField 1 2 2 3 3 1 heights (fun _ _ => 0) (bySlices 2 [1; 0]%nat) 0 9%nat = 2 / 3.
Proof.
  unfold expandField. set (m := source 1 2 2 3 3 1 heights (fun _ _ => 0) 0).
  transitivity (mix 2 3 m 0 0 0 0 0 1); [generalize m (heights 0%nat); intros m0 s0; cbv -[mix]; reflexivity|].
  unfold mix. cbv zeta. cbn [Nat.add Nat.mul Nat.modulo Nat.divmod fst snd Nat.sub]. 
  assert (M4 : m 4%nat = 1) by (cbv -[IZR INR Rplus]; cbn; lra). assert (M0 : m 0%nat = 0) by (cbv -[IZR INR Rplus]; cbn; lra).
  rewrite M4, M0. cbn [INR]. field.
Qed.
Theorem expand_order_refuted : exists K nx nz Nx Nz s m2 o1 o2 p j, (nx < Nx)%nat /\ (nz < Nz)%nat /\ (p < K)%nat /\ (j < Nx * Nx * Nz)%nat /\
  allCells nx nz (bySlices nx o1) /\ allCells nx nz (bySlices nx o2) /\
  expandField K nx nz Nx Nz 1 s m2 (bySlices nx o1) p j <> expandField K nx nz Nx Nz 1 s m2 (bySlices nx o2) p j.
Proof.
  exists 1%nat, 2%nat, 2%nat, 3%nat, 3%nat, heights, (fun _ _ => 0), [0; 1]%nat, [1; 0]%nat, 0%nat, 9%nat. rewrite uneven_forth, uneven_back.
  do 4 (split; [lia|]). split; [apply two_cells; left; reflexivity|]. split; [apply two_cells; right; reflexivity|]. lra.
Qed.
(** In the order of the loop it is the value continued from beyond, not the one between. *)
Theorem expand_uneven_refuted : ~ expandRight.
Proof.
  intros H. pose proof (H 1%nat 2%nat 2%nat 3%nat 3%nat 1%nat heights (fun _ _ => 0) (bySlices 2 [0; 1]%nat) 0%nat 0%nat 0%nat 1%nat) as E.
  specialize (E ltac:(lia) ltac:(lia) ltac:(lia) ltac:(lia) (two_cells _ (or_introl eq_refl)) ltac:(lia) ltac:(lia) ltac:(lia)).
  change (0 + 3 * (0 + 3 * 1))%nat with 9%nat in E. rewrite uneven_forth in E. unfold trilinear, linear, fileField, heights in E. cbn in E. lra.
Qed.
(** Twice in width and four times in height: the height is not scaled by its own factor. *)
Theorem expand_ratio_refuted : expandField 1 1 2 2 8 1 (fun _ i => INR i) (fun _ _ => 0) (bySlices 1 [0; 1]%nat) 0 (0 + 2 * (0 + 2 * 3))%nat = 3 / 2 /\
  trilinear 1 2 (1 * 2) (1 * 8) (fileField 1 2 (fun _ i => INR i)) 0 0 (0 * 8 + 3) = 3 / 4.
Proof.
  split.
  - unfold expandField. set (m := source _ _ _ _ _ _ _ _ _).
    transitivity (mix 1 2 m 0 0 0 0 0 3); [generalize m; intros m0; cbv -[mix INR]; reflexivity|].
    unfold mix. cbv zeta. cbn [Nat.add Nat.mul Nat.modulo Nat.divmod fst snd Nat.sub].
    assert (M1 : m 1%nat = 1) by (cbv -[IZR INR Rplus]; cbn; lra). assert (M0 : m 0%nat = 0) by (cbv -[IZR INR Rplus]; cbn; lra).
    rewrite M1, M0. cbn [INR]. field.
  - unfold trilinear, linear, fileField. cbn. field.
Qed.

(** From the axion times R and its velocity to the complex field and its velocity: if m and v are the value of R theta and its rate, the result is that of R exp(i theta). *)
Theorem to_saxion (Rt th : R -> R) t R' th' : derivable_pt_lim Rt t R' -> derivable_pt_lim th t th' -> 0 < Rt t ->
  let out := toSaxion (Rt t) (R' / Rt t) (Rt t * th t) (R' * th t + Rt t * th') in
  fst out = (Rt t * cos (th t), Rt t * sin (th t)) /\
  derivable_pt_lim (fun t => Rt t * cos (th t)) t (fst (snd out)) /\ derivable_pt_lim (fun t => Rt t * sin (th t)) t (snd (snd out)).
Proof.
  intros DR DT P. cbv zeta. unfold toSaxion. cbn [fst snd]. replace (Rt t * th t / Rt t) with (th t) by (field; lra). split; [reflexivity|].
  assert (DC : derivable_pt_lim (fun t => cos (th t)) t (- sin (th t) * th')) by (apply (derivable_pt_lim_comp th cos); [exact DT|apply derivable_pt_lim_cos]).
  assert (DS : derivable_pt_lim (fun t => sin (th t)) t (cos (th t) * th')) by (apply (derivable_pt_lim_comp th sin); [exact DT|apply derivable_pt_lim_sin]).
  split.
  - replace (R' / Rt t * (Rt t * cos (th t)) - ((R' * th t + Rt t * th') / Rt t - R' / Rt t * th t) * (Rt t * sin (th t))) with (R' * cos (th t) + Rt t * (- sin (th t) * th')) by (field; lra).
    apply (derivable_pt_lim_mult Rt (fun t => cos (th t))); assumption.
  - replace (R' / Rt t * (Rt t * sin (th t)) + ((R' * th t + Rt t * th') / Rt t - R' / Rt t * th t) * (Rt t * cos (th t))) with (R' * sin (th t) + Rt t * (cos (th t) * th')) by (field; lra).
    apply (derivable_pt_lim_mult Rt (fun t => sin (th t))); assumption.
Qed.
Example to_saxion_case : toSaxion 2 (1 / 2) 0 3 = ((2, 0), (1, 3)).
Proof. unfold toSaxion. replace (0 / 2) with 0 by field. rewrite cos_0, sin_0. f_equal; f_equal; field. Qed.
(** A Moore angle: R times the same angle between -pi and pi, the velocity R v less that. *)
Theorem from_moore Rs m v : 0 < Rs -> exists k t, t = m - 2 * PI * IZR k /\ - PI <= t < PI /\ fromMoore Rs m v = (Rs * t, Rs * v - Rs * t).
Proof.
  intros P. exists (Int_part ((m + PI) / (2 * PI))), (m - 2 * PI * IZR (Int_part ((m + PI) / (2 * PI)))). split; [reflexivity|].
  pose proof (base_Int_part ((m + PI) / (2 * PI))) as [A B]. pose proof PI_RGT_0 as Q. set (k := IZR (Int_part _)) in *.
  assert (X : (m + PI) / (2 * PI) * (2 * PI) = m + PI) by (field; lra).
  assert (A' : k * (2 * PI) <= m + PI) by (rewrite <- X; apply Rmult_le_compat_r; lra).
  assert (B' : m + PI < (k + 1) * (2 * PI)) by (rewrite <- X; apply Rmult_lt_compat_r; lra).
  split; [lra|]. unfold fromMoore, unMoor, floorR. cbv zeta. fold k. f_equal; ring.
Qed.
Example from_moore_case : exists k t, t = 2 * PI - 2 * PI * IZR k /\ - PI <= t < PI /\ fromMoore 3 (2 * PI) 1 = (3 * t, 3 * 1 - 3 * t). Proof. apply from_moore. lra. Qed.

Print Assumptions expand_partial.
Print Assumptions expand_kept.
Print Assumptions expand_rest_partial.
Print Assumptions expand_order_refuted.
Print Assumptions expand_uneven_refuted.
Print Assumptions expand_ratio_refuted.
Print Assumptions to_saxion.
Print Assumptions from_moore.
