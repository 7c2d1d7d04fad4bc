(** Claims C43 and C45. *)
From Coq Require Import List Arith PArith NArith Lia.
From Verif Require Import KernelModel LaneModel.
Import ListNotations.

(** ** Specification *)
(** The complex number in lanes 2l, 2l+1. *)
Definition cnum {A} (r : nat -> A) (l : nat) : A * A := (r (2 * l), r (2 * l + 1)).
(** Every element becomes that of the previous, or next, element, cyclically. *)
Definition from_previous {A} (w : nat) (x y : nat -> A) : Prop := forall l, l < w -> y l = x (if l =? 0 then w - 1 else l - 1).
Definition from_next {A} (w : nat) (x y : nat -> A) : Prop := forall l, l < w -> y l = x (if l =? w - 1 then 0 else l + 1).

Ltac lanes := let l := fresh "l" in let H := fresh "H" in
  intros l H; cbv [lanes_real_pd lanes_real_ps lanes_cplx_pd lanes_cplx_ps] in *;
  do 16 (try (destruct l as [|l]; [solve [reflexivity
    | unfold yMinus_real_pd, yPlus_real_pd, castsi, castpd, permutexvar; cbn; rewrite <- surjective_pairing; reflexivity]|])); exfalso; lia.

(** C43: on every instruction set, for double and single precision, real and complex
    fields, the sequences of the propagators rotate the lanes by one element. *)
Theorem lane_rotation_real_pd W i (x : nat -> W * W) :
  from_previous (lanes_real_pd i) x (yMinus_real_pd i x) /\ from_next (lanes_real_pd i) x (yPlus_real_pd i x).
Proof. destruct i; split; lanes. Qed.
Print Assumptions lane_rotation_real_pd.
Theorem lane_rotation_real_ps A i (x : nat -> A) :
  from_previous (lanes_real_ps i) x (yMinus_real_ps i x) /\ from_next (lanes_real_ps i) x (yPlus_real_ps i x).
Proof. destruct i; split; lanes. Qed.
Print Assumptions lane_rotation_real_ps.
Theorem lane_rotation_cplx_pd A i (x : nat -> A) :
  from_previous (lanes_cplx_pd i) (cnum x) (cnum (yMinus_cplx_pd i x)) /\ from_next (lanes_cplx_pd i) (cnum x) (cnum (yPlus_cplx_pd i x)).
Proof. destruct i; split; lanes. Qed.
Print Assumptions lane_rotation_cplx_pd.
Theorem lane_rotation_cplx_ps A i (x : nat -> A) :
  from_previous (lanes_cplx_ps i) (cnum x) (cnum (yMinus_cplx_ps i x)) /\ from_next (lanes_cplx_ps i) (cnum x) (cnum (yPlus_cplx_ps i x)).
Proof. destruct i; split; lanes. Qed.
Print Assumptions lane_rotation_cplx_ps.

(** This is the rotation the kernels of KernelModel.v use, for every width. *)
Theorem kernel_rotation w (A : Type) (x : nat -> A) : from_previous w x (rotR w x) /\ from_next w x (rotL w x).
Proof.
  split; intros l H; unfold rotR, rotL; f_equal.
  - destruct (Nat.eqb_spec l 0) as [->|N]; [apply Nat.mod_small; lia|].
    replace (l + w - 1) with (l - 1 + 1 * w) by lia. rewrite Nat.mod_add by lia. apply Nat.mod_small; lia.
  - destruct (Nat.eqb_spec l (w - 1)) as [->|N].
    + replace (w - 1 + 1) with w by lia. apply Nat.mod_same; lia.
    + apply Nat.mod_small; lia.
Qed.
Print Assumptions kernel_rotation.

(** The two rotations are inverse to one another. *)
Theorem rotations_inverse A w (x y z : nat -> A) :
  from_previous w x y -> from_next w y z -> forall l, l < w -> z l = x l.
Proof.
  intros H1 H2 l Hl. rewrite H2 by auto. destruct (Nat.eqb_spec l (w - 1)) as [->|N].
  - rewrite H1 by lia. cbn. reflexivity.
  - rewrite H1 by lia. destruct (Nat.eqb_spec (l + 1) 0); [lia|]. f_equal; lia.
Qed.
Print Assumptions rotations_inverse.

(** The string finder: all but the AVX512 double branch. *)
Theorem string_rotation_partial A i (x : nat -> A) :
  (i <> AVX512 -> from_next (lanes_cplx_pd i) (cnum x) (cnum (string_yPlus_pd i x))) /\
  from_next (lanes_cplx_ps i) (cnum x) (cnum (string_yPlus_ps i x)).
Proof. destruct i; split; intros; try congruence; lanes. Qed.
Print Assumptions string_rotation_partial.
(** That branch leaves every number inside its own 128-bit lane. *)
Theorem string_rotation_refuted :
  exists x : nat -> nat, ~ from_next (lanes_cplx_pd AVX512) (cnum x) (cnum (string_yPlus_pd AVX512 x)).
Proof. exists (fun i => i). intros H. specialize (H 0 ltac:(cbn; lia)). discriminate H. Qed.
Print Assumptions string_rotation_refuted.

(** The axion energy with AVX512 in double precision adds the other neighbour. *)
Theorem energyTheta_rotation_refuted :
  exists add (x mPy : nat -> nat * nat), ~ from_previous (lanes_real_pd AVX512) x (energyTheta_yMinus_pd add AVX512 x mPy).
Proof.
  exists (fun a b => (fst a + fst b, 0)), (fun _ => (1, 0)), (fun _ => (1, 0)). intros H.
  specialize (H 0 ltac:(cbn; lia)). discriminate H.
Qed.
Print Assumptions energyTheta_rotation_refuted.
(** The Paxion energy in single precision: m is right, v is not with AVX512 and AVX. *)
Theorem energyPaxion_rotation_refuted i : i = AVX512 \/ i = AVX ->
  exists m v old : nat -> nat,
    from_previous (lanes_real_ps i) m (fst (energyPaxion_yMinus_ps i m v old)) /\
    ~ from_previous (lanes_real_ps i) v (snd (energyPaxion_yMinus_ps i m v old)).
Proof.
  intros Hi. exists (fun i => i), (fun i => i), (fun _ => 0). split.
  - apply lane_rotation_real_ps.
  - intros H. destruct Hi as [-> | ->]; specialize (H 0 ltac:(cbn; lia)); discriminate H.
Qed.
Print Assumptions energyPaxion_rotation_refuted.

(** ** C45: sums of the two components *)
(** Both lanes of every number hold the sum of its components. *)
Definition summed {A} (add : A -> A -> A) (w : nat) (x y : nat -> A) : Prop :=
  forall l, l < w -> y (2 * l) = add (x (2 * l)) (x (2 * l + 1)) /\ y (2 * l + 1) = add (x (2 * l)) (x (2 * l + 1)).

Ltac sums C := let l := fresh "l" in let H := fresh "H" in
  intros l H; cbv [lanes_cplx_pd lanes_cplx_ps] in *;
  do 8 (try (destruct l as [|l]; [solve [split; [apply C|reflexivity] | split; [reflexivity|apply C]]|])); exfalso; lia.

Theorem component_sum A (add : A -> A -> A) i (x : nat -> A) : (forall a b, add a b = add b a) ->
  summed add (lanes_cplx_pd i) x (norm_pd add i x) /\ summed add (lanes_cplx_ps i) x (norm_ps add i x) /\
  summed add (lanes_cplx_pd i) x (proj_theta_pd add i x).
Proof. intros C. destruct i; (split; [|split]); sums C. Qed.
Print Assumptions component_sum.
(** The word shuffle of the AVX512 branch exchanges the doubles of each pair. *)
Theorem shuffle_badc_swaps W (x : nat -> W * W) l : l < 4 -> cnum (shuffle_badc x) l = (x (2 * l + 1), x (2 * l)).
Proof. intros H. do 4 (destruct l as [|l]; [unfold cnum, shuffle_badc, permute_ps, castsi, castpd; cbn; rewrite <- !surjective_pairing; reflexivity|]). lia. Qed.
Print Assumptions shuffle_badc_swaps.

(** The damping terms: M.V is right up to AVX, wrong with AVX512; M.A is right only
    without AVX. *)
Theorem damping_sum_partial A (add : A -> A -> A) i (x : nat -> A) : (forall a b, add a b = add b a) ->
  (i <> AVX512 -> summed add (lanes_cplx_pd i) x (damp_mv_pd add i x)) /\
  (i = SSE -> summed add (lanes_cplx_pd i) x (damp_ma_pd add i x)).
Proof. intros C. destruct i; split; intros; try congruence; sums C. Qed.
Print Assumptions damping_sum_partial.
Theorem damping_sum_refuted :
  (exists x : nat -> nat, ~ summed Nat.add (lanes_cplx_pd AVX512) x (damp_mv_pd Nat.add AVX512 x)) /\
  (forall i, i <> SSE -> exists x : nat -> nat, ~ summed Nat.add (lanes_cplx_pd i) x (damp_ma_pd Nat.add i x)).
Proof.
  split.
  - exists (fun i => i). intros H. specialize (H 2 ltac:(cbn; lia)). cbn in H. lia.
  - intros i Hi. exists (fun i => i). intros H. specialize (H 1). destruct i; cbn in H; try congruence; lia.
Qed.
Print Assumptions damping_sum_refuted.

(** A concrete register: eight floats rotated by AVX. *)
Example lane_ex : map (yMinus_real_ps AVX (fun i => 10 * i)) (seq 0 8) = [70; 0; 10; 20; 30; 40; 50; 60].
Proof. reflexivity. Qed.
