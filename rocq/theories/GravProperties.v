(** The gravitational potential by the full transform, and the density it starts from. *)
From Coq Require Import Reals List Arith ZArith Bool Lia Lra.
From Verif Require Import KernelModel LaplModel GravModel GravSpec GravProofs.
Import ListNotations.
Ltac Zify.zify_post_hook ::= idtac.
Local Open Scope R_scope.

(** ** C102: Poisson's equation *)
(** The momentum used for each mode is that of its place, on every rank, in boxes of any shape *)
Theorem momentum_of_mode : forall g r yl z x, shared g -> modeHere g r yl z x -> fullMom g r (modePlace g yl z x) = Z.of_nat (momentum2 g r yl z x).
Proof. exact full_place. Qed.
(** Only the mean is divided by zero, and it is set to zero *)
Theorem potential_defined : forall fwd bck g k0 rho, shared g -> exists phi, potential fwd bck g k0 rho = Some phi.
Proof.
  intros fwd bck g k0 rho S. unfold potential. cbv zeta. destruct (existsb _ _) eqn:E; [|eexists; reflexivity]. exfalso.
  apply existsb_exists in E. destruct E as [r [Hr E]]. apply existsb_exists in E. destruct E as [i [Hi E]]. apply in_seq in Hr, Hi. apply andb_true_iff in E. destruct E as [N Z].
  destruct (places_all g i S ltac:(lia)) as [yl [z [x [-> [Hy [Hz Hx]]]]]]. assert (M : modeHere g r yl z x) by (repeat split; (assumption || lia)).
  rewrite (full_place g r yl z x S M) in Z. apply Z.eqb_eq in Z. destruct (zero_momentum g r yl z x S M ltac:(lia)) as [-> [-> [-> ->]]]. discriminate.
Qed.
(** The Laplacian of the potential is the density without its mean: mode by mode, and the mean of the potential is zero *)
Theorem poisson : forall fwd bck g k0 rho phi, shared g -> k0 <> 0 -> fourierPair fwd bck g -> potential fwd bck g k0 rho = Some phi ->
  forall r yl z x, modeHere g r yl z x ->
    (momentum2 g r yl z x <> 0%nat -> times (- (k0 ^ 2 * INR (momentum2 g r yl z x))) (fwd phi r (modePlace g yl z x)) = fwd rho r (modePlace g yl z x)) /\
    (momentum2 g r yl z x = 0%nat -> fwd phi r (modePlace g yl z x) = (0, 0)).
Proof.
  intros fwd bck g k0 rho phi S K FP H. unfold potential in H. cbv zeta in H. destruct (existsb _ _); [discriminate|]. injection H as <-. set (norm := -1 / _). set (A := fun r i : nat => _).
  assert (N0 : INR (bL g * bL g * bT g) <> 0) by (apply not_0_INR; destruct S as [? [? _]]; apply Nat.neq_mul_0; split; [apply Nat.neq_mul_0|]; lia).
  set (h := fun n => if (n =? 0)%nat then 0 else norm / INR n).
  assert (HA : forall r yl z x, modeHere g r yl z x -> A r (modePlace g yl z x) = times (h (momentum2 g r yl z x)) (fwd rho r (modePlace g yl z x))).
  { intros r yl z x M. unfold A, h. rewrite (full_place g r yl z x S M). unfold isMean. destruct (Nat.eqb_spec (momentum2 g r yl z x) 0) as [Z|Z].
    - destruct (zero_momentum g r yl z x S M Z) as [-> [-> [-> ->]]]. cbn [Nat.eqb modePlace andb]. unfold modePlace. cbn [Nat.mul Nat.add Nat.eqb]. unfold times. f_equal; ring.
    - destruct ((r =? 0)%nat && (modePlace g yl z x =? 0)%nat) eqn:E.
      + exfalso. apply andb_true_iff in E. destruct E as [E1 E2]. apply Nat.eqb_eq in E1, E2. apply mean_mode in E2; [|apply S]. destruct E2 as [-> [-> ->]]. subst r. apply Z. unfold momentum2, distance0. cbn [Nat.mul Nat.add Nat.min]. reflexivity.
      + rewrite <- INR_IZR_INZ. reflexivity. }
  intros r yl z x M. pose proof (FP rho h A HA r yl z x M) as Q. split; intros Z.
  - rewrite Q. unfold h. destruct (Nat.eqb_spec (momentum2 g r yl z x) 0); [contradiction|]. assert (INR (momentum2 g r yl z x) <> 0) by (apply not_0_INR; assumption). unfold times, norm. cbn [fst snd].
    rewrite (surjective_pairing (fwd rho r (modePlace g yl z x))) at 3. f_equal; field; auto.
  - rewrite Q. unfold h. rewrite Z. cbn [Nat.eqb]. unfold times. f_equal; ring.
Qed.

(** A box of two sites a side: transforms with eight real modes *)
Definition egSign (i j : nat) : R :=
  let b n k := Nat.odd (n / 2 ^ k) in
  let s a c := if (a && c)%bool then -1 else 1 in
  (* modes: y, z, x; sites: z, y, x *) s (b i 0%nat) (b j 0%nat) * s (b i 1%nat) (b j 2%nat) * s (b i 2%nat) (b j 1%nat).
Definition egFwd (f : nat -> nat -> R) (r i : nat) : cpx := (total 8 (fun j => egSign i j * f r j), 0).
Definition egBck (A : nat -> nat -> cpx) (r j : nat) : R := total 8 (fun i => egSign i j * fst (A r i)).
Definition egBox : gbox := GBox 2 2 1 1.
Lemma eg_there_and_back : forall (a : nat -> R) i, (i < 8)%nat -> total 8 (fun j => egSign i j * total 8 (fun l => egSign l j * a l)) = 8 * a i.
Proof. intros a i Hi. do 8 (destruct i as [|i]; [cbn -[Rmult Rplus]; unfold egSign; cbn -[Rmult Rplus]; ring|]). lia. Qed.
Example fourier_case : fourierPair egFwd egBck egBox.
Proof.
  intros f h A HA r yl z x M. pose proof (HA r yl z x M) as Q. destruct M as [Hr [Hy [Hz Hx]]]. assert (B : (modePlace egBox yl z x < 8)%nat) by (unfold modePlace; cbn in *; lia).
  unfold egFwd at 1. unfold egBck. rewrite (eg_there_and_back (fun l => fst (A r l)) _ B). rewrite Q. unfold times. cbn [fst snd egFwd]. f_equal; [|ring].
  replace (INR (bL egBox * bL egBox * bT egBox)) with 8 by (cbn; ring). ring.
Qed.
Example poisson_case : forall rho, exists phi, potential egFwd egBck egBox 1 rho = Some phi /\
  times (- (1 ^ 2 * INR 3)) (egFwd phi 0 7) = egFwd rho 0 7.
Proof.
  intros rho. assert (S : shared egBox) by (repeat split; cbn; lia). destruct (potential_defined egFwd egBck egBox 1 rho S) as [phi H]. exists phi. split; [exact H|].
  apply (poisson egFwd egBck egBox 1 rho phi S ltac:(lra) fourier_case H 0 1 1 1); [repeat split; cbn; lia|cbn; lia].
Qed.

(** ** C103: mean and normalisation *)
Lemma sites_all g : shared g -> INR (bRanks g) * INR (bV g) = INR (bL g * bL g * bT g).
Proof.
  intros [_ [_ [P [_ E]]]]. unfold bV, bLz. pose proof (Nat.div_mod (bT g) (bRanks g) ltac:(lia)) as W. rewrite E, Nat.add_0_r in W. rewrite <- mult_INR. f_equal. rewrite W at 2. ring.
Qed.
Lemma boxSum_mean g f : shared g -> boxSum g (contrast g f) = (1 - / INR (bRanks g)) * boxSum g f.
Proof.
  intros S. pose proof (sites_all g S) as A. destruct S as [HL [HT [P _]]]. assert (P0 : INR (bRanks g) <> 0) by (apply not_0_INR; lia).
  assert (N0 : INR (bL g * bL g * bT g) <> 0) by (apply not_0_INR; apply Nat.neq_mul_0; split; [apply Nat.neq_mul_0|]; lia).
  unfold boxSum. fold (bLz g). fold (bV g). rewrite Rmult_comm, <- total_scal. apply total_ext. intros r _. unfold contrast. rewrite total_shift. unfold meanOf. rewrite addUp_total, <- A.
  assert (V0 : INR (bV g) <> 0) by (intros Q; rewrite Q, Rmult_0_r in A; auto). field. auto.
Qed.
(** On one rank the contrast has mean zero *)
Theorem contrast_zero_partial : forall g f, shared g -> bRanks g = 1%nat -> boxSum g (contrast g f) = 0.
Proof. intros g f S R. rewrite boxSum_mean by exact S. rewrite R. cbn [INR]. field. Qed.
(** On more ranks each one takes away its own share only *)
Theorem contrast_zero_refuted : forall g f, shared g -> (1 < bRanks g)%nat -> boxSum g f <> 0 ->
  boxSum g (contrast g f) = (1 - / INR (bRanks g)) * boxSum g f /\ boxSum g (contrast g f) <> 0.
Proof.
  intros g f S R F. pose proof (boxSum_mean g f S) as Q. split; [exact Q|]. rewrite Q. apply Rmult_integral_contrapositive_currified; [|exact F].
  apply lt_INR in R. cbn [INR] in R. intros E. assert (I : / INR (bRanks g) = 1) by lra. rewrite <- Rinv_1 in I. apply (f_equal Rinv) in I. rewrite !Rinv_inv in I. lra.
Qed.
(** Afterwards the mean of |psi|^2 is 1; the field is the same up to a positive factor, and the self-interaction beta |psi|^2 is unchanged *)
Theorem normalised : forall g m v beta m' v' beta', shared g -> normaliseFields g m v beta = Some (m', v', beta') ->
  boxSum g (fun r i => m' r i ^ 2 + v' r i ^ 2) = INR (bL g * bL g * bT g) /\
  (exists k, 0 < k /\ forall r i, m' r i = k * m r i /\ v' r i = k * v r i) /\
  (forall r i, beta' * (m' r i ^ 2 + v' r i ^ 2) = beta * (m r i ^ 2 + v r i ^ 2)).
Proof.
  intros g m v beta m' v' beta' S H. unfold normaliseFields in H. cbv zeta in H. set (T := addUp _ _) in H. set (N := INR (bL g * bL g * bT g)) in *.
  assert (N0 : 0 < N) by (apply lt_0_INR; destruct S as [? [? _]]; repeat apply Nat.mul_pos_pos; lia).
  assert (ET : T = boxSum g (fun r i => m r i ^ 2 + v r i ^ 2)).
  { unfold T, boxSum. rewrite addUp_total. apply total_ext. intros r _. apply addUp_total. }
  assert (T0 : 0 <= T) by (rewrite ET; apply total_pos; intros r; apply total_pos; intros i; pose proof (pow2_ge_0 (m r i)); pose proof (pow2_ge_0 (v r i)); lra).
  destruct (Req_EM_T (T / N) 0) as [Z|Z]; [discriminate|]. inversion H; subst; clear H.
  assert (P : 0 < T / N). { assert (0 <= T / N) by (apply Rmult_le_pos; [exact T0|left; apply Rinv_0_lt_compat, N0]). lra. }
  set (e := T / N) in *. pose proof (sqrt_lt_R0 _ P) as SP. pose proof (sqrt_sqrt e ltac:(lra)) as SS. assert (SQ : (1 / sqrt e) ^ 2 = / e) by (rewrite <- SS at 2; field; lra).
  split; [|split].
  - unfold boxSum. transitivity (total (bRanks g) (fun r => total (bL g * bL g * (bT g / bRanks g)) (fun i => m r i ^ 2 + v r i ^ 2) * / e)).
    + apply total_ext. intros r _. rewrite <- total_scal. apply total_ext. intros i _. rewrite !Rpow_mult_distr, SQ. ring.
    + rewrite total_scal. fold (boxSum g (fun r i => m r i ^ 2 + v r i ^ 2)). rewrite <- ET. unfold e. field. split; [lra|]. intros Q. apply Z. unfold e. rewrite Q. unfold Rdiv. ring.
  - exists (1 / sqrt e). split; [apply Rdiv_lt_0_compat; lra|]. intros r i. split; ring.
  - intros r i. rewrite !Rpow_mult_distr, SQ. field. lra.
Qed.
(** It works exactly when the field is not zero *)
Theorem normalise_defined : forall g m v beta, shared g -> (normaliseFields g m v beta = None <-> boxSum g (fun r i => m r i ^ 2 + v r i ^ 2) = 0).
Proof.
  intros g m v beta S. unfold normaliseFields. cbv zeta. set (N := INR (bL g * bL g * bT g)).
  assert (N0 : 0 < N) by (apply lt_0_INR; destruct S as [? [? _]]; repeat apply Nat.mul_pos_pos; lia).
  assert (ET : addUp (bRanks g) (fun r => addUp (bV g) (fun i => m r i ^ 2 + v r i ^ 2)) = boxSum g (fun r i => m r i ^ 2 + v r i ^ 2)).
  { unfold boxSum. rewrite addUp_total. apply total_ext. intros r _. apply addUp_total. }
  rewrite ET. destruct (Req_EM_T _ 0) as [Z|Z]; split; intros H; try discriminate; try reflexivity.
  - apply Rmult_integral in Z. destruct Z as [Z|Z]; [exact Z|]. exfalso. pose proof (Rinv_0_lt_compat _ N0). lra.
  - exfalso. apply Z. rewrite H. unfold Rdiv. ring.
Qed.
Example normalise_case : exists m' v' b', normaliseFields egBox (fun _ _ => 3) (fun _ _ => 4) 2 = Some (m', v', b').
Proof.
  destruct (normaliseFields egBox (fun _ _ => 3) (fun _ _ => 4) 2) as [[[m' v'] b']|] eqn:E; [eauto|]. exfalso. apply normalise_defined in E; [|repeat split; cbn; lia]. cbn in E. lra.
Qed.
Example contrast_case : exists f, boxSum (GBox 2 2 2 1) (contrast (GBox 2 2 2 1) f) <> 0.
Proof. exists (fun _ _ => 1). apply contrast_zero_refuted; [repeat split; cbn; lia|cbn; lia|cbn; lra]. Qed.

Print Assumptions momentum_of_mode.
Print Assumptions potential_defined.
Print Assumptions poisson.
Print Assumptions contrast_zero_partial.
Print Assumptions contrast_zero_refuted.
Print Assumptions normalised.
Print Assumptions normalise_defined.
