(** Theorems about the integrals of the mass, the time step and the shift of the vacuum (C60, C61, C62). *)
From Coq Require Import Reals Lra Psatz.
From Verif Require Import CosmoModel CosmoSpec CosmoProofs.
Local Open Scope R_scope.

(** ** Integrals of the mass *)
Lemma der_I i2 e z0 z : 0 < z -> e <> 0 ->
  derivable_pt_lim (fun z => (Rpower z e - Rpower z0 e) * i2 / e) z (i2 * Rpower z (e - 1)).
Proof.
  intros Z E. apply (derivable_pt_lim_ext (fun z => i2 / e * Rpower z e + (- Rpower z0 e * i2 / e))); [intros; field; exact E|].
  replace (i2 * Rpower z (e - 1)) with (i2 / e * (e * Rpower z (e - 1)) + 0) by (field; exact E).
  apply (derivable_pt_lim_plus (fun z => i2 / e * Rpower z e) (fun _ => - Rpower z0 e * i2 / e)).
  - apply der_scal. apply derivable_pt_lim_power. exact Z.
  - apply der_const.
Qed.
Lemma der_II i2 e z0 z : 0 < z -> e <> 0 -> e + 1 <> 0 ->
  derivable_pt_lim (IIterm i2 e z0) z ((Rpower z e - Rpower z0 e) * i2 / e).
Proof.
  intros Z E E1. unfold IIterm.
  apply (derivable_pt_lim_ext (fun z => i2 / (e * (e + 1)) * Rpower z (e + 1) + ((- Rpower z0 e * i2 / e) * z +
     (- Rpower z0 (e + 1) * i2 / (e * (e + 1)) + Rpower z0 e * z0 * i2 / e)))); [intros; field; auto|].
  replace ((Rpower z e - Rpower z0 e) * i2 / e) with
    (i2 / (e * (e + 1)) * ((e + 1) * Rpower z (e + 1 - 1)) + ((- Rpower z0 e * i2 / e) * 1 + 0)).
  2:{ replace (e + 1 - 1) with e by ring. field. auto. }
  apply (derivable_pt_lim_plus (fun z => i2 / (e * (e + 1)) * Rpower z (e + 1))); [apply der_scal, derivable_pt_lim_power; exact Z|].
  apply (derivable_pt_lim_plus (fun z => (- Rpower z0 e * i2 / e) * z)); [apply der_scal, derivable_pt_lim_id|apply der_const].
Qed.

(** Before the threshold, in the radiation era (R = ct): the first is the integral from z0 on of mass squared times R^n,
    the second the integral of the first *)
Theorem mass_integrals_partial c z0 n : frw c = 1 -> plain c -> 0 < z0 <= zThRes c ->
  nQcd c + n + 1 <> 0 -> nQcd c + n + 2 <> 0 ->
  exists F G, (forall z, 0 < z <= zThRes c -> IAxionMassSqn c z0 z n = Some (F z) /\ IIAxionMassSqn c z0 z n = Some (G z)) /\
    F z0 = 0 /\ G z0 = 0 /\
    (forall z, 0 < z < zThRes c -> (deriv F at z is (AxionMass2 c z * Rpower (scale c z) n)) /\ (deriv G at z is (F z))).
Proof.
  intros E P Z0 N1 N2. set (i2 := indi3 c * indi3 c). set (e1 := frw c * (nQcd c + n) + 1).
  assert (A1 : e1 <> 0) by (unfold e1; rewrite E; lra). assert (A2 : e1 + 1 <> 0) by (unfold e1; rewrite E; lra).
  exists (fun z => (Rpower z e1 - Rpower z0 e1) * i2 / e1), (IIterm i2 e1 z0).
  split; [|split; [field; exact A1|split; [unfold IIterm; field; auto|]]].
  - intros z Z. unfold IAxionMassSqn, IIAxionMassSqn. cbv zeta. fold i2 e1.
    destruct (Rlt_dec z0 z).
    + destruct (Rle_dec z (zThRes c)); [split; reflexivity|lra].
    + destruct (Rle_dec z0 (zThRes c)); [split; reflexivity|lra].
  - intros z Z. split; [|apply der_II; try assumption; lra].
    assert (S : scale c z = z) by (rewrite scale_plain, E, Rpower_1 by (assumption || lra); reflexivity).
    replace (AxionMass2 c z * Rpower (scale c z) n) with (i2 * Rpower z (e1 - 1)); [apply der_I; [lra|exact A1]|].
    unfold AxionMass2. cbv zeta. rewrite S. destruct (Rlt_dec z (zThRes c)); [|lra].
    replace (e1 - 1) with (nQcd c + n) by (unfold e1; rewrite E; ring). rewrite Rpower_plus. unfold i2.
    destruct (Rle_dec _ _); ring.
Qed.
(** After the threshold the first is not the integral, unless the threshold is 1 or the exponent 0 *)
Theorem mass_integrals_refuted c z0 z n : frw c = 1 -> plain c -> 0 < zThRes c <= z0 -> zThRes c < z <= zRestore c -> n + 1 <> 0 ->
  indi3 c <> 0 -> Rpower (zThRes c) (nQcd c) <> 1 ->
  exists F l, (forall y, zThRes c < y -> IAxionMassSqn c z0 y n = Some (F y)) /\ (deriv F at z is l) /\
    l <> AxionMass2 c z * Rpower (scale c z) n.
Proof.
  intros E P Z0 Z N I W. set (i2 := indi3 c * indi3 c). set (e2 := frw c * n + 1).
  assert (A : e2 <> 0) by (unfold e2; rewrite E; lra).
  exists (fun z => (Rpower z e2 - Rpower z0 e2) * i2 / e2), (i2 * Rpower z (e2 - 1)).
  split; [|split; [apply der_I; [lra|exact A]|]].
  - intros y Y. unfold IAxionMassSqn. cbv zeta. fold i2 e2.
    destruct (Rlt_dec z0 y).
    + destruct (Rle_dec y (zThRes c)); [lra|]. destruct (Rlt_dec z0 (zThRes c)); [lra|reflexivity].
    + destruct (Rle_dec z0 (zThRes c)); [lra|]. destruct (Rlt_dec y (zThRes c)); [lra|reflexivity].
  - assert (S : scale c z = z) by (rewrite scale_plain, E, Rpower_1 by (assumption || lra); reflexivity).
    replace (e2 - 1) with n by (unfold e2; rewrite E; ring). unfold AxionMass2. cbv zeta. rewrite S.
    destruct (Rlt_dec z (zThRes c)); [lra|]. pose proof (Rpower_pos z n) as PZ. assert (I2 : 0 < i2) by (unfold i2; nra).
    fold i2. intros H. apply W. apply Rmult_eq_reg_l with (i2 * Rpower z n); [|apply Rgt_not_eq, Rmult_lt_0_compat; assumption].
    destruct (Rle_dec (zThRes c) (zRestore c)); [|lra]. destruct (Rle_dec z (zRestore c)); [|lra]. lra.
Qed.
(** Before the threshold in any other expansion neither is: the time, and not the scale factor, is compared with it *)
Theorem mass_integrals_expansion_refuted c z0 z n : frw c <> 1 -> 0 < z0 < zThRes c -> 0 < z < zThRes c -> zThRes c < scale c z <= zRestore c ->
  frw c * (nQcd c + n) + 1 <> 0 -> indi3 c <> 0 -> 0 < nQcd c ->
  exists F l, (forall y, 0 < y < zThRes c -> IAxionMassSqn c z0 y n = Some (F y)) /\ (deriv F at z is l) /\
    l <> AxionMass2 c z * Rpower (scale c z) n.
Proof.
  intros E Z0 Z R1 N I NP. set (i2 := indi3 c * indi3 c). set (e1 := frw c * (nQcd c + n) + 1) in *.
  exists (fun z => (Rpower z e1 - Rpower z0 e1) * i2 / e1), (i2 * Rpower z (e1 - 1)).
  split; [|split; [apply der_I; [lra|exact N]|]].
  - intros y Y. unfold IAxionMassSqn. cbv zeta. fold i2 e1. destruct (Rlt_dec z0 y).
    + destruct (Rle_dec y (zThRes c)); [reflexivity|lra].
    + destruct (Rle_dec z0 (zThRes c)); [reflexivity|lra].
  - replace (Rpower z (e1 - 1)) with (Rpower (scale c z) (nQcd c + n)).
    2:{ rewrite scale_plain by (left; exact E). rewrite Rpower_mult. f_equal. unfold e1. ring. }
    unfold AxionMass2. cbv zeta. set (r := scale c z) in *. clearbody r.
    destruct (Rle_dec (zThRes c) (zRestore c)); [|lra]. destruct (Rlt_dec r (zThRes c)); [lra|]. destruct (Rle_dec r (zRestore c)); [|lra].
    rewrite Rpower_plus. fold i2. pose proof (Rpower_pos r n) as PR. assert (I2 : 0 < i2) by (unfold i2; nra).
    assert (L : Rpower (zThRes c) (nQcd c) < Rpower r (nQcd c)) by (apply Rlt_Rpower_l; lra).
    set (a := Rpower r n) in *. set (b := Rpower (zThRes c) (nQcd c)) in *. set (d := Rpower r (nQcd c)) in *. clearbody a b d i2.
    intros H. assert (K : i2 * a * (d - b) = 0) by lra. assert (0 < i2 * a * (d - b)) by (repeat apply Rmult_lt_0_compat; lra). lra.
Qed.
(** Across the threshold the second is not the integral of the first *)
Theorem second_integral_refuted c z0 z n : frw c = 1 -> 0 < z0 < zThRes c -> zThRes c < z ->
  nQcd c + n + 1 <> 0 -> n + 1 <> 0 -> n + 2 <> 0 -> indi3 c <> 0 ->
  exists F G l, (forall y, zThRes c < y -> IAxionMassSqn c z0 y n = Some (F y) /\ IIAxionMassSqn c z0 y n = Some (G y)) /\
    (deriv G at z is l) /\ l <> F z.
Proof.
  intros E Z0 Z N1 N2 N3 I. set (i2 := indi3 c * indi3 c). set (e1 := frw c * (nQcd c + n) + 1). set (e2 := frw c * n + 1).
  set (th := zThRes c) in *.
  assert (A1 : e1 <> 0) by (unfold e1; rewrite E; lra). assert (A2 : e2 <> 0) by (unfold e2; rewrite E; lra).
  assert (A3 : e2 + 1 <> 0) by (unfold e2; rewrite E; lra).
  exists (fun z => (Rpower th e1 - Rpower z0 e1) * i2 / e1 + (Rpower z e2 - Rpower th e2) * i2 / e2),
         (fun z => IIterm i2 e1 z0 th + IIterm i2 e2 th z), (0 + (Rpower z e2 - Rpower th e2) * i2 / e2).
  split; [|split].
  - intros y Y. unfold IAxionMassSqn, IIAxionMassSqn. cbv zeta. fold i2 e1 e2 th.
    destruct (Rlt_dec z0 y); [|lra]. destruct (Rle_dec y th); [lra|]. destruct (Rlt_dec z0 th); [|lra]. split; reflexivity.
  - apply (derivable_pt_lim_plus (fun _ => IIterm i2 e1 z0 th)); [apply der_const|]. apply der_II; try assumption; lra.
  - intros H. assert (K : (Rpower th e1 - Rpower z0 e1) * i2 / e1 = 0) by lra.
    assert (I2 : 0 < i2) by (unfold i2; nra).
    assert (L : Rpower th e1 = Rpower z0 e1).
    { apply Rminus_diag_uniq. replace (Rpower th e1 - Rpower z0 e1) with ((Rpower th e1 - Rpower z0 e1) * i2 / e1 * (e1 / i2)) by (field; split; [lra|exact A1]).
      rewrite K. ring. }
    unfold Rpower in L. apply exp_inv in L. pose proof (Rmult_eq_reg_l _ _ _ L A1) as L2. apply ln_inv in L2; lra.
Qed.
(** and it has no value at the threshold, coming from later times *)
Theorem second_integral_value_refuted c z0 n : zThRes c < z0 -> IIAxionMassSqn c z0 (zThRes c) n = None.
Proof.
  intros H. unfold IIAxionMassSqn. cbv zeta. destruct (Rlt_dec z0 (zThRes c)); [lra|]. destruct (Rle_dec z0 (zThRes c)); [lra|].
  destruct (Rlt_dec (zThRes c) (zThRes c)); [lra|reflexivity].
Qed.

(** ** The time step *)
Lemma div_le w a b : 0 < w -> 0 < a -> a <= b -> w / b * a <= w.
Proof.
  intros W A B. replace (w / b * a) with (w * (a / b)) by (field; lra).
  rewrite <- (Rmult_1_r w) at 2. apply Rmult_le_compat_l; [lra|].
  apply Rmult_le_reg_r with b; [lra|]. field_simplify; lra.
Qed.

Lemma fastest_pos m2 r oodl : 0 <= m2 -> 0 < oodl -> 0 < fastest m2 r oodl.
Proof. intros M O. unfold fastest. apply sqrt_lt_R0. nra. Qed.
Lemma paraxial_freq m2 r o : 0 <= m2 -> 0 < r -> 0 < o ->
  (12 * o * o) / (sqrt (12 * o * o + m2 * r * r) + sqrt m2 * r) = fastest m2 r o - sqrt m2 * r.
Proof.
  intros M R0 O. unfold fastest. replace (m2 * r ^ 2 + 12 * o ^ 2) with (12 * o * o + m2 * r * r) by ring.
  set (X := 12 * o * o + m2 * r * r). assert (PX : 0 < X) by (unfold X; nra).
  pose proof (sqrt_lt_R0 X PX) as SX. pose proof (sqrt_pos m2) as SM.
  assert (D : 0 < sqrt X + sqrt m2 * r) by nra.
  apply Rmult_eq_reg_r with (sqrt X + sqrt m2 * r); [|lra]. unfold Rdiv. rewrite Rmult_assoc, Rinv_l, Rmult_1_r by lra.
  pose proof (sqrt_sqrt X ltac:(lra)) as Q1. pose proof (sqrt_sqrt m2 M) as Q2.
  replace ((sqrt X - sqrt m2 * r) * (sqrt X + sqrt m2 * r)) with (sqrt X * sqrt X - (sqrt m2 * sqrt m2) * r * r) by ring.
  rewrite Q1, Q2. unfold X. ring.
Qed.

Lemma mass_nn c ct : 0 <= AxionMass2 c ct.
Proof.
  assert (I : 0 <= indi3 c * indi3 c) by nra. unfold AxionMass2. cbv zeta. set (i2 := indi3 c * indi3 c) in *. clearbody i2.
  repeat match goal with |- context [if ?d then _ else _] => destruct d end;
    repeat apply Rmult_le_pos; try assumption; left; apply Rpower_pos.
Qed.
Lemma lambdaP_nn c ct : 0 <= lambda c -> 0 <= LambdaP c ct.
Proof. intros L. unfold LambdaP. apply Rmult_le_pos; [exact L|]. left. apply Rinv_0_lt_compat, Rpower_pos. Qed.

Lemma raw_ok c pq w o hub k z : 0 < w -> 0 < o -> 0 < z -> 0 <= lambda c ->
  let d := rawStep c pq w o hub k z in 0 < d /\ stableStep c pq w o k z d.
Proof.
  intros W O Z L d. unfold d, rawStep, stableStep. cbv zeta.
  pose proof (mass_nn c z) as M. pose proof (scale_pos c z Z) as R0. pose proof (lambdaP_nn c z L) as LP.
  pose proof (fastest_pos (AxionMass2 c z) (scale c z) o M O) as FA.
  destruct k.
  - set (r := scale c z) in *. set (m2 := AxionMass2 c z) in *.
    set (f := match pq with KPQ2 => 2 | _ => 1 end).
    replace (sqrt (m2 * (r * r) + 12 * o * o)) with (fastest m2 r o) by (unfold fastest; f_equal; ring).
    set (mS := sqrt (2 * LambdaP c z * r * r * f * f + 12 * o * o)).
    set (mx := Rmax mS (Rmax (fastest m2 r o) hub)).
    assert (X1 : fastest m2 r o <= mx) by (apply Rle_trans with (Rmax (fastest m2 r o) hub); [apply Rmax_l|apply Rmax_r]).
    assert (X2 : mS <= mx) by apply Rmax_l.
    split; [apply Rdiv_lt_0_compat; lra|]. split; [apply div_le; assumption|].
    assert (X3 : fastest (SaxionMass2 c pq z) r o <= mS).
    { unfold fastest, mS. apply sqrt_le_1_alt. unfold SaxionMass2, f. assert (0 <= LambdaP c z * (r * r)) by (apply Rmult_le_pos; nra).
      destruct pq; nra. }
    apply div_le; [assumption| |lra]. apply fastest_pos; [|assumption]. unfold SaxionMass2. destruct pq; lra.
  - replace (sqrt (AxionMass2 c z * (scale c z * scale c z) + 12 * (o * o))) with (fastest (AxionMass2 c z) (scale c z) o)
      by (unfold fastest; f_equal; ring).
    split; [apply Rdiv_lt_0_compat; lra|]. apply div_le; lra.
  - rewrite paraxial_freq by assumption.
    assert (P : 0 < fastest (AxionMass2 c z) (scale c z) o - sqrt (AxionMass2 c z) * scale c z).
    { rewrite <- paraxial_freq by assumption. pose proof (sqrt_pos (AxionMass2 c z)).
      apply Rdiv_lt_0_compat; [nra|]. apply Rplus_lt_le_0_compat; [apply sqrt_lt_R0; nra|apply Rmult_le_pos; lra]. }
    split; [apply Rdiv_lt_0_compat; lra|]. apply div_le; lra.
Qed.

Lemma stable_less c pq w o k z d d' : 0 < o -> 0 < z -> 0 <= lambda c -> 0 < d' <= d -> stableStep c pq w o k z d -> stableStep c pq w o k z d'.
Proof.
  intros O Z L D. unfold stableStep. cbv zeta. pose proof (mass_nn c z) as M. pose proof (scale_pos c z Z) as R0. pose proof (lambdaP_nn c z L) as LP.
  pose proof (fastest_pos (AxionMass2 c z) (scale c z) o M O) as FA.
  assert (H : forall a, 0 <= a -> d * a <= w -> d' * a <= w).
  { intros a A H. apply Rle_trans with (d * a); [apply Rmult_le_compat_r; lra|exact H]. }
  destruct k.
  - intros [H1 H2]. split; apply H; auto; [lra|]. left. apply fastest_pos; [|assumption]. unfold SaxionMass2. destruct pq; lra.
  - apply H. lra.
  - apply H. rewrite <- paraxial_freq by assumption. pose proof (sqrt_pos (AxionMass2 c z)).
    left. apply Rdiv_lt_0_compat; [nra|]. apply Rplus_lt_le_0_compat; [apply sqrt_lt_R0; nra|apply Rmult_le_pos; lra].
Qed.

Lemma root_power z f : 0 < z -> f <> 0 -> Rpower (Rpower z f) (1 / f) = z.
Proof. intros Z F. rewrite Rpower_mult. replace (f * (1 / f)) with 1 by (field; exact F). apply Rpower_1. exact Z. Qed.

(** The step is positive and stable, and when a plain step would pass the threshold of the mass it ends just after it *)
Theorem step_stable_partial c pq w o hub k z : plain c -> 0 < frw c -> 0 < z -> 0 < w -> 0 < o -> 0 <= lambda c -> 0 < zThRes c ->
  let d := dzSize c pq w o hub k z in
  0 < d /\ stableStep c pq w o k z d /\
  (scale c z < zThRes c < scale c (z + rawStep c pq w o hub k z) ->
     zThRes c < scale c (z + d) /\ 1000 * (scale c (z + d) - zThRes c) = scale c (z + rawStep c pq w o hub k z) - zThRes c).
Proof.
  intros P F Z W O L TH d. unfold d, dzSize. cbv zeta.
  destruct (raw_ok c pq w o hub k z W O Z L) as [D S]. set (dr := rawStep c pq w o hub k z) in *. clearbody dr.
  destruct (Rlt_dec (scale c z) (zThRes c)) as [L1|L1]; [|split; [exact D|split; [exact S|intros; lra]]].
  destruct (Rlt_dec (zThRes c) (scale c (z + dr))) as [L2|L2]; [|split; [exact D|split; [exact S|intros; lra]]].
  destruct (Req_EM_T (frw c) 0) as [E|E]; [lra|].
  set (x := zThRes c + / 1000 * (scale c (z + dr) - zThRes c)).
  assert (X0 : 0 < x) by (unfold x; lra).
  assert (I : 0 < 1 / frw c) by (apply Rdiv_lt_0_compat; lra).
  assert (A : z < Rpower x (1 / frw c)).
  { rewrite <- (root_power z (frw c) Z E) at 1. apply Rlt_Rpower_l; [exact I|]. rewrite <- scale_plain by exact P.
    split; [apply scale_pos; exact Z|unfold x; lra]. }
  assert (B : Rpower x (1 / frw c) < z + dr).
  { rewrite <- (root_power (z + dr) (frw c) ltac:(lra) E). apply Rlt_Rpower_l; [exact I|]. rewrite <- scale_plain by exact P. unfold x; lra. }
  split; [lra|]. split; [apply (stable_less c pq w o k z dr); auto; lra|]. intros _.
  replace (z + (Rpower x (1 / frw c) - z)) with (Rpower x (1 / frw c)) by ring.
  rewrite (scale_plain c (Rpower x _) P), Rpower_mult. replace (1 / frw c * frw c) with 1 by (field; exact E). rewrite Rpower_1 by exact X0.
  unfold x. split; lra.
Qed.
(** With the matter term a step meant to end just after the threshold goes far beyond the stable one *)
Theorem step_stable_refuted c pq w o hub k z : frw c = 1 -> 0 < grav c -> 0 < z ->
  let dr := rawStep c pq w o hub k z in
  scale c z < zThRes c < scale c (z + dr) -> dr < / 4 * z * z * grav c -> dr < dzSize c pq w o hub k z.
Proof.
  intros F G Z dr [L1 L2] D. unfold dzSize. cbv zeta. fold dr. destruct (Rlt_dec _ _); [|contradiction].
  destruct (Rlt_dec _ _); [|contradiction]. destruct (Req_EM_T (frw c) 0); [lra|].
  pose proof (scale_pos c z Z) as SP.
  rewrite F. replace (1 / 1) with 1 by field. rewrite Rpower_1 by lra.
  rewrite (scale_grav c z F G) in L1, SP. set (s := scale c (z + dr)) in *. clearbody s. lra.
Qed.

(** ** The shift of the vacuum *)
Lemma cos3 x : cos (3 * x) = 4 * (cos x * cos x * cos x) - 3 * cos x.
Proof.
  replace (3 * x) with (2 * x + x) by ring. rewrite cos_plus, cos_2a_cos, sin_2a.
  pose proof (sin2_cos2 x) as H. unfold Rsqr in H. set (u := sin x) in *. set (v := cos x) in *. clearbody u v.
  assert (E : u * u = 1 - v * v) by lra. replace (2 * u * v * u) with (2 * (u * u) * v) by ring. rewrite E. ring.
Qed.
Lemma cosh3 x : cosh (3 * x) = 4 * (cosh x * cosh x * cosh x) - 3 * cosh x.
Proof.
  unfold cosh. replace (- (3 * x)) with (3 * (- x)) by ring.
  assert (E : forall y, exp (3 * y) = exp y * exp y * exp y) by (intros y; rewrite <- !exp_plus; f_equal; ring).
  rewrite !E. assert (K : exp x * exp (- x) = 1) by (rewrite <- exp_plus, Rplus_opp_r; apply exp_0).
  set (a := exp x) in *. set (b := exp (- x)) in *. clearbody a b.
  replace (4 * ((a + b) / 2 * ((a + b) / 2) * ((a + b) / 2)) - 3 * ((a + b) / 2))
    with ((a * a * a + b * b * b) / 2 + 3 / 2 * (a * b - 1) * (a + b)) by field. rewrite K. field.
Qed.
Lemma sqrt3 : sqrt 3 * sqrt 3 = 3. Proof. apply sqrt_sqrt. lra. Qed.
Lemma sqrt3_pos : 0 < sqrt 3. Proof. apply sqrt_lt_R0. lra. Qed.
(** from the angle to the root *)
Lemma root_of alpha C : 4 * (C * C * C) - 3 * C = 3 * sqrt 3 / 2 * alpha ->
  let rho := 2 / sqrt 3 * C in rho * (rho * rho - 1) = alpha.
Proof.
  intros H rho. pose proof sqrt3 as S. pose proof sqrt3_pos as P.
  assert (E : rho = 2 * sqrt 3 / 3 * C).
  { unfold rho. apply Rmult_eq_reg_l with (sqrt 3); [|lra]. replace (sqrt 3 * (2 / sqrt 3 * C)) with (2 * C) by (field; lra).
    replace (sqrt 3 * (2 * sqrt 3 / 3 * C)) with (2 * (sqrt 3 * sqrt 3) / 3 * C) by field. rewrite S. field. }
  rewrite E. set (q := sqrt 3) in *. clearbody q rho.
  replace (2 * q / 3 * C * (2 * q / 3 * C * (2 * q / 3 * C) - 1)) with (2 * q / 9 * (4 * (q * q) / 3 * (C * C * C) - 3 * C)) by field.
  rewrite S. replace (4 * 3 / 3 * (C * C * C) - 3 * C) with (4 * (C * C * C) - 3 * C) by field. rewrite H.
  replace (2 * q / 9 * (3 * q / 2 * alpha)) with ((q * q) / 3 * alpha) by field. rewrite S. field.
Qed.

Lemma angle alpha : 0 <= alpha -> 0 < 4 / 3 - 9 * alpha * alpha ->
  let th := atan2pos (sqrt (4 / 3 - 9 * alpha * alpha)) (3 * alpha) in 0 <= th <= PI / 2 /\ cos th = 3 * sqrt 3 / 2 * alpha.
Proof.
  intros A D th. unfold th, atan2pos. pose proof PI_RGT_0 as PI0. destruct (Req_EM_T (3 * alpha) 0) as [E|E].
  - split; [lra|]. rewrite cos_PI2. assert (alpha = 0) by lra. subst alpha. ring.
  - assert (A0 : 0 < alpha) by lra. set (dd := 4 / 3 - 9 * alpha * alpha) in *.
    pose proof (sqrt_lt_R0 dd D) as SD. set (t := sqrt dd / (3 * alpha)).
    assert (T0 : 0 < t) by (apply Rdiv_lt_0_compat; lra).
    split; [split; [|left; apply atan_bound]|].
    + rewrite <- atan_0. left. apply atan_increasing. exact T0.
    + rewrite cos_atan. unfold Rsqr.
      assert (Q : 1 + t * t = (2 * sqrt 3 / (9 * alpha)) * (2 * sqrt 3 / (9 * alpha))).
      { unfold t. replace (sqrt dd / (3 * alpha) * (sqrt dd / (3 * alpha))) with ((sqrt dd * sqrt dd) / (9 * alpha * alpha)) by (field; lra).
        rewrite (sqrt_sqrt dd) by lra. replace (2 * sqrt 3 / (9 * alpha) * (2 * sqrt 3 / (9 * alpha))) with (4 * (sqrt 3 * sqrt 3) / (81 * alpha * alpha)) by (field; lra).
        rewrite sqrt3. unfold dd. field. lra. }
      rewrite Q. pose proof sqrt3_pos as P. rewrite sqrt_square by (left; apply Rdiv_lt_0_compat; lra).
      apply Rmult_eq_reg_l with (2 * sqrt 3); [|lra]. replace (2 * sqrt 3 * (1 / (2 * sqrt 3 / (9 * alpha)))) with (9 * alpha) by (field; lra).
      replace (2 * sqrt 3 * (3 * sqrt 3 / 2 * alpha)) with (3 * (sqrt 3 * sqrt 3) * alpha) by field. rewrite sqrt3. ring.
Qed.

Lemma cosh_ge1 x : 1 <= cosh x.
Proof.
  unfold cosh. assert (K : exp x * exp (- x) = 1) by (rewrite <- exp_plus, Rplus_opp_r; apply exp_0).
  set (a := exp x) in *. set (b := exp (- x)) in *. pose proof (exp_pos x : 0 < a). pose proof (exp_pos (- x) : 0 < b). clearbody a b.
  pose proof (Rle_0_sqr (a - b)) as Q. unfold Rsqr in Q. destruct (Rle_dec 2 (a + b)) as [G|G]; [lra|exfalso].
  assert (X : (a + b) * (a + b) < 2 * 2) by (apply Rmult_le_0_lt_compat; lra). lra.
Qed.
Lemma rapidity alpha : 0 < alpha -> 4 / 3 - 9 * alpha * alpha <= 0 ->
  cosh (atanhR (sqrt (- (4 / 3 - 9 * alpha * alpha)) / (3 * alpha))) = 3 * sqrt 3 / 2 * alpha.
Proof.
  intros A D. set (dd := - (4 / 3 - 9 * alpha * alpha)) in *. assert (DD : 0 <= dd) by (unfold dd; lra).
  set (t := sqrt dd / (3 * alpha)). pose proof (sqrt_pos dd) as SD. pose proof (sqrt_sqrt dd DD) as SS.
  assert (T0 : 0 <= t) by (apply Rmult_le_pos; [exact SD|]; left; apply Rinv_0_lt_compat; lra).
  assert (T2 : t * t = 1 - 4 / (27 * alpha * alpha)).
  { unfold t. replace (sqrt dd / (3 * alpha) * (sqrt dd / (3 * alpha))) with ((sqrt dd * sqrt dd) / (9 * alpha * alpha)) by (field; lra).
    rewrite SS. unfold dd. field. lra. }
  assert (Q : 0 < 4 / (27 * alpha * alpha)) by (apply Rdiv_lt_0_compat; nra).
  assert (T1 : t < 1) by (clearbody t; set (q := 4 / (27 * alpha * alpha)) in *; clearbody q; nra).
  set (u := atanhR t).
  assert (E2 : exp u * exp u = (1 + t) / (1 - t)).
  { rewrite <- exp_plus. unfold u, atanhR. replace (/ 2 * ln ((1 + t) / (1 - t)) + / 2 * ln ((1 + t) / (1 - t))) with (ln ((1 + t) / (1 - t))) by field.
    apply exp_ln. apply Rdiv_lt_0_compat; lra. }
  assert (K : exp u * exp (- u) = 1) by (rewrite <- exp_plus, Rplus_opp_r; apply exp_0).
  pose proof (exp_pos u) as P1. pose proof (exp_pos (- u)) as P2. pose proof sqrt3_pos as P3.
  assert (F2 : exp (- u) * exp (- u) = (1 - t) / (1 + t)).
  { apply Rmult_eq_reg_l with (exp u * exp u); [|nra]. rewrite E2 at 2.
    replace (exp u * exp u * (exp (- u) * exp (- u))) with ((exp u * exp (- u)) * (exp u * exp (- u))) by ring. rewrite K. field. lra. }
  assert (C2 : cosh u * cosh u = (3 * sqrt 3 / 2 * alpha) * (3 * sqrt 3 / 2 * alpha)).
  { unfold cosh. replace ((exp u + exp (- u)) / 2 * ((exp u + exp (- u)) / 2)) with
      ((exp u * exp u + 2 * (exp u * exp (- u)) + exp (- u) * exp (- u)) / 4) by field.
    rewrite E2, F2, K.
    replace (((1 + t) / (1 - t) + 2 * 1 + (1 - t) / (1 + t)) / 4) with (1 / (1 - t * t)) by (field; split; [|split]; nra).
    rewrite T2. replace (3 * sqrt 3 / 2 * alpha * (3 * sqrt 3 / 2 * alpha)) with (9 * (sqrt 3 * sqrt 3) / 4 * alpha * alpha) by field.
    rewrite sqrt3. field. split; [lra|]. nra. }
  pose proof (cosh_ge1 u) as G. assert (0 < 3 * sqrt 3 / 2 * alpha) by (apply Rmult_lt_0_compat; lra).
  apply Rsqr_inj; [lra|lra|]. unfold Rsqr. exact C2.
Qed.

Lemma shift_root alpha : 0 <= alpha -> let rho := 1 + SaxionShift alpha in rho * (rho * rho - 1) = alpha /\ 1 <= rho.
Proof.
  intros A rho. pose proof sqrt3_pos as P. pose proof sqrt3 as S.
  assert (G : forall C, sqrt 3 / 2 <= C -> 1 <= 2 / sqrt 3 * C).
  { intros C H. apply Rle_trans with (2 / sqrt 3 * (sqrt 3 / 2)); [right; field; lra|].
    apply Rmult_le_compat_l; [left; apply Rdiv_lt_0_compat; lra|exact H]. }
  unfold rho, SaxionShift. cbv zeta. destruct (Rlt_dec 0 (4 / 3 - 9 * alpha * alpha)) as [D|D].
  - destruct (angle alpha A D) as [[T0 T1] TC]. set (th := atan2pos _ _) in *. clearbody th.
    replace (1 + (2 / sqrt 3 * cos (th / 3) - 1)) with (2 / sqrt 3 * cos (th / 3)) by ring. split.
    + apply root_of. rewrite <- cos3. replace (3 * (th / 3)) with th by field. exact TC.
    + apply G. rewrite <- cos_PI6. pose proof PI_RGT_0. apply cos_decr_1; lra.
  - assert (A0 : 0 < alpha) by nra. pose proof (rapidity alpha A0 ltac:(lra)) as TC. set (u := atanhR _) in *. clearbody u.
    replace (1 + (2 / sqrt 3 * cosh (u / 3) - 1)) with (2 / sqrt 3 * cosh (u / 3)) by ring. split.
    + apply root_of. rewrite <- cosh3. replace (3 * (u / 3)) with u by field. exact TC.
    + apply G. apply Rle_trans with 1; [|apply cosh_ge1]. assert (sqrt 3 < 2) by nra. lra.
Qed.

(** 1 plus the shift is the place of the vacuum: the one stationary point of the tilted potential with rho >= 1 *)
Theorem vacuum_shift lam m2 : 0 < lam -> 0 <= m2 ->
  let rho := 1 + SaxionShift (m2 / lam) in
  stationary lam m2 rho /\ 1 <= rho /\ (forall r, 1 <= r -> stationary lam m2 r -> r = rho).
Proof.
  intros L M rho. assert (A : 0 <= m2 / lam) by (apply Rmult_le_pos; [exact M|]; left; apply Rinv_0_lt_compat; exact L).
  destruct (shift_root (m2 / lam) A) as [E G]. fold rho in E, G. split; [|split; [exact G|]].
  - unfold stationary. replace (lam * rho * (rho * rho - 1)) with (lam * (rho * (rho * rho - 1))) by ring. rewrite E. field. lra.
  - intros r R1 S. unfold stationary in S. assert (H : r * (r * r - 1) = m2 / lam).
    { apply Rmult_eq_reg_l with lam; [|lra]. replace (lam * (m2 / lam)) with m2 by (field; lra). lra. }
    rewrite <- E in H. assert (K : (r - rho) * (r * r + r * rho + rho * rho - 1) = 0) by (ring_simplify; ring_simplify in H; lra).
    apply Rmult_integral in K. destruct K as [K|K]; [lra|exfalso].
    assert (1 * 1 <= r * r) by (apply Rmult_le_compat; lra). assert (1 * 1 <= r * rho) by (apply Rmult_le_compat; lra).
    assert (1 * 1 <= rho * rho) by (apply Rmult_le_compat; lra). lra.
Qed.

Lemma vacuum_eq lam m2 lam' m2' : 0 < lam -> 0 <= m2 -> 0 < lam' -> 0 <= m2' ->
  SaxionShift (m2 / lam) = SaxionShift (m2' / lam') -> m2 / lam = m2' / lam'.
Proof.
  intros L M L' M' E. assert (A : forall l m, 0 < l -> 0 <= m -> 0 <= m / l) by (intros; apply Rmult_le_pos; [|left; apply Rinv_0_lt_compat]; assumption).
  destruct (shift_root _ (A lam m2 L M)) as [P _]. destruct (shift_root _ (A lam' m2' L' M')) as [Q _]. rewrite E in P. lra.
Qed.

(** The field's shift is the vacuum of its own time *)
Theorem field_shift_partial c pq now : pq = KPQ1 \/ pq = KPQ3 -> 0 < lambda c ->
  let rho := 1 + Saskia c pq now in
  stationary (LambdaP c now) (AxionMass2 c now) rho /\ 1 <= rho /\
  (forall r, 1 <= r -> stationary (LambdaP c now) (AxionMass2 c now) r -> r = rho).
Proof.
  intros P L rho. assert (LP : 0 < LambdaP c now) by (unfold LambdaP; apply Rdiv_lt_0_compat; [exact L|apply Rpower_pos]).
  unfold rho, Saskia. cbv zeta. destruct P as [-> | ->]; apply vacuum_shift; auto using mass_nn.
Qed.
(** but asking for another time gives that of the field's *)
Theorem shift_at_time_refuted c pq now asked : pq = KPQ1 \/ pq = KPQ3 -> 0 < lambda c ->
  AxionMass2 c now / LambdaP c now <> AxionMass2 c asked / LambdaP c asked ->
  ~ stationary (LambdaP c asked) (AxionMass2 c asked) (1 + SaskiaAt c pq now asked).
Proof.
  intros P L N S. assert (LP : forall t, 0 < LambdaP c t) by (intros; unfold LambdaP; apply Rdiv_lt_0_compat; [exact L|apply Rpower_pos]).
  destruct (field_shift_partial c pq now P L) as (_ & G & _). destruct (vacuum_shift _ _ (LP asked) (mass_nn c asked)) as (_ & _ & U).
  apply U in S; [|exact G]. unfold SaskiaAt, Saskia in S. cbv zeta in S. apply N.
  apply vacuum_eq; auto using mass_nn. destruct P as [-> | ->]; lra.
Qed.
(** and with the second potential it stays below 0.5858 however strong the tilt, so it is no vacuum *)
Lemma rsv_bound a : 0 <= a -> 0 <= rsvPQ2 a <= 0.5858.
Proof.
  intros A. unfold rsvPQ2. cbv zeta. set (b := a * a). assert (B : 0 <= b) by (unfold b; nra).
  assert (C : 0 <= b * a) by (apply Rmult_le_pos; assumption). assert (D : 0 <= b * b) by (apply Rmult_le_pos; assumption).
  set (x := b * a) in *. set (y := b * b) in *. clearbody x y b.
  set (q := 1 + _ + _ + _ + _). assert (Q : 0 < q) by (unfold q; lra). split.
  - apply Rmult_le_pos; [lra|left; apply Rinv_0_lt_compat; exact Q].
  - apply Rmult_le_reg_r with q; [exact Q|]. unfold Rdiv. rewrite Rmult_assoc, Rinv_l, Rmult_1_r by lra. unfold q. lra.
Qed.
Theorem second_shift_refuted c now : 0 < lambda c -> 43 * LambdaP c now < AxionMass2 c now ->
  ~ stationary2 (LambdaP c now) (AxionMass2 c now) (1 + Saskia c KPQ2 now).
Proof.
  intros L H. assert (LP : 0 < LambdaP c now) by (unfold LambdaP; apply Rdiv_lt_0_compat; [exact L|apply Rpower_pos]).
  unfold stationary2, Saskia. cbv zeta. set (lam := LambdaP c now) in *. set (m2 := AxionMass2 c now) in *. clearbody lam m2.
  assert (A : 0 <= m2 / lam) by (apply Rmult_le_pos; [lra|left; apply Rinv_0_lt_compat; exact LP]).
  pose proof (rsv_bound _ A) as B. set (x := 1 + rsvPQ2 (m2 / lam)). assert (X : 1 <= x <= 1.5858) by (unfold x; lra). clearbody x. intros S.
  assert (X2 : 1 <= x * x <= 2.51477) by (split; [|apply Rle_trans with (1.5858 * 1.5858); [apply Rmult_le_compat; lra|lra]]; nra).
  assert (X3 : 1 <= x * x * x <= 3.98793) by (split; [|apply Rle_trans with (2.51477 * 1.5858); [apply Rmult_le_compat; lra|lra]]; nra).
  assert (X4 : 1 <= x * x * x * x <= 6.3241) by (split; [|apply Rle_trans with (3.98793 * 1.5858); [apply Rmult_le_compat; lra|lra]]; nra).
  set (u := x * x * x) in *. set (v := u * x - 1) in *. assert (V : 0 <= v <= 5.3241) by (unfold v; lra). clearbody u v.
  assert (UV : u * v <= 3.98793 * 5.3241) by (apply Rmult_le_compat; lra).
  replace (2 * lam * u * v) with (2 * lam * (u * v)) in S by ring.
  assert (lam * (u * v) <= lam * 21.5) by (apply Rmult_le_compat_l; lra). lra.
Qed.

(** ** Cases *)
Definition exS : cosmo := Cosmo 1 0 2 7 7 3 5 10 0.
Example ex_int : frw exS = 1 /\ plain exS /\ 0 < 1 <= zThRes exS /\ nQcd exS + 2 + 1 <> 0 /\ nQcd exS + 2 + 2 <> 0.
Proof. cbn. unfold plain. cbn. repeat split; lra. Qed.
Example ex_no_value : IIAxionMassSqn exS 4 3 2 = None. Proof. exact (second_integral_value_refuted exS 4 2 ltac:(cbn; lra)). Qed.
(** a step that crosses the threshold: R = ct, step 1 from 2.5 *)
Example ex_cross : let c := Cosmo 1 0 0 7 7 3 5 10 0 in
  rawStep c KPQ1 (sqrt 12) 1 0 StAxion (5 / 2) = 1 /\ scale c (5 / 2) < zThRes c < scale c (5 / 2 + 1).
Proof.
  intros c. assert (P : plain c) by (right; cbn; lra). rewrite !scale_plain by exact P. cbn [frw c zThRes].
  rewrite !Rpower_1 by lra. split; [|lra]. unfold rawStep. cbv zeta. replace (AxionMass2 c (5 / 2)) with 0.
  - replace (0 * (scale c (5 / 2) * scale c (5 / 2)) + 12 * (1 * 1)) with 12 by ring. field. apply Rgt_not_eq, sqrt_lt_R0. lra.
  - unfold AxionMass2. cbn [indi3 c]. repeat match goal with |- context [if ?d then _ else _] => destruct d end; ring.
Qed.
Example ex_shift : 1 + SaxionShift 0 = 1.
Proof.
  destruct (vacuum_shift 1 0 ltac:(lra) ltac:(lra)) as (_ & _ & U). replace (0 / 1) with 0 in U by field.
  symmetry. apply U; [lra|]. unfold stationary. ring.
Qed.
(** rho = 2 for m2 / lam = 6 (the branch with cosh) *)
Example ex_shift6 : SaxionShift 6 = 1.
Proof.
  destruct (vacuum_shift 1 6 ltac:(lra) ltac:(lra)) as (_ & _ & U). replace (6 / 1) with 6 in U by field.
  specialize (U 2 ltac:(lra) ltac:(unfold stationary; ring)). lra.
Qed.

Lemma exS_alpha t : 0 < t < 3 -> AxionMass2 exS t / LambdaP exS t = 2 / 5 * Rpower t 7.
Proof.
  intros T. assert (P : plain exS) by (right; cbn; lra).
  assert (S : scale exS t = t) by (rewrite scale_plain by exact P; cbn [frw exS]; apply Rpower_1; lra).
  unfold AxionMass2, LambdaP. cbv zeta. rewrite S. cbn [zThRes zRestore indi3 nQcd lambda lz2e exS].
  destruct (Rle_dec 3 5); [|lra]. destruct (Rlt_dec t 3); [|lra]. rewrite Rpower_O by lra. field.
Qed.
Example ex_other_time : 0 < lambda exS /\ AxionMass2 exS 1 / LambdaP exS 1 <> AxionMass2 exS 2 / LambdaP exS 2.
Proof.
  split; [cbn; lra|]. rewrite !exS_alpha by lra. rewrite Rpower_one. assert (1 < Rpower 2 7); [|lra].
  rewrite <- (Rpower_one 7). apply Rlt_Rpower_l; lra.
Qed.
Example ex_tilt : 43 * LambdaP exS 2 < AxionMass2 exS 2.
Proof.
  assert (H : AxionMass2 exS 2 / LambdaP exS 2 = 2 / 5 * 128).
  { rewrite exS_alpha by lra. f_equal. replace 7 with (INR 7) by (cbn; lra). rewrite Rpower_pow by lra. cbn. lra. }
  assert (L : LambdaP exS 2 = 10).
  { unfold LambdaP. cbn [lambda lz2e exS]. rewrite Rpower_O; [field|]. apply scale_pos. lra. }
  rewrite L in *. lra.
Qed.

Print Assumptions mass_integrals_partial. Print Assumptions mass_integrals_refuted. Print Assumptions second_integral_refuted.
Print Assumptions second_integral_value_refuted. Print Assumptions step_stable_partial. Print Assumptions step_stable_refuted.
Print Assumptions vacuum_shift. Print Assumptions mass_integrals_expansion_refuted. Print Assumptions field_shift_partial.
Print Assumptions shift_at_time_refuted. Print Assumptions second_shift_refuted.
