(** Theorems about the WKB transport of one mode. *)
From Coq Require Import Lqa Lra Reals List Arith ZArith Lia Bool.
From Verif Require Import CosmoModel CosmoSpec CosmoProofs ConserveProofs PaxProofs SplineModel SplineSpec WkbModel WkbSpec WkbProofs.
Import ListNotations.
Open Scope R_scope.
Ltac Zify.zify_post_hook ::= idtac.

(** ** C98 *)
Lemma massPhase_still c z : nIni c z = nEnd c z -> massPhase c z z = 0.
Proof. intros E. unfold massPhase. rewrite E. destruct (Rlt_dec z (zThRes c)) as [A|A]; destruct (Rlt_dec (zThRes c) z) as [B|B]; try (exfalso; lra); unfold Rdiv; ring. Qed.
Lemma n_same c z : z <> zThRes c \/ nQcd c = 0 -> nIni c z = nEnd c z.
Proof.
  intros H. unfold nIni, nEnd. destruct (Rle_dec (zThRes c) z), (Rlt_dec (zThRes c) z); try reflexivity; try lra.
Qed.
Lemma modeStep_still w z M D : 0 < w -> modeStep w w z z (1, 0) M D = (M, D).
Proof.
  intros W. rewrite modeStep_parts by lra. replace (w / w) with 1 by (field; lra). rewrite sqrt_1. destruct M as [mr mi], D as [dr di]. unfold along, across. cbn [fst snd].
  f_equal; f_equal; field; lra.
Qed.
(** Transport over no time leaves a mode as it is, unless the mass freezes at that very time *)
Theorem mode_still_partial : forall c phase z k2 M D, 0 < freq c k2 z -> phase k2 = 0 -> z <> zThRes c \/ nQcd c = 0 -> modeInplace c phase z z k2 M D = (M, D).
Proof.
  intros c phase z k2 M D W P N. unfold modeInplace. rewrite cmul_cis, P, (massPhase_still c z) by (apply n_same, N). rewrite (n_same c z N).
  unfold cis. rewrite Rplus_0_l, cos_0, sin_0. apply modeStep_still, W.
Qed.
Definition frozenNow : cosmo := Cosmo 1 0 (4 * PI) 4 0 1 0 1 0.
(** There it can turn the field round *)
Theorem mode_still_refuted : exists c z, radiation c /\ 0 < z /\ 0 < freq c 0 z /\ fst (modeInplace c (fun _ => 0) z z 0 (1, 0) (0, 0)) = (-1, 0).
Proof.
  exists frozenNow, 1. pose proof PI_RGT_0 as PP.
  assert (M2 : AxionMass2 frozenNow 1 = (4 * PI) * (4 * PI)).
  { unfold AxionMass2. rewrite scale_radiation by (lra || (split; cbn; lra)). cbn [zThRes zRestore indi3 nQcd frozenNow]. destruct (Rle_dec 1 0); [lra|]. destruct (Rlt_dec 1 1); [lra|]. rewrite Rpower_base_1 || (unfold Rpower; rewrite ln_1, Rmult_0_r, exp_0). ring. }
  assert (MA : mass frozenNow 1 = 4 * PI) by (unfold mass; rewrite M2; apply sqrt_square; lra).
  assert (W : freq frozenNow 0 1 = 4 * PI) by (unfold freq; rewrite MA; replace (0 + 4 * PI * 1 * (4 * PI * 1)) with (4 * PI * (4 * PI)) by ring; apply sqrt_square; lra).
  split; [split; cbn; lra|]. split; [lra|]. split; [rewrite W; lra|].
  assert (MP : massPhase frozenNow 1 1 = - PI).
  { unfold massPhase. rewrite MA. unfold nEnd, nIni. cbn [zThRes nQcd frozenNow]. destruct (Rlt_dec 1 1); [lra|]. destruct (Rle_dec 1 1); [|lra]. lra. }
  unfold modeInplace. rewrite cmul_cis, MP, W, Rplus_0_l. unfold cis. rewrite cos_neg, sin_neg, cos_PI, sin_PI.
  rewrite modeStep_parts by lra. cbn [fst snd]. replace (4 * PI / (4 * PI)) with 1 by (field; lra). rewrite sqrt_1. unfold along, across. f_equal; field; lra.
Qed.
(** The transport acts with real coefficients: a mode and its opposite stay conjugate, so a real field stays real *)
Theorem mode_real : forall c phase zI zE k2 M D, 0 < freq c k2 zI ->
  modeInplace c phase zI zE k2 (conjC M) (conjC D) = (conjC (fst (modeInplace c phase zI zE k2 M D)), conjC (snd (modeInplace c phase zI zE k2 M D))).
Proof.
  intros c phase zI zE k2 M D W. unfold modeInplace. rewrite cmul_cis. unfold cis. rewrite !modeStep_parts by lra. destruct M as [mr mi], D as [dr di]. unfold conjC, along, across. cbn [fst snd].
  f_equal; f_equal; ring.
Qed.
Theorem mode_real_two : forall F c zI zE still k2 M D, 0 < k2 + AxionMass2 c zI * zI * zI ->
  modeTwo F c zI zE still k2 (conjC M) (conjC D) = (conjC (fst (modeTwo F c zI zE still k2 M D)), conjC (snd (modeTwo F c zI zE still k2 M D))).
Proof.
  intros F c zI zE still k2 M D W. unfold modeTwo, cis. pose proof (sqrt_lt_R0 _ W) as S. rewrite !modeStep_parts by lra. destruct M as [mr mi], D as [dr di]. unfold conjC, along, across. cbn [fst snd].
  f_equal; f_equal; ring.
Qed.
(** Sums and multiples of modes are transported as such *)
Theorem mode_linear : forall c phase zI zE k2 a b M D M' D', 0 < freq c k2 zI ->
  let T := modeInplace c phase zI zE k2 in
  T (addC (scaleC a M) (scaleC b M')) (addC (scaleC a D) (scaleC b D')) =
  (addC (scaleC a (fst (T M D))) (scaleC b (fst (T M' D'))), addC (scaleC a (snd (T M D))) (scaleC b (snd (T M' D')))).
Proof.
  intros c phase zI zE k2 a b M D M' D' W T. unfold T, modeInplace. rewrite cmul_cis. unfold cis. rewrite !modeStep_parts by lra. destruct M as [mr mi], D as [dr di], M' as [nr ni], D' as [er ei].
  unfold addC, scaleC, along, across. cbn [fst snd]. f_equal; f_equal; ring.
Qed.
Lemma modeStep_wronskian w1 w2 z1 z2 a M D N E : 0 < w1 -> 0 < w2 ->
  wronskian (modeStep w1 w2 z1 z2 (cis a) M D) (modeStep w1 w2 z1 z2 (cis a) N E) = wronskian (M, D) (N, E).
Proof.
  intros W1 W2. unfold cis. rewrite !modeStep_parts by lra. set (o := sqrt (w1 / w2)).
  assert (O : o * o * w2 = w1) by (unfold o; rewrite sqrt_sqrt by (left; apply Rdiv_lt_0_compat; lra); field; lra).
  pose proof (sin2_cos2 a) as T. unfold Rsqr in T. set (s := sin a) in *. set (k := cos a) in *.
  destruct M as [mr mi], D as [dr di], N as [nr ni], E as [er ei].
  assert (K : forall x y u v, w2 * (along o z1 s k w1 x y * (across o z1 s k w1 u v - z2 * along o z1 s k w1 u v) - along o z1 s k w1 u v * (across o z1 s k w1 x y - z2 * along o z1 s k w1 x y)) = x * v - u * y).
  { intros x y u v. unfold along, across. transitivity (o * o * w2 * ((s * s + k * k) / w1 * (x * v - u * y))); [field; lra|]. rewrite O, T. field. lra. }
  pose proof (K mr dr nr er) as K1. pose proof (K mi di ni ei) as K2. pose proof (K mr dr ni ei) as K3. pose proof (K mi di nr er) as K4.
  unfold wronskian, subC, mulC. cbn [fst snd].
  set (A := along o z1 s k w1 mr dr) in *. set (B := along o z1 s k w1 mi di) in *. set (C := along o z1 s k w1 nr er) in *. set (D := along o z1 s k w1 ni ei) in *.
  set (A' := across o z1 s k w1 mr dr) in *. set (B' := across o z1 s k w1 mi di) in *. set (C' := across o z1 s k w1 nr er) in *. set (D' := across o z1 s k w1 ni ei) in *.
  f_equal.
  - transitivity ((w2 * (A * (C' - z2 * C) - C * (A' - z2 * A))) - (w2 * (B * (D' - z2 * D) - D * (B' - z2 * B)))); [ring|]. rewrite K1, K2. ring.
  - transitivity ((w2 * (A * (D' - z2 * D) - D * (A' - z2 * A))) + (w2 * (B * (C' - z2 * C) - C * (B' - z2 * B)))); [ring|]. rewrite K3, K4. ring.
Qed.
(** The Wronskian of two solutions is kept: areas in phase space neither grow nor shrink *)
Theorem wronskian_kept : forall c phase zI zE k2 M D N E, 0 < freq c k2 zI -> 0 < freq c k2 zE ->
  wronskian (modeInplace c phase zI zE k2 M D) (modeInplace c phase zI zE k2 N E) = wronskian (M, D) (N, E).
Proof. intros. unfold modeInplace. rewrite cmul_cis. apply modeStep_wronskian; assumption. Qed.
Theorem wronskian_kept_two : forall F c zI zE still k2 M D N E, 0 < k2 + AxionMass2 c zI * zI * zI -> 0 < k2 + AxionMass2 c zE * zE * zE ->
  wronskian (modeTwo F c zI zE still k2 M D) (modeTwo F c zI zE still k2 N E) = wronskian (M, D) (N, E).
Proof. intros. unfold modeTwo. apply modeStep_wronskian; apply sqrt_lt_R0; assumption. Qed.
Lemma modeStep_compose w1 w2 w3 z1 z2 z3 a b M D : 0 < w1 -> 0 < w2 -> 0 < w3 ->
  modeStep w2 w3 z2 z3 (cis b) (fst (modeStep w1 w2 z1 z2 (cis a) M D)) (snd (modeStep w1 w2 z1 z2 (cis a) M D)) = modeStep w1 w3 z1 z3 (cis (a + b)) M D.
Proof.
  intros W1 W2 W3. unfold cis. rewrite !modeStep_parts by lra.
  assert (O : sqrt (w2 / w3) * sqrt (w1 / w2) = sqrt (w1 / w3)).
  { rewrite <- sqrt_mult by (left; apply Rdiv_lt_0_compat; lra). f_equal. field. split; lra. }
  rewrite cos_plus, sin_plus. set (o2 := sqrt (w2 / w3)) in *. set (o1 := sqrt (w1 / w2)) in *. cbv zeta. rewrite <- O.
  destruct M as [mr mi], D as [dr di]. cbn [fst snd]. unfold along, across.
  f_equal; f_equal; field; lra.
Qed.
Lemma massPhase_adds c zI zM zE : zI <= zM <= zE -> nEnd c zM = nIni c zM -> massPhase c zI zM + massPhase c zM zE = massPhase c zI zE.
Proof.
  intros O E. unfold massPhase. rewrite E.
  assert (K : (zM < zThRes c /\ nIni c zM = nIni c zI) \/ (zM = zThRes c /\ nIni c zI = nEnd c zE) \/ (zThRes c < zM /\ nIni c zM = nEnd c zE)).
  { destruct (Rtotal_order zM (zThRes c)) as [L|[Q|G]]; [left|right; left|right; right]; (split; [assumption|]); unfold nIni, nEnd in *.
    - destruct (Rle_dec (zThRes c) zM), (Rle_dec (zThRes c) zI); (reflexivity || lra).
    - destruct (Rlt_dec (zThRes c) zM), (Rle_dec (zThRes c) zM), (Rle_dec (zThRes c) zI), (Rlt_dec (zThRes c) zE); lra.
    - destruct (Rle_dec (zThRes c) zM), (Rlt_dec (zThRes c) zE); (reflexivity || lra). }
  destruct K as [[L K]|[[L K]|[L K]]]; rewrite K; repeat match goal with |- context [Rlt_dec ?a ?b] => destruct (Rlt_dec a b) end; try (exfalso; lra); unfold Rdiv; ring.
Qed.
(** Two transports in a row are one, if the phases add up and the mass does not freeze at the time in between *)
Theorem mode_composes_partial : forall c p q r zI zM zE k2 M D, 0 < freq c k2 zI -> 0 < freq c k2 zM -> 0 < freq c k2 zE -> zI <= zM <= zE -> zM <> zThRes c \/ nQcd c = 0 ->
  p k2 + q k2 = r k2 ->
  modeInplace c q zM zE k2 (fst (modeInplace c p zI zM k2 M D)) (snd (modeInplace c p zI zM k2 M D)) = modeInplace c r zI zE k2 M D.
Proof.
  intros c p q r zI zM zE k2 M D W1 W2 W3 O N P. pose proof (n_same c zM N) as E. unfold modeInplace. rewrite !cmul_cis, E. rewrite modeStep_compose by assumption.
  f_equal. f_equal. rewrite <- P, <- (massPhase_adds c zI zM zE O (eq_sym E)). ring.
Qed.
Lemma inside_freq c i n z k2 : radiation c -> inEra c i n z -> 0 <= k2 -> 0 < k2 + mz i n z * mz i n z -> 0 < freq c k2 z.
Proof. intros Ra H K P. rewrite (era_freq c i n z k2 Ra H). apply omega_pos, P. Qed.
Lemma mass_nonzero i n k2 z : i <> 0 -> 0 < z -> 0 <= k2 -> 0 < k2 + mz i n z * mz i n z.
Proof.
  intros I Z K. assert (E : mz i n z <> 0).
  { unfold mz. apply Rmult_integral_contrapositive_currified; [apply Rmult_integral_contrapositive_currified; [exact I|]|lra]. apply Rgt_not_eq, exp_pos. }
  pose proof (Rsqr_pos_lt _ E) as S. unfold Rsqr in S. lra.
Qed.
Lemma mode_near c i n phi p zI zE k2 M D : radiation c -> inEra c i n zE -> (forall t, phi t = p t k2 + massPhase c zI t) -> 0 < freq c k2 zI -> 0 <= k2 -> i <> 0 ->
  exists e, 0 < e /\ forall t, Rabs (t - zE) < e ->
    modeInplace c (p t) zI t k2 M D =
    (let a := sqrt (freq c k2 zI / omega i n k2 t) in
     let z1 := zeta c (nIni c zI) k2 zI in
     let m := (along a z1 (sin (phi t)) (cos (phi t)) (freq c k2 zI) (fst M) (fst D), along a z1 (sin (phi t)) (cos (phi t)) (freq c k2 zI) (snd M) (snd D)) in
     let q := (across a z1 (sin (phi t)) (cos (phi t)) (freq c k2 zI) (fst M) (fst D), across a z1 (sin (phi t)) (cos (phi t)) (freq c k2 zI) (snd M) (snd D)) in
     (m, (omega i n k2 t * fst q - lograte i n k2 t * fst m, omega i n k2 t * snd q - lograte i n k2 t * snd m))).
Proof.
  intros Ra H P W K I. destruct (era_open c i n zE H) as [e [E0 Op]]. exists e. split; [exact E0|]. intros t T. specialize (Op t T).
  pose proof (era_pos _ _ _ _ Op) as Z. pose proof (mass_nonzero i n k2 t I Z K) as MN. pose proof (omega_pos _ _ _ _ MN) as OP.
  unfold modeInplace. rewrite cmul_cis, <- P, (era_freq c i n t k2 Ra Op), (era_nEnd c i n t Op), (era_zeta c i n t k2 Ra Op OP). unfold cis. rewrite modeStep_parts by lra. cbv zeta. cbn [fst snd].
  f_equal. f_equal; field; lra.
Qed.
Lemma near_both (f g : R -> cx) z l e : 0 < e -> (forall t, Rabs (t - z) < e -> f t = g t) -> derivC f z l -> derivC g z l.
Proof.
  intros E H [A B]. split; [refine (dl_near _ _ _ _ e E _ A)|refine (dl_near _ _ _ _ e E _ B)]; intros t T; cbv beta; rewrite (H t T); reflexivity.
Qed.
(** The velocity given is the rate of the field given, whenever the phase grows as the frequency *)
Theorem velocity_is_rate : forall c i n p zI zE k2 M D, radiation c -> inEra c i n zE -> i <> 0 -> 0 <= k2 -> 0 < freq c k2 zI ->
  derivable_pt_lim (fun t => p t k2 + massPhase c zI t) zE (omega i n k2 zE) ->
  derivC (fun t => fst (modeInplace c (p t) zI t k2 M D)) zE (snd (modeInplace c (p zE) zI zE k2 M D)).
Proof.
  intros c i n p zI zE k2 M D Ra H I K W Dp. destruct (mode_near c i n (fun t => p t k2 + massPhase c zI t) p zI zE k2 M D Ra H (fun _ => eq_refl) W K I) as [e [E0 N]].
  pose proof (era_pos _ _ _ _ H) as Z. pose proof (mass_nonzero i n k2 zE I Z K) as MN. pose proof (omega_pos _ _ _ _ MN) as OP.
  rewrite (N zE) by (rewrite Rminus_diag_eq, Rabs_R0 by reflexivity; exact E0). cbv zeta. cbn [fst snd].
  refine (near_both _ _ _ _ e E0 _ _); [intros t T; rewrite (N t T); reflexivity|]. cbv zeta. cbn [fst snd].
  pose proof (dl_omega i n k2 zE Z MN) as DW.
  split; cbn [fst snd]; exact (proj1 (dl_along (omega i n k2) _ (lograte i n k2 zE) zE _ _ _ _ W OP DW Dp)).
Qed.
(** and the field obeys, exactly, the equation of an oscillator whose frequency squared is the right one plus [extra] *)
Theorem wkb_equation : forall c i n p zI zE k2 M D, radiation c -> inEra c i n zE -> i <> 0 -> 0 <= k2 -> 0 < freq c k2 zI ->
  derivable_pt_lim (fun t => p t k2 + massPhase c zI t) zE (omega i n k2 zE) ->
  derivC (fun t => snd (modeInplace c (p t) zI t k2 M D)) zE (scaleC (- ((omega i n k2 zE) ^ 2 + extra i n k2 zE)) (fst (modeInplace c (p zE) zI zE k2 M D))).
Proof.
  intros c i n p zI zE k2 M D Ra H I K W Dp. destruct (mode_near c i n (fun t => p t k2 + massPhase c zI t) p zI zE k2 M D Ra H (fun _ => eq_refl) W K I) as [e [E0 N]].
  pose proof (era_pos _ _ _ _ H) as Z. pose proof (mass_nonzero i n k2 zE I Z K) as MN. pose proof (omega_pos _ _ _ _ MN) as OP.
  rewrite (N zE) by (rewrite Rminus_diag_eq, Rabs_R0 by reflexivity; exact E0). cbv zeta. cbn [fst snd].
  refine (near_both _ _ _ _ e E0 _ _); [intros t T; rewrite (N t T); reflexivity|]. cbv zeta. cbn [fst snd].
  pose proof (dl_omega i n k2 zE Z MN) as DW. pose proof (dl_lograte i n k2 zE Z K MN) as DL.
  split; unfold scaleC; cbn [fst snd].
  all: match goal with |- derivable_pt_lim (fun t => _ * across _ ?z1 _ _ ?w1 ?m ?d - _) _ _ =>
    destruct (dl_along (omega i n k2) (fun t => p t k2 + massPhase c zI t) (lograte i n k2 zE) zE w1 z1 m d W OP DW Dp) as [D1 D2] end.
  all: eapply dl_eq; [apply dl_minus; apply dl_mult; [exact DW|exact D2|exact DL|exact D1]|]; cbv beta; ring.
Qed.
(** which is small beside it at late times: bounded by a constant over the time squared *)
Theorem extra_bound : forall i n k2 z, i <> 0 -> 0 < z -> 0 <= k2 -> -2 <= n -> Rabs (extra i n k2 z) <= (n / 2 + 1) * (5 * (n / 2 + 1) + 2) / (4 * z ^ 2).
Proof.
  intros i n k2 z I Z K N. pose proof (mass_nonzero i n k2 z I Z K) as MN. pose proof (omega_pos _ _ _ _ MN) as OP. pose proof (omega_sq i n k2 z K) as SQ.
  unfold extra. set (p := n / 2 + 1). assert (P0 : 0 <= p) by (unfold p; lra). fold (mz i n z). set (x := mz i n z ^ 2 / omega i n k2 z ^ 2).
  assert (X : 0 <= x <= 1).
  { unfold x. assert (Q : 0 < omega i n k2 z ^ 2) by (apply pow_lt, OP). split.
    - apply Rmult_le_pos; [apply pow2_ge_0|left; apply Rinv_0_lt_compat, Q].
    - apply Rmult_le_reg_r with (omega i n k2 z ^ 2); [exact Q|]. unfold Rdiv. rewrite Rmult_assoc, Rinv_l, Rmult_1_r, Rmult_1_l by lra. replace (omega i n k2 z ^ 2) with (omega i n k2 z * omega i n k2 z) by ring. rewrite SQ. lra. }
  assert (Z2 : 0 < 4 * z ^ 2) by (pose proof (pow_lt z 2 Z); lra).
  unfold Rdiv. rewrite Rabs_mult, (Rabs_right (/ _)) by (left; apply Rinv_0_lt_compat, Z2). apply Rmult_le_compat_r; [left; apply Rinv_0_lt_compat, Z2|].
  assert (PX : 0 <= p * x <= p) by (split; [apply Rmult_le_pos; lra|rewrite <- (Rmult_1_r p) at 2; apply Rmult_le_compat_l; lra]).
  rewrite Rabs_mult, (Rabs_right (p * x)) by lra. apply Rmult_le_compat; [lra|apply Rabs_pos|lra|]. apply Rabs_le.
  replace (4 * p * (1 - x)) with (4 * p - 4 * (p * x)) by ring. lra.
Qed.

(** A mode at rest, a quarter of a period and no mass growth *)
Example mode_still_at_work : modeInplace (Cosmo 1 0 1 0 0 1 0 1 0) (fun _ => 0) 2 2 0 (3, 1) (5, 2) = ((3, 1), (5, 2)).
Proof.
  apply mode_still_partial; [|reflexivity|right; reflexivity].
  apply (inside_freq _ 1 0); [split; cbn; lra| |lra|apply mass_nonzero; lra].
  right. cbn [zThRes zRestore indi3 nQcd]. repeat split; try lra. rewrite Rmult_1_l. unfold Rpower. rewrite ln_1, Rmult_0_r, exp_0. reflexivity.
Qed.

Print Assumptions mode_still_partial.
Print Assumptions mode_still_refuted.
Print Assumptions mode_real.
Print Assumptions mode_real_two.
Print Assumptions mode_linear.
Print Assumptions wronskian_kept.
Print Assumptions wronskian_kept_two.
Print Assumptions mode_composes_partial.
Print Assumptions velocity_is_rate.
Print Assumptions wkb_equation.
Print Assumptions extra_bound.
