(** C109: a stage of a full spectral step of the complex field kicks the velocity with the slope of the potential and then
    moves every mode exactly. What holds and what does not. *)
From Coq Require Import Reals List Arith ZArith Bool Lia Lra.
From Verif Require Import GravModel GravProofs GravSpec ConserveProofs FourModel FourSpec FourProofs FourProperties.
Import ListNotations.
Local Open Scope R_scope.
Ltac Zify.zify_post_hook ::= idtac.

(** ** What a stage should do *)

(** The drift is the motion of a free wave: it starts at m, v, the rate of m is v, that of v is - p^2 m. *)
Theorem drift_moves p m v t :
  drift p 0 m v = (m, v) /\
  derivable_pt_lim (fun u => fst (drift p u m v)) t (snd (drift p t m v)) /\
  derivable_pt_lim (fun u => snd (drift p u m v)) t (- p ^ 2 * fst (drift p t m v)).
Proof.
  split; [apply drift_here|]. destruct (Req_dec p 0) as [->|N].
  - rewrite !drift_0. cbn [fst snd]. split.
    + apply (dl_ext (fun u => m + v * u)); [intro u; rewrite drift_0; reflexivity|].
      apply (dl_eq _ t (0 + (0 * t + v * 1))); [|ring].
      apply (dl_plus (fun _ => m) (fun u => v * u)); [apply dl_const|].
      apply (dl_mult (fun _ => v) (fun u => u)); [apply dl_const|apply derivable_pt_lim_id].
    + replace (- 0 ^ 2 * (m + v * t)) with 0 by ring.
      apply (dl_ext (fun u => v)); [intro u; rewrite drift_0; reflexivity|]. apply derivable_pt_lim_const.
  - rewrite !drift_n by exact N. cbn [fst snd].
    assert (PC : derivable_pt_lim (fun u => p * u) t p).
    { apply (dl_eq _ t (0 * t + p * 1)); [|ring].
      apply (dl_mult (fun _ => p) (fun u => u)); [apply dl_const|apply derivable_pt_lim_id]. }
    assert (DC : derivable_pt_lim (fun u => cos (p * u)) t (- sin (p * t) * p)).
    { apply (derivable_pt_lim_comp (fun u => p * u) cos t p (- sin (p * t))); [exact PC|apply derivable_pt_lim_cos]. }
    assert (DS : derivable_pt_lim (fun u => sin (p * u)) t (cos (p * t) * p)).
    { apply (derivable_pt_lim_comp (fun u => p * u) sin t p (cos (p * t))); [exact PC|apply derivable_pt_lim_sin]. }
    assert (SC : forall k f l, derivable_pt_lim f t l -> derivable_pt_lim (fun u => k * f u) t (k * l)) by (intros; apply derivable_pt_lim_scal; assumption).
    split.
    + apply (dl_ext (fun u => m * cos (p * u) + v / p * sin (p * u))); [intro u; rewrite drift_n by exact N; reflexivity|].
      replace (v * cos (p * t) - p * m * sin (p * t)) with (m * (- sin (p * t) * p) + v / p * (cos (p * t) * p)) by (field; exact N).
      apply (dl_plus (fun u => m * cos (p * u)) (fun u => v / p * sin (p * u))); apply SC; assumption.
    + apply (dl_ext (fun u => v * cos (p * u) + - (p * m) * sin (p * u))); [intro u; rewrite drift_n by exact N; cbn [snd]; ring|].
      replace (- p ^ 2 * (m * cos (p * t) + v / p * sin (p * t))) with (v * (- sin (p * t) * p) + - (p * m) * (cos (p * t) * p)) by (field; exact N).
      apply (dl_plus (fun u => v * cos (p * u)) (fun u => - (p * m) * sin (p * u))); apply SC; assumption.
Qed.
(** It keeps the energy of the wave, and one drift after another is the drift for both times. *)
Theorem drift_keeps_rest p t m v :
  waveEnergy p (fst (driftC p t m v)) (snd (driftC p t m v)) = waveEnergy p m v.
Proof.
  unfold waveEnergy, driftC. cbn [fst snd]. destruct (Req_dec p 0) as [->|N].
  - rewrite !drift_0. cbn [fst snd]. ring.
  - rewrite !drift_n by exact N. cbn [fst snd].
    assert (T : forall a b, p ^ 2 * (a * cos (p * t) + b / p * sin (p * t)) ^ 2 + (b * cos (p * t) - p * a * sin (p * t)) ^ 2 = p ^ 2 * a ^ 2 + b ^ 2).
    { intros a b. pose proof (sin2_cos2 (p * t)) as S. unfold Rsqr in S. set (c := cos (p * t)) in *. set (n := sin (p * t)) in *.
      replace (p ^ 2 * (a * c + b / p * n) ^ 2 + (b * c - p * a * n) ^ 2) with ((p ^ 2 * a ^ 2 + b ^ 2) * (n * n + c * c)) by (field; exact N).
      rewrite S. ring. }
    pose proof (T (fst m) (fst v)) as A. pose proof (T (snd m) (snd v)) as B. lra.
Qed.
Theorem drifts_add p t u m v : driftC p u (fst (driftC p t m v)) (snd (driftC p t m v)) = driftC p (t + u) m v.
Proof. apply driftC_add. Qed.

(** The slope of the first potential. *)
Theorem slope_is_force lam Rr x y :
  derivable_pt_lim (fun u => potential1 lam Rr u y) x (- fst (slope lam Rr (x, y))) /\
  derivable_pt_lim (fun u => potential1 lam Rr x u) y (- snd (slope lam Rr (x, y))).
Proof.
  assert (G : forall k a, derivable_pt_lim (fun u => lam / 4 * ((u ^ 2 + k) - Rr ^ 2) ^ 2) a (lam * (a ^ 2 + k - Rr ^ 2) * a)).
  { intros k a.
    assert (D1 : derivable_pt_lim (fun u => u ^ 2 + (k - Rr ^ 2)) a (INR 2 * a ^ 1 + 0)).
    { apply (derivable_pt_lim_plus (fun u => u ^ 2) (fun _ => k - Rr ^ 2)); [apply derivable_pt_lim_pow|apply derivable_pt_lim_const]. }
    pose proof (dl_mult _ _ a _ _ D1 D1) as D2. pose proof (dl_scal _ a _ (lam / 4) D2) as D3. cbv beta in D3.
    apply (dl_ext (fun u => (u ^ 2 + (k - Rr ^ 2)) * (u ^ 2 + (k - Rr ^ 2)) * (lam / 4))); [intro u; ring|].
    eapply dl_eq; [exact D3|]. cbn [INR]. field. }
  unfold slope, times, potential1. cbn [fst snd]. split.
  - replace (- (lam * (Rr ^ 2 - (x ^ 2 + y ^ 2)) * x)) with (lam * (x ^ 2 + y ^ 2 - Rr ^ 2) * x) by ring. apply G.
  - replace (- (lam * (Rr ^ 2 - (x ^ 2 + y ^ 2)) * y)) with (lam * (y ^ 2 + x ^ 2 - Rr ^ 2) * y) by ring.
    apply (dl_ext (fun u => lam / 4 * (u ^ 2 + x ^ 2 - Rr ^ 2) ^ 2)); [intro u; ring|apply G].
Qed.

(** ** The stage *)

(** C109. The momentum of every mode is that of its distance to the origin in the periodic box, if the vectors divide half
    a row. *)
Theorem mode_momentum_partial w g r yl z x : even g -> (0 < w)%nat -> ((gL g / 2) mod w = 0)%nat -> (gL g mod 2 = 0)%nat ->
  modeAt g r yl z x -> momS w g r (modePlace g yl z x) = Z.of_nat (momentum2 g r yl z x).
Proof. apply momS_place. Qed.
(** C109 fails if a row is a single vector: the last mode of a row has momentum 1, and is given L - 1. *)
Theorem wide_vector_refuted g : even g -> (3 <= gL g)%nat ->
  modeAt g 0 0 0 (gL g - 1) /\ momentum2 g 0 0 0 (gL g - 1) = 1%nat /\
  momS (gL g) g 0 (modePlace g 0 0 (gL g - 1)) = Z.of_nat ((gL g - 1) ^ 2) /\
  momS (gL g) g 0 (modePlace g 0 0 (gL g - 1)) <> 1%Z.
Proof.
  intros [L0 [Z0 [K0 D]]] L3.
  pose proof (Nat.div_mod (gL g) (gK g) ltac:(lia)) as Q. rewrite D, Nat.add_0_r in Q.
  assert (Q0 : (0 < gL g / gK g)%nat) by (destruct (gL g / gK g)%nat; [lia|lia]).
  assert (T0 : (0 < gLz g * gK g)%nat) by (apply Nat.mul_pos_pos; assumption).
  split; [unfold modeAt; lia|]. split.
  { unfold momentum2, distance0. rewrite Nat.mul_0_l, Nat.add_0_l, !Nat.min_0_l. rewrite Nat.min_r by lia.
    replace (gL g - (gL g - 1))%nat with 1%nat by lia. reflexivity. }
  assert (A : momS (gL g) g 0 (modePlace g 0 0 (gL g - 1)) = Z.of_nat ((gL g - 1) ^ 2)).
  { unfold momS, modePlace. cbv zeta. replace ((0 * (gLz g * gK g) + 0) * gL g + (gL g - 1))%nat with (gL g - 1)%nat by lia.
    rewrite (Nat.mod_small (gL g - 1) (gL g)) by lia. rewrite (Nat.div_small (gL g - 1) (gL g)) by lia.
    assert (LD : (gL g <= gL g * depth g)%nat) by (unfold depth; apply (Nat.mul_le_mono_l 1 _ (gL g)) in T0; lia).
    rewrite (Nat.div_small (gL g - 1) (gL g * depth g)) by lia. rewrite Nat.mul_0_r, Nat.add_0_l, Nat.mod_0_l by (unfold depth; lia).
    unfold momSq, kxOf, kFold. rewrite (Nat.div_small (gL g - 1) (gL g)) by lia. rewrite Nat.mul_0_r.
    assert (H : (1 <= gL g / 2)%nat) by (apply Nat.div_le_lower_bound; lia).
    rewrite (proj2 (Nat.leb_gt (gL g / 2) 0) ltac:(lia)). rewrite !(proj2 (Nat.ltb_ge _ 0) ltac:(lia)).
    rewrite Nat.sub_0_r, Nat.pow_2_r, Nat2Z.inj_mul. cbn [Z.of_nat]. lia. }
  split; [exact A|]. rewrite A. intros B. rewrite Nat.pow_2_r, Nat2Z.inj_mul in B. nia.
Qed.

(** C109. A stage (c, d) of the complex field in momentum space, in single precision and with the first potential. If the
    modes are those of a field F with velocity V (over the number of sites), every mode is kicked by the slope of
    the potential at F, for dz c, and then moves as a free wave for dz d; the mode without momentum is also pushed by the integrals of
    the axion force. Time goes on by dz d. *)
Theorem stage_partial T unf w junk b g f1 dz c d z s F V : complexPair T g -> even g -> gNg g = 1%nat -> (0 < w)%nat ->
  ((gL g / 2) mod w = 0)%nat -> (gL g mod 2 = 0)%nat -> f1 <> 0 -> sM s = true -> sV s = true ->
  agree g (phi g s) (fun r i => times (1 / sites g) (fC T F r i)) ->
  agree g (vel s) (fun r i => times (1 / sites g) (fC T V r i)) ->
  exists s', sFStage T unf true w PQ1 junk b g f1 dz (c, d) (z, s) = Some (z + dz * d, s') /\ sM s' = true /\ sV s' = true /\ sF s' = false /\
    forall r yl zz x, modeAt g r yl zz x ->
      let i := modePlace g yl zz x in
      let K := fun r i => plus (V r i) (times (dz * c) (slope (lamP b z) (Rof b z) (F r i))) in
      let D := driftC (wave f1 g r yl zz x) (dz * d) (times (1 / sites g) (fC T F r i)) (times (1 / sites g) (fC T K r i)) in
      phi g s' r i = plus (fst D) (extra r yl zz x (ii3 b z (z + dz * d))) /\
      vel s' r i = plus (snd D) (extra r yl zz x (i3 b z (z + dz * d))).
Proof.
  intros CP EV NG W DW E2 F1 HM HV AF AV.
  destruct (stage_mem T unf w PQ1 junk b g f1 dz c d z s EV HM) as [M [S [SAME [A [A1 A2]]]]].
  rewrite HV in S. eexists. split; [exact S|]. do 3 (split; [reflexivity|]).
  intros r yl zz x AT i K D.
  pose proof AT as [Hr [Hy [Hz Hx]]].
  destruct (place_bound g yl zz x EV Hy Hz Hx) as [PB VB]. fold i in PB. rewrite VB in PB.
  assert (HI : here g r i) by (split; [exact Hr|exact PB]).
  destruct (fsProp_mode w g f1 dz c d (i3 b z (z + dz * d)) (ii3 b z (z + dz * d)) M r yl zz x EV NG W DW E2 F1 AT) as [P1 P2].
  cbv zeta in P1, P2. fold i in P1, P2. rewrite P1, P2.
  assert (G1 : getC M (AM, (2 * (gNg g * surf g))%nat) r i = times (1 / sites g) (fC T F r i)).
  { rewrite <- (AF r i HI), phi_get. unfold getC. cbn [fst snd]. rewrite !SAME by discriminate. reflexivity. }
  assert (G2 : getC M (FourModel.AV, 0%nat) r i = times (1 / sites g) (fC T V r i)).
  { rewrite <- (AV r i HI), vel_get. unfold getC. cbn [fst snd]. rewrite !SAME by discriminate. reflexivity. }
  assert (G3 : agree g A (fun r i => slope (lamP b z) (Rof b z) (F r i))).
  { intros r' i' H'. rewrite A1 by (apply (here_vol g r' i' H')).
    assert (B : bC T (getC (mm s) (AM, (2 * (gNg g * surf g))%nat)) r' i' = F r' i').
    { rewrite (bC_local T g CP _ (fun r i => times (1 / sites g) (fC T F r i))); [|intros r'' i'' H''; rewrite <- phi_get; apply AF; exact H''|exact H'].
      rewrite (bC_linear T g CP _ _ r' i' H'), (forth_back T g CP _ r' i' H'). apply inv_sites. exact EV. }
    rewrite B. unfold force, slope, times. f_equal; ring. }
  rewrite G1, G2, (A2 r i PB). rewrite (fC_local T g CP _ _ G3 r i HI).
  assert (G4 : plus (times (1 / sites g) (fC T V r i)) (times (dz * c) (times (1 / sites g) (fC T (fun r i => slope (lamP b z) (Rof b z) (F r i)) r i)))
               = times (1 / sites g) (fC T K r i)).
  { unfold K. rewrite (fC_linear T g CP (dz * c) V _ r i HI). unfold plus, times. cbn [fst snd]. f_equal; ring. }
  rewrite G4. split; reflexivity.
Qed.

(** C109. Left alone (no coupling, no axion mass), after any stages every mode has moved as a free wave for the sum of their
    times: the result depends on nothing else. *)
Definition quiet (b : bgd) : Prop := (forall z, lamP b z = 0) /\ (forall z z', i3 b z z' = 0) /\ (forall z z', ii3 b z z' = 0).
Theorem free_stage T unf w junk b g f1 dz c d z s : complexPair T g -> even g -> gNg g = 1%nat -> (0 < w)%nat ->
  ((gL g / 2) mod w = 0)%nat -> (gL g mod 2 = 0)%nat -> f1 <> 0 -> sM s = true -> sV s = true -> quiet b ->
  exists s', sFStage T unf true w PQ1 junk b g f1 dz (c, d) (z, s) = Some (z + dz * d, s') /\ sM s' = true /\ sV s' = true /\ sF s' = false /\
    forall r yl zz x, modeAt g r yl zz x -> let i := modePlace g yl zz x in
      (phi g s' r i, vel s' r i) = driftC (wave f1 g r yl zz x) (dz * d) (phi g s r i) (vel s r i).
Proof.
  intros CP EV NG W DW E2 F1 HM HV [Q1 [Q2 Q3]].
  assert (BF : forall G, agree g G (fun r i => times (1 / sites g) (fC T (bC T G) r i))).
  { intros G r i H. rewrite (back_forth T g CP G r i H). symmetry. apply inv_sites. exact EV. }
  destruct (stage_partial T unf w junk b g f1 dz c d z s (bC T (phi g s)) (bC T (vel s)) CP EV NG W DW E2 F1 HM HV (BF _) (BF _)) as [s' [S [S1 [S2 [S3 P]]]]].
  exists s'. do 4 (split; [assumption|]). intros r yl zz x AT i. destruct (P r yl zz x AT) as [A B]. fold i in A, B. rewrite Q2 in B. rewrite Q3 in A. rewrite Q1 in A, B.
  assert (HI : here g r i).
  { pose proof AT as [Hr [Hy [Hz Hx]]]. destruct (place_bound g yl zz x EV Hy Hz Hx) as [PB VB]. fold i in PB. rewrite VB in PB. split; [exact Hr|exact PB]. }
  assert (X0 : forall y : cpx, plus y (extra r yl zz x 0) = y).
  { intros [y1 y2]. unfold plus, extra. destruct (_ && _); cbn [fst snd]; f_equal; ring. }
  rewrite X0 in A, B. rewrite <- (BF (phi g s) r i HI) in A, B.
  assert (VK : times (1 / sites g) (fC T (fun r i => plus (bC T (vel s) r i) (times (dz * c) (slope 0 (Rof b z) (bC T (phi g s) r i)))) r i) = vel s r i).
  { rewrite (BF (vel s) r i HI). f_equal. apply (fC_local T g CP); [|exact HI]. intros r' i' _.
    unfold plus, times, slope, times. cbn [fst snd]. destruct (bC T (vel s) r' i'). cbn [fst snd]. f_equal; ring. }
  rewrite VK in A, B. rewrite A, B. apply pair_eta.
Qed.
Theorem free_evolution_partial T unf w junk b g f1 dz cds z s : complexPair T g -> even g -> gNg g = 1%nat -> (0 < w)%nat ->
  ((gL g / 2) mod w = 0)%nat -> (gL g mod 2 = 0)%nat -> f1 <> 0 -> sM s = true -> sV s = true -> sF s = false -> quiet b ->
  exists s', sFpec T unf true w PQ1 junk b g f1 dz cds z s = Some (z + dz * total (map snd cds), s') /\ sM s' = true /\ sV s' = true /\
    forall r yl zz x, modeAt g r yl zz x -> let i := modePlace g yl zz x in
      (phi g s' r i, vel s' r i) = driftC (wave f1 g r yl zz x) (dz * total (map snd cds)) (phi g s r i) (vel s r i).
Proof.
  intros CP EV NG W DW E2 F1 HM HV HF Q. unfold sFpec. cbv zeta. rewrite HF, HM, HV. cbn [negb orb]. clear HF.
  revert z s HM HV. induction cds as [|[c d] cds IH]; intros z s HM HV; cbn [fold_left map snd].
  - exists s. replace (z + dz * total []) with z by (cbn [total fold_right]; ring). do 3 (split; [auto|]). intros r yl zz x AT. set (i := modePlace g yl zz x).
    replace (dz * total []) with 0 by (cbn [total fold_right]; ring). rewrite driftC_here. reflexivity.
  - destruct (free_stage T unf w junk b g f1 dz c d z s CP EV NG W DW E2 F1 HM HV Q) as [s1 [S [S1 [S2 [_ P]]]]]. rewrite S.
    destruct (IH (z + dz * d) s1 S1 S2) as [s' [S' [S1' [S2' P']]]]. exists s'. rewrite S'. split.
    { do 2 f_equal. unfold total. cbn [fold_right]. ring. }
    split; [exact S1'|]. split; [exact S2'|]. intros r yl zz x AT. set (i := modePlace g yl zz x). pose proof (P' r yl zz x AT) as PQ. cbv zeta in PQ. fold i in PQ. rewrite PQ.
    pose proof (P r yl zz x AT) as PP. fold i in PP. 
    assert (PA : phi g s1 r i = fst (driftC (wave f1 g r yl zz x) (dz * d) (phi g s r i) (vel s r i))) by exact (f_equal fst PP).
    assert (PB : vel s1 r i = snd (driftC (wave f1 g r yl zz x) (dz * d) (phi g s r i) (vel s r i))) by exact (f_equal snd PP).
    rewrite PA, PB.
    pose proof (driftC_add (wave f1 g r yl zz x) (dz * d) (dz * total (map snd cds)) (phi g s r i) (vel s r i)) as DA.
    replace (dz * total (d :: map snd cds)) with (dz * d + dz * total (map snd cds)) by (unfold total; cbn [fold_right]; ring).
    exact DA.
Qed.

(** ** What does not hold *)

(** C109 fails in double precision: time goes on and nothing moves, whatever the field and the stages. *)
Theorem double_still_refuted T unf w p junk b g f1 dz cds z s : even g -> sM s = true -> sV s = true -> sF s = false ->
  exists s', sFpec T unf false w p junk b g f1 dz cds z s = Some (z + dz * total (map snd cds), s') /\
    agree g (phi g s') (phi g s) /\ agree g (vel s') (vel s).
Proof.
  intros EV HM HV HF. unfold sFpec. cbv zeta. rewrite HF, HM, HV. cbn [negb orb]. clear HF.
  assert (R1 : forall r z s, sM s = true -> sV s = true -> forall c d, exists s1, sFStage T unf false w p junk b g f1 dz (c, d) (z, s) = Some (z + dz * d, s1) /\
     sM s1 = true /\ sV s1 = true /\ (forall i, phi g s1 r i = phi g s r i) /\ forall i r, vel s1 r i = vel s r i /\ phi g s1 r i = phi g s r i).
  { clear. intros r z s HM HV c d. unfold sFStage, iftField, mToM2. cbn [wM wV wM2 wMto2]. cbv zeta. rewrite HM. cbn [negb mm sM sV sF].
    unfold ftField, theM2. cbn [wM wV wM2 wMto2 mm sM sV sF]. cbv zeta. cbn [mm sM sV sF].
    unfold m2Cpu. rewrite scale_some by apply room_m2. cbn [onMem fst snd mm sM sV sF]. unfold fsProp. cbn [negb].
    eexists. split; [reflexivity|]. cbn [sM sV]. split; [reflexivity|]. split; [exact HV|].
    assert (SM : forall M n f M0 n1 F1 n2 F2 n3 F3 q i r, q <> AM2 ->
       putR (putC (putC (putC M0 (AM2, 0%nat) n1 F1) (AM2, 0%nat) n2 F2) (AM2, 0%nat) n3 F3) (AM2, 0%nat) n f q r i = M0 q r i /\ (M = M0 -> True)).
    { intros. split; [|auto]. unfold putC. rewrite !putR_out by (left; assumption). reflexivity. }
    split; [|intros i r'; split]; intros; unfold phi, vel; cbn [mm]; f_equal; apply (SM (mm s)); discriminate. }
  revert z s HM HV. induction cds as [|[c d] cds IH]; intros z s HM HV; cbn [fold_left map snd].
  - exists s. replace (z + dz * total []) with z by (cbn [total fold_right]; ring). split; [reflexivity|]. split; intros r i _; reflexivity.
  - destruct (R1 0%nat z s HM HV c d) as [s1 [S [S1 [S2 [_ P]]]]]. rewrite S. destruct (IH (z + dz * d) s1 S1 S2) as [s' [S' [A B]]].
    exists s'. rewrite S'. split; [do 2 f_equal; unfold total; cbn [fold_right]; ring|].
    split; intros r i H; [rewrite (A r i H)|rewrite (B r i H)]; apply P.
Qed.

(** C109 fails for the potential that depends on the temperature: the velocities after a kick can be anything, as they come from a
    register that was never set. *)
Theorem unset_force_refuted T unf w b g f1 dz c z s : complexPair T g -> even g -> gNg g = 1%nat -> (0 < w)%nat ->
  ((gL g / 2) mod w = 0)%nat -> (gL g mod 2 = 0)%nat -> f1 <> 0 -> sM s = true -> sV s = true -> dz * c <> 0 -> i3 b z z = 0 ->
  forall W : nat -> nat -> cpx, exists junk s', sFStage T unf true w QCDV junk b g f1 dz (c, 0) (z, s) = Some (z + dz * 0, s') /\ agree g (vel s') W.
Proof.
  intros CP EV NG W DW E2 F1 HM HV NZ I0 X.
  set (G := fun r i => times (/ (dz * c)) (plus (X r i) (times (-1) (vel s r i)))).
  destruct (stage_mem T unf w QCDV (bC T G) b g f1 dz c 0 z s EV HM) as [M [S [SAME [A [A1 A2]]]]]. rewrite HV in S.
  exists (bC T G). eexists. split; [exact S|]. intros r i HI.
  destruct (place_of g r i EV HI) as [yl [zz [x [AT ->]]]].
  destruct (fsProp_mode w g f1 dz c 0 (i3 b z (z + dz * 0)) (ii3 b z (z + dz * 0)) M r yl zz x EV NG W DW E2 F1 AT) as [_ P2].
  cbv zeta in P2. rewrite P2. set (i := modePlace g yl zz x) in *.
  replace (z + dz * 0) with z by ring. rewrite I0, Rmult_0_r, driftC_here. cbn [snd].
  rewrite (A2 r i) by (apply (here_vol g r i HI)).
  assert (G3 : agree g A (bC T G)) by (intros r' i' H'; rewrite A1 by (apply (here_vol g r' i' H')); reflexivity).
  rewrite (fC_local T g CP _ _ G3 r i HI), (back_forth T g CP G r i HI), (inv_sites g _ EV).
  assert (GV : getC M (FourModel.AV, 0%nat) r i = vel s r i).
  { rewrite vel_get. unfold getC. cbn [fst snd]. rewrite !SAME by discriminate. reflexivity. }
  rewrite GV. unfold G, extra, plus, times. destruct (vel s r i) as [v1 v2]. destruct (X r i) as [x1 x2]. cbn [fst snd].
  destruct (_ && _); cbn [fst snd]; f_equal; field; split; intros e; apply NZ; rewrite e; ring.
Qed.

(** C109 fails for the second potential: away from 0, from 1 and from the circle at R the force is not its slope (a factor is
    missing). *)
Theorem slope2_is_force lam Rr x y : Rr <> 0 ->
  derivable_pt_lim (fun u => potential2 lam Rr u y) x (- fst (slope2 lam Rr (x, y))).
Proof.
  intros N.
  assert (D0 : derivable_pt_lim (fun u => u ^ 2 + y ^ 2) x (INR 2 * x ^ 1 + 0)).
  { apply (dl_plus (fun u => u ^ 2) (fun _ => y ^ 2)); [apply derivable_pt_lim_pow|apply dl_const]. }
  pose proof (dl_mult _ _ x _ _ D0 D0) as D1. pose proof (dl_plus _ (fun _ => - Rr ^ 4) x _ _ D1 (dl_const (- Rr ^ 4) x)) as D2.
  pose proof (dl_mult _ _ x _ _ D2 D2) as D3. pose proof (dl_scal _ x _ (lam / (4 * Rr ^ 4)) D3) as D4. cbv beta in D4.
  apply (dl_ext (fun u => ((u ^ 2 + y ^ 2) * (u ^ 2 + y ^ 2) + - Rr ^ 4) * ((u ^ 2 + y ^ 2) * (u ^ 2 + y ^ 2) + - Rr ^ 4) * (lam / (4 * Rr ^ 4)))).
  { intro u. unfold potential2. ring. }
  eapply dl_eq; [exact D4|]. unfold slope2, times. cbn [fst snd INR]. field. exact N.
Qed.
Theorem second_potential_refuted lam Rr junk x : lam <> 0 -> Rr <> 0 -> fst x <> 0 ->
  let n := fst x ^ 2 + snd x ^ 2 in n <> 1 -> n ^ 2 <> Rr ^ 4 -> force PQ2 lam Rr junk x <> slope2 lam Rr x.
Proof.
  intros L0 R0 X0 n N1 NR E. apply (f_equal fst) in E. unfold force, slope2, times in E. cbn [fst] in E. fold n in E.
  replace (fst x * fst x + snd x * snd x) with n in E by (unfold n; ring).
  assert (Z : fst x * (Rr ^ 4 - n ^ 2) * (2 * lam / Rr ^ 4) * (1 - n) = 0).
  { replace (fst x * (Rr ^ 4 - n ^ 2) * (2 * lam / Rr ^ 4) * (1 - n)) with
      (fst x * ((Rr * Rr * (Rr * Rr) - n * n) * (lam * 2 / (Rr * Rr * (Rr * Rr)))) - 2 * lam / Rr ^ 4 * (Rr ^ 4 - n ^ 2) * n * fst x) by (field; exact R0).
    rewrite E. ring. }
  apply Rmult_integral in Z. destruct Z as [Z|Z]; [|apply N1; lra].
  apply Rmult_integral in Z. destruct Z as [Z|Z].
  - apply Rmult_integral in Z. destruct Z as [Z|Z]; [exact (X0 Z)|apply NR; lra].
  - assert (P4 : Rr ^ 4 <> 0) by (apply pow_nonzero; exact R0).
    apply L0. apply Rmult_eq_reg_r with (2 / Rr ^ 4); [|apply Rmult_integral_contrapositive_currified; [lra|apply Rinv_neq_0_compat; exact P4]].
    rewrite Rmult_0_l. rewrite <- Z. field. exact R0.
Qed.

(** ** The modes of the axion *)

(** C109. The kernel of the axion, in single precision: every mode is kicked and moves as a free wave of its momentum. *)
Theorem axion_mode_partial g f1 dz c d m v a r yl z x : even g -> f1 <> 0 ->
  (r < gK g)%nat -> (yl < gL g / gK g)%nat -> (z < gLz g * gK g)%nat -> (x < gL g / 2 + 1)%nat ->
  let i := ((yl * (gLz g * gK g) + z) * (gL g / 2 + 1) + x)%nat in
  let p2 := (x ^ 2 + distance0 (gL g) (yl + gL g / gK g * r) ^ 2 + distance0 (gLz g * gK g) z ^ 2)%nat in
  tProp true g f1 dz c d m v a r i = driftC (f1 * sqrt (INR p2)) (dz * d) (m r i) (plus (v r i) (times (dz * c) (a r i))).
Proof.
  intros [L0 [Z0 [K0 D]]] F1 Hr Hy Hz Hx i p2.
  assert (T0 : (0 < gLz g * gK g)%nat) by (apply Nat.mul_pos_pos; assumption).
  pose proof (Nat.div_mod (gL g) (gK g) ltac:(lia)) as Q. rewrite D, Nat.add_0_r in Q.
  assert (Y : (yl + gL g / gK g * r < gL g)%nat).
  { rewrite Q at 2. assert (gL g / gK g * (r + 1) <= gL g / gK g * gK g)%nat by (apply Nat.mul_le_mono_l; lia). lia. }
  assert (MP : momSq (momOf (gL g / 2 + 1) (depth g) (gL g) (gL g / gK g * r) i) = Z.of_nat p2).
  { unfold i, p2, depth. exact (mom_place (gL g / 2 + 1) (gLz g * gK g) (gL g) (gL g / gK g * r) yl z x T0 Hz Hx Y). }
  assert (PZ : forall n y, (y < n)%nat -> (distance0 n y = 0 <-> y = 0)%nat) by (intros n y; unfold distance0; lia).
  assert (SQ : forall y : nat, (y ^ 2 = 0 <-> y = 0)%nat) by (intro y; rewrite Nat.pow_2_r, Nat.mul_eq_0; lia).
  assert (ZZ : (((r =? 0) && (i =? 0))%nat = true <-> p2 = 0%nat)).
  { rewrite andb_true_iff, !Nat.eqb_eq. unfold p2, i. split.
    - intros [R0 I0]. apply Nat.eq_add_0 in I0. destruct I0 as [I0 X0]. apply Nat.mul_eq_0 in I0. destruct I0 as [I0|I0]; [|lia].
      apply Nat.eq_add_0 in I0. destruct I0 as [I0 ->]. apply Nat.mul_eq_0 in I0. assert (Y0 : yl = 0%nat) by lia. subst. rewrite Nat.mul_0_r. reflexivity.
    - intros P. apply Nat.eq_add_0 in P. destruct P as [P P3]. apply Nat.eq_add_0 in P. destruct P as [P1 P2].
      apply (proj1 (SQ _)) in P1, P2, P3. apply (proj1 (PZ _ _ Y)) in P2. apply (proj1 (PZ _ _ Hz)) in P3.
      assert (yl = 0)%nat by lia. assert (P4 : (gL g / gK g * r = 0)%nat) by lia. apply Nat.mul_eq_0 in P4. subst. split; [lia|]. lia. }
  unfold tProp. cbn [negb]. destruct ((r =? 0) && (i =? 0))%nat eqn:E.
  - rewrite (proj1 ZZ eq_refl). cbn [INR]. rewrite sqrt_0, Rmult_0_r. unfold driftC. rewrite !drift_0. unfold plus, times. cbn [fst snd]. f_equal; f_equal; ring.
  - rewrite MP, <- INR_IZR_INZ. rewrite turnC_drift.
    + unfold times. rewrite (Rmult_comm (dz * c) (fst (a r i))), (Rmult_comm (dz * c) (snd (a r i))). reflexivity.
    + apply Rmult_integral_contrapositive_currified; [exact F1|]. apply Rgt_not_eq, sqrt_lt_R0, lt_0_INR.
      destruct p2; [exfalso; assert (false = true) by (apply ZZ; reflexivity); discriminate|lia].
Qed.

(** ** A concrete transform *)
(** The transform of a box of two by two sites. *)
Definition sgn (i j : nat) : R := if Nat.even (i mod 2 * (j mod 2) + i / 2 * (j / 2)) then 1 else -1.
Definition sum4 (F : nat -> nat -> cpx) (r i : nat) : cpx :=
  plus (plus (times (sgn i 0) (F r 0%nat)) (times (sgn i 1) (F r 1%nat))) (plus (times (sgn i 2) (F r 2%nat)) (times (sgn i 3) (F r 3%nat))).
Definition two : geo := Geo 2 1 1 1.
Definition square : fft := FFT sum4 sum4 (fun f r i => (f r i, 0)) (fun F r i => 4 * fst (F r i)) (fun F r i => (0, 0)).
Lemma here_two r i : here two r i -> (r = 0 /\ (i = 0 \/ i = 1 \/ i = 2 \/ i = 3))%nat.
Proof. unfold here, two. cbn. lia. Qed.
Lemma square_pair : complexPair square two.
Proof.
  assert (H0 : forall i, (i < 4)%nat -> here two 0 i) by (intros i H; unfold here, two; cbn; lia).
  assert (LOC : forall F G, agree two F G -> agree two (sum4 F) (sum4 G)).
  { intros F G A r i H. destruct (here_two r i H) as [-> _]. unfold sum4. rewrite !A by (apply H0; lia). reflexivity. }
  assert (TW : forall F, agree two (sum4 (sum4 F)) (fun r i => times (sites two) (F r i))).
  { intros F r i H. destruct (here_two r i H) as [-> C]. unfold sites, two. cbn [gL gLz gK Nat.mul Nat.add INR].
    destruct C as [-> | [-> | [-> | ->]]]; unfold sum4, sgn, plus, times; cbn; destruct (F 0%nat 0%nat), (F 0%nat 1%nat), (F 0%nat 2%nat), (F 0%nat 3%nat); cbn [fst snd]; f_equal; ring. }
  constructor; cbn [fC bC square]; try assumption.
  - intros c F G r i _. unfold sum4, plus, times. cbn [fst snd]. f_equal; ring.
  - intros c F r i _. unfold sum4, plus, times. cbn [fst snd]. f_equal; ring.
Qed.
Lemma even_two : even two. Proof. unfold even, two. cbn. lia. Qed.

Definition someMem : mem := fun a r i => match a with AM => INR i | FourModel.AV => 1 | AM2 => 0 end.
Example ex_there_and_back : exists s1 s2, ftField square (fun M => M) Saxion two theMV (St someMem false false false) = Some s1 /\
  iftField square Saxion two theMV s1 = Some s2 /\ phi two s2 0 3 = (14, 15) /\ vel s2 0 2 = (1, 1).
Proof.
  destruct (there_and_back_partial square (fun M => M) two (St someMem false false false) square_pair even_two eq_refl eq_refl eq_refl)
    as [s1 [s2 [A [B [_ [_ [_ [_ [_ [_ [_ [P V]]]]]]]]]]]].
  exists s1, s2. split; [exact A|]. split; [exact B|]. rewrite (P 0%nat 3%nat), (V 0%nat 2%nat) by (unfold here, two; cbn; lia).
  unfold phi, vel, two, someMem. cbn [sF mm gNg gL Nat.mul Nat.add INR]. split; f_equal; ring.
Qed.
Definition still : bgd := Bgd (fun _ => 0) (fun _ => 1) (fun _ _ => 0) (fun _ _ => 0).
Example ex_free : exists s', sFpec square (fun M => M) true 1 PQ1 (fun _ _ => (0, 0)) still two PI (1 / 2) [(1, 1); (1, 1)] 3 (St someMem true true false) = Some (3 + 1 / 2 * 2, s') /\
  phi two s' 0 1 = (-10, -11).
Proof.
  assert (PN : PI <> 0) by (pose proof PI_RGT_0; lra).
  destruct (free_evolution_partial square (fun M => M) 1 (fun _ _ => (0, 0)) still two PI (1 / 2) [(1, 1); (1, 1)] 3 (St someMem true true false)
    square_pair even_two eq_refl ltac:(lia) eq_refl eq_refl PN eq_refl eq_refl eq_refl) as [s' [S [_ [_ P]]]].
  { unfold quiet, still. cbn. auto. }
  exists s'. split.
  { rewrite S. do 2 f_equal. unfold total. cbn [map snd fold_right]. ring. }
  assert (AT : modeAt two 0 0 0 1) by (unfold modeAt, two; cbn; lia).
  pose proof (P 0%nat 0%nat 0%nat 1%nat AT) as Q. cbv zeta in Q. apply (f_equal fst) in Q. cbn [fst] in Q.
  change (modePlace two 0 0 1) with 1%nat in Q. rewrite Q. unfold driftC. cbn [fst snd].
  assert (WV : wave PI two 0 0 0 1 = PI) by (unfold wave; change (momentum2 two 0 0 0 1) with 1%nat; cbn [INR]; rewrite sqrt_1; ring).
  rewrite WV. rewrite !drift_n by exact PN. cbn [fst].
  replace (PI * (1 / 2 * total (map snd [(1, 1); (1, 1)]))) with PI by (unfold total; cbn [map snd fold_right]; field).
  rewrite cos_PI, sin_PI. unfold phi, vel, two, someMem. cbn [mm fst snd gNg gL Nat.mul Nat.add INR]. f_equal; field; exact PN.
Qed.
Example ex_ghosts : ftField square (fun M => M) Saxion (Geo 4 4 2 2) theMV (St someMem false false false) = None.
Proof. apply ghost_slices_refuted; cbn; lia || reflexivity. Qed.
Example ex_axion : tFpecStart square (fun M => M) two (St someMem false false false) = None.
Proof. apply axion_overrun_refuted; cbn; lia || reflexivity. Qed.
Example ex_second : force PQ2 1 1 (0, 0) (2, 0) = (-60, 0) /\ slope2 1 1 (2, 0) = (-240, 0).
Proof. unfold force, slope2, times. cbn [fst snd]. split; f_equal; field. Qed.

Print Assumptions there_and_back_partial.
Print Assumptions axion_alone_partial.
Print Assumptions stage_partial.
Print Assumptions free_evolution_partial.
Print Assumptions unset_force_refuted.
