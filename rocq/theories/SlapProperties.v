(** Property C119: the complex field with a spectral Laplacian (--spec). *)
From Coq Require Import Lqa Lra Reals List Arith ZArith Bool Lia.
From Verif Require Import GravModel LaneModel ForceModel ForceSpec ForceProofs ForceProperties FourModel FourSpec FourProofs FspProperties SlapModel SlapSpec SlapProofs.
Import ListNotations.
Local Open Scope R_scope.
Ltac Zify.zify_post_hook ::= idtac.

(** C119. There is one Laplacian. *)
Theorem spec_laplacian T l g F : complexPair T g -> even g ->
  (exists G, isLaplacian T l g F G) /\ forall G H, isLaplacian T l g F G -> isLaplacian T l g F H -> agree g G H.
Proof.
  intros CP E. split; [|intros G H; apply isLaplacian_unique; assumption].
  exists (bC T (fun r i => FourSpec.times (1 / sites g) (FourSpec.times (- ((2 * PI / l) ^ 2 * IZR (lapMom g (gL g) r i))) (fC T F r i)))).
  intros r yl z x AT. pose proof (place_here g r yl z x E AT) as HI. rewrite (back_forth T g CP _ r _ HI).
  rewrite times_times. replace (sites g * (1 / sites g)) with 1 by (pose proof (sites_pos g E); field; lra).
  rewrite (times_1 1 _ eq_refl). destruct AT as [Hr [Hy [Hz Hx]]]. unfold modePlace at 1.
  rewrite lapMom_place by assumption. rewrite <- INR_IZR_INZ. reflexivity.
Qed.

(** C119. The momenta of the Laplacian are those of the box if it is as deep as long. *)
Theorem spec_momenta l g r yl z x : even g -> l <> 0 -> (gLz g * gK g = gL g)%nat -> kSquared l g r yl z x = kTrue l g r yl z x.
Proof.
  intros [L0 _] Hl D. unfold kSquared, kTrue, momentum2. rewrite D. cbv zeta.
  pose proof (lt_0_INR (gL g) L0) as P. rewrite !plus_INR, !pow_INR. field. split; lra.
Qed.
(** C119 fails in any other box: the wave along the depth has another momentum. *)
Theorem spec_momenta_refuted l g : even g -> l <> 0 -> (2 <= gLz g * gK g)%nat -> (gLz g * gK g <> gL g)%nat ->
  modeAt g 0 0 1 0 /\ kSquared l g 0 0 1 0 <> kTrue l g 0 0 1 0.
Proof.
  intros [L0 [Z0 [K0 DV]]] Hl T2 D.
  pose proof (Nat.div_mod (gL g) (gK g) ltac:(lia)) as Q. rewrite DV, Nat.add_0_r in Q.
  assert (Q0 : (0 < gL g / gK g)%nat) by (destruct (gL g / gK g)%nat; lia).
  split; [unfold modeAt; lia|]. unfold kSquared, kTrue, momentum2. cbv zeta.
  set (T := (gLz g * gK g)%nat) in *.
  assert (D1 : distance0 T 1 = 1%nat) by (unfold distance0; lia).
  assert (D0 : distance0 (gL g) 0 = 0%nat) by (unfold distance0; lia).
  rewrite Nat.mul_0_l, Nat.add_0_l, D1, D0. cbn [Nat.pow Nat.mul Nat.add INR].
  pose proof (lt_0_INR (gL g) L0) as P. pose proof (lt_0_INR T ltac:(lia)) as PT. pose proof PI_RGT_0 as PP.
  intros A. rewrite D0 in A. change (INR 0) with 0 in A.
  assert (B : (2 * PI / l) ^ 2 * (INR T ^ 2 - INR (gL g) ^ 2) = 0).
  { replace ((2 * PI / l) ^ 2 * (INR T ^ 2 - INR (gL g) ^ 2)) with (((2 * PI / l) ^ 2 * 1 - ((2 * PI / (l / INR (gL g) * INR (gL g)) * 0) ^ 2 +
      (2 * PI / (l / INR (gL g) * INR (gL g)) * 0) ^ 2 + (2 * PI / (l / INR (gL g) * INR T) * 1) ^ 2)) * INR T ^ 2) by (field; repeat split; lra).
    rewrite A. ring. }
  assert (C : (2 * PI / l) ^ 2 <> 0).
  { apply pow_nonzero. unfold Rdiv. apply Rmult_integral_contrapositive_currified; [lra|apply Rinv_neq_0_compat; exact Hl]. }
  apply Rmult_integral in B. destruct B as [B|B]; [exact (C B)|].
  assert (S : (INR T - INR (gL g)) * (INR T + INR (gL g)) = 0) by lra.
  apply Rmult_integral in S. destruct S as [S|S]; [|lra]. apply D. apply INR_eq. lra.
Qed.

(** C119. A stage (c, d), without damping, with the first or second Peccei-Quinn potential and none or the first of the axion: the velocity at every site
    gains, for dz c, the Laplacian, the slope of the potentials and R''/R of the field; then the field moves with it for dz d. Time goes on by dz d. The ghosts,
    and what is behind the velocity, stay. *)
Theorem spec_stage_partial T P I s q b l junk jr jd g dz c d z M Lap : complexPair T g -> even g -> gNg g = 1%nat -> l <> 0 ->
  s <> ForceModel.PQ3 -> q = QCD0 \/ q = QCD1 -> kR b z <> 0 -> isLaplacian T l g (field g M) Lap ->
  exists M', sStage T P I (ForceSpec.plain s q) b l junk jr jd g dz (c, d) (z, M) = Some (z + dz * d, M') /\
    (forall r i, here g r i ->
      let x := field g M r i in
      let a := FourSpec.plus (Lap r i) (FourSpec.plus (pqForce s (kLam b z) (kR b z) x)
                 (FourSpec.plus (FourSpec.times (kRpp b z) x) (qcdForce q (kMa2 b z) (kR b z)))) in
      speed M' r i = FourSpec.plus (speed M r i) (FourSpec.times (dz * c) a) /\
      field g M' r i = FourSpec.plus x (FourSpec.times (dz * d) (speed M' r i))) /\
    (forall r j, (j < 2 * (gL g * gL g) \/ 2 * (gL g * gL g * (gLz g + 1)) <= j)%nat -> M' AM r j = M AM r j) /\
    (forall r j, (2 * (gL g * gL g * gLz g) <= j)%nat -> M' FourModel.AV r j = M FourModel.AV r j).
Proof.
  intros CP E NG Hl HS HQ HR HL.
  set (M1 := sLaplacian T g M).
  assert (LE : agree g (fun r i => FourSpec.times (fMom l g) (getC M1 m2Cpu r i)) Lap).
  { apply (isLaplacian_unique T l g (field g M)); try assumption. apply sLap_modes; assumption. }
  unfold sStage, sKernel. fold M1. cbv zeta.
  rewrite (proj2 (Nat.leb_le (2 * (surf g + vol g)) (room Saxion g AM))) by (unfold room, eSz, vol, surf; rewrite NG; lia).
  set (cc := sParms b dz c d z jr jd). set (n := fun i => (i mod lanesOf P I)%nat).
  set (w := fun r i => sVelocity P I (ForceSpec.plain s q) cc (junk r i) (regAt P I M1 (AM, (2 * surf g)%nat) r i) (fun k => fMom l g * regAt P I M1 m2Cpu r i k) (regAt P I M1 (FourModel.AV, 0%nat) r i)).
  set (M2 := putC (putC M1 (FourModel.AV, 0%nat) (vol g) (fun r i => pairOf (n i) (w r i)))
      (AM, (2 * surf g)%nat) (vol g) (fun r i => pairOf (n i) (sDrift cc (regAt P I M1 (AM, (2 * surf g)%nat) r i) (w r i)))).
  exists M2. split; [reflexivity|].
  pose proof (SlapProofs.lanes_pos P I) as LP.
  assert (FM : forall r i, getC M1 (AM, (2 * surf g)%nat) r i = field g M r i).
  { intros r i. rewrite field_get. unfold getC, mStart, nums. cbn [fst snd]. rewrite NG, Nat.mul_1_l. unfold M1. rewrite !sLap_frame by (left; discriminate). reflexivity. }
  assert (VM : forall r i, getC M1 (FourModel.AV, 0%nat) r i = speed M r i).
  { intros r i. rewrite speed_get. unfold getC. cbn [fst snd]. unfold M1. rewrite !sLap_frame by (left; discriminate). reflexivity. }
  assert (W : forall r i, here g r i -> pairOf (n i) (w r i) =
     FourSpec.plus (speed M r i) (FourSpec.times (dz * c) (FourSpec.plus (Lap r i) (FourSpec.plus (pqForce s (kLam b z) (kR b z) (field g M r i))
                 (FourSpec.plus (FourSpec.times (kRpp b z) (field g M r i)) (qcdForce q (kMa2 b z) (kR b z))))))).
  { intros r i HI. unfold w. rewrite (sVel_plain Fused) by (try exact HS; intros ->; destruct HQ; discriminate).
    rewrite velocity_pair.
    2: apply Nat.mod_upper_bound; lia.
    2: intros _; cbn; intros ->; destruct HQ; discriminate.
    2: intros X; discriminate X.
    2: intros X; discriminate X.
    unfold n. rewrite !pair_reg by exact LP. rewrite FM, VM.
    assert (LL : pairOf (i mod lanesOf P I) (fun k => fMom l g * regAt P I M1 m2Cpu r i k) = Lap r i).
    { rewrite <- (LE r i HI). cbv beta. unfold m2Cpu. rewrite <- (pair_reg P I M1 AM2 0 r i LP). unfold FourSpec.times, pairOf. cbn [fst snd]. reflexivity. }
    rewrite LL. unfold velPair, accelPair, basePair. cbn [pEvol pPq ForceSpec.plain]. unfold rhoPair, kickPair. cbn [pEvol pDamp ForceSpec.plain].
    unfold qcdPair. cbn [pQcd ForceSpec.plain]. unfold pqPair, pqCoef, cc, sParms. cbn [pDzc pLam pR pRpp pMa2].
    unfold pqForce, qcdForce, FourSpec.slope, slope2, FourSpec.plus, FourSpec.times, sq, dot, zQ, LaLa. cbn [fst snd pMa2 pR pLam].
    destruct s; [| |exfalso; apply HS; reflexivity]; destruct HQ as [-> | ->]; cbn [fst snd]; f_equal; field; exact HR. }
  assert (SP : forall r i, here g r i -> speed M2 r i = pairOf (n i) (w r i)).
  { intros r i HI. unfold M2. rewrite speed_get, getC_other by discriminate. apply getC_put. apply (here_vol g r i HI). }
  split; [|split].
  - intros r i HI. rewrite (SP r i HI). split; [apply W; exact HI|].
    rewrite field_get. unfold M2, mStart, nums. rewrite NG, Nat.mul_1_l. rewrite getC_put by (apply (here_vol g r i HI)).
    unfold sDrift, n.
    assert (Y : pairOf (i mod lanesOf P I) (fun k => w r i k * pDzd cc + regAt P I M1 (AM, (2 * surf g)%nat) r i k)
                = FourSpec.plus (pairOf (i mod lanesOf P I) (regAt P I M1 (AM, (2 * surf g)%nat) r i)) (FourSpec.times (dz * d) (pairOf (i mod lanesOf P I) (w r i)))).
    { unfold pairOf, FourSpec.plus, FourSpec.times, cc, sParms. cbn [fst snd pDzd]. f_equal; ring. }
    rewrite Y. rewrite pair_reg by exact LP. rewrite FM. reflexivity.
  - intros r j H. unfold M2, putC. rewrite putR_out.
    + rewrite putR_out by (left; discriminate). unfold M1. apply sLap_frame. left; discriminate.
    + right. cbn [fst snd]. unfold surf, vol, surf. destruct H as [H|H]; [left; exact H|right; lia].
  - intros r j H. unfold M2, putC. rewrite putR_out by (left; discriminate). rewrite putR_out.
    + unfold M1. apply sLap_frame. left; discriminate.
    + right. right. cbn [fst snd]. unfold vol, surf. lia.
Qed.

(** C119. Left alone (no coupling, no axion mass, R'' = 0), after any stages: every mode has moved by itself, by the kicks and drifts of its momentum; and time by the sum of
    the drifts. *)
Definition quietBack (b : back) : Prop := forall z, kLam b z = 0 /\ kMa2 b z = 0 /\ kRpp b z = 0 /\ kR b z <> 0.
Lemma fC_add T g F c G r i : complexPair T g -> here g r i -> forall H, agree g H (fun r i => FourSpec.plus (F r i) (FourSpec.times c (G r i))) ->
  fC T H r i = FourSpec.plus (fC T F r i) (FourSpec.times c (fC T G r i)).
Proof. intros CP HI H A. rewrite (fC_local T g CP _ _ A r i HI). apply (fC_linear T g CP). exact HI. Qed.
Theorem spec_modes T P I s q b l junk jr jd g dz cds : complexPair T g -> even g -> gNg g = 1%nat -> l <> 0 ->
  s <> ForceModel.PQ3 -> q = QCD0 \/ q = QCD1 -> quietBack b -> forall z M,
  exists M', each (sStage T P I (ForceSpec.plain s q) b l junk jr jd g dz) cds (z, M) = Some (z + dz * total (map snd cds), M') /\
    forall r yl zz x, modeAt g r yl zz x -> let i := modePlace g yl zz x in
      (fC T (field g M') r i, fC T (speed M') r i) =
      fold_left (kickDrift (kSquared l g r yl zz x) dz) cds (fC T (field g M) r i, fC T (speed M) r i).
Proof.
  intros CP E NG Hl HS HQ QB. induction cds as [|[c d] cds IH]; intros z M.
  - exists M. split; [unfold each; cbn [fold_left map]; do 2 f_equal; unfold total; cbn [fold_right]; ring|]. intros; reflexivity.
  - destruct (QB z) as [L0 [A0 [R0 RN]]].
    destruct (proj1 (spec_laplacian T l g (field g M) CP E)) as [Lap HL].
    destruct (spec_stage_partial T P I s q b l junk jr jd g dz c d z M Lap CP E NG Hl HS HQ RN HL) as [M1 [S1 [P1 _]]].
    destruct (IH (z + dz * d) M1) as [M' [S2 P2]]. exists M'. split.
    + unfold each. cbn [fold_left]. rewrite S1. unfold each in S2. rewrite S2. do 2 f_equal. unfold total. cbn [map snd fold_right]. ring.
    + intros r yl zz x AT i. specialize (P2 r yl zz x AT). cbv zeta in P2. fold i in P2. rewrite P2. cbn [fold_left]. f_equal.
      pose proof (place_here g r yl zz x E AT) as HI. fold i in HI.
      assert (V1 : fC T (speed M1) r i = FourSpec.plus (fC T (speed M) r i) (FourSpec.times (dz * c) (fC T Lap r i))).
      { apply (fC_add T g); [exact CP|exact HI|]. intros r' i' H'. destruct (P1 r' i' H') as [V _]. rewrite V. f_equal. f_equal.
        rewrite L0, A0, R0. unfold pqForce, qcdForce, FourSpec.slope, slope2, FourSpec.plus, FourSpec.times. destruct (Lap r' i') as [u v]. cbn [fst snd].
        destruct s; destruct HQ as [-> | ->]; cbn [fst snd]; f_equal; field; exact RN. }
      assert (F1 : fC T (field g M1) r i = FourSpec.plus (fC T (field g M) r i) (FourSpec.times (dz * d) (fC T (speed M1) r i))).
      { apply (fC_add T g); [exact CP|exact HI|]. intros r' i' H'. destruct (P1 r' i' H') as [_ W]. exact W. }
      unfold kickDrift. cbn [fst snd]. rewrite F1.
      assert (VK : fC T (speed M1) r i = FourSpec.plus (fC T (speed M) r i) (FourSpec.times (- (dz * c * kSquared l g r yl zz x)) (fC T (field g M) r i))).
      { rewrite V1. unfold i. rewrite (HL r yl zz x AT). rewrite times_times. do 2 f_equal. ring. }
      rewrite VK. reflexivity.
Qed.

(** C119. The whole step: a folded field is unfolded first and left unfolded; what is in momentum space stays noted. *)
Theorem spec_step T unf P I s q b l junk jr jd g dz cds : complexPair T g -> even g -> gNg g = 1%nat -> l <> 0 ->
  s <> ForceModel.PQ3 -> q = QCD0 \/ q = QCD1 -> quietBack b -> forall z x M0, (sF x = true -> unf (mm x) = M0) -> (sF x = false -> mm x = M0) ->
  exists x', sSpec T unf P I (ForceSpec.plain s q) b l junk jr jd g dz cds z x = Some (z + dz * total (map snd cds), x') /\
    sF x' = false /\ sM x' = sM x /\ sV x' = sV x /\
    forall r yl zz xx, modeAt g r yl zz xx -> let i := modePlace g yl zz xx in
      (fC T (field g (mm x')) r i, fC T (speed (mm x')) r i) =
      fold_left (kickDrift (kSquared l g r yl zz xx) dz) cds (fC T (field g M0) r i, fC T (speed M0) r i).
Proof.
  intros CP E NG Hl HS HQ QB z x M0 F1 F2.
  destruct (spec_modes T P I s q b l junk jr jd g dz cds CP E NG Hl HS HQ QB z M0) as [M' [A B]].
  exists (St M' (sM x) (sV x) false). split; [|repeat split; exact B]. unfold sSpec.
  assert (M : (if sF x then unf (mm x) else mm x) = M0) by (destruct (sF x); [apply F1|apply F2]; reflexivity). rewrite M, A. reflexivity.
Qed.

(** C119. The angle feels the axion mass with the first potential, and with the cosine in single precision. *)
Definition feltBySpec (P : prec) (q : qcd) : Prop := match q with QCD0 | QCD1 => True | QCDC => P = Single | _ => False end.
Theorem spec_mass_partial P I q : feltBySpec P q -> feels P I q.
Proof.
  intros H s c junk p th mel lap vel w HS HR Hp Hth Hm E.
  assert (RM : rightMass Fused P q) by (destruct q; cbn in *; try exact I; try contradiction; assumption).
  assert (NQ : q <> QCDL /\ q <> QCD2) by (split; intros ->; exact H).
  apply (axion_mass_felt_partial Fused P I q RM s c p th mel lap vel w HR Hp Hth Hm).
  rewrite <- E. unfold newVel, sNewVel. rewrite (sVel_plain Fused) by (try exact HS; intros X; exfalso; subst q; exact H).
  rewrite (sDiv_plain Fused P) by (left; apply NQ). reflexivity.
Qed.
(** C119 fails with the others: the one with both components feels R times the mass, the one of two minima a mass of the other sign, the quadratic none. *)
Theorem spec_mass_refuted P I q : q = ForceModel.QCDV \/ q = QCD2 \/ q = QCDL -> ~ feels P I q.
Proof.
  intros HQ F. pose proof PI2_3_2 as PB. pose proof PI_4 as PB4.
  set (z := allOf (0, 0)).
  assert (G : forall th, - PI < th <= PI -> forall k q', (q' = QCD2 -> k = kOf P) -> q' <> QCDL -> q' <> QCDC ->
      sVelocity P I (ForceSpec.plain ForceModel.PQ1 q) unit2 z (allOf (vacuum 2 th)) z z = sVelocity P I (ForceSpec.plain ForceModel.PQ1 q') unit2 z (allOf (vacuum 2 th)) z z ->
      ForceProperties.pull k P q' unit2 th = 4 * ForceSpec.slope q th).
  { intros th Hth k q' A NL NC EQ.
    assert (SV : sNewVel P I (ForceSpec.plain ForceModel.PQ1 q) unit2 z 0 (allOf (vacuum 2 th)) z z
                 = Some (pairOf 0 (sVelocity P I (ForceSpec.plain ForceModel.PQ1 q) unit2 z (allOf (vacuum 2 th)) z z))).
    { unfold sNewVel. rewrite pairOf_allOf, vacuum_not0 by lra. rewrite andb_false_r. reflexivity. }
    pose proof (F ForceModel.PQ1 unit2 z 0%nat th (allOf (vacuum 2 th)) z z _ ltac:(discriminate) unit2_pos (ForceProperties.lanes_pos P I) Hth (pairOf_allOf _ _) SV) as E1.
    assert (GC : goodCos P (ForceSpec.plain ForceModel.PQ1 q')) by (intros _; exact NC).
    pose proof (pull_ok k P I ForceModel.PQ1 q' unit2 0%nat th (allOf (vacuum 2 th)) z z _ unit2_pos (ForceProperties.lanes_pos P I) GC (pairOf_allOf _ _)
      (atVacuum k P I (ForceSpec.plain ForceModel.PQ1 q') unit2 0%nat th z z unit2_pos)) as E2.
    change (pR unit2) with 2 in *. rewrite EQ, (sVel_plain k) in E1 by (try discriminate; try exact A; intros X; exfalso; exact (NL X)).
    rewrite E2 in E1. cbn [unit2 pDzc pMa2] in E1. generalize dependent (tang th (pairOf 0 z)). intros.
    generalize dependent (ForceProperties.pull k P q' unit2 th). intros. generalize dependent (ForceSpec.slope q th). intros. cbn [pR] in *. lra. }
  destruct HQ as [-> | [-> | ->]].
  - pose proof (G (PI / 2) ltac:(lra) (kOf P) ForceModel.QCDV ltac:(reflexivity) ltac:(discriminate) ltac:(discriminate) eq_refl) as X.
    cbn [ForceProperties.pull ForceSpec.slope unit2 pMa2 pR] in X. rewrite sin_PI2 in X. lra.
  - pose proof (G (PI / 4) ltac:(lra) (kOf P) QCD2 ltac:(reflexivity) ltac:(discriminate) ltac:(discriminate) eq_refl) as X.
    unfold ForceProperties.pull, kOf in X. cbn [ForceSpec.slope unit2 pMa2 pR] in X. replace (2 * (PI / 4)) with (PI / 2) in X by lra. rewrite sin_PI2 in X. destruct P; lra.
  - pose proof (G 1 ltac:(lra) Fused QCD0 ltac:(discriminate) ltac:(discriminate) ltac:(discriminate) eq_refl) as X.
    cbn [ForceProperties.pull ForceSpec.slope] in X. lra.
Qed.

(** C119. What --spec changes is the Laplacian: with the first or second Peccei-Quinn potential, no damping and no axion potential, the first, the one with both components or the
    cosine, a site moves as with stencils. *)
Definition keptQcd (P : prec) (q : qcd) : Prop := match q with QCDL => P = Double | QCD2 => P = Double | _ => True end.
Theorem spec_as_stencil_partial P I s q : s <> ForceModel.PQ3 -> keptQcd P q -> asStencil P I (ForceSpec.plain s q).
Proof.
  intros HS H c junk p mel lap vel HR Hp. unfold sNewVel, newVel.
  rewrite (sVel_plain Fused) by (try exact HS; intros ->; cbn in H; subst; reflexivity).
  rewrite (sDiv_plain Fused P); [reflexivity|]. destruct q; cbn in H; try (left; discriminate); right; exact H.
Qed.
(** It fails with the third potential, whose force is whatever was in a register; *)
Theorem spec_third_refuted P I q : q = QCD0 \/ q = QCD1 -> ~ asStencil P I (ForceSpec.plain ForceModel.PQ3 q).
Proof.
  intros HQ A. set (z := allOf (0, 0)). set (m := allOf (1, 0)).
  pose proof (A unit2 (allOf (1, 0)) 0%nat m z z unit2_pos (ForceProperties.lanes_pos P I)) as A1.
  pose proof (A unit2 (allOf (2, 0)) 0%nat m z z unit2_pos (ForceProperties.lanes_pos P I)) as A2.
  rewrite <- A2 in A1. revert A1. unfold sNewVel. replace (sDivides (ForceSpec.plain ForceModel.PQ3 q)) with false by (destruct HQ; subst; reflexivity).
  cbn [andb]. intros A1. apply (f_equal (fun o => match o with Some x => fst x | None => 0 end)) in A1. cbn [fst] in A1. revert A1.
  unfold pairOf, sVelocity, onlyRho, sKick, sBase. cbn [pEvol pDamp pPq ForceSpec.plain]. unfold sQcd. cbn [pQcd ForceSpec.plain].
  destruct HQ as [-> | ->]; unfold add2, zQVec, z, m, allOf; cbn; lra.
Qed.
(** with --onlytheta, which is ignored: a field on its vacuum is pushed outwards by the Laplacian; *)
Theorem spec_angle_refuted P I s : s <> ForceModel.PQ3 -> ~ asStencil P I (Pot s QCD0 NoDamp EvolTheta).
Proof.
  intros HS A. set (z := allOf (0, 0)). set (m := allOf (1, 0)). set (c := Parms 1 0 0 0 0 0 0 1 0).
  assert (H0 : 0 < pR c) by (cbn; lra).
  pose proof (A c z 0%nat m (allOf (1, 0)) z H0 (ForceProperties.lanes_pos P I)) as A1. revert A1.
  assert (NV : vanishes (pairOf 0 m) = false).
  { unfold m. rewrite pairOf_allOf. unfold vanishes. cbn [fst snd]. destruct (Req_EM_T 1 0); [lra|reflexivity]. }
  rewrite newVel_pair; [|apply ForceProperties.lanes_pos|intros _; discriminate|intros X; discriminate X|intros X; discriminate X].
  unfold sNewVel. rewrite NV, !andb_false_r. intros A1. apply (f_equal (fun o => match o with Some x => fst x | None => 0 end)) in A1. cbn [fst] in A1. revert A1.
  unfold m, z. rewrite !pairOf_allOf. unfold velPair, accelPair, basePair. cbn [pEvol]. unfold qcdPair, rhoPair, kickPair, projPair. cbn [pEvol pDamp pQcd fst snd].
  unfold cross, sq, dot. cbn [fst snd].
  unfold pairOf, sVelocity, onlyRho, sKick, sQcd, sBase. cbn [pEvol pDamp pPq pQcd].
  destruct s; [| |exfalso; apply HS; reflexivity]; unfold pqPart, allOf, c, LaLa; cbn [pPq pLam pRpp pDzc pRp pR fst snd Nat.even Nat.mul Nat.add]; intros A1; lra.
Qed.
(** with damping, which takes R' to be 1 and knows no decoupling time: as with stencils, where those are right, only if it is so. *)
Lemma sKick_pair P I v c p mel a vel : (p < lanesOf P I)%nat -> goodMV P I p -> 0 < pR c -> pDec c <= 0 -> pRp c * pR c = 1 ->
  pairOf p (sKick P I v c (norm2 P I mel) mel a vel) = kickPair v c (pairOf p mel) (pairOf p a) (pairOf p vel).
Proof.
  intros H G HR HD HP. destruct (norm2_lanes P I p mel H) as [A B].
  destruct (dotMV_lanes P I p mel vel H G) as [C D]. destruct (dotMV_lanes P I p mel a H G) as [E F].
  assert (MO : sMola c = mola c).
  { unfold sMola, mola, GGGG. destruct (Rlt_dec 0 (pDec c)); [lra|]. reflexivity. }
  assert (RP : pRp c = / pR c).
  { apply (Rmult_eq_reg_r (pR c)); [|lra]. rewrite HP. symmetry. apply Rinv_l. lra. }
  unfold sKick, kickPair. rewrite MO. destruct (pDamp v).
  - reflexivity.
  - unfold pairOf at 1. cbv beta zeta. rewrite A, B, C, D, E, F, RP. unfold epsi, Rdiv. cbn [fst snd pairOf]. reflexivity.
  - reflexivity.
Qed.
Theorem spec_damping_partial P I s q d c junk p mel lap vel : s <> ForceModel.PQ3 -> keptQcd P q -> (p < lanesOf P I)%nat -> wellSummed P I p ->
  0 < pR c -> pDec c <= 0 -> pRp c * pR c = 1 ->
  sNewVel P I (Pot s q d EvolAll) c junk p mel lap vel = newVel Fused P I (Pot s q d EvolAll) c p mel lap vel.
Proof.
  intros HS HQ Hp W HR HD HP. unfold sNewVel, newVel.
  assert (DV : sDivides (Pot s q d EvolAll) = divides Fused P (Pot s q d EvolAll)).
  { unfold sDivides, divides. cbn [pEvol pDamp pQcd]. destruct q; cbn in HQ; subst; try (destruct P); reflexivity. }
  rewrite DV. destruct (_ && _); [reflexivity|]. f_equal.
  unfold sVelocity, velocity, project, accel. cbn [pEvol onlyRho]. unfold basePart. cbn [pEvol].
  set (a := qcdPart Fused P I (Pot s q d EvolAll) c (norm2 P I mel) mel (pqPart (Pot s q d EvolAll) c (norm2 P I mel) mel lap)).
  assert (AE : sQcd P I (Pot s q d EvolAll) c (norm2 P I mel) mel (sBase (Pot s q d EvolAll) c (norm2 P I mel) mel lap junk) = a).
  { unfold a. replace (sBase (Pot s q d EvolAll) c (norm2 P I mel) mel lap junk) with (pqPart (Pot s q d EvolAll) c (norm2 P I mel) mel lap)
      by (unfold sBase; cbn [pPq]; destruct s; [reflexivity|reflexivity|exfalso; apply HS; reflexivity]).
    unfold sQcd, qcdPart. cbn [pQcd]. destruct q; cbn in HQ; subst; reflexivity. }
  rewrite AE. apply wellSummed_good in W. rewrite sKick_pair by (try assumption; apply W).
  rewrite kicked_pair; [reflexivity|exact Hp|]. intros _. exact W.
Qed.
Theorem spec_damping_refuted P I s c junk p : s <> ForceModel.PQ3 -> (p < lanesOf P I)%nat -> wellSummed P I p -> 0 < pR c -> pDec c <= 0 -> 0 < pGamma c -> 0 < pDzc c -> pRp c * pR c <> 1 ->
  exists mel lap vel, sNewVel P I (Pot s QCD0 DampRho EvolAll) c junk p mel lap vel <> newVel Fused P I (Pot s QCD0 DampRho EvolAll) c p mel lap vel.
Proof.
  intros HS Hp W HR HD HG HZ HP.
  exists (allOf (1, 0)), (allOf (0, 0)), (allOf (0, 0)). intros A1.
  set (m := allOf (1, 0)) in *. set (z := allOf (0, 0)) in *.
  (* the same parameters with R' = 1 *)
  set (c' := Parms (pR c) (pLam c) (pMa2 c) (pRpp c) (/ pR c) (pGamma c) (pDec c) (pDzc c) (pDzd c)).
  assert (SV : sNewVel P I (Pot s QCD0 DampRho EvolAll) c junk p m z z = sNewVel P I (Pot s QCD0 DampRho EvolAll) c' junk p m z z).
  { unfold sNewVel. destruct (_ && _); [reflexivity|]. unfold sVelocity, sQcd, sBase. cbn [pQcd pPq pEvol onlyRho]. destruct s; reflexivity. }
  rewrite SV, (spec_damping_partial P I s QCD0 DampRho c' junk p m z z) in A1; try assumption; try exact Logic.I.
  2: { unfold c'. cbn [pRp pR]. apply Rinv_l. lra. }
  assert (NV : vanishes (pairOf p m) = false).
  { unfold m. rewrite pairOf_allOf. unfold vanishes. cbn [fst snd]. destruct (Req_EM_T 1 0); [lra|reflexivity]. }
  apply wellSummed_good in W.
  rewrite !newVel_pair in A1; try assumption; try (intros _; discriminate); try (intros X; discriminate X); try (intros _; exact W).
  rewrite NV, !andb_false_r in A1. apply (f_equal (fun o => match o with Some x => fst x | None => 0 end)) in A1. cbn [fst] in A1. revert A1.
  unfold m, z. rewrite !pairOf_allOf. unfold velPair, accelPair, basePair. cbn [pEvol]. unfold qcdPair, rhoPair, kickPair. cbn [pEvol pDamp pQcd fst snd].
  unfold pqPair, pqCoef, epsi, mola, GGGG, sq, dot, c', LaLa. cbn [pR pLam pMa2 pRpp pRp pGamma pDec pDzc pDzd fst snd pPq].
  destruct (Rlt_dec 0 (pDec c)); [lra|].
  set (K := pGamma c / pR c * pDzc c / 2).
  assert (KP : 0 < K).
  { unfold K, Rdiv. apply Rmult_lt_0_compat; [|lra]. apply Rmult_lt_0_compat; [|exact HZ]. apply Rmult_lt_0_compat; [exact HG|apply Rinv_0_lt_compat; exact HR]. }
  intros A1. apply HP.
  assert (D : K / (1 + K) * (/ pR c - pRp c) = 0).
  { match type of A1 with ?x = ?y => assert (x - y = 0) by lra end.
    match type of H with ?x = 0 => replace (K / (1 + K) * (/ pR c - pRp c)) with (x / 2) by (field; repeat split; lra) end. rewrite H. lra. }
  apply Rmult_integral in D. destruct D as [D|D].
  - exfalso. assert (0 < K / (1 + K)) by (apply Rdiv_lt_0_compat; lra). lra.
  - replace (pRp c) with (/ pR c) by lra. apply Rinv_l. lra.
Qed.
(** C119. Only none or one ghost slice come with --spec. *)
Theorem spec_ghosts lap n : specGhosts lap = Some n -> n = 1%nat \/ n = 0%nat.
Proof.
  unfold specGhosts. destruct lap as [k|]; [|intros E; injection E as <-; left; reflexivity].
  destruct (Z.ltb_spec k 0); cbn [orb]; [discriminate|]. destruct (Z.ltb_spec 6 k); [discriminate|]. destruct (Z.ltb_spec 0 k); [discriminate|].
  intros E. injection E as <-. right. assert (k = 0)%Z by lia. subst. reflexivity.
Qed.
(** C119 fails with --lap 0: no ghosts, and the first stage writes behind the end of the field. *)
Theorem spec_no_ghosts_refuted T P I v b l junk jr jd g dz cd z M : (0 < gL g)%nat -> gNg g = 0%nat ->
  specGhosts (Some 0%Z) = Some (gNg g) /\ sStage T P I v b l junk jr jd g dz cd (z, M) = None.
Proof.
  intros L0 N. split; [rewrite N; reflexivity|]. unfold sStage, sKernel. destruct cd as [c d]. cbv zeta.
  assert (A : (0 < gL g * gL g)%nat) by (apply Nat.mul_pos_pos; exact L0).
  rewrite (proj2 (Nat.leb_gt (2 * (surf g + vol g)) (room Saxion g AM))); [reflexivity|]. unfold room, eSz, vol, surf. rewrite N. lia.
Qed.

(** ** Cases *)
Definition emptyBack : back := Back (fun _ => 0) (fun _ => 0) (fun _ => 1) (fun _ => 0) 0.
Example spec_case : exists M', each (sStage square Single SSE (ForceSpec.plain ForceModel.PQ1 QCD1) emptyBack (2 * PI) (fun _ _ _ => 0) 0 0 two 1) [(1, 1); (1, 0)] (3, someMem) = Some (4, M') /\
  fC square (field two M') 0 1 = (0, 0).
Proof.
  assert (PN : 2 * PI <> 0) by (pose proof PI_RGT_0; lra).
  destruct (spec_modes square Single SSE ForceModel.PQ1 QCD1 emptyBack (2 * PI) (fun _ _ _ => 0) 0 0 two 1 [(1, 1); (1, 0)] square_pair even_two eq_refl PN ltac:(discriminate) ltac:(right; reflexivity))
    with (z := 3) (M := someMem) as [M' [A B]].
  { intros z. cbn. repeat split; lra. }
  exists M'. split.
  - rewrite A. do 2 f_equal. unfold total. cbn [map snd fold_right]. ring.
  - specialize (B 0%nat 0%nat 0%nat 1%nat ltac:(unfold modeAt, two; cbn; lia)). cbv zeta in B. change (modePlace two 0 0 1) with 1%nat in B.
    apply (f_equal fst) in B. cbn [fst] in B. rewrite B. unfold kSquared. change (momentum2 two 0 0 0 1) with 1%nat.
    replace ((2 * PI / (2 * PI)) ^ 2 * INR 1) with 1 by (cbn [INR]; field; pose proof PI_RGT_0; lra).
    cbn [fold_left]. unfold kickDrift. cbn [fst snd]. unfold square. cbn [fC]. unfold sum4, sgn, FourSpec.plus, FourSpec.times, field, speed, someMem, two. cbn. f_equal; ring.
Qed.
Definition foldedMem : st := St (fun _ _ _ => 0) false false true.
Example step_case : exists x', sSpec square (fun _ => someMem) Single SSE (ForceSpec.plain ForceModel.PQ1 QCD1) emptyBack (2 * PI) (fun _ _ _ => 0) 0 0 two 1 [(1, 1); (1, 0)] 3 foldedMem =
  Some (3 + 1 * total (map snd [(1, 1); (1, 0)]), x') /\ sF x' = false.
Proof.
  destruct (spec_step square (fun _ => someMem) Single SSE ForceModel.PQ1 QCD1 emptyBack (2 * PI) (fun _ _ _ => 0) 0 0 two 1 [(1, 1); (1, 0)] square_pair even_two eq_refl
    ltac:(pose proof PI_RGT_0; lra) ltac:(discriminate) ltac:(right; reflexivity) ltac:(intros z; cbn; repeat split; lra) 3 foldedMem someMem) as [x' [A [B _]]]; try reflexivity; try discriminate.
  exists x'. split; [exact A|exact B].
Qed.
Example slab_case : modeAt (Geo 4 1 2 1) 0 0 1 0 /\ kSquared 1 (Geo 4 1 2 1) 0 0 1 0 <> kTrue 1 (Geo 4 1 2 1) 0 0 1 0.
Proof. apply spec_momenta_refuted; cbn; try lia; try lra. unfold even. cbn. lia. Qed.
Example damping_case : exists mel lap vel, sNewVel Single AVX2 (Pot ForceModel.PQ1 QCD0 DampRho EvolAll) (ForceModel.Parms 2 1 1 0 1 1 0 1 0) (fun _ => 0) 3 mel lap vel <>
  newVel Fused Single AVX2 (Pot ForceModel.PQ1 QCD0 DampRho EvolAll) (ForceModel.Parms 2 1 1 0 1 1 0 1 0) 3 mel lap vel.
Proof. apply spec_damping_refuted; cbn; try lia; try lra; try discriminate. left. reflexivity. Qed.
Example no_ghosts_case : sStage square Single SSE (ForceSpec.plain ForceModel.PQ1 QCD1) emptyBack 1 (fun _ _ _ => 0) 0 0 (Geo 2 2 1 0) 1 (1, 1) (3, someMem) = None.
Proof. apply spec_no_ghosts_refuted; cbn; lia. Qed.

Print Assumptions spec_laplacian.
Print Assumptions spec_momenta.
Print Assumptions spec_momenta_refuted.
Print Assumptions spec_stage_partial.
Print Assumptions spec_modes.
Print Assumptions spec_step.
Print Assumptions spec_mass_partial.
Print Assumptions spec_mass_refuted.
Print Assumptions spec_as_stencil_partial.
Print Assumptions spec_third_refuted.
Print Assumptions spec_angle_refuted.
Print Assumptions spec_damping_partial.
Print Assumptions spec_damping_refuted.
Print Assumptions spec_ghosts.
Print Assumptions spec_no_ghosts_refuted.
