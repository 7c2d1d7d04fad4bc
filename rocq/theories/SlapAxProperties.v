(** Property C120: the axion with a spectral Laplacian (--spec). *)
From Coq Require Import Lqa Lra Reals List Arith ZArith Bool Lia.
From Verif Require Import AxionModel GravModel LaneModel ForceModel FourModel FourSpec FourProofs FspProperties SlapModel SlapSpec SlapProofs.
Import ListNotations.
Local Open Scope R_scope.
Ltac Zify.zify_post_hook ::= idtac.

(** ** Rows *)
Lemma padded_rows g j : (0 < gL g)%nat -> (j < vol g)%nat ->
  (padded g j / (gL g + 2) = j / gL g)%nat /\ (padded g j mod (gL g + 2) = j mod gL g)%nat /\ (j / gL g < gL g * gLz g)%nat /\ (j mod gL g < gL g)%nat /\ (j / gL g * gL g + j mod gL g = j)%nat.
Proof.
  intros L0 H. pose proof (Nat.mod_upper_bound j (gL g) ltac:(lia)) as B. pose proof (Nat.div_mod j (gL g) ltac:(lia)) as Q.
  unfold padded. set (q := (j / gL g)%nat) in *. set (x := (j mod gL g)%nat) in *. repeat split.
  - rewrite Nat.div_add_l by lia. rewrite (Nat.div_small x) by lia. lia.
  - rewrite Nat.add_comm, Nat.mod_add by lia. apply Nat.mod_small. lia.
  - unfold vol, surf in H. apply (Nat.mul_lt_mono_pos_l (gL g)); [lia|]. rewrite Nat.mul_assoc. lia.
  - exact B.
  - lia.
Qed.
Lemma padtom2_at g p M r j : (0 < gL g)%nat -> (j < vol g)%nat -> padtom2 g p M AM2 r (padded g j) = M (fst p) r (snd p + j)%nat.
Proof.
  intros L0 H. destruct (padded_rows g j L0 H) as [A [B [C [D E]]]]. unfold padtom2. destruct (arr_eq AM2 AM2) as [_|X]; [|exfalso; auto].
  cbv zeta. rewrite A, B, (proj2 (Nat.ltb_lt _ _) C), (proj2 (Nat.ltb_lt _ _) D), E. reflexivity.
Qed.
Lemma toRows_at T g p M r j : (0 < gL g)%nat -> (j < vol g)%nat -> toRows T g p M AM2 r (padded g j) = bR T (getC M p) r j.
Proof.
  intros L0 H. destruct (padded_rows g j L0 H) as [A [B [C [D E]]]]. unfold toRows. destruct (arr_eq AM2 AM2) as [_|X]; [|exfalso; auto].
  cbv zeta. rewrite A, B, (proj2 (Nat.ltb_lt _ _) C), (proj2 (Nat.ltb_lt _ _) D), E. reflexivity.
Qed.
Lemma tLap_keeps T g p M a r j : a <> AM2 -> tLaplacian T g (padtom2 g p M) a r j = M a r j.
Proof.
  intros H. unfold tLaplacian, toRows. cbv zeta. destruct (arr_eq a AM2) as [X|_]; [contradiction|].
  unfold toModes, putC. rewrite !putR_out by (left; exact H). unfold padtom2. destruct (arr_eq a AM2) as [X|_]; [contradiction|reflexivity].
Qed.
Lemma half_modes g r yl z x : halfMode g r yl z x -> (halfPlace g yl z x < modes g)%nat.
Proof.
  intros [_ [Hy [Hz Hx]]]. unfold halfPlace, modes, depth.
  set (h := (gL g / 2 + 1)%nat). set (d := (gLz g * gK g)%nat) in *. set (q := (gL g / gK g)%nat) in *.
  assert (A : ((yl * d + z + 1) * h <= q * d * h)%nat).
  { apply Nat.mul_le_mono_r. assert ((yl + 1) * d <= q * d)%nat by (apply Nat.mul_le_mono_r; lia). lia. }
  replace (h * d * q)%nat with (q * d * h)%nat by lia. assert (x < h)%nat by (unfold h; lia). lia.
Qed.

(** ** The Laplacian *)
Definition lapAx (T : fft) (l : R) (g : geo) (M : mem) (r i : nat) : R := fMom l g * tLaplacian T g (padtom2 g (AM, surf g) M) AM2 r (padded g i).
Lemma fR_scaled T g c f : realTransforms T g -> forall r yl z x, halfMode g r yl z x ->
  fR T (fun r i => c * f r i) r (halfPlace g yl z x) = FourSpec.times c (fR T f r (halfPlace g yl z x)).
Proof.
  intros RT r yl z x H.
  assert (Z : fR T (fun _ _ => 0) r (halfPlace g yl z x) = (0, 0)).
  { pose proof (fR_linear T g RT (-1) (fun _ _ => 0) (fun _ _ => 0) r yl z x H) as A.
    rewrite (fR_local T g RT (fun _ _ => 0 + -1 * 0) (fun _ _ => 0)) in A by (try assumption; intros; ring).
    unfold FourSpec.plus, FourSpec.times in A. rewrite A. cbn [fst snd]. f_equal; ring. }
  rewrite (fR_local T g RT _ (fun r i => 0 + c * f r i)) by (try assumption; intros; ring).
  rewrite (fR_linear T g RT c (fun _ _ => 0) f) by exact H. rewrite Z. unfold FourSpec.plus, FourSpec.times. cbn [fst snd]. f_equal; ring.
Qed.
Lemma lapAx_modes T l g M : realTransforms T g -> even g -> gNg g = 1%nat -> (gL g mod 2 = 0)%nat -> l <> 0 -> isLaplacianR T l g (angle g M) (lapAx T l g M).
Proof.
  intros RT E NG L2 Hl. pose proof E as [L0 [Z0 [K0 D]]].
  set (M0 := padtom2 g (AM, surf g) M). set (M1 := toModes T g m2Cpu M0).
  set (A := fun r i => let k := IZR (lapMom g (gL g / 2 + 1) r i) in let F := getC M1 m2Cpu r i in (k * fst F, k * snd F)).
  set (M2 := putC M1 m2Cpu (modes g) A).
  assert (HF : forall r yl z x, halfMode g r yl z x -> getC M1 m2Cpu r (halfPlace g yl z x) = fR T (angle g M) r (halfPlace g yl z x)).
  { intros r yl z x H. unfold M1, toModes, m2Cpu. rewrite getC_put by (apply half_modes with (1 := H)).
    apply (fR_local T g RT); [|exact H]. intros r' i' H'. unfold M0. rewrite padtom2_at by (try exact L0; apply H').
    unfold angle. rewrite NG, Nat.mul_1_l. reflexivity. }
  assert (HA : forall r yl z x, halfMode g r yl z x -> getC M2 m2Cpu r (halfPlace g yl z x) = FourSpec.times (INR (momentum2 g r yl z x)) (fR T (angle g M) r (halfPlace g yl z x))).
  { intros r yl z x H. unfold M2, m2Cpu. rewrite getC_put by (apply half_modes with (1 := H)). unfold A. rewrite HF by exact H.
    destruct H as [Hr [Hy [Hz Hx]]]. unfold halfPlace at 1.
    assert (X2 : (gL g = 2 * (gL g / 2))%nat) by (pose proof (Nat.div_mod (gL g) 2 ltac:(lia)); lia).
    rewrite lapMom_place by (try assumption; lia). rewrite <- INR_IZR_INZ. unfold halfPlace, FourSpec.times.
    rewrite lapMom_place by (try assumption; lia). rewrite <- INR_IZR_INZ. reflexivity. }
  intros r yl z x H.
  rewrite (fR_local T g RT (lapAx T l g M) (fun r i => fMom l g * bR T (getC M2 m2Cpu) r i)).
  2: { intros r' i' H'. unfold lapAx. fold M0. unfold tLaplacian. cbv zeta. fold M1. fold A. fold M2. rewrite toRows_at by (try exact L0; apply H'). reflexivity. }
  2: exact H.
  rewrite (fR_scaled T g) by assumption. rewrite (weighted T g RT (angle g M) INR _ HA) by exact H.
  unfold kSquared. pose proof (fMom_k l g (INR (momentum2 g r yl z x)) E Hl) as K. unfold FourSpec.times. cbn [fst snd]. rewrite <- K. f_equal; ring.
Qed.
(** C120. There is one Laplacian. *)
Theorem tspec_laplacian T l g : realTransforms T g -> even g -> gNg g = 1%nat -> (gL g mod 2 = 0)%nat -> l <> 0 ->
  (forall M, exists G, isLaplacianR T l g (angle g M) G) /\
  (forall F G H, isLaplacianR T l g F G -> isLaplacianR T l g F H -> forall r i, here g r i -> G r i = H r i).
Proof.
  intros RT E NG L2 Hl. split.
  - intros M. exists (lapAx T l g M). apply lapAx_modes; assumption.
  - intros F G H A B. apply (fR_faithful T g RT). intros r yl z x HM. rewrite (A r yl z x HM), (B r yl z x HM). reflexivity.
Qed.

(** ** A stage *)
(** C120. A stage (c, d): the velocity of every site gains dz c of the force (without R''/R), then the axion moves with it for dz d; time goes on by dz d; the ghosts, and what is behind the velocity, stay. *)
Theorem tspec_stage_partial T b l g dz c d z M Lap : realTransforms T g -> even g -> gNg g = 1%nat -> (gL g mod 2 = 0)%nat -> l <> 0 -> kR b z <> 0 -> kRpp b z = 0 ->
  isLaplacianR T l g (angle g M) Lap ->
  exists M', tStage T b l g dz (c, d) (z, M) = Some (z + dz * d, M') /\
    (forall r i, here g r i ->
      angleSpeed g M' r i = angleSpeed g M r i + dz * c * axionForce b z (Lap r i) (angle g M r i) /\
      angle g M' r i = angle g M r i + dz * d * angleSpeed g M' r i) /\
    (forall r j, (j < gL g * gL g \/ gL g * gL g * (gLz g + 1) <= j < gL g * gL g * (gLz g + 2) \/ gL g * gL g * (2 * gLz g + 2) <= j)%nat -> M' AM r j = M AM r j) /\
    (forall r j, M' FourModel.AV r j = M FourModel.AV r j).
Proof.
  intros RT E NG L2 Hl HR HP HL.
  assert (LE : forall r i, here g r i -> lapAx T l g M r i = Lap r i).
  { apply (tspec_laplacian T l g RT E NG L2 Hl) with (F := angle g M); [apply lapAx_modes; assumption|exact HL]. }
  unfold tStage, SlapModel.tKernel. cbv zeta. cbn [vCpu fst snd].
  set (M1 := tLaplacian T g (padtom2 g (AM, surf g) M)).
  assert (EZ : (surf g + vol g + surf g = eSz g)%nat) by (unfold vol, eSz; rewrite NG; lia).
  rewrite (proj2 (Nat.leb_le (surf g + vol g) (eSz g))) by lia.
  set (w := fun r i => M1 AM r (eSz g + i)%nat + SlapModel.tAccel (kMa2 b z) (kR b z) (fMom l g) (M1 AM r (surf g + i)%nat) (M1 AM2 r (padded g i)) * (dz * c)).
  set (M2 := putR (putR M1 (AM, eSz g) (vol g) w) (AM, surf g) (vol g) (fun r i => M1 AM r (surf g + i)%nat + w r i * (dz * d))).
  exists M2. split; [reflexivity|].
  assert (KEEP : forall r j, M1 AM r j = M AM r j) by (intros; unfold M1; apply tLap_keeps; discriminate).
  assert (AP : forall N r i, angle g N r i = N AM r (surf g + i)%nat) by (intros N r i; unfold angle; rewrite NG, Nat.mul_1_l; reflexivity).
  assert (SP : forall N r i, angleSpeed g N r i = N AM r (eSz g + i)%nat) by (intros N r i; unfold angleSpeed, eSz, surf; rewrite NG; reflexivity).
  split; [|split].
  - intros r i HI. pose proof (here_vol g r i HI) as HV. rewrite !SP, !AP.
    assert (S2 : M2 AM r (eSz g + i)%nat = w r i).
    { unfold M2. rewrite putR_out by (right; right; cbn [snd]; lia). apply putR_in. exact HV. }
    rewrite S2. split.
    + unfold w. rewrite !KEEP. unfold axionForce, SlapModel.tAccel. rewrite HP, <- (LE r i HI). unfold lapAx. fold M1. unfold Rdiv. rewrite Rmult_1_l. ring.
    + unfold M2. rewrite putR_in by exact HV. rewrite KEEP. ring.
  - intros r j H. unfold M2. rewrite !putR_out; [apply KEEP| |]; right; cbn [snd]; unfold eSz, vol, surf; rewrite ?NG; lia.
  - intros r j. unfold M2. rewrite !putR_out by (left; discriminate). unfold M1. apply tLap_keeps. discriminate.
Qed.

(** C120 fails wherever R'' is not 0: the axion that is not at rest at 0 misses it. *)
Theorem tspec_background_refuted T b l g dz c d z M M' z' Lap r i : realTransforms T g -> even g -> gNg g = 1%nat -> (gL g mod 2 = 0)%nat -> l <> 0 -> kR b z <> 0 ->
  isLaplacianR T l g (angle g M) Lap -> here g r i -> kRpp b z <> 0 -> dz * c <> 0 -> angle g M r i <> 0 ->
  tStage T b l g dz (c, d) (z, M) = Some (z', M') ->
  angleSpeed g M' r i <> angleSpeed g M r i + dz * c * axionForce b z (Lap r i) (angle g M r i).
Proof.
  intros RT E NG L2 Hl HR HL HI HP HZ HA S.
  set (b0 := Back (kLam b) (kMa2 b) (kR b) (fun _ => 0) (kGamma b)).
  destruct (tspec_stage_partial T b0 l g dz c d z M Lap RT E NG L2 Hl HR eq_refl HL) as [M1 [S1 [A1 _]]].
  assert (X : tStage T b0 l g dz (c, d) (z, M) = tStage T b l g dz (c, d) (z, M)) by reflexivity.
  rewrite X, S in S1. assert (M' = M1) by (apply (f_equal (fun o => match o with Some x => snd x | None => M' end) S1)). subst M1.
  destruct (A1 r i HI) as [V _]. rewrite V. unfold axionForce, b0. cbn [kRpp kMa2 kR]. intros Q.
  assert (Z : dz * c * (kRpp b z * angle g M r i) = 0) by lra.
  apply Rmult_integral in Z. destruct Z as [Z|Z]; [exact (HZ Z)|]. apply Rmult_integral in Z. destruct Z; auto.
Qed.

(** C120. The acceleration is that with stencils (AxionModel), for the same Laplacian, if R'' is 0 and the potential is that of the cosine. *)
Theorem tspec_as_stencil_partial P c fm m lap : tRpp c = 0 ->
  SlapModel.tAccel (tMa2 c) (tR c) fm m lap = AxionModel.tAccel P QCDC c (fm * lap) m.
Proof. intros H. unfold SlapModel.tAccel, AxionModel.tAccel, tZQ. cbv zeta. rewrite H. ring. Qed.
(** C120 fails for the other potentials, which --spec does not look at: with none asked for, the axion still has a mass. *)
Theorem tspec_potential_refuted P c fm : tRpp c = 0 -> tMa2 c <> 0 -> 0 < tR c ->
  exists m, forall lap, SlapModel.tAccel (tMa2 c) (tR c) fm m lap <> AxionModel.tAccel P QCD0 c (fm * lap) m.
Proof.
  intros H A HR. exists (tR c * (PI / 2)). intros lap. unfold SlapModel.tAccel, AxionModel.tAccel. cbv zeta. rewrite H.
  replace (tR c * (PI / 2) * (1 / tR c)) with (PI / 2) by (field; lra). rewrite sin_PI2. intros E.
  assert (Z : tMa2 c * (tR c * tR c * tR c) = 0) by lra. apply Rmult_integral in Z. destruct Z as [Z|Z]; [exact (A Z)|].
  assert (0 < tR c * tR c * tR c) by (repeat apply Rmult_lt_0_compat; exact HR). lra.
Qed.

(** C120. Left alone (no mass, R'' = 0), after any stages every mode has moved by itself, by the kicks and drifts of its momentum. *)
Theorem tspec_modes T b l g dz cds : realTransforms T g -> even g -> gNg g = 1%nat -> (gL g mod 2 = 0)%nat -> l <> 0 ->
  (forall z, kR b z <> 0 /\ kRpp b z = 0 /\ kMa2 b z = 0) -> forall z M,
  exists M', each (tStage T b l g dz) cds (z, M) = Some (z + dz * total (map snd cds), M') /\
    forall r yl zz x, halfMode g r yl zz x -> let i := halfPlace g yl zz x in
      (fR T (angle g M') r i, fR T (angleSpeed g M') r i) =
      fold_left (kickDrift (kSquared l g r yl zz x) dz) cds (fR T (angle g M) r i, fR T (angleSpeed g M) r i).
Proof.
  intros RT E NG L2 Hl QB. induction cds as [|[c d] cds IH]; intros z M.
  - exists M. split; [unfold each; cbn [fold_left map]; do 2 f_equal; unfold total; cbn [fold_right]; ring|]. intros; reflexivity.
  - destruct (QB z) as [R0 [P0 A0]].
    destruct (proj1 (tspec_laplacian T l g RT E NG L2 Hl) M) as [Lap HL].
    destruct (tspec_stage_partial T b l g dz c d z M Lap RT E NG L2 Hl R0 P0 HL) as [M1 [S1 [P1 _]]].
    destruct (IH (z + dz * d) M1) as [M' [S2 P2]]. exists M'. split.
    + unfold each. cbn [fold_left]. rewrite S1. unfold each in S2. rewrite S2. do 2 f_equal. unfold total. cbn [map snd fold_right]. ring.
    + intros r yl zz x AT i. specialize (P2 r yl zz x AT). cbv zeta in P2. fold i in P2. rewrite P2. cbn [fold_left]. f_equal.
      assert (V1 : fR T (angleSpeed g M1) r i = FourSpec.plus (fR T (angleSpeed g M) r i) (FourSpec.times (dz * c) (fR T Lap r i))).
      { unfold i. rewrite <- (fR_linear T g RT) by exact AT. apply (fR_local T g RT); [|exact AT]. intros r' i' H'. rewrite (proj1 (P1 r' i' H')).
        unfold axionForce. rewrite P0, A0. ring. }
      assert (F1 : fR T (angle g M1) r i = FourSpec.plus (fR T (angle g M) r i) (FourSpec.times (dz * d) (fR T (angleSpeed g M1) r i))).
      { unfold i. rewrite <- (fR_linear T g RT) by exact AT. apply (fR_local T g RT); [|exact AT]. intros r' i' H'. rewrite (proj2 (P1 r' i' H')). ring. }
      pose proof (HL r yl zz x AT) as HL1. fold i in HL1. rewrite F1, V1, HL1. unfold kickDrift, FourSpec.plus, FourSpec.times. cbn [fst snd].
      f_equal; f_equal; ring.
Qed.

(** C120. The whole step: a folded field is unfolded first and left unfolded. *)
Theorem tspec_step T unf b l g dz cds : realTransforms T g -> even g -> gNg g = 1%nat -> (gL g mod 2 = 0)%nat -> l <> 0 ->
  (forall z, kR b z <> 0 /\ kRpp b z = 0 /\ kMa2 b z = 0) -> forall z x M0, (sF x = true -> unf (mm x) = M0) -> (sF x = false -> mm x = M0) ->
  exists x', tSpec T unf b l g dz cds z x = Some (z + dz * total (map snd cds), x') /\ sF x' = false /\ sM x' = sM x /\ sV x' = sV x /\
    forall r yl zz xx, halfMode g r yl zz xx -> let i := halfPlace g yl zz xx in
      (fR T (angle g (mm x')) r i, fR T (angleSpeed g (mm x')) r i) =
      fold_left (kickDrift (kSquared l g r yl zz xx) dz) cds (fR T (angle g M0) r i, fR T (angleSpeed g M0) r i).
Proof.
  intros RT E NG L2 Hl QB z x M0 F1 F2. destruct (tspec_modes T b l g dz cds RT E NG L2 Hl QB z M0) as [M' [A B]].
  exists (St M' (sM x) (sV x) false). split; [|repeat split; exact B]. unfold tSpec.
  assert (M : (if sF x then unf (mm x) else mm x) = M0) by (destruct (sF x); [apply F1|apply F2]; reflexivity). rewrite M, A. reflexivity.
Qed.

(** C120 fails without ghosts (--lap 0): the first stage runs over the velocity it stands before. *)
Theorem tspec_no_ghosts_refuted T b l g dz cd z M : (0 < gL g)%nat -> gNg g = 0%nat ->
  specGhosts (Some 0%Z) = Some (gNg g) /\ tStage T b l g dz cd (z, M) = None.
Proof.
  intros L0 N. split; [rewrite N; reflexivity|]. unfold tStage, SlapModel.tKernel. destruct cd as [c d]. cbv zeta. cbn [vCpu fst snd].
  assert (A : (0 < gL g * gL g)%nat) by (apply Nat.mul_pos_pos; exact L0).
  rewrite (proj2 (Nat.leb_gt (surf g + vol g) (eSz g))); [reflexivity|]. unfold eSz, vol, surf. rewrite N. lia.
Qed.

(** ** Cases *)
Definition half4 (f : nat -> nat -> R) (r i : nat) : cpx := sum4 (fun r i => (f r i, 0)) r i.
Definition flat : fft := FFT sum4 sum4 half4 (fun F r i => fst (sum4 F r i)) (fun F r i => (0, 0)).
Lemma half_two r yl z x : halfMode two r yl z x -> (r = 0 /\ z = 0 /\ (yl = 0 \/ yl = 1) /\ (x = 0 \/ x = 1))%nat.
Proof. unfold halfMode, two. cbn [gL gLz gK gNg]. change (2 / 1)%nat with 2%nat. change (2 / 2)%nat with 1%nat. lia. Qed.
Lemma place_two yl x : halfPlace two yl 0 x = (2 * yl + x)%nat.
Proof. unfold halfPlace, two. cbn [gL gLz gK]. change (2 / 2)%nat with 1%nat. lia. Qed.
Lemma flat_real : realTransforms flat two.
Proof.
  assert (H0 : forall i, (i < 4)%nat -> here two 0 i) by (intros i H; unfold here, two; cbn; lia).
  assert (HM : forall yl x, (yl < 2)%nat -> (x < 2)%nat -> halfMode two 0 yl 0 x).
  { intros yl x A B. unfold halfMode, two. cbn [gL gLz gK gNg]. change (2 / 1)%nat with 2%nat. change (2 / 2)%nat with 1%nat. lia. }
  assert (AT : forall (A : Type) (F G : nat -> nat -> A), (forall r yl z x, halfMode two r yl z x -> F r (halfPlace two yl z x) = G r (halfPlace two yl z x)) -> forall i, (i < 4)%nat -> F 0%nat i = G 0%nat i).
  { intros A F G H i Hi. replace i with (halfPlace two (i / 2) 0 (i mod 2)).
    - apply H. apply HM; [|apply Nat.mod_upper_bound; lia]. apply Nat.div_lt_upper_bound; lia.
    - rewrite place_two. symmetry. apply Nat.div_mod. lia. }
  constructor; cbn [fR bR flat].
  - intros f h A r yl z x H. destruct (half_two _ _ _ _ H) as [-> _]. unfold half4, sum4. rewrite !A by (apply H0; lia). reflexivity.
  - intros f h A r i HI. pose proof (AT _ _ _ A) as B. destruct (here_two r i HI) as [-> C].
    pose proof (f_equal fst (B 0%nat ltac:(lia))) as B0. pose proof (f_equal fst (B 1%nat ltac:(lia))) as B1.
    pose proof (f_equal fst (B 2%nat ltac:(lia))) as B2. pose proof (f_equal fst (B 3%nat ltac:(lia))) as B3.
    unfold half4, sum4, sgn, FourSpec.plus, FourSpec.times in *. cbn in B0, B1, B2, B3. destruct C as [-> | [-> | [-> | ->]]]; lra.
  - intros c f h r yl z x _. unfold half4, sum4, FourSpec.plus, FourSpec.times. cbn [fst snd]. f_equal; ring.
  - intros A B H r i HI. pose proof (AT _ _ _ H) as X. destruct (here_two r i HI) as [-> _]. unfold sum4. rewrite !X by lia. reflexivity.
  - intros f h A H r yl z x HH.
    assert (P : forall i, (i < 4)%nat -> A 0%nat i = FourSpec.times (h (momentum2 two 0 (i / 2) 0 (i mod 2))) (half4 f 0 i)).
    { intros i Hi. replace (A 0%nat i) with (A 0%nat (halfPlace two (i / 2) 0 (i mod 2))) by (rewrite place_two, <- Nat.div_mod by lia; reflexivity).
      rewrite H by (apply HM; [apply Nat.div_lt_upper_bound; lia|apply Nat.mod_upper_bound; lia]). rewrite place_two, <- Nat.div_mod by lia. reflexivity. }
    pose proof (P 0%nat ltac:(lia)) as P0. pose proof (P 1%nat ltac:(lia)) as P1. pose proof (P 2%nat ltac:(lia)) as P2. pose proof (P 3%nat ltac:(lia)) as P3.
    change (momentum2 two 0 (0 / 2) 0 (0 mod 2)) with 0%nat in P0. change (momentum2 two 0 (1 / 2) 0 (1 mod 2)) with 1%nat in P1.
    change (momentum2 two 0 (2 / 2) 0 (2 mod 2)) with 1%nat in P2. change (momentum2 two 0 (3 / 2) 0 (3 mod 2)) with 2%nat in P3.
    destruct (half_two _ _ _ _ HH) as [-> [-> [Y X]]]. rewrite place_two. unfold sites, two. cbn [gL gLz gK Nat.mul Nat.add INR].
    unfold half4, sum4 in *. rewrite P0, P1, P2, P3.
    destruct Y as [-> | ->], X as [-> | ->]; unfold sgn, FourSpec.plus, FourSpec.times; cbn; f_equal; ring.
Qed.
Definition axMem : mem := fun a r i => match a with AM => INR i | _ => 0 end.
Definition heavy : back := Back (fun _ => 0) (fun _ => 1) (fun _ => 1) (fun _ => 0) 0.
Example tspec_case : exists M', tStage flat heavy (2 * PI) two 1 (1, 1) (3, axMem) = Some (3 + 1 * 1, M') /\
  angleSpeed two M' 0 0 = 27 / 2 - sin 4.
Proof.
  assert (PN : 2 * PI <> 0) by (pose proof PI_RGT_0; lra).
  set (Lap := fun (r i : nat) => nth i [3 / 2; 1 / 2; - (1 / 2); - (3 / 2)] 0).
  assert (HL : isLaplacianR flat (2 * PI) two (angle two axMem) Lap).
  { intros r yl z x H. destruct (half_two _ _ _ _ H) as [-> [-> [Y X]]]. rewrite place_two.
    assert (U : forall n, (2 * PI / (2 * PI)) ^ 2 * n = n) by (intros n; field; pose proof PI_RGT_0; lra).
    unfold kSquared. rewrite U. destruct Y as [-> | ->], X as [-> | ->].
    - change (momentum2 two 0 0 0 0) with 0%nat. cbn [fR flat]. unfold half4, sum4, sgn, FourSpec.plus, FourSpec.times, angle, axMem, two, Lap. cbn. f_equal; field.
    - change (momentum2 two 0 0 0 1) with 1%nat. cbn [fR flat]. unfold half4, sum4, sgn, FourSpec.plus, FourSpec.times, angle, axMem, two, Lap. cbn. f_equal; field.
    - change (momentum2 two 0 1 0 0) with 1%nat. cbn [fR flat]. unfold half4, sum4, sgn, FourSpec.plus, FourSpec.times, angle, axMem, two, Lap. cbn. f_equal; field.
    - change (momentum2 two 0 1 0 1) with 2%nat. cbn [fR flat]. unfold half4, sum4, sgn, FourSpec.plus, FourSpec.times, angle, axMem, two, Lap. cbn. f_equal; field. }
  destruct (tspec_stage_partial flat heavy (2 * PI) two 1 1 1 3 axMem Lap flat_real even_two eq_refl eq_refl PN ltac:(cbn; lra) eq_refl HL) as [M' [A [B _]]].
  exists M'. split; [exact A|]. rewrite (proj1 (B 0%nat 0%nat ltac:(unfold here, two; cbn; lia))).
  unfold axionForce, heavy, angle, angleSpeed, axMem, two, Lap. cbn [kRpp kMa2 kR nth gNg gL gLz Nat.mul Nat.add].
  replace (INR 4 / 1) with 4 by (cbn [INR]; field). cbn [INR]. field.
Qed.
Example tspec_step_case : exists x', tSpec flat (fun _ => axMem) (Back (fun _ => 0) (fun _ => 0) (fun _ => 1) (fun _ => 0) 0) 1 two 1 [(1, 1)] 3 (St (fun _ _ _ => 0) false false true) = Some (3 + 1 * total (map snd [(1, 1)]), x') /\ sF x' = false.
Proof.
  destruct (tspec_step flat (fun _ => axMem) (Back (fun _ => 0) (fun _ => 0) (fun _ => 1) (fun _ => 0) 0) 1 two 1 [(1, 1)] flat_real even_two eq_refl eq_refl R1_neq_R0
    ltac:(intros z; cbn; repeat split; lra) 3 (St (fun _ _ _ => 0) false false true) axMem) as [x' [A [B _]]]; try reflexivity; try discriminate.
  exists x'. split; [exact A|exact B].
Qed.
Example tspec_potential_case : exists m, forall lap, SlapModel.tAccel 1 2 (1 / 4) m lap <> AxionModel.tAccel Single QCD0 (TParms 2 1 0 1 1 1) (1 / 4 * lap) m.
Proof. apply (tspec_potential_refuted Single (TParms 2 1 0 1 1 1) (1 / 4)); cbn; lra || reflexivity. Qed.
Example tspec_no_ghosts_case : tStage flat heavy 1 (Geo 2 2 1 0) 1 (1, 1) (3, axMem) = None.
Proof. apply tspec_no_ghosts_refuted; cbn; lia. Qed.

Print Assumptions tspec_laplacian.
Print Assumptions tspec_stage_partial.
Print Assumptions tspec_background_refuted.
Print Assumptions tspec_as_stencil_partial.
Print Assumptions tspec_potential_refuted.
Print Assumptions tspec_modes.
Print Assumptions tspec_step.
Print Assumptions tspec_no_ghosts_refuted.
