(** The axion-only field: its equation of motion (C75), its energies (C76), conservation of
    the reported energy (C77), and fields that stand for the same angles (C78). *)
From Coq Require Import Lqa Lra Reals List Arith NArith ZArith Bool Lia Permutation.
From Verif Require Import KernelModel LaneModel LaplModel ForceModel EnergyModel EnergySpec EnergyProofs
  ConserveSpec ConserveProofs ConserveBoxProofs ConserveProperties AxionModel AxionSpec AxionProofs.
Import ListNotations.
Open Scope R_scope.

(** ** The equation of motion: C75 *)
Definition angleSlope (q : qcd) (ma2 th : R) : R :=
  match q with
  | QCD0 => 0
  | QCD1 | QCDC | QCDV => ma2 * sin th
  | QCD2 => ma2 * (sin th * cos th)
  | QCDL => ma2 * th
  end.
Lemma dl_angle : forall q ma2 th, derivable_pt_lim (angleDensity q ma2) th (angleSlope q ma2 th).
Proof.
  intros q ma2 th.
  assert (C : derivable_pt_lim (fun u => ma2 * (1 - cos u)) th (ma2 * sin th)).
  { eapply dl_eq; [apply (dl_mult (fun _ => ma2) (fun u => 1 - cos u)); [apply dl_const | apply dl_one_cos]|]. ring. }
  destruct q; unfold angleDensity, angleSlope.
  - apply dl_const.
  - exact C.
  - apply dl_ext with (f := fun u => ma2 * (1 - cos u)); [|exact C]. intros u. pose proof (sin2_cos2 u) as S. unfold Rsqr in S.
    replace ((1 - cos u) ^ 2 / 2 + sin u ^ 2 / 2) with ((1 - 2 * cos u + (sin u * sin u + cos u * cos u)) / 2) by field. rewrite S. field.
  - apply dl_ext with (f := fun u => sin u * sin u * (ma2 / 2)); [intros u; field|].
    eapply dl_eq; [apply (dl_scal (fun u => sin u * sin u)), (dl_mult sin sin); apply derivable_pt_lim_sin|]. field.
  - apply dl_ext with (f := fun u => u * u * (ma2 / 2)); [intros u; field|].
    eapply dl_eq; [apply (dl_scal (fun u => u * u)), (dl_mult (fun u => u) (fun u => u)); apply dl_id|]. field.
  - exact C.
Qed.
(** Which potentials are evolved as announced. *)
Definition evolvesAs (P : prec) (q : qcd) (c : tparms) : Prop :=
  q <> QCD2 /\ (q = QCDL -> P = Double \/ tBeta c = 0 \/ tMa2 c = 0).
Theorem axion_law_partial : forall P q c, tR c <> 0 -> evolvesAs P q c -> followsLaw P q c.
Proof.
  intros P q c HR [N2 NL] lp mel vel m2 v' m' dV Hd HV E.
  pose proof (uniqueness_limite _ _ _ _ HV (dl_angle q (tMa2 c) (mel / tR c))) as ->.
  pose proof (step_acc false P q c lp mel vel m2 v' m' Hd E) as A.
  split.
  - rewrite A. unfold accOf. assert (T : mel * (1 / tR c) = mel / tR c) by (field; exact HR).
    destruct q; try congruence; unfold tKernel, tAccel, tZQ, angleSlope; cbv zeta; rewrite ?T; try (field; exact HR).
    destruct P; [|field; exact HR]. destruct (NL eq_refl) as [Q|[Q|Q]]; [discriminate | rewrite Q; field; exact HR | rewrite Q; field; exact HR].
  - unfold tStep in E. destruct q; try congruence; unfold tKernel in E; injection E; intros <- <-; reflexivity.
Qed.
(** The two-well potential is not evolved at all: neither buffer is written. *)
Theorem two_wells_frozen_refuted : forall wMod P c lp mel vel m2, tStep wMod P QCD2 c lp mel vel m2 = (vel, m2).
Proof. reflexivity. Qed.
(** So the field stays where it is, at rest or not, and whatever its neighbours do. *)
Theorem axion_law_refuted : forall P q c, 0 < tR c -> tDzc c <> 0 -> ~ evolvesAs P q c -> ~ followsLaw P q c.
Proof.
  intros P q c HR Hd N F. destruct (Req_EM_T 0 0) as [_|X]; [|congruence].
  assert (Q : q = QCD2 \/ q <> QCD2) by (destruct q; auto; right; discriminate). destruct Q as [->|Q].
  - pose proof (F 1 0 0 0 0 0 _ Hd (dl_angle QCD2 (tMa2 c) (0 / tR c)) eq_refl) as [A _]. unfold angleSlope in A.
    replace (0 / tR c) with 0 in A by (field; lra). rewrite sin_0 in A. unfold Rdiv in A. revert A. generalize (/ tDzc c). intros y A. lra.
  - assert (QL : q = QCDL) by (destruct q; try reflexivity; exfalso; apply N; split; (exact Q || discriminate)). subst q.
    assert (PS : P = Single) by (destruct P; [reflexivity|]; exfalso; apply N; split; [exact Q | auto]). subst P.
    assert (B : tBeta c <> 0) by (intros B; apply N; split; [exact Q | auto]).
    assert (M : tMa2 c <> 0) by (intros M; apply N; split; [exact Q | auto]).
    assert (K : forall th, 0 < th -> let w := th * th * (0.1666667 * tBeta c) in w = w * w * 0.3).
    { intros th Ht w. destruct (tStep false Single QCDL c 0 (tR c * th) 0 0) as [v' m'] eqn:E.
      pose proof (F 0 (tR c * th) 0 0 v' m' _ Hd (dl_angle QCDL (tMa2 c) (tR c * th / tR c)) E) as [A _].
      rewrite (step_acc false Single QCDL c _ _ _ _ _ _ Hd E) in A. unfold accOf, tKernel, tAccel, tZQ, angleSlope in A. cbv zeta in A.
      replace (tR c * th * (1 / tR c)) with th in A by (field; lra). replace (tR c * th / tR c) with th in A by (field; lra). fold w in A.
      assert (Z : tMa2 c * tR c * tR c * tR c * th * (w - w * w * 0.3) = 0) by lra.
      apply Rmult_integral in Z. destruct Z as [Z|Z]; [|lra]. exfalso. revert Z. repeat apply Rmult_integral_contrapositive_currified; lra. }
    pose proof (K 1 Rlt_0_1) as K1. pose proof (K 2 Rlt_0_2) as K2. cbv zeta in K1, K2.
    set (b := 0.1666667 * tBeta c) in *. assert (B' : b <> 0) by (unfold b; intros Z; apply B; lra). clearbody b.
    assert (E1 : b * (1 - b * 0.3) = 0) by lra. apply Rmult_integral in E1. destruct E1 as [E1|E1]; [congruence|].
    assert (E2 : b * (1 - 4 * b * 0.3) = 0) by lra. apply Rmult_integral in E2. destruct E2 as [E2|E2]; [congruence | lra].
Qed.
Theorem axion_law_iff : forall P q c, 0 < tR c -> tDzc c <> 0 -> followsLaw P q c <-> evolvesAs P q c.
Proof.
  intros P q c HR Hd. split; [|apply axion_law_partial; lra]. intros F.
  assert (D : evolvesAs P q c \/ ~ evolvesAs P q c).
  { unfold evolvesAs. destruct (Req_EM_T (tBeta c) 0), (Req_EM_T (tMa2 c) 0); destruct q, P;
      try (left; split; [discriminate | intros; auto; discriminate]; fail); right; intros [A B]; try (apply A; reflexivity); destruct (B eq_refl) as [X|[X|X]]; congruence. }
  destruct D as [D|D]; [exact D | destruct (axion_law_refuted P q c HR Hd D F)].
Qed.
(** Cosine potential, R = 2: hypotheses met and the force is not zero. *)
Example axion_law_case : let c := TParms 2 3 0 0 1 1 in
  evolvesAs Single QCDC c /\ tStep false Single QCDC c 0 PI 0 0 = (- 24, PI - 24).
Proof.
  cbv zeta. split; [split; [discriminate | intros; discriminate]|]. unfold tStep, tKernel, tAccel, tZQ. cbn [tR tMa2 tRpp tDzc tDzd]. cbv zeta.
  replace (PI * (1 / 2)) with (PI / 2) by field. rewrite sin_PI2. f_equal; ring.
Qed.

(** ** The energies: C76 *)
Lemma turn_link : forall wMod b x d e, 0 < bR b -> turn wMod ((tNb x d - tM x) / bR b) e ->
  (wMod = true -> Rabs ((tNb x d - tM x) / bR b) < 3 * PI) -> tDiff wMod b (tNb x d) (tM x) = bR b * e.
Proof.
  intros [] b x d e HR T B; rewrite tDiff_link; unfold link.
  - destruct T as [[k Ek] L]. specialize (B eq_refl). set (g := tNb x d - tM x) in *. set (md := tPeriod (bR b)).
    assert (Hm : 0 < md) by (apply period_pos, HR). assert (H2 : md / 2 = PI * bR b) by apply half_period.
    assert (G : g = bR b * (g / bR b)) by (field; lra).
    assert (AG : Rabs g = bR b * Rabs (g / bR b)) by (rewrite G at 1; rewrite Rabs_mult, (Rabs_right (bR b)) by lra; reflexivity).
    assert (NT : Rabs g <> md / 2).
    { rewrite AG, H2. intros Q. assert (AQ : Rabs (g / bR b) = PI) by (apply Rmult_eq_reg_l with (bR b); lra).
      apply Rabs_def2 in L. pose proof PI_RGT_0 as HP.
      assert (X : g / bR b = PI \/ g / bR b = - PI) by (unfold Rabs in AQ; destruct (Rcase_abs (g / bR b)); [right | left]; lra).
      assert (Y : exists j : Z, e = PI + IZR j * (2 * PI)).
      { destruct X as [X|X]; rewrite X in Ek; [exists k; exact Ek|]. exists (k - 1)%Z. rewrite minus_IZR. lra. }
      destruct Y as [j Y]. assert (J1 : IZR j < 0) by (apply Rmult_lt_reg_r with PI; lra). assert (J2 : -1 < IZR j) by (apply Rmult_lt_reg_r with PI; lra).
      apply lt_IZR in J1. apply lt_IZR in J2. lia. }
    assert (SH : Rabs (modR g md) < md / 2).
    { apply modR_short; [exact Hm | exact NT|]. rewrite AG, H2. replace (3 * (PI * bR b)) with (bR b * (3 * PI)) by ring. apply Rmult_lt_compat_l; assumption. }
    destruct (modR_mod g md Hm NT) as [j Hj].
    assert (SE : Rabs (bR b * e) < md / 2) by (rewrite Rabs_mult, (Rabs_right (bR b)), H2 by lra; rewrite (Rmult_comm PI); apply Rmult_lt_compat_l; assumption).
    symmetry. apply (short_unique md _ _ (k - j) Hm SH SE). rewrite Hj, Ek, minus_IZR. unfold md, tPeriod. field. lra.
  - unfold turn in T. rewrite T. field. lra.
Qed.
(** Partial: not in double precision with AVX-512, and the potential only where it is the
    cosine. *)
Theorem axion_energies_partial : forall P I wMod hasSd n b e rs E dth,
  answers (tEnergy P I wMod hasSd n b e rs) E -> ~ broken P I -> 0 < bR b -> 0 < bDelta2 b ->
  (forall x, In x (tsites rs) -> turns wMod b x (dth x)) ->
  E 0%nat = Some (mean (fun x => gradientOf b (dth x Xp) (dth x Xm)) (tsites rs))
  /\ E 1%nat = Some (mean (fun x => gradientOf b (dth x Yp) (dth x Ym)) (tsites rs))
  /\ E 2%nat = Some (mean (fun x => gradientOf b (dth x Zp) (dth x Zm)) (tsites rs))
  /\ E 3%nat = Some (mean (kineticOf b) (tsites rs))
  /\ forall q, q = QCD1 \/ q = QCDV \/ q = QCDC \/ bMa2 b = 0 -> E 4%nat = Some (mean (fun x => angleDensity q (bMa2 b) (tM x / bR b)) (tsites rs)).
Proof.
  intros P I wMod hasSd n b e rs E dth H NB HR HD HT. pose proof (tEnergy_mean _ _ _ _ _ _ _ _ _ H) as A.
  assert (SQ : forall x d d', In x (tsites rs) -> tSquares wMod b (tM x) (tNb x d) (tNb x d') * bO2 b = gradientOf b (dth x d) (dth x d')).
  { intros x d d' Hx. unfold tSquares. rewrite (turn_link wMod b x d (dth x d) HR), (turn_link wMod b x d' (dth x d') HR); try (apply (HT x Hx)).
    unfold gradientOf, bO2. replace 0.25 with (1/4) by lra. field. split; lra. }
  rewrite (A 0%nat), (A 1%nat), (A 2%nat), (A 3%nat), (A 4%nat) by lia. unfold tQuantity, tFactor.
  split; [f_equal; apply mean_ext; intros x Hx; apply SQ, Hx|].
  split; [f_equal; apply mean_ext; intros x Hx; rewrite (tYs_right P I n x NB); apply SQ, Hx|].
  split; [f_equal; apply mean_ext; intros x Hx; apply SQ, Hx|].
  split; [f_equal; apply mean_ext; intros x Hx; unfold tKin, kineticOf, bIz4; cbv zeta; replace 0.5 with (1/2) by lra; field; lra|].
  intros q Hq. f_equal. apply mean_ext. intros x Hx.
  assert (C : tPot b x = 1 - cos (tM x / bR b)).
  { unfold tPot. cbv zeta. replace (tM x / bR b) with (2 * (0.5 * (tM x * (1 / bR b)))) by (replace 0.5 with (1/2) by lra; field; lra). rewrite cos_2a_sin. ring. }
  rewrite C. pose proof (sin2_cos2 (tM x / bR b)) as S. unfold Rsqr in S.
  destruct Hq as [->|[->|[->|Z]]]; unfold angleDensity.
  - ring.
  - replace ((1 - cos (tM x / bR b)) ^ 2 / 2 + sin (tM x / bR b) ^ 2 / 2)
      with ((1 - 2 * cos (tM x / bR b) + (sin (tM x / bR b) * sin (tM x / bR b) + cos (tM x / bR b) * cos (tM x / bR b))) / 2) by field. rewrite S. field.
  - ring.
  - rewrite Z. destruct q; ring.
Qed.
Lemma bO2_pos : forall b, 0 < bR b -> 0 < bDelta2 b -> 0 < bO2 b.
Proof.
  intros b HR HD. unfold bO2. assert (A : 0 < 1 / bR b) by (apply Rdiv_lt_0_compat; lra). assert (B : 0 < 0.25 / bDelta2 b) by (apply Rdiv_lt_0_compat; lra).
  revert A B. generalize (1 / bR b) (0.25 / bDelta2 b). intros x y A B. repeat apply Rmult_lt_0_compat; assumption.
Qed.
(** In double precision with AVX-512 a field that is the same everywhere has gradient
    energy, at least if its box is eight sites wide. *)
Theorem uniform_gradient_refuted : forall hasSd b e z k v rs E, 0 < bR b -> 0 < bDelta2 b -> 0 < k -> (0 < z)%nat ->
  Permutation (tsites rs) (map (tsiteAt 8 z (fun _ => k) v) (box 8 z)) -> answers (tEnergy Double AVX512 false hasSd 8 b e rs) E ->
  exists g, E 1%nat = Some g /\ 0 < g.
Proof.
  intros hasSd b e z k v rs E HR HD Hk Hz HP H. exists (k * k * bO2 b). rewrite (tEnergy_mean _ _ _ _ _ _ _ _ _ H) by lia.
  pose proof (bO2_pos b HR HD) as O2.
  split; [|apply Rmult_lt_0_compat; [apply Rmult_lt_0_compat|]; assumption]. f_equal. rewrite (mean_perm _ _ _ _ HP), mean_map.
  rewrite (mean_ext _ _ (fun _ => 1 * (k * k * bO2 b))).
  - rewrite <- mean_scale. unfold mean. rewrite sumOver_one, box_length. field. apply not_0_INR. lia.
  - intros x _. unfold tQuantity, tFactor, tYs. change (8 / 8)%nat with 1%nat. rewrite Nat.mod_1_r. cbn [Nat.eqb fst snd tsiteAt tM tNb]. unfold tSquares, tDiff. ring.
Qed.
(** The cosine is reported whatever the potential. *)
Lemma one_site_pot : forall P I wMod hasSd n b e r x E, answers (tEnergy P I wMod hasSd n b e [[[x]]]) E -> 0 < bR b -> tM x = bR b * r ->
  E 4%nat = Some (bMa2 b * (1 - cos r)).
Proof.
  intros P I wMod hasSd n b e r x E H HR Hx. rewrite (tEnergy_mean _ _ _ _ _ _ _ _ _ H) by lia. f_equal. unfold mean, sumOver, tsites. cbn [concat app fold_right length INR].
  unfold tQuantity, tFactor, tPot. cbv zeta. rewrite Hx. replace (0.5 * (bR b * r * (1 / bR b))) with (r / 2) by (replace 0.5 with (1/2) by lra; field; lra).
  replace (cos r) with (cos (2 * (r / 2))) by (f_equal; field). rewrite cos_2a_sin. field.
Qed.
Theorem axion_potential_refuted : forall q, q = QCD0 \/ q = QCD2 \/ q = QCDL ->
  forall P I wMod hasSd n b e x E, answers (tEnergy P I wMod hasSd n b e [[[x]]]) E -> 0 < bR b -> bMa2 b <> 0 -> tM x = bR b * PI ->
  E 4%nat = Some (2 * bMa2 b) /\ E 4%nat <> Some (angleDensity q (bMa2 b) PI).
Proof.
  intros q Hq P I wMod hasSd n b e x E H HR HM Hx. pose proof (one_site_pot _ _ _ _ _ _ _ _ _ _ H HR Hx) as A. rewrite cos_PI in A.
  replace (bMa2 b * (1 - -1)) with (2 * bMa2 b) in A by ring. split; [exact A|]. rewrite A. intros Q.
  apply (f_equal (fun o => match o with Some a => a | None => 0 end)) in Q. cbv beta iota in Q.
  assert (P4 : 3 < PI) by (pose proof PI2_3_2; lra).
  destruct Hq as [->|[->| ->]]; unfold angleDensity in Q; [lra | rewrite sin_PI in Q; lra |].
  assert (Z : bMa2 b * (2 - PI ^ 2 / 2) = 0) by lra. apply Rmult_integral in Z. destruct Z as [Z|Z]; [lra|]. nra.
Qed.
(** The map holds at every site the sum of the five densities, and its mean is the sum of
    the five averages. *)
Theorem axion_map : forall P I wMod hasSd n b e rs E m2, tEnergy P I wMod hasSd n b e rs = TReply E m2 ->
  exists h, (forall i, (i < 5)%nat -> E i = Some (h i)) /\ mean (fun x => x) (concat m2) = sumOver h (seq 0 5)
  /\ length (concat m2) = length (tsites rs).
Proof.
  intros P I wMod hasSd n b e rs E m2 H. pose proof (tEnergy_mean P I wMod hasSd n b e rs E (or_introl (ex_intro _ m2 H))) as A.
  exists (fun i => mean (fun x => tQuantity P I wMod n b i x * tFactor b i) (tsites rs)). split; [exact A|].
  assert (M : concat m2 = map (tMap P I wMod n b) (tsites rs)).
  { unfold tEnergy in H. destruct (hasMask e && negb hasSd); [discriminate|]. destruct (hasMap e); [|discriminate]. injection H; intros <- _. unfold tsites. clear A H.
    induction rs as [|r rs IH]; [reflexivity|]. cbn [map concat]. rewrite IH, concat_app, map_app. reflexivity. }
  rewrite M, mean_map, map_length. split; [|reflexivity]. rewrite sumOver_mean. apply mean_ext. intros x _.
  unfold sumOver. cbn [seq fold_right tFactor]. unfold tMap. cbv zeta. ring.
Qed.
(** Site by site, rank by rank, it is the density of the energy of the axion. *)
Theorem axion_map_sites_partial : forall P I wMod hasSd n b e rs E m2 dth, tEnergy P I wMod hasSd n b e rs = TReply E m2 ->
  ~ broken P I -> 0 < bR b -> 0 < bDelta2 b -> (forall x, In x (tsites rs) -> turns wMod b x (dth x)) ->
  m2 = map (fun r => map (fun x => gradientOf b (dth x Xp) (dth x Xm) + gradientOf b (dth x Yp) (dth x Ym) + gradientOf b (dth x Zp) (dth x Zm)
    + kineticOf b x + angleDensity QCDC (bMa2 b) (tM x / bR b)) (concat r)) rs.
Proof.
  intros P I wMod hasSd n b e rs E m2 dth H NB HR HD HT.
  unfold tEnergy in H. destruct (hasMask e && negb hasSd); [discriminate|]. destruct (hasMap e); [|discriminate]. injection H; intros <- _. clear H.
  apply map_ext_in. intros r Hr. apply map_ext_in. intros x Hx.
  assert (IN : In x (tsites rs)).
  { unfold tsites. apply in_concat in Hx. destruct Hx as [l [Hl Hx]]. apply in_concat. exists l. split; [apply in_concat; exists r; split; assumption | exact Hx]. }
  specialize (HT x IN). unfold tMap. cbv zeta. unfold tQuantity. rewrite (tYs_right P I n x NB). cbn [fst snd]. unfold tSquares.
  rewrite !(turn_link wMod b x _ (dth x _) HR (proj1 (HT _)) (proj2 (HT _))).
  assert (C : tPot b x = 1 - cos (tM x / bR b)).
  { unfold tPot. cbv zeta. replace (tM x / bR b) with (2 * (0.5 * (tM x * (1 / bR b)))) by (replace 0.5 with (1/2) by lra; field; lra). rewrite cos_2a_sin. ring. }
  rewrite C. unfold gradientOf, kineticOf, angleDensity, tKin, bO2, bIz4. cbv zeta. generalize (cos (tM x / bR b)) (bD1 b). intros co d1.
  replace 0.25 with (1/4) by lra. replace 0.5 with (1/2) by lra. field. split; lra.
Qed.
(** Requests: a mask is needed for masked energies although no masked energy is computed;
    the averages of the box come with every other request, and EN_ENE (1) overwrites the map. *)
Theorem axion_requests : forall P I wMod n b rs,
  (forall e, tEnergy P I wMod false n b e rs = TRefused <-> hasMask e = true)
  /\ (forall hasSd, exists E, tEnergy P I wMod hasSd n b 1 rs = TReply E (map (fun r => map (tMap P I wMod n b) (concat r)) rs))
  /\ (forall E i, answers (tEnergy P I wMod true n b 4 rs) E -> (5 <= i)%nat -> E i = None).
Proof.
  intros P I wMod n b rs. split; [|split].
  - intros e. unfold tEnergy. destruct (hasMask e); cbn [andb negb]; [split; reflexivity|]. destruct (hasMap e); split; discriminate.
  - intros hasSd. eexists. reflexivity.
  - intros E i H Hi. unfold tEnergy in H. change (hasMask 4 && negb true) with false in H. change (hasMap 4) with false in H. cbv iota in H.
    destruct H as [[m2 H]|H]; [discriminate|]. injection H as <-. replace (i <? 5)%nat with false by (symmetry; apply Nat.ltb_ge; lia). reflexivity.
Qed.
(** A site at angle 0 whose neighbours are at -5 and 5: with periods the shortest way is
    taken. *)
Example axion_energies_case : let x := TSite 0 1 (fun d => match d with Xp => 2 * 5 | Xm => - 2 * 5 | _ => 0 end) 0 in
  exists E, answers (tEnergy Single AVX true false 1 (TBack 2 1 0 1 3) 1 [[[x]]]) E /\
  turns true (TBack 2 1 0 1 3) x (fun d => match d with Xp => 5 - 2 * PI | Xm => 2 * PI - 5 | _ => 0 end) /\
  E 0%nat = Some (gradientOf (TBack 2 1 0 1 3) (5 - 2 * PI) (2 * PI - 5)).
Proof.
  intros x. assert (A1 : 3 < PI) by (pose proof PI2_3_2; lra). pose proof PI_4 as A2.
  assert (T : turns true (TBack 2 1 0 1 3) x (fun d => match d with Xp => 5 - 2 * PI | Xm => 2 * PI - 5 | _ => 0 end)).
  { intros d. unfold turn, x. cbn [tNb tM bR]. split.
    - destruct d; (split; [|apply Rabs_def1; lra]);
        first [exists 0%Z; lra | exists 1%Z; lra | exists (-1)%Z; lra].
    - intros _. destruct d; apply Rabs_def1; lra. }
  assert (H : exists E, answers (tEnergy Single AVX true false 1 (TBack 2 1 0 1 3) 1 [[[x]]]) E) by (eexists; left; eexists; reflexivity).
  destruct H as [E H]. exists E. split; [exact H|]. split; [exact T|].
  destruct (axion_energies_partial Single AVX true false 1 (TBack 2 1 0 1 3) 1 [[[x]]] E (fun _ d => match d with Xp => 5 - 2 * PI | Xm => 2 * PI - 5 | _ => 0 end) H) as [Q _];
    [intros [Z _]; discriminate | cbn; lra | cbn; lra | intros y [<-|[]]; exact T |].
  rewrite Q. f_equal. unfold mean, sumOver, tsites. cbn [concat app fold_right length INR]. field.
Qed.

(** ** Conservation of the reported energy: C77 *)
(** Where it holds. *)
Definition keeps (massless : bool) (P : prec) (I : isa) (NN : nat) (q : qcd) : Prop :=
  NN = 1%nat /\ ~ broken P I /\ (q = QCD1 \/ q = QCDV \/ q = QCDC \/ (massless = true /\ q <> QCD2)).
Theorem axion_conserves_partial : forall massless wMod P I NN q, keeps massless P I NN q -> tConserves massless wMod P I NN q.
Proof.
  intros massless wMod P I NN q [-> [NB Hq]] n z c b m v t T Hn Hz W M0 Hr Hf HD Hc Hm O HT.
  eapply dl_eq; [exact (t_rate wMod P I q 1 n z c b m v t T Hn Hz W Hf HD Hc NB Hm O HT)|].
  rewrite (mean_ext _ _ (fun _ => 0 * 0)); [rewrite <- mean_scale; ring|]. intros x _.
  assert (A : forall lp mel, accOf wMod P q c lp mel - lp + tMa2 c * tR c ^ 3 * sin (mel / tR c) = 0).
  { intros lp mel. unfold accOf. replace (mel / tR c) with (mel * (1 / tR c)) by (unfold Rdiv; ring).
    destruct Hq as [->|[->|[->|[Ms N2]]]]; try (unfold tKernel, tAccel, tZQ; cbv zeta; rewrite Hr; ring).
    rewrite (M0 Ms). destruct q; try congruence; unfold tKernel, tAccel, tZQ; cbv zeta; rewrite ?Hr, ?(M0 Ms); try ring. destruct P; ring. }
  rewrite A. unfold Rdiv. ring.
Qed.
(** A homogeneous field that moves freely gains energy in double precision with AVX-512. *)
Lemma broken_gains : forall massless wMod P I NN q, broken P I -> ~ tConserves massless wMod P I NN q.
Proof.
  intros massless wMod P I NN q [-> ->] C. set (c := TParms 2 0 0 0 1 1). set (b := TBack 2 1 0 1 0).
  pose proof PI2_3_2 as HPI.
  assert (O : tObeys wMod Double q NN 8 1 c (bDelta2 b) (fun u _ => 1 + u) (fun _ _ => 1) 0).
  { intros x _. split; [eapply dl_eq; [apply (dl_plus (fun _ => 1) (fun u => u)); [apply dl_const | apply dl_id]|]; ring|].
    destruct (tStep wMod Double q c (tBoxLap wMod NN 8 1 (bDelta2 b) (tR c) (fun _ => 1 + 0) x) (1 + 0) 1 0) as [v' m'] eqn:E. exists 0, v', m'. split; [exact E|].
    rewrite (step_acc wMod Double q c _ _ _ _ _ _ R1_neq_R0 E). rewrite tLap_flat by (cbn; lra).
    replace (accOf wMod Double q c 0 (1 + 0)) with 0; [apply dl_const|]. unfold accOf, c. destruct q; unfold tKernel, tAccel, tZQ; cbn [tR tMa2 tRpp]; cbv zeta; ring. }
  pose proof (fun u => tTotal_exists Double AVX512 wMod b 8 1 (fun _ => 1 + u) (fun _ => 1)) as TE.
  assert (X : derivable_pt_lim (fun u => mean (fun x => tDensity Double AVX512 wMod 8 b (tsiteAt 8 1 (fun _ => 1 + u) (fun _ => 1) x)) (box 8 1)) 0 0).
  { apply (C 8%nat 1%nat c b (fun u _ => 1 + u) (fun _ _ => 1) 0 _ (Nat.lt_0_succ 7) Nat.lt_0_1); try reflexivity.
    - split; [reflexivity | split; [reflexivity | cbn; lra]].
    - cbn; lra.
    - exact R1_neq_R0.
    - intros _ x d _. replace (1 + 0 - (1 + 0)) with 0 by ring. rewrite Rabs_R0. cbn [tR c]. lra.
    - exact O.
    - exact TE. }
  assert (Y : derivable_pt_lim (fun u => mean (fun x => tDensity Double AVX512 wMod 8 b (tsiteAt 8 1 (fun _ => 1 + u) (fun _ => 1) x)) (box 8 1)) 0 (2 * bO2 b)).
  { apply dl_ext with (f := fun u => link wMod (tPeriod 2) (1 + u) * link wMod (tPeriod 2) (1 + u) * bO2 b + 1 / 32).
    - intros u. symmetry. rewrite (mean_ext _ _ (fun _ => 1 * (link wMod (tPeriod 2) (1 + u) * link wMod (tPeriod 2) (1 + u) * bO2 b + 1 / 32))).
      + rewrite <- mean_scale. unfold mean. rewrite sumOver_one, box_length. field. apply not_0_INR. lia.
      + intros x _. unfold tDensity, sumOver. cbn [seq fold_right]. unfold tQuantity, tFactor, tYs. change (8 / 8)%nat with 1%nat. rewrite Nat.mod_1_r.
        cbn [Nat.eqb fst snd tsiteAt tM tNb tV]. unfold tSquares. rewrite !tDiff_link. change (bR b) with 2.
        replace (1 + u - (1 + u)) with 0 by ring. rewrite (link_0 wMod (tPeriod 2)) by (apply period_pos; lra).
        replace (1 + u + (1 + u) - (1 + u)) with (1 + u) by ring. generalize (link wMod (tPeriod 2) (1 + u)). intros y.
        unfold tKin, bIz4, bD1, tPot. unfold tsiteAt. cbn [b bR bFrw bZ bMa2 tM tV]. cbv zeta. generalize (bO2 b) (sin (0.5 * ((1 + u) * (1 / 2)))). intros o s0. replace 0.5 with (1 / 2) by lra. field.
    - assert (L : derivable_pt_lim (fun u => link wMod (tPeriod 2) (1 + u)) 0 1).
      { apply dl_link; [apply period_pos; lra | eapply dl_eq; [apply (dl_plus (fun _ => 1) (fun u => u)); [apply dl_const | apply dl_id]|]; ring|].
        intros _. rewrite half_period, Rabs_right by lra. lra. }
      assert (L0 : link wMod (tPeriod 2) (1 + 0) = 1).
      { rewrite link_small; [ring | apply period_pos; lra | rewrite half_period, Rabs_right by lra; lra]. }
      eapply dl_eq; [apply (dl_plus (fun u => link wMod (tPeriod 2) (1 + u) * link wMod (tPeriod 2) (1 + u) * bO2 b) (fun _ => 1 / 32));
        [apply (dl_scal (fun u => link wMod (tPeriod 2) (1 + u) * link wMod (tPeriod 2) (1 + u))), (dl_mult (fun u => link wMod (tPeriod 2) (1 + u)) (fun u => link wMod (tPeriod 2) (1 + u))); exact L | apply dl_const]|].
      rewrite L0. ring. }
  pose proof (uniqueness_limite _ _ _ _ X Y) as Z. pose proof (bO2_pos b ltac:(cbn; lra) ltac:(cbn; lra)). lra.
Qed.
(** Other stencils, or no update at all: a wall with one side moving. *)
Lemma tBoxLap_free : forall NN n z d2 r m x, tBoxLap false NN n z d2 r (fun y => fst (m y)) x = fst (boxLap NN n z d2 m x).
Proof. reflexivity. Qed.
Lemma wall_close : forall NN n z x, In x (box 3 1) -> Rabs (fst (wall 0 (stepTo 3 1 NN n z)) - fst (wall 0 x)) < 2.
Proof.
  intros NN n z x _. assert (E0 : exp (0 / 2) = 1) by (replace (0 / 2) with 0 by field; apply exp_0).
  assert (A : forall y, fst (wall 0 y) = 1 \/ fst (wall 0 y) = 2) by (intros [[[|i] j] k]; cbn [wall fst]; rewrite ?E0; lra).
  destruct (A x) as [->| ->], (A (stepTo 3 1 NN n z)) as [->| ->]; apply Rabs_def1; lra.
Qed.
Lemma fold_same : forall (g h : nat -> R) l a, (forall k, g k = h k) -> fold_left (fun s k => s + g k) l a = fold_left (fun s k => s + h k) l a.
Proof. intros g h l; induction l as [|y l IH]; intros a H; [reflexivity|]. cbn [fold_left]. rewrite H. apply IH, H. Qed.
Lemma tBoxLap_wall : forall wMod NN x, In x (box 3 1) -> tBoxLap wMod NN 3 1 1 2 (fun y => fst (wall 0 y)) x = fst (boxLap NN 3 1 1 (wall 0) x).
Proof.
  intros wMod NN x Hx. rewrite <- tBoxLap_free with (r := 2). unfold tBoxLap, tLap.
  assert (S : forall nv, tShell wMod (tPeriod 2) (fst (wall 0 x)) (fun d => fst (wall 0 (stepTo 3 1 nv d x))) = tShell false (tPeriod 2) (fst (wall 0 x)) (fun d => fst (wall 0 (stepTo 3 1 nv d x)))).
  { intros nv. rewrite !tShell_link. unfold lkShell. pose proof PI2_3_2 as HPI.
    assert (L : forall d, link wMod (tPeriod 2) (fst (wall 0 (stepTo 3 1 nv d x)) - fst (wall 0 x)) = link false (tPeriod 2) (fst (wall 0 (stepTo 3 1 nv d x)) - fst (wall 0 x))).
    { intros d. apply link_small; [apply period_pos; lra|]. rewrite half_period. apply Rlt_trans with 2; [exact (wall_close nv d x x Hx) | lra]. }
    rewrite !L. reflexivity. }
  apply fold_same. intros nv. rewrite (S nv). reflexivity.
Qed.
Lemma wall_gains : forall massless wMod P I NN q, ~ broken P I -> (NN <= 5)%nat -> NN <> 1%nat \/ q = QCD2 -> ~ tConserves massless wMod P I NN q.
Proof.
  intros massless wMod P I NN q NB HN HQ C. set (c := TParms 2 0 0 0 1 1). set (b := TBack 2 1 0 1 0). pose proof PI2_3_2 as HPI.
  set (mm := fun u y => fst (wall u y)). set (acc := fun x => accOf wMod P q c (tBoxLap wMod NN 3 1 1 2 (mm 0) x) (mm 0 x)).
  set (vv := fun u x => fst (push x) + acc x * u).
  assert (W : tWorld c b) by (split; [reflexivity | split; [reflexivity | cbn; lra]]).
  assert (NT : wMod = true -> forall x d, In x (box 3 1) -> Rabs (mm 0 (stepTo 3 1 1 d x) - mm 0 x) <> PI * tR c).
  { intros _ x d Hx. pose proof (wall_close 1 d x x Hx). unfold mm. cbn [tR c]. lra. }
  assert (V0 : forall x, vv 0 x = fst (push x)) by (intros; unfold vv; ring).
  assert (O : tObeys wMod P q NN 3 1 c (bDelta2 b) mm vv 0).
  { intros x Hx. rewrite V0. split; [exact (proj1 (wall_moves x))|]. change (bDelta2 b) with 1. change (tR c) with 2.
    destruct (tStep wMod P q c (tBoxLap wMod NN 3 1 1 2 (mm 0) x) (mm 0 x) (fst (push x)) 0) as [v' m'] eqn:E. exists 0, v', m'. split; [exact E|].
    rewrite (step_acc wMod P q c _ _ _ _ _ _ R1_neq_R0 E). fold (acc x). unfold vv.
    eapply dl_eq; [apply (dl_plus (fun _ => fst (push x)) (fun u => acc x * u)); [apply dl_const | apply (dl_mult (fun _ => acc x) (fun u => u)); [apply dl_const | apply dl_id]]|]. ring. }
  pose proof (fun u => tTotal_exists P I wMod b 3 1 (mm u) (vv u)) as TE.
  pose proof (C 3%nat 1%nat c b mm vv 0 _ (Nat.lt_0_succ 2) Nat.lt_0_1 W (fun _ => eq_refl) eq_refl eq_refl Rlt_0_1 R1_neq_R0 NT O TE) as X.
  pose proof (t_rate wMod P I q NN 3 1 c b mm vv 0 _ (Nat.lt_0_succ 2) Nat.lt_0_1 W eq_refl Rlt_0_1 R1_neq_R0 NB NT O TE) as Y.
  pose proof (uniqueness_limite _ _ _ _ X Y) as Z. clear X Y TE O. change (bDelta2 b) with 1 in Z. change (tR c) with 2 in Z.
  set (r := match tKernel q with None => 0 | Some _ => wallRate NN end - wallRate 1).
  assert (R0 : r <> 0).
  { unfold r. destruct HQ as [N| ->]; [|cbn [tKernel wallRate]; lra]. destruct (tKernel q); [|cbn [wallRate]; lra].
    do 6 (destruct NN as [|NN]; [cbn [wallRate]; try lra; congruence |]). lia. }
  rewrite (mean_ext _ _ (fun x => fst (push x) * (r / 16))) in Z.
  - revert Z. unfold mean, box, sumOver. cbn [seq flat_map map app length fold_right push fst INR]. intros Z. apply R0. lra.
  - intros x Hx. rewrite V0. unfold mm at 1 3. rewrite !(tBoxLap_wall wMod _ x Hx).
    assert (A : forall lp mel, accOf wMod P q c lp mel = match tKernel q with None => 0 | Some _ => lp end).
    { intros lp mel. unfold accOf, c. destruct q; unfold tKernel, tAccel, tZQ; cbn [tR tMa2 tRpp]; cbv zeta; try ring. destruct P; ring. }
    rewrite A. destruct x as [[i j] k]. apply in_box in Hx. assert (k = 0%nat) by lia. subst k. change (tMa2 c) with 0.
    destruct i as [|i]; cbn [push fst]; [|unfold Rdiv; ring]. rewrite !wall_rate by lia. unfold r. destruct (tKernel q); field.
Qed.
(** With a mass: the energy is that of the cosine, the force is not. A box of one site. *)
Lemma mass_gains : forall wMod P I NN q, ~ broken P I -> q = QCD0 \/ q = QCD2 \/ q = QCDL -> ~ tConserves false wMod P I NN q.
Proof.
  intros wMod P I NN q NB HQ C. set (c := TParms 2 1 0 0 1 1). set (b := TBack 2 1 0 1 1). pose proof PI2_3_2 as HPI. pose proof PI_RGT_0 as HP0.
  set (acc := accOf wMod P q c 0 PI). set (mm := fun (u : R) (_ : cell) => PI + u). set (vv := fun (u : R) (_ : cell) => 1 + acc * u).
  assert (FL : forall k x, tBoxLap wMod k 1 1 1 2 (mm 0) x = 0) by (intros k x; apply (tLap_flat wMod k 1 1 1 2 (PI + 0) x); lra).
  assert (W : tWorld c b) by (split; [reflexivity | split; [reflexivity | cbn; lra]]).
  assert (NT : wMod = true -> forall x d, In x (box 1 1) -> Rabs (mm 0 (stepTo 1 1 1 d x) - mm 0 x) <> PI * tR c).
  { intros _ x d Hx. unfold mm. replace (PI + 0 - (PI + 0)) with 0 by ring. rewrite Rabs_R0. cbn [tR c]. lra. }
  assert (M0 : mm 0 = fun _ => PI) by (unfold mm; rewrite Rplus_0_r; reflexivity).
  assert (O : tObeys wMod P q NN 1 1 c (bDelta2 b) mm vv 0).
  { intros x Hx. split; [eapply dl_eq; [apply (dl_plus (fun _ => PI) (fun u => u)); [apply dl_const | apply dl_id]|]; unfold vv; ring|].
    change (bDelta2 b) with 1. change (tR c) with 2. rewrite FL, M0.
    destruct (tStep wMod P q c 0 PI (vv 0 x) 0) as [v' m'] eqn:E. exists 0, v', m'. split; [exact E|].
    rewrite (step_acc wMod P q c _ _ _ _ _ _ R1_neq_R0 E). fold acc. unfold vv.
    eapply dl_eq; [apply (dl_plus (fun _ => 1) (fun u => acc * u)); [apply dl_const | apply (dl_mult (fun _ => acc) (fun u => u)); [apply dl_const | apply dl_id]]|]. ring. }
  pose proof (fun u => tTotal_exists P I wMod b 1 1 (mm u) (vv u)) as TE.
  pose proof (C 1%nat 1%nat c b mm vv 0 _ Nat.lt_0_1 Nat.lt_0_1 W (fun e => ltac:(discriminate e)) eq_refl eq_refl Rlt_0_1 R1_neq_R0 NT O TE) as X.
  pose proof (t_rate wMod P I q NN 1 1 c b mm vv 0 _ Nat.lt_0_1 Nat.lt_0_1 W eq_refl Rlt_0_1 R1_neq_R0 NB NT O TE) as Y.
  pose proof (uniqueness_limite _ _ _ _ X Y) as Z. clear X Y TE O. change (bDelta2 b) with 1 in Z. change (tR c) with 2 in Z. change (tMa2 c) with 1 in Z.
  rewrite (mean_ext _ _ (fun x => 1 * ((acc + 8) / 16))) in Z.
  - rewrite <- mean_scale in Z. unfold mean in Z. rewrite sumOver_one, box_length in Z. cbn [Nat.mul Nat.add INR] in Z.
    assert (A : acc = -8) by lra. revert A. unfold acc, accOf, c. destruct HQ as [->|[->| ->]]; unfold tKernel, tAccel, tZQ; cbn [tR tMa2 tRpp tBeta]; cbv zeta; [lra | lra |].
    destruct P; intros A; ring_simplify in A; lra.
  - intros x Hx. rewrite !FL, M0. unfold vv. fold acc. rewrite sin_PI2. field.
Qed.
Theorem axion_conserves_refuted : forall massless wMod P I NN q, (NN <= 5)%nat -> ~ keeps massless P I NN q -> ~ tConserves massless wMod P I NN q.
Proof.
  intros massless wMod P I NN q HN N. destruct (broken_dec P I) as [B|B]; [apply broken_gains, B|].
  destruct (Nat.eq_dec NN 1) as [->|E]; [|apply wall_gains; auto].
  assert (Q : q = QCD2 \/ q <> QCD2) by (destruct q; auto; right; discriminate). destruct Q as [->|Q]; [apply wall_gains; auto|].
  destruct massless.
  - exfalso. apply N. split; [reflexivity | split; [exact B | auto]].
  - apply mass_gains; [exact B|]. destruct q; auto; exfalso; apply N; split; auto.
Qed.
Theorem axion_conserves_iff : forall massless wMod P I NN q, (NN <= 5)%nat -> tConserves massless wMod P I NN q <-> keeps massless P I NN q.
Proof.
  intros massless wMod P I NN q HN. split; [|apply axion_conserves_partial]. intros C.
  assert (D : keeps massless P I NN q \/ ~ keeps massless P I NN q).
  { unfold keeps. destruct (Nat.eq_dec NN 1) as [->|]; [|right; intros [A _]; auto]. destruct (broken_dec P I) as [B|B]; [right; intros [_ [A _]]; auto|].
    assert (K : (q = QCD1 \/ q = QCDV \/ q = QCDC \/ (massless = true /\ q <> QCD2)) \/ ~ (q = QCD1 \/ q = QCDV \/ q = QCDC \/ (massless = true /\ q <> QCD2))).
    { destruct q; auto; try (right; intros [A|[A|[A|[_ A]]]]; [discriminate A | discriminate A | discriminate A | apply A; reflexivity]; fail);
        (destruct massless; [left; right; right; right; split; [reflexivity | discriminate] | right; intros [A|[A|[A|[A _]]]]; discriminate A]). }
    destruct K as [K|K]; [left; auto | right; intros [_ [_ A]]; auto]. }
  destruct D as [D|D]; [exact D | destruct (axion_conserves_refuted massless wMod P I NN q HN D C)].
Qed.
(** Two sites facing each other, one with a mass and a period: the hypotheses can be met
    with a field that moves. *)
Example axion_conserves_case : exists v T, let m := fun (u : R) (x : cell) => fst (wall u x) in
  tObeys true Single QCDC 1 3 1 (TParms 2 1 0 0 1 1) 1 m v 0 /\ v 0 (0, 0, 0)%nat = 1 /\
  (forall u, tTotal Single AVX true (TBack 2 1 0 1 1) 3 1 (m u) (v u) (T u)) /\ derivable_pt_lim T 0 0.
Proof.
  set (c := TParms 2 1 0 0 1 1). set (b := TBack 2 1 0 1 1). pose proof PI2_3_2 as HPI.
  set (mm := fun u y => fst (wall u y)). set (acc := fun x => accOf true Single QCDC c (tBoxLap true 1 3 1 1 2 (mm 0) x) (mm 0 x)).
  set (vv := fun u x => fst (push x) + acc x * u). exists vv. eexists. cbv zeta.
  assert (V0 : forall x, vv 0 x = fst (push x)) by (intros; unfold vv; ring).
  assert (O : tObeys true Single QCDC 1 3 1 c (bDelta2 b) mm vv 0).
  { intros x Hx. rewrite V0. split; [exact (proj1 (wall_moves x))|]. change (bDelta2 b) with 1. change (tR c) with 2.
    destruct (tStep true Single QCDC c (tBoxLap true 1 3 1 1 2 (mm 0) x) (mm 0 x) (fst (push x)) 0) as [v' m'] eqn:E. exists 0, v', m'. split; [exact E|].
    rewrite (step_acc true Single QCDC c _ _ _ _ _ _ R1_neq_R0 E). fold (acc x). unfold vv.
    eapply dl_eq; [apply (dl_plus (fun _ => fst (push x)) (fun u => acc x * u)); [apply dl_const | apply (dl_mult (fun _ => acc x) (fun u => u)); [apply dl_const | apply dl_id]]|]. ring. }
  pose proof (fun u => tTotal_exists Single AVX true b 3 1 (mm u) (vv u)) as TE.
  split; [exact O|]. split; [apply V0|]. split; [exact TE|].
  apply (axion_conserves_partial false true Single AVX 1 QCDC ltac:(split; [reflexivity | split; [intros [A _]; discriminate | auto]]) 3%nat 1%nat c b mm vv 0 _ (Nat.lt_0_succ 2) Nat.lt_0_1);
    try reflexivity; try exact O; try exact TE.
  - split; [reflexivity | split; [reflexivity | cbn; lra]].
  - discriminate.
  - cbn; lra.
  - exact R1_neq_R0.
  - intros _ x d Hx. pose proof (wall_close 1 d x x Hx). unfold mm. cbn [tR c]. lra.
Qed.

(** ** Fields that stand for the same angles: C78 *)
Lemma same_link : forall r a b, 0 < r -> sameAngle r a b -> reducible r a -> reducible r b -> modR a (tPeriod r) = modR b (tPeriod r).
Proof.
  intros r a b Hr [k Hk] [A1 A2] [B1 B2]. pose proof (period_pos r Hr) as Hm. pose proof (half_period r) as HH.
  assert (NA : Rabs a <> tPeriod r / 2) by lra. assert (NB : Rabs b <> tPeriod r / 2) by lra.
  destruct (modR_mod a _ Hm NA) as [i Hi]. destruct (modR_mod b _ Hm NB) as [j Hj].
  apply (short_unique (tPeriod r) _ _ (i - j - k) Hm); [apply modR_short; [exact Hm | exact NB | rewrite HH; lra] | apply modR_short; [exact Hm | exact NA | rewrite HH; lra]|].
  rewrite Hi, Hj, Hk, !minus_IZR. unfold tPeriod. ring.
Qed.
Lemma same_minus : forall r a b a' b', sameAngle r a a' -> sameAngle r b b' -> sameAngle r (a - b) (a' - b').
Proof. intros r a b a' b' [k Hk] [j Hj]. exists (k - j)%Z. rewrite Hk, Hj, minus_IZR. ring. Qed.
Lemma Zshift_sin : forall x (k : Z), sin (x + IZR k * (2 * PI)) = sin x /\ cos (x + IZR k * (2 * PI)) = cos x.
Proof.
  intros x k. assert (N : forall y (n : nat), sin (y + 2 * INR n * PI) = sin y /\ cos (y + 2 * INR n * PI) = cos y) by (intros; split; [apply sin_period | apply cos_period]).
  destruct (Z_le_gt_dec 0 k) as [H|H].
  - rewrite <- (Z2Nat.id k H), <- INR_IZR_INZ. replace (x + INR (Z.to_nat k) * (2 * PI)) with (x + 2 * INR (Z.to_nat k) * PI) by ring. apply N.
  - destruct (N (x + IZR k * (2 * PI)) (Z.to_nat (- k))) as [A B].
    assert (E : x + IZR k * (2 * PI) + 2 * INR (Z.to_nat (- k)) * PI = x) by (rewrite INR_IZR_INZ, Z2Nat.id, opp_IZR by lia; ring).
    rewrite E in A, B. split; symmetry; assumption.
Qed.
(** The field with periods, without expansion: two fields that stand for the same angles,
    with differences of less than one turn and a half between neighbours and no exact half
    turns, have the same Laplacian, are accelerated alike, and end at the same angles. *)
Theorem same_angles_partial : forall P q c NN d2 n z m m' x vel m2 v1 x1 v2 x2,
  0 < tR c -> tRpp c = 0 -> q = QCD0 \/ q = QCD1 \/ q = QCDV \/ q = QCDC ->
  (forall y, sameAngle (tR c) (m y) (m' y)) ->
  (forall nv d, reducible (tR c) (m (stepTo n z nv d x) - m x) /\ reducible (tR c) (m' (stepTo n z nv d x) - m' x)) ->
  tStep true P q c (tBoxLap true NN n z d2 (tR c) m x) (m x) vel m2 = (v1, x1) ->
  tStep true P q c (tBoxLap true NN n z d2 (tR c) m' x) (m' x) vel m2 = (v2, x2) ->
  v1 = v2 /\ (Rabs (m x + v1 * tDzd c) <> PI * tR c -> Rabs (m' x + v1 * tDzd c) <> PI * tR c ->
    sameAngle (tR c) x1 x2 /\ sameAngle (tR c) (m x + v1 * tDzd c) x1).
Proof.
  intros P q c NN d2 n z m m' x vel m2 v1 x1 v2 x2 HR Hr Hq S D E1 E2. pose proof (period_pos _ HR) as Hm.
  assert (L : tBoxLap true NN n z d2 (tR c) m' x = tBoxLap true NN n z d2 (tR c) m x).
  { unfold tBoxLap, tLap. assert (T : forall nv, tShell true (tPeriod (tR c)) (m' x) (fun d => m' (stepTo n z nv d x)) = tShell true (tPeriod (tR c)) (m x) (fun d => m (stepTo n z nv d x))).
    { intros nv. unfold tShell. assert (Q : forall d, modR (m' (stepTo n z nv d x) - m' x) (tPeriod (tR c)) = modR (m (stepTo n z nv d x) - m x) (tPeriod (tR c))).
      { intros d. symmetry. apply same_link; [exact HR | apply same_minus; apply S | apply D | apply D]. } rewrite !Q. reflexivity. }
    apply fold_same. intros nv. rewrite T. reflexivity. }
  rewrite L in E2. destruct (S x) as [k Hk].
  assert (SN : sin (m' x * (1 / tR c)) = sin (m x * (1 / tR c))).
  { replace (m' x * (1 / tR c)) with (m x * (1 / tR c) + IZR k * (2 * PI)) by (rewrite Hk; field; lra). apply Zshift_sin. }
  assert (K : exists kk, tKernel q = Some kk) by (destruct Hq as [->|[->|[->| ->]]]; eexists; reflexivity). destruct K as [kk K].
  assert (AC : forall lp, tAccel P kk c lp (m' x) = tAccel P kk c lp (m x)).
  { intros lp. destruct Hq as [->|[->|[->| ->]]]; injection K as <-; unfold tAccel; cbv zeta; rewrite Hr, ?SN; ring. }
  unfold tStep in E1, E2. rewrite K in E1, E2. rewrite AC in E2.
  set (w := vel + tAccel P kk c (tBoxLap true NN n z d2 (tR c) m x) (m x) * tDzc c) in *.
  injection E1 as <- <-. injection E2 as <- <-. split; [reflexivity|]. intros N1 N2.
  pose proof (half_period (tR c)) as HH.
  destruct (modR_mod (m x + w * tDzd c) _ Hm ltac:(rewrite HH; exact N1)) as [i Hi]. destruct (modR_mod (m' x + w * tDzd c) _ Hm ltac:(rewrite HH; exact N2)) as [j Hj].
  split.
  - exists (j - i + k)%Z. rewrite Hi, Hj, Hk, plus_IZR, minus_IZR. unfold tPeriod. ring.
  - exists i. rewrite Hi. reflexivity.
Qed.
(** Their energies are the same too, also in double precision with AVX-512 where no row is
    at an edge, i.e. whenever the rows are read correctly. *)
Theorem same_energies_partial : forall P I n b hasSd hasSd' e rs rs' E E', 0 < bR b -> bFrw b = 0 -> ~ broken P I ->
  answers (tEnergy P I true hasSd n b e rs) E -> answers (tEnergy P I true hasSd' n b e rs') E' ->
  Forall2 (fun x y => tV x = tV y /\ sameAngle (bR b) (tM x) (tM y) /\
     forall d, sameAngle (bR b) (tNb x d) (tNb y d) /\ reducible (bR b) (tNb x d - tM x) /\ reducible (bR b) (tNb y d - tM y)) (tsites rs) (tsites rs') ->
  forall i, (i < 5)%nat -> E i = E' i.
Proof.
  intros P I n b hasSd hasSd' e rs rs' E E' HR Hf NB H H' F i Hi.
  rewrite (tEnergy_mean _ _ _ _ _ _ _ _ _ H i Hi), (tEnergy_mean _ _ _ _ _ _ _ _ _ H' i Hi). f_equal. unfold mean.
  assert (Q : forall x y, tV x = tV y /\ sameAngle (bR b) (tM x) (tM y) /\
     (forall d, sameAngle (bR b) (tNb x d) (tNb y d) /\ reducible (bR b) (tNb x d - tM x) /\ reducible (bR b) (tNb y d - tM y)) ->
     tQuantity P I true n b i x = tQuantity P I true n b i y).
  { intros x y [V [[k Hk] D]].
    assert (DD : forall d, tDiff true b (tNb x d) (tM x) = tDiff true b (tNb y d) (tM y)).
    { intros d. unfold tDiff. apply same_link; [exact HR | apply same_minus; [apply D | exists k; exact Hk] | apply D | apply D]. }
    unfold tQuantity. rewrite !(tYs_right P I n _ NB). cbn [fst snd]. unfold tSquares. rewrite !DD.
    destruct i as [|[|[|[|i]]]]; try reflexivity.
    - unfold tKin, bD1. cbv zeta. rewrite V, Hf. unfold Rdiv. ring.
    - unfold tPot. cbv zeta. pose proof (cos_2a_sin (0.5 * (tM x * (1 / bR b)))) as C1. pose proof (cos_2a_sin (0.5 * (tM y * (1 / bR b)))) as C2.
      assert (C : cos (2 * (0.5 * (tM y * (1 / bR b)))) = cos (2 * (0.5 * (tM x * (1 / bR b))))).
      { replace (2 * (0.5 * (tM y * (1 / bR b)))) with (2 * (0.5 * (tM x * (1 / bR b))) + IZR k * (2 * PI)); [apply Zshift_sin|]. rewrite Hk. replace 0.5 with (1/2) by lra. field. lra. }
      rewrite C1, C2 in C. lra. }
  assert (S : sumOver (fun x => tQuantity P I true n b i x * tFactor b i) (tsites rs) = sumOver (fun x => tQuantity P I true n b i x * tFactor b i) (tsites rs') /\ length (tsites rs) = length (tsites rs')).
  { induction F as [|x y l l' Hxy F IH]; [split; reflexivity|]. destruct IH as [IH1 IH2]. unfold sumOver in *. cbn [fold_right length]. rewrite IH1, IH2, (Q x y Hxy). split; reflexivity. }
  destruct S as [-> ->]. reflexivity.
Qed.
(** An angle of exactly half a turn becomes zero. *)
Theorem half_turn_refuted : forall P q c lp vel mel m2 v' x', q <> QCD2 -> 0 < tR c -> tStep true P q c lp mel vel m2 = (v', x') ->
  mel + v' * tDzd c = PI * tR c -> x' = 0 /\ ~ sameAngle (tR c) (mel + v' * tDzd c) x'.
Proof.
  intros P q c lp vel mel m2 v' x' Hq HR E H. assert (Z : x' = 0).
  { unfold tStep in E. destruct (tKernel q) as [k|] eqn:K; [|destruct q; try discriminate; congruence]. injection E; intros <- EV. rewrite EV, H, <- half_period. apply modR_half, period_pos, HR. }
  split; [exact Z|]. rewrite Z, H. intros [k Hk]. pose proof PI_RGT_0 as HP.
  assert (X : PI * tR c * (1 + 2 * IZR k) = 0) by lra. apply Rmult_integral in X. destruct X as [X|X]; [revert X; apply Rmult_integral_contrapositive_currified; lra|].
  rewrite <- mult_IZR, <- plus_IZR in X. apply eq_IZR_R0 in X. lia.
Qed.
(** A difference of more than a turn and a half stays longer than half a turn. *)
Theorem long_difference_refuted : forall r d, 0 < r -> 3 * PI * r < d -> PI * r < modR d (tPeriod r).
Proof.
  intros r d Hr H. pose proof (half_period r) as HH. pose proof PI_RGT_0 as HP. assert (HPr : 0 < PI * r) by (apply Rmult_lt_0_compat; assumption).
  rewrite modR_up; [|apply period_pos, Hr | rewrite HH; lra]. unfold tPeriod. lra.
Qed.
(** With expansion the field that was brought back by a turn is not the same field: its
    velocity is not brought back, and the kinetic energy reported for it is another. *)
Theorem expansion_refuted : forall P q c NN d2 n z k vel m2 v1 x1 v2 x2 x, 0 < tR c -> tDzc c <> 0 -> q = QCD0 \/ q = QCD1 \/ q = QCDV \/ q = QCDC ->
  tStep true P q c (tBoxLap true NN n z d2 (tR c) (fun _ => k) x) k vel m2 = (v1, x1) ->
  tStep true P q c (tBoxLap true NN n z d2 (tR c) (fun _ => k + 2 * PI * tR c) x) (k + 2 * PI * tR c) vel m2 = (v2, x2) ->
  v2 = v1 + tRpp c * (2 * PI * tR c) * tDzc c.
Proof.
  intros P q c NN d2 n z k vel m2 v1 x1 v2 x2 x HR Hd Hq E1 E2. rewrite tLap_flat in E1, E2 by exact HR.
  assert (SN : sin ((k + 2 * PI * tR c) * (1 / tR c)) = sin (k * (1 / tR c))).
  { replace ((k + 2 * PI * tR c) * (1 / tR c)) with (k * (1 / tR c) + IZR 1 * (2 * PI)) by (field; lra). apply Zshift_sin. }
  unfold tStep in E1, E2. destruct Hq as [->|[->|[->| ->]]]; unfold tKernel, tAccel in E1, E2; cbv zeta in E1, E2; rewrite ?SN in E2;
    injection E1; intros _ <-; injection E2; intros _ <-; ring.
Qed.
Theorem expansion_energy_refuted : forall P I n b e hasSd k E E', 0 < bR b -> bD1 b <> 0 ->
  let x := TSite k (bD1 b * (k / bR b)) (fun _ => k) 0 in
  let y := TSite (k + 2 * PI * bR b) (bD1 b * (k / bR b)) (fun _ => k + 2 * PI * bR b) 0 in
  answers (tEnergy P I true hasSd n b e [[[x]]]) E -> answers (tEnergy P I true hasSd n b e [[[y]]]) E' ->
  E 3%nat = Some 0 /\ exists k', E' 3%nat = Some k' /\ 0 < k'.
Proof.
  intros P I n b e hasSd k E E' HR HB x y H H'. rewrite (tEnergy_mean _ _ _ _ _ _ _ _ _ H), (tEnergy_mean _ _ _ _ _ _ _ _ _ H') by lia.
  unfold mean, sumOver, tsites. cbn [concat app fold_right length INR]. unfold tQuantity, tFactor, tKin, x, y. cbn [tM tV]. cbv zeta.
  split; [f_equal; replace (k * (1 / bR b)) with (k / bR b) by (field; lra); field; lra|]. eexists. split; [reflexivity|].
  replace ((k + 2 * PI * bR b) * (1 / bR b)) with (k / bR b + 2 * PI) by (field; lra).
  assert (I4 : 0 < bIz4 b). { unfold bIz4. assert (A : 0 < 1 / bR b) by (apply Rdiv_lt_0_compat; lra). revert A. generalize (1 / bR b). intros a A. repeat apply Rmult_lt_0_compat; assumption. }
  revert I4. generalize (bIz4 b). intros i I4. replace (bD1 b * (k / bR b) - bD1 b * (k / bR b + 2 * PI)) with (- (bD1 b * (2 * PI))) by ring.
  assert (S : 0 < (bD1 b * (2 * PI)) * (bD1 b * (2 * PI))).
  { pose proof PI_RGT_0. assert (N : bD1 b * (2 * PI) <> 0) by (apply Rmult_integral_contrapositive_currified; lra). apply Rsqr_pos_lt in N. exact N. }
  revert S. generalize (bD1 b * (2 * PI)). intros s S. pose proof (Rmult_lt_0_compat _ _ S I4). lra.
Qed.
(** The linear potential is not periodic. *)
Theorem linear_potential_refuted : forall c k vel m2 v1 x1 v2 x2, 0 < tR c -> tDzc c <> 0 -> tMa2 c <> 0 -> tRpp c = 0 ->
  tStep true Double QCDL c 0 k vel m2 = (v1, x1) -> tStep true Double QCDL c 0 (k + 2 * PI * tR c) vel m2 = (v2, x2) -> v1 <> v2.
Proof.
  intros c k vel m2 v1 x1 v2 x2 HR Hd HM Hr E1 E2 Q. unfold tStep, tKernel, tAccel, tZQ in E1, E2. cbv zeta in E1, E2. injection E1; intros _ A1. injection E2; intros _ A2.
  assert (Z : tMa2 c * (tR c * tR c * tR c) * tDzc c * PI = 0).
  { assert (X : (k + 2 * PI * tR c) * (1 / tR c) = k * (1 / tR c) + 2 * PI) by (field; lra). rewrite X in A2. rewrite Hr in A1, A2. rewrite <- Q, <- A1 in A2. lra. }
  revert Z. pose proof PI_RGT_0 as HP. revert HP. generalize PI. intros pi HP. repeat apply Rmult_integral_contrapositive_currified; (assumption || lra).
Qed.
(** Angles 1 and 5.5 (R = 2), and the same brought back by a turn. *)
Example same_angles_case : let m := fun x : cell => match x with (O, _, _) => 2 | _ => 11 end in
  let m' := fun x : cell => match x with (O, _, _) => 2 | _ => 11 + IZR (-1) * (2 * PI * 2) end in
  (forall y, sameAngle 2 (m y) (m' y)) /\
  (forall nv d, reducible 2 (m (stepTo 2 2 nv d (0, 0, 0)%nat) - m (0, 0, 0)%nat) /\ reducible 2 (m' (stepTo 2 2 nv d (0, 0, 0)%nat) - m' (0, 0, 0)%nat)).
Proof.
  intros m m'. pose proof PI2_3_2 as A1. pose proof PI_4 as A2.
  split.
  - intros [[[|i] j] k]; [exists 0%Z | exists (-1)%Z]; unfold m, m'; lra.
  - intros nv d. unfold reducible. assert (C : (exists j k, stepTo 2 2 nv d (0, 0, 0)%nat = (0, j, k)%nat) \/ exists i j k, stepTo 2 2 nv d (0, 0, 0)%nat = (S i, j, k)%nat).
    { destruct (stepTo 2 2 nv d (0, 0, 0)%nat) as [[[|i] j] k]; eauto 6. }
    destruct C as [[j [k ->]]|[i [j [k ->]]]]; unfold m, m'.
    + replace (2 - 2) with 0 by ring. rewrite Rabs_R0. split; split; lra.
    + rewrite (Rabs_right (11 - 2)) by lra. rewrite (Rabs_left (11 + -1 * (2 * PI * 2) - 2)) by lra. split; split; lra.
Qed.

Print Assumptions axion_law_iff.
Print Assumptions axion_law_partial.
Print Assumptions axion_law_refuted.
Print Assumptions two_wells_frozen_refuted.
Print Assumptions axion_energies_partial.
Print Assumptions uniform_gradient_refuted.
Print Assumptions axion_potential_refuted.
Print Assumptions axion_map.
Print Assumptions axion_map_sites_partial.
Print Assumptions axion_requests.
Print Assumptions axion_conserves_partial.
Print Assumptions axion_conserves_refuted.
Print Assumptions axion_conserves_iff.
Print Assumptions same_angles_partial.
Print Assumptions same_energies_partial.
Print Assumptions half_turn_refuted.
Print Assumptions long_difference_refuted.
Print Assumptions expansion_refuted.
Print Assumptions expansion_energy_refuted.
Print Assumptions linear_potential_refuted.
