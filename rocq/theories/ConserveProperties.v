(** C68: forces are the gradients of the reported potential energy. C74: the reported
    energy is conserved. *)
From Coq Require Import Lqa Lra Reals List Arith NArith Bool Lia Permutation.
From Verif Require Import KernelModel LaneModel LaplModel ForceModel ForceSpec ForceProofs EnergyModel EnergySpec EnergyProofs
  ForceProperties EnergyProperties ConserveSpec ConserveProofs ConserveBoxProofs.
Import ListNotations.
Open Scope R_scope.

(** ** C68 *)
(** With an axion mass: the cosine in single precision, also when called linear. Without:
    all but the linear potential with another saxion potential than the first. *)
Definition agreesWithEnergy (massless : bool) (P : prec) (s : pq) (q : qcd) : Prop :=
  if massless then q <> QCDL \/ s = PQ1
  else P = Single /\ (q = QCDC \/ (q = QCDL /\ s = PQ1)).
(** Without a mass the cosine term adds nothing. *)
Lemma massless_cosine : forall k P I s f p mel lap vel w, pMa2 f = 0 -> newVel k P I (plain s QCDC) f p mel lap vel = Some w ->
  newVel k P I (plain s QCD0) f p mel lap vel = Some w.
Proof.
  intros k P I s f p mel lap vel w M H. unfold newVel in *.
  destruct (divides k P (plain s QCDC) && vanishes (pairOf p mel)); [discriminate|].
  replace (divides k P (plain s QCD0)) with false by (destruct k, P; reflexivity). cbn [andb]. rewrite <- H. f_equal.
  unfold pairOf, velocity, project, onlyRho, kicked, accel, qcdPart, cosinePart, basePart, zNVec, zN. cbn [pEvol pDamp pQcd plain]. rewrite M.
  destruct (even_lanes p) as [E F]. destruct k; cbv beta iota; rewrite E, F; change (pqPart (plain s QCD0)) with (pqPart (plain s QCDC)); f_equal; unfold Rdiv; ring.
Qed.
Theorem force_is_gradient_partial : forall b k P I s q, agreesWithEnergy b P s q -> conservative b k P I s q.
Proof.
  intros b k P I s q H f c p mel lap vel w g t v U W M0 Hd Hp St T Hm E.
  pose proof W as [W1 [W2 [W3 [W4 W5]]]].
  destruct b.
  - rename H into Hs. specialize (M0 eq_refl).
    assert (D : fst (dispatch s q) = s) by (destruct q; try reflexivity; destruct Hs as [Hs| ->]; [congruence | reflexivity]).
    apply dl_ext with (f := fun u => rhoPot s c (g u) * lZ c).
    { intros u. pose proof (massless_stored P s q c (g u) (U u) ltac:(congruence) W5 (St u)) as Q. rewrite D in Q. exact Q. }
    assert (X : exists q', goodCos P (plain s q') /\ newVel k P I (plain s q') f p mel lap vel = Some w).
    { destruct q; try (eexists; split; [|exact E]; intros _; discriminate).
      exists QCD0. split; [intros _; discriminate | apply massless_cosine; assumption]. }
    destruct X as [q' [G E']]. rewrite <- Hm at 1. rewrite (force_pair k P I s q' f p mel lap vel w Hp G Hd E'). rewrite Hm.
    apply massless_force; assumption.
  - destruct H as [-> Hq].
    assert (G : goodCos Single (plain s q)) by (intros Q; discriminate).
    rewrite <- Hm at 1. rewrite (force_pair k Single I s q f p mel lap vel w Hp G Hd E). rewrite Hm.
    assert (D : snd (dispatch s q) = QCDC /\ fst (dispatch s q) = s /\ q <> QCD2 /\ (q = QCDC \/ q = QCDL))
      by (destruct Hq as [->|[-> ->]]; repeat split; try discriminate; auto).
    destruct D as [D1 [D2 [D3 D4]]]. destruct (cosine_stored Single s q c g U D1 W4 W5 St) as [NZ EQ].
    apply dl_ext with (f := fun u => rhoPot s c (g u) * lZ c + (1 - fst (g u) / sqrt (n2 (g u))) * eZQ c).
    + intros u. rewrite <- (EQ u), D2. reflexivity.
    + replace (qcdPair k Single (plain s q) f (g t) (times (- pqCoef s f (sq (g t))) (g t)))
        with (cosPair (plain s q) f (g t) (times (- pqCoef s f (sq (g t))) (g t))) by (unfold qcdPair; cbn [pQcd plain]; destruct D4 as [->| ->]; reflexivity).
      apply (cosine_force s q f c g t v); try assumption; [reflexivity | apply NZ].
Qed.
(** What the claim would say along one curve. *)
Lemma stored_intro : forall P s q c m b, axionPot (snd (dispatch s q)) c m = Some b ->
  stored P s q c m (rhoPot (fst (dispatch s q)) c m * lZ c + b * eZQ c).
Proof.
  intros P s q c m b H.
  set (rs := [Rank [[Site m (0, 0) m m m m m m false]] [] (fun _ => 0)]).
  destruct (energy P false false s q c 1 1 rs [fun _ => None]) as [|E M] eqn:R; [discriminate|].
  pose proof (fun i f Hi Hf => reply_total P false false s q c 1 1 rs [fun _ => None] E M R (or_introl eq_refl) i f Hi Hf) as A.
  exists E, M, (rhoPot (fst (dispatch s q)) c m * lZ c), (b * eZQ c). split; [exact R|].
  split; [|split; [|reflexivity]].
  - rewrite (A 9%nat (fun x => rhoPot (fst (dispatch s q)) c (sM x))); [|left; lia | intros; reflexivity].
    f_equal. unfold mean, sumOver, rs, sites, rSites. cbn [map concat app rThreads fold_right length INR factor sM]. field.
  - rewrite (A 4%nat (fun _ => b)); [|left; lia | intros x [<-|[]]; exact H].
    f_equal. unfold mean, sumOver, rs, sites, rSites. cbn [map concat app rThreads fold_right length INR factor sM]. field.
Qed.
Definition alongHolds (b : bool) (k : kern) (P : prec) (I : isa) (s : pq) (q : qcd) : Prop :=
  forall f c g t v ax d w, sameWorld f c -> (b = true -> pMa2 f = 0) -> pDzc f = 1 -> pRpp f = 0 -> eRprime c = 0 -> 0 < eDelta2 c ->
  tangent g t v -> (forall u, g u <> (0, 0)) -> (forall u, axionPot (snd (dispatch s q)) c (g u) = Some (ax u)) -> derivable_pt_lim ax t d ->
  newVel k P I (plain s q) f 0 (allOf (g t)) (allOf (0, 0)) (allOf (0, 0)) = Some w ->
  pqCoef (fst (dispatch s q)) f (sq (g t)) * dot (g t) v / pR f ^ 4 + d * eZQ c = - (dot w v / pR f ^ 4).
Lemma dl_potential : forall s q f c g t v ax d, sameWorld f c -> tangent g t v -> derivable_pt_lim ax t d ->
  derivable_pt_lim (fun u => rhoPot (fst (dispatch s q)) c (g u) * lZ c + ax u * eZQ c) t
     (pqCoef (fst (dispatch s q)) f (sq (g t)) * dot (g t) v / pR f ^ 4 + d * eZQ c).
Proof.
  intros s q f c g t v ax d W T D.
  apply (dl_plus (fun u => rhoPot (fst (dispatch s q)) c (g u) * lZ c)); [apply (dl_rhoPot _ f c g t v W T) | apply (dl_scal ax), D].
Qed.
Lemma conservative_along : forall b k P I s q, conservative b k P I s q -> alongHolds b k P I s q.
Proof.
  intros b k P I s q C f c g t v ax d w W M0 Hd Hr _ _ T _ A D N.
  pose proof (C f c 0%nat (allOf (g t)) (allOf (0, 0)) (allOf (0, 0)) w g t v
    (fun u => rhoPot (fst (dispatch s q)) c (g u) * lZ c + ax u * eZQ c) W M0 ltac:(lra) (lanes_pos P I)
    (fun u => stored_intro P s q c (g u) (ax u) (A u)) T (pairOf_allOf 0 (g t)) N) as X.
  pose proof (dl_potential s q f c g t v ax d W T D) as Y.
  rewrite (uniqueness_limite _ _ _ _ Y X). rewrite !pairOf_allOf, Hr. unfold applied. rewrite Hd. f_equal. f_equal.
  unfold dot, plus, times; cbn [fst snd]. field.
Qed.
(** Two curves: along the vacuum, and across it. *)
Definition around (u : R) : R * R := vacuum 2 u.
Definition outward (r u : R) : R * R := (r * exp u, 0).
Lemma around_moves : forall t, tangent around t (- 2 * sin t, 2 * cos t).
Proof.
  intros t. unfold tangent, around, vacuum; cbn [fst snd]. split.
  - eapply dl_eq; [apply (dl_mult (fun _ => 2) cos); [apply dl_const | apply derivable_pt_lim_cos]|]. cbv beta. ring.
  - eapply dl_eq; [apply (dl_mult (fun _ => 2) sin); [apply dl_const | apply derivable_pt_lim_sin]|]. cbv beta. ring.
Qed.
Lemma outward_moves : forall r, tangent (outward r) 0 (r, 0).
Proof.
  intros r. unfold tangent, outward; cbn [fst snd]. split; [|apply dl_const].
  eapply dl_eq; [apply (dl_mult (fun _ => r) exp); [apply dl_const | apply derivable_pt_lim_exp]|]. rewrite exp_0. cbv beta. ring.
Qed.
Lemma around_n2 : forall u, n2 (around u) = 2 * 2.
Proof. intros u. exact (sq_vacuum 2 u). Qed.
Lemma outward_n2 : forall r u, n2 (outward r u) = r * exp u * (r * exp u).
Proof. intros; unfold n2, outward; cbn [fst snd]; ring. Qed.
Lemma around_not0 : forall u, around u <> (0, 0).
Proof. intros u E. pose proof (around_n2 u) as N. rewrite E in N. unfold n2 in N; cbn in N. lra. Qed.
Lemma outward_not0 : forall r u, 0 < r -> outward r u <> (0, 0).
Proof. intros r u H E. apply (f_equal fst) in E. unfold outward in E; cbn [fst] in E. pose proof (exp_pos u). pose proof (Rmult_lt_0_compat _ _ H H0). lra. Qed.
Lemma pq_vacuum : forall s f, pR f = 2 -> pqCoef s f (2 * 2) = 0.
Proof.
  intros s f H. unfold pqCoef. rewrite H. destruct s; [ring|ring|]. unfold kkk. replace (sqrt (2 * 2)) with 2 by (rewrite sqrt_square; lra).
  destruct (Rle_dec (2 * 2) (2 * 2)); field_simplify; lra.
Qed.
Lemma sameUnit2 : sameWorld unit2 boxC.
Proof. unfold sameWorld, unit2, boxC; cbn. repeat split; lra. Qed.
Lemma vanishes_not0 : forall m, m <> (0, 0) -> vanishes m = false.
Proof. intros [x y] H. unfold vanishes; cbn [fst snd]. destruct (Req_EM_T x 0), (Req_EM_T y 0); try reflexivity. subst. congruence. Qed.
Lemma around_starts : around 0 = outward 2 0.
Proof. unfold around, outward, vacuum. rewrite cos_0, sin_0, exp_0. f_equal; ring. Qed.
(** The same with the force of the good variants filled in. *)
Lemma applied_force : forall k P I s q f m w, pDzc f = 1 -> pRpp f = 0 -> goodCos P (plain s q) -> m <> (0, 0) ->
  newVel k P I (plain s q) f 0 (allOf m) (allOf (0, 0)) (allOf (0, 0)) = Some w -> w = forceOf k P s q f m.
Proof.
  intros k P I s q f m w Hd Hr G N E.
  pose proof (force_pair k P I s q f 0 (allOf m) (allOf (0, 0)) (allOf (0, 0)) _ (lanes_pos P I) G ltac:(lra) E) as F.
  rewrite !pairOf_allOf, Hr in F. unfold forceOf. rewrite <- F. unfold applied. rewrite Hd. unfold plus, times.
  destruct w as [a b]. cbn [fst snd]. f_equal; field.
Qed.
Lemma along_good : forall b k P I s q f c g t v ax d, alongHolds b k P I s q -> sameWorld f c -> (b = true -> pMa2 f = 0) -> pDzc f = 1 -> pRpp f = 0 -> eRprime c = 0 -> 0 < eDelta2 c ->
  tangent g t v -> (forall u, g u <> (0, 0)) -> (forall u, axionPot (snd (dispatch s q)) c (g u) = Some (ax u)) -> derivable_pt_lim ax t d ->
  goodCos P (plain s q) ->
  pqCoef (fst (dispatch s q)) f (sq (g t)) * dot (g t) v / pR f ^ 4 + d * eZQ c
  = - (dot (qcdPair k P (plain s q) f (g t) (times (- pqCoef s f (sq (g t))) (g t))) v / pR f ^ 4).
Proof.
  intros b k P I s q f c g t v ax d C W M0 Hd Hr Hp HD T NZ A D G.
  pose proof (newVel_some k P I (plain s q) f 0 (allOf (g t)) (allOf (0, 0)) (allOf (0, 0))) as E. rewrite pairOf_allOf in E. specialize (E (vanishes_not0 _ (NZ t))).
  rewrite (C f c g t v ax d _ W M0 Hd Hr Hp HD T NZ A D E).
  rewrite (applied_force k P I s q f (g t) _ Hd Hr G (NZ t) E). reflexivity.
Qed.
(** Every other combination: the force is not the gradient. *)
Lemma weaker_claim : forall k P I s q, alongHolds false k P I s q -> alongHolds true k P I s q.
Proof. intros k P I s q C f c g t v ax d w W _. apply (C f c g t v ax d w W). discriminate. Qed.
Definition lightless : parms := Parms 2 1 0 0 0 0 0 1 0.
Lemma outward_cosine : forall c r u, 0 < r -> eShift c = 0 -> axionPot QCDC c (outward r u) = Some 0.
Proof.
  intros c r u H S. unfold axionPot. rewrite (shifted_0 c _ S). pose proof (n2_not0 _ (outward_not0 r u H)) as Y.
  destruct (Req_EM_T (n2 (outward r u)) 0); [lra|]. rewrite outward_n2. pose proof (Rmult_lt_0_compat _ _ H (exp_pos u)).
  rewrite sqrt_square by lra. f_equal. unfold outward; cbn [fst]. field. split; [apply Rgt_not_eq, exp_pos | lra].
Qed.
Lemma linear_refuted : forall k P I s, s <> PQ1 -> ~ alongHolds true k P I s QCDL.
Proof.
  intros k P I s Hs C. set (c := EParms 2 1 1 0 0 0).
  assert (W : sameWorld lightless c) by (unfold sameWorld, lightless, c; cbn; repeat split; lra).
  assert (N : outward 4 0 <> (0, 0)) by (apply outward_not0; lra).
  pose proof (along_good true k P I s QCDL lightless c (outward 4) 0 (4, 0) _ _ C W (fun _ => eq_refl) eq_refl eq_refl eq_refl Rlt_0_1 (outward_moves 4)
    (fun u => outward_not0 4 u ltac:(lra)) (fun u => outward_cosine c 4 u ltac:(lra) eq_refl) (dl_const _ _) ltac:(intros _; discriminate)) as A.
  cbn [dispatch fst] in A. revert A. change (sq (outward 4 0)) with (n2 (outward 4 0)). rewrite outward_n2, exp_0.
  replace (4 * 1 * (4 * 1)) with (4 * 4) by ring.
  assert (Q : qcdPair k P (plain s QCDL) lightless (outward 4 0) (times (- pqCoef s lightless (4 * 4)) (outward 4 0)) = times (- pqCoef s lightless (4 * 4)) (outward 4 0)).
  { unfold qcdPair, cosPair, zN. cbn [pQcd plain lightless pMa2 pR]. destruct P; [|reflexivity].
    generalize (times (- pqCoef s lightless (4 * 4)) (outward 4 0)). intros [a b]. cbn [fst snd]. f_equal; unfold Rdiv; ring. }
  rewrite Q. rewrite eZQ_mass by (cbn; lra). unfold outward, times, dot; cbn [fst snd c eMa2]. rewrite exp_0. change (pR lightless) with 2.
  assert (P1 : pqCoef PQ1 lightless (4 * 4) = 12) by (unfold pqCoef, lightless; cbn [pR pLam]; ring). rewrite P1.
  assert (P2 : pqCoef s lightless (4 * 4) <> 12).
  { unfold pqCoef, lightless, LaLa, kkk. cbn [pR pLam]. destruct s; [congruence | lra |].
    rewrite sqrt_square by lra. destruct (Rle_dec (2 * 2) (4 * 4)); lra. }
  intros A. apply P2. lra.
Qed.
Lemma half_turn : cos (PI / 2) = 0 /\ sin (PI / 2) = 1.
Proof. split; [apply cos_PI2 | apply sin_PI2]. Qed.
Lemma around_cosine : forall u, axionPot QCDC boxC (around u) = Some (1 - cos u).
Proof.
  intros u. unfold axionPot. rewrite (shifted_0 boxC _ eq_refl), around_n2. destruct (Req_EM_T (2 * 2) 0); [lra|]. rewrite sqrt_square by lra.
  f_equal. unfold around, vacuum; cbn [fst]. field.
Qed.
Lemma dl_one_cos : forall t, derivable_pt_lim (fun u => 1 - cos u) t (sin t).
Proof. intros t. eapply dl_eq; [apply (dl_minus (fun _ => 1) cos); [apply dl_const | apply derivable_pt_lim_cos]|]. ring. Qed.
Lemma along_refuted : forall b k P I s q, ~ agreesWithEnergy b P s q -> ~ alongHolds b k P I s q.
Proof.
  intros b k P I s q H C. destruct b.
  { cbn [agreesWithEnergy] in H. assert (q = QCDL) by (destruct q; try reflexivity; exfalso; apply H; left; discriminate). subst q.
    apply (linear_refuted k P I s); [intros Z; apply H; right; exact Z | exact C]. }
  destruct half_turn as [HC HS]. pose proof (around_not0 (PI / 2)) as N. pose proof (around_moves (PI / 2)) as T. rewrite HC, HS in T.
  assert (G0 : around (PI / 2) = (0, 2)) by (unfold around, vacuum; rewrite HC, HS; f_equal; ring).
  assert (SQ : sq (around (PI / 2)) = 2 * 2) by apply around_n2.
  assert (M0 : false = true -> pMa2 unit2 = 0) by discriminate.
  assert (S2 : sq (outward 2 0) = 2 * 2) by (rewrite <- around_starts; apply around_n2).
  assert (N2 : outward 2 0 <> (0, 0)) by (apply outward_not0; lra).
  assert (O2 : outward 2 0 = (2, 0)) by (unfold outward; rewrite exp_0; f_equal; ring).
  assert (Z2 : eZQ boxC = 1) by (rewrite eZQ_mass by (cbn; lra); reflexivity).
  assert (PV : forall s', pqCoef s' unit2 (2 * 2) = 0) by (intros s'; apply pq_vacuum; reflexivity).
  destruct q.
  - (* no potential *)
    assert (AX : forall u, axionPot (snd (dispatch s QCD0)) boxC (around u) = Some (cos u * (1/2))).
    { intros u. cbn [dispatch snd]. unfold axionPot. rewrite around_n2. destruct (Req_EM_T (2 * 2) 0); [lra|]. f_equal. unfold around, vacuum; cbn [fst]. field. }
    pose proof (along_good false k P I s QCD0 unit2 boxC around (PI / 2) _ _ _ C sameUnit2 M0 eq_refl eq_refl eq_refl Rlt_0_1 T around_not0 AX
      (dl_scal cos _ _ (1/2) (derivable_pt_lim_cos _)) ltac:(intros _; discriminate)) as A.
    rewrite SQ, !PV, Z2, HS, G0 in A. unfold qcdPair, times, dot in A. cbn [pQcd plain fst snd] in A. change (pR unit2) with 2 in A. lra.
  - (* tilted *)
    pose proof (along_good false k P I s QCD1 unit2 boxC (outward 2) 0 _ _ _ C sameUnit2 M0 eq_refl eq_refl eq_refl Rlt_0_1 (outward_moves 2) (fun u => outward_not0 2 u ltac:(lra))
      (fun u => outward_cosine boxC 2 u ltac:(lra) eq_refl) (dl_const _ _) ltac:(intros _; discriminate)) as A.
    rewrite S2, !PV, Z2, O2 in A. unfold qcdPair, times, dot, cross, zQ in A. cbn [pQcd plain fst snd unit2 pR pMa2] in A. lra.
  - (* both components *)
    assert (AX : forall u, axionPot (snd (dispatch s QCDV)) boxC (around u) = Some (1 - cos u)).
    { intros u. cbn [dispatch snd]. unfold axionPot. rewrite (shifted_0 boxC _ eq_refl). f_equal. unfold around, vacuum; cbn [fst snd boxC eR].
      replace 0.5 with (1/2) by lra. pose proof (sin2_cos2 u) as SC. unfold Rsqr in SC.
      replace ((1 - 2 * cos u * (1 / 2)) * (1 - 2 * cos u * (1 / 2)) + (0 - 2 * sin u * (1 / 2)) * (0 - 2 * sin u * (1 / 2)))
        with (1 - 2 * cos u + (sin u * sin u + cos u * cos u)) by field. rewrite SC. field. }
    pose proof (along_good false k P I s QCDV unit2 boxC around (PI / 2) _ _ _ C sameUnit2 M0 eq_refl eq_refl eq_refl Rlt_0_1 T around_not0 AX
      (dl_one_cos _) ltac:(intros _; discriminate)) as A.
    rewrite SQ, !PV, Z2, HS, G0 in A. unfold qcdPair, times, dot, zQ in A. cbn [pQcd plain fst snd unit2 pR pMa2] in A. lra.
  - (* two wells *)
    assert (AX : forall u, axionPot (snd (dispatch s QCD2)) boxC (outward 2 u) = Some (3/8)).
    { intros u. cbn [dispatch snd]. unfold axionPot. rewrite (shifted_0 boxC _ eq_refl). pose proof (n2_not0 _ (outward_not0 2 u ltac:(lra))) as Y.
      destruct (Req_EM_T (n2 (outward 2 u)) 0); [lra|]. f_equal. unfold iz2. cbn [boxC eR]. replace 0.5 with (1/2) by lra. field. lra. }
    pose proof (along_good false k P I s QCD2 unit2 boxC (outward 2) 0 _ _ _ C sameUnit2 M0 eq_refl eq_refl eq_refl Rlt_0_1 (outward_moves 2) (fun u => outward_not0 2 u ltac:(lra)) AX
      (dl_const _ _) ltac:(intros _; discriminate)) as A.
    rewrite S2, !PV, Z2, O2 in A. unfold qcdPair, times, dot, zN in A. destruct k, P; cbn [pQcd plain fst snd unit2 pR pMa2] in A; lra.
  - (* linear *)
    destruct P.
    + apply (linear_refuted k Single I s); [intros ->; apply H; cbn; auto | apply weaker_claim, C].
    + pose proof (along_good false k Double I s QCDL unit2 boxC around (PI / 2) _ _ _ C sameUnit2 M0 eq_refl eq_refl eq_refl Rlt_0_1 T around_not0 around_cosine
        (dl_one_cos _) ltac:(intros _; discriminate)) as A.
      rewrite SQ, !PV, Z2, HS, G0 in A. unfold qcdPair, times, dot in A. cbn [pQcd plain fst snd unit2 pR pMa2] in A. lra.
  - (* cosine in double precision *)
    destruct P; [apply H; cbn; auto|].
    assert (A0 : around 0 = vacuum (pR unit2) 0) by reflexivity.
    assert (E : exists w, newVel k Double I (plain s QCDC) unit2 0 (allOf (around 0)) (allOf (0, 0)) (allOf (0, 0)) = Some w /\ snd w = -8).
    { eexists. split; [apply newVel_some; rewrite pairOf_allOf; apply vanishes_not0, around_not0|].
      assert (V : vqcd0 Double I (allOf (vacuum 2 0)) (2 * 0 + 1)%nat = 4).
      { destruct I; cbv -[Rplus Rmult IZR cos sin]; rewrite cos_0; ring. }
      pose proof (norm2_lanes Double I 0 (allOf (vacuum 2 0)) (lanes_pos Double I)) as [_ NN].
      pose proof (pqPart_pair Double I (plain s QCDC) unit2 0 (allOf (vacuum 2 0)) (allOf (0, 0)) (lanes_pos Double I)) as PP.
      rewrite !pairOf_allOf in PP. apply (f_equal snd) in PP. unfold pqPair in PP. cbn [pPq plain] in PP.
      rewrite pairOf_allOf, sq_vacuum in NN. rewrite sq_vacuum, PV in PP. change (snd (vacuum 2 0)) with (2 * sin 0) in PP. rewrite sin_0 in PP. unfold pairOf in PP. cbn [fst snd unit2 pRpp] in PP.
      assert (Q : sqrt (2 * 2 * (2 * 2 * (2 * 2))) = 8).
      { replace (2 * 2 * (2 * 2 * (2 * 2))) with (8 * 8) by ring. apply sqrt_square; lra. }
      unfold pairOf. cbn [snd]. unfold velocity, project. cbn [pEvol plain]. change (around 0) with (vacuum 2 0).
      destruct k; unfold onlyRho, kicked, accel, qcdPart, cosinePart, basePart; cbn [pEvol pDamp pQcd pPq plain]; cbv zeta;
        rewrite V, NN, Q; change (Pot s QCDC NoDamp EvolAll) with (plain s QCDC); rewrite PP; unfold zNVec, zN, allOf;
        cbn [unit2 pR pLam pMa2 pRpp pDzc Nat.even Nat.mul Nat.add fst snd]; field. }
    destruct E as [w [E W8]].
    pose proof (C unit2 boxC around 0 _ _ _ w sameUnit2 M0 eq_refl eq_refl eq_refl Rlt_0_1 (around_moves 0) around_not0 around_cosine (dl_one_cos _) E) as A.
    rewrite sin_0, cos_0 in A. unfold dot in A. cbn [fst snd] in A. rewrite W8 in A.
    change (sq (around 0)) with (n2 (around 0)) in A. rewrite around_n2, PV in A. change (pR unit2) with 2 in A. lra.
Qed.
Theorem force_is_gradient_refuted : forall b k P I s q, ~ agreesWithEnergy b P s q -> ~ conservative b k P I s q.
Proof. intros b k P I s q H C. exact (along_refuted b k P I s q H (conservative_along b k P I s q C)). Qed.
Lemma agrees_dec : forall b P s q, agreesWithEnergy b P s q \/ ~ agreesWithEnergy b P s q.
Proof.
  intros b P s q. unfold agreesWithEnergy. destruct b, P, q, s; (left; (auto; left; discriminate) || fail) || (right; intuition discriminate) || (left; auto).
Qed.
Theorem force_is_gradient_iff : forall b k P I s q, conservative b k P I s q <-> agreesWithEnergy b P s q.
Proof.
  intros b k P I s q. split; [|apply force_is_gradient_partial]. intros C.
  destruct (agrees_dec b P s q) as [D|D]; [exact D | destruct (force_is_gradient_refuted b k P I s q D C)].
Qed.
(** A quarter turn with the cosine: the hypotheses hold and the energy grows at unit rate. *)
Example force_is_gradient_case : exists U w,
  sameWorld unit2 boxC /\ (forall u, stored Single PQ1 QCDC boxC (around u) (U u)) /\ tangent around (PI / 2) (-2, 0)
  /\ newVel Fused Single AVX512 (plain PQ1 QCDC) unit2 0 (allOf (around (PI / 2))) (allOf (0, 0)) (allOf (0, 0)) = Some w /\ dot w (-2, 0) = -16
  /\ derivable_pt_lim U (PI / 2) 1.
Proof.
  destruct half_turn as [HC HS]. pose proof (around_moves (PI / 2)) as T. rewrite HC, HS in T.
  replace (-2 * 1) with (-2) in T by ring. replace (2 * 0) with 0 in T by ring.
  assert (G0 : around (PI / 2) = (0, 2)) by (unfold around, vacuum; rewrite HC, HS; f_equal; ring).
  pose proof (fun u => stored_intro Single PQ1 QCDC boxC (around u) _ (around_cosine u)) as ST.
  pose proof (newVel_some Fused Single AVX512 (plain PQ1 QCDC) unit2 0 (allOf (around (PI / 2))) (allOf (0, 0)) (allOf (0, 0))) as E.
  rewrite pairOf_allOf in E. specialize (E (vanishes_not0 _ (around_not0 _))).
  pose proof (applied_force Fused Single AVX512 PQ1 QCDC unit2 (around (PI / 2)) _ eq_refl eq_refl ltac:(intros Q; discriminate) (around_not0 _) E) as F.
  exists (fun u => rhoPot (fst (dispatch PQ1 QCDC)) boxC (around u) * lZ boxC + (1 - cos u) * eZQ boxC). eexists.
  split; [exact sameUnit2|]. split; [exact ST|]. split; [exact T|]. split; [exact E|].
  assert (S8 : sqrt (2 * 2 * (2 * 2 * (2 * 2))) = 8) by (replace (2 * 2 * (2 * 2 * (2 * 2))) with (8 * 8) by ring; apply sqrt_square; lra).
  assert (D16 : dot (pairOf 0 (velocity Fused Single AVX512 (plain PQ1 QCDC) unit2 (allOf (around (PI / 2))) (allOf (0, 0)) (allOf (0, 0)))) (-2, 0) = -16).
  { rewrite F. unfold forceOf. change (sq (around (PI / 2))) with (n2 (around (PI / 2))). rewrite around_n2, (pq_vacuum PQ1 unit2 eq_refl), G0.
    unfold qcdPair, cosPair, zN, times, dot, sq, dot. cbn [pQcd plain fst snd unit2 pMa2 pR]. replace (0 * 0 + 2 * 2) with (2 * 2) by ring. rewrite S8. field. }
  split; [exact D16|].
  pose proof (force_is_gradient_partial false Fused Single AVX512 PQ1 QCDC (conj eq_refl (or_introl eq_refl)) unit2 boxC 0%nat _ _ _ _ around (PI / 2) (-2, 0) _
    sameUnit2 ltac:(discriminate) R1_neq_R0 (lanes_pos _ _) ST T (pairOf_allOf _ _) E) as C.
  eapply dl_eq; [exact C|]. rewrite !pairOf_allOf. unfold applied. cbn [unit2 pDzc pRpp pR]. revert D16.
  generalize (pairOf 0 (velocity Fused Single AVX512 (plain PQ1 QCDC) unit2 (allOf (around (PI / 2))) (allOf (0, 0)) (allOf (0, 0)))). intros [a b].
  unfold dot, plus, times; cbn [fst snd]. intros D. lra.
Qed.

(** ** C74 *)
Lemma pot_rate : forall b k s q f c g t v, agreesWithEnergy b Single s q -> sameWorld f c -> (b = true -> pMa2 f = 0) ->
  tangent g t v -> (forall u, g u <> (0, 0)) -> derivable_pt_lim (fun u => potOf s q c (g u)) t (- (dot (forceOf k Single s q f (g t)) v / pR f ^ 4)).
Proof.
  intros b k s q f c g t v H W M0 T NZ. pose proof W as [W1 [W2 [W3 [W4 W5]]]]. unfold potOf, forceOf.
  pose proof (fun u => axOf_some s q c (g u) W4 (NZ u)) as AX.
  destruct b.
  - specialize (M0 eq_refl).
    assert (D : fst (dispatch s q) = s) by (destruct q; try reflexivity; destruct H as [H| ->]; [congruence | reflexivity]).
    apply dl_ext with (f := fun u => rhoPot s c (g u) * lZ c); [|apply massless_force; assumption].
    intros u. rewrite D, eZQ_mass, <- W3, M0 by lra. ring.
  - destruct H as [_ Hq].
    assert (D : snd (dispatch s q) = QCDC /\ fst (dispatch s q) = s /\ q <> QCD2 /\ (q = QCDC \/ q = QCDL))
      by (destruct Hq as [->|[-> ->]]; repeat split; try discriminate; auto).
    destruct D as [D1 [D2 [D3 D4]]].
    apply dl_ext with (f := fun u => rhoPot s c (g u) * lZ c + (1 - fst (g u) / sqrt (n2 (g u))) * eZQ c).
    + intros u. rewrite D2. f_equal. f_equal. unfold axOf. rewrite D1. unfold axionPot. rewrite (shifted_0 c _ W4). pose proof (n2_not0 _ (NZ u)).
      destruct (Req_EM_T (n2 (g u)) 0); [lra | reflexivity].
    + replace (qcdPair k Single (plain s q) f (g t) (times (- pqCoef s f (sq (g t))) (g t)))
        with (cosPair (plain s q) f (g t) (times (- pqCoef s f (sq (g t))) (g t))) by (unfold qcdPair; cbn [pQcd plain]; destruct D4 as [->| ->]; reflexivity).
      apply (cosine_force s q f c g t v); try assumption; [reflexivity | apply NZ].
Qed.
Lemma fac_single : forall c, eR c <> 0 -> fac Single c * eR c ^ 2 = 1.
Proof. intros c H. unfold fac, iz2. field. exact H. Qed.
(** In single precision and with nearest neighbours, for the same potentials. *)
Theorem energy_conserved_partial : forall b k I s q, agreesWithEnergy b Single s q -> conserves b k Single I 1 s q.
Proof.
  intros b k I s q H n z f c m v t T Hn Hz W M0 Hr Hp HD Hd NZ O TE.
  eapply dl_eq.
  - apply (energy_rate k Single I 1 n z s q f c m v t T Hn Hz W Hr Hp HD Hd NZ ltac:(intros Q; discriminate) O TE).
    intros x Hx. apply (pot_rate b k s q f c (fun u => m u x)); try assumption; [apply O, Hx | intros u; apply NZ, Hx].
  - pose proof W as [_ [_ [_ [_ W5]]]]. rewrite (mean_ext _ _ (fun x => 0 * 0)).
    + rewrite <- mean_scale. ring.
    + intros x _. rewrite fac_single by lra. generalize (forceOf k Single s q f (m t x)) (v t x) (boxLap 1 n z (eDelta2 c) (m t) x). intros [f1 f2] [v1 v2] [l1 l2].
      unfold dot, plus; cbn [fst snd]. field. lra.
Qed.
(** A box of one site. *)
Lemma lone_lap : forall NN d2 m x, In x (box 1 1) -> boxLap NN 1 1 d2 m x = (0, 0).
Proof.
  intros NN d2 m [[i j] k] H. apply in_box in H. assert (i = 0 /\ j = 0 /\ k = 0)%nat as [-> [-> ->]] by lia.
  assert (S : forall nv d, stepTo 1 1 nv d (0, 0, 0)%nat = (0, 0, 0)%nat) by (intros nv d; destruct d; reflexivity).
  unfold boxLap. assert (Z : forall PC o mel nb, (forall nv d, nb nv d = mel) -> lap PC NN o mel nb = 0).
  { intros PC o mel nb E. unfold lap. generalize (seq 1 NN). intros l.
    assert (G : forall a, fold_left (fun lap nv => lap + shell mel (nb nv) * (nth (nv - 1) PC 0 * o)) l a = a).
    { induction l as [|y l IH]; intros a; [reflexivity|]. cbn [fold_left]. rewrite IH. unfold shell. rewrite !E. ring. }
    apply G. }
  f_equal; apply Z; intros nv d; rewrite S; reflexivity.
Qed.
Definition straight (t : R) (a b : R * R) (u : R) : R * R := (fst a + fst b * (u - t), snd a + snd b * (u - t)).
Lemma straight_moves : forall t a b, tangent (straight t a b) t b /\ straight t a b t = a.
Proof.
  intros t [a1 a2] [b1 b2]. unfold tangent, straight; cbn [fst snd]. split; [split|].
  1,2: eapply dl_eq; [apply (dl_plus (fun _ => _) (fun u => _ * (u - t))); [apply dl_const|]; apply (dl_mult (fun _ => _) (fun u => u - t)); [apply dl_const|];
    apply (dl_minus (fun u => u) (fun _ => t)); [apply derivable_pt_lim_id | apply dl_const] | cbv beta; ring].
  f_equal; ring.
Qed.
Lemma lone_obeys : forall k P I NN s q f d2 g t v w, tangent g t v -> g t <> (0, 0) ->
  newVel k P I (plain s q) f 0 (allOf (g t)) (allOf (0, 0)) (allOf v) = Some w ->
  obeys k P I NN 1 1 s q f d2 (fun u _ => g u) (fun u _ => straight t v (applied f v w) u) t.
Proof.
  intros k P I NN s q f d2 g t v w T N E x Hx. destruct (straight_moves t v (applied f v w)) as [S1 S2]. rewrite S2. split; [exact T|].
  exists 0%nat, (allOf (g t)), (allOf (0, 0)), (allOf v), w. rewrite !pairOf_allOf, (lone_lap NN d2 _ x Hx).
  split; [apply lanes_pos|]. repeat (split; [reflexivity|]). split; [exact E | exact S1].
Qed.
Lemma lone_density : forall P s q c m v, eRprime c = 0 -> eR c <> 0 ->
  mean (densityAs P s q c 1 1 (fun _ => m) (fun _ => v)) (box 1 1) = dot v v * (fac P c / (2 * eR c ^ 2)) + potOf s q c m.
Proof.
  intros P s q c m v Hp HR. unfold mean, box, densityAs, siteAt. cbn [seq flat_map map app length sumOver fold_right INR]. unfold sumOver; cbn [fold_right].
  cbn [sXp sXm sYp sYm sZp sZm]. unfold kineticDensity, gradientDensity, phiDot, abs2, minus, dot. cbn [sM sV fst snd]. rewrite Hp.
  unfold Rdiv. replace (fst m * / eR c - fst m * / eR c) with 0 by ring. replace (snd m * / eR c - snd m * / eR c) with 0 by ring. generalize (/ eDelta2 c). intros. field. exact HR.
Qed.
Lemma conserves_along : forall b k I NN s q, conserves b k Single I NN s q -> alongHolds b k Single I s q.
Proof.
  intros b k I NN s q C f c g t v ax d w W M0 Hd Hr Hp HD T NZ A D E. pose proof W as [W1 [W2 [W3 [W4 W5]]]].
  assert (G : goodCos Single (plain s q)) by (intros Q; discriminate).
  pose proof (applied_force k Single I s q f (g t) w Hd Hr G (NZ t) E) as F.
  pose proof (newVel_some k Single I (plain s q) f 0 (allOf (g t)) (allOf (0, 0)) (allOf v)) as E'. rewrite pairOf_allOf in E'. specialize (E' (vanishes_not0 _ (NZ t))).
  revert E'. generalize (pairOf 0 (velocity k Single I (plain s q) f (allOf (g t)) (allOf (0, 0)) (allOf v))). intros w' E'.
  pose proof (force_pair k Single I s q f 0 _ _ _ w' (lanes_pos _ _) G ltac:(lra) E') as F'. rewrite !pairOf_allOf, Hr in F'. fold (forceOf k Single s q f (g t)) in F'. rewrite <- F in F'.
  assert (AP : applied f v w' = w).
  { rewrite <- F'. destruct (applied f v w'). unfold plus, times; cbn [fst snd]. f_equal; ring. }
  pose proof (lone_obeys k Single I NN s q f (eDelta2 c) g t v w' T (NZ t) E') as O. rewrite AP in O.
  pose proof (C 1%nat 1%nat f c _ _ t (fun u => mean (densityAs Single s q c 1 1 (fun _ => g u) (fun _ => straight t v w u)) (box 1 1)) Nat.lt_0_1 Nat.lt_0_1 W M0 Hr Hp HD ltac:(lra)
    (fun u x _ => NZ u) O (fun u => total_exists Single s q c 1 1 (fun _ => g u) (fun _ => straight t v w u) (fun x _ => NZ u) W4 W5 HD)) as X.
  assert (Y : derivable_pt_lim (fun u => mean (densityAs Single s q c 1 1 (fun _ => g u) (fun _ => straight t v w u)) (box 1 1)) t
     (2 * dot v w * (fac Single c / (2 * eR c ^ 2)) + (pqCoef (fst (dispatch s q)) f (sq (g t)) * dot (g t) v / pR f ^ 4 + d * eZQ c))).
  { apply dl_ext with (f := fun u => dot (straight t v w u) (straight t v w u) * (fac Single c / (2 * eR c ^ 2)) + potOf s q c (g u)).
    - intros u. symmetry. apply lone_density; [exact Hp | lra].
    - apply (dl_plus (fun u => dot (straight t v w u) (straight t v w u) * (fac Single c / (2 * eR c ^ 2)))).
      + apply (dl_scal (fun u => dot (straight t v w u) (straight t v w u))). destruct (straight_moves t v w) as [S1 S2].
        pose proof (dl_sq_pair (straight t v w) t w S1) as Q. rewrite S2 in Q. exact Q.
      + eapply dl_ext; [|apply (dl_potential s q f c g t v ax d W T D)]. intros u. unfold potOf, axOf. rewrite A. reflexivity. }
  pose proof (uniqueness_limite _ _ _ _ X Y) as Z. unfold fac, iz2 in Z.
  replace (2 * dot v w * (1 / eR c * (1 / eR c) / (2 * eR c ^ 2))) with (dot w v / pR f ^ 4) in Z by (rewrite W1; unfold dot; field; lra). lra.
Qed.
(** Double precision counts no kinetic energy once R > 1. *)
Lemma conserves_double_refuted : forall b k I NN s q, ~ conserves b k Double I NN s q.
Proof.
  intros b k I NN s q C. set (c := EParms 2 1 1 0 0 0). assert (W : sameWorld lightless c) by (unfold sameWorld, lightless, c; cbn; repeat split; lra).
  assert (NZ : forall u, outward 4 u <> (0, 0)) by (intros u; apply outward_not0; lra).
  pose proof (newVel_some k Double I (plain s q) lightless 0 (allOf (outward 4 0)) (allOf (0, 0)) (allOf (4, 0))) as E. rewrite pairOf_allOf in E. specialize (E (vanishes_not0 _ (NZ 0))).
  revert E. generalize (pairOf 0 (velocity k Double I (plain s q) lightless (allOf (outward 4 0)) (allOf (0, 0)) (allOf (4, 0)))). intros w E.
  pose proof (lone_obeys k Double I NN s q lightless 1 (outward 4) 0 (4, 0) w (outward_moves 4) (NZ 0) E) as O.
  set (vv := straight 0 (4, 0) (applied lightless (4, 0) w)) in *.
  pose proof (C 1%nat 1%nat lightless c _ _ 0 (fun u => mean (densityAs Double s q c 1 1 (fun _ => outward 4 u) (fun _ => vv u)) (box 1 1)) Nat.lt_0_1 Nat.lt_0_1 W
    (fun _ => eq_refl) eq_refl eq_refl Rlt_0_1 R1_neq_R0 (fun u x _ => NZ u) O
    (fun u => total_exists Double s q c 1 1 (fun _ => outward 4 u) (fun _ => vv u) (fun x _ => NZ u) eq_refl Rlt_0_2 Rlt_0_1)) as X.
  assert (Y : derivable_pt_lim (fun u => mean (densityAs Double s q c 1 1 (fun _ => outward 4 u) (fun _ => vv u)) (box 1 1)) 0
     (pqCoef (fst (dispatch s q)) lightless (sq (outward 4 0)) * dot (outward 4 0) (4, 0) / pR lightless ^ 4)).
  { apply dl_ext with (f := fun u => rhoPot (fst (dispatch s q)) c (outward 4 u) * lZ c); [|apply (dl_rhoPot _ lightless c _ _ _ W (outward_moves 4))].
    intros u. rewrite lone_density by (cbn; lra). unfold fac. rewrite (iR2_late c) by (cbn; lra). unfold potOf. rewrite eZQ_mass by (cbn; lra). cbn [c eMa2]. unfold Rdiv. ring. }
  pose proof (uniqueness_limite _ _ _ _ X Y) as Z. revert Z. change (sq (outward 4 0)) with (n2 (outward 4 0)). rewrite outward_n2. unfold outward, dot; cbn [fst snd]. rewrite exp_0.
  replace (4 * 1 * (4 * 1)) with (4 * 4) by ring.
  assert (P0 : forall s', 0 < pqCoef s' lightless (4 * 4)).
  { intros s'. unfold pqCoef, lightless, LaLa, kkk. cbn [pR pLam]. destruct s'; [lra|lra|]. rewrite sqrt_square by lra. destruct (Rle_dec (2 * 2) (4 * 4)); lra. }
  specialize (P0 (fst (dispatch s q))). change (pR lightless) with 2. lra.
Qed.
(** Other stencils: the Laplacian is not the one of the reported gradients. Three sites in
    a row, one of them moving. *)
Definition wall (u : R) (x : cell) : R * R := match x with (O, _, _) => (2 * exp (u / 2), 0) | _ => (1, 0) end.
Definition push (x : cell) : R * R := match x with (O, _, _) => (1, 0) | _ => (0, 0) end.
Lemma wall_moves : forall x, tangent (fun u => wall u x) 0 (push x).
Proof.
  intros [[[|i] j] k]; unfold tangent, wall, push; cbn [fst snd]; split; try apply dl_const.
  apply dl_ext with (f := fun u => exp (u * / 2) * 2); [intros u; unfold Rdiv; ring|].
  eapply dl_eq.
  - apply (dl_scal (fun u => exp (u * / 2))). apply (derivable_pt_lim_comp (fun u => u * / 2) exp); [apply (dl_scal (fun u => u)), derivable_pt_lim_id | apply derivable_pt_lim_exp].
  - rewrite Rmult_0_l, exp_0. field.
Qed.
Lemma wall_not0 : forall u x, wall u x <> (0, 0).
Proof. intros u [[[|i] j] k] E; apply (f_equal fst) in E; cbn in E; [pose proof (exp_pos (u / 2))|]; lra. Qed.
Definition wallRate (NN : nat) : R :=
  match NN with 0%nat => 0 | 1%nat => -2 | 2%nat => - (5 / 2) | 3%nat => - (27 / 10) | 4%nat => - (783 / 280) | _ => - (3987 / 1400) end.
Lemma wall_rate : forall NN j, (NN <= 5)%nat -> (j < 3)%nat -> fst (boxLap NN 3 1 1 (wall 0) (0, j, 0)%nat) = wallRate NN.
Proof.
  intros NN j H Hj. assert (E0 : exp (0 / 2) = 1) by (replace (0 / 2) with 0 by field; apply exp_0).
  assert (W0 : forall j k, fst (wall 0 (0, j, k)%nat) = 2) by (intros; cbn [wall fst]; rewrite E0; ring).
  assert (W1 : forall i j k, fst (wall 0 (S i, j, k)%nat) = 1) by reflexivity.
  unfold boxLap. cbn [fst]. rewrite W0. set (nb := fun nv d => fst (wall 0 (stepTo 3 1 nv d (0, j, 0)%nat))).
  assert (S : forall nv d, (nv <= 5)%nat -> nb nv d = match d with Xp | Xm => if Nat.eqb (nv mod 3) 0 then 2 else 1 | _ => 2 end).
  { intros nv d Hn. do 6 (destruct nv as [|nv]; [destruct d; unfold nb, stepTo; (apply W0 || apply W1) |]). lia. }
  clearbody nb.
  assert (SH : forall nv, (nv <= 5)%nat -> shell 2 (nb nv) = if Nat.eqb (nv mod 3) 0 then 0 else -2).
  { intros nv Hn. unfold shell. rewrite !S by exact Hn. destruct (Nat.eqb (nv mod 3) 0); ring. }
  unfold lap. do 6 (destruct NN as [|NN]; [cbn [seq fold_left setCO nth Nat.sub]; rewrite ?SH by lia; cbn [Nat.modulo Nat.divmod Nat.eqb Nat.sub fst snd wallRate]; lra |]). lia.
Qed.
Lemma wall_lap : forall NN, (NN <= 5)%nat -> NN <> 1%nat -> exists r, r <> 0 /\
  forall x, In x (box 3 1) -> dot (push x) (boxLap NN 3 1 1 (wall 0) x) - dot (push x) (boxLap 1 3 1 1 (wall 0) x) = fst (push x) * r.
Proof.
  intros NN H N. exists (wallRate NN - wallRate 1). split.
  - do 6 (destruct NN as [|NN]; [cbn [wallRate]; try lra; congruence |]). lia.
  - intros [[i j] k] Hx. apply in_box in Hx. assert (k = 0%nat) by lia. subst k. destruct i as [|i]; unfold dot, push; cbn [fst snd]; [rewrite !wall_rate by lia; ring | ring].
Qed.
Lemma conserves_wide_refuted : forall b k I NN s q, (NN <= 5)%nat -> NN <> 1%nat -> agreesWithEnergy b Single s q -> ~ conserves b k Single I NN s q.
Proof.
  intros b k I NN s q H N Ag C. set (c := EParms 2 1 1 0 0 0). assert (W : sameWorld lightless c) by (unfold sameWorld, lightless, c; cbn; repeat split; lra).
  set (vel := fun x => pairOf 0 (velocity k Single I (plain s q) lightless (allOf (wall 0 x)) (allOf (boxLap NN 3 1 1 (wall 0) x)) (allOf (push x)))).
  set (vv := fun u x => straight 0 (push x) (applied lightless (push x) (vel x)) u).
  assert (V0 : forall x, vv 0 x = push x) by (intros x; apply straight_moves).
  assert (O : obeys k Single I NN 3 1 s q lightless 1 wall vv 0).
  { intros x Hx. rewrite V0. split; [apply wall_moves|]. exists 0%nat, (allOf (wall 0 x)), (allOf (boxLap NN 3 1 1 (wall 0) x)), (allOf (push x)), (vel x).
    rewrite !pairOf_allOf. split; [apply lanes_pos|]. do 3 (split; [reflexivity|]). split; [|apply straight_moves].
    apply newVel_some. rewrite pairOf_allOf. apply vanishes_not0, wall_not0. }
  pose proof (fun u => total_exists Single s q c 3 1 (wall u) (vv u) (fun x _ => wall_not0 u x) eq_refl Rlt_0_2 Rlt_0_1) as TE.
  pose proof (C 3%nat 1%nat lightless c wall vv 0 _ ltac:(lia) ltac:(lia) W (fun _ => eq_refl) eq_refl eq_refl Rlt_0_1 R1_neq_R0 (fun u x _ => wall_not0 u x) O TE) as X.
  pose proof (energy_rate k Single I NN 3 1 s q lightless c wall vv 0 _ ltac:(lia) ltac:(lia) W eq_refl eq_refl Rlt_0_1 R1_neq_R0 (fun u x _ => wall_not0 u x)
    ltac:(intros Q; discriminate) O TE) as Y.
  specialize (Y ltac:(intros x Hx; rewrite V0; apply (pot_rate b k s q lightless c (fun u => wall u x) 0 (push x) Ag W (fun _ => eq_refl) (wall_moves x) (fun u => wall_not0 u x)))).
  destruct (wall_lap NN H N) as [r [R0 RX]].
  pose proof (uniqueness_limite _ _ _ _ X Y) as Z.
  rewrite (mean_ext _ _ (fun x => fst (push x) * (r / 16))) in Z.
  - revert Z. unfold mean, box, sumOver. cbn [seq flat_map map app length fold_right push fst INR]. intros Z. apply R0. lra.
  - clear X Y Z O TE C. clearbody vv. intros x Hx. rewrite V0, fac_single by (cbn [c eR]; lra). change (eDelta2 c) with 1. change (eR c) with 2. specialize (RX x Hx). revert RX.
    generalize (forceOf k Single s q lightless (wall 0 x)) (boxLap NN 3 1 1 (wall 0) x) (boxLap 1 3 1 1 (wall 0) x) (push x). intros [f1 f2] [l1 l2] [o1 o2] [p1 p2].
    unfold dot, plus; cbn [fst snd]. intros RX. lra.
Qed.
Theorem energy_conserved_refuted : forall b k P I NN s q, (NN <= 5)%nat -> ~ (P = Single /\ NN = 1%nat /\ agreesWithEnergy b P s q) -> ~ conserves b k P I NN s q.
Proof.
  intros b k P I NN s q H N C. destruct P; [|exact (conserves_double_refuted b k I NN s q C)].
  destruct (agrees_dec b Single s q) as [A|A]; [|exact (along_refuted b k Single I s q A (conserves_along b k I NN s q C))].
  destruct (Nat.eq_dec NN 1) as [->|E]; [apply N; auto | exact (conserves_wide_refuted b k I NN s q H E A C)].
Qed.
Theorem energy_conserved_iff : forall b k P I NN s q, (NN <= 5)%nat ->
  conserves b k P I NN s q <-> P = Single /\ NN = 1%nat /\ agreesWithEnergy b P s q.
Proof.
  intros b k P I NN s q H. split.
  - intros C. destruct P; [|destruct (conserves_double_refuted b k I NN s q C)].
    destruct (agrees_dec b Single s q) as [A|A]; [|destruct (along_refuted b k Single I s q A (conserves_along b k I NN s q C))].
    destruct (Nat.eq_dec NN 1) as [->|E]; [auto | destruct (conserves_wide_refuted b k I NN s q H E A C)].
  - intros [-> [-> A]]. apply energy_conserved_partial, A.
Qed.
(** The three sites with one neighbour: the hypotheses hold, the energy moves among its parts. *)
Example energy_conserved_case : exists v T, obeys Fused Single AVX 1 3 1 PQ1 QCDC lightless 1 wall v 0 /\
  (forall u, totalEnergy Single PQ1 QCDC (EParms 2 1 1 0 0 0) 3 1 (wall u) (v u) (T u)) /\ v 0 (0, 0, 0)%nat = (1, 0) /\ derivable_pt_lim T 0 0.
Proof.
  set (c := EParms 2 1 1 0 0 0). assert (W : sameWorld lightless c) by (unfold sameWorld, lightless, c; cbn; repeat split; lra).
  set (vel := fun x => pairOf 0 (velocity Fused Single AVX (plain PQ1 QCDC) lightless (allOf (wall 0 x)) (allOf (boxLap 1 3 1 1 (wall 0) x)) (allOf (push x)))).
  set (vv := fun u x => straight 0 (push x) (applied lightless (push x) (vel x)) u).
  assert (V0 : forall x, vv 0 x = push x) by (intros x; apply straight_moves).
  assert (O : obeys Fused Single AVX 1 3 1 PQ1 QCDC lightless 1 wall vv 0).
  { intros x Hx. rewrite V0. split; [apply wall_moves|]. exists 0%nat, (allOf (wall 0 x)), (allOf (boxLap 1 3 1 1 (wall 0) x)), (allOf (push x)), (vel x).
    rewrite !pairOf_allOf. split; [apply lanes_pos|]. do 3 (split; [reflexivity|]). split; [|apply straight_moves].
    apply newVel_some. rewrite pairOf_allOf. apply vanishes_not0, wall_not0. }
  pose proof (fun u => total_exists Single PQ1 QCDC c 3 1 (wall u) (vv u) (fun x _ => wall_not0 u x) eq_refl Rlt_0_2 Rlt_0_1) as TE.
  assert (A : agreesWithEnergy true Single PQ1 QCDC) by (left; discriminate).
  pose proof (energy_conserved_partial true Fused AVX PQ1 QCDC A 3%nat 1%nat lightless c wall vv 0
    (fun u => mean (densityAs Single PQ1 QCDC c 3 1 (wall u) (vv u)) (box 3 1))) as X.
  specialize (X (Nat.lt_0_succ 2) Nat.lt_0_1 W (fun _ => eq_refl) eq_refl eq_refl Rlt_0_1 R1_neq_R0 (fun u x _ => wall_not0 u x) O TE).
  exists vv. eexists. exact (conj O (conj TE (conj (V0 _) X))).
Qed.

Print Assumptions force_is_gradient_partial.
Print Assumptions force_is_gradient_refuted.
Print Assumptions force_is_gradient_iff.
Print Assumptions energy_conserved_partial.
Print Assumptions energy_conserved_refuted.
Print Assumptions energy_conserved_iff.
