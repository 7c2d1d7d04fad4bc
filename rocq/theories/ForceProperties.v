(** Properties C67, C69, C70 and C71: the equations of motion of the complex field. *)
From Coq Require Import Lqa Lra Reals List Arith NArith Bool Lia.
From Verif Require Import LaneModel ForceModel ForceSpec ForceProofs.
Import ListNotations.
Open Scope R_scope.

(** * C67: the angle feels the axion mass *)
Definition pull (k : kern) (P : prec) (q : qcd) (c : parms) (th : R) : R :=
  match q with
  | QCD0 => 0
  | QCD1 => pMa2 c * pR c ^ 2 * sin th
  | QCDV => pMa2 c * pR c ^ 2 * (pR c * sin th)
  | QCD2 => match k, P with
            | Fused, Double | Kick, Single => - (pMa2 c * pR c ^ 2 * (sin (2 * th) / 2))
            | _, _ => pMa2 c * pR c ^ 2 * (sin (2 * th) / 2)
            end
  | QCDC => pMa2 c * pR c ^ 2 * sin th
  | QCDL => match P with Single => pMa2 c * pR c ^ 2 * sin th | Double => 0 end
  end.
Lemma pull_ok : forall k P I s q c p th mel lap vel w, 0 < pR c -> (p < lanesOf P I)%nat ->
  goodCos P (plain s q) -> pairOf p mel = vacuum (pR c) th ->
  newVel k P I (plain s q) c p mel lap vel = Some w ->
  tang th w - tang th (pairOf p vel) = pDzc c * (tang th (pairOf p lap) - pR c * pull k P q c th).
Proof.
  intros k P I s q c p th mel lap vel w HR Hp G Hm.
  rewrite newVel_pair; [|assumption|assumption|intro E; discriminate E|intro E; discriminate E].
  destruct (divides k P (plain s q) && vanishes (pairOf p mel)); [discriminate|].
  intros E; injection E as <-. rewrite Hm.
  unfold velPair. cbn [pEvol plain].
  replace (match k with Fused => _ | Kick => accelPair k P (plain s q) c (vacuum (pR c) th) (pairOf p lap) end)
    with (accelPair k P (plain s q) c (vacuum (pR c) th) (pairOf p lap)) by (destruct k; reflexivity).
  replace (match k with Fused => pairOf p vel | Kick => pairOf p vel end) with (pairOf p vel) by (destruct k; reflexivity).
  unfold rhoPair, kickPair. cbn [pEvol pDamp plain].
  assert (T : forall a x, tang th (fst a * pDzc c + fst x, snd a * pDzc c + snd x) - tang th x = pDzc c * tang th a).
  { intros a x; unfold tang; cbn [fst snd]; ring. }
  rewrite T. f_equal. clear T.
  assert (A : accelPair k P (plain s q) c (vacuum (pR c) th) (pairOf p lap)
              = qcdPair k P (plain s q) c (vacuum (pR c) th) (pqPair s c (vacuum (pR c) th) (pairOf p lap))).
  { unfold accelPair, basePair; destruct k; reflexivity. }
  rewrite A. clear A.
  assert (B : tang th (pqPair s c (vacuum (pR c) th) (pairOf p lap)) = tang th (pairOf p lap)).
  { unfold tang, pqPair, vacuum; cbn [fst snd]; ring. }
  rewrite <- B. generalize (pqPair s c (vacuum (pR c) th) (pairOf p lap)). intros a. clear B.
  pose proof (sin2_cos2 th) as S; unfold Rsqr in S.
  assert (C : forall v, pQcd v <> QCD2 -> tang th (cosPair v c (vacuum (pR c) th) a)
              = tang th a - pR c * (pMa2 c * pR c ^ 2 * sin th)).
  { intros v N. unfold cosPair. rewrite sq_vacuum, sqrt_cube by nra. rewrite sqrt_square by lra.
    assert (Z : zN (pQcd v) c = pMa2 c * (pR c * pR c) * (pR c * pR c)) by (destruct (pQcd v); first [reflexivity | congruence]).
    rewrite Z. unfold tang, vacuum; cbn [fst snd].
    replace (- sin th * (fst a + pMa2 c * (pR c * pR c) * (pR c * pR c) * (pR c * sin th * (pR c * sin th) / (pR c * pR c * pR c)))
      + cos th * (snd a + - (pMa2 c * (pR c * pR c) * (pR c * pR c)) * (pR c * cos th * (pR c * sin th) / (pR c * pR c * pR c))))
      with (- sin th * fst a + cos th * snd a
            - pMa2 c * (pR c * pR c) * pR c * sin th * (sin th * sin th + cos th * cos th)) by (field; lra).
    rewrite S. ring. }
  unfold qcdPair, pull. cbn [pQcd plain].
  destruct q.
  - ring.
  - unfold tang, zQ; cbn [fst snd]; ring.
  - unfold tang, zQ, vacuum; cbn [fst snd]; ring.
  - rewrite sin_2a. unfold tang, zN, vacuum; destruct k, P; cbn [fst snd]; field.
  - destruct P; [apply C; discriminate | ring].
  - apply C; discriminate.
Qed.
(** Which combinations feel the right mass. *)
Definition rightMass (k : kern) (P : prec) (q : qcd) : Prop :=
  match q with
  | QCD0 | QCD1 => True
  | QCDV | QCDL => False
  | QCDC => P = Single
  | QCD2 => (k = Fused /\ P = Single) \/ (k = Kick /\ P = Double)
  end.
Theorem axion_mass_felt_partial : forall k P I q, rightMass k P q -> feelsMass k P I q.
Proof.
  intros k P I q H. unfold feelsMass. intros s c p th mel lap vel w HR Hp _ Hm E.
  rewrite (pull_ok k P I s q c p th mel lap vel w HR Hp); try assumption.
  - f_equal. f_equal. f_equal. destruct q; cbn [rightMass pull slope] in *; try contradiction; try (subst; ring).
    destruct H as [[-> ->]|[-> ->]]; ring.
  - intros -> Q. cbn in Q. subst q. discriminate H.
Qed.
(** The variant with both components feels R times the mass: right only while R = 1. *)
Theorem axion_mass_variant : forall k P I s c p th mel lap vel w, 0 < pR c -> (p < lanesOf P I)%nat ->
  pairOf p mel = vacuum (pR c) th -> newVel k P I (plain s QCDV) c p mel lap vel = Some w ->
  tang th w - tang th (pairOf p vel)
  = pDzc c * (tang th (pairOf p lap) - pR c * (pR c * (pMa2 c * pR c ^ 2 * sin th))).
Proof.
  intros. rewrite (pull_ok k P I s QCDV c p th mel lap vel w); try assumption; [cbn [pull]; ring | intros _ Q; discriminate Q].
Qed.
(** A register of equal numbers. *)
Definition allOf (x : R * R) : rreg := fun i => if Nat.even i then fst x else snd x.
Lemma pairOf_allOf : forall p x, pairOf p (allOf x) = x.
Proof. intros p [x y]; unfold pairOf, allOf; destruct (even_lanes p) as [-> ->]; reflexivity. Qed.
Lemma lanes_pos : forall P I, (0 < lanesOf P I)%nat.
Proof. destruct P, I; cbn; lia. Qed.
Definition unit2 : parms := Parms 2 1 1 0 0 0 0 1 0.
Lemma newVel_some : forall k P I v c p mel lap vel, vanishes (pairOf p mel) = false ->
  newVel k P I v c p mel lap vel = Some (pairOf p (velocity k P I v c mel lap vel)).
Proof. intros. unfold newVel. rewrite H, andb_false_r. reflexivity. Qed.
Lemma vacuum_not0 : forall r th, 0 < r -> vanishes (vacuum r th) = false.
Proof. intros r th H; apply sq_vanishes; rewrite sq_vacuum; nra. Qed.
Lemma atVacuum : forall k P I v c p th lap vel, 0 < pR c ->
  newVel k P I v c p (allOf (vacuum (pR c) th)) lap vel = Some (pairOf p (velocity k P I v c (allOf (vacuum (pR c) th)) lap vel)).
Proof. intros; apply newVel_some; rewrite pairOf_allOf; apply vacuum_not0; assumption. Qed.
Lemma unit2_pos : 0 < pR unit2.
Proof. cbn; lra. Qed.
Theorem axion_mass_felt_refuted : forall k P I q, ~ rightMass k P q -> ~ feelsMass k P I q.
Proof.
  intros k P I q N F. unfold feelsMass in F.
  pose proof PI2_3_2 as PB. pose proof PI_4 as PB4. 
  assert (G : goodCos P (plain PQ1 q) ->
    forall th, - PI < th <= PI -> pull k P q unit2 th = 4 * slope q th).
  { intros G th Hth.
    pose proof (F PQ1 unit2 0%nat th (allOf (vacuum 2 th)) (allOf (0, 0)) (allOf (0, 0)) _ unit2_pos (lanes_pos P I) Hth
      (pairOf_allOf _ _)
      (atVacuum k P I (plain PQ1 q) unit2 0%nat th (allOf (0, 0)) (allOf (0, 0)) unit2_pos)) as E1.
    pose proof (pull_ok k P I PQ1 q unit2 0%nat th (allOf (vacuum 2 th)) (allOf (0, 0)) (allOf (0, 0)) _ unit2_pos (lanes_pos P I) G
      (pairOf_allOf _ _)
      (atVacuum k P I (plain PQ1 q) unit2 0%nat th (allOf (0, 0)) (allOf (0, 0)) unit2_pos)) as E2.
    rewrite E2 in E1. cbn [unit2 pR pDzc pMa2] in E1.
    generalize dependent (tang th (pairOf 0 (allOf (0, 0)))). intros. generalize dependent (pull k P q unit2 th). intros.
    generalize dependent (slope q th). intros. lra. }
  destruct q; cbn [rightMass] in N; try tauto.
  - specialize (G ltac:(intros _ Q; discriminate Q) (PI / 2) ltac:(lra)). cbn [pull slope unit2 pMa2 pR] in G.
    rewrite sin_PI2 in G. lra.
  - specialize (G ltac:(intros _ Q; discriminate Q) (PI / 4) ltac:(lra)). cbn [pull slope unit2 pMa2 pR] in G.
    replace (2 * (PI / 4)) with (PI / 2) in G by field. rewrite sin_PI2 in G.
    destruct k, P; try tauto; lra.
  - specialize (G ltac:(intros _ Q; discriminate Q) (PI / 2) ltac:(lra)). cbn [pull slope unit2 pMa2 pR] in G.
    rewrite sin_PI2 in G. destruct P; lra.
  - destruct P; [tauto|]. clear G N.
    pose proof (F PQ1 unit2 0%nat 0 (allOf (vacuum 2 0)) (allOf (0, 0)) (allOf (0, 0)) _ unit2_pos (lanes_pos Double I) ltac:(lra)
      (pairOf_allOf _ _)
      (atVacuum k Double I (plain PQ1 QCDC) unit2 0%nat 0 (allOf (0, 0)) (allOf (0, 0)) unit2_pos)) as E.
    rewrite !pairOf_allOf in E. unfold tang in E. rewrite sin_0, cos_0 in E. cbn [slope fst snd unit2 pR pDzc pMa2] in E.
    rewrite sin_0 in E.
    assert (W : snd (pairOf 0 (velocity k Double I (plain PQ1 QCDC) unit2 (allOf (vacuum 2 0)) (allOf (0, 0)) (allOf (0, 0)))) = -8).
    { unfold pairOf. cbn [snd]. unfold velocity, project. cbn [pEvol plain].
      assert (V : vqcd0 Double I (allOf (vacuum 2 0)) (2 * 0 + 1)%nat = 4).
      { destruct I; cbv -[Rplus Rmult IZR cos sin]; rewrite cos_0; ring. }
      destruct (norm2_lanes Double I 0 (allOf (vacuum 2 0)) (lanes_pos Double I)) as [_ NN].
      rewrite pairOf_allOf, sq_vacuum in NN.
      assert (Q : sqrt (2 * 2 * (2 * 2 * (2 * 2))) = 8).
      { replace (2 * 2 * (2 * 2 * (2 * 2))) with (8 * 8) by ring. apply sqrt_square; lra. }
      destruct k; unfold onlyRho, kicked, accel, qcdPart, cosinePart, basePart, pqPart; cbn [pEvol pDamp pQcd pPq plain];
        cbv zeta; rewrite V, NN, Q; unfold zNVec, zN, allOf, vacuum; cbn [unit2 pR pLam pMa2 pRpp pDzc Nat.even Nat.mul Nat.add fst snd];
        rewrite sin_0; field. }
    generalize dependent (pairOf 0 (velocity k Double I (plain PQ1 QCDC) unit2 (allOf (vacuum 2 0)) (allOf (0, 0)) (allOf (0, 0)))).
    intros w E W. rewrite W in E. lra.
Qed.
(** In double precision the cosine potential pushes the field out of its own vacuum. *)
Theorem cosine_vacuum_at_rest_refuted : forall k I, exists c w, 0 < pR c /\ pRpp c = 0 /\ pRp c = 0 /\
  newVel k Double I (plain PQ1 QCDC) c 0 (allOf (vacuum (pR c) 0)) (allOf (0, 0)) (allOf (0, 0)) = Some w /\ w <> (0, 0).
Proof.
  intros k I. exists unit2. eexists. split; [cbn; lra|]. split; [reflexivity|]. split; [reflexivity|].
  split; [apply newVel_some; rewrite pairOf_allOf; apply vacuum_not0; cbn; lra|].
  intros E. assert (V : vqcd0 Double I (allOf (vacuum 2 0)) (2 * 0 + 1)%nat = 4).
  { destruct I; cbv -[Rplus Rmult IZR cos sin]; rewrite cos_0; ring. }
  destruct (norm2_lanes Double I 0 (allOf (vacuum 2 0)) (lanes_pos Double I)) as [_ NN].
  rewrite pairOf_allOf, sq_vacuum in NN.
  assert (Q : sqrt (2 * 2 * (2 * 2 * (2 * 2))) = 8).
  { replace (2 * 2 * (2 * 2 * (2 * 2))) with (8 * 8) by ring. apply sqrt_square; lra. }
  apply (f_equal snd) in E. unfold pairOf in E. cbn [snd] in E. unfold velocity, project in E. cbn [pEvol plain] in E.
  destruct k; unfold onlyRho, kicked, accel, qcdPart, cosinePart, basePart, pqPart in E; cbn [pEvol pDamp pQcd pPq plain] in E;
    cbv zeta in E; change (pR unit2) with 2 in E; rewrite V, NN, Q in E; unfold zNVec, zN, allOf, vacuum in E;
    cbn [unit2 pR pLam pMa2 pRpp pDzc Nat.even Nat.mul Nat.add fst snd] in E;
    rewrite sin_0 in E; revert E; match goal with |- ?x = 0 -> _ => replace x with (-8) by field end; lra.
Qed.
Theorem axion_mass_felt_iff : forall k P I q, feelsMass k P I q <-> rightMass k P q.
Proof.
  intros k P I q. split; [|apply axion_mass_felt_partial].
  intros F. assert (D : rightMass k P q \/ ~ rightMass k P q).
  { destruct q; cbn; auto; destruct k, P; auto; right; intuition discriminate. }
  destruct D as [D|D]; [exact D | destruct (axion_mass_felt_refuted k P I q D F)].
Qed.
(** A quarter turn with the cosine potential: the hypotheses hold and the pull is real. *)
Example axion_mass_felt_case : feelsMass Fused Single AVX512 QCDC
  /\ exists w, newVel Fused Single AVX512 (plain PQ1 QCDC) unit2 5 (allOf (vacuum 2 (PI / 2))) (allOf (1, 0)) (allOf (0, 3)) = Some w
     /\ tang (PI / 2) w = -9.
Proof.
  split; [apply axion_mass_felt_partial; reflexivity|].
  assert (L : (5 < lanesOf Single AVX512)%nat) by (cbn; lia).
  eexists. split; [apply newVel_some; rewrite pairOf_allOf; apply vacuum_not0; lra|].
  pose proof (axion_mass_felt_partial Fused Single AVX512 QCDC eq_refl PQ1 unit2 5%nat (PI / 2) (allOf (vacuum 2 (PI / 2)))
    (allOf (1, 0)) (allOf (0, 3)) _ unit2_pos L ltac:(pose proof PI_RGT_0; lra) (pairOf_allOf _ _)
    (atVacuum Fused Single AVX512 (plain PQ1 QCDC) unit2 5%nat (PI / 2) (allOf (1, 0)) (allOf (0, 3)) unit2_pos)) as E.
  rewrite !pairOf_allOf in E. change (pR unit2) with 2 in E. generalize dependent (pairOf 5 (velocity Fused Single AVX512 (plain PQ1 QCDC) unit2 (allOf (vacuum 2 (PI / 2)))
    (allOf (1, 0)) (allOf (0, 3)))). intros w E. unfold slope in E.
  unfold tang at 2 3 in E. rewrite sin_PI2, cos_PI2 in E. cbn [fst snd unit2 pR pDzc pMa2] in E. lra.
Qed.

(** * C69: every way of running gives the same update *)
Theorem kernels_agree_partial : forall k P I k' P' I' s q d,
  q = QCD0 \/ q = QCD1 \/ q = QCDV -> d <> DampRho ->
  agree k P I k' P' I' (Pot s q d EvolAll).
Proof.
  intros k P I k' P' I' s q d Hq Hd c junk junk' p p' mel lap vel mel' lap' vel' Hp Hp' E1 E2 E3.
  rewrite !newVel_pair; try assumption;
    try (intros E; cbn in E; congruence); try (intros _ E; cbn in E; intuition congruence).
  rewrite E1, E2, E3.
  assert (D : forall k P, divides k P (Pot s q d EvolAll) = false).
  { intros k0 P0; unfold divides; cbn [pEvol pDamp pQcd]; destruct Hq as [->|[->| ->]], d, k0, P0; first [reflexivity | congruence]. }
  rewrite !D. cbn [andb]. f_equal.
  assert (A : forall k P j, accelPair k P (Pot s q d EvolAll) (given k j c) (pairOf p' mel') (pairOf p' lap')
    = accelPair Fused Single (Pot s q d EvolAll) c (pairOf p' mel') (pairOf p' lap')).
  { intros k0 P0 j. unfold accelPair, basePair, qcdPair. cbn [pEvol pQcd].
    destruct Hq as [->|[->| ->]]; destruct k0; reflexivity. }
  unfold velPair. rewrite !A. unfold rhoPair. cbn [pEvol].
  destruct k, k'; unfold kickPair; cbn [pDamp]; destruct d; try congruence; reflexivity.
Qed.
(** In single precision the instruction set and the place in the register never matter. *)
Theorem single_agree_partial : forall k I I' v, pDamp v <> DampRho \/ k = Fused -> agree k Single I k Single I' v.
Proof.
  intros k I I' v Hd c junk junk' p p' mel lap vel mel' lap' vel' Hp Hp' E1 E2 E3.
  rewrite !newVel_pair; try assumption; try (intros _; split; exact Logic.I); try (intros _; exact Logic.I); try (intros E; discriminate E).
  rewrite E1, E2, E3. destruct (divides k Single v && vanishes (pairOf p' mel')); [reflexivity|]. f_equal.
  destruct k; [reflexivity|]. destruct Hd as [Hd|Hd]; [|discriminate].
  unfold velPair, kickPair. destruct (pDamp v); try congruence; reflexivity.
Qed.
(** In double precision with the normal memory layout, as far as the scalar products go. *)
Theorem double_agree_partial : forall I I' s q d e, q <> QCDC ->
  d <> DampRho \/ (I = SSE /\ I' = SSE) -> e <> EvolRho \/ (I <> AVX512 /\ I' <> AVX512) ->
  agree Fused Double I Fused Double I' (Pot s q d e).
Proof.
  intros I I' s q d e Hq Hd He c junk junk' p p' mel lap vel mel' lap' vel' Hp Hp' E1 E2 E3.
  rewrite !newVel_pair; try assumption; try (intros _ E; cbn in E; congruence).
  - rewrite E1, E2, E3. reflexivity.
  - intros E; cbn in E; destruct Hd as [Hd|[-> ->]]; [congruence | split; exact Logic.I].
  - intros E; cbn in E; destruct He as [He|[A B]]; [congruence|]; unfold goodMV; destruct I'; try exact Logic.I; congruence.
  - intros E; cbn in E; destruct Hd as [Hd|[-> ->]]; [congruence | split; exact Logic.I].
  - intros E; cbn in E; destruct He as [He|[A B]]; [congruence|]; unfold goodMV; destruct I; try exact Logic.I; congruence.
Qed.
Example kernels_agree_case :
  newVel Fused Double AVX (Pot PQ2 QCD1 DampAll EvolAll) (given Fused 7 (Parms 2 1 1 0 (1/3) 1 0 1 0)) 1 (allOf (1, 1)) (allOf (2, 0)) (allOf (0, 3))
  = newVel Kick Single AVX512 (Pot PQ2 QCD1 DampAll EvolAll) (given Kick 9 (Parms 2 1 1 0 (1/3) 1 0 1 0)) 6 (allOf (1, 1)) (allOf (2, 0)) (allOf (0, 3))
  /\ newVel Kick Single AVX512 (Pot PQ2 QCD1 DampAll EvolAll) (given Kick 9 (Parms 2 1 1 0 (1/3) 1 0 1 0)) 6 (allOf (1, 1)) (allOf (2, 0)) (allOf (0, 3)) <> None.
Proof.
  split.
  - apply (kernels_agree_partial Fused Double AVX Kick Single AVX512 PQ2 QCD1 DampAll); auto; try discriminate; cbn; auto; lia.
  - discriminate.
Qed.
(** Same site, same surroundings: the low-memory kernel, the other precision give another
    velocity. *)
Definition flatC : parms := Parms 1 0 1 0 0 0 0 1 0.
Lemma differ : forall k P I k' P' I' v x y,
  newVel k P I v (given k 0 flatC) 0 (allOf (3/5, 4/5)) (allOf (0, 0)) (allOf (1, 0)) = Some x ->
  newVel k' P' I' v (given k' 0 flatC) 0 (allOf (3/5, 4/5)) (allOf (0, 0)) (allOf (1, 0)) = Some y -> x <> y ->
  ~ agree k P I k' P' I' v.
Proof.
  intros k P I k' P' I' v x y A B N F.
  specialize (F flatC 0 0 0%nat 0%nat (allOf (3/5, 4/5)) (allOf (0, 0)) (allOf (1, 0)) (allOf (3/5, 4/5)) (allOf (0, 0)) (allOf (1, 0))
    (lanes_pos P I) (lanes_pos P' I') eq_refl eq_refl eq_refl).
  rewrite A, B in F. congruence.
Qed.
Lemma sq_345 : sq (3/5, 4/5) = 1.
Proof. unfold sq, dot; cbn [fst snd]; lra. Qed.
Lemma not0_345 : vanishes (3/5, 4/5) = false.
Proof. apply sq_vanishes; rewrite sq_345; lra. Qed.
Lemma some_345 : forall k P I v, goodCos P v -> goodDamp P I 0 v -> goodRho P I 0 v ->
  newVel k P I v (given k 0 flatC) 0 (allOf (3/5, 4/5)) (allOf (0, 0)) (allOf (1, 0))
  = Some (velPair k P v (given k 0 flatC) (3/5, 4/5) (0, 0) (1, 0)).
Proof.
  intros k P I v A B C. rewrite newVel_pair by (try assumption; apply lanes_pos).
  rewrite !pairOf_allOf, not0_345, andb_false_r. reflexivity.
Qed.
Lemma plain_345 : forall k P q, goodCos P (plain PQ1 q) ->
  velPair k P (plain PQ1 q) (given k 0 flatC) (3/5, 4/5) (0, 0) (1, 0) =
  (fst (qcdPair k P (plain PQ1 q) flatC (3/5, 4/5) (0, 0)) + 1, snd (qcdPair k P (plain PQ1 q) flatC (3/5, 4/5) (0, 0))).
Proof.
  intros k P q G. unfold velPair, accelPair, basePair, rhoPair, kickPair. cbn [pEvol pDamp plain pPq].
  assert (E : pqPair PQ1 (given k 0 flatC) (3/5, 4/5) (0, 0) = (0, 0)).
  { unfold pqPair, pqCoef. rewrite sq_345. destruct k; cbn [given flatC pR pLam pRpp fst snd]; f_equal; ring. }
  rewrite E.
  assert (Q : qcdPair k P (plain PQ1 q) (given k 0 flatC) (3/5, 4/5) (0, 0) = qcdPair k P (plain PQ1 q) flatC (3/5, 4/5) (0, 0)).
  { unfold qcdPair; destruct q, k, P; reflexivity. }
  change (Pot PQ1 q NoDamp EvolAll) with (plain PQ1 q).
  destruct k; rewrite Q; cbn [given flatC pDzc fst snd]; f_equal; ring.
Qed.
Ltac goods := try (intros ? ?; discriminate); try (intros ?; discriminate).
Theorem two_well_kernels_agree_refuted : forall k P I k' P' I',
  ((k = k' /\ P <> P') \/ (k <> k' /\ P = P')) -> ~ agree k P I k' P' I' (plain PQ1 QCD2).
Proof.
  intros k P I k' P' I' H.
  eapply differ; [apply some_345; goods | apply some_345; goods |].
  rewrite !plain_345 by goods. unfold qcdPair, zN; cbn [plain pQcd flatC pR pMa2 fst snd].
  destruct k, P, k', P'; try (exfalso; intuition congruence); cbn [fst snd]; intros E; injection E; intros; lra.
Qed.
Lemma cos_345 : forall q, q <> QCD2 -> cosPair (plain PQ1 q) flatC (3/5, 4/5) (0, 0) = (16/25, -12/25).
Proof.
  intros q H. unfold cosPair. rewrite sq_345, !Rmult_1_r, sqrt_1.
  assert (Z : zN (pQcd (plain PQ1 q)) flatC = 1) by (cbn [plain pQcd]; destruct q; try congruence; cbn [zN flatC pR pMa2]; ring).
  rewrite Z. cbn [fst snd]; f_equal; field.
Qed.
Theorem linear_precisions_agree_refuted : forall k I k' I', ~ agree k Single I k' Double I' (plain PQ1 QCDL).
Proof.
  intros k I k' I'. eapply differ; [apply some_345; goods | apply some_345; goods |].
  rewrite !plain_345 by goods. unfold qcdPair. cbn [plain pQcd].
  change (Pot PQ1 QCDL NoDamp EvolAll) with (plain PQ1 QCDL).
  rewrite cos_345 by discriminate. cbn [fst snd]. intros E; injection E; intros; lra.
Qed.
Theorem cosine_precisions_agree_refuted : forall k I k' I', ~ agree k Single I k' Double I' (plain PQ1 QCDC).
Proof.
  intros k I k' I'. eapply differ; [apply some_345; goods | apply newVel_some; rewrite pairOf_allOf; apply not0_345 |].
  rewrite plain_345 by goods. unfold qcdPair. cbn [plain pQcd].
  change (Pot PQ1 QCDC NoDamp EvolAll) with (plain PQ1 QCDC). rewrite cos_345 by discriminate. cbn [fst snd].
  intros E. apply (f_equal snd) in E. cbn [snd] in E. unfold pairOf in E. cbn [snd] in E.
  unfold velocity, project in E. cbn [pEvol plain] in E.
  assert (V : vqcd0 Double I' (allOf (3/5, 4/5)) (2 * 0 + 1)%nat = 9/25).
  { destruct I'; cbv -[Rplus Rmult Rinv Rdiv IZR]; lra. }
  destruct (norm2_lanes Double I' 0 (allOf (3/5, 4/5)) (lanes_pos Double I')) as [_ NN].
  rewrite pairOf_allOf, sq_345 in NN.
  destruct k'; unfold onlyRho, kicked, accel, qcdPart, cosinePart, basePart, pqPart in E; cbn [pEvol pDamp pQcd pPq plain] in E;
    cbv zeta in E; rewrite V, NN, !Rmult_1_r, sqrt_1 in E; unfold zNVec, zN, allOf in E;
    cbn [given flatC pR pLam pMa2 pRpp pDzc Nat.even Nat.mul Nat.add fst snd] in E; lra.
Qed.
(** With the damping of the modulus the low-memory update depends on a number that was
    never set. *)
Definition dampC : parms := Parms 1 0 0 0 0 2 0 1 0.
Theorem lowmem_damping_agree_refuted : forall P I, ~ agree Kick P I Kick P I (Pot PQ1 QCD0 DampRho EvolAll).
Proof.
  intros P I F.
  specialize (F dampC 0 1 0%nat 0%nat (allOf (3/5, 4/5)) (allOf (0, 0)) (allOf (1, 0)) (allOf (3/5, 4/5)) (allOf (0, 0)) (allOf (1, 0))
    (lanes_pos P I) (lanes_pos P I) eq_refl eq_refl eq_refl).
  assert (G1 : goodMV P I 0) by (destruct P, I; cbn; auto; lia).
  assert (G2 : goodMA P I 0) by (destruct P, I; cbn; auto; lia).
  rewrite !newVel_pair in F; try apply lanes_pos; try (intros _; split; assumption); try (intros _; assumption); goods.
  rewrite !pairOf_allOf, not0_345, andb_false_r in F. injection F as F _. revert F.
  unfold kickPair. cbn [pDamp]. unfold epsi, mola, GGGG, pqPair, pqCoef. rewrite sq_345. unfold dot.
  cbn [given dampC rpGiven pR pLam pRpp pRp pGamma pDec pDzc fst snd].
  destruct (Rlt_dec 0 0); [lra|].
  replace (2 / 1 * 1 / 2 / (1 + 2 / 1 * 1 / 2)) with (1/2) by field. unfold qcdPair; cbn [pQcd fst snd]; lra.
Qed.

(** * C70: damping *)
Definition wellSummed (P : prec) (I : isa) (p : nat) : Prop := P = Single \/ I = SSE \/ p = 0%nat.
Lemma wellSummed_good : forall P I p, wellSummed P I p -> goodMV P I p /\ goodMA P I p.
Proof. intros P I p [->|[->| ->]]; [destruct I | destruct P | destruct P, I]; cbn; auto; split; lia. Qed.
Lemma mola_rate : forall c G, pR c <> 0 -> rate c G -> mola c = G * pDzc c / 2.
Proof. intros c G H A. rewrite (rate_unique c G H A). reflexivity. Qed.
Lemma not0_van : forall m : R * R, m <> (0, 0) -> vanishes m = false.
Proof.
  intros [x y] H; unfold vanishes; cbn [fst snd]. destruct (Req_EM_T x 0) as [->|]; [|reflexivity].
  destruct (Req_EM_T y 0) as [->|]; [congruence|reflexivity].
Qed.
Lemma velocity_kick : forall k P I s q d c mel lap vel,
  velocity k P I (Pot s q d EvolAll) c mel lap vel
  = kicked P I (Pot s q d EvolAll) c mel (accel k P I (Pot s q NoDamp EvolAll) c mel lap) vel.
Proof. intros; unfold velocity, project, onlyRho; cbn [pEvol]; destruct k; reflexivity. Qed.
Theorem modulus_damped_partial : forall k P I p, (p < lanesOf P I)%nat -> wellSummed P I p -> dampsModulus k P I p.
Proof.
  intros k P I p Hp W s q c G mel lap vel w0 HR HG Hmu Hm E.
  destruct (wellSummed_good P I p W) as [G1 G2].
  pose proof (not0_van _ Hm) as Hv. pose proof (vanishes_sq _ Hv) as Hs.
  rewrite newVel_some in E by assumption. injection E as <-.
  eexists. split; [apply newVel_some; assumption|]. cbv zeta.
  rewrite !velocity_kick. rewrite !kicked_pair; try assumption; try (intros _; split; assumption).
  unfold kickPair. cbn [pDamp]. unfold epsi. rewrite (mola_rate c G ltac:(lra) HG).
  generalize dependent (pairOf p (accel k P I (Pot s q NoDamp EvolAll) c mel lap)). intros a.
  generalize dependent (pairOf p mel). intros m Hm Hv Hs.
  generalize (pairOf p vel). intros x.
  generalize dependent (G * pDzc c / 2). intros mu Hmu.
  assert (Hs2 : fst m * fst m + snd m * snd m <> 0) by (unfold sq, dot in Hs; lra).
  unfold cross, radial, dot, sq, dot. cbn [fst snd]. split; field; split; try assumption; lra.
Qed.
Theorem all_damped : forall k P I p, (p < lanesOf P I)%nat -> dampsAll k P I p.
Proof.
  intros k P I p Hp s q c G mel lap vel w0 HR HG Hmu E.
  unfold newVel in E |- *.
  change (divides k P (Pot s q DampAll EvolAll)) with (divides k P (Pot s q NoDamp EvolAll)).
  destruct (divides k P (Pot s q NoDamp EvolAll) && vanishes (pairOf p mel)); [discriminate|].
  injection E as <-. eexists. split; [reflexivity|].
  rewrite !velocity_kick. rewrite !kicked_pair; try assumption; try (intros A; discriminate A).
  unfold kickPair. cbn [pDamp]. unfold damp2, damp1. rewrite (mola_rate c G ltac:(lra) HG).
  generalize (pairOf p (accel k P I (Pot s q NoDamp EvolAll) c mel lap)). intros a.
  generalize (pairOf p vel). intros x.
  generalize dependent (G * pDzc c / 2). intros mu Hmu.
  unfold plus, times. cbn [fst snd]. f_equal; field; lra.
Qed.
(** Friction only slows down: with nothing else acting no velocity grows. *)
Theorem damping_contracts : forall k P I p s q c G mel lap vel w, (p < lanesOf P I)%nat ->
  0 < pR c -> rate c G -> 0 <= G * pDzc c ->
  newVel k P I (Pot s q NoDamp EvolAll) c p mel lap vel = Some (pairOf p vel) ->
  newVel k P I (Pot s q DampAll EvolAll) c p mel lap vel = Some w ->
  sq w <= sq (pairOf p vel) /\ cross (pairOf p vel) w = 0.
Proof.
  intros k P I p s q c G mel lap vel w Hp HR HG H0 E W.
  destruct (all_damped k P I p Hp s q c G mel lap vel _ HR HG ltac:(lra) E) as [w' [W' A]].
  rewrite W in W'. injection W' as <-.
  generalize dependent (pairOf p vel). intros [x y] E. destruct w as [u z]. unfold plus, times. cbn [fst snd]. intros A.
  injection A as A B. assert (M : 0 <= G * pDzc c / 2) by lra. clear E W H0.
  generalize dependent (G * pDzc c / 2). intros mu A B M.
  assert (X : u = (1 - mu) / (1 + mu) * x) by (apply Rmult_eq_reg_l with (1 + mu); [|lra]; field_simplify; lra).
  assert (Y : z = (1 - mu) / (1 + mu) * y) by (apply Rmult_eq_reg_l with (1 + mu); [|lra]; field_simplify; lra).
  assert (K : -1 <= (1 - mu) / (1 + mu) <= 1).
  { split.
    - apply Rmult_le_reg_r with (1 + mu); [lra|]. unfold Rdiv; rewrite Rmult_assoc, Rinv_l by lra; lra.
    - apply Rmult_le_reg_r with (1 + mu); [lra|]. unfold Rdiv; rewrite Rmult_assoc, Rinv_l by lra; lra. }
  subst u z. generalize dependent ((1 - mu) / (1 + mu)). intros r _ _ K. unfold sq, dot, cross; cbn [fst snd]. split; [|ring].
  assert (R1 : r * r <= 1) by nra.
  replace (r * x * (r * x) + r * y * (r * y)) with ((r * r) * (x * x + y * y)) by ring.
  assert (0 <= x * x + y * y) by nra.
  replace (x * x + y * y) with (1 * (x * x + y * y)) at 2 by ring.
  apply Rmult_le_compat_r; assumption.
Qed.
(** In the registers of double precision the scalar product of field and acceleration is
    right at their first number only. *)
Theorem modulus_damped_refuted : forall k P I p, (p < lanesOf P I)%nat -> ~ wellSummed P I p -> ~ dampsModulus k P I p.
Proof.
  intros k P I p Hp W F. destruct P; [destruct W; left; reflexivity|].
  assert (I = SSE -> False) by (intros ->; apply W; right; left; reflexivity).
  assert (p <> 0%nat) by (intros ->; apply W; right; right; reflexivity).
  assert (RT : rate dampC 2) by (unfold rate, dampC; cbn [pDec pR pGamma]; split; intros; lra).
  assert (NZ : pairOf p (allOf (1, 0)) <> (0, 0)) by (rewrite pairOf_allOf; intros E; injection E; lra).
  destruct (F PQ1 QCD0 dampC 2 (allOf (1, 0)) (allOf (1, 0)) (allOf (0, 0)) _ ltac:(cbn; lra) RT ltac:(cbn; lra) NZ
    (newVel_some k Double I _ dampC p _ _ _ (not0_van _ NZ))) as [w [E [_ B]]].
  rewrite newVel_some in E by (apply not0_van; assumption). injection E as <-.
  rewrite !velocity_kick in B.
  rewrite (kicked_pair Double I (Pot PQ1 QCD0 NoDamp EvolAll)) in B; [|assumption | intros A; discriminate A].
  assert (AC : pairOf p (accel k Double I (Pot PQ1 QCD0 NoDamp EvolAll) dampC (allOf (1, 0)) (allOf (1, 0))) = (1, 0)).
  { rewrite accel_pair by (try assumption; intros _ A; discriminate A). rewrite !pairOf_allOf.
    unfold accelPair, basePair, qcdPair, pqPair, pqCoef, sq, dot. cbn [pEvol pQcd pPq dampC pR pLam pRpp fst snd].
    destruct k; f_equal; ring. }
  assert (D : exists y, pairOf p (kicked Double I (Pot PQ1 QCD0 DampRho EvolAll) dampC (allOf (1, 0))
      (accel k Double I (Pot PQ1 QCD0 NoDamp EvolAll) dampC (allOf (1, 0)) (allOf (1, 0))) (allOf (0, 0))) = (0, y)).
  { generalize dependent (accel k Double I (Pot PQ1 QCD0 NoDamp EvolAll) dampC (allOf (1, 0)) (allOf (1, 0))). intros a B AC.
    injection AC as A1 A2. unfold pairOf. eexists. f_equal.
    unfold kicked. cbn [pDamp]. destruct (norm2_lanes Double I p (allOf (1, 0)) Hp) as [-> _].
    rewrite pairOf_allOf. unfold sq, dot. cbn [fst snd].
    assert (MV : dotMV Double I (allOf (1, 0)) (allOf (0, 0)) (2 * p)%nat = 0)
      by (destruct I; cbn in Hp; try lia; eachNumber p; try tauto; cbv -[Rplus Rmult IZR]; ring).
    assert (MA : dotMA Double I (allOf (1, 0)) a (2 * p)%nat = 2 * a (2 * p)%nat)
      by (destruct I; cbn in Hp; try tauto; try lia; clear -Hp H0; eachNumber p; try tauto; cbv -[Rplus Rmult IZR]; ring).
    rewrite MV, MA. replace (a (2 * p)%nat) with 1 by (symmetry; exact A1).
    unfold allOf, epsi, mola, GGGG. destruct (even_lanes p) as [-> _]. cbn [dampC pGamma pR pDec pDzc pRp fst snd].
    destruct (Rlt_dec 0 0); [lra|]. field. }
  destruct D as [y D]. rewrite D in B. unfold kickPair in B. cbn [pDamp] in B. rewrite AC, !pairOf_allOf in B.
  unfold radial, dot, sq, dot in B. cbn [fst snd dampC pDzc pRp] in B. lra.
Qed.
Theorem modulus_damped_iff : forall k P I p, (p < lanesOf P I)%nat -> (dampsModulus k P I p <-> wellSummed P I p).
Proof.
  intros k P I p Hp. split; [|apply modulus_damped_partial; exact Hp].
  intros F. assert (D : wellSummed P I p \/ ~ wellSummed P I p).
  { unfold wellSummed. destruct P; [auto|]. destruct (Nat.eq_dec p 0); [auto|]. destruct I; auto; right; intuition discriminate. }
  destruct D as [D|D]; [exact D | destruct (modulus_damped_refuted k P I p Hp D F)].
Qed.
Example modulus_damped_case : exists w, newVel Kick Double SSE (Pot PQ1 QCD1 DampRho EvolAll) (Parms 2 1 1 0 (1/2) 3 5 (1/4) 0) 0
    (allOf (1, 2)) (allOf (0, 1)) (allOf (1, 0)) = Some w
  /\ let c := Parms 2 1 1 0 (1/2) 3 5 (1/4) 0 in
     rate c (6/5) /\ radial c (1, 2) w <> radial c (1, 2) (1, 0).
Proof.
  assert (NZ : pairOf 0 (allOf (1, 2)) <> (0, 0)) by (rewrite pairOf_allOf; intros E; injection E; lra).
  set (c := Parms 2 1 1 0 (1/2) 3 5 (1/4) 0).
  assert (RT : rate c (6/5)) by (unfold rate, c; cbn [pDec pR pGamma]; split; intros; lra).
  destruct (modulus_damped_partial Kick Double SSE 0 (lanes_pos _ _) ltac:(right; left; reflexivity) PQ1 QCD1 c (6/5)
    (allOf (1, 2)) (allOf (0, 1)) (allOf (1, 0)) _ ltac:(cbn; lra) RT ltac:(cbn; lra) NZ
    (newVel_some Kick Double SSE _ c 0 _ _ _ (not0_van _ NZ))) as [w [E [_ B]]].
  exists w. split; [exact E|]. cbv zeta. split; [exact RT|].
  rewrite velocity_kick, kicked_pair in B by (try apply lanes_pos; intros A; discriminate A).
  rewrite accel_pair in B by (try apply lanes_pos; intros _ A; discriminate A). rewrite !pairOf_allOf in B.
  unfold kickPair, accelPair, basePair, qcdPair, pqPair, pqCoef, zQ in B. cbn [pDamp pEvol pQcd pPq] in B.
  intros X. rewrite X in B. unfold radial, dot, sq, dot, c in B.
  cbn [fst snd pR pLam pMa2 pRpp pRp pGamma pDec pDzc] in B. lra.
Qed.

(** * C71: evolution of the modulus or of the angle only *)
Definition rhoSummed (P : prec) (I : isa) (p : nat) : Prop := P = Double -> I = AVX512 -> (p < 2)%nat.
Lemma rhoSummed_good : forall P I p, rhoSummed P I p -> goodMV P I p.
Proof. intros P I p H; destruct P, I; cbn; auto; apply H; reflexivity. Qed.
Lemma pairOf_put : forall p x r, pairOf p (put p x r) = x.
Proof.
  intros p [x y] r; unfold pairOf, put. rewrite Nat.eqb_refl.
  replace (Nat.eqb (2 * p + 1) (2 * p)) with false by (symmetry; apply Nat.eqb_neq; lia).
  rewrite Nat.eqb_refl. reflexivity.
Qed.
Lemma rho_step : forall k P I s q d c p mel lap vel w, (p < lanesOf P I)%nat -> rhoSummed P I p ->
  newVel k P I (Pot s q d EvolRho) c p mel lap vel = Some w -> exists b, w = times b (pairOf p mel).
Proof.
  intros k P I s q d c p mel lap vel w Hp HI E. unfold newVel in E.
  assert (D : divides k P (Pot s q d EvolRho) = true) by reflexivity. rewrite D in E.
  destruct (vanishes (pairOf p mel)) eqn:V; [discriminate|]. cbn [andb] in E. injection E as <-.
  unfold velocity. destruct (project k P I (Pot s q d EvolRho) c mel (accel k P I (Pot s q d EvolRho) c mel lap) vel) as [a x].
  rewrite onlyRho_pair; [|exact Hp | intros _; apply rhoSummed_good; exact HI].
  unfold rhoPair. cbn [pEvol].
  exists (dot (pairOf p mel) (pairOf p (kicked P I (Pot s q d EvolRho) c mel a x)) / sq (pairOf p mel)).
  unfold times, Rdiv. f_equal; ring.
Qed.
Theorem phase_kept_partial : forall k P I p, (p < lanesOf P I)%nat -> rhoSummed P I p -> keepsPhase k P I p.
Proof.
  intros k P I p Hp HI s q d l. induction l as [|x r IH]; intros m v m' v' E N; [congruence|].
  cbn [visits fst snd] in E.
  destruct (newVel k P I (Pot s q d EvolRho) (vParms x) p (put p m (vM x)) (vLap x) (put p v (vV x))) as [w|] eqn:W; [|discriminate].
  destruct (rho_step k P I s q d _ p _ _ _ w Hp HI W) as [b ->]. rewrite pairOf_put in *.
  assert (F : newField (vParms x) m (times b m) = times (b * pDzd (vParms x) + 1) m)
    by (unfold newField, times; cbn [fst snd]; f_equal; ring).
  destruct r as [|y r'].
  - cbn [visits] in E. injection E as <- <-. rewrite F. eexists; eexists; split; reflexivity.
  - destruct (IH _ _ _ _ E ltac:(discriminate)) as [a [b' [-> ->]]]. rewrite F.
    exists (a * (b * pDzd (vParms x) + 1)), (b' * (b * pDzd (vParms x) + 1)).
    unfold times; cbn [fst snd]; split; f_equal; ring.
Qed.
Theorem phase_kept_refuted : forall k p, (2 <= p < 4)%nat -> ~ keepsPhase k Double AVX512 p.
Proof.
  intros k p Hp F. set (c := Parms 1 0 0 0 0 0 0 1 0).
  assert (Hl : (p < lanesOf Double AVX512)%nat) by (cbn; lia).
  assert (NZ : pairOf p (put p (1, 1) (allOf (0, 0))) <> (0, 0)) by (rewrite pairOf_put; intros E; injection E; lra).
  pose proof (newVel_some k Double AVX512 (Pot PQ1 QCD0 NoDamp EvolRho) c p _ (allOf (0, 0)) (put p (1, 0) (allOf (0, 0))) (not0_van _ NZ)) as E.
  assert (W : pairOf p (velocity k Double AVX512 (Pot PQ1 QCD0 NoDamp EvolRho) c (put p (1, 1) (allOf (0, 0))) (allOf (0, 0))
      (put p (1, 0) (allOf (0, 0)))) = (1, 1/2)).
  { unfold velocity. 
    destruct (norm2_lanes Double AVX512 p (put p (1, 1) (allOf (0, 0))) Hl) as [N1 N2]. rewrite pairOf_put in N1, N2.
    assert (AC : pairOf p (accel k Double AVX512 (Pot PQ1 QCD0 NoDamp EvolRho) c (put p (1, 1) (allOf (0, 0))) (allOf (0, 0))) = (0, 0)).
    { rewrite accel_pair by (try assumption; intros _ A; discriminate A). rewrite pairOf_put, pairOf_allOf.
      unfold accelPair, basePair, qcdPair, pqPair, pqCoef, sq, dot, c. cbn [pEvol pQcd pPq pR pLam pRpp fst snd].
      destruct k; f_equal; ring. }
    generalize dependent (accel k Double AVX512 (Pot PQ1 QCD0 NoDamp EvolRho) c (put p (1, 1) (allOf (0, 0))) (allOf (0, 0))).
    intros a AC.
    assert (A1 : a (2 * p)%nat = 0) by exact (f_equal fst AC). assert (A2 : a (2 * p + 1)%nat = 0) by exact (f_equal snd AC).
    unfold project. cbn [pEvol]. 
    replace (match k with Fused => (a, put p (1, 0) (allOf (0, 0))) | Kick => (a, put p (1, 0) (allOf (0, 0))) end)
      with (a, put p (1, 0) (allOf (0, 0))) by (destruct k; reflexivity).
    unfold onlyRho, kicked. cbn [pEvol pDamp].
    set (x := fun i => a i * pDzc c + put p (1, 0) (allOf (0, 0)) i).
    assert (X1 : x (2 * p)%nat = 1 /\ x (2 * p + 1)%nat = 0).
    { pose proof (pairOf_put p (1, 0) (allOf (0, 0))) as Q. unfold x. rewrite A1, A2.
      replace (put p (1, 0) (allOf (0, 0)) (2 * p)%nat) with 1 by (symmetry; exact (f_equal fst Q)).
      replace (put p (1, 0) (allOf (0, 0)) (2 * p + 1)%nat) with 0 by (symmetry; exact (f_equal snd Q)).
      cbn [c pDzc]; split; ring. }
    destruct X1 as [X1 X2]. generalize dependent x. intros x X1 X2.
    unfold pairOf. rewrite N1, N2. pose proof (pairOf_put p (1, 1) (allOf (0, 0))) as Q.
    set (m := put p (1, 1) (allOf (0, 0))) in *. clearbody m.
    assert (M1 : m (2 * p)%nat = 1) by exact (f_equal fst Q). assert (M2 : m (2 * p + 1)%nat = 1) by exact (f_equal snd Q).
    assert (D1 : dotRho Double AVX512 m x (2 * p)%nat = 2 * (m (2 * p)%nat * x (2 * p)%nat)).
    { clear -Hp. destruct p as [|[|[|[|p]]]]; try lia; cbv -[Rplus Rmult IZR]; ring. }
    assert (D2 : dotRho Double AVX512 m x (2 * p + 1)%nat = m (2 * p)%nat * x (2 * p)%nat + m (2 * p + 1)%nat * x (2 * p + 1)%nat).
    { clear -Hp. destruct p as [|[|[|[|p]]]]; try lia; cbv -[Rplus Rmult IZR]; ring. }
    rewrite D1, D2, X1, X2, M1, M2. unfold sq, dot; cbn [fst snd]. f_equal; field. }
  specialize (F PQ1 QCD0 NoDamp [Visit c (allOf (0, 0)) (allOf (0, 0)) (allOf (0, 0))] (1, 1) (1, 0)).
  cbn [visits vParms vLap vM vV fst snd] in F. rewrite E, W in F.
  destruct (F _ _ eq_refl ltac:(discriminate)) as [a [b [_ B]]]. unfold times in B. cbn [fst snd] in B.
  injection B as B1 B2. lra.
Qed.
Theorem phase_kept_iff : forall k P I p, (p < lanesOf P I)%nat -> (keepsPhase k P I p <-> rhoSummed P I p).
Proof.
  intros k P I p Hp. split; [|apply phase_kept_partial; exact Hp].
  intros F -> ->. destruct (lt_dec p 2) as [|A]; [assumption|]. exfalso.
  apply (phase_kept_refuted k p); [cbn in Hp; lia | exact F].
Qed.
Example phase_kept_case : exists m' x',
  visits Fused Single AVX (Pot PQ1 QCD1 NoDamp EvolRho) 1
    [Visit (Parms 2 1 1 0 0 0 0 1 1) (allOf (3, 0)) (allOf (5, 5)) (allOf (7, 7)); Visit (Parms 3 1 1 0 0 0 0 1 1) (allOf (0, 0)) (allOf (5, 5)) (allOf (7, 7))]
    ((1, 1), (0, 2)) = Some (m', x') /\ m' <> (1, 1).
Proof.
  cbn [visits vParms vLap vM vV fst snd].
  assert (H : (1 < lanesOf Single AVX)%nat) by (cbn; lia).
  assert (N : forall c m lap x r r', m <> (0, 0) ->
    newVel Fused Single AVX (Pot PQ1 QCD1 NoDamp EvolRho) c 1 (put 1 m r) lap (put 1 x r')
    = Some (velPair Fused Single (Pot PQ1 QCD1 NoDamp EvolRho) c m (pairOf 1 lap) x)).
  { intros c m lap x r r' Hm. rewrite newVel_pair; try exact H; try (intros _; exact Logic.I); try (intros A; discriminate A).
    rewrite !pairOf_put, (not0_van _ Hm), andb_false_r. reflexivity. }
  rewrite N by (intros E; injection E; lra).
  assert (V : velPair Fused Single (Pot PQ1 QCD1 NoDamp EvolRho) (Parms 2 1 1 0 0 0 0 1 1) (1, 1) (pairOf 1 (allOf (3, 0))) (0, 2) = (9/2, 9/2)).
  { rewrite pairOf_allOf. unfold velPair, accelPair, basePair, rhoPair, kickPair, pqPair, pqCoef, dot, sq, dot.
    cbn [pEvol pDamp pPq pR pLam pRpp pDzc fst snd]. f_equal; field. }
  rewrite V. assert (F : newField (Parms 2 1 1 0 0 0 0 1 1) (1, 1) (9/2, 9/2) = (11/2, 11/2))
    by (unfold newField; cbn [pDzd fst snd]; f_equal; field).
  rewrite F. rewrite N by (intros E; injection E; lra).
  eexists. eexists. split; [reflexivity|]. rewrite pairOf_allOf.
  unfold newField, velPair, accelPair, basePair, rhoPair, kickPair, pqPair, pqCoef, dot, sq, dot.
  cbn [pEvol pDamp pPq pR pLam pRpp pDzc pDzd fst snd]. intros E; injection E; lra.
Qed.

Theorem only_angle_partial : forall P I p, (p < lanesOf P I)%nat ->
  forall s q c mel lap vel w0 w, P = Single \/ q <> QCDC ->
    newVel Fused P I (Pot s q NoDamp EvolAll) c p mel lap vel = Some w0 ->
    newVel Fused P I (Pot s q NoDamp EvolTheta) c p mel lap vel = Some w ->
    let m := pairOf p mel in
    dot m w = sq m * (pRp c + pRpp c * pDzc c) /\ cross m w = cross m w0.
Proof.
  intros P I p Hp s q c mel lap vel w0 w Hq E0 E.
  assert (G : forall e, goodCos P (Pot s q NoDamp e)) by (intros e A B; cbn in B; destruct Hq; congruence).
  rewrite newVel_pair in E0, E; try exact Hp; try apply G; try (intros A; discriminate A).
  assert (D : divides Fused P (Pot s q NoDamp EvolTheta) = true) by reflexivity. rewrite D in E.
  destruct (vanishes (pairOf p mel)) eqn:V; [discriminate|]. rewrite andb_false_r in E, E0.
  injection E as <-. injection E0 as <-. pose proof (vanishes_sq _ V) as S. cbv zeta.
  generalize dependent (pairOf p mel). intros m V S. generalize (pairOf p lap). intros l. generalize (pairOf p vel). intros x.
  assert (K : cross m (qcdPair Fused P (Pot s q NoDamp EvolAll) c m (pqPair s c m l))
            = cross m (qcdPair Fused P (Pot s q NoDamp EvolTheta) c m l)).
  { unfold qcdPair. cbn [pQcd]. unfold cosPair, pqPair, cross. cbn [pQcd fst snd].
    generalize (pqCoef s c (sq m) - pRpp c). intros t. destruct q, P; cbn [fst snd]; try ring. }
  unfold velPair, accelPair, basePair, rhoPair, kickPair. cbn [pEvol pDamp pPq].
  assert (C0 : forall a, cross m (fst a * pDzc c + fst x, snd a * pDzc c + snd x) = cross m a * pDzc c + cross m x)
    by (intros a; unfold cross; cbn [fst snd]; ring).
  rewrite C0, K. generalize (qcdPair Fused P (Pot s q NoDamp EvolTheta) c m l). intros a.
  unfold projPair. unfold sq, dot in S. unfold sq, dot, cross; cbn [fst snd]. split; field; lra.
Qed.
(** The modulus itself is not kept: in a static background it grows whenever the angle
    moves, by exactly the square of the displacement. *)
Theorem only_angle_modulus : forall P I p, (p < lanesOf P I)%nat ->
  forall s q c mel lap vel w, P = Single \/ q <> QCDC -> pRp c = 0 -> pRpp c = 0 ->
    newVel Fused P I (Pot s q NoDamp EvolTheta) c p mel lap vel = Some w ->
    sq (newField c (pairOf p mel) w) = sq (pairOf p mel) + pDzd c ^ 2 * sq w.
Proof.
  intros P I p Hp s q c mel lap vel w Hq Z1 Z2 E.
  assert (V : vanishes (pairOf p mel) = false).
  { unfold newVel in E. assert (D : divides Fused P (Pot s q NoDamp EvolTheta) = true) by reflexivity. rewrite D in E.
    destruct (vanishes (pairOf p mel)); [discriminate | reflexivity]. }
  destruct (only_angle_partial P I p Hp s q c mel lap vel _ w Hq (newVel_some Fused P I _ c p _ _ _ V) E) as [A _].
  rewrite Z1, Z2 in A. replace (sq (pairOf p mel) * (0 + 0 * pDzc c)) with 0 in A by ring.
  generalize dependent (pairOf p mel). intros m _ A. unfold newField, sq, dot in *. cbn [fst snd].
  replace ((fst w * pDzd c + fst m) * (fst w * pDzd c + fst m) + (snd w * pDzd c + snd m) * (snd w * pDzd c + snd m))
    with (fst m * fst m + snd m * snd m + pDzd c ^ 2 * (fst w * fst w + snd w * snd w)
          + 2 * pDzd c * (fst m * fst w + snd m * snd w)) by ring.
  rewrite A. ring.
Qed.
Theorem only_angle_keeps_modulus_refuted : exists c mel lap vel w,
  pRp c = 0 /\ pRpp c = 0 /\ newVel Fused Single SSE (Pot PQ1 QCD0 NoDamp EvolTheta) c 0 mel lap vel = Some w
  /\ sq (newField c (pairOf 0 mel) w) = 2 * sq (pairOf 0 mel).
Proof.
  set (c := Parms 1 0 0 0 0 0 0 1 1).
  assert (NZ : pairOf 0 (allOf (1, 0)) <> (0, 0)) by (rewrite pairOf_allOf; intros E; injection E; lra).
  exists c, (allOf (1, 0)), (allOf (0, 0)), (allOf (0, 1)). eexists.
  split; [reflexivity|]. split; [reflexivity|].
  assert (E := newVel_some Fused Single SSE (Pot PQ1 QCD0 NoDamp EvolTheta) c 0 _ (allOf (0, 0)) (allOf (0, 1)) (not0_van _ NZ)).
  split; [exact E|].
  rewrite (only_angle_modulus Single SSE 0 (lanes_pos _ _) PQ1 QCD0 c _ _ _ _ ltac:(left; reflexivity) eq_refl eq_refl E).
  assert (W : pairOf 0 (velocity Fused Single SSE (Pot PQ1 QCD0 NoDamp EvolTheta) c (allOf (1, 0)) (allOf (0, 0)) (allOf (0, 1))) = (0, 1)).
  { rewrite velocity_pair; try apply lanes_pos; try (intros A; discriminate A). rewrite !pairOf_allOf.
    unfold velPair, accelPair, basePair, rhoPair, kickPair, qcdPair, projPair, cross, sq, dot. cbn [pEvol pDamp pPq pQcd c pR pLam pRpp pRp pDzc fst snd].
    f_equal; field. }
  rewrite W, pairOf_allOf. unfold sq, dot. cbn [fst snd c pDzd]. ring.
Qed.
(** The low-memory kernel does not know this option. *)
Theorem lowmem_only_angle_refuted : forall P I, ~ onlyAngle Kick P I 0.
Proof.
  intros P I F. set (c := Parms 1 0 0 0 0 0 0 1 1).
  assert (NZ : pairOf 0 (allOf (1, 0)) <> (0, 0)) by (rewrite pairOf_allOf; intros E; injection E; lra).
  destruct (F PQ1 QCD0 c (allOf (1, 0)) (allOf (0, 0)) (allOf (1, 0)) _ _ (newVel_some Kick P I _ c 0 _ _ _ (not0_van _ NZ))
    (newVel_some Kick P I _ c 0 _ _ _ (not0_van _ NZ))) as [A _].
  rewrite velocity_pair in A; try apply lanes_pos; try (intros B; discriminate B); [|intros _ B; discriminate B].
  rewrite !pairOf_allOf in A. revert A.
  unfold velPair, accelPair, basePair, rhoPair, kickPair, qcdPair, pqPair, pqCoef, sq, dot.
  cbn [pEvol pDamp pPq pQcd c pR pLam pRpp pRp pDzc fst snd]. lra.
Qed.
Example only_angle_case : exists w0 w,
  newVel Fused Double AVX512 (Pot PQ3 QCD1 NoDamp EvolAll) (Parms 2 1 1 (1/3) (1/2) 0 0 1 1) 3 (allOf (2, 1)) (allOf (1, 1)) (allOf (3, 0)) = Some w0
  /\ newVel Fused Double AVX512 (Pot PQ3 QCD1 NoDamp EvolTheta) (Parms 2 1 1 (1/3) (1/2) 0 0 1 1) 3 (allOf (2, 1)) (allOf (1, 1)) (allOf (3, 0)) = Some w
  /\ dot (2, 1) w = 25/6 /\ cross (2, 1) w = -10.
Proof.
  assert (H : (3 < lanesOf Double AVX512)%nat) by (cbn; lia).
  assert (NZ : pairOf 3 (allOf (2, 1)) <> (0, 0)) by (rewrite pairOf_allOf; intros E; injection E; lra).
  set (c := Parms 2 1 1 (1/3) (1/2) 0 0 1 1).
  assert (E0 := newVel_some Fused Double AVX512 (Pot PQ3 QCD1 NoDamp EvolAll) c 3 _ (allOf (1, 1)) (allOf (3, 0)) (not0_van _ NZ)).
  assert (E := newVel_some Fused Double AVX512 (Pot PQ3 QCD1 NoDamp EvolTheta) c 3 _ (allOf (1, 1)) (allOf (3, 0)) (not0_van _ NZ)).
  eexists. eexists. split; [exact E0|]. split; [exact E|].
  destruct (only_angle_partial Double AVX512 3 H PQ3 QCD1 c _ _ _ _ _ ltac:(right; discriminate) E0 E) as [A B].
  cbv zeta in A, B. rewrite pairOf_allOf in A, B. rewrite A, B. split; [unfold sq, dot, c; cbn [fst snd pRp pRpp pDzc]; field|].
  rewrite velocity_pair; try exact H; try (intros X; discriminate X); [|intros _ X; discriminate X].
  rewrite !pairOf_allOf. unfold velPair, accelPair, basePair, rhoPair, kickPair, qcdPair, pqPair, zQ, cross.
  cbn [pEvol pDamp pPq pQcd fst snd]. generalize (pqCoef PQ3 c (sq (2, 1))). intros t. unfold c; cbn [pMa2 pR pRpp pDzc fst snd]. ring.
Qed.

Print Assumptions axion_mass_felt_iff.
Print Assumptions axion_mass_variant.
Print Assumptions cosine_vacuum_at_rest_refuted.
Print Assumptions kernels_agree_partial.
Print Assumptions single_agree_partial.
Print Assumptions double_agree_partial.
Print Assumptions two_well_kernels_agree_refuted.
Print Assumptions linear_precisions_agree_refuted.
Print Assumptions cosine_precisions_agree_refuted.
Print Assumptions lowmem_damping_agree_refuted.
Print Assumptions modulus_damped_iff.
Print Assumptions all_damped.
Print Assumptions damping_contracts.
Print Assumptions phase_kept_iff.
Print Assumptions only_angle_partial.
Print Assumptions only_angle_modulus.
Print Assumptions only_angle_keeps_modulus_refuted.
Print Assumptions lowmem_only_angle_refuted.
