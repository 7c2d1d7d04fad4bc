(** Theorems about the physics of a continued run (C56, C57, C58). *)
From Coq Require Import NArith QArith List Bool Lia Lqa String.
From Verif Require Import FlagModel HeadModel HeadSpec HeadProofs.
Import ListNotations.
Local Open Scope Q_scope.

Lemma unset_self : isUnset unset = true. Proof. reflexivity. Qed.
Lemma pick_set (l : list copt) (f : copt -> option Q) (u : bool) (v d s : Q) :
  u = given (asked f l) -> v = orSaved (asked f l) d -> (forall x, asked f l = Some x -> isUnset x = false) ->
  (if isUnset (orElse u v unset) then s else orElse u v unset) = orSaved (asked f l) s.
Proof.
  intros -> -> H. destruct (asked f l) as [x|] eqn:E; cbn [given orElse orSaved].
  - rewrite (H x eq_refl). reflexivity.
  - reflexivity.
Qed.

(** ** Parameters *)
(** Nothing but a refused value stops the continuation *)
Theorem continue_accepts l c t : continue l c t <> None <-> (forall o, In o l -> optOk o = true).
Proof.
  unfold continue, parse. rewrite <- forallb_forall. destruct (forallb optOk l) eqn:F; [|split; intros H; [congruence|discriminate]].
  split; [reflexivity|]. intros _. unfold readHeader.
  destruct (isUnset _); [|discriminate]. destruct t; cbn; discriminate.
Qed.

(** Each of these is what the command line asks for, else what was saved. *)
Theorem parameters_continue_partial l c t c' :
  continue l c t = Some c' ->
  cSize c' = orSaved (asked oSize l) (cSize c) /\
  cLambda c' = orSaved (asked oLambda l) (cLambda c) /\
  cI3 c' = orSaved (asked oI3 l) (cI3 c) /\
  cGamma c' = orSaved (asked oGamma l) (cGamma c) /\
  cNQcd c' = orSaved (asked oNQcd l) (cNQcd c) /\
  (asked oNQcd l = None -> cNQcdr c' = cNQcdr c) /\
  (asked oNQcd l <> None -> cNQcdr c' = cNQcd c') /\
  (asked oLambda l = None -> (t = LFixed -> cLz2e c = 0) -> cLz2e c' = cLz2e c) /\
  (asked oLambda l <> None -> cLz2e c' = 0).
Proof.
  unfold continue, parse. destruct (forallb optOk l) eqn:F; [|discriminate].
  pose proof (options_inv l) as I. set (g0 := fold_left applyOpt l globals0) in *. clearbody g0.
  pose proof (switch_same g0) as S. cbv zeta in S. set (g := switchOff g0) in *. clearbody g.
  destruct S as (_ & _ & _ & _ & _ & S1 & S2 & S3 & S4 & _ & _ & _ & _ & S7 & S8 & S9 & S10 & S11 & S12 & _ & _).
  destruct I as [_ _ _ _ _ [A1 A2] [B1 B2] _ [C1 C2] [D1 D2] [E1 E2] _ _ _].
  unfold readHeader. set (k := fromCommandLine g).
  assert (HL : isUnset (cLambda k) = negb (given (asked oLambda l))).
  { unfold k, fromCommandLine. cbn [cLambda]. rewrite S9, S10, D1, D2.
    destruct (asked oLambda l) as [x|] eqn:E; cbn; [apply (lam_ok _ _ F E)|reflexivity]. }
  assert (HS : (if Qeq_bool (cSize k) 0 then cSize c else cSize k) = orSaved (asked oSize l) (cSize c)).
  { unfold k, fromCommandLine. cbn [cSize]. rewrite S11, S12, E1, E2.
    destruct (asked oSize l) as [x|] eqn:E; cbn [given orElse orSaved]; [rewrite (size_ok _ _ F E); reflexivity|reflexivity]. }
  pose proof (pick_set l oLambda (gULam g) (gLam g) 25000 (cLambda c) ltac:(congruence) ltac:(congruence) (fun x => lam_ok l x F)) as PL.
  pose proof (pick_set l oI3 (gUI3 g) (gI3 g) 1 (cI3 c) ltac:(congruence) ltac:(congruence) (fun x => i3_ok l x F)) as PI.
  pose proof (pick_set l oGamma (gUGam g) (gGam g) 0 (cGamma c) ltac:(congruence) ltac:(congruence) (fun x => gam_ok l x F)) as PG.
  pose proof (pick_set l oNQcd (gUQcd g) (gNQcd g) 7 (cNQcd c) ltac:(congruence) ltac:(congruence) (fun x => nq_ok l x F)) as PN.
  assert (HN : asked oNQcd l = None -> isUnset (cNQcd k) = true).
  { intros E. unfold k. cbn. rewrite S7, C1, E. reflexivity. }
  intros H.
  assert (R : exists lz mk fr pt zt zr, c' = mkC (if Qeq_bool (cSize k) 0 then cSize c else cSize k)
      (if isUnset (cLambda k) then cLambda c else cLambda k) lz (if isUnset (cI3 k) then cI3 c else cI3 k)
      (if isUnset (cGamma k) then cGamma c else cGamma k) (cDec k) (if isUnset (cNQcd k) then cNQcd c else cNQcd k)
      (if isUnset (cNQcd k) then cNQcdr c else cNQcdr k) zt zr pt fr mk /\
      (asked oLambda l = None -> (t = LFixed -> cLz2e c = 0) -> lz = cLz2e c) /\ (asked oLambda l <> None -> lz = 0)).
  { destruct (isUnset (cLambda k)) eqn:EL.
    - assert (EN : asked oLambda l = None) by (destruct (asked oLambda l); [discriminate HL|reflexivity]).
      destruct t; cbn in H; injection H as <-; do 6 eexists; (split; [reflexivity|]); (split; [intros _ T|congruence]); auto.
      symmetry. apply T. reflexivity.
    - injection H as <-. do 6 eexists; split; [reflexivity|]. split; intros E; [rewrite E in HL; discriminate|].
      unfold k, fromCommandLine. cbn [cLz2e]. rewrite S9, D1. destruct (asked oLambda l); [reflexivity|congruence]. }
  destruct R as (lz & mk & fr & pt & zt & zr & -> & RZ). cbn [cSize cLambda cI3 cGamma cNQcd cNQcdr cLz2e].
  split; [exact HS|]. split; [exact PL|]. split; [exact PI|]. split; [exact PG|]. split; [exact PN|]. split; [|split; [|exact RZ]].
  - intros E. rewrite (HN E). reflexivity.
  - intros E. destruct (asked oNQcd l) as [x|] eqn:EX; [|congruence].
    replace (isUnset (cNQcd k)) with false; [reflexivity|]. symmetry. unfold k. cbn. rewrite S7, S8, C1, C2. apply (nq_ok _ _ F EX).
Qed.

(** The two thresholds too, unless what is asked for (or the default of what is not) is in the wrong order *)
Theorem thresholds_continue_partial l c t c' :
  continue l c t = Some c' ->
  orSaved (asked oRc l) 1000 <= orSaved (asked oRcOff l) 1000000000000000000000000000000 ->
  cZth c' = orSaved (asked oRc l) (cZth c) /\ cZrs c' = orSaved (asked oRcOff l) (cZrs c).
Proof.
  unfold continue, parse. destruct (forallb optOk l) eqn:F; [|discriminate]. intros H L.
  pose proof (options_inv l) as I. set (g := fold_left applyOpt l globals0) in *. clearbody g.
  destruct I as [_ _ _ _ _ _ _ _ _ _ _ [Z1 Z2] [R1 R2] _].
  assert (E : switchOff g = g).
  { unfold switchOff. rewrite Z2, R2. apply Qle_bool_iff in L. rewrite L. reflexivity. }
  rewrite E in H.
  pose proof (pick_set l oRc _ _ 1000 (cZth c) Z1 Z2 (fun x => rc_ok l x F)) as PZ.
  pose proof (pick_set l oRcOff _ _ _ (cZrs c) R1 R2 (fun x => rcoff_ok l x F)) as PR.
  unfold readHeader in H. destruct (isUnset (cLambda _)); [destruct t; cbn in H|]; injection H as <-; split; assumption.
Qed.
(** A wrong order with a default is enough to lose what was asked for: the growth of the mass is to be switched on
    again at R = x, the saved run stops it at a smaller R, and yet it is never switched on again *)
Theorem thresholds_continue_refuted x c t : 0 < x < 1000 -> cZth c < x ->
  exists c', continue [OZrs x] c t = Some c' /\ cZth c' = cZth c /\ cZrs c' = 100000000000000000000 /\ ~ cZrs c' == x.
Proof.
  intros [X0 X1] _. unfold continue, parse. cbn [forallb optOk andb].
  replace (negb (Qle_bool x 0)) with true.
  2:{ symmetry. apply negb_true_iff, not_true_iff_false. rewrite Qle_bool_iff. lra. }
  cbn [andb fold_left applyOpt].
  replace (switchOff (setZrs globals0 x)) with
    (mkG false 2 1024 0 0 false 1 false 0 false (-1) 1 false false 7 false 25000 false 4 false offQ true offQ).
  2:{ unfold switchOff. cbn [gZth gZrs setZrs globals0]. replace (Qle_bool 1000 x) with false; [reflexivity|].
      symmetry. apply not_true_iff_false. rewrite Qle_bool_iff. lra. }
  destruct t; eexists; (split; [reflexivity|]); cbn; repeat split; try reflexivity; unfold offQ; lra.
Qed.
(** The expansion of the universe is neither the saved one nor the one asked for: it is 1, or 0 with --mink *)
Theorem expansion_continue_refuted l c t c' : continue l c t = Some c' ->
  cFrw c' = (if existsb (fun o => match o with OMink => true | _ => false end) l then 0 else 1).
Proof.
  unfold continue, parse. destruct (forallb optOk l) eqn:F; [|discriminate]. intros H.
  pose proof (options_inv l) as I. destruct I as [_ _ _ _ _ _ _ _ _ _ _ _ _ M]. rewrite <- M. clear M.
  pose proof (switch_same (fold_left applyOpt l globals0)) as S. cbv zeta in S.
  destruct S as (_ & _ & _ & _ & _ & _ & _ & _ & _ & _ & _ & _ & SM & _). rewrite <- SM.
  set (g := switchOff _) in *. clearbody g. unfold readHeader in H.
  cbn [fromCommandLine cFrw cMink] in H.
  destruct (isUnset (cLambda _)); [destruct t; cbn in H|]; injection H as <-; cbn [cFrw];
    destruct (gUMink g); cbn [orElse]; try reflexivity;
    match goal with |- context [if negb ?b && _ then _ else _] => destruct b end; reflexivity.
Qed.
(** The decay time of the damping is not saved *)
Theorem dectime_continue_refuted c t : exists c', continue [] c t = Some c' /\ cDec c' = -1.
Proof. destruct t; eexists; split; reflexivity. Qed.

(** ** Potential *)
(** A fresh run has the last potential asked for of each family, the default where none was, and at most one way of
    evolving and one of damping *)
Theorem fresh_potential l c : startRun l = Some c -> cPot c = potWord (askedPot l).
Proof.
  unfold startRun, parse. destruct (forallb optOk l); [|discriminate]. cbn [option_map]. intros H. injection H as <-.
  cbn [cPot freshCosmos]. rewrite <- (finalPot_fresh l _ (options_inv l)).
  pose proof (switch_same (fold_left applyOpt l globals0)) as S. cbv zeta in S.
  destruct S as (_ & S1 & S2 & S3 & S4 & _). unfold finalPot. rewrite S1, S2, S3, S4. reflexivity.
Qed.

(** what readPot makes of a saved word when the command line says nothing *)
Lemma pot_silent (p : potChoice) h i3 : Qeq_bool i3 0 = false ->
  hVqcd h = vqcdText (potWord p) -> hVpq h = vpqText (potWord p) -> hDamp h = dampText (potWord p) -> hEvol h = evolText (potWord p) ->
  (readPot h i3 0 = potWord p <->
   qcd p <> None /\ pq p = Some PQ1 /\ evTheta p = false /\ ~ (dRho p = true /\ dAll p = true)).
Proof.
  intros Z H1 H2 H3 H4. unfold readPot. rewrite Z, H1, H2, H3, H4.
  destruct p as [[q|] [p|] et er dr da]; try (destruct q); try (destruct p); destruct et, er, dr, da; cbn [qcd pq evTheta dRho dAll];
    (split; [intros H; vm_compute in H; first [discriminate H | repeat split; try discriminate; intros [? ?]; discriminate]
            |intros (K1 & K2 & K3 & K4);
             first [exfalso; first [discriminate K2 | discriminate K3 | apply K1; reflexivity | apply K4; split; reflexivity] | reflexivity]]).
Qed.

Lemma silent_pot l : existsb saysPot l = false -> forall g, inv l g -> gUPot g = false.
Proof. intros H g I. rewrite (iPot _ _ I). exact H. Qed.

(** With a silent command line a saved potential comes back exactly if it is one of the first Peccei-Quinn potential, with
    some QCD potential, not of theta alone and not damped in two ways *)
Theorem potential_continue l c t c' p :
  existsb saysPot l = false -> continue l c t = Some c' -> cPot c = potWord p -> ~ cI3 c' == 0 ->
  (cPot c' = cPot c <-> qcd p <> None /\ pq p = Some PQ1 /\ evTheta p = false /\ ~ (dRho p = true /\ dAll p = true)).
Proof.
  intros NP H EP NI. pose proof H as HC. unfold continue, parse in H. destruct (forallb optOk l); [|discriminate].
  pose proof (silent_pot l NP _ (options_inv l)) as UP.
  pose proof (switch_same (fold_left applyOpt l globals0)) as S. cbv zeta in S. destruct S as (S & _).
  set (g := switchOff _) in *. clearbody g. rewrite UP in S.
  assert (P : cPot c' = readPot (writeHeader c t) (cI3 c') 0).
  { unfold readHeader in H. replace (cPot (fromCommandLine g)) with 0%N in H by (cbn; rewrite S; reflexivity).
    destruct (isUnset (cLambda _)); [destruct t; cbn [String.eqb] in H|]; cbn in H; injection H as <-; reflexivity. }
  rewrite P, EP. apply pot_silent.
  - apply not_true_iff_false. rewrite Qeq_bool_iff. exact NI.
  - cbn. rewrite EP. reflexivity.
  - cbn. rewrite EP. reflexivity.
  - cbn. rewrite EP. reflexivity.
  - cbn. rewrite EP. reflexivity.
Qed.

(** Started with any options and continued any number of times without, a run keeps its potential if it is of the
    first Peccei-Quinn kind and not of theta alone *)
Fixpoint continued (n : nat) (c : cosmos) : option cosmos :=
  match n with
  | O => Some c
  | S n => match continued n c with Some c1 => continue [] c1 LFixed | None => None end
  end.
Theorem potential_history l n c :
  startRun l = Some c -> ~ cI3 c == 0 -> orSaved (asked oPq l) PQ1 = PQ1 -> asked oEvol l <> Some false ->
  exists c', continued n c = Some c' /\ cPot c' = cPot c /\ cI3 c' = cI3 c.
Proof.
  intros HS NI PQ EV. induction n as [|n (c1 & E1 & P1 & I1)]; [exists c; auto|].
  cbn [continued]. rewrite E1.
  destruct (continue [] c1 LFixed) as [c2|] eqn:E2.
  2:{ exfalso. apply (continue_accepts [] c1 LFixed); [intros o []|exact E2]. }
  exists c2. split; [reflexivity|].
  destruct (parameters_continue_partial [] c1 LFixed c2 E2) as (_ & _ & I2 & _). cbn in I2.
  split; [|congruence]. rewrite <- P1.
  pose proof (fresh_potential l c HS) as W.
  apply (potential_continue [] c1 LFixed c2 (askedPot l) eq_refl E2); [congruence|rewrite I2, I1; exact NI|].
  cbn. rewrite PQ. repeat split; try discriminate.
  - destruct (asked oEvol l) as [[|]|]; auto. contradiction.
  - destruct (asked oDamp l) as [[|]|]; cbn; intros [? ?]; discriminate.
Qed.

(** Runs with the second or third Peccei-Quinn potential, or of theta alone, lose this when continued: whatever else
    was asked for *)
Theorem potential_history_refuted l c t c' :
  startRun l = Some c -> ~ cI3 c == 0 -> (orSaved (asked oPq l) PQ1 <> PQ1 \/ asked oEvol l = Some false) ->
  continue [] c t = Some c' -> cPot c' <> cPot c.
Proof.
  intros HS NI D HC E. destruct (parameters_continue_partial [] c t c' HC) as (_ & _ & I2 & _). cbn in I2.
  apply (potential_continue [] c t c' (askedPot l) eq_refl HC (fresh_potential l c HS)) in E; [|rewrite I2; exact NI].
  destruct E as (_ & E2 & E3 & _). cbn in E2, E3. destruct D as [D|D].
  - injection E2 as E2. contradiction.
  - rewrite D in E3. discriminate.
Qed.

(** Any option about the potential brings in the defaults of the families it does not mention: a run continued with
    nothing but a damping, whatever its potential was, goes on with the first QCD and Peccei-Quinn potentials *)
Theorem potential_option_refuted x c t c' :
  0 <= x -> continue [OGam x] c t = Some c' -> ~ cI3 c == 0 ->
  band (cPot c') V_QCD = qcdCode QCD1 /\ band (cPot c') V_PQ = pqCode PQ1.
Proof.
  intros X H NI. unfold continue, parse in H. cbn [forallb optOk andb] in H.
  replace (Qle_bool 0 x) with true in H by (symmetry; apply Qle_bool_iff; exact X).
  cbn [andb fold_left applyOpt setGam setPot globals0 gQcd gPq gEvol gDamp gUI3 gI3 gUGam gGam gUDec gDec gFrw gUMink gUQcd gNQcd gULam gLam
       gUSize gSize gUZth gZth gUZrs gZrs] in H.
  change (switchOff _) with (mkG true 2 1024 0 V_DAMP_RHO false 1 true x false (-1) 1 false false 7 false 25000 false 4 false 1000 false
     (1000000000000000000000000000000)) in H.
  assert (P : cPot c' = readPot (writeHeader c t) (cI3 c) (bor 2 (bor 1024 V_DAMP_RHO))).
  { unfold readHeader in H. destruct t; cbn in H; injection H as <-; reflexivity. }
  rewrite P. unfold readPot. replace (Qeq_bool (cI3 c) 0) with false.
  2:{ symmetry. apply not_true_iff_false. rewrite Qeq_bool_iff. exact NI. }
  cbn [hEvol writeHeader]. unfold evolText. destruct (band (cPot c) V_EVOL_RHO =? V_EVOL_RHO)%N; split; reflexivity.
Qed.

(** The parts of the potential that are asked for are had *)
Lemma asked_says {X} (f : copt -> option X) l x :
  asked f l = Some x -> (forall o, In o l -> f o <> None -> saysPot o = true) -> existsb saysPot l = true.
Proof.
  intros A H. destruct (asked_in f l x A) as (o & I & F). apply existsb_exists. exists o. split; [exact I|]. apply H; [exact I|]. congruence.
Qed.
Theorem potential_asked l c t c' :
  continue l c t = Some c' -> ~ cI3 c' == 0 -> (forall x, In (OInd3 x) l -> ~ x == 0) ->
  (forall q, asked oQcd l = Some q -> band (cPot c') V_QCD = qcdCode q) /\
  (forall p, asked oPq l = Some p -> band (cPot c') V_PQ = pqCode p) /\
  (forall b, asked oEvol l = Some b -> band (cPot c') V_EVOL = if b then V_EVOL_RHO else V_EVOL_THETA) /\
  (forall b, asked oDamp l = Some b -> band (cPot c') V_DAMP = if b then V_DAMP_RHO else V_DAMP_ALL).
Proof.
  intros H NI NZ. unfold continue, parse in H. destruct (forallb optOk l); [|discriminate].
  pose proof (options_inv l) as I. pose proof (finalPot_fresh l _ I) as FP.
  pose proof (switch_same (fold_left applyOpt l globals0)) as S. cbv zeta in S. destruct S as (S & S1 & S2 & S3 & S4 & _).
  rewrite (iPot _ _ I) in S.
  assert (FP' : finalPot (switchOff (fold_left applyOpt l globals0)) = potWord (askedPot l)).
  { rewrite <- FP. unfold finalPot. rewrite S1, S2, S3, S4. reflexivity. }
  clear S1 S2 S3 S4 FP I. set (g := switchOff _) in *. clearbody g.
  assert (P : existsb saysPot l = true -> cPot c' = readPot (writeHeader c t) (cI3 c') (potWord (askedPot l))).
  { intros U. rewrite U in S. unfold readHeader in H.
    replace (cPot (fromCommandLine g)) with (potWord (askedPot l)) in H
      by (unfold fromCommandLine; cbn [cPot]; rewrite S; symmetry; exact FP').
    destruct (isUnset (cLambda _)); [destruct t; cbn [String.eqb] in H|]; cbn in H; injection H as <-; reflexivity. }
  assert (Z : Qeq_bool (cI3 c') 0 = false) by (apply not_true_iff_false; rewrite Qeq_bool_iff; exact NI).
  unfold readPot in P. rewrite Z in P.
  assert (DV : dampOf (hDamp (writeHeader c t)) = 0%N \/ dampOf (hDamp (writeHeader c t)) = V_DAMP_RHO \/ dampOf (hDamp (writeHeader c t)) = V_DAMP_ALL).
  { cbn [hDamp writeHeader]. unfold dampText. destruct (band (cPot c) V_DAMP =? V_DAMP_RHO)%N; [right; left; reflexivity|].
    destruct (band (cPot c) V_DAMP =? V_DAMP_ALL)%N; [right; right; reflexivity|left; reflexivity]. }
  assert (EV : evolOf (hEvol (writeHeader c t)) = 0%N \/ evolOf (hEvol (writeHeader c t)) = V_EVOL_RHO).
  { cbn [hEvol writeHeader]. unfold evolText. destruct (band (cPot c) V_EVOL_RHO =? V_EVOL_RHO)%N; [right; reflexivity|left; reflexivity]. }
  set (dd := dampOf _) in *. set (ee := evolOf _) in *. clearbody dd ee. unfold askedPot in P.
  assert (QS : forall q, asked oQcd l = Some q -> existsb saysPot l = true).
  { intros q A. apply (asked_says oQcd l q A). intros o O N. destruct o; cbn in *; try reflexivity; try congruence.
    exfalso. apply (NZ x O). apply Qeq_bool_iff. destruct (Qeq_bool x 0); congruence. }
  assert (PS : forall q, asked oPq l = Some q -> existsb saysPot l = true).
  { intros q A. apply (asked_says oPq l q A). intros o O N. destruct o; cbn in *; congruence. }
  assert (ES : forall q, asked oEvol l = Some q -> existsb saysPot l = true).
  { intros q A. apply (asked_says oEvol l q A). intros o O N. destruct o; cbn in *; congruence. }
  assert (DS : forall q, asked oDamp l = Some q -> existsb saysPot l = true).
  { intros q A. apply (asked_says oDamp l q A). intros o O N. destruct o; cbn in *; congruence. }
  clear - P DV EV QS PS ES DS.
  assert (G : existsb saysPot l = true ->
    band (cPot c') V_QCD = qcdCode (orSaved (asked oQcd l) QCD1) /\ band (cPot c') V_PQ = pqCode (orSaved (asked oPq l) PQ1) /\
    (forall b, asked oEvol l = Some b -> band (cPot c') V_EVOL = if b then V_EVOL_RHO else V_EVOL_THETA) /\
    (forall b, asked oDamp l = Some b -> band (cPot c') V_DAMP = if b then V_DAMP_RHO else V_DAMP_ALL)).
  { intros U. rewrite (P U). clear - DV EV.
    generalize (orSaved (asked oQcd l) QCD1) (orSaved (asked oPq l) PQ1) (asked oEvol l) (asked oDamp l).
    intros q p eo od.
    assert (I1 : In dd [0%N; V_DAMP_RHO; V_DAMP_ALL]) by (destruct DV as [->|[->| ->]]; cbn; auto).
    assert (I2 : In ee [0%N; V_EVOL_RHO]) by (destruct EV as [->| ->]; cbn; auto). clear DV EV.
    match goal with |- ?X /\ _ => match X with context [band ?W V_QCD] => set (w := W) end end.
    assert (K : (band w V_QCD =? qcdCode q)%N && (band w V_PQ =? pqCode p)%N &&
                match eo with Some b => (band w V_EVOL =? if b then V_EVOL_RHO else V_EVOL_THETA)%N | None => true end &&
                match od with Some b => (band w V_DAMP =? if b then V_DAMP_RHO else V_DAMP_ALL)%N | None => true end = true).
    { unfold w. clear w. revert ee I2 dd I1.
      destruct q, p, eo as [[|]|], od as [[|]|]; cbn [In]; intros ee [<-|[<-|[]]] dd [<-|[<-|[<-|[]]]]; vm_compute; reflexivity. }
    clearbody w. repeat (apply andb_true_iff in K; destruct K as [K ?K]). apply N.eqb_eq in K, K2.
    split; [exact K|]. split; [exact K2|]. split; intros b ->; apply N.eqb_eq; assumption. }
  split; [|split; [|split]].
  - intros q A. destruct (G (QS q A)) as (G1 & _). rewrite A in G1. exact G1.
  - intros q A. destruct (G (PS q A)) as (_ & G1 & _). rewrite A in G1. exact G1.
  - intros b A. destruct (G (ES b A)) as (_ & _ & G1 & _). exact (G1 b A).
  - intros b A. destruct (G (DS b A)) as (_ & _ & _ & G1). exact (G1 b A).
Qed.

(** ** How the field was made *)
Theorem conf_type_restored c :
  (forall junk old, readConfType c junk old = c) <-> In c [CSmooth; CKmax; CVilgor; CTkachev; CLola; CCole; CSpax; CThermal].
Proof.
  split.
  - intros H. destruct c; cbn; auto 12; exfalso.
    + specialize (H "Smooth"%string CNone). discriminate H.
    + specialize (H ""%string CNone). discriminate H.
    + specialize (H ""%string CNone). discriminate H.
    + specialize (H ""%string CNone). discriminate H.
    + specialize (H ""%string CNone). discriminate H.
  - intros H junk old. cbn in H. repeat (destruct H as [<-|H]; [reflexivity|]). destruct H.
Qed.
Theorem sub_type_restored s : (forall old, readSubType s old = s) <-> ~ In s [SAxiton; SThetaVel; SVelRand].
Proof.
  split.
  - intros H I. cbn in I. repeat (destruct I as [<-|I]; [specialize (H SRand); discriminate H|]). destruct I.
  - intros H old. destruct s; try reflexivity; exfalso; apply H; cbn; auto.
Qed.
(** One of the names does not fit the buffer it is printed into *)
Theorem sub_text_fits_refuted s : bufferOf (subText s) smStrSize = None <-> s = SParres.
Proof. destruct s; cbn; split; intros H; try reflexivity; try discriminate. Qed.

(** ** Cases *)
Example ex_asked :
  match startRun [OPq PQ3; OGamAll 2] with
  | Some c => match continue [OQcdV; OPq PQ2; OOnlyTheta] c LFixed with
              | Some c' => ((cPot c' =? bor (bor 4 2048) (bor V_EVOL_THETA V_DAMP_ALL))%N && negb (Qeq_bool (cI3 c') 0)) = true
              | None => False end
  | None => False end.
Proof. vm_compute. reflexivity. Qed.
Definition exOpts := [OQcdC; OGam (1#10); OOnlyRho; OFrw 2; ODectime 5; OInd3 3; OZth 7; OQcdExp 4].
Example ex_start : exists c, startRun exOpts = Some c /\ cPot c = bor (bor (bor 32 1024) V_EVOL_RHO) V_DAMP_RHO /\ cFrw c = 2 /\ ~ cI3 c == 0.
Proof. eexists. split; [reflexivity|]. split; [reflexivity|]. split; [reflexivity|]. cbn. lra. Qed.
Example ex_continued : exists c c', startRun exOpts = Some c /\ continue [OInd3 2] c LFixed = Some c' /\
  cPot c' = cPot c /\ cI3 c' = 2 /\ cZth c' = 7 /\ cNQcd c' = 4 /\ cGamma c' = (1#10) /\ cFrw c' = 1 /\ cDec c' = -1.
Proof. do 2 eexists. repeat split. Qed.
Example ex_lost : exists c c', startRun [OPq PQ2] = Some c /\ continue [] c LFixed = Some c' /\ cPot c = bor 2 2048 /\ cPot c' = bor 2 1024.
Proof. do 2 eexists. repeat split. Qed.
Example ex_damped : exists c c', startRun [OQcdC] = Some c /\ continue [OGam 1] c LFixed = Some c' /\
  band (cPot c) V_QCD = 32%N /\ band (cPot c') V_QCD = 2%N.
Proof. do 2 eexists. repeat split. Qed.

Print Assumptions continue_accepts. Print Assumptions parameters_continue_partial. Print Assumptions thresholds_continue_partial.
Print Assumptions thresholds_continue_refuted. Print Assumptions expansion_continue_refuted. Print Assumptions dectime_continue_refuted.
Print Assumptions fresh_potential. Print Assumptions potential_continue. Print Assumptions potential_history.
Print Assumptions potential_history_refuted. Print Assumptions potential_option_refuted. Print Assumptions potential_asked.
Print Assumptions conf_type_restored. Print Assumptions sub_type_restored. Print Assumptions sub_text_fits_refuted.
