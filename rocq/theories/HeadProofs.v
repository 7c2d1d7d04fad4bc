(** Lemmas about the command line and the header. *)
From Coq Require Import NArith QArith List Bool Lia Lqa.
From Verif Require Import FlagModel HeadModel HeadSpec.
Import ListNotations.
Local Open Scope Q_scope.

(** What the options leave in the variables *)
Definition evCode (o : option bool) : N := match o with Some true => V_EVOL_RHO | Some false => V_EVOL_THETA | None => 0%N end.
Definition dpCode (o : option bool) : N := match o with Some true => V_DAMP_RHO | Some false => V_DAMP_ALL | None => 0%N end.
Definition given {X} (o : option X) : bool := match o with Some _ => true | None => false end.
Record inv (l : list copt) (g : globals) : Prop := {
  iPot : gUPot g = existsb saysPot l;
  iQ : gQcd g = qcdCode (orSaved (asked oQcd l) QCD1);
  iP : gPq g = pqCode (orSaved (asked oPq l) PQ1);
  iE : gEvol g = evCode (asked oEvol l);
  iD : gDamp g = dpCode (asked oDamp l);
  iI3 : gUI3 g = given (asked oI3 l) /\ gI3 g = orSaved (asked oI3 l) 1;
  iGam : gUGam g = given (asked oGamma l) /\ gGam g = orSaved (asked oGamma l) 0;
  iDec : gUDec g = given (asked oDec l) /\ gDec g = orSaved (asked oDec l) (-1);
  iNQ : gUQcd g = given (asked oNQcd l) /\ gNQcd g = orSaved (asked oNQcd l) 7;
  iLam : gULam g = given (asked oLambda l) /\ gLam g = orSaved (asked oLambda l) 25000;
  iSize : gUSize g = given (asked oSize l) /\ gSize g = orSaved (asked oSize l) 4;
  iZth : gUZth g = given (asked oRc l) /\ gZth g = orSaved (asked oRc l) 1000;
  iZrs : gUZrs g = given (asked oRcOff l) /\ gZrs g = orSaved (asked oRcOff l) 1000000000000000000000000000000;
  iMink : gUMink g = existsb (fun o => match o with OMink => true | _ => false end) l }.

Lemma asked_snoc {X} (f : copt -> option X) l o : asked f (l ++ [o]) = match f o with Some x => Some x | None => asked f l end.
Proof. unfold asked. rewrite fold_left_app. reflexivity. Qed.

Lemma options_inv l : inv l (fold_left applyOpt l globals0).
Proof.
  induction l as [|o l IH] using rev_ind.
  - constructor; cbn; auto.
  - rewrite fold_left_app. cbn [fold_left]. destruct IH.
    set (g := fold_left applyOpt l globals0) in *. clearbody g.
    destruct o; constructor; rewrite ?asked_snoc, ?existsb_app; cbn [applyOpt existsb saysPot oQcd oPq oEvol oDamp oI3 oGamma oDec oNQcd oLambda oSize oRc oRcOff];
      rewrite ?orb_false_r, ?orb_true_r;
      try (destruct (Qeq_bool x 0)); cbn; auto.
Qed.

Lemma asked_in {X} (f : copt -> option X) l x : asked f l = Some x -> exists o, In o l /\ f o = Some x.
Proof.
  induction l as [|o l IH] using rev_ind; [discriminate|]. rewrite asked_snoc. destruct (f o) as [y|] eqn:E; intros H.
  - injection H as ->. exists o. split; [apply in_or_app; right; left; reflexivity|exact E].
  - destruct (IH H) as (o' & I & F). exists o'. split; [apply in_or_app; left; exact I|exact F].
Qed.

(** accepted values are never taken for absent ones *)
Lemma nonneg_set x : Qle_bool 0 x = true -> isUnset x = false.
Proof.
  intros H. apply Qle_bool_iff in H. unfold isUnset. apply not_true_iff_false. intros E. apply Qeq_bool_iff in E.
  unfold unset in E. lra.
Qed.
Lemma pos_set x : negb (Qle_bool x 0) = true -> isUnset x = false /\ Qeq_bool x 0 = false.
Proof.
  intros H. apply negb_true_iff, not_true_iff_false in H. rewrite Qle_bool_iff in H.
  assert (0 < x) by lra. split; apply not_true_iff_false; intros E; apply Qeq_bool_iff in E; unfold unset in E; lra.
Qed.

Lemma ok_of {X} (f : copt -> option X) l x : forallb optOk l = true -> asked f l = Some x -> exists o, optOk o = true /\ f o = Some x.
Proof. intros H A. destruct (asked_in f l x A) as (o & I & F). rewrite forallb_forall in H. exists o. auto. Qed.

Ltac kindOf H E :=
  destruct (ok_of _ _ _ H E) as (o & OK & FO); destruct o; cbn in FO; try discriminate; injection FO as <-; cbn in OK;
  first [apply nonneg_set; exact OK | apply pos_set; exact OK | reflexivity].
Lemma size_ok l x : forallb optOk l = true -> asked oSize l = Some x -> Qeq_bool x 0 = false.
Proof. intros H E. kindOf H E. Qed.
Lemma lam_ok l x : forallb optOk l = true -> asked oLambda l = Some x -> isUnset x = false.
Proof. intros H E. kindOf H E. Qed.
Lemma i3_ok l x : forallb optOk l = true -> asked oI3 l = Some x -> isUnset x = false.
Proof. intros H E. kindOf H E. Qed.
Lemma gam_ok l x : forallb optOk l = true -> asked oGamma l = Some x -> isUnset x = false.
Proof. intros H E. kindOf H E. Qed.
Lemma nq_ok l x : forallb optOk l = true -> asked oNQcd l = Some x -> isUnset x = false.
Proof. intros H E. kindOf H E. Qed.
Lemma rc_ok l x : forallb optOk l = true -> asked oRc l = Some x -> isUnset x = false.
Proof. intros H E. kindOf H E. Qed.
Lemma rcoff_ok l x : forallb optOk l = true -> asked oRcOff l = Some x -> isUnset x = false.
Proof. intros H E. kindOf H E. Qed.

Lemma fst_if {X} (b : bool) (a c : X) : (if b then a else c) = a \/ (if b then a else c) = c.
Proof. destruct b; auto. Qed.
(** the switch-off only touches the two thresholds *)
Lemma switch_same g : let g' := switchOff g in
  gUPot g' = gUPot g /\ gQcd g' = gQcd g /\ gPq g' = gPq g /\ gEvol g' = gEvol g /\ gDamp g' = gDamp g /\
  gUI3 g' = gUI3 g /\ gI3 g' = gI3 g /\ gUGam g' = gUGam g /\ gGam g' = gGam g /\ gUDec g' = gUDec g /\ gDec g' = gDec g /\
  gFrw g' = gFrw g /\ gUMink g' = gUMink g /\ gUQcd g' = gUQcd g /\ gNQcd g' = gNQcd g /\ gULam g' = gULam g /\ gLam g' = gLam g /\
  gUSize g' = gUSize g /\ gSize g' = gSize g /\ gUZth g' = gUZth g /\ gUZrs g' = gUZrs g.
Proof. cbv zeta. unfold switchOff. destruct (negb _); repeat split; reflexivity. Qed.

Lemma finalPot_fresh l g : inv l g -> finalPot g = potWord (askedPot l).
Proof.
  intros I. destruct I. unfold finalPot. rewrite iQ0, iP0, iE0, iD0. unfold askedPot.
  destruct (orSaved (asked oQcd l) QCD1), (orSaved (asked oPq l) PQ1), (asked oEvol l) as [[|]|], (asked oDamp l) as [[|]|]; reflexivity.
Qed.
