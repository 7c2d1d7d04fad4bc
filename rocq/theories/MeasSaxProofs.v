From Coq Require Import List Bool ZArith QArith Lia.
From Verif Require Import MeasModel MeasSpec MeasProofs.
Import ListNotations.
Local Open Scope nat_scope.

Lemma at_q q q' k l b : at_name (Name q k l) b (Name q' k l) = if qty_eq q q' then Some b else None.
Proof.
  unfold at_name. destruct (name_eq _ _) as [e|e], (qty_eq q q') as [e'|e']; try reflexivity.
  - injection e as e. contradiction.
  - destruct e. rewrite e'. reflexivity.
Qed.

Lemma at_other q n b : n_q n <> q -> forall k l, at_name (Name q k l) b n = None.
Proof. intros H k l. unfold at_name. destruct (name_eq _ _) as [<-|]; [destruct (H eq_refl)|reflexivity]. Qed.

Definition plainRun ft mass (n : nrun) k s := nRun ft mass k (NRun (rK n) (rG n) (rV n) (rS n) false false false false) s.
Definition pureRun ft mass (n : nrun) k s := nRun ft mass k (NRun false false false false (rCK n) (rCG n) (rCV n) (rCS n)) s.
Definition radialRun (n : nrun) k s := nSRun k (NRun (rK n) (rG n) (rV n) false false false false false) s.

Lemma addPlain_q ft mass n k l s q :
  addPlain ft mass n k l s (Name q k l) =
  match q with
  | QK => if rK n then Some (bK (plainRun ft mass n k s)) else None
  | QG => if rG n then Some (bG (plainRun ft mass n k s)) else None
  | QV => if rV n && mass then Some (bV (plainRun ft mass n k s)) else None
  | QS => if rS n && mass then Some (bS (plainRun ft mass n k s)) else None
  | _ => None
  end.
Proof.
  unfold addPlain. cbv zeta. rewrite !at_q. fold (plainRun ft mass n k s). set (t := plainRun ft mass n k s). clearbody t.
  destruct n as [a b c d e f g h]. cbn. destruct q; cbn; destruct a, b, c, d, mass; reflexivity.
Qed.

Lemma addPure_q ft mass n k l s q :
  addPure ft mass n k l s (Name q k l) =
  match q with
  | QCK => if rCK n then Some (bK (pureRun ft mass n k s)) else None
  | QCG => if rCG n then Some (bG (pureRun ft mass n k s)) else None
  | QCV => if rCV n && mass then Some (bV (pureRun ft mass n k s)) else None
  | QCS => if rCS n && mass then Some (bS (pureRun ft mass n k s)) else None
  | _ => None
  end.
Proof.
  unfold addPure. cbv zeta. rewrite !at_q. fold (pureRun ft mass n k s). set (t := pureRun ft mass n k s). clearbody t.
  destruct n as [a b c d e f g h]. cbn. destruct q; cbn; destruct e, f, g, h, mass; reflexivity.
Qed.

Lemma addRadial_q ft a k l s q :
  addRadial ft a k l s (Name q k l) =
  if radialOn ft a then
    match q with
    | QKS => if rK (a_n a) then Some (bK (radialRun (a_n a) k s)) else None
    | QGS => if rG (a_n a) then Some (bG (radialRun (a_n a) k s)) else None
    | QVS => if rV (a_n a) then Some (bV (radialRun (a_n a) k s)) else None
    | _ => None
    end else None.
Proof.
  unfold addRadial. cbv zeta. rewrite !at_q. destruct (radialOn ft a); [|reflexivity].
  fold (radialRun (a_n a) k s). set (t := radialRun (a_n a) k s). clearbody t.
  destruct q; cbn; destruct (rK (a_n a)), (rG (a_n a)), (rV (a_n a)); reflexivity.
Qed.

(** The states of a step. *)
Definition st1 ft printed k r l s := nspMask ft printed k r l s.
Definition st2 ft mass a printed k r l s := nspPlain ft mass (a_n a) k l (st1 ft printed k r l s).
Definition st3 ft mass a printed k r l s := nspPure ft mass (a_n a) k l (st2 ft mass a printed k r l s).

Lemma addStep_q ft mass a printed k r l s q :
  addStep ft mass a printed k r l s (Name q k l) =
  let s1 := st1 ft printed k r l s in
  let s2 := st2 ft mass a printed k r l s in
  let s3 := st3 ft mass a printed k r l s in
  let n := a_n a in
  match q with
  | QMask => if prntmsk k && negb printed then Some (bP (masker ft false r k s)) else None
  | QP => None
  | _ => if skipped a k then None else
    match q with
    | QK => if rK n then Some (bK (plainRun ft mass n k s1)) else None
    | QG => if rG n then Some (bG (plainRun ft mass n k s1)) else None
    | QV => if rV n && mass then Some (bV (plainRun ft mass n k s1)) else None
    | QS => if rS n && mass then Some (bS (plainRun ft mass n k s1)) else None
    | QCK => if rCK n then Some (bK (pureRun ft mass n k s2)) else None
    | QCG => if rCG n then Some (bG (pureRun ft mass n k s2)) else None
    | QCV => if rCV n && mass then Some (bV (pureRun ft mass n k s2)) else None
    | QCS => if rCS n && mass then Some (bS (pureRun ft mass n k s2)) else None
    | QKS => if radialOn ft a && rK n then Some (bK (radialRun n k s3)) else None
    | QGS => if radialOn ft a && rG n then Some (bG (radialRun n k s3)) else None
    | QVS => if radialOn ft a && rV n then Some (bV (radialRun n k s3)) else None
    | _ => None
    end
  end.
Proof.
  unfold addStep. cbv zeta. fold (st1 ft printed k r l s). fold (st2 ft mass a printed k r l s). fold (st3 ft mass a printed k r l s).
  rewrite at_q, addPlain_q, addPure_q, addRadial_q.
  destruct q; cbn [qty_eq qty_rec qty_rect eq_rec_r eq_rec eq_rect eq_sym orElse]; cbn;
    destruct (prntmsk k && negb printed), (skipped a k), (radialOn ft a); cbn;
    try reflexivity;
    repeat match goal with |- context [if ?b then _ else _] => destruct b end; reflexivity.
Qed.

(** What a step of the complex field keeps. *)
Lemma same_map s t : same s t -> sdMap t = sdMap s.
Proof. intros H. apply H. Qed.
Lemma same_sdMask s t : same s t -> sdMask t = sdMask s.
Proof. intros H. apply H. Qed.
Lemma same_bits s t : same s t -> bits t = bits s.
Proof. intros H. apply H. Qed.

Lemma nrun_keeps ft mass k n s :
  sdMap (nRun ft mass k n s) = sdMap s /\ sdMask (nRun ft mass k n s) = sdMask s /\
  sdAxi (nRun ft mass k n s) = sdAxi s /\ bits (nRun ft mass k n s) = bits s /\ m2hEnergy (nRun ft mass k n s) = m2hEnergy s.
Proof. destruct ft; cbn; [unfold nRunSax|unfold nRunAxi]; destruct (nRunReady k s); repeat split. Qed.
Lemma nsrun_keeps k n s :
  sdMap (nSRun k n s) = sdMap s /\ sdMask (nSRun k n s) = sdMask s /\ bits (nSRun k n s) = bits s.
Proof. unfold nSRun. destruct k; try (repeat split); destruct (sdMask s) eqn:E; cbn; repeat split; assumption. Qed.

Lemma plain_keeps ft mass n k l s : let t := nspPlain ft mass n k l s in
  sdMap t = sdMap s /\ sdMask t = sdMask s /\ sdAxi t = sdAxi s /\ bits t = bits s /\ m2hEnergy t = m2hEnergy s.
Proof.
  cbn zeta. destruct (plain_step ft mass n k l s) as [A _]. destruct (_ || _ || _ || _) in A.
  - destruct A as (a1&a2&a3&_&a5&a6&_). rewrite a1, a2, a3, a5, a6. apply nrun_keeps.
  - rewrite A. repeat split.
Qed.
Lemma pure_keeps ft mass n k l s : let t := nspPure ft mass n k l s in
  sdMap t = sdMap s /\ sdMask t = sdMask s /\ sdAxi t = sdAxi s /\ bits t = bits s /\ m2hEnergy t = m2hEnergy s.
Proof.
  cbn zeta. destruct (pure_step ft mass n k l s) as [A _]. destruct (_ || _ || _ || _) in A.
  - destruct A as (a1&a2&a3&_&a5&a6&_). rewrite a1, a2, a3, a5, a6. apply nrun_keeps.
  - rewrite A. repeat split.
Qed.
Lemma radial_map ft a k l s : sdMap (nspRadial ft a k l s) = sdMap s.
Proof.
  destruct (radial_step ft a k l s) as [A _]. destruct (radialOn ft a).
  - rewrite (same_map _ _ A). apply nsrun_keeps.
  - rewrite A. reflexivity.
Qed.
Lemma masker_map e r k s : sdMap (masker SaxionField e r k s) = sdMap s.
Proof. unfold masker. destruct k; try reflexivity; destruct (sdMap s) eqn:E; cbn; assumption || reflexivity. Qed.
Lemma mask_map printed k r l s : sdMap (nspMask SaxionField printed k r l s) = sdMap s.
Proof. unfold nspMask. destruct (prntmsk k); [|reflexivity]. destruct printed; exact (masker_map false r k s). Qed.

Lemma step_map mass a printed k r l s : sdMap (nspStep SaxionField mass a printed k r l s) = sdMap s.
Proof.
  unfold nspStep. cbv zeta. destruct (match k with Red => a_onlyE a | _ => false end).
  - apply mask_map.
  - rewrite radial_map, (proj1 (pure_keeps _ _ _ _ _ _)), (proj1 (plain_keeps _ _ _ _ _ _)). apply mask_map.
Qed.

(** The mask the spectra of the first five masks read, and that they are ready. *)
Definition src5 (k : mk) (r : Q) : option (mk * Q) := match k with Bal | Red => Some (k, r) | _ => None end.

Definition good (k : mk) (r : Q) (s : st) : Prop :=
  nRunReady k s = true /\ source k s = src5 k r /\ (k = Red -> sdMask s = true).

Definition five (k : mk) : Prop := In k [Flat; Vi; Vi2; Bal; Red].

Lemma good1 printed k r l s : five k -> sdMap s = true -> good k r (st1 SaxionField printed k r l s).
Proof.
  intros Hk Hs. unfold st1, nspMask.
  destruct Hk as [<-|[<-|[<-|[<-|[<-|[]]]]]]; cbn [prntmsk]; destruct printed; cbn; rewrite ?Hs; cbn; repeat split; discriminate.
Qed.

Lemma good_keep k r s t : five k -> sdMask t = sdMask s -> bits t = bits s -> good k r s -> good k r t.
Proof.
  intros Hk Hm Hb (A & B & C). unfold good, nRunReady, source in *.
  destruct Hk as [<-|[<-|[<-|[<-|[<-|[]]]]]]; cbn in *; rewrite ?Hm, ?Hb; auto.
Qed.

Lemma good2 mass a printed k r l s : five k -> sdMap s = true -> good k r (st2 SaxionField mass a printed k r l s).
Proof.
  intros Hk Hs. unfold st2. destruct (plain_keeps SaxionField mass (a_n a) k l (st1 SaxionField printed k r l s)) as (_&M&_&B&_).
  eapply good_keep; [exact Hk|exact M|exact B|]. apply good1; assumption.
Qed.
Lemma good3 mass a printed k r l s : five k -> sdMap s = true -> good k r (st3 SaxionField mass a printed k r l s).
Proof.
  intros Hk Hs. unfold st3. destruct (pure_keeps SaxionField mass (a_n a) k l (st2 SaxionField mass a printed k r l s)) as (_&M&_&B&_).
  eapply good_keep; [exact Hk|exact M|exact B|]. apply good2; assumption.
Qed.

(** The quantities right for these masks. *)
Definition sound5 (a : ask) (q : qty) (k : mk) : Prop :=
  match q with
  | QS => rV (a_n a) = true
  | QCS => False
  | QCG | QCV => k <> Bal
  | _ => True
  end.

Lemma content5 mass a printed k r l s q :
  five k -> sdMap s = true -> wanted SaxionField mass a q -> sound5 a q k -> skipped a k = false ->
  addStep SaxionField mass a printed k r l s (Name q k l) = Some (Stuff q k (src5 k r)).
Proof.
  intros Hk Hs Hw Hq Hsk. rewrite addStep_q. cbv zeta. rewrite Hsk.
  destruct (good1 printed k r l s Hk Hs) as (A1 & B1 & _).
  destruct (good2 mass a printed k r l s Hk Hs) as (A2 & B2 & _).
  destruct (good3 mass a printed k r l s Hk Hs) as (_ & B3 & C3).
  revert A1 B1 A2 B2 B3 C3.
  generalize (st1 SaxionField printed k r l s) (st2 SaxionField mass a printed k r l s) (st3 SaxionField mass a printed k r l s).
  intros s1 s2 s3 A1 B1 A2 B2 B3 C3.
  unfold wanted in Hw. unfold plainRun, pureRun, radialRun, radialOn. cbn [nRun]. unfold nRunSax.
  destruct q; cbn [negb rK rG rV rS rCK rCG rCV rCS sound5] in *; try contradiction.
  - rewrite Hw, A1. cbn. rewrite B1. reflexivity.
  - rewrite Hw, A1. cbn. rewrite B1. destruct Hk as [<-|[<-|[<-|[<-|[<-|[]]]]]]; reflexivity.
  - destruct Hw as [Hw Hm]. rewrite Hw, Hm, A1. cbn. rewrite B1. reflexivity.
  - destruct Hw as [Hw Hm]. rewrite Hw, Hq, Hm, A1. cbn. rewrite B1. reflexivity.
  - rewrite Hw, A2. cbn. rewrite B2. reflexivity.
  - rewrite Hw, A2. cbn. rewrite B2. destruct Hk as [<-|[<-|[<-|[<-|[<-|[]]]]]]; congruence || reflexivity.
  - destruct Hw as [Hw Hm]. rewrite Hw, Hm, A2. cbn. rewrite B2. destruct Hk as [<-|[<-|[<-|[<-|[<-|[]]]]]]; congruence || reflexivity.
  - destruct Hw as [[_ Hr] Hw]. rewrite Hr, Hw. cbn. unfold nSRun. rewrite B3. cbn.
    destruct Hk as [<-|[<-|[<-|[<-|[<-|[]]]]]]; try reflexivity. rewrite (C3 eq_refl). reflexivity.
  - destruct Hw as [[_ Hr] Hw]. rewrite Hr, Hw. cbn. unfold nSRun. rewrite B3. cbn.
    destruct Hk as [<-|[<-|[<-|[<-|[<-|[]]]]]]; try reflexivity. rewrite (C3 eq_refl). reflexivity.
  - destruct Hw as [[_ Hr] Hw]. rewrite Hr, Hw. cbn. unfold nSRun. rewrite B3. cbn. rewrite orb_true_r.
    destruct Hk as [<-|[<-|[<-|[<-|[<-|[]]]]]]; try reflexivity. rewrite (C3 eq_refl). reflexivity.
Qed.

(** Names that are labelled by one of the radii. *)
Lemma labelled lab asked k l :
  {exists r0, runFor asked k r0 /\ l = labelOf lab k r0} + {forall r0, runFor asked k r0 -> l <> labelOf lab k r0}.
Proof.
  unfold runFor, labelOf. destruct (mulmask k).
  - destruct (in_dec (fun x y : option Z => ltac:(decide equality; apply Z.eq_dec)) l (map (fun r => Some (lab r)) asked)) as [i|i].
    + left. apply in_map_iff in i. destruct i as (r & E & Hr). exists r. auto.
    + right. intros r0 Hr E. apply i. apply in_map_iff. exists r0. auto.
  - destruct l as [z|]; [right; discriminate|]. left. destruct asked as [|r rs]; [exists 0%Q|exists r]; auto.
Qed.

Lemma all_masks k : In k nspTable.
Proof. destruct k; cbn; tauto. Qed.
Lemma nsp_nodup : NoDup nspTable.
Proof. repeat constructor; cbn; intuition discriminate. Qed.
Lemma mask_nodup : NoDup maskTable.
Proof. repeat constructor; cbn; intuition discriminate. Qed.

Definition addMask ft k r l s n := at_name (Name QMask k l) (bP (masker ft false r k s)) n.
Lemma maskStep_out ft k r l s n : out (maskStep ft k r l s) n = orElse (out s n) (addMask ft k r l s n).
Proof. unfold maskStep, addMask. cbv zeta. rewrite out_write, masker_out. reflexivity. Qed.

Definition hasMap (s : st) := sdMap s = true.

Lemma own_mask k : writesOwn hasMap k (maskStep SaxionField k) (addMask SaxionField k).
Proof.
  split; [|split].
  - intros r l s H. unfold hasMap, maskStep. cbv zeta. change (sdMap (masker SaxionField false r k s) = true). rewrite masker_map. exact H.
  - intros. apply maskStep_out.
  - intros r l s _. apply own_at.
Qed.
Lemma own_nsp mass a printed k : writesOwn hasMap k (nspStep SaxionField mass a printed k) (addStep SaxionField mass a printed k).
Proof.
  split; [|split].
  - intros r l s H. unfold hasMap. rewrite step_map. exact H.
  - intros. apply step_out.
  - intros r l s _. apply addStep_own.
Qed.

Lemma name_eta n : n = Name (n_q n) (n_k n) (n_r n).
Proof. destruct n; reflexivity. Qed.

Lemma at_self n b : forall q, n_q n = q -> at_name (Name q (n_k n) (n_r n)) b n = Some b.
Proof. intros q <-. destruct n as [q k l]. cbn. rewrite at_q. destruct (qty_eq q q); [reflexivity|contradiction]. Qed.
Lemma addStep_n ft mass a p r s n :
  addStep ft mass a p (n_k n) r (n_r n) s n = addStep ft mass a p (n_k n) r (n_r n) s (Name (n_q n) (n_k n) (n_r n)).
Proof. destruct n; reflexivity. Qed.

Lemma sax_bP k r s : hasMap s -> allowed SaxionField k = true -> k <> Flat ->
  bP (masker SaxionField false r k s) = Stuff QMask k (Some (k, r)).
Proof. intros H Ha Hk. unfold hasMap in H. destruct k; try discriminate; try congruence; cbn; rewrite ?H; reflexivity. Qed.

Definition onOf ft (mask : mk -> bool) k := allowed ft k && mask k.

Lemma sax_measure mass lab scale asked mask em psp a :
  NoDup (map lab asked) -> (forall k, onOf SaxionField mask k = true -> mulmask k = true -> asked <> []) ->
  exists f', measure SaxionField mass lab scale asked mask em psp a (fun _ => None) = Some f' /\
    (forall n, n_q n <> QMask -> n_q n <> QP -> a_nsp a = true -> onOf SaxionField mask (n_k n) = true ->
       forall r0, runFor asked (n_k n) r0 -> n_r n = labelOf lab (n_k n) r0 ->
       exists t, hasMap t /\ f' n = addStep SaxionField mass a (a_mask a) (n_k n) (scale r0) (n_r n) t n) /\
    (forall n, n_q n = QMask -> onOf SaxionField mask (n_k n) = true -> n_k n <> Flat -> a_mask a || a_nsp a = true ->
       forall r0, runFor asked (n_k n) r0 -> n_r n = labelOf lab (n_k n) r0 ->
       f' n = Some (Stuff QMask (n_k n) (Some (n_k n, scale r0)))) /\
    (forall n, f' n <> None -> (n = Name QP Flat None /\ psp = true) \/
       (onOf SaxionField mask (n_k n) = true /\ (exists r0, runFor asked (n_k n) r0 /\ n_r n = labelOf lab (n_k n) r0) /\
        ((n_q n = QMask /\ n_k n <> Flat /\ a_mask a || a_nsp a = true) \/
         (a_nsp a = true /\ skipped a (n_k n) = false /\ wanted SaxionField mass a (n_q n))))).
Proof.
  intros Hd Ha. unfold measure. cbv zeta. fold (onOf SaxionField mask).
  change (fun k : mk => allowed SaxionField k && mask k) with (onOf SaxionField mask).
  set (on := onOf SaxionField mask) in *.
  assert (S0 : exists s0, energyBlock SaxionField lab asked (radii scale asked) on em psp (fresh (fun _ => None)) = Some s0 /\
    forall n, out s0 n = if psp then at_name (Name QP Flat None) (Stuff QP Flat None) n else None).
  { unfold energyBlock. destruct psp.
    - eexists; split; [reflexivity|]. intro n. rewrite out_write. reflexivity.
    - eexists; split; [reflexivity|]. intro n. destruct em; reflexivity. }
  destruct S0 as (s00 & E0 & O0). rewrite E0.
  set (s0 := newBins (stringBlock SaxionField s00)).
  assert (M0 : hasMap s0) by reflexivity.
  assert (Q0 : forall n, out s0 n = if psp then at_name (Name QP Flat None) (Stuff QP Flat None) n else None) by exact O0.
  clearbody s0. clear E0 O0 s00. unfold spectrumBlock.
  (* the block of masks *)
  assert (S1 : exists s1, (if a_mask a then overMasks maskTable on (fun k => overRadii lab k (maskStep SaxionField k) asked (radii scale asked)) s0 else Some s0) = Some s1 /\
    hasMap s1 /\
    (forall n, n_q n <> QMask -> out s1 n = out s0 n) /\
    (forall n, a_mask a = false -> out s1 n = out s0 n) /\
    (forall n, (forall r0, on (n_k n) = true -> runFor asked (n_k n) r0 -> n_r n <> labelOf lab (n_k n) r0) -> out s1 n = out s0 n) /\
    (forall n, n_k n = Flat -> out s1 n = out s0 n) /\
    (forall n, a_mask a = true -> n_q n = QMask -> on (n_k n) = true -> n_k n <> Flat -> forall r0, runFor asked (n_k n) r0 -> n_r n = labelOf lab (n_k n) r0 ->
       out s1 n = Some (Stuff QMask (n_k n) (Some (n_k n, scale r0))))).
  { destruct (a_mask a).
    - destruct (block lab hasMap scale asked Hd on (maskStep SaxionField) (addMask SaxionField) maskTable s0 mask_nodup) as (s1 & E1 & M1 & F1 & G1);
        [intros; apply own_mask|intros; eapply Ha; eassumption|exact M0|].
      exists s1. split; [exact E1|]. split; [exact M1|].
      assert (N1 : forall n, n_q n <> QMask -> out s1 n = out s0 n).
      { intros n Hn. destruct (in_dec mk_eq (n_k n) maskTable) as [i|i]; [|apply F1; intro; contradiction].
        destruct (on (n_k n)) eqn:Eo; [|apply F1; intros _ Hc; rewrite Eo in Hc; discriminate].
        destruct (labelled lab asked (n_k n) (n_r n)) as [(r0 & Hr & El)|Hno].
        - destruct (G1 n i Eo r0 Hr El) as (t & _ & Et). rewrite Et. unfold addMask. rewrite at_other by exact Hn. apply orElse_None.
        - apply F1. intros _ _. exact Hno. }
      split; [exact N1|]. split; [discriminate|]. split; [|split].
      + intros n H. apply F1. intros _ Ho r0 Hr. exact (H r0 Ho Hr).
      + intros n Hf. apply F1. rewrite Hf. cbn. intuition discriminate.
      + intros n _ Hq Ho Hf r0 Hr El.
        assert (i : In (n_k n) maskTable) by (destruct (n_k n); cbn; tauto).
        destruct (G1 n i Ho r0 Hr El) as (t & It & Et). rewrite Et, Q0.
        assert (Z : (if psp then at_name (Name QP Flat None) (Stuff QP Flat None) n else None) = None).
        { destruct psp; [|reflexivity]. apply at_other. congruence. }
        rewrite Z. cbn [orElse]. unfold addMask. rewrite <- El. rewrite at_self by exact Hq.
        f_equal. apply sax_bP; [exact It| |exact Hf]. unfold on, onOf in Ho. apply andb_prop in Ho. apply Ho.
    - exists s0. split; [reflexivity|]. split; [exact M0|]. repeat split; auto; discriminate. }
  destruct S1 as (s1 & E1 & M1 & N1 & A1 & F1 & Fl1 & G1). rewrite E1. clear E1.
  assert (Z0 : forall n, n_q n <> QP -> out s0 n = None).
  { intros n Hn. rewrite Q0. destruct psp; [|reflexivity]. apply at_other. exact Hn. }
  destruct (a_nsp a) eqn:En.
  - destruct (block lab hasMap scale asked Hd on (nspStep SaxionField mass a (a_mask a)) (addStep SaxionField mass a (a_mask a)) nspTable s1 nsp_nodup) as (s2 & E2 & M2 & F2 & G2);
      [intros; apply own_nsp|intros; eapply Ha; eassumption|exact M1|].
    rewrite E2. exists (out s2). split; [reflexivity|]. split; [|split].
    + intros n Hq Hp _ Ho r0 Hr El. destruct (G2 n (all_masks _) Ho r0 Hr El) as (t & It & Et). exists t. split; [exact It|].
      rewrite Et, N1, Z0 by assumption. rewrite <- El. reflexivity.
    + intros n Hq Ho Hf _ r0 Hr El. destruct (G2 n (all_masks _) Ho r0 Hr El) as (t & It & Et). rewrite Et.
      destruct (a_mask a) eqn:Em.
      * rewrite (G1 n eq_refl Hq Ho Hf r0 Hr El). reflexivity.
      * rewrite A1, Z0 by congruence. cbn [orElse]. rewrite <- El. rewrite addStep_n, addStep_q, Hq. cbv zeta.
        rewrite sax_bP; [|exact It| |exact Hf].
        -- destruct (n_k n); try contradiction; try reflexivity. all: unfold on, onOf in Ho; discriminate.
        -- unfold on, onOf in Ho. apply andb_prop in Ho. apply Ho.
    + intros n Hn.
      destruct (on (n_k n)) eqn:Eo; [destruct (labelled lab asked (n_k n) (n_r n)) as [(r0 & Hr & El)|Hno]|].
      * destruct (G2 n (all_masks _) Eo r0 Hr El) as (t & It & Et). rewrite Et in Hn.
        destruct (qty_eq (n_q n) QP) as [Hp|Hp].
        { left. rewrite N1, Q0 in Hn by congruence. rewrite <- El, addStep_n, addStep_q, Hp in Hn.
          destruct psp; [|destruct Hn; reflexivity].
          split; [|reflexivity]. unfold at_name in Hn. destruct (name_eq _ _) as [e|e] in Hn.
          - symmetry. exact e.
          - destruct Hn. reflexivity. }
        right. split; [reflexivity|]. split; [exists r0; auto|].
        destruct (qty_eq (n_q n) QMask) as [Hm|Hm].
        { left. split; [exact Hm|]. split; [|apply orb_true_r].
          intro Hf. apply Hn. rewrite Fl1, Z0 by assumption. cbn [orElse]. rewrite <- El. rewrite addStep_n, addStep_q, Hm. cbv zeta. rewrite Hf. reflexivity. }
        right. split; [reflexivity|]. rewrite N1, Z0 in Hn by assumption. cbn [orElse] in Hn. rewrite <- El in Hn.
        rewrite addStep_n, addStep_q in Hn. cbv zeta in Hn.
        destruct (skipped a (n_k n)) eqn:Es; [destruct (n_q n); contradiction || (destruct Hn; reflexivity)|]. split; [reflexivity|].
        unfold wanted. unfold radialOn in Hn. destruct (n_q n); try contradiction;
          repeat match goal with
          | H : (if ?b then _ else _) <> None |- _ => destruct b eqn:?; [clear H|destruct (H eq_refl)]
          | H : (?x && ?y)%bool = true |- _ => apply andb_prop in H; destruct H
          end; auto.
      * left. rewrite F2 in Hn by (intros; apply Hno; assumption). rewrite F1, Q0 in Hn by (intros r0 _ Hr; apply Hno; exact Hr).
        destruct psp; [|destruct Hn; reflexivity]. unfold at_name in Hn. destruct (name_eq _ _) as [e|e] in Hn; [|destruct Hn; reflexivity]. auto.
      * left. rewrite F2 in Hn by (intros _ Hc; rewrite Eo in Hc; discriminate).
        rewrite F1, Q0 in Hn by (intros r0 Hc; rewrite Eo in Hc; discriminate).
        destruct psp; [|destruct Hn; reflexivity]. unfold at_name in Hn. destruct (name_eq _ _) as [e|e] in Hn; [|destruct Hn; reflexivity]. auto.
  - exists (out s1). split; [reflexivity|]. split; [discriminate|]. split.
    + intros n Hq Ho Hf Hm. rewrite orb_false_r in Hm. apply G1; assumption.
    + intros n Hn. destruct (qty_eq (n_q n) QMask) as [Hm|Hm].
      * right. destruct (a_mask a) eqn:Em; [|rewrite A1, Z0 in Hn by congruence; destruct Hn; reflexivity].
        destruct (on (n_k n)) eqn:Eo; [|rewrite F1, Z0 in Hn by congruence; destruct Hn; reflexivity].
        split; [reflexivity|].
        destruct (labelled lab asked (n_k n) (n_r n)) as [Hl|Hno]; [|rewrite F1, Z0 in Hn by (congruence || (intros r0 _ Hr; apply Hno; exact Hr)); destruct Hn; reflexivity].
        split; [exact Hl|]. left. split; [exact Hm|]. split; [|reflexivity].
        intro Hf. apply Hn. rewrite Fl1, Z0 by congruence. reflexivity.
      * left. rewrite N1, Q0 in Hn by exact Hm. destruct psp; [|destruct Hn; reflexivity].
        unfold at_name in Hn. destruct (name_eq _ _) as [e|e] in Hn; [|destruct Hn; reflexivity]. auto.
Qed.
