(** The spectra a measurement of the axion writes, and what the radii must be (C107). *)
From Coq Require Import List Bool ZArith QArith Lia.
From Verif Require Import MeasModel MeasSpec MeasProofs MeasSaxProofs MeasProperties.
Import ListNotations.
Local Open Scope nat_scope.

Definition anyState (s : st) : Prop := True.
Definition hasEnergy (s : st) : Prop := m2Energy s = true.

Definition addPsp (k : mk) (r : Q) (l : option Z) (s : st) (n : name) : option bins :=
  at_name (Name QP k l) (bP (masker AxionField true r k s)) n.

Lemma own_psp k : k = Axit \/ k = Axit2 -> writesOwn hasEnergy k (pspStep k) (addPsp k).
Proof.
  intro Hk. split; [|split].
  - intros r l s H. unfold hasEnergy in *. destruct Hk as [-> | ->]; cbn; rewrite H; reflexivity.
  - intros r l s n _. unfold pspStep, addPsp. cbv zeta. rewrite out_write, masker_out. reflexivity.
  - intros r l s _. apply own_at.
Qed.

Lemma own_mask_axi k : writesOwn anyState k (maskStep AxionField k) (addMask AxionField k).
Proof. split; [|split]; [intros; exact I|intros; apply maskStep_out|intros; apply own_at]. Qed.
Lemma own_nsp_axi mass a p k : writesOwn anyState k (nspStep AxionField mass a p k) (addStep AxionField mass a p k).
Proof. split; [|split]; [intros; exact I|intros; apply step_out|intros; apply addStep_own]. Qed.

Lemma axi_measure mass lab scale asked mask em psp a :
  NoDup (map lab asked) -> (forall k, onOf AxionField mask k = true -> mulmask k = true -> asked <> []) ->
  exists f', measure AxionField mass lab scale asked mask em psp a (fun _ => None) = Some f' /\
    (forall n, n_q n <> QMask -> n_q n <> QP -> a_nsp a = true -> onOf AxionField mask (n_k n) = true ->
       forall r0, runFor asked (n_k n) r0 -> n_r n = labelOf lab (n_k n) r0 ->
       exists t, f' n = addStep AxionField mass a (a_mask a) (n_k n) (scale r0) (n_r n) t n) /\
    (forall n, n_q n = QP -> psp = true -> onOf AxionField mask (n_k n) = true -> n_k n <> Flat ->
       forall r0, runFor asked (n_k n) r0 -> n_r n = labelOf lab (n_k n) r0 ->
       f' n = Some (Stuff QP (n_k n) (Some (n_k n, scale r0)))) /\
    (psp = true -> f' (Name QP Flat None) = Some (Stuff QP Flat None)) /\
    (psp = false -> forall n, n_q n = QP -> f' n = None).
Proof.
  intros Hd Ha. unfold measure. cbv zeta.
  change (fun k : mk => allowed AxionField k && mask k) with (onOf AxionField mask).
  set (on := onOf AxionField mask) in *.
  assert (S0 : exists s0, energyBlock AxionField lab asked (radii scale asked) on em psp (fresh (fun _ => None)) = Some s0 /\
    (forall n, n_q n <> QP -> out s0 n = None) /\
    (forall n, n_q n = QP -> psp = true -> on (n_k n) = true -> n_k n <> Flat ->
       forall r0, runFor asked (n_k n) r0 -> n_r n = labelOf lab (n_k n) r0 ->
       out s0 n = Some (Stuff QP (n_k n) (Some (n_k n, scale r0)))) /\
    (psp = true -> out s0 (Name QP Flat None) = Some (Stuff QP Flat None)) /\
    (psp = false -> forall n, out s0 n = None)).
  { unfold energyBlock. destruct psp.
    - cbv zeta. set (on2 := fun k => on k && match k with Axit | Axit2 => true | _ => false end).
      assert (Q : forall s, overMasks [Axit; Axit2] on (fun k => overRadii lab k (pspStep k) asked (radii scale asked)) s =
                  overMasks [Axit; Axit2] on2 (fun k => overRadii lab k (pspStep k) asked (radii scale asked)) s).
      { intro s. cbn [overMasks]. unfold on2. rewrite !andb_true_r. reflexivity. }
      rewrite Q.
      destruct (block lab hasEnergy scale asked Hd on2 pspStep addPsp [Axit; Axit2] (setEnergy (fresh (fun _ => None)))) as (s1 & E1 & M1 & F1 & G1).
      + repeat constructor; cbn; intuition discriminate.
      + intros k Hk. apply own_psp. unfold on2 in Hk. apply andb_prop in Hk. destruct Hk as [_ Hk]. destruct k; try discriminate; auto.
      + intros k Hi Ho Hm. apply (Ha k); [|exact Hm]. unfold on2 in Ho. apply andb_prop in Ho. apply Ho.
      + reflexivity.
      + rewrite E1. eexists. split; [reflexivity|].
        assert (Other : forall n, n_q n <> QP -> out s1 n = None).
        { intros n Hn. destruct (in_dec mk_eq (n_k n) [Axit; Axit2]) as [i|i]; [|rewrite F1 by (intro; contradiction); reflexivity].
          destruct (on2 (n_k n)) eqn:Eo; [|rewrite F1 by (intros _ Hc; rewrite Eo in Hc; discriminate); reflexivity].
          destruct (labelled lab asked (n_k n) (n_r n)) as [(r0 & Hr & El)|Hno].
          - destruct (G1 n i Eo r0 Hr El) as (t & _ & Et). rewrite Et. unfold addPsp. rewrite at_other by exact Hn. reflexivity.
          - rewrite F1; [reflexivity|]. intros _ _. exact Hno. }
        split; [|split; [|split; [|discriminate]]].
        * intros n Hn. rewrite out_write. cbn [pRun out]. rewrite Other, at_other by exact Hn. reflexivity.
        * intros n Hq _ Ho Hf r0 Hr El. rewrite out_write. cbn [pRun out].
          assert (i : In (n_k n) [Axit; Axit2]).
          { unfold on, onOf in Ho. destruct (n_k n); try contradiction; cbn in Ho; try discriminate; cbn; auto. }
          assert (Ho2 : on2 (n_k n) = true).
          { unfold on2. rewrite Ho. destruct i as [<-|[<-|[]]]; reflexivity. }
          destruct (G1 n i Ho2 r0 Hr El) as (t & It & Et). rewrite Et. cbn [setEnergy fresh out orElse]. unfold addPsp.
          rewrite <- El, at_self by exact Hq. unfold hasEnergy in It.
          destruct i as [<-|[<-|[]]]; cbn; rewrite It; reflexivity.
        * intros _. rewrite out_write. cbn [pRun out bP].
          rewrite F1; [|cbn [n_k In]; intuition discriminate]. cbn [setEnergy fresh out orElse]. reflexivity.
    - eexists. split; [reflexivity|]. destruct em; repeat split; try discriminate; reflexivity. }
  destruct S0 as (s00 & E0 & A0 & B0 & C0 & D0). rewrite E0.
  set (s0 := newBins (stringBlock AxionField s00)).
  assert (Os : forall n, out s0 n = out s00 n) by reflexivity. clearbody s0. unfold spectrumBlock.
  assert (S1 : exists s1, (if a_mask a then overMasks maskTable on (fun k => overRadii lab k (maskStep AxionField k) asked (radii scale asked)) s0 else Some s0) = Some s1 /\
    (forall n, n_q n <> QMask -> out s1 n = out s0 n)).
  { destruct (a_mask a); [|exists s0; split; reflexivity].
    destruct (block lab anyState scale asked Hd on (maskStep AxionField) (addMask AxionField) maskTable s0 mask_nodup) as (s1 & E1 & M1 & F1 & G1);
      [intros; apply own_mask_axi|intros; eapply Ha; eassumption|exact I|].
    exists s1. split; [exact E1|]. intros n Hn.
    destruct (in_dec mk_eq (n_k n) maskTable) as [i|i]; [|apply F1; intro; contradiction].
    destruct (on (n_k n)) eqn:Eo; [|apply F1; intros _ Hc; rewrite Eo in Hc; discriminate].
    destruct (labelled lab asked (n_k n) (n_r n)) as [(r0 & Hr & El)|Hno].
    - destruct (G1 n i Eo r0 Hr El) as (t & _ & Et). rewrite Et. unfold addMask. rewrite at_other by exact Hn. apply orElse_None.
    - apply F1. intros _ _. exact Hno. }
  destruct S1 as (s1 & E1 & N1). rewrite E1.
  assert (S2 : exists s2, (if a_nsp a then overMasks nspTable on (fun k => overRadii lab k (nspStep AxionField mass a (a_mask a) k) asked (radii scale asked)) s1 else Some s1) = Some s2 /\
    (forall n, n_q n = QP -> out s2 n = out s1 n) /\
    (forall n, a_nsp a = true -> on (n_k n) = true -> forall r0, runFor asked (n_k n) r0 -> n_r n = labelOf lab (n_k n) r0 ->
       exists t, out s2 n = orElse (out s1 n) (addStep AxionField mass a (a_mask a) (n_k n) (scale r0) (n_r n) t n))).
  { destruct (a_nsp a); [|exists s1; repeat split; discriminate].
    destruct (block lab anyState scale asked Hd on (nspStep AxionField mass a (a_mask a)) (addStep AxionField mass a (a_mask a)) nspTable s1 nsp_nodup) as (s2 & E2 & M2 & F2 & G2);
      [intros; apply own_nsp_axi|intros; eapply Ha; eassumption|exact I|].
    exists s2. split; [exact E2|]. split.
    - intros n Hn. destruct (on (n_k n)) eqn:Eo; [|apply F2; intros _ Hc; rewrite Eo in Hc; discriminate].
      destruct (labelled lab asked (n_k n) (n_r n)) as [(r0 & Hr & El)|Hno].
      + destruct (G2 n (all_masks _) Eo r0 Hr El) as (t & _ & Et). rewrite Et. rewrite <- El, addStep_n, addStep_q, Hn. apply orElse_None.
      + apply F2. intros _ _. exact Hno.
    - intros n _ Ho r0 Hr El. destruct (G2 n (all_masks _) Ho r0 Hr El) as (t & _ & Et). exists t. rewrite El at 1. exact Et. }
  destruct S2 as (s2 & E2 & P2 & G2). rewrite E2. exists (out s2). split; [reflexivity|].
  split; [|split; [|split]].
  - intros n Hq Hp Hn Ho r0 Hr El. destruct (G2 n Hn Ho r0 Hr El) as (t & Et). exists t.
    rewrite Et, N1, Os, A0 by assumption. reflexivity.
  - intros n Hq Hp Ho Hf r0 Hr El. rewrite P2, N1, Os by congruence. apply B0; assumption.
  - intros Hp. rewrite P2, N1, Os by (reflexivity || discriminate). apply C0. exact Hp.
  - intros Hp n Hq. rewrite P2, N1, Os by congruence. apply D0. exact Hp.
Qed.

(** Of the axion, every spectrum asked for without mask is in the file. Partial: with the masks of axitons they are
    not (below). *)
Theorem axion_spectra_partial : forall mass lab scale asked mask em psp a q r,
  radiiOk AxionField lab asked mask -> a_nsp a = true ->
  wanted AxionField mass a q -> askedMask AxionField mask Flat -> measuredFor asked Flat r ->
  exists f, measure AxionField mass lab scale asked mask em psp a (fun _ => None) = Some f /\
    spectrumThere scale lab q Flat r f.
Proof.
  intros mass lab scale asked mask em psp a q r Hok Hn Hw Hm Hr. destruct (ok_run _ _ _ _ Hok) as [Hd Ha].
  destruct (axi_measure mass lab scale asked mask em psp a Hd Ha) as (f & E & G & _). exists f. split; [exact E|].
  intros n Hnm. apply named_label in Hnm. subst n.
  assert (Hq : q <> QMask /\ q <> QP) by (split; intros ->; exact Hw). destruct Hq as [Hq Hp].
  destruct (G (Name q Flat (labelOf lab Flat r)) Hq Hp Hn (proj1 (asked_on _ _ _) Hm) r (measured_run _ _ _ Hr) eq_refl) as (t & Et).
  cbn [n_k n_r] in Et. rewrite addStep_q in Et. cbv zeta in Et. cbn [skipped] in Et.
  assert (Rt : forall b, b = Stuff q Flat None -> rightFor scale q Flat r b).
  { intros b ->. unfold rightFor. destruct q; try contradiction; split; intro H; try reflexivity; destruct H; cbn; auto. }
  unfold plainRun, pureRun in Et. cbn [nRun] in Et. unfold nRunAxi in Et. cbn [nRunReady negb rK rG rV rS rCK rCG rCV rCS] in Et.
  destruct q; cbn [wanted] in Hw; try contradiction; try match type of Hw with (_ /\ _) /\ _ => destruct Hw as [[Hw _] _]; discriminate end; try match type of Hw with _ /\ _ => destruct Hw as [Hw Hmm]; subst mass end;
    rewrite Hw in Et; cbn in Et; rewrite ?orb_true_r in Et; cbn in Et;
    (eexists; split; [exact Et|apply Rt]); reflexivity.
Qed.

(** The spectra of the energy, whole and outside the axitons of each radius, are right. *)
Theorem axion_energy_spectra : forall mass lab scale asked mask em a,
  radiiOk AxionField lab asked mask ->
  exists f, measure AxionField mass lab scale asked mask em true a (fun _ => None) = Some f /\
    f (Name QP Flat None) = Some (Stuff QP Flat None) /\
    forall k r, askedMask AxionField mask k -> k <> Flat -> In r asked -> spectrumThere scale lab QP k r f.
Proof.
  intros mass lab scale asked mask em a Hok. destruct (ok_run _ _ _ _ Hok) as [Hd Ha].
  destruct (axi_measure mass lab scale asked mask em true a Hd Ha) as (f & E & _ & G & C & _). exists f.
  split; [exact E|]. split; [apply C; reflexivity|]. intros k r Hm Hf Hr n Hnm. apply named_label in Hnm. subst n.
  assert (Hmul : mulmask k = true).
  { destruct Hm as [[<-|[<-|[<-|[]]]] _]; [destruct (Hf eq_refl)|reflexivity|reflexivity]. }
  eexists. split.
  - apply (G (Name QP k (labelOf lab k r)) eq_refl eq_refl (proj1 (asked_on _ _ _) Hm) Hf r); [|reflexivity].
    cbn [n_k]. unfold runFor. rewrite Hmul. exact Hr.
  - cbn [n_k]. split; [reflexivity|]. intro H. destruct H. apply radius_mul. exact Hmul.
Qed.

(** Refuted: with the first mask of axitons every spectrum is of numbers read while they are overwritten. *)
Theorem axiton_spectra_refuted : forall mass lab scale asked mask em psp a r,
  radiiOk AxionField lab asked mask -> a_nsp a = true -> rK (a_n a) = true ->
  askedMask AxionField mask Axit -> In r asked ->
  exists f, measure AxionField mass lab scale asked mask em psp a (fun _ => None) = Some f /\
    f (Name QK Axit (Some (lab r))) = Some Garbled.
Proof.
  intros mass lab scale asked mask em psp a r Hok Hn Hw Hm Hr. destruct (ok_run _ _ _ _ Hok) as [Hd Ha].
  destruct (axi_measure mass lab scale asked mask em psp a Hd Ha) as (f & E & G & _). exists f. split; [exact E|].
  destruct (G (Name QK Axit (Some (lab r)))) with (r0 := r) as (t & Et); cbn [n_q n_k n_r]; try discriminate;
    [exact Hn|apply asked_on; exact Hm|exact Hr|reflexivity|].
  rewrite Et. cbn [n_k n_r]. rewrite addStep_q. cbv zeta. cbn [skipped]. rewrite Hw.
  unfold plainRun. cbn [nRun]. unfold nRunAxi. cbn [nRunReady negb rK]. rewrite Hw. reflexivity.
Qed.

(** Refuted: the second mask of axitons is never built for its spectra. With the energy measured before, all of them
    read the mask of the last radius; without, what they hold is the last thing binned, here the spectrum without
    mask. *)
Definition kOnly := Ask (NRun true false false false false false false false) false false true false.
Definition flatAxit2 (k : mk) : bool := match k with Flat | Axit2 => true | _ => false end.
Theorem axiton2_spectra_refuted :
  let asked := [1; 2]%Q in
  radiiOk AxionField hundredths asked flatAxit2 /\
  (exists f, measure AxionField true hundredths (fun r => r) asked flatAxit2 true true kOnly (fun _ => None) = Some f /\
     f (Name QK Axit2 (Some 100%Z)) = Some (Stuff QK Axit2 (Some (Axit2, 2%Q)))) /\
  (exists f, measure AxionField true hundredths (fun r => r) asked flatAxit2 false false kOnly (fun _ => None) = Some f /\
     f (Name QK Axit2 (Some 100%Z)) = Some (Stuff QK Flat None)).
Proof.
  cbn zeta. split; [|split].
  - split; [vm_compute; repeat constructor; cbn; intuition discriminate|discriminate].
  - eexists; split; [reflexivity|vm_compute; reflexivity].
  - eexists; split; [reflexivity|vm_compute; reflexivity].
Qed.

(** Refuted: what is written as the spectrum of a mask of axitons is the spectrum of the energy outside it. *)
Theorem axiton_mask_refuted :
  exists f, measure AxionField true hundredths (fun r => r) [1%Q] (fun k => match k with Axit => true | _ => false end) true false
    (Ask (NRun false false false false false false false false) true false false false) (fun _ => None) = Some f /\
  f (Name QMask Axit (Some 100%Z)) = Some (Stuff QP Axit (Some (Axit, 1%Q))).
Proof. eexists; split; [reflexivity|vm_compute; reflexivity]. Qed.

(** Refuted: when no radius is given, a mask with radius reads its label outside the list, whatever the field. *)
Theorem no_radius_refuted : forall ft mass lab scale mask em psp a k,
  askedMask ft mask k -> hasRadius k -> a_nsp a = true ->
  measure ft mass lab scale [] mask em psp a (fun _ => None) = None.
Proof.
  intros ft mass lab scale mask em psp a k Hm Hr Hn. apply asked_on in Hm. apply radius_mul in Hr.
  assert (L : forall on step ks s, on k = true -> In k ks ->
    overMasks ks on (fun k => overRadii lab k (step k) [] (radii scale [])) s = None).
  { intros on step ks. induction ks as [|k' ks IH]; intros s Ho [].
    - subst k'. cbn [overMasks]. rewrite Ho. cbn [radii overRadii]. rewrite Hr. reflexivity.
    - cbn [overMasks]. destruct (on k'); [|apply IH; assumption].
      cbn [radii overRadii]. destruct (mulmask k'); [reflexivity|]. apply IH; assumption. }
  unfold measure. cbv zeta. destruct (energyBlock _ _ _ _ _ _ _ _) as [s|]; [|reflexivity].
  unfold spectrumBlock. destruct (if a_mask a then _ else _) as [s1|]; [|reflexivity]. rewrite Hn.
  rewrite L; [reflexivity|exact Hm|apply all_masks].
Qed.

(** Refuted: of two radii with the same two decimals only the first is kept. *)
Theorem same_label_refuted :
  let asked := [1001 # 1000; 1002 # 1000]%Q in let mask k := match k with Red => true | _ => false end in
  exists f, measure SaxionField true hundredths (fun r => r) asked mask false false kOnly (fun _ => None) = Some f /\
    ~ spectrumThere (fun r => r) hundredths QK Red (1002 # 1000)%Q f.
Proof.
  cbn zeta. eexists; split; [reflexivity|]. intro S.
  destruct (S (Name QK Red (Some 100%Z))) as (b & E & A & _).
  - apply named_label. vm_compute. reflexivity.
  - assert (b = Stuff QK Red (Some (Red, (1001 # 1000)%Q))).
    { vm_compute in E. injection E as E. symmetry. exact E. }
    subst b. assert (H : hasRadius Red) by (apply radius_mul; reflexivity). specialize (A H). injection A as A. discriminate.
Qed.

Print Assumptions axion_spectra_partial.
Print Assumptions axion_energy_spectra.
Print Assumptions axiton_spectra_refuted.
Print Assumptions axiton2_spectra_refuted.
Print Assumptions axiton_mask_refuted.
Print Assumptions no_radius_refuted.
Print Assumptions same_label_refuted.

(** The hypotheses of the theorems on the axion hold for axitons at two radii. *)
Example axion_ex :
  let asked := [1; 2]%Q in let mask k := match k with Flat | Axit => true | _ => false end in
  radiiOk AxionField hundredths asked mask /\ askedMask AxionField mask Axit /\ measuredFor asked Flat 1 /\
  wanted AxionField true allAsk QV /\ askedMask AxionField mask Flat.
Proof.
  cbn zeta. split; [|split; [|split; [|split]]].
  - split; [vm_compute; repeat constructor; cbn; intuition discriminate|discriminate].
  - split; cbn; auto.
  - split; [intro H; destruct H; cbn; auto|reflexivity].
  - cbn. auto.
  - split; cbn; auto.
Qed.
