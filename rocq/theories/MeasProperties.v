(** The spectra a measurement of the complex field writes are under their own names (C107). *)
From Coq Require Import List Bool ZArith QArith Qround Lia.
From Verif Require Import MeasModel MeasSpec MeasProofs MeasSaxProofs.
Import ListNotations.
Local Open Scope nat_scope.

Lemma radius_mul k : hasRadius k <-> mulmask k = true.
Proof. unfold hasRadius. destruct k; cbn; split; intuition (discriminate || auto). Qed.

Lemma named_label lab q k r n : named lab q k r n <-> n = Name q k (labelOf lab k r).
Proof.
  unfold named, labelOf. pose proof (radius_mul k) as R. destruct n as [q' k' l']. cbn. split.
  - intros (-> & -> & A & B). f_equal. destruct (mulmask k); [apply A, R; reflexivity|apply B; intro H; apply R in H; discriminate].
  - intro E. injection E as -> -> ->. repeat split; auto.
    + intro H. apply R in H. rewrite H. reflexivity.
    + intro H. destruct (mulmask k); [destruct H; apply R; reflexivity|reflexivity].
Qed.

(** The radii a mask is measured for: every one asked for, or for a mask without radius just once. *)
Definition measuredFor (asked : list Q) (k : mk) (r : Q) : Prop :=
  (hasRadius k -> In r asked) /\ (~ hasRadius k -> hd_error (asked ++ [0%Q]) = Some r).

Lemma measured_run asked k r : measuredFor asked k r -> runFor asked k r.
Proof.
  intros [A B]. unfold runFor. pose proof (radius_mul k) as R. destruct (mulmask k).
  - apply A, R. reflexivity.
  - assert (H : hd_error (asked ++ [0%Q]) = Some r) by (apply B; intro H; apply R in H; discriminate).
    destruct asked; cbn in H; congruence.
Qed.
Lemma run_measured asked k r : runFor asked k r -> measuredFor asked k r.
Proof.
  unfold runFor, measuredFor. pose proof (radius_mul k) as R. intro H. destruct (mulmask k).
  - split; [intros _; exact H|]. intro N. destruct N. apply R. reflexivity.
  - split; [intro N; apply R in N; discriminate|]. intros _. destruct asked; cbn; congruence.
Qed.

Definition askedMask ft (mask : mk -> bool) (k : mk) : Prop := In k (ofField ft) /\ mask k = true.
Lemma asked_on ft mask k : askedMask ft mask k <-> onOf ft mask k = true.
Proof.
  unfold askedMask, onOf. destruct ft, k; cbn; split; intuition (discriminate || auto).
Qed.

(** The conditions on the request: printed radii are distinct, and there are some if a mask needs them. *)
Definition radiiOk ft (lab : Q -> Z) (asked : list Q) (mask : mk -> bool) : Prop :=
  NoDup (map lab asked) /\ (forall k, askedMask ft mask k -> hasRadius k -> asked <> []).

Lemma ok_run ft lab asked mask : radiiOk ft lab asked mask ->
  NoDup (map lab asked) /\ forall k, onOf ft mask k = true -> mulmask k = true -> asked <> [].
Proof. intros [A B]. split; [exact A|]. intros k Ho Hm. apply (B k); [apply asked_on; exact Ho|apply radius_mul; exact Hm]. Qed.

Lemma right_src scale q k r : five k -> q <> QMask -> rightFor scale q k r (Stuff q k (src5 k (scale r))).
Proof.
  intros Hk Hq. unfold rightFor, hasRadius.
  destruct Hk as [<-|[<-|[<-|[<-|[<-|[]]]]]]; destruct q; try contradiction; cbn; split; intro H; reflexivity || (exfalso; apply H; tauto) || (exfalso; apply H; intuition discriminate).
Qed.

(** Every spectrum asked for of the complex field with no mask, with the two weights, with balls or with the mask of
    strings is in the file under its name, for every radius, whatever the other masks and quantities
    asked for. Partial: the nonlinear potential needs the linear one, and its version without correction is never right;
    gradients and potential without correction are not right with balls; and the smooth masks are below. *)
Theorem saxion_spectra_partial : forall mass lab scale asked mask em psp a q k r,
  radiiOk SaxionField lab asked mask -> a_nsp a = true ->
  wanted SaxionField mass a q -> askedMask SaxionField mask k -> measuredFor asked k r ->
  In k [Flat; Vi; Vi2; Bal; Red] -> (k = Red -> a_onlyE a = false) ->
  (q = QS -> rV (a_n a) = true) -> q <> QCS -> (k = Bal -> q <> QCG /\ q <> QCV) ->
  exists f, measure SaxionField mass lab scale asked mask em psp a (fun _ => None) = Some f /\
    spectrumThere scale lab q k r f.
Proof.
  intros mass lab scale asked mask em psp a q k r Hok Hn Hw Hm Hr Hk He Hs Hcs Hb.
  destruct (ok_run _ _ _ _ Hok) as [Hd Ha].
  destruct (sax_measure mass lab scale asked mask em psp a Hd Ha) as (f & E & G & _). exists f. split; [exact E|].
  intros n Hnm. apply named_label in Hnm. subst n.
  assert (Hq : q <> QMask /\ q <> QP) by (split; intros ->; exact Hw). destruct Hq as [Hq Hp].
  destruct (G (Name q k (labelOf lab k r)) Hq Hp Hn (proj1 (asked_on _ _ _) Hm) r (measured_run _ _ _ Hr) eq_refl) as (t & It & Et).
  cbn [n_k n_r] in Et. rewrite content5 in Et; try assumption.
  - eexists; split; [exact Et|]. apply right_src; assumption.
  - unfold sound5. destruct q; auto; try (apply Hb; assumption); intro Ek; destruct (Hb Ek); auto.
  - unfold skipped. destruct k; auto.
Qed.

(** The spectrum of every mask of the complex field is in the file, once, if masks or spectra were asked for. *)
Theorem saxion_masks : forall mass lab scale asked mask em psp a k r,
  radiiOk SaxionField lab asked mask -> a_mask a = true \/ a_nsp a = true ->
  askedMask SaxionField mask k -> k <> Flat -> measuredFor asked k r ->
  exists f, measure SaxionField mass lab scale asked mask em psp a (fun _ => None) = Some f /\
    spectrumThere scale lab QMask k r f.
Proof.
  intros mass lab scale asked mask em psp a k r Hok Hn Hm Hk Hr.
  destruct (ok_run _ _ _ _ Hok) as [Hd Ha].
  destruct (sax_measure mass lab scale asked mask em psp a Hd Ha) as (f & E & _ & G & _). exists f. split; [exact E|].
  intros n Hnm. apply named_label in Hnm. subst n. eexists. split; [|reflexivity].
  apply (G (Name QMask k (labelOf lab k r)) eq_refl (proj1 (asked_on _ _ _) Hm) Hk); [|apply measured_run; exact Hr|reflexivity].
  destruct Hn as [->| ->]; [reflexivity|apply orb_true_r].
Qed.

(** And nothing else is written: each dataset is the spectrum of the energy, or of a mask asked for, or of a
    quantity asked for outside a mask and a radius asked for. *)
Theorem saxion_nothing_else : forall mass lab scale asked mask em psp a,
  radiiOk SaxionField lab asked mask ->
  exists f, measure SaxionField mass lab scale asked mask em psp a (fun _ => None) = Some f /\
  forall n, f n <> None ->
    (n = Name QP Flat None /\ psp = true) \/
    exists q k r, named lab q k r n /\ askedMask SaxionField mask k /\ measuredFor asked k r /\
      ((q = QMask /\ k <> Flat /\ (a_mask a = true \/ a_nsp a = true)) \/
       (a_nsp a = true /\ (k = Red -> a_onlyE a = false) /\ wanted SaxionField mass a q)).
Proof.
  intros mass lab scale asked mask em psp a Hok. destruct (ok_run _ _ _ _ Hok) as [Hd Ha].
  destruct (sax_measure mass lab scale asked mask em psp a Hd Ha) as (f & E & _ & _ & G). exists f. split; [exact E|].
  intros n Hn. destruct (G n Hn) as [H|(Ho & (r & Hr & El) & H)]; [left; exact H|right].
  exists (n_q n), (n_k n), r. split; [apply named_label; rewrite <- El; apply name_eta|].
  split; [apply asked_on; exact Ho|]. split; [apply run_measured; exact Hr|].
  destruct H as [(A & B & C)|(A & B & C)]; [left; split; [exact A|]; split; [exact B|apply orb_prop; exact C]|right].
  split; [exact A|]. split; [|exact C]. intro Ek. unfold skipped in B. rewrite Ek in B. exact B.
Qed.

(** The state in which the spectra of a smooth mask start. *)
Lemma smooth1 printed k r l s : k = Gau \/ k = Dif -> sdMap s = true ->
  nRunReady k (st1 SaxionField printed k r l s) = true /\ half (st1 SaxionField printed k r l s) = Some (k, r).
Proof. intros Hk Hs. unfold st1, nspMask. destruct Hk as [-> | ->]; destruct printed; cbn; rewrite Hs; cbn; split; reflexivity. Qed.

Lemma smooth2 mass a printed k r l s : k = Gau \/ k = Dif -> sdMap s = true -> rG (a_n a) = true ->
  nRunReady k (st2 SaxionField mass a printed k r l s) = true /\ half (st2 SaxionField mass a printed k r l s) = None.
Proof.
  intros Hk Hs Hg. destruct (smooth1 printed k r l s Hk Hs) as [A B]. unfold st2. revert A B. generalize (st1 SaxionField printed k r l s). intros s1 A B.
  destruct (plain_step SaxionField mass (a_n a) k l s1) as [C _]. rewrite Hg in C. rewrite orb_true_r in C. cbn [orb] in C.
  destruct C as (_&c2&_&_&_&_&c7&_). split.
  - destruct (nrun_keeps SaxionField mass k (NRun (rK (a_n a)) true (rV (a_n a)) (rS (a_n a)) false false false false) s1) as (_&m&_).
    unfold nRunReady in *. destruct Hk as [-> | ->]; rewrite c2, m; exact A.
  - rewrite c7. cbn [nRun]. unfold nRunSax. rewrite A. reflexivity.
Qed.

(** The smooth masks: the kinetic spectrum and the potential are right. *)
Theorem smooth_spectra_partial : forall mass lab scale asked mask em psp a q k r,
  radiiOk SaxionField lab asked mask -> a_nsp a = true ->
  wanted SaxionField mass a q -> askedMask SaxionField mask k -> measuredFor asked k r ->
  k = Gau \/ k = Dif -> q = QK \/ q = QV ->
  exists f, measure SaxionField mass lab scale asked mask em psp a (fun _ => None) = Some f /\
    spectrumThere scale lab q k r f.
Proof.
  intros mass lab scale asked mask em psp a q k r Hok Hn Hw Hm Hr Hk Hq.
  destruct (ok_run _ _ _ _ Hok) as [Hd Ha].
  destruct (sax_measure mass lab scale asked mask em psp a Hd Ha) as (f & E & G & _). exists f. split; [exact E|].
  intros n Hnm. apply named_label in Hnm. subst n.
  destruct (G (Name q k (labelOf lab k r))) with (r0 := r) as (t & It & Et); cbn [n_q n_k n_r]; try (destruct Hq as [-> | ->]; discriminate);
    [exact Hn|apply asked_on; exact Hm|apply measured_run; exact Hr|reflexivity|].
  cbn [n_k n_r] in Et. rewrite addStep_q in Et. cbv zeta in Et.
  destruct (smooth1 (a_mask a) k (scale r) (labelOf lab k r) t Hk It) as [A B].
  replace (skipped a k) with false in Et by (destruct Hk as [-> | ->]; reflexivity).
  unfold plainRun in Et. cbn [nRun] in Et. unfold nRunSax in Et. rewrite A in Et. cbn [negb rK rV rCK rCV andb] in Et.
  assert (Es : source k (st1 SaxionField (a_mask a) k (scale r) (labelOf lab k r) t) = Some (k, scale r)).
  { unfold source. destruct Hk as [-> | ->]; exact B. }
  rewrite Es in Et. exists (Stuff q k (Some (k, scale r))). split.
  - rewrite Et. destruct Hq as [-> | ->]; cbn [wanted] in Hw; [rewrite Hw|destruct Hw as [Hv Hmm]; rewrite Hv, Hmm]; reflexivity.
  - assert (Hrad : hasRadius k) by (apply radius_mul; destruct Hk as [-> | ->]; reflexivity).
    unfold rightFor. destruct Hq as [-> | ->]; split; intro H; reflexivity || contradiction.
Qed.

(** Refuted: their gradients are not; nor is the kinetic spectrum without correction once the
    gradient was asked for, since by then the mask is lost; nor the spectra of the radial field, under whose
    names something else is written. *)
Theorem smooth_spectra_refuted : forall mass lab scale asked mask em psp a k r,
  radiiOk SaxionField lab asked mask -> a_nsp a = true ->
  askedMask SaxionField mask k -> measuredFor asked k r -> k = Gau \/ k = Dif -> rG (a_n a) = true ->
  exists f, measure SaxionField mass lab scale asked mask em psp a (fun _ => None) = Some f /\
    ~ spectrumThere scale lab QG k r f /\
    (rCK (a_n a) = true -> ~ spectrumThere scale lab QCK k r f) /\
    (a_nspS a = true -> ~ spectrumThere scale lab QGS k r f).
Proof.
  intros mass lab scale asked mask em psp a k r Hok Hn Hm Hr Hk Hg.
  destruct (ok_run _ _ _ _ Hok) as [Hd Ha].
  destruct (sax_measure mass lab scale asked mask em psp a Hd Ha) as (f & E & G & _). exists f. split; [exact E|].
  assert (Hrad : hasRadius k) by (apply radius_mul; destruct Hk as [-> | ->]; reflexivity).
  assert (Hsk : skipped a k = false) by (destruct Hk as [-> | ->]; reflexivity).
  assert (Get : forall q, q <> QMask -> q <> QP -> exists t, hasMap t /\
    f (Name q k (labelOf lab k r)) = addStep SaxionField mass a (a_mask a) k (scale r) (labelOf lab k r) t (Name q k (labelOf lab k r))).
  { intros q Hq Hp. apply (G (Name q k (labelOf lab k r)) Hq Hp Hn); [apply asked_on; exact Hm|apply measured_run; exact Hr|reflexivity]. }
  split; [|split].
  - intro S. destruct (S (Name QG k (labelOf lab k r))) as (b & Eb & Rb); [apply named_label; reflexivity|].
    destruct (Get QG) as (t & It & Et); [discriminate|discriminate|]. rewrite Et, addStep_q in Eb. cbv zeta in Eb. rewrite Hsk, Hg in Eb.
    destruct (smooth1 (a_mask a) k (scale r) (labelOf lab k r) t Hk It) as [A B].
    unfold plainRun in Eb. cbn [nRun] in Eb. unfold nRunSax in Eb. rewrite A, Hg in Eb. cbn in Eb.
    injection Eb as Eb. destruct Rb as [Rb _]. rewrite <- Eb in Rb. destruct Hk as [-> | ->]; discriminate (Rb Hrad).
  - intros Hc S. destruct (S (Name QCK k (labelOf lab k r))) as (b & Eb & Rb); [apply named_label; reflexivity|].
    destruct (Get QCK) as (t & It & Et); [discriminate|discriminate|]. rewrite Et, addStep_q in Eb. cbv zeta in Eb. rewrite Hsk, Hc in Eb.
    destruct (smooth2 mass a (a_mask a) k (scale r) (labelOf lab k r) t Hk It Hg) as [A B].
    unfold pureRun in Eb. cbn [nRun] in Eb. unfold nRunSax in Eb. rewrite A, Hc in Eb. cbn in Eb.
    injection Eb as Eb. destruct Rb as [Rb _]. rewrite <- Eb in Rb. unfold source in Rb. rewrite B in Rb. destruct Hk as [-> | ->]; discriminate (Rb Hrad).
  - intros Hc S. destruct (S (Name QGS k (labelOf lab k r))) as (b & Eb & Rb); [apply named_label; reflexivity|].
    destruct (Get QGS) as (t & It & Et); [discriminate|discriminate|]. rewrite Et, addStep_q in Eb. cbv zeta in Eb. rewrite Hsk, Hg in Eb.
    unfold radialOn in Eb. rewrite Hc in Eb. cbn [andb] in Eb. unfold radialRun in Eb.
    assert (En : forall n s, nSRun k n s = s) by (intros; destruct Hk as [-> | ->]; reflexivity). rewrite En in Eb. injection Eb as Eb.
    destruct Rb as [Rb _]. specialize (Rb Hrad). rewrite <- Eb in Rb. clear Eb b En S Get Et.
    destruct (smooth2 mass a (a_mask a) k (scale r) (labelOf lab k r) t Hk It Hg) as [A B].
    unfold st3 in Rb.
    destruct (pure_step SaxionField mass (a_n a) k (labelOf lab k r) (st2 SaxionField mass a (a_mask a) k (scale r) (labelOf lab k r) t)) as [C _].
    destruct (_ || _ || _ || _) in C.
    + destruct C as (_&_&_&_&_&_&_&_&c9&_). rewrite c9 in Rb. cbn [nRun] in Rb. unfold nRunSax in Rb. rewrite A in Rb.
      cbn in Rb. destruct (rCG (a_n a)); destruct Hk as [-> | ->]; discriminate.
    + rewrite C in Rb. clear C. unfold st2 in Rb.
      destruct (plain_step SaxionField mass (a_n a) k (labelOf lab k r) (st1 SaxionField (a_mask a) k (scale r) (labelOf lab k r) t)) as [C _].
      rewrite Hg, orb_true_r in C. cbn [orb] in C. destruct C as (_&_&_&_&_&_&_&_&c9&_). rewrite c9 in Rb. cbn [nRun] in Rb. unfold nRunSax in Rb.
      destruct (smooth1 (a_mask a) k (scale r) (labelOf lab k r) t Hk It) as [A1 _]. rewrite A1 in Rb.
      cbn in Rb. destruct Hk as [-> | ->]; discriminate.
Qed.

(** Refuted: with balls the gradient and the potential without correction are of whatever was in the buffer. *)
Theorem ball_pure_refuted : forall mass lab scale asked mask em psp a r q,
  radiiOk SaxionField lab asked mask -> a_nsp a = true -> askedMask SaxionField mask Bal -> In r asked ->
  wanted SaxionField mass a q -> q = QCG \/ q = QCV ->
  exists f, measure SaxionField mass lab scale asked mask em psp a (fun _ => None) = Some f /\
    f (Name q Bal (Some (lab r))) = Some Garbled.
Proof.
  intros mass lab scale asked mask em psp a r q Hok Hn Hm Hr Hw Hq.
  destruct (ok_run _ _ _ _ Hok) as [Hd Ha].
  destruct (sax_measure mass lab scale asked mask em psp a Hd Ha) as (f & E & G & _). exists f. split; [exact E|].
  destruct (G (Name q Bal (Some (lab r)))) with (r0 := r) as (t & It & Et); cbn [n_q n_k n_r]; try (destruct Hq as [-> | ->]; discriminate);
    [exact Hn|apply asked_on; exact Hm|exact Hr|reflexivity|].
  rewrite Et. cbn [n_k n_r]. rewrite addStep_q. cbv zeta. cbn [skipped].
  unfold pureRun. cbn [nRun]. unfold nRunSax. cbn [nRunReady negb rCG rCV].
  destruct Hq as [-> | ->]; cbn [wanted] in Hw; [rewrite Hw|destruct Hw as [Hv Hmm]; rewrite Hv, Hmm]; reflexivity.
Qed.

(** Refuted: asked for without the linear potential, the spectrum of the nonlinear one is zero; without correction
    it always is. *)
Theorem nonlinear_potential_refuted : forall mass lab scale asked mask em psp a k r q,
  radiiOk SaxionField lab asked mask -> a_nsp a = true -> askedMask SaxionField mask k -> measuredFor asked k r ->
  In k [Flat; Vi; Vi2; Bal; Red] -> (k = Red -> a_onlyE a = false) ->
  wanted SaxionField mass a q -> (q = QS /\ rV (a_n a) = false) \/ q = QCS ->
  exists f, measure SaxionField mass lab scale asked mask em psp a (fun _ => None) = Some f /\
    f (Name q k (labelOf lab k r)) = Some Zero.
Proof.
  intros mass lab scale asked mask em psp a k r q Hok Hn Hm Hr Hk He Hw Hq.
  destruct (ok_run _ _ _ _ Hok) as [Hd Ha].
  destruct (sax_measure mass lab scale asked mask em psp a Hd Ha) as (f & E & G & _). exists f. split; [exact E|].
  destruct (G (Name q k (labelOf lab k r))) with (r0 := r) as (t & It & Et); cbn [n_q n_k n_r]; try (destruct Hq as [[-> _] | ->]; discriminate);
    [exact Hn|apply asked_on; exact Hm|apply measured_run; exact Hr|reflexivity|].
  rewrite Et. cbn [n_k n_r]. rewrite addStep_q. cbv zeta.
  replace (skipped a k) with false by (unfold skipped; destruct k; auto; symmetry; apply He; reflexivity).
  destruct (good1 (a_mask a) k (scale r) (labelOf lab k r) t Hk It) as [A _].
  destruct (good2 mass a (a_mask a) k (scale r) (labelOf lab k r) t Hk It) as [A2 _].
  destruct Hq as [[-> Hv] | ->]; cbn [wanted] in Hw; destruct Hw as [Hs Hmm]; subst mass; rewrite Hs; cbn [andb].
  - unfold plainRun. cbn [nRun]. unfold nRunSax. rewrite A. cbn. rewrite Hv. reflexivity.
  - unfold pureRun. cbn [nRun]. unfold nRunSax. rewrite A2. reflexivity.
Qed.

Print Assumptions saxion_spectra_partial.
Print Assumptions saxion_masks.
Print Assumptions saxion_nothing_else.
Print Assumptions smooth_spectra_partial.
Print Assumptions smooth_spectra_refuted.
Print Assumptions ball_pure_refuted.
Print Assumptions nonlinear_potential_refuted.

(** Masks of strings and balls at two radii, with everything asked for: the hypotheses hold. *)
Definition hundredths (r : Q) : Z := Qfloor (r * 100 + (1 # 2))%Q.
Definition allAsk := Ask (NRun true true true true true true true true) true true true false.
Example measure_ex :
  let asked := [1 # 2; 3 # 2]%Q in
  let mask k := match k with Red | Bal | Flat | Gau => true | _ => false end in
  radiiOk SaxionField hundredths asked mask /\ askedMask SaxionField mask Red /\ measuredFor asked Red (3 # 2) /\
  wanted SaxionField true allAsk QVS /\
  exists f, measure SaxionField true hundredths (fun r => r / (1 # 4))%Q asked mask true true allAsk (fun _ => None) = Some f /\
    f (Name QVS Red (Some 150%Z)) = Some (Stuff QVS Red (Some (Red, ((3 # 2) / (1 # 4))%Q))) /\
    f (Name QG Gau (Some 50%Z)) = Some Garbled.
Proof.
  cbn zeta. split; [|split; [|split; [|split; [|eexists; split; [reflexivity|split; vm_compute; reflexivity]]]]].
  - split; [vm_compute; repeat constructor; cbn; intuition discriminate|discriminate].
  - split; cbn; auto 10.
  - split; [cbn; auto|]. intro H. destruct H. apply radius_mul. reflexivity.
  - cbn. auto.
Qed.
