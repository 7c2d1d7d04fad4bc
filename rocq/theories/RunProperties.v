(** C111: the numbers of the measurement files, and measurements each so many steps. C113: stopping a run. *)
From Coq Require Import Reals List Arith NArith Bool Lia Lra.
From Verif Require Import RunModel RunSpec RunProofs RunListProperties.
Import ListNotations.
Local Open Scope R_scope.
Ltac Zify.zify_post_hook ::= idtac.

(** *** Numbers *)
(** All the measurements of a run have numbers one after the other from its first, whatever the library and the signals, and a
    run that is stopped leaves the next one for the restart. *)
Theorem numbers {S} (L : lib S) o fl b f g ms : endedWith (program L o fl b f) g ms -> map mIndex ms = seq (starts b) (length ms) /\
  forall k s, program L o fl b f = Stopped (ERestart k) s -> k = (starts b + length ms)%nat.
Proof.
  unfold program. destruct (prepare L o b f) as [s|] eqn:P; [|intros []]. apply numbered_prepare in P.
  pose proof (numbered_turns L o (doom L f) fl (starts b) (oSteps o) 0 s P) as T. destruct (turns L o (doom L f) fl (oSteps o) 0 s) as [|s'|s'|e s']; cbn [endedWith]; try contradiction.
  - intros [<- _]. pose proof (numbered_finish L o (starts b) s' T) as [A B]. split; [exact A|]. intros k s1 Q. discriminate Q.
  - intros [_ <-]. destruct T as [[A B] C]. split; [exact A|]. intros k s1 Q. injection Q as -> ->. rewrite <- B. apply (C k). reflexivity.
Qed.
(** No number is used twice or left out across a restart. *)
Theorem numbers_restart {S} (L : lib S) o o' fl fl' b f k s1 g ms : program L o fl b f = Stopped (ERestart k) s1 -> endedWith (program L o' fl' (Restart k) (fs s1)) g ms ->
  map mIndex (out s1 ++ ms) = seq (starts b) (length (out s1 ++ ms)).
Proof.
  intros P E. destruct (numbers L o fl b f (fs s1) (out s1)) as [A B]; [rewrite P; cbn; split; reflexivity|]. pose proof (B k s1 P) as K.
  destruct (numbers L o' fl' (Restart k) (fs s1) g ms E) as [C _]. cbn [starts] in C. rewrite map_app, A, C, app_length, seq_app, K. reflexivity.
Qed.

(** *** Each so many steps *)
Definition multiples (n t : nat) : list nat := filter (fun i => (i mod n =? 0)%nat) (seq 0 t).
Definition InvE {S} (o : opts) (iz : nat) (s : loop S) : Prop := now s = false /\ map mStep (madeAt Sched (out s)) = multiples (oEvery o) iz.
Lemma multiples_S n t : multiples n (t + 1) = multiples n t ++ (if (t mod n =? 0)%nat then [t] else []).
Proof. unfold multiples. rewrite seq_app, filter_app. cbn [seq filter]. rewrite Nat.add_0_l. destruct (t mod n =? 0)%nat; reflexivity. Qed.
Lemma every_decide {S} (L : lib S) o iz s : oDump o = EveryN -> (0 < oEvery o)%nat -> now s = false ->
  exists s0, decide L o iz s = Some (stepOf L o s, s0) /\ fs s0 = fs s /\ now s0 = (iz mod oEvery o =? 0)%nat /\ out s0 = out s /\ strC s0 = strC s.
Proof.
  intros D N Nw. unfold decide. rewrite D. cbv zeta. destruct (Nat.eqb_spec (oEvery o) 0); [lia|]. fold (stepOf L o s). eexists. split; [reflexivity|].
  destruct (iz mod oEvery o =? 0)%nat; cbn [fs now out strC]; repeat split; assumption.
Qed.
Lemma every_turn {S} (L : lib S) o zd fl iz s : sound L -> oDump o = EveryN -> (0 < oEvery o)%nat -> InvE o iz s ->
  match turn L o zd fl iz s with
  | Fault => False
  | Next s' | Exit _ s' => InvE o (iz + 1) s' /\ zOf L (fs s') = zOf L (fs s) + stepOf L o s /\ zOf L (fs s') < zEnd o /\ / 10 ^ 10 <= zEnd o - zOf L (fs s')
  | Break s' => map mStep (madeAt Sched (out s')) = multiples (oEvery o) iz /\ zOf L (fs s') = zOf L (fs s) + stepOf L o s /\ zEnd o - / 10 ^ 10 < zOf L (fs s')
  end.
Proof.
  intros W D N [Nw M]. destruct (every_decide L o iz s D N Nw) as [s0 [Dc [F0 [N0 [O0 _]]]]].
  remember (checks L o zd iz (moved L (stepOf L o s) s0)) as s2 eqn:E2. destruct (checks_shape L o zd iz _ s2 E2) as [_ [N2 [_ Sh]]]. cbn [moved now] in N2. rewrite N0 in N2.
  assert (Z2 : zOf L (fs s2) = zOf L (fs s) + stepOf L o s).
  { destruct Sh as [[_ [A _]]|[_ [a [b [_ [_ [_ A]]]]]]]; rewrite A; [|rewrite (theta_time L W)]; cbn [moved fs]; rewrite (step_time L W), F0; reflexivity. }
  assert (O2 : madeAt Sched (out s2) = madeAt Sched (out s)).
  { destruct Sh as [[A _]|[_ [a [b [A [TA [TB _]]]]]]]; rewrite A; cbn [moved out]; rewrite O0; [reflexivity|]. apply (Inv_app L); assumption. }
  assert (P10 : 0 < / 10 ^ 10) by (apply Rinv_0_lt_compat, pow_lt; lra).
  clear Sh. destruct (turn_cases L o zd fl iz s _ s0 s2 Dc E2) as [[Br T]|[Zl [Za [s3 [E3 T]]]]]; clear E2; rewrite T.
  - rewrite O2. split; [exact M|]. split; [exact Z2|]. destruct Br as [Br|Br]; [lra|]. apply Rabs_def2 in Br. lra.
  - assert (G : InvE o (iz + 1) s3 /\ zOf L (fs s3) = zOf L (fs s) + stepOf L o s /\ zOf L (fs s3) < zEnd o /\ / 10 ^ 10 <= zEnd o - zOf L (fs s3)).
    { rewrite Rabs_left1 in Za by lra. rewrite N2 in E3. unfold InvE. rewrite multiples_S. destruct (iz mod oEvery o =? 0)%nat.
      - destruct (taken_keeps L iz s2) as [F3 [_ [N3 [_ [_ [_ [_ [_ O3]]]]]]]]. rewrite <- E3 in F3, N3, O3. rewrite F3, N3, O3, madeAt_app, O2, madeAt_one. cbn [mTag].
        destruct (tag_eq Sched Sched) as [_|Q]; [|congruence]. rewrite map_app, M. cbn [map mStep]. repeat split; lra.
      - subst s3. rewrite O2, M, app_nil_r, N2. repeat split; lra. }
    destruct (verdict fl) as [|[|[|[|v]]]]; exact G.
Qed.
(** Each oEvery steps, from the first, a measurement is made: in a run of t full steps, those of the numbers that oEvery divides. The
    run does not fault, and either made all its steps, or stopped at a signal, or got to the end, by one step. *)
Lemma every_turns {S} (L : lib S) o zd fl n iz s : sound L -> oDump o = EveryN -> (0 < oEvery o)%nat -> InvE o iz s -> zOf L (fs s) < zEnd o ->
  match turns L o zd fl n iz s with
  | Fault | Next _ => False
  | Exit _ s' => exists t, (t <= iz + n)%nat /\ map mStep (madeAt Sched (out s')) = multiples (oEvery o) t
  | Break s' => exists t, (t <= iz + n)%nat /\ map mStep (madeAt Sched (out s')) = multiples (oEvery o) t /\
      (t = (iz + n)%nat \/ (zEnd o - / 10 ^ 10 < zOf L (fs s') /\ exists s1, zOf L (fs s1) < zEnd o /\ zOf L (fs s') = zOf L (fs s1) + stepOf L o s1))
  end.
Proof.
  intros W D N. revert iz s. induction n as [|n IH]; intros iz s H Z; cbn [turns]; [exists iz; split; [lia|]; split; [apply H|left; lia]|].
  pose proof (every_turn L o zd (fl iz) iz s W D N H) as T. destruct (turn L o zd (fl iz) iz s) as [|s'|s'|e s']; [exact T| | |].
  - destruct T as [T [Z1 [Z2 _]]]. pose proof (IH (iz + 1)%nat s' T Z2) as R. destruct (turns L o zd fl n (iz + 1) s') as [|s2|s2|e s2] eqn:Et; try exact R.
    + destruct R as [t [R1 [R2 R3]]]. exists t. split; [lia|]. split; [exact R2|]. destruct R3 as [R3|R3]; [left; lia|right; exact R3].
    + destruct R as [t [R1 R2]]. exists t. split; [lia|exact R2].
  - destruct T as [T1 [T2 T3]]. exists iz. split; [lia|]. split; [exact T1|]. right. split; [exact T3|]. exists s. split; [exact Z|exact T2].
  - destruct T as [T _]. exists (iz + 1)%nat. split; [lia|]. apply T.
Qed.
Lemma every_prepare {S} (L : lib S) o b f : oDump o = EveryN -> exists s, prepare L o b f = Some s /\ fs s = f /\ InvE o 0 s /\ strC s = 0%nat /\ unfinished s.
Proof. intros D. unfold prepare. rewrite D. cbv zeta. eexists. split; [reflexivity|]. destruct b; cbn; repeat split. Qed.
Theorem every_schedule_partial {S} (L : lib S) o fl b f : sound L -> oDump o = EveryN -> (0 < oEvery o)%nat -> zOf L f < zEnd o ->
  exists g ms t, endedWith (program L o fl b f) g ms /\ (t <= oSteps o)%nat /\ map mStep (madeAt Sched ms) = multiples (oEvery o) t /\
    ((exists s, program L o fl b f = Done s) -> t = oSteps o \/
      (zEnd o - / 10 ^ 10 < zOf L g /\ exists s1, zOf L (fs s1) < zEnd o /\ zOf L g = zOf L (fs s1) + stepOf L o s1)).
Proof.
  intros W D N Z. destruct (every_prepare L o b f D) as [s [P [F [H [_ U]]]]]. unfold program. rewrite P.
  pose proof (every_turns L o (doom L f) fl (oSteps o) 0 s W D N H ltac:(rewrite F; exact Z)) as T. pose proof (unfinished_turns L o (doom L f) fl (oSteps o) 0 s U) as U'.
  destruct (turns L o (doom L f) fl (oSteps o) 0 s) as [|s'|s'|e s']; try contradiction.
  - destruct T as [t [T1 [T2 T3]]]. exists (fs s'), (out (finish L o s')), t. split; [apply finish_ended; exact U'|]. split; [exact T1|]. rewrite finish_sched. split; [exact T2|].
    intros _. exact T3.
  - destruct T as [t [T1 T2]]. exists (fs s'), (out s'), t. split; [cbn; split; reflexivity|]. split; [exact T1|]. split; [exact T2|]. intros [x Q]. discriminate Q.
Qed.
(** Steps of equal length: the run makes them all but for the test of the end, and ends exactly at the end. *)
Lemma fixed_turns {S} (L : lib S) o zd fl n iz s : sound L -> oDump o = EveryN -> (0 < oEvery o)%nat -> oAdapt o = false -> InvE o iz s ->
  (forall k, verdict (fl k) = 0%nat \/ verdict (fl k) = 4%nat) -> (iz + n)%nat = oSteps o -> (0 < n)%nat -> / 10 ^ 10 <= (zEnd o - oZInit o) / INR (oSteps o) ->
  zOf L (fs s) = oZInit o + INR iz * ((zEnd o - oZInit o) / INR (oSteps o)) ->
  match turns L o zd fl n iz s with Break s' => map mStep (madeAt Sched (out s')) = multiples (oEvery o) (oSteps o - 1) /\ zOf L (fs s') = zEnd o | _ => False end.
Proof.
  intros W D N A. set (h := (zEnd o - oZInit o) / INR (oSteps o)). revert iz s. induction n as [|n IH]; intros iz s H Fl Sn Np Hh Z; [lia|].
  assert (P10 : 0 < / 10 ^ 10) by (apply Rinv_0_lt_compat, pow_lt; lra).
  assert (HF : zEnd o = oZInit o + INR (oSteps o) * h).
  { unfold h. assert (0 < INR (oSteps o)) by (apply lt_0_INR; lia). unfold Rdiv. rewrite (Rmult_comm (zEnd o - oZInit o)), <- Rmult_assoc, Rinv_r by lra. lra. }
  cbn [turns]. pose proof (every_turn L o zd (fl iz) iz s W D N H) as T. unfold stepOf in T. rewrite A in T. fold h in T.
  assert (HS : INR (oSteps o) = INR iz + INR n + 1) by (rewrite <- Sn, plus_INR, S_INR; lra). pose proof (pos_INR n) as PN.
  destruct (turn L o zd (fl iz) iz s) as [|s'|s'|e s'] eqn:Et; [exact T| | |].
  - destruct T as [T [Z1 [Z2 Z3]]]. destruct n as [|n].
    + exfalso. cbn [INR] in HS. rewrite Z1, Z in Z2. rewrite HF, HS in Z2. lra.
    + apply IH; try assumption; try lia. rewrite Z1, Z, plus_INR. cbn [INR]. lra.
  - destruct T as [T1 [T2 T3]]. destruct n as [|n].
    + cbn [INR] in HS. split; [rewrite T1; f_equal; lia|]. rewrite T2, Z, HF, HS. lra.
    + exfalso. rewrite T2, Z, HF, HS, S_INR in T3. pose proof (pos_INR n). assert (0 <= INR n * h) by (apply Rmult_le_pos; lra). lra.
  - exfalso. destruct (decide L o iz s) as [[dz s0]|] eqn:Dc; [|unfold turn in Et; rewrite Dc in Et; discriminate Et].
    destruct (turn_cases L o zd (fl iz) iz s dz s0 _ Dc eq_refl) as [[_ T1]|[_ [_ [s3 [_ T1]]]]]; rewrite T1 in Et; [discriminate Et|].
    destruct (Fl iz) as [Q|Q]; rewrite Q in Et; discriminate Et.
Qed.
Theorem fixed_steps_partial {S} (L : lib S) o fl b f : sound L -> oDump o = EveryN -> (0 < oEvery o)%nat -> oAdapt o = false -> (0 < oSteps o)%nat -> zOf L f = oZInit o ->
  / 10 ^ 10 <= (zEnd o - oZInit o) / INR (oSteps o) -> (forall k, verdict (fl k) = 0%nat \/ verdict (fl k) = 4%nat) ->
  exists s m, program L o fl b f = Done s /\ madeAt Final (out s) = [m] /\ zOf L (mField m) = zEnd o /\ map mStep (madeAt Sched (out s)) = multiples (oEvery o) (oSteps o - 1).
Proof.
  intros W D N A Ns Z Hh Fl. destruct (every_prepare L o b f D) as [s [P [F [H [_ U]]]]]. unfold program. rewrite P.
  pose proof (unfinished_turns L o (doom L f) fl (oSteps o) 0 s U) as U'.
  assert (T : match turns L o (doom L f) fl (oSteps o) 0 s with Break s' => map mStep (madeAt Sched (out s')) = multiples (oEvery o) (oSteps o - 1) /\ zOf L (fs s') = zEnd o | _ => False end).
  { apply fixed_turns; try assumption; try lia. rewrite F, Z. cbn [INR]. lra. }
  destruct (turns L o (doom L f) fl (oSteps o) 0 s) as [|s'|s'|e' s']; try contradiction.
  destruct (finish_ended L o s' U') as [_ [m [M Mf]]]. exists (finish L o s'), m. split; [reflexivity|]. split; [exact M|]. rewrite Mf, finish_sched. split; [apply T|apply T].
Qed.
(** Steps of the size of the field: the end is gone past. *)
Definition longStep : lib (R * bool) := Lib (R * bool) fst (fun s d => (fst s + d, snd s)) (fun _ => 3) (fun _ => 0%nat) snd (fun _ => false) (fun s => (fst s, false)) (fun s z => (z, snd s)) (fun _ => -1).
Example longStep_sound : sound longStep.
Proof. split; cbn; intros; try reflexivity; lra. Qed.
Theorem every_end_refuted : exists s m, program longStep (demoOpts EveryN 50) (fun _ => []) (Fresh 0) (8, false) = Done s /\ madeAt Final (out s) = [m] /\ zOf longStep (mField m) = zEnd (demoOpts EveryN 50) + 2.
Proof.
  destruct (every_prepare longStep (demoOpts EveryN 50) (Fresh 0) (8, false) eq_refl) as [s [P [F [H [_ U]]]]].
  pose proof (every_turn longStep (demoOpts EveryN 50) (-1) [] 0 s longStep_sound eq_refl ltac:(cbn; lia) H) as T.
  pose proof (unfinished_turns longStep (demoOpts EveryN 50) (-1) (fun _ => []) 50 0 s U) as U'.
  unfold program. rewrite P. change (oSteps (demoOpts EveryN 50)) with 50%nat. change (doom longStep (8, false)) with (-1). cbn [turns] in *.
  rewrite F in T. unfold stepOf, zEnd in T. cbn [demoOpts oAdapt oDump oZFinl longStep dzSize zOf fst] in T.
  destruct (turn longStep (demoOpts EveryN 50) (-1) [] 0 s) as [|s'|s'|e s']; [destruct T|destruct T as [_ [T1 [T2 _]]]; lra| |destruct T as [_ [T1 [T2 _]]]; lra].
  destruct (finish_ended longStep (demoOpts EveryN 50) s' U') as [_ [m [M Mf]]]. exists (finish longStep (demoOpts EveryN 50) s'), m. split; [reflexivity|]. split; [exact M|].
  rewrite Mf. destruct T as [_ [T _]]. cbn [longStep zOf]. rewrite T. unfold zEnd. cbn. lra.
Qed.
(** Each 0 steps is a division by 0. *)
Theorem every_zero_refuted {S} (L : lib S) o fl b f : oDump o = EveryN -> oEvery o = 0%nat -> (0 < oSteps o)%nat -> program L o fl b f = Crash.
Proof.
  intros D N Ns. destruct (every_prepare L o b f D) as [s [P _]]. unfold program. rewrite P. destruct (oSteps o); [lia|]. cbn [turns]. unfold turn, decide. rewrite D, N. reflexivity.
Qed.
(** A run that makes all its steps before the end measures its last field twice, when the last step is due: here the only one. *)
Theorem every_twice_refuted {S} (L : lib S) o fl b f : sound L -> oDump o = EveryN -> (0 < oEvery o)%nat -> oSteps o = 1%nat -> verdict (fl 0%nat) = 0%nat ->
  zOf L f + (if oAdapt o then dzSize L f else zEnd o - oZInit o) <= zEnd o - / 10 ^ 10 ->
  exists s m1 m2, program L o fl b f = Done s /\ madeAt Sched (out s) = [m1] /\ madeAt Final (out s) = [m2] /\ mField m1 = mField m2.
Proof.
  intros W D N Ns V Z. destruct (every_prepare L o b f D) as [s [P [F [[Nw M] [_ U]]]]]. pose proof (unfinished_turns L o (doom L f) fl (oSteps o) 0 s U) as U'.
  unfold program. rewrite P. rewrite Ns in *. cbn [turns] in *.
  assert (Hs : stepOf L o s = if oAdapt o then dzSize L f else zEnd o - oZInit o) by (unfold stepOf; rewrite F, Ns; cbn [INR]; destruct (oAdapt o); lra).
  destruct (every_decide L o 0 s D N Nw) as [s0 [Dc [F0 [N0 [O0 _]]]]].
  remember (checks L o (doom L f) 0 (moved L (stepOf L o s) s0)) as s2 eqn:E2. destruct (checks_shape L o _ 0 _ s2 E2) as [_ [N2 [_ Sh]]]. cbn [moved now] in N2.
  rewrite N0, Nat.mod_0_l in N2 by lia. cbn [Nat.eqb] in N2.
  assert (Z2 : zOf L (fs s2) = zOf L f + stepOf L o s).
  { destruct Sh as [[_ [A _]]|[_ [a [b0 [_ [_ [_ A]]]]]]]; rewrite A; [|rewrite (theta_time L W)]; cbn [moved fs]; rewrite (step_time L W), F0, F; reflexivity. }
  assert (O2 : madeAt Sched (out s2) = []).
  { apply map_eq_nil in M. destruct Sh as [[A _]|[_ [a [b0 [A [TA [TB _]]]]]]]; rewrite A; cbn [moved out]; rewrite O0; [exact M|]. rewrite (Inv_app L); assumption. }
  assert (P10 : 0 < / 10 ^ 10) by (apply Rinv_0_lt_compat, pow_lt; lra).
  clear Sh. destruct (turn_cases L o (doom L f) (fl 0%nat) 0 s _ s0 s2 Dc E2) as [[Br T]|[_ [_ [s3 [E3 T]]]]]; clear E2.
  - exfalso. destruct Br as [Br|Br]; [lra|]. apply Rabs_def2 in Br. lra.
  - rewrite V in T. rewrite T in U' |- *. rewrite N2 in E3. destruct (taken_keeps L 0 s2) as [F3 [_ [_ [_ [_ [_ [_ [_ O3]]]]]]]]. rewrite <- E3 in F3, O3.
    destruct (finish_ended L o s3 U') as [_ [m [M2 Mf]]]. exists (finish L o s3). eexists. exists m. split; [reflexivity|]. rewrite finish_sched, O3, madeAt_app, O2, madeAt_one. cbn [mTag].
    destruct (tag_eq Sched Sched) as [_|Q]; [|congruence]. split; [reflexivity|]. split; [exact M2|]. cbn [mField]. rewrite Mf, F3. reflexivity.
Qed.

(** *** Stopping *)
(** What the ranks do is what the first of them that sees something says. *)
Theorem ranks_agree flags v : verdict flags = v <-> (v = 0%nat /\ Forall (fun x => x = 0%nat) flags) \/
  ((0 < v)%nat /\ exists a b, flags = a ++ v :: b /\ Forall (fun x => x = 0%nat) a).
Proof.
  revert v. induction flags as [|x l IH]; intros v; cbn [verdict].
  - split; [intros <-; left; split; [reflexivity|constructor]|]. intros [[-> _]|[_ [[|y a] [b [Q _]]]]]; [reflexivity|discriminate Q|discriminate Q].
  - destruct (Nat.ltb_spec 0 x).
    + split; [intros <-; right; split; [lia|]; exists [], l; split; [reflexivity|constructor]|].
      intros [[-> A]|[_ [[|y a] [b [Q A]]]]]; [inversion A; subst; lia|injection Q as -> _; reflexivity|injection Q as -> _; inversion A; subst; lia].
    + assert (x = 0%nat) by lia. subst x. rewrite IH. split.
      * intros [[A B]|[A [a [b [-> B]]]]]; [left; split; [exact A|constructor; [reflexivity|exact B]]|]. right. split; [exact A|]. exists (0%nat :: a), b. split; [reflexivity|constructor; [reflexivity|exact B]].
      * intros [[A B]|[A [[|y a] [b [Q B]]]]]; [left; split; [exact A|inversion B; assumption]|injection Q as <- _; lia|].
        right. split; [exact A|]. injection Q as _ Q. exists a, b. split; [exact Q|inversion B; assumption].
Qed.
(** A run told to stop, or out of time, ends with that turn, unless the turn was its last: all before is done, and what is left is the field
    after the step and the next number. *)
Theorem stop_honoured_partial {S} (L : lib S) o zd fl iz s : (verdict fl = 1 \/ verdict fl = 2)%nat ->
  match turn L o zd fl iz s with Next _ => False | Exit e s' => e = ERestart (index s') | _ => True end.
Proof.
  intros V. unfold turn. destruct (decide L o iz s) as [[dz s0]|]; [|exact I]. cbv zeta. destruct (Rle_dec _ _); [exact I|]. destruct (Rlt_dec _ _); [exact I|].
  destruct V as [V|V]; rewrite V; reflexivity.
Qed.
(** In the whole run: after the first turn at whose end the run is told to stop, nothing of the loop is measured. *)
Theorem stop_last {S} (L : lib S) o fl b f k g ms : (1 <= verdict (fl k) <= 3)%nat -> endedWith (program L o fl b f) g ms -> forall m, In m ms -> (mStep m <= k)%nat.
Proof.
  intros V. assert (G : forall zd n iz s, (iz <= k)%nat -> (forall m, In m (out s) -> (mStep m <= k)%nat) ->
    match turns L o zd fl n iz s with Fault => True | Next s' | Break s' | Exit _ s' => forall m, In m (out s') -> (mStep m <= k)%nat end).
  { intros zd n. induction n as [|n IH]; intros iz s Hi H; cbn [turns]; [exact H|]. destruct (decide L o iz s) as [[dz s0]|] eqn:Dc; [|unfold turn; rewrite Dc; exact I].
    destruct (decide_keeps L o iz s dz s0 Dc) as [_ [_ [O0 _]]]. remember (checks L o zd iz (moved L dz s0)) as s2 eqn:E2.
    assert (G2 : forall m, In m (out s2) -> (mStep m <= k)%nat).
    { destruct (checks_cases L o zd iz _ s2 E2) as [[_ Q]|[[_ [_ Q]]|[_ [_ [_ [_ [_ Q]]]]]]].
      - rewrite Q. cbn [moved out]. rewrite O0. exact H.
      - destruct (counted_keeps L o zd (moved L dz s0)) as [_ [_ [_ [_ [_ [_ A7]]]]]]. rewrite Q, A7. cbn [moved out]. rewrite O0. exact H.
      - destruct (counted_keeps L o zd (moved L dz s0)) as [_ [_ [_ [_ [_ [_ A7]]]]]].
        destruct (switched_keeps L o iz (counted L o zd (moved L dz s0))) as (s' & H' & _ & _ & _ & _ & _ & _ & _ & _ & _ & _ & a & b0 & O & _ & _ & _ & _ & SA & SB).
        rewrite Q, <- H', O, A7. cbn [moved out]. rewrite O0. intros m Hm. apply in_app_or in Hm. destruct Hm as [Hm|[<-|[<-|[]]]]; [apply H; exact Hm|lia|lia]. }
    destruct (turn_cases L o zd (fl iz) iz s dz s0 s2 Dc E2) as [[_ T]|[_ [_ [s3 [E3 T]]]]]; clear E2; rewrite T; [exact G2|].
    assert (G3 : forall m, In m (out s3) -> (mStep m <= k)%nat).
    { destruct (now s2); [|subst s3; exact G2]. destruct (taken_keeps L iz s2) as [_ [_ [_ [_ [_ [_ [_ [_ O3]]]]]]]]. rewrite <- E3 in O3. rewrite O3. intros m Hm. apply in_app_or in Hm. destruct Hm as [Hm|[<-|[]]]; [apply G2; exact Hm|]. cbn [mStep]. exact Hi. }
    destruct (Nat.eq_dec iz k) as [->|Nk]; [destruct (verdict (fl k)) as [|[|[|[|v]]]]; try exact G3; lia|].
    destruct (verdict (fl iz)) as [|[|[|[|v]]]]; try exact G3; apply IH; try exact G3; lia. }
  unfold program. destruct (prepare L o b f) as [s|] eqn:P; [|intros []].
  assert (H0 : forall m, In m (out s) -> (mStep m <= k)%nat).
  { revert P. unfold prepare. destruct (match oDump o with EveryN => _ | FromList _ => _ end) as [i|]; [|discriminate]. cbv zeta. intros H. injection H as <-.
    destruct (oDump o) as [|[|e l]]; destruct b; try destruct (Rlt_dec _ _); cbn; intros m Hm; try (destruct Hm as [<-|[]]; cbn; lia); destruct Hm. }
  pose proof (G (doom L f) (oSteps o) 0%nat s ltac:(lia) H0) as T. destruct (turns L o (doom L f) fl (oSteps o) 0 s) as [|s'|s'|e s']; cbn [endedWith]; try contradiction.
  - intros [<- _] m Hm. revert Hm. unfold finish. cbv zeta. set (i1 := withMeas _ (inf s')). clearbody i1.
    destruct (isAxion L (fs (measure L Final 0 i1 s'))); [destruct (Rle_dec _ _)|]; unfold measure; cbn [out]; intros Hm; repeat (apply in_app_or in Hm; destruct Hm as [Hm|Hm]); try (apply T; exact Hm); destruct Hm as [<-|[]]; cbn; lia.
  - intros [_ <-]. exact T.
Qed.
(** When a rank sees the file that asks to save, nothing else it sees is acted on: neither abort, nor stop, nor the time; and a run that sees it at
    each turn, because it cannot be removed, goes on as if told nothing. *)
Theorem save_hides_refuted {S} (L : lib S) o fl b f : (forall k, exists late stop abort r, fl k = flagOf late stop abort true :: r) ->
  program L o fl b f = program L o (fun _ => []) b f.
Proof.
  intros H. assert (T : forall zd n iz s, turns L o zd fl n iz s = turns L o zd (fun _ => []) n iz s).
  { intros zd n. induction n as [|n IH]; intros iz s; [reflexivity|]. cbn [turns].
    assert (E : turn L o zd (fl iz) iz s = turn L o zd [] iz s).
    { destruct (H iz) as [a [b0 [c [r ->]]]]. unfold turn. destruct (decide L o iz s) as [[dz s0]|]; [|reflexivity]. cbv zeta. destruct (Rle_dec _ _); [reflexivity|]. destruct (Rlt_dec _ _); reflexivity. }
    rewrite E. destruct (turn L o zd [] iz s); try reflexivity. apply IH. }
  unfold program. destruct (prepare L o b f); [|reflexivity]. rewrite T. reflexivity.
Qed.
(** Saving in between changes nothing of the run. *)
Theorem save_transparent {S} (L : lib S) o fl b f : (forall k, verdict (fl k) = 0%nat \/ verdict (fl k) = 4%nat) -> program L o fl b f = program L o (fun _ => []) b f.
Proof.
  intros H. assert (T : forall zd n iz s, turns L o zd fl n iz s = turns L o zd (fun _ => []) n iz s).
  { intros zd n. induction n as [|n IH]; intros iz s; [reflexivity|]. cbn [turns].
    assert (E : turn L o zd (fl iz) iz s = turn L o zd [] iz s).
    { unfold turn. destruct (decide L o iz s) as [[dz s0]|]; [|reflexivity]. cbv zeta. destruct (Rle_dec _ _); [reflexivity|]. destruct (Rlt_dec _ _); [reflexivity|].
      destruct (H iz) as [Q|Q]; rewrite Q; reflexivity. }
    rewrite E. destruct (turn L o zd [] iz s); try reflexivity. apply IH. }
  unfold program. destruct (prepare L o b f); [|reflexivity]. rewrite T. reflexivity.
Qed.

(** Cases *)
Example numbers_case : exists g ms, endedWith (program demo (demoOpts (FromList demoList) 50) (fun k => if (k =? 4)%nat then [0; 2]%nat else []) (Fresh 7) (1, true)) g ms.
Proof.
  destruct demo_meets as [St [As [Ap [Z C]]]].
  destruct (list_schedule_partial demo (demoOpts (FromList demoList) 50) (fun k => if (k =? 4)%nat then [0; 2]%nat else []) (Fresh 7) (1, true) [at_ 4 2; at_ 9 4] (at_ 2.5 1) demo_sound St eq_refl As Ap Z (or_intror C)) as [g [ms [E _]]].
  exists g, ms. exact E.
Qed.
Example every_case : exists g ms t, endedWith (program demo (demoOpts EveryN 50) (fun _ => [0; 4]%nat) (Fresh 7) (1, true)) g ms /\ (t <= 50)%nat /\ map mStep (madeAt Sched ms) = multiples 2 t.
Proof.
  destruct (every_schedule_partial demo (demoOpts EveryN 50) (fun _ => [0; 4]%nat) (Fresh 7) (1, true) demo_sound eq_refl ltac:(cbn; lia) ltac:(unfold zEnd; cbn; lra)) as [g [ms [t [A [B [C _]]]]]].
  exists g, ms, t. split; [exact A|]. split; [exact B|exact C].
Qed.
Example multiples_case : multiples 3 10 = [0; 3; 6; 9]%nat.
Proof. reflexivity. Qed.
Example twice_case : exists s m1 m2, program demo (demoOpts EveryN 1) (fun _ => []) (Fresh 7) (1, true) = Done s /\ madeAt Sched (out s) = [m1] /\ madeAt Final (out s) = [m2] /\ mField m1 = mField m2.
Proof.
  apply every_twice_refuted; try reflexivity; [apply demo_sound|cbn; lia|]. unfold zEnd. cbn [demoOpts oAdapt oDump oZFinl demo zOf fst dzSize].
  assert (/ 10 ^ 10 < 1) by (rewrite <- Rinv_1; apply Rinv_lt_contravar; [rewrite Rmult_1_l; apply pow_lt; lra|apply Rlt_pow_R1; [lra|lia]]). lra.
Qed.
Example fixed_case : oAdapt (Opts EveryN 2 4 false 1 9 true 2 false 8 (Info 16 32 64 0) 1 false false false false false false false false false 0 100) = false /\ / 10 ^ 10 <= (9 - 1) / INR 4.
Proof.
  split; [reflexivity|]. assert (/ 10 ^ 10 < 1) by (rewrite <- Rinv_1; apply Rinv_lt_contravar; [rewrite Rmult_1_l; apply pow_lt; lra|apply Rlt_pow_R1; [lra|lia]]). cbn [INR]. lra.
Qed.
Example ranks_case : verdict [0; 0; 3; 4]%nat = 3%nat /\ flagOf true true true true = 4%nat /\ flagOf true false false false = 1%nat.
Proof. repeat split. Qed.

Print Assumptions numbers.
Print Assumptions numbers_restart.
Print Assumptions every_schedule_partial.
Print Assumptions fixed_steps_partial.
Print Assumptions every_end_refuted.
Print Assumptions every_zero_refuted.
Print Assumptions every_twice_refuted.
Print Assumptions ranks_agree.
Print Assumptions stop_honoured_partial.
Print Assumptions stop_last.
Print Assumptions save_hides_refuted.
Print Assumptions save_transparent.
