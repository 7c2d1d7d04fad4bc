(** C112: the change from saxion to axion, and the damping, in a run. *)
From Coq Require Import Reals List Arith NArith Bool Lia Lra.
From Verif Require Import RunModel RunSpec RunProofs RunListProperties RunProperties.
Import ListNotations.
Local Open Scope R_scope.
Ltac Zify.zify_post_hook ::= idtac.

(** What a change of the field has to be. *)
Definition goodSwitch {S} (L : lib S) (o : opts) (a b : made S) : Prop :=
  isSax L (mField a) = true /\ strings L (mField a) = 0%nat /\ mField b = toTheta L (mField a) /\ (oSafest o <= mStep a)%nat /\ mStep b = mStep a /\
  oSwitch o = true /\ oSaxNoise o = false.
Definition Sw {S} (L : lib S) (o : opts) (f : S) (iz : nat) (s : loop S) : Prop :=
  (strC s <= iz)%nat /\
  ((madeAt Pre (out s) = [] /\ madeAt Post (out s) = [] /\ isSax L (fs s) = isSax L f) \/
   (exists a b, madeAt Pre (out s) = [a] /\ madeAt Post (out s) = [b] /\ goodSwitch L o a b /\ isSax L (fs s) = false)).
Lemma sw_turn {S} (L : lib S) o zd fl f iz s : sound L -> Sw L o f iz s ->
  match turn L o zd fl iz s with Fault => True | Next s' | Break s' | Exit _ s' => Sw L o f (iz + 1) s' end.
Proof.
  intros W [C H]. destruct (decide L o iz s) as [[dz s0]|] eqn:Dc; [|unfold turn; rewrite Dc; exact I].
  destruct (decide_keeps L o iz s dz s0 Dc) as [F0 [_ [O0 [D0 [C0 _]]]]].
  remember (checks L o zd iz (moved L dz s0)) as s2 eqn:E2.
  assert (G : Sw L o f (iz + 1) s2).
  { destruct (checks_cases L o zd iz _ s2 E2) as [[_ Q]|[[_ [_ Q]]|[X [W1 [W2 [D [Sf Q]]]]]]].
    - rewrite Q. split; [cbn [moved strC]; lia|]. cbn [moved out fs]. rewrite O0, (step_kind L W), F0. exact H.
    - destruct (counted_keeps L o zd (moved L dz s0)) as [A1 [_ [_ [_ [_ [_ A7]]]]]]. rewrite Q. unfold Sw. rewrite A1, A7. cbn [moved out fs]. rewrite O0, (step_kind L W), F0. split; [|exact H].
      unfold counted. cbv zeta. cbn [strC moved]. destruct (_ =? 0)%nat; lia.
    - destruct (counted_keeps L o zd (moved L dz s0)) as [A1 [_ [_ [_ [_ [_ A7]]]]]].
      destruct (switched_keeps L o iz (counted L o zd (moved L dz s0))) as (s' & H' & B1 & _ & _ & _ & B5 & _ & _ & _ & _ & _ & a & b & O & TA & TB & FA & FB & SA & SB).
      rewrite Q, <- H'. unfold Sw. rewrite B5.
      assert (Cc : (strC (counted L o zd (moved L dz s0)) <= iz + 1)%nat) by (unfold counted; cbv zeta; cbn [strC moved]; destruct (_ =? 0)%nat; lia).
      split; [exact Cc|]. right. cbn [moved fs] in X. rewrite (step_kind L W), F0 in X.
      assert (Sx : strings L (fs (counted L o zd (moved L dz s0))) = 0%nat).
      { rewrite A1. unfold counted in D. cbv zeta in D. cbn [strD] in D. destruct (Nat.ltb_spec (strD (moved L dz s0)) 1000); [exact D|cbn [moved strD] in *; lia]. }
      assert (Ne : madeAt Pre (out s) = [] /\ madeAt Post (out s) = []).
      { destruct H as [[H1 [H2 _]]|[a' [b' [_ [_ [_ H4]]]]]]; [split; assumption|congruence]. }
      exists a, b. rewrite O, A7. cbn [moved out]. rewrite O0, !madeAt_app, (proj1 Ne), (proj2 Ne). unfold madeAt. cbn [filter app]. rewrite TA, TB. cbn.
      split; [reflexivity|]. split; [reflexivity|]. split; [|rewrite B1; apply (theta_kind L W)].
      unfold goodSwitch. rewrite FA, FB, SA, SB. split; [rewrite A1; cbn [moved fs]; rewrite (step_kind L W), F0; exact X|]. split; [exact Sx|]. repeat split; try assumption; lia. }
  destruct (turn_cases L o zd fl iz s dz s0 s2 Dc E2) as [[_ T]|[_ [_ [s3 [E3 T]]]]]; clear E2; rewrite T; [exact G|].
  assert (G3 : Sw L o f (iz + 1) s3).
  { destruct (now s2); [|subst s3; exact G]. destruct (taken_keeps L iz s2) as [F3 [_ [_ [_ [_ [C3 [_ [_ O3]]]]]]]]. rewrite <- E3 in F3, C3, O3. unfold Sw. rewrite F3, C3, O3, !madeAt_app, !madeAt_one. cbn [mTag].
    destruct (tag_eq Sched Pre) as [Q|_]; [discriminate Q|]. destruct (tag_eq Sched Post) as [Q|_]; [discriminate Q|]. rewrite !app_nil_r. exact G. }
  destruct (verdict fl) as [|[|[|[|v]]]]; exact G3.
Qed.
Lemma sw_turns {S} (L : lib S) o zd fl f n iz s : sound L -> Sw L o f iz s ->
  match turns L o zd fl n iz s with Fault => True | Next s' | Break s' | Exit _ s' => exists k, Sw L o f k s' end.
Proof.
  intros W. revert iz s. induction n as [|n IH]; intros iz s H; cbn [turns]; [exists iz; exact H|].
  pose proof (sw_turn L o zd (fl iz) f iz s W H) as T. destruct (turn L o zd (fl iz) iz s); [exact I|apply IH; exact T|exists (iz + 1)%nat; exact T|exists (iz + 1)%nat; exact T].
Qed.
Lemma sw_prepare {S} (L : lib S) o b f s : prepare L o b f = Some s -> Sw L o f 0 s.
Proof.
  unfold prepare. destruct (match oDump o with EveryN => _ | FromList _ => _ end) as [i|]; [|discriminate]. cbv zeta. intros H. injection H as <-. split.
  - destruct (oDump o) as [|[|e l]]; destruct b; try (cbn; lia); destruct (Rlt_dec _ _); cbn; lia.
  - left. destruct (oDump o) as [|[|e l]]; destruct b; try (cbn; repeat split; reflexivity); destruct (Rlt_dec _ _); cbn; repeat split; reflexivity.
Qed.
Lemma finish_other {S} (L : lib S) o (s : loop S) t : t <> Final -> t <> Wkb -> madeAt t (out (finish L o s)) = madeAt t (out s).
Proof.
  intros N1 N2. destruct (finish_out L o s) as [m [w [E [T [_ [Wk _]]]]]]. rewrite E, madeAt_app. unfold madeAt at 2. cbn [filter]. rewrite T. destruct (tag_eq Final t); [congruence|].
  destruct Wk as [->|[m' [-> T']]]; cbn [filter]; [apply app_nil_r|]. rewrite T'. destruct (tag_eq Wkb t); [congruence|]. apply app_nil_r.
Qed.
(** The field is changed at most once; when it is, it was a saxion without strings after a step numbered no less than the option asks, and it is
    measured just before and just after; never with the option for noise, nor when the change is off. The run ends with an axion if it was,
    and else with a field of the kind it began with. *)
Theorem switch_once_partial {S} (L : lib S) o fl b f g ms : sound L -> endedWith (program L o fl b f) g ms ->
  (madeAt Pre ms = [] /\ madeAt Post ms = [] /\ isSax L g = isSax L f) \/
  (exists m m', madeAt Pre ms = [m] /\ madeAt Post ms = [m'] /\ goodSwitch L o m m' /\ isSax L g = false).
Proof.
  intros W. unfold program. destruct (prepare L o b f) as [s|] eqn:P; [|intros []]. pose proof (unfinished_prepare L o b f s P) as U. apply sw_prepare in P.
  pose proof (sw_turns L o (doom L f) fl f (oSteps o) 0 s W P) as T. pose proof (unfinished_turns L o (doom L f) fl (oSteps o) 0 s U) as U'.
  destruct (turns L o (doom L f) fl (oSteps o) 0 s) as [|s'|s'|e s']; try contradiction.
  - intros E. destruct (finish_ended L o s' U') as [_ [m' [M' F']]]. cbn [endedWith] in E. destruct E as [<- [m [M F]]]. rewrite M in M'. injection M' as <-. rewrite F' in F. subst g.
    rewrite !finish_other by discriminate. destruct T as [k [_ T]]. exact T.
  - cbn [endedWith]. intros [<- <-]. destruct T as [k [_ T]]. exact T.
Qed.

(** The damping for domain walls is done at most once, and only if its strength and the time of doom are positive. *)
Definition Dm {S} (L : lib S) (o : opts) (zd : R) (s : loop S) : Prop :=
  (coD s = true /\ damped s = 0%nat) \/ (coD s = false /\ damped s = 1%nat /\ 0 < oDwGamma o /\ 0 < zd /\ oSwitch o = true).
Lemma dm_turns {S} (L : lib S) o zd fl n iz s : Dm L o zd s -> match turns L o zd fl n iz s with Fault => True | Next s' | Break s' | Exit _ s' => Dm L o zd s' end.
Proof.
  revert iz s. induction n as [|n IH]; intros iz s H; cbn [turns]; [exact H|]. destruct (decide L o iz s) as [[dz s0]|] eqn:Dc; [|unfold turn; rewrite Dc; exact I].
  destruct (decide_keeps L o iz s dz s0 Dc) as [_ [_ [_ [_ [_ [K0 M0]]]]]]. remember (checks L o zd iz (moved L dz s0)) as s2 eqn:E2.
  assert (Gc : oSwitch o = true -> Dm L o zd (counted L o zd (moved L dz s0))).
  { intros Sw1. unfold Dm, counted. cbv zeta. cbn [coD damped moved]. rewrite K0, M0. destruct H as [[A B]|[A [B C]]]; rewrite A, B.
    - destruct (Rlt_dec 0 zd); [|left; split; reflexivity]. destruct (Rlt_dec (zd * 0.95) _); [|left; split; reflexivity]. destruct (Rlt_dec 0 (oDwGamma o)); [|left; split; reflexivity].
      right. cbn. repeat split; assumption.
    - right. cbn [andb]. split; [reflexivity|]. split; [|exact C]. destruct (Rlt_dec 0 zd); [destruct (Rlt_dec (zd * 0.95) _); [destruct (Rlt_dec 0 (oDwGamma o))|]|]; reflexivity. }
  assert (G : Dm L o zd s2).
  { destruct (checks_cases L o zd iz _ s2 E2) as [[_ Q]|[[_ [Q1 Q]]|[X [W1 [W2 [D [Sf Q]]]]]]].
    - rewrite Q. unfold Dm. cbn [moved coD damped]. rewrite K0, M0. exact H.
    - rewrite Q. apply Gc. exact Q1.
    - destruct (switched_keeps L o iz (counted L o zd (moved L dz s0))) as [s' [H' [_ [_ [_ [_ [_ [B6 [B7 _]]]]]]]]]. rewrite Q, <- H'. unfold Dm. rewrite B6, B7. apply Gc. exact W1. }
  destruct (turn_cases L o zd (fl iz) iz s dz s0 s2 Dc E2) as [[_ T]|[_ [_ [s3 [E3 T]]]]]; clear E2; rewrite T; [exact G|].
  assert (G3 : Dm L o zd s3).
  { destruct (now s2); [|subst s3; exact G]. destruct (taken_keeps L iz s2) as [_ [_ [_ [_ [_ [_ [K3 [M3 _]]]]]]]]. rewrite <- E3 in K3, M3. unfold Dm. rewrite K3, M3. exact G. }
  destruct (verdict (fl iz)) as [|[|[|[|v]]]]; try exact G3; apply IH; exact G3.
Qed.
Theorem damping_once_partial {S} (L : lib S) o fl b f s : (program L o fl b f = Done s \/ exists e, program L o fl b f = Stopped e s) ->
  damped s = 0%nat \/ (damped s = 1%nat /\ 0 < oDwGamma o /\ 0 < doom L f /\ oSwitch o = true).
Proof.
  unfold program. destruct (prepare L o b f) as [s0|] eqn:P; [|intros [Q|[e Q]]; discriminate Q].
  assert (H : Dm L o (doom L f) s0).
  { revert P. unfold prepare. destruct (match oDump o with EveryN => _ | FromList _ => _ end) as [i|]; [|discriminate]. cbv zeta. intros H. injection H as <-. left.
    destruct (oDump o) as [|[|e l]]; destruct b; try (cbn; split; reflexivity); destruct (Rlt_dec _ _); cbn; split; reflexivity. }
  pose proof (dm_turns L o (doom L f) fl (oSteps o) 0 s0 H) as T. destruct (turns L o (doom L f) fl (oSteps o) 0 s0) as [|s'|s'|e s']; intros Q.
  - destruct Q as [Q|[e Q]]; discriminate Q.
  - destruct Q as [Q|[e Q]]; discriminate Q.
  - destruct Q as [Q|[e Q]]; [|discriminate Q]. injection Q as <-. assert (E : damped (finish L o s') = damped s').
    { unfold finish. cbv zeta. set (s1 := measure L Final 0 _ s'). assert (E1 : damped s1 = damped s') by reflexivity. clearbody s1. rewrite <- E1. destruct (isAxion L (fs s1)); [destruct (Rle_dec _ _)|]; reflexivity. }
    rewrite E. destruct T as [[_ T]|[_ T]]; [left; exact T|right; exact T].
  - destruct Q as [Q|[e0 Q]]; [discriminate Q|]. injection Q as _ <-. destruct T as [[_ T]|[_ T]]; [left; exact T|right; exact T].
Qed.

(** With a thousand strings or more at the last measurement the strings are not counted again before the next: here with one line in the list, the
    saxion is never changed, though every later field be without strings. *)
Theorem stale_strings_refuted {S} (L : lib S) o fl n f e g ms : oDump o = FromList [e] -> isSax L f = true -> (1000 <= strings L f)%nat ->
  endedWith (program L o fl (Fresh n) f) g ms -> madeAt Pre ms = [] /\ madeAt Sched ms = [].
Proof.
  intros D X St. 
  assert (G : forall zd k iz s, now s = false -> (1000 <= strD s)%nat -> madeAt Pre (out s) = [] -> madeAt Sched (out s) = [] ->
    match turns L o zd fl k iz s with Fault => True | Next s' | Break s' | Exit _ s' => madeAt Pre (out s') = [] /\ madeAt Sched (out s') = [] end).
  { intros zd k. induction k as [|k IH]; intros iz s Nw Sd P1 P2; cbn [turns]; [split; assumption|]. destruct (decide L o iz s) as [[dz s0]|] eqn:Dc; [|unfold turn; rewrite Dc; exact I].
    destruct (decide_keeps L o iz s dz s0 Dc) as [_ [_ [O0 [D0 _]]]].
    assert (N0 : now s0 = false).
    { revert Dc. unfold decide. rewrite D. cbv zeta. destruct (nth_error [e] (iM s)); [|discriminate]. match goal with |- context [nth_error [e] ?x] => destruct x as [|j] eqn:Qi; [|destruct j; discriminate] end.
      cbn [nth_error length Nat.sub Nat.eqb negb]. intros H. apply (f_equal (fun x => match x with Some p => snd p | None => s end)) in H. cbn [snd] in H. subst s0.
      destruct (Rle_dec _ _); [destruct (Rlt_dec _ _)|]; cbn [now]; [reflexivity|exact Nw|exact Nw]. }
    remember (checks L o zd iz (moved L dz s0)) as s2 eqn:E2.
    assert (Cd : strD (counted L o zd (moved L dz s0)) = strD s).
    { unfold counted. cbv zeta. cbn [strD moved]. rewrite D0. destruct (Nat.ltb_spec (strD s) 1000); [lia|reflexivity]. }
    assert (H2 : now s2 = false /\ (1000 <= strD s2)%nat /\ madeAt Pre (out s2) = [] /\ madeAt Sched (out s2) = []).
    { destruct (checks_cases L o zd iz _ s2 E2) as [[_ Q]|[[_ [_ Q]]|[_ [_ [_ [Q _]]]]]]; [| |lia].
      - rewrite Q. cbn [moved now strD out]. rewrite O0, D0. repeat split; assumption.
      - destruct (counted_keeps L o zd (moved L dz s0)) as [_ [_ [A3 [_ [_ [_ A7]]]]]]. rewrite Q, A3, A7, Cd. cbn [moved now out]. rewrite O0. repeat split; assumption. }
    destruct H2 as [Q1 [Q2 [Q3 Q4]]]. destruct (turn_cases L o zd (fl iz) iz s dz s0 s2 Dc E2) as [[_ T]|[_ [_ [s3 [E3 T]]]]]; clear E2; rewrite T; [split; assumption|].
    rewrite Q1 in E3. subst s3. destruct (verdict (fl iz)) as [|[|[|[|v]]]]; try (split; assumption); apply IH; assumption. }
  unfold program, prepare. rewrite D. cbv zeta.
  match goal with |- context [turns L o (doom L f) fl (oSteps o) 0 ?s] => assert (H : now s = false /\ (1000 <= strD s)%nat /\ madeAt Pre (out s) = [] /\ madeAt Sched (out s) = []); [|generalize dependent s] end.
  { destruct (Rlt_dec _ _); unfold measure; cbn [now strD out fs]; rewrite X; repeat split; exact St. }
  intros s [H1 [H2 [H3 H4]]]. pose proof (G (doom L f) (oSteps o) 0%nat s H1 H2 H3 H4) as T. destruct (turns L o (doom L f) fl (oSteps o) 0 s) as [|s'|s'|e' s']; cbn [endedWith]; try contradiction.
  - intros [<- _]. rewrite !finish_other by discriminate. exact T.
  - intros [_ <-]. exact T.
Qed.

(** The steps without strings that have to be waited for need not be in a row: after a field without strings, one with, and one without again, the change
    is made, though two were to be waited for. *)
Definition quietly {S} (L : lib S) (o : opts) (s : loop S) : Prop :=
  isSax L (fs s) = true /\ (strD s < 1000)%nat /\ now s = false /\ oDump o = EveryN /\ (0 < oEvery o)%nat /\ oSwitch o = true /\ oSaxNoise o = false /\ oAdapt o = true.
Lemma quiet_turn {S} (L : lib S) o zd iz s : sound L -> quietly L o s -> let g := stepBy L (fs s) (dzSize L (fs s)) in zOf L g <= zEnd o - / 10 ^ 10 ->
  (strings L g < 1000)%nat -> (strings L g <> 0%nat \/ (strC s + 1 <= oSafest o)%nat) ->
  exists s', turn L o zd [] iz s = Next s' /\ quietly L o s' /\ fs s' = g /\ strC s' = (if (strings L g =? 0)%nat then strC s + 1 else strC s)%nat.
Proof.
  intros W [X [Sd [Nw [D [N [W1 [W2 Ad]]]]]]] g Zg Sg Cs. destruct (every_decide L o iz s D N Nw) as [s0 [Dc [F0 [N0 [O0 C0]]]]]. unfold stepOf in Dc. rewrite Ad in Dc.
  destruct (decide_keeps L o iz s _ s0 Dc) as [_ [_ [_ [D0 _]]]].
  remember (checks L o zd iz (moved L (dzSize L (fs s)) s0)) as s2 eqn:E2.
  assert (Cd : strD (counted L o zd (moved L (dzSize L (fs s)) s0)) = strings L g).
  { unfold counted. cbv zeta. cbn [strD moved fs]. rewrite D0, F0. destruct (Nat.ltb_spec (strD s) 1000); [reflexivity|lia]. }
  assert (Cc : strC (counted L o zd (moved L (dzSize L (fs s)) s0)) = (if (strings L g =? 0)%nat then strC s + 1 else strC s)%nat).
  { unfold counted. cbv zeta. cbn [strD strC moved fs]. rewrite D0, F0, C0. destruct (Nat.ltb_spec (strD s) 1000); [reflexivity|lia]. }
  destruct (counted_keeps L o zd (moved L (dzSize L (fs s)) s0)) as [A1 [_ [A3 [_ [_ [_ A7]]]]]].
  assert (Q : s2 = counted L o zd (moved L (dzSize L (fs s)) s0)).
  { destruct (checks_cases L o zd iz _ s2 E2) as [[[Q|Q] _]|[[_ [_ Q]]|[_ [_ [_ [Q1 [Q2 _]]]]]]]; [|congruence|exact Q|].
    - cbn [moved fs] in Q. rewrite (step_kind L W), F0 in Q. congruence.
    - exfalso. rewrite Cd in Q1. rewrite Cc, Q1 in Q2. cbn [Nat.eqb] in Q2. destruct Cs; lia. }
  rewrite <- Q in *. cbn [moved fs] in A1. rewrite F0 in A1. fold g in A1. cbn [moved now] in A3.
  assert (P10 : 0 < / 10 ^ 10) by (apply Rinv_0_lt_compat, pow_lt; lra).
  destruct (turn_cases L o zd [] iz s _ s0 s2 Dc E2) as [[Br T]|[_ [_ [s3 [E3 T]]]]]; clear E2.
  - exfalso. rewrite A1 in Br. destruct Br as [Br|Br]; [lra|]. apply Rabs_def2 in Br. lra.
  - exists s3. split; [exact T|]. assert (Xg : isSax L g = true) by (unfold g; rewrite (step_kind L W); exact X). destruct (now s2) eqn:N2.
    + destruct (taken_keeps L iz s2) as [F3 [_ [N3 [_ [_ [C3 _]]]]]]. rewrite <- E3 in *. unfold quietly. rewrite F3, A1, N3, C3, Cc. split; [|split; reflexivity].
      assert (S3 : strD s3 = strings L g). { rewrite E3. unfold taken, measure. cbv zeta. cbn [strD fs]. rewrite A1, Xg. reflexivity. }
      rewrite S3. repeat split; assumption.
    + rewrite E3. unfold quietly. rewrite A1, N2, Cc, Cd. split; [|split; reflexivity]. repeat split; assumption.
Qed.
Lemma out_grows {S} (L : lib S) o zd fl t n iz s m : In m (madeAt t (out s)) -> match turns L o zd fl n iz s with Fault => True | Next s' | Break s' | Exit _ s' => In m (madeAt t (out s')) end.
Proof.
  revert iz s. induction n as [|n IH]; intros iz s H; cbn [turns]; [exact H|]. destruct (decide L o iz s) as [[dz s0]|] eqn:Dc; [|unfold turn; rewrite Dc; exact I].
  destruct (decide_keeps L o iz s dz s0 Dc) as [_ [_ [O0 _]]]. remember (checks L o zd iz (moved L dz s0)) as s2 eqn:E2. destruct (checks_shape L o zd iz _ s2 E2) as [_ [_ [_ Sh]]].
  assert (G : In m (madeAt t (out s2))).
  { destruct Sh as [[A _]|[_ [a [b [A _]]]]]; rewrite A; cbn [moved out]; rewrite O0; [exact H|]. rewrite madeAt_app. apply in_or_app. left. exact H. }
  clear Sh. destruct (turn_cases L o zd (fl iz) iz s dz s0 s2 Dc E2) as [[_ T]|[_ [_ [s3 [E3 T]]]]]; clear E2; rewrite T; [exact G|].
  assert (G3 : In m (madeAt t (out s3))).
  { destruct (now s2); [|subst s3; exact G]. destruct (taken_keeps L iz s2) as [_ [_ [_ [_ [_ [_ [_ [_ O3]]]]]]]]. rewrite <- E3 in O3. rewrite O3, madeAt_app. apply in_or_app. left. exact G. }
  destruct (verdict (fl iz)) as [|[|[|[|v]]]]; try exact G3; apply IH; exact G3.
Qed.
Lemma switch_turn {S} (L : lib S) o zd n iz s : sound L -> quietly L o s -> let g := stepBy L (fs s) (dzSize L (fs s)) in
  strings L g = 0%nat -> (oSafest o < strC s + 1)%nat -> match turns L o zd (fun _ => []) (Datatypes.S n) iz s with Fault => True | Next s' | Break s' | Exit _ s' => exists m, In m (madeAt Pre (out s')) /\ mField m = g end.
Proof.
  intros W [X [Sd [Nw [D [N [W1 [W2 Ad]]]]]]] g Sg Cs. destruct (every_decide L o iz s D N Nw) as [s0 [Dc [F0 [N0 [O0 C0]]]]]. unfold stepOf in Dc. rewrite Ad in Dc.
  destruct (decide_keeps L o iz s _ s0 Dc) as [_ [_ [_ [D0 _]]]].
  remember (checks L o zd iz (moved L (dzSize L (fs s)) s0)) as s2 eqn:E2.
  assert (Cd : strD (counted L o zd (moved L (dzSize L (fs s)) s0)) = 0%nat).
  { unfold counted. cbv zeta. cbn [strD moved fs]. rewrite D0, F0. destruct (Nat.ltb_spec (strD s) 1000); [exact Sg|lia]. }
  assert (Cc : strC (counted L o zd (moved L (dzSize L (fs s)) s0)) = (strC s + 1)%nat).
  { unfold counted. cbv zeta. cbn [strD strC moved fs]. rewrite D0, F0, C0. destruct (Nat.ltb_spec (strD s) 1000); [|lia]. fold g. rewrite Sg. reflexivity. }
  destruct (counted_keeps L o zd (moved L (dzSize L (fs s)) s0)) as [A1 _].
  assert (Pm : exists m, In m (madeAt Pre (out s2)) /\ mField m = g).
  { assert (Q : s2 = switched L o iz (counted L o zd (moved L (dzSize L (fs s)) s0))).
    { rewrite E2. transitivity (if isSax L (fs (moved L (dzSize L (fs s)) s0)) && oSwitch o then if oSaxNoise o then counted L o zd (moved L (dzSize L (fs s)) s0) else
        if (strD (counted L o zd (moved L (dzSize L (fs s)) s0)) =? 0)%nat && (oSafest o <? strC (counted L o zd (moved L (dzSize L (fs s)) s0)))%nat then switched L o iz (counted L o zd (moved L (dzSize L (fs s)) s0)) else counted L o zd (moved L (dzSize L (fs s)) s0)
        else moved L (dzSize L (fs s)) s0); [reflexivity|]. rewrite Cd, Cc, W1, W2. cbn [moved fs]. rewrite (step_kind L W), F0, X. cbn [andb Nat.eqb]. destruct (Nat.ltb_spec (oSafest o) (strC s + 1)); [reflexivity|lia]. }
    destruct (switched_keeps L o iz (counted L o zd (moved L (dzSize L (fs s)) s0))) as (s' & H' & _ & _ & _ & _ & _ & _ & _ & _ & _ & _ & a & b & O & TA & TB & FA & _).
    exists a. rewrite Q, <- H', O, madeAt_app. split; [|rewrite FA, A1; cbn [moved fs]; rewrite F0; reflexivity]. apply in_or_app. right. unfold madeAt. cbn [filter]. rewrite TA. left. reflexivity. }
  destruct Pm as [m [Pm Fm]]. cbn [turns]. destruct (turn_cases L o zd [] iz s _ s0 s2 Dc E2) as [[_ T]|[_ [_ [s3 [E3 T]]]]]; clear E2; rewrite T; [exists m; split; assumption|]. cbn [verdict].
  assert (P3 : In m (madeAt Pre (out s3))).
  { destruct (now s2); [|subst s3; exact Pm]. destruct (taken_keeps L iz s2) as [_ [_ [_ [_ [_ [_ [_ [_ O3]]]]]]]]. rewrite <- E3 in O3. rewrite O3, madeAt_app. apply in_or_app. left. exact Pm. }
  pose proof (out_grows L o zd (fun _ => []) Pre n (iz + 1) s3 m P3) as G. destruct (turns L o zd (fun _ => []) n (iz + 1) s3); try exact I; exists m; split; assumption.
Qed.
Theorem switch_consecutive_refuted {S} (L : lib S) o n f g ms : sound L -> isSax L f = true -> oDump o = EveryN -> (0 < oEvery o)%nat -> oSwitch o = true -> oSaxNoise o = false -> oAdapt o = true ->
  oSafest o = 1%nat -> (3 <= oSteps o)%nat ->
  let next := fun h => stepBy L h (dzSize L h) in
  zOf L (next (next f)) <= zEnd o - / 10 ^ 10 ->
  strings L (next f) = 0%nat -> (0 < strings L (next (next f)) < 1000)%nat -> strings L (next (next (next f))) = 0%nat ->
  endedWith (program L o (fun _ => []) (Restart n) f) g ms -> exists m, madeAt Pre ms = [m] /\ mField m = next (next (next f)).
Proof.
  intros W X D N W1 W2 Ad Sf Ns next Z S1 S2 S3 E. pose proof (switch_once_partial L o (fun _ => []) (Restart n) f g ms W E) as Once.
  assert (G : exists m, In m (madeAt Pre ms) /\ mField m = next (next (next f))).
  { clear Once. revert E. unfold program, prepare. rewrite D. cbv zeta. set (s := Loop f 0 false _ _ _ _ _ _ _ _).
    assert (Q0 : quietly L o s /\ fs s = f /\ strC s = 0%nat) by (unfold quietly, s; cbn [fs strD now strC]; repeat split; try assumption; lia). clearbody s. destruct Q0 as [Q0 [F0 C0]].
    assert (Zm : zOf L (next f) <= zEnd o - / 10 ^ 10) by (revert Z; unfold next at 1; rewrite (step_time L W); pose proof (dz_pos L W (next f)); lra).
    destruct (oSteps o) as [|[|[|k]]]; try lia. 
    destruct (quiet_turn L o (doom L f) 0 s W Q0) as [s1 [T1 [Q1 [F1 C1]]]]; [rewrite F0; exact Zm|rewrite F0; fold (next f); lia|right; lia|]. rewrite F0 in F1, C1. fold (next f) in F1, C1. rewrite S1, C0 in C1. cbn in C1.
    destruct (quiet_turn L o (doom L f) (0 + 1) s1 W Q1) as [s2 [T2 [Q2 [F2 C2]]]]; [rewrite F1; exact Z|rewrite F1; fold (next (next f)); lia|left; rewrite F1; fold (next (next f)); lia|].
    rewrite F1 in F2, C2. fold (next (next f)) in F2, C2. destruct (Nat.eqb_spec (strings L (next (next f))) 0) as [Q|_]; [lia|]. rewrite C1 in C2.
    pose proof (switch_turn L o (doom L f) k (0 + 1 + 1) s2 W Q2) as T3. cbv zeta in T3. rewrite F2 in T3. fold (next (next (next f))) in T3. specialize (T3 S3 ltac:(lia)).
    change (turns L o (doom L f) (fun _ => []) (Datatypes.S (Datatypes.S (Datatypes.S k))) 0 s) with (match turn L o (doom L f) [] 0 s with Next s => turns L o (doom L f) (fun _ => []) (Datatypes.S (Datatypes.S k)) (0 + 1) s | x => x end).
    rewrite T1. change (turns L o (doom L f) (fun _ => []) (Datatypes.S (Datatypes.S k)) (0 + 1) s1) with (match turn L o (doom L f) [] (0 + 1) s1 with Next s => turns L o (doom L f) (fun _ => []) (Datatypes.S k) (0 + 1 + 1) s | x => x end).
    rewrite T2. destruct (turns L o (doom L f) (fun _ => []) (Datatypes.S k) (0 + 1 + 1) s2) as [|s'|s'|e' s']; cbn [endedWith]; try contradiction.
    - intros [<- _]. rewrite finish_other by discriminate. exact T3.
    - intros [_ <-]. exact T3. }
  destruct G as [m [G1 G2]]. destruct Once as [[Q _]|[m' [m'' [Q _]]]]; rewrite Q in *; [destruct G1|]. exists m'. split; [reflexivity|]. destruct G1 as [<-|[]]. exact G2.
Qed.

(** Cases *)
Example switch_case : exists g ms, endedWith (program demo (demoOpts EveryN 50) (fun _ => []) (Fresh 0) (1, true)) g ms /\
  ((madeAt Pre ms = [] /\ madeAt Post ms = [] /\ isSax demo g = true) \/ (exists m m', madeAt Pre ms = [m] /\ madeAt Post ms = [m'] /\ goodSwitch demo (demoOpts EveryN 50) m m' /\ isSax demo g = false)).
Proof.
  destruct (every_schedule_partial demo (demoOpts EveryN 50) (fun _ => []) (Fresh 0) (1, true) demo_sound eq_refl ltac:(cbn; lia) ltac:(unfold zEnd; cbn; lra)) as [g [ms [t [A _]]]].
  exists g, ms. split; [exact A|]. apply (switch_once_partial demo _ _ _ (1, true) g ms demo_sound A).
Qed.
(** Strings that come back. *)
Definition flick : lib (R * bool) := Lib (R * bool) fst (fun s d => (fst s + d, snd s)) (fun _ => 1) (fun s => if Rlt_dec (fst s) 2.5 then 0%nat else if Rlt_dec (fst s) 3.5 then 5%nat else 0%nat) snd (fun s => negb (snd s))
  (fun s => (fst s, false)) (fun s z => (z, snd s)) (fun _ => -1).
Example flick_case : sound flick /\ strings flick (2, true) = 0%nat /\ strings flick (3, true) = 5%nat /\ strings flick (4, true) = 0%nat.
Proof.
  split; [split; cbn; intros; try reflexivity; lra|]. cbn. repeat split; repeat (destruct (Rlt_dec _ _); try lra); reflexivity.
Qed.
Example stale_case : exists (L : lib (R * bool)), sound L /\ isSax L (1, true) = true /\ (1000 <= strings L (1%R, true))%nat /\ strings L (2, true) = 0%nat.
Proof.
  exists (Lib (R * bool) fst (fun s d => (fst s + d, snd s)) (fun _ => 1) (fun s => if Rlt_dec (fst s) 1.5 then (2 * 500)%nat else 0%nat) snd (fun s => negb (snd s)) (fun s => (fst s, false)) (fun s z => (z, snd s)) (fun _ => -1)).
  split; [split; cbn; intros; try reflexivity; lra|]. cbn [isSax snd strings fst]. split; [reflexivity|]. split; destruct (Rlt_dec _ _); try lra; lia.
Qed.

Print Assumptions switch_once_partial.
Print Assumptions damping_once_partial.
Print Assumptions stale_strings_refuted.
Print Assumptions switch_consecutive_refuted.
