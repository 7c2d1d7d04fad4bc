(** C110: measurements asked for with a list of times. *)
From Coq Require Import Reals List Arith NArith Bool Lia Lra.
From Verif Require Import RunModel RunSpec RunProofs.
Import ListNotations.
Local Open Scope R_scope.
Ltac Zify.zify_post_hook ::= idtac.

(** Whatever the field, the steps, the strings and the signals: the run ends without fault, and the measurements made in the loop
    are the lines of the list due by the time it ended, the last apart, each once, in order, at exactly its time and of its
    kind; without the change to the axion also with its maps and masks. The last line is for the final measurement: when
    the run gets exactly to the end, that includes what the last line asks.
    Missing: the list is in order with the last line apart by 1e-10, the start is before the first line and not close to it. *)
Theorem list_schedule_partial {S} (L : lib S) o fl b f l e : sound L -> steadily o -> oDump o = FromList (e :: l) -> ascending (e :: l) ->
  apart (e :: l) (zEnd o) -> zOf L f < eCt e -> (exists n, b = Restart n) \/ 1 / 10000 <= Rabs (1 - zOf L f / eCt e) ->
  exists g ms, endedWith (program L o fl b f) g ms /\ zOf L f <= zOf L g <= zEnd o /\
    map (seen L) (madeAt Sched ms) = map asked (due (e :: l) (zOf L g)) /\
    (oSwitch o = false -> map (seenAll L) (madeAt Sched ms) = map askedAll (due (e :: l) (zOf L g))) /\
    (zOf L g = zEnd o -> exists m el, madeAt Final ms = [m] /\ nth_error (e :: l) (length l) = Some el /\
       N.land (iMeas (eInfo el)) (iMeas (mInfo m)) = iMeas (eInfo el) /\
       (oSwitch o = false -> iMap (mInfo m) = iMap (eInfo el) /\ iMask (mInfo m) = iMask (eInfo el) /\ iNrt (mInfo m) = iNrt (eInfo el))).
Proof.
  intros W St D As Ap Z C. destruct (Inv_prepare L o l e b f D Z C) as [s [P [F [I0 H]]]].
  pose proof (unfinished_prepare L o b f s P) as U. unfold program. rewrite P.
  pose proof (list_turns L o (e :: l) (doom L f) fl (oSteps o) 0 s W St D As Ap H) as T.
  pose proof (unfinished_turns L o (doom L f) fl (oSteps o) 0 s U) as U'.
  destruct (turns L o (doom L f) fl (oSteps o) 0 s) as [|s'|s'|e' s']; try contradiction.
  - exists (fs s'), (out (finish L o s')). split; [apply finish_ended; exact U'|]. rewrite finish_sched. rewrite F in T.
    destruct T as [[T|T] Q].
    + rewrite (due_over L o (e :: l) s' Ap T). destruct T as [[T1 T2] [T3 [T4 T5]]]. split; [lra|]. split; [exact T3|]. split; [exact T4|].
      intros Ze. destruct (T5 Ze) as [Df If]. clear T5. destruct (finish_out L o s') as [m [w [E [Tg [_ [Wk [[x X] Is]]]]]]]. exists m.
      destruct (nth_error (e :: l) (length l)) as [el|] eqn:El; [|apply nth_error_None in El; cbn [length] in El; lia]. exists el.
      assert (Ls : last (e :: l) (Entry (oZFinl o) (oDen o)) = el).
      { apply nth_last. cbn [length]. replace (Datatypes.S (length l) - 1)%nat with (length l) by lia. exact El. }
      rewrite Ls in Df, If. split; [|split; [reflexivity|]].
      * pose proof (finish_ended L o s' U') as [_ [m' [M _]]]. rewrite M. f_equal. rewrite E, madeAt_app, U' in M. unfold madeAt in M. cbn [filter app] in M. rewrite Tg in M.
        destruct (tag_eq Final Final) as [_|N]; [|congruence]. injection M as M _. symmetry. exact M.
      * rewrite X, Df. split; [apply lor_land|]. intros Sw. rewrite <- (If Sw). exact Is.
    + rewrite (due_inv L o (e :: l) s' As T). pose proof T as [_ [[e1 [E1 Z1]] [_ [T3 T4]]]]. 
      assert (Ze : zOf L (fs s') < zEnd o).
      { assert (Ln : (iM s' < length (e :: l))%nat) by (apply nth_error_Some; congruence).
        destruct (nth_error (e :: l) (length (e :: l) - 1)) as [el|] eqn:El; [|apply nth_error_None in El; cbn [length] in El; lia].
        unfold zEnd. rewrite D, (nth_last (e :: l) _ el El). destruct (Nat.eq_dec (iM s') (length (e :: l) - 1)) as [Q1|Q1].
        - rewrite Q1, El in E1. injection E1 as <-. exact Z1.
        - pose proof (As (iM s') (length (e :: l) - 1)%nat e1 el ltac:(lia) E1 El). lra. }
      split; [lra|]. split; [exact T3|]. split; [exact T4|]. intros Q1. lra.
  - destruct T as [T Q]. rewrite F in Q. exists (fs s'), (out s'). split; [cbn [endedWith]; split; reflexivity|]. split; [lra|].
    rewrite (due_inv L o (e :: l) s' As T). destruct T as [_ [_ [_ [T3 T4]]]]. split; [exact T3|]. split; [exact T4|]. intros Q1. lra.
Qed.

(** The steps suffice: with steps no shorter than d, and as many of them as cover the way and one more for each line, and with nobody
    asking to stop, the run gets to the end, within 1e-10, and so makes all the measurements of the list. *)
Lemma reach_turns {S} (L : lib S) o l zd fl d n iz s : sound L -> oAdapt o = true -> oDump o = FromList l -> ascending l -> apart l (zEnd o) ->
  0 < d -> (forall g, d <= dzSize L g) -> (forall k, verdict (fl k) = 0%nat \/ verdict (fl k) = 4%nat) -> Inv L o l s ->
  zEnd o + (INR (length l) - 1) * d <= zOf L (fs s) + INR (iM s) * d + INR n * d ->
  match turns L o zd fl n iz s with Break s' => Over L o l s' | _ => False end.
Proof.
  intros W A D As Ap Dp Dz Fl. revert iz s. induction n as [|n IH]; intros iz s H B.
  - exfalso. destruct H as [_ [[e [E Z]] _]]. assert (Ln : (iM s < length l)%nat) by (apply nth_error_Some; congruence).
    destruct (nth_error l (length l - 1)) as [el|] eqn:El; [|apply nth_error_None in El; lia].
    assert (Q : eCt e <= zEnd o).
    { unfold zEnd. rewrite D, (nth_last l _ el El). destruct (Nat.eq_dec (iM s) (length l - 1)) as [Q|Q]; [rewrite Q, El in E; injection E as <-; lra|].
      left. apply (As (iM s) (length l - 1)%nat e el); [lia|exact E|exact El]. }
    cbn [INR] in B. assert (INR (iM s) <= INR (length l) - 1) by (replace (length l) with (length l - 1 + 1)%nat by lia; rewrite plus_INR; cbn [INR]; pose proof (le_INR (iM s) (length l - 1) ltac:(lia)); lra).
    assert (INR (iM s) * d <= (INR (length l) - 1) * d) by (apply Rmult_le_compat_r; lra). lra.
  - cbn [turns]. pose proof (list_turn L o l zd (fl iz) iz s W (or_introl A) D As Ap H) as T.
    destruct (turn L o zd (fl iz) iz s) as [|s'|s'|e s'] eqn:Et.
    + exact T.
    + destruct T as [T [[Z1 Z2] K]]. apply (IH (iz + 1)%nat s' T). rewrite S_INR in B. destruct K as [K|[K1 K2]].
      * replace (INR (iM s')) with (INR (iM s) + 1) by lra. lra.
      * rewrite K1, K2. unfold stepOf. rewrite A. pose proof (Dz (fs s)). lra.
    + exact (proj1 T).
    + exfalso. destruct (decide L o iz s) as [[dz s0]|] eqn:Dc; [|unfold turn in Et; rewrite Dc in Et; discriminate Et].
      destruct (turn_cases L o zd (fl iz) iz s dz s0 _ Dc eq_refl) as [[_ T1]|[_ [_ [s3 [_ T1]]]]]; rewrite T1 in Et; [discriminate Et|].
      destruct (Fl iz) as [Q|Q]; rewrite Q in Et; discriminate Et.
Qed.
Theorem list_complete_partial {S} (L : lib S) o fl b f l e d : sound L -> oAdapt o = true -> oDump o = FromList (e :: l) -> ascending (e :: l) ->
  apart (e :: l) (zEnd o) -> zOf L f < eCt e -> (exists n, b = Restart n) \/ 1 / 10000 <= Rabs (1 - zOf L f / eCt e) ->
  0 < d -> (forall g, d <= dzSize L g) -> (forall k, verdict (fl k) = 0%nat \/ verdict (fl k) = 4%nat) ->
  (zEnd o - zOf L f) / d + INR (length l) <= INR (oSteps o) ->
  exists s m, program L o fl b f = Done s /\ madeAt Final (out s) = [m] /\ zEnd o - / 10 ^ 10 < zOf L (mField m) <= zEnd o /\
    map (seen L) (madeAt Sched (out s)) = map asked (removelast (e :: l)).
Proof.
  intros W A D As Ap Z C Dp Dz Fl B. destruct (Inv_prepare L o l e b f D Z C) as [s [P [F [I0 H]]]].
  pose proof (unfinished_prepare L o b f s P) as U. unfold program. rewrite P.
  pose proof (unfinished_turns L o (doom L f) fl (oSteps o) 0 s U) as U'.
  assert (T : match turns L o (doom L f) fl (oSteps o) 0 s with Break s' => Over L o (e :: l) s' | _ => False end).
  { apply (reach_turns L o (e :: l) (doom L f) fl d (oSteps o) 0 s W A D As Ap Dp Dz Fl H). rewrite F, I0. cbn [INR]. rewrite Rmult_0_l.
    change (length (e :: l)) with (Datatypes.S (length l)). rewrite S_INR.
    apply (Rmult_le_compat_r d) in B; [|lra]. rewrite Rmult_plus_distr_r in B. unfold Rdiv in B. rewrite Rmult_assoc, Rinv_l in B by lra. lra. }
  destruct (turns L o (doom L f) fl (oSteps o) 0 s) as [|s'|s'|e' s']; try contradiction.
  destruct (finish_ended L o s' U') as [_ [m [M Mf]]]. exists (finish L o s'), m. split; [reflexivity|]. split; [exact M|]. rewrite Mf.
  destruct T as [T1 [T2 _]]. split; [exact T1|]. rewrite finish_sched, T2, removelast_firstn. reflexivity.
Qed.

(** A run stopped and begun again makes together the measurements of one run: between two lines of the list, with the list read
    again from the time of the restart. *)
Definition laterThan (z : R) (l : list entry) : list entry := filter (fun e => if Rlt_dec (eCt e) z then false else true) l.
Lemma ascending_tail x l : ascending (x :: l) -> ascending l.
Proof. intros A i j a b H Ha Hb. apply (A (Datatypes.S i) (Datatypes.S j) a b); [lia|exact Ha|exact Hb]. Qed.
Lemma ascending_head x l y : ascending (x :: l) -> In y l -> eCt x < eCt y.
Proof. intros A H. apply In_nth_error in H. destruct H as [j H]. apply (A 0%nat (Datatypes.S j) x y); [lia|reflexivity|exact H]. Qed.
Lemma ascending_of x l : ascending l -> (forall y, In y l -> eCt x < eCt y) -> ascending (x :: l).
Proof.
  intros A B [|i] [|j] a b H Ha Hb; try lia.
  - cbn in Ha. injection Ha as <-. apply B. apply (nth_error_In l j). exact Hb.
  - apply (A i j a b); [lia|exact Ha|exact Hb].
Qed.
Lemma ascending_later z l : ascending l -> ascending (laterThan z l).
Proof.
  induction l as [|x l IH]; intros A; [exact A|]. pose proof (IH (ascending_tail x l A)) as G. unfold laterThan. cbn [filter]. destruct (Rlt_dec (eCt x) z); [exact G|].
  apply ascending_of; [exact G|]. intros y Hy. apply filter_In in Hy. apply (ascending_head x l y A). apply Hy.
Qed.
Lemma later_all z l : (forall y, In y l -> z < eCt y) -> laterThan z l = l.
Proof.
  induction l as [|x l IH]; intros A; [reflexivity|]. unfold laterThan. cbn [filter]. pose proof (A x (or_introl eq_refl)). destruct (Rlt_dec (eCt x) z); [lra|].
  f_equal. apply IH. intros y Hy. apply A. right. exact Hy.
Qed.
Definition upTo (z : R) (l : list entry) : list entry := filter (fun e => if Rle_dec (eCt e) z then true else false) l.
Lemma upTo_none z l : (forall y, In y l -> z < eCt y) -> upTo z l = [].
Proof.
  induction l as [|x l IH]; intros A; [reflexivity|]. unfold upTo. cbn [filter]. pose proof (A x (or_introl eq_refl)). destruct (Rle_dec (eCt x) z); [lra|].
  apply IH. intros y Hy. apply A. right. exact Hy.
Qed.
Lemma upTo_later z1 z2 l : ascending l -> z1 <= z2 -> (forall y, In y l -> eCt y <> z1) -> upTo z1 l ++ upTo z2 (laterThan z1 l) = upTo z2 l.
Proof.
  intros A Z. induction l as [|x l IH]; intros N; [reflexivity|]. destruct (Rlt_dec (eCt x) z1) as [Q|Q].
  - unfold upTo at 1 3, laterThan. cbn [filter]. destruct (Rle_dec (eCt x) z1); [|lra]. destruct (Rle_dec (eCt x) z2); [|lra]. destruct (Rlt_dec (eCt x) z1); [|lra].
    cbn [app]. f_equal. apply IH; [exact (ascending_tail x l A)|]. intros y Hy. apply N. right. exact Hy.
  - assert (G : forall y, In y (x :: l) -> z1 < eCt y).
    { intros y [<-|Hy]; [pose proof (N x (or_introl eq_refl)); lra|]. pose proof (ascending_head x l y A Hy). lra. }
    rewrite (upTo_none z1 _ G), (later_all z1 _ G). reflexivity.
Qed.
Lemma later_last z l d : l <> [] -> z <= eCt (last l d) -> removelast (laterThan z l) = laterThan z (removelast l) /\ last (laterThan z l) d = last l d /\ laterThan z l <> [].
Proof.
  intros N. destruct (exists_last N) as [m [x ->]]. rewrite last_last, removelast_last. intros H.
  assert (Q : laterThan z (m ++ [x]) = laterThan z m ++ [x]).
  { unfold laterThan. rewrite filter_app. cbn [filter]. destruct (Rlt_dec (eCt x) z); [lra|reflexivity]. }
  rewrite Q. split; [apply removelast_last|]. split; [apply last_last|]. destruct (laterThan z m); discriminate.
Qed.
Lemma ascending_removelast l : ascending l -> ascending (removelast l).
Proof. intros A i j a b H Ha Hb. rewrite removelast_firstn in *. apply nth_firstn in Ha, Hb. apply (A i j a b H); [apply Ha|apply Hb]. Qed.
Lemma In_removelast {A} (x : A) l : In x (removelast l) -> In x l.
Proof. induction l as [|y l IH]; [intros []|]. destruct l as [|z l]; [intros []|]. intros [<-|H]; [left; reflexivity|right; apply IH; exact H]. Qed.
Theorem restart_schedule_partial {S} (L : lib S) o o' fl fl' b f l e n s1 : sound L -> steadily o -> steadily o' -> oDump o = FromList (e :: l) -> ascending (e :: l) ->
  apart (e :: l) (zEnd o) -> zOf L f < eCt e -> (exists n, b = Restart n) \/ 1 / 10000 <= Rabs (1 - zOf L f / eCt e) ->
  program L o fl b f = Stopped (ERestart n) s1 -> (forall x, In x (e :: l) -> eCt x <> zOf L (fs s1)) ->
  oDump o' = FromList (laterThan (zOf L (fs s1)) (e :: l)) ->
  exists g ms, endedWith (program L o' fl' (Restart n) (fs s1)) g ms /\
    map (seen L) (madeAt Sched (out s1 ++ ms)) = map asked (due (e :: l) (zOf L g)) /\ zOf L (fs s1) <= zOf L g <= zEnd o.
Proof.
  intros W St St' D As Ap Z C R Ne D'. destruct (list_schedule_partial L o fl b f l e W St D As Ap Z C) as [g1 [m1 [E1 [Z1 [Se1 _]]]]].
  rewrite R in E1. cbn [endedWith] in E1. destruct E1 as [E1 E2]. subst g1 m1. set (z1 := zOf L (fs s1)) in *.
  assert (El : zEnd o = eCt (last (e :: l) (Entry (oZFinl o) (oDen o)))) by (unfold zEnd; rewrite D; reflexivity).
  destruct (later_last z1 (e :: l) (Entry (oZFinl o) (oDen o)) ltac:(discriminate) ltac:(lra)) as [RL [LL NN]].
  assert (As' : ascending (laterThan z1 (e :: l))) by (apply ascending_later; exact As).
  assert (ZE : zEnd o' = zEnd o).
  { rewrite El, <- LL. unfold zEnd. rewrite D'. destruct (laterThan z1 (e :: l)) as [|x t]; [congruence|]. f_equal. clear. revert x. induction t as [|y t IH]; intros x; [reflexivity|].
    change (last (y :: t) (Entry (oZFinl o') (oDen o')) = last (y :: t) (Entry (oZFinl o) (oDen o))). apply IH. }
  assert (Ap' : apart (laterThan z1 (e :: l)) (zEnd o')).
  { rewrite ZE. intros x Hx. rewrite RL in Hx. apply filter_In in Hx. apply Ap. apply Hx. }
  destruct (laterThan z1 (e :: l)) as [|e' l'] eqn:Lt; [congruence|].
  assert (Ze : zOf L (fs s1) < eCt e').
  { fold z1. assert (I : In e' (laterThan z1 (e :: l))) by (rewrite Lt; left; reflexivity). apply filter_In in I. destruct I as [I1 I2].
    pose proof (Ne e' I1). destruct (Rlt_dec (eCt e') z1); [discriminate I2|]. lra. }
  destruct (list_schedule_partial L o' fl' (Restart n) (fs s1) l' e' W St' D' As' Ap' Ze (or_introl (ex_intro _ n eq_refl))) as [g [ms [E [Zg [Se _]]]]].
  exists g, ms. split; [exact E|]. rewrite ZE in Zg. split; [|exact Zg]. rewrite madeAt_app, map_app, Se1, Se, <- map_app. f_equal. unfold due. rewrite RL.
  apply (upTo_later z1 (zOf L g) (removelast (e :: l))); [apply ascending_removelast; exact As|apply Zg|]. intros y Hy. apply Ne. apply In_removelast. exact Hy.
Qed.

(** *** What does not hold *)
(** A list of which nothing is left, all its times past, is read before its start. *)
Theorem list_empty_refuted {S} (L : lib S) o fl b f : oDump o = FromList [] -> program L o fl b f = Crash.
Proof. intros D. unfold program, prepare. rewrite D. reflexivity. Qed.
(** A list with a line only, at the start: the loop reads beyond the list. *)
Theorem list_single_refuted {S} (L : lib S) o fl n f e : oDump o = FromList [e] -> Rabs (1 - zOf L f / eCt e) < 1 / 10000 -> (0 < oSteps o)%nat ->
  program L o fl (Fresh n) f = Crash /\ program L o fl (FromFile n) f = Crash.
Proof.
  intros D Z N. unfold program, prepare. rewrite D. cbv zeta. destruct (Rlt_dec _ _) as [_|Q]; [|lra].
  destruct (oSteps o) as [|k]; [lia|]. cbn [turns]. unfold turn, decide. rewrite D. cbn [iM nth_error]. split; reflexivity.
Qed.

(** Measurements of the loop are later than its start *)
Lemma decide_pos {S} (L : lib S) o iz s dz s0 : sound L -> steadily o -> decide L o iz s = Some (dz, s0) -> 0 < dz.
Proof.
  intros W St. pose proof (stepOf_pos L o s W St) as P. unfold decide. cbv zeta. fold (stepOf L o s).
  assert (K : forall (a : R) (x : loop S), Some (a, x) = Some (dz, s0) -> a = dz) by (intros a x H; injection H; intros; assumption).
  destruct (oDump o) as [|l].
  - destruct (oEvery o =? 0)%nat; [discriminate|]. intros H. apply K in H. lra.
  - destruct (nth_error l (iM s)) as [e|]; [|discriminate]. match goal with |- context [nth_error l ?i] => destruct (nth_error l i) as [e'|]; [|discriminate] end.
    destruct (Rle_dec _ _); [destruct (Rlt_dec _ _)|]; intros H; apply K in H; cbn [fs] in *; lra.
Qed.
Lemma sched_later {S} (L : lib S) o zd fl z n iz s : sound L -> steadily o -> z <= zOf L (fs s) -> (forall m, In m (madeAt Sched (out s)) -> z < zOf L (mField m)) ->
  match turns L o zd fl n iz s with Fault => True | Next s' | Break s' | Exit _ s' => forall m, In m (madeAt Sched (out s')) -> z < zOf L (mField m) end.
Proof.
  intros W St. revert iz s. induction n as [|n IH]; intros iz s Z H; cbn [turns]; [exact H|].
  destruct (decide L o iz s) as [[dz s0]|] eqn:Dc; [|unfold turn; rewrite Dc; exact I].
  pose proof (decide_pos L o iz s dz s0 W St Dc) as Dp. destruct (decide_keeps L o iz s dz s0 Dc) as [F0 [_ [O0 _]]].
  remember (checks L o zd iz (moved L dz s0)) as s2 eqn:E2. destruct (checks_shape L o zd iz (moved L dz s0) s2 E2) as [_ [_ [_ Sh]]].
  assert (Z2 : zOf L (fs s2) = zOf L (fs s) + dz).
  { destruct Sh as [[_ [A _]]|[_ [a [b [_ [_ [_ A]]]]]]]; rewrite A; [|rewrite (theta_time L W)]; cbn [moved fs]; rewrite (step_time L W), F0; reflexivity. }
  assert (O2 : madeAt Sched (out s2) = madeAt Sched (out s)).
  { destruct Sh as [[A _]|[_ [a [b [A [TA [TB _]]]]]]]; rewrite A; cbn [moved out]; rewrite O0; [reflexivity|]. apply (Inv_app L); assumption. }
  clear Sh. destruct (turn_cases L o zd (fl iz) iz s dz s0 s2 Dc E2) as [[_ T]|[_ [_ [s3 [E3 T]]]]]; clear E2; rewrite T; [rewrite O2; exact H|].
  assert (G : z <= zOf L (fs s3) /\ forall m, In m (madeAt Sched (out s3)) -> z < zOf L (mField m)).
  { destruct (now s2); [|subst s3; rewrite O2; split; [lra|exact H]]. destruct (taken_keeps L iz s2) as [F3 [_ [_ [_ [_ [_ [_ [_ O3]]]]]]]]. rewrite <- E3 in F3, O3.
    rewrite F3, O3, madeAt_app, O2, madeAt_one. cbn [mTag]. destruct (tag_eq Sched Sched) as [_|Q]; [|congruence]. split; [lra|].
    intros m Hm. apply in_app_or in Hm. destruct Hm as [Hm|[<-|[]]]; [apply H; exact Hm|]. cbn [mField]. lra. }
  destruct G as [G1 G2]. destruct (verdict (fl iz)) as [|[|[|[|v]]]]; try exact G2; apply IH; assumption.
Qed.
(** A run begun again just at a line of the list, with a first step that goes beyond the next line, never measures that line. *)
Theorem restart_line_refuted {S} (L : lib S) o fl n f e0 e1 l g ms : sound L -> oAdapt o = true -> oDump o = FromList (e0 :: e1 :: l) -> (0 < oSteps o)%nat ->
  zOf L f = eCt e0 -> eCt e1 < zOf L f + dzSize L f -> endedWith (program L o fl (Restart n) f) g ms -> forall m, In m (madeAt Sched ms) -> eCt e1 < zOf L (mField m).
Proof.
  intros W A D N Z Z1 E m Hm. unfold program, prepare in E. rewrite D in E. cbv zeta in E.
  set (s := Loop f 0 false _ _ _ _ _ _ _ _) in E.
  assert (Fs : fs s = f /\ now s = false /\ iM s = 0%nat /\ out s = []) by (repeat split). destruct Fs as [Fs [Nw [Im Ot]]]. clearbody s.
  destruct (oSteps o) as [|k]; [lia|]. cbn [turns] in E.
  assert (Dc : exists s0, decide L o 0 s = Some (dzSize L f, s0) /\ fs s0 = f /\ now s0 = false /\ out s0 = []).
  { unfold decide. rewrite D, Im, A. cbv zeta. cbn [nth_error]. rewrite Fs. destruct (Rlt_dec (eCt e0) (zOf L f)); [lra|]. cbn [nth_error].
    destruct (Rle_dec _ _); [destruct (Rlt_dec _ _) as [Q|_]; [cbn [fs] in Q; lra|]|]; eexists; (split; [reflexivity|]); cbn [fs now out]; repeat split; assumption. }
  destruct Dc as [s0 [Dc [F0 [N0 O0]]]].
  assert (G : match turns L o (doom L f) fl (Datatypes.S k) 0 s with Fault => True | Next s' | Break s' | Exit _ s' => forall m, In m (madeAt Sched (out s')) -> eCt e1 < zOf L (mField m) end).
  { cbn [turns]. remember (checks L o (doom L f) 0 (moved L (dzSize L f) s0)) as s2 eqn:E2. destruct (checks_shape L o (doom L f) 0 _ s2 E2) as [_ [N2 [_ Sh]]]. cbn [moved now] in N2. rewrite N0 in N2.
    assert (Z2 : eCt e1 <= zOf L (fs s2)).
    { destruct Sh as [[_ [B _]]|[_ [a [b [_ [_ [_ B]]]]]]]; rewrite B; [|rewrite (theta_time L W)]; cbn [moved fs]; rewrite (step_time L W), F0; lra. }
    assert (O2 : madeAt Sched (out s2) = []).
    { destruct Sh as [[B _]|[_ [a [b [B [TA [TB _]]]]]]]; rewrite B; cbn [moved out]; rewrite O0; [reflexivity|]. apply (Inv_app L []); assumption. }
    clear Sh. destruct (turn_cases L o (doom L f) (fl 0%nat) 0 s _ s0 s2 Dc E2) as [[_ T]|[_ [_ [s3 [E3 T]]]]]; clear E2; rewrite T; [rewrite O2; intros ? []|].
    rewrite N2 in E3. subst s3. assert (P : forall m, In m (madeAt Sched (out s2)) -> eCt e1 < zOf L (mField m)) by (rewrite O2; intros ? []).
    destruct (verdict (fl 0%nat)) as [|[|[|[|v]]]]; try exact P; apply (sched_later L o _ fl _ k _ s2 W (or_introl A) Z2 P). }
  cbn [turns] in G. destruct (match turn L o (doom L f) (fl 0%nat) 0 s with Fault => Fault | Next s' => turns L o (doom L f) fl k (0 + 1) s' | Break s' => Break s' | Exit e s' => Exit e s' end) as [|s'|s'|e' s']; cbn [endedWith] in E; try contradiction.
  - destruct E as [E _]. subst ms. rewrite finish_sched in Hm. apply G. exact Hm.
  - destruct E as [_ E]. subst ms. apply G. exact Hm.
Qed.

(** In the turn that changes to the axion, a measurement of the list is made with the maps and masks of the density options, not with
    those of its line. *)
Theorem switch_list_refuted {S} (L : lib S) o zd fl iz s l e : sound L -> oDump o = FromList l -> nth_error l (iM s) = Some e -> (iM s < length l - 1)%nat ->
  zOf L (fs s) < eCt e <= zOf L (fs s) + stepOf L o s -> eCt e <= zEnd o - / 10 ^ 10 -> isSax L (fs s) = true -> oSwitch o = true -> oSaxNoise o = false ->
  (strD s < 1000)%nat -> strings L (stepBy L (fs s) (eCt e - zOf L (fs s))) = 0%nat -> (oSafest o <= strC s)%nat -> verdict fl = 0%nat ->
  exists s' ms m, turn L o zd fl iz s = Next s' /\ out s' = ms ++ [m] /\ mTag m = Sched /\ zOf L (mField m) = eCt e /\ iMeas (mInfo m) = iMeas (eInfo e) /\
    iMap (mInfo m) = iMap (oDen o) /\ iMask (mInfo m) = iMask (oDen o).
Proof.
  intros W D E Il Z Zl X Sw Sn Sd Sr Sf V.
  assert (Dc : exists s0, decide L o iz s = Some (eCt e - zOf L (fs s), s0) /\ fs s0 = fs s /\ now s0 = true /\ dflt s0 = iMeas (eInfo e) /\ strD s0 = strD s /\ strC s0 = strC s).
  { destruct (decide_list L o iz s l e D E (proj1 Z)) as [dz [s0 [Dc [F0 [_ [_ [[_ [Dz [Nw [_ Df]]]]|[Q _]]]]]]]]; [|lra].
    destruct (decide_keeps L o iz s dz s0 Dc) as [_ [_ [_ [K1 [K2 _]]]]]. exists s0. rewrite <- Dz. split; [exact Dc|]. split; [exact F0|].
    destruct (Nat.eqb_spec (iM s) (length l - 1)); [lia|]. repeat split; assumption. }
  destruct Dc as [s0 [Dc [F0 [N0 [D0 [S0 C0]]]]]]. set (dz := eCt e - zOf L (fs s)) in *.
  remember (checks L o zd iz (moved L dz s0)) as s2 eqn:E2.
  assert (F2 : fs s2 = toTheta L (stepBy L (fs s) dz) /\ now s2 = true /\ dflt s2 = iMeas (eInfo e) /\ iMap (inf s2) = iMap (oDen o) /\ iMask (inf s2) = iMask (oDen o)).
  { assert (Cd : strD (counted L o zd (moved L dz s0)) = 0%nat).
    { unfold counted, moved. cbv zeta. cbn [strD fs]. rewrite S0, F0. destruct (Nat.ltb_spec (strD s) 1000); [exact Sr|lia]. }
    assert (Cc : strC (counted L o zd (moved L dz s0)) = (strC s + 1)%nat).
    { unfold counted, moved. cbv zeta. cbn [strD strC fs]. rewrite S0, F0, C0. destruct (Nat.ltb_spec (strD s) 1000); [|lia]. rewrite Sr. reflexivity. }
    destruct (counted_keeps L o zd (moved L dz s0)) as [A1 [A2 [A3 [A4 [A5 [A6 A7]]]]]].
    destruct (switched_keeps L o iz (counted L o zd (moved L dz s0))) as [s' [H' [B1 [B2 [B3 [B4 [_ [_ [_ [B5 [B6 _]]]]]]]]]]].
    assert (Q : s2 = s').
    { rewrite E2, H'. unfold checks. cbn [moved fs]. rewrite F0, (step_kind L W), X, Sw. cbn [andb]. rewrite Sn. fold (counted L o zd (moved L dz s0)).
      transitivity (if (strD (counted L o zd (moved L dz s0)) =? 0)%nat && (oSafest o <? strC (counted L o zd (moved L dz s0)))%nat
                    then switched L o iz (counted L o zd (moved L dz s0)) else counted L o zd (moved L dz s0)).
      { unfold counted, moved. cbn [fs]. rewrite F0. reflexivity. }
      rewrite Cd, Cc. destruct (Nat.ltb_spec (oSafest o) (strC s + 1)); [reflexivity|lia]. }
    rewrite Q. rewrite B1, B3, B4, B5, B6, A1, A3, A6. cbn [moved fs now dflt]. rewrite F0. repeat split; assumption. }
  destruct F2 as [F2 [N2 [D2 [M2 K2]]]].
  assert (Z2 : zOf L (fs s2) = eCt e) by (rewrite F2, (theta_time L W), (step_time L W); unfold dz; lra).
  destruct (turn_cases L o zd fl iz s dz s0 s2 Dc E2) as [[Br T]|[_ [_ [s3 [E3 T]]]]]; clear E2.
  - exfalso. assert (0 < / 10 ^ 10) by (apply Rinv_0_lt_compat, pow_lt; lra). destruct Br as [Br|Br]; [lra|]. rewrite Rabs_left1 in Br by lra. lra.
  - rewrite N2 in E3. destruct (taken_keeps L iz s2) as [_ [_ [_ [_ [_ [_ [_ [_ O3]]]]]]]]. rewrite <- E3 in O3. rewrite V in T.
    exists s3, (out s2). eexists. split; [exact T|]. split; [exact O3|]. cbn [mTag mField mInfo withMeas iMeas iMap iMask]. repeat split; assumption.
Qed.

(** *** The list itself *)
Definition inOrder (l : list entry) : Prop := forall i j a b, (i < j)%nat -> nth_error l i = Some a -> nth_error l j = Some b -> eCt a <= eCt b.
Lemma inOrder_tail x l : inOrder (x :: l) -> inOrder l.
Proof. intros A i j a b H Ha Hb. apply (A (Datatypes.S i) (Datatypes.S j) a b); [lia|exact Ha|exact Hb]. Qed.
Lemma inOrder_head x l y : inOrder (x :: l) -> In y l -> eCt x <= eCt y.
Proof. intros A H. apply In_nth_error in H. destruct H as [j H]. apply (A 0%nat (Datatypes.S j) x y); [lia|reflexivity|exact H]. Qed.
Lemma merge_from l : forall e', In e' (merge l) -> exists e, In e l /\ eCt e' = eCt e /\ iMap (eInfo e') = iMap (eInfo e) /\ iMask (eInfo e') = iMask (eInfo e) /\ iNrt (eInfo e') = iNrt (eInfo e).
Proof.
  induction l as [|x l IH]; [intros ? []|]. cbn [merge]. destruct (merge l) as [|y t] eqn:M.
  - intros e' [<-|[]]. exists x. split; [left; reflexivity|repeat split].
  - destruct (Req_EM_T (eCt y) (eCt x)) as [Q|Q]; intros e' [<-|H].
    + exists x. split; [left; reflexivity|]. cbn. repeat split.
    + destruct (IH e' (or_intror H)) as [e [A B]]. exists e. split; [right; exact A|exact B].
    + exists x. split; [left; reflexivity|repeat split].
    + destruct (IH e' H) as [e [A B]]. exists e. split; [right; exact A|exact B].
Qed.
(** Of a list in order, the times are kept, each once, and what is asked at a time is all that the lines of that time ask; the
    maps are those of one of them. *)
Theorem merge_kinds_partial l : inOrder l -> ascending (merge l) /\
  (forall e, In e l -> exists e', In e' (merge l) /\ eCt e' = eCt e /\ N.land (iMeas (eInfo e)) (iMeas (eInfo e')) = iMeas (eInfo e)) /\
  (forall e', In e' (merge l) -> exists e, In e l /\ eCt e' = eCt e /\ iMap (eInfo e') = iMap (eInfo e) /\ iMask (eInfo e') = iMask (eInfo e) /\ iNrt (eInfo e') = iNrt (eInfo e)) /\
  (forall e' n, In e' (merge l) -> N.testbit (iMeas (eInfo e')) n = true -> exists e, In e l /\ eCt e' = eCt e /\ N.testbit (iMeas (eInfo e)) n = true).
Proof.
  intros O. split; [|split; [|split; [apply merge_from|]]].
  - induction l as [|x l IH]; [intros i j a b _ H; destruct i; discriminate H|]. pose proof (IH (inOrder_tail x l O)) as G. pose proof (merge_from l) as MF. cbn [merge]. destruct (merge l) as [|y t].
    + apply ascending_of; [exact G|intros ? []].
    + assert (Le : forall z, In z (y :: t) -> eCt x <= eCt z).
      { intros z Hz. destruct (MF z Hz) as [e [E1 [E2 _]]]. rewrite E2. apply (inOrder_head x l e O E1). }
      destruct (Req_EM_T (eCt y) (eCt x)) as [Q|Q].
      * apply ascending_of; [exact (ascending_tail y t G)|]. intros z Hz. cbn [eCt]. rewrite <- Q. apply (ascending_head y t z G Hz).
      * apply ascending_of; [exact G|]. pose proof (Le y (or_introl eq_refl)). intros z [<-|Hz]; [lra|]. pose proof (ascending_head y t z G Hz). lra.
  - clear O. induction l as [|x l IH]; intros e [<-|He] || intros e []; cbn [merge].
    + destruct (merge l) as [|y t].
      * exists x. split; [left; reflexivity|]. split; [reflexivity|apply N.land_diag].
      * destruct (Req_EM_T (eCt y) (eCt x)) as [Q|Q]; eexists; (split; [left; reflexivity|]); cbn [eCt eInfo iMeas]; (split; [reflexivity|]); [apply lor_land|apply N.land_diag].
    + destruct (IH e He) as [e' [A [B C]]]. destruct (merge l) as [|y t]; [destruct A|]. destruct (Req_EM_T (eCt y) (eCt x)) as [Q|Q].
      * destruct A as [<-|A]; [|exists e'; split; [right; exact A|split; assumption]].
        eexists. split; [left; reflexivity|]. cbn [eCt eInfo iMeas]. split; [congruence|]. rewrite N.lor_comm. apply N.bits_inj. intros n. apply (f_equal (fun v => N.testbit v n)) in C.
        rewrite N.land_spec in *. rewrite N.lor_spec. destruct (N.testbit (iMeas (eInfo e)) n), (N.testbit (iMeas (eInfo y)) n); cbn in *; congruence.
      * exists e'. split; [right; exact A|split; assumption].
  - clear O. induction l as [|x l IH]; [intros ? ? []|]. cbn [merge]. destruct (merge l) as [|y t].
    + intros e' n [<-|[]] T. exists x. split; [left; reflexivity|]. split; [reflexivity|exact T].
    + destruct (Req_EM_T (eCt y) (eCt x)) as [Q|Q]; intros e' n [<-|H] T.
      * cbn [eInfo iMeas] in T. rewrite N.lor_spec in T. apply orb_true_iff in T. destruct T as [T|T].
        { exists x. split; [left; reflexivity|]. split; [reflexivity|exact T]. }
        destruct (IH y n (or_introl eq_refl) T) as [e [A [B C]]]. exists e. split; [right; exact A|]. split; [cbn [eCt]; congruence|exact C].
      * destruct (IH e' n (or_intror H) T) as [e [A B]]. exists e. split; [right; exact A|exact B].
      * exists x. split; [left; reflexivity|]. split; [reflexivity|exact T].
      * destruct (IH e' n H T) as [e [A B]]. exists e. split; [right; exact A|exact B].
Qed.
(** Of two lines of one time, the maps, masks and other things the second asks for are lost. *)
Theorem merge_maps_refuted e1 e2 : eCt e1 = eCt e2 -> merge [e1; e2] =
  [Entry (eCt e1) (Info (N.lor (iMeas (eInfo e1)) (iMeas (eInfo e2))) (iMap (eInfo e1)) (iMask (eInfo e1)) (iNrt (eInfo e1)))].
Proof. intros Q. cbn [merge]. destruct (Req_EM_T (eCt e2) (eCt e1)) as [_|N]; [reflexivity|congruence]. Qed.
(** A list out of order: the lines are not put in order, and equal times are merged only when neighbours. *)
Theorem merge_order_refuted e1 e2 : eCt e1 <> eCt e2 -> merge [e1; e2; e1] = [e1; e2; e1].
Proof. intros Q. cbn [merge]. destruct (Req_EM_T (eCt e1) (eCt e2)); [congruence|]. destruct (Req_EM_T (eCt e2) (eCt e1)); [congruence|reflexivity]. Qed.

(** *** A case *)
Definition demo : lib (R * bool) := Lib (R * bool) fst (fun s d => (fst s + d, snd s)) (fun _ => 1) (fun s => if Rlt_dec (fst s) 5 then 3%nat else 0%nat) snd (fun s => negb (snd s))
  (fun s => (fst s, false)) (fun s z => (z, snd s)) (fun _ => -1).
Example demo_sound : sound demo.
Proof. split; cbn; intros; try reflexivity; lra. Qed.
Definition at_ (z : R) (k : N) : entry := Entry z (Info k 1 2 3).
Definition demoList : list entry := [at_ 2.5 1; at_ 4 2; at_ 9 4].
Definition demoOpts (d : dumpType) (n : nat) : opts :=
  Opts d 2 n true 1 9 true 2 false 8 (Info 16 32 64 0) 1 false false false false false false false false false 0 100.
Example demo_meets : steadily (demoOpts (FromList demoList) 50) /\ ascending demoList /\ apart demoList (zEnd (demoOpts (FromList demoList) 50)) /\ 1 < eCt (at_ 2.5 1) /\
  1 / 10000 <= Rabs (1 - 1 / 2.5).
Proof.
  split; [left; reflexivity|]. split; [|split; [|split; [cbn; lra|rewrite Rabs_right; lra]]].
  - intros [|[|[|i]]] [|[|[|j]]] a b H Ha Hb; try lia; cbn in Ha, Hb; try (destruct i; discriminate Ha); try (destruct j; discriminate Hb); try discriminate Ha; try discriminate Hb; injection Ha as <-; injection Hb as <-; cbn; lra.
  - assert (0 < / 10 ^ 10 < 1) by (split; [apply Rinv_0_lt_compat, pow_lt; lra|]; rewrite <- Rinv_1; apply Rinv_lt_contravar; [rewrite Rmult_1_l; apply pow_lt; lra|apply Rlt_pow_R1; [lra|lia]]).
    unfold apart, zEnd, demoList. cbn [oDump demoOpts removelast last]. intros e [<-|[<-|[]]]; cbn; lra.
Qed.
Example demo_run : exists s m, program demo (demoOpts (FromList demoList) 50) (fun _ => [0%nat; 0%nat]) (Fresh 0) (1, true) = Done s /\ madeAt Final (out s) = [m] /\
  map (seen demo) (madeAt Sched (out s)) = [(2.5, 1%N); (4, 2%N)].
Proof.
  destruct demo_meets as [St [As [Ap [Z C]]]].
  destruct (list_complete_partial demo (demoOpts (FromList demoList) 50) (fun _ => [0%nat; 0%nat]) (Fresh 0) (1, true) [at_ 4 2; at_ 9 4] (at_ 2.5 1) 1 demo_sound eq_refl eq_refl As Ap Z (or_intror C)
    ltac:(lra) (fun _ => Rle_refl 1) (fun _ => or_introl eq_refl)) as [s [m [P [M [_ Sc]]]]].
  - unfold zEnd. cbn [oDump demoOpts demoList last length at_ eCt zOf demo fst oSteps]. rewrite !INR_IZR_INZ. cbn. lra.
  - exists s, m. split; [exact P|]. split; [exact M|exact Sc].
Qed.
Example merge_case : inOrder [at_ 1 1; at_ 1 2; at_ 3 4] /\ merge [at_ 1 1; at_ 1 2; at_ 3 4] = [at_ 1 3; at_ 3 4].
Proof.
  split.
  - intros [|[|[|i]]] [|[|[|j]]] a b H Ha Hb; try lia; cbn in Ha, Hb; try (destruct i; discriminate Ha); try (destruct j; discriminate Hb); try discriminate Ha; try discriminate Hb; injection Ha as <-; injection Hb as <-; cbn; lra.
  - cbn [merge at_ eCt]. destruct (Req_EM_T 3 1); [lra|]. change (eCt (at_ 1 2)) with 1. destruct (Req_EM_T 1 1); [reflexivity|lra].
Qed.

Print Assumptions list_schedule_partial.
Print Assumptions list_complete_partial.
Print Assumptions restart_schedule_partial.
Print Assumptions list_empty_refuted.
Print Assumptions list_single_refuted.
Print Assumptions restart_line_refuted.
Print Assumptions switch_list_refuted.
Print Assumptions merge_kinds_partial.
Print Assumptions merge_maps_refuted.
Print Assumptions merge_order_refuted.
