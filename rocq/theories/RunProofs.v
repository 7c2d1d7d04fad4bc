(** Proofs about RunModel. *)
From Coq Require Import Reals List Arith NArith Bool Lia Lra.
From Verif Require Import RunModel RunSpec.
Import ListNotations.
Local Open Scope R_scope.
Ltac Zify.zify_post_hook ::= idtac.

Lemma madeAt_app {S} t (a b : list (made S)) : madeAt t (a ++ b) = madeAt t a ++ madeAt t b.
Proof. unfold madeAt. apply filter_app. Qed.
Lemma madeAt_one {S} t (m : made S) : madeAt t [m] = if tag_eq (mTag m) t then [m] else [].
Proof. unfold madeAt. cbn [filter]. destruct (tag_eq (mTag m) t); reflexivity. Qed.

(** What decide and checks leave alone *)
Lemma decide_keeps {S} (L : lib S) o iz s dz s' : decide L o iz s = Some (dz, s') ->
  fs s' = fs s /\ index s' = index s /\ out s' = out s /\ strD s' = strD s /\ strC s' = strC s /\ coD s' = coD s /\ damped s' = damped s.
Proof.
  unfold decide. cbv zeta. destruct (oDump o) as [|l].
  - destruct (oEvery o =? 0)%nat; [discriminate|]. intros H. apply (f_equal (fun x => match x with Some p => snd p | None => s end)) in H. cbn [snd] in H. subst s'. destruct (iz mod oEvery o =? 0)%nat; cbn; repeat split.
  - destruct (nth_error l (iM s)) as [e|]; [|discriminate]. 
    match goal with |- context [nth_error l ?i] => destruct (nth_error l i) as [e'|]; [|discriminate] end. intros H. apply (f_equal (fun x => match x with Some p => snd p | None => s end)) in H. cbn [snd] in H. subst s'.
    destruct (Rle_dec _ _); [destruct (Rlt_dec _ _)|]; cbn; repeat split.
Qed.

Definition numbered {S} (n : nat) (s : loop S) : Prop :=
  map mIndex (out s) = seq n (length (out s)) /\ index s = (n + length (out s))%nat.
Lemma numbered_measure {S} (L : lib S) t iz i n s : numbered n s -> numbered n (measure L t iz i s).
Proof.
  intros [A B]. unfold numbered, measure. cbn [out index]. rewrite map_app, app_length. cbn [map length mIndex].
  rewrite A, B, seq_app. cbn [seq]. split; [reflexivity|lia].
Qed.
Lemma numbered_same {S} n (s s' : loop S) : index s' = index s -> out s' = out s -> numbered n s -> numbered n s'.
Proof. intros A B [C D]. unfold numbered. rewrite A, B. split; assumption. Qed.
Lemma numbered_checks {S} (L : lib S) o zd iz n s : numbered n s -> numbered n (checks L o zd iz s).
Proof.
  intros H. unfold checks. destruct (isSax L (fs s) && oSwitch o); [|exact H]. cbv zeta.
  set (d := if (strD s <? 1000)%nat then _ else _). set (dm := if Rlt_dec 0 zd then _ else _).
  set (s1 := Loop (fs s) _ _ _ _ _ _ _ _ _ _). assert (H1 : numbered n s1) by (apply (numbered_same n s s1); [reflexivity|reflexivity|exact H]).
  destruct (oSaxNoise o); [exact H1|]. destruct ((d =? 0)%nat && _); [|exact H1].
  apply numbered_measure. eapply numbered_same; [| |apply numbered_measure; exact H1]; reflexivity.
Qed.
Lemma numbered_turn {S} (L : lib S) o zd fl iz n s : numbered n s ->
  match turn L o zd fl iz s with Fault => True | Next s' => numbered n s' | Break s' => numbered n s'
                               | Exit e s' => numbered n s' /\ forall k, e = ERestart k -> k = index s' end.
Proof.
  intros H. unfold turn. destruct (decide L o iz s) as [[dz s0]|] eqn:E; [|exact I]. cbv zeta.
  destruct (decide_keeps L o iz s dz s0 E) as [_ [EI [EO _]]].
  set (s1 := Loop (stepBy L (fs s0) dz) _ _ _ _ _ _ _ _ _ _).
  assert (H1 : numbered n s1) by (apply (numbered_same n s s1); [exact EI|exact EO|exact H]).
  apply (numbered_checks L o zd iz) in H1. set (s2 := checks L o zd iz s1) in *. clearbody s2. clear s1.
  destruct (Rle_dec _ _); [exact H1|]. destruct (Rlt_dec _ _); [exact H1|].
  set (s3 := if now s2 then _ else s2).
  assert (H3 : numbered n s3).
  { unfold s3. destruct (now s2); [|exact H1]. eapply numbered_same; [| |apply (numbered_measure L Sched iz (withMeas (dflt s2) (inf s2)) n s2 H1)]; reflexivity. }
  clearbody s3. destruct (verdict fl) as [|[|[|[|v]]]]; try exact H3; (split; [exact H3|]); intros k Hk; congruence || (injection Hk as <-; reflexivity).
Qed.
Lemma numbered_turns {S} (L : lib S) o zd fl n k iz s : numbered n s ->
  match turns L o zd fl k iz s with Fault => True | Next s' => numbered n s' | Break s' => numbered n s'
                                  | Exit e s' => numbered n s' /\ forall k, e = ERestart k -> k = index s' end.
Proof.
  revert iz s. induction k as [|k IH]; intros iz s H; cbn [turns]; [exact H|].
  pose proof (numbered_turn L o zd (fl iz) iz n s H) as T. destruct (turn L o zd (fl iz) iz s); try exact T. apply IH. exact T.
Qed.
Lemma numbered_prepare {S} (L : lib S) o b f s : prepare L o b f = Some s -> numbered (starts b) s.
Proof.
  unfold prepare. destruct (match oDump o with EveryN => _ | FromList _ => _ end) as [i|]; [|discriminate]. cbv zeta.
  set (s0 := Loop f 0 _ _ _ _ _ _ _ _ _).
  assert (H0 : numbered (starts b) s0) by (unfold numbered, s0; cbn; split; [reflexivity|lia]).
  set (s1 := match b with Fresh _ => _ | FromFile _ => _ | Restart _ => _ end).
  assert (H1 : numbered (starts b) s1) by (unfold s1; destruct b; try (apply numbered_measure); exact H0).
  intros H. injection H as <-. destruct (oDump o) as [|[|e l]]; try exact H1. destruct b; try exact H1;
    destruct (Rlt_dec _ _); try exact H1; (eapply numbered_same; [| |exact H1]; reflexivity).
Qed.
Lemma numbered_finish {S} (L : lib S) o n s : numbered n s -> numbered n (finish L o s).
Proof.
  intros H. unfold finish. cbv zeta. set (s1 := measure L Final 0 _ s). assert (H1 : numbered n s1) by (apply numbered_measure; exact H). clearbody s1.
  destruct (isAxion L (fs s1)); [|exact H1]. destruct (Rle_dec _ _); [|exact H1]. apply numbered_measure. eapply numbered_same; [| |exact H1]; reflexivity.
Qed.

(** The final measurement *)
Lemma finish_out {S} (L : lib S) o s : exists m w, out (finish L o s) = out s ++ m :: w /\ mTag m = Final /\ mField m = fs s /\
  (w = [] \/ exists m', w = [m'] /\ mTag m' = Wkb) /\
  (exists x, iMeas (mInfo m) = N.lor (dflt s) x) /\ iMap (mInfo m) = iMap (inf s) /\ iMask (mInfo m) = iMask (inf s) /\ iNrt (mInfo m) = iNrt (inf s).
Proof.
  unfold finish. cbv zeta. set (k := if oEndRed o then _ else _).
  assert (K : exists x, k = N.lor (dflt s) x).
  { unfold k. destruct (oEndRed o), (oConFinal o), (oFinal o); rewrite <- ?N.lor_assoc; try (eexists; reflexivity). exists 0%N. rewrite N.lor_0_r. reflexivity. }
  clearbody k. set (s1 := measure L Final 0 _ s).
  assert (E : exists m, out s1 = out s ++ [m] /\ mTag m = Final /\ mField m = fs s /\ (exists x, iMeas (mInfo m) = N.lor (dflt s) x) /\
     iMap (mInfo m) = iMap (inf s) /\ iMask (mInfo m) = iMask (inf s) /\ iNrt (mInfo m) = iNrt (inf s)) by (eexists; split; [reflexivity|]; repeat split; exact K).
  clearbody s1. destruct E as [m [E [T [F R]]]].
  destruct (isAxion L (fs s1)); [destruct (Rle_dec _ _)|].
  - exists m. eexists. split; [unfold measure; cbn [out]; rewrite E, <- app_assoc; reflexivity|]. split; [exact T|]. split; [exact F|]. split; [|exact R].
    right. eexists. split; [reflexivity|reflexivity].
  - exists m, []. rewrite E. split; [reflexivity|]. split; [exact T|]. split; [exact F|]. split; [left; reflexivity|exact R].
  - exists m, []. rewrite E. split; [reflexivity|]. split; [exact T|]. split; [exact F|]. split; [left; reflexivity|exact R].
Qed.

(** The tags of what checks adds *)
Definition counted {S} (L : lib S) (o : opts) (zd : R) (s : loop S) : loop S :=
  let d := if (strD s <? 1000)%nat then strings L (fs s) else strD s in
  let damp := if Rlt_dec 0 zd then if Rlt_dec (zd * 0.95) (zOf L (fs s)) then if Rlt_dec 0 (oDwGamma o) then coD s else false else false else false in
  Loop (fs s) (iM s) (now s) (index s) (inf s) (dflt s) d (if (d =? 0)%nat then strC s + 1 else strC s)
       (coD s && negb damp) (if damp then damped s + 1 else damped s)%nat (out s).
Definition switched {S} (L : lib S) (o : opts) (iz : nat) (s : loop S) : loop S :=
  let m := if oPre o then N.lor (oRho2Theta o) MEAS_3DMAP else oRho2Theta o in
  let s := measure L Pre iz (Info m (iMap (oDen o)) (iMask (oDen o)) (iNrt (inf s))) s in
  let m := if oPre o then N.lxor m MEAS_3DMAP else m in
  let s := Loop (toTheta L (fs s)) (iM s) (now s) (index s) (inf s) (dflt s) (strD s) (strC s) (coD s) (damped s) (out s) in
  measure L Post iz (withMeas (if oPost o then N.lor m MEAS_3DMAP else m) (inf s)) s.
Lemma checks_cases {S} (L : lib S) o zd iz s s' : s' = checks L o zd iz s ->
  ((isSax L (fs s) = false \/ oSwitch o = false) /\ s' = s) \/
  (isSax L (fs s) = true /\ oSwitch o = true /\ s' = counted L o zd s) \/
  (isSax L (fs s) = true /\ oSwitch o = true /\ oSaxNoise o = false /\ strD (counted L o zd s) = 0%nat /\ (oSafest o < strC (counted L o zd s))%nat /\
   s' = switched L o iz (counted L o zd s)).
Proof.
  assert (Q : checks L o zd iz s = if isSax L (fs s) && oSwitch o then
    if oSaxNoise o then counted L o zd s else if (strD (counted L o zd s) =? 0)%nat && (oSafest o <? strC (counted L o zd s))%nat then switched L o iz (counted L o zd s) else counted L o zd s
    else s) by reflexivity.
  rewrite Q. clear Q. generalize (switched L o iz (counted L o zd s)). generalize (counted L o zd s). intros c w.
  destruct (isSax L (fs s)); cbn [andb]; [|intros ->; left; split; [left|]; reflexivity].
  destruct (oSwitch o); [|intros ->; left; split; [right|]; reflexivity].
  destruct (oSaxNoise o); [intros ->; right; left; repeat split|].
  destruct (strD c =? 0)%nat eqn:D; cbn [andb]; [|intros ->; right; left; repeat split].
  destruct (oSafest o <? strC c)%nat eqn:C; [|intros ->; right; left; repeat split].
  apply Nat.eqb_eq in D. apply Nat.ltb_lt in C. intros ->. right. right. do 3 (split; [reflexivity|]). split; [exact D|]. split; [exact C|reflexivity].
Qed.
Lemma counted_keeps {S} (L : lib S) o zd s : let s' := counted L o zd s in
  fs s' = fs s /\ iM s' = iM s /\ now s' = now s /\ index s' = index s /\ inf s' = inf s /\ dflt s' = dflt s /\ out s' = out s.
Proof. cbv zeta. unfold counted. cbv zeta. cbn [fs iM now index inf dflt out]. repeat split. Qed.
Lemma switched_keeps {S} (L : lib S) o iz s : exists s', s' = switched L o iz s /\
  fs s' = toTheta L (fs s) /\ iM s' = iM s /\ now s' = now s /\ dflt s' = dflt s /\ strC s' = strC s /\ coD s' = coD s /\ damped s' = damped s /\
  iMap (inf s') = iMap (oDen o) /\ iMask (inf s') = iMask (oDen o) /\ iNrt (inf s') = iNrt (inf s) /\
  exists a b, out s' = out s ++ [a; b] /\ mTag a = Pre /\ mTag b = Post /\ mField a = fs s /\ mField b = toTheta L (fs s) /\ mStep a = iz /\ mStep b = iz.
Proof.
  eexists. split; [reflexivity|]. unfold switched. cbv zeta.
  set (m := if oPre o then N.lor _ _ else _). set (i := Info m _ _ _). set (s1 := measure L Pre iz i s).
  assert (E1 : exists a, out s1 = out s ++ [a] /\ mTag a = Pre /\ mField a = fs s /\ mStep a = iz) by (eexists; split; [reflexivity|repeat split]).
  assert (E2 : fs s1 = fs s /\ iM s1 = iM s /\ now s1 = now s /\ dflt s1 = dflt s /\ strC s1 = strC s /\ coD s1 = coD s /\ damped s1 = damped s /\ inf s1 = i) by (repeat split).
  clearbody s1. destruct E1 as [a [O [T [F K]]]]. destruct E2 as [F1 [I1 [N1 [D1 [C1 [O1 [M1 Q1]]]]]]].
  set (k := if oPost o then _ else _). clearbody k.
  unfold measure. cbn [fs iM now dflt strC coD damped inf out index withMeas iMap iMask iNrt].
  rewrite F1, I1, N1, D1, C1, O1, M1, Q1, O. do 7 (split; [reflexivity|]). split; [reflexivity|]. split; [reflexivity|]. split; [reflexivity|].
  exists a. eexists. split; [rewrite <- app_assoc; reflexivity|]. repeat split; assumption.
Qed.
Lemma checks_shape {S} (L : lib S) o zd iz s s' : s' = checks L o zd iz s ->
  iM s' = iM s /\ now s' = now s /\ dflt s' = dflt s /\
  ((out s' = out s /\ fs s' = fs s /\ inf s' = inf s) \/
   (oSwitch o = true /\ exists a b, out s' = out s ++ [a; b] /\ mTag a = Pre /\ mTag b = Post /\ fs s' = toTheta L (fs s))).
Proof.
  intros E. destruct (checks_cases L o zd iz s s' E) as [[_ ->]|[[_ [_ ->]]|[_ [W [_ [_ [_ E']]]]]]].
  - do 3 (split; [reflexivity|]). left. repeat split.
  - destruct (counted_keeps L o zd s) as [A [B [C [D [E1 [F G]]]]]]. rewrite B, C, F. do 3 (split; [reflexivity|]). left. repeat split; assumption.
  - destruct (counted_keeps L o zd s) as [A [B [C [D [E1 [F G]]]]]].
    destruct (switched_keeps L o iz (counted L o zd s)) as [s2 [H2 [F2 [I2 [N2 [D2 [_ [_ [_ [_ [_ [_ [a [b [O [TA [TB _]]]]]]]]]]]]]]]]].
    rewrite E', <- H2. rewrite I2, N2, D2, B, C, F. do 3 (split; [reflexivity|]). right. split; [exact W|]. exists a, b. rewrite O, G, F2, A. repeat split; assumption.
Qed.

(** A turn, part by part *)
Definition moved {S} (L : lib S) (dz : R) (s : loop S) : loop S :=
  Loop (stepBy L (fs s) dz) (iM s) (now s) (index s) (inf s) (dflt s) (strD s) (strC s) (coD s) (damped s) (out s).
Definition taken {S} (L : lib S) (iz : nat) (s : loop S) : loop S :=
  let s := measure L Sched iz (withMeas (dflt s) (inf s)) s in
  Loop (fs s) (iM s + 1) false (index s) (inf s) (dflt s) (strD s) (strC s) (coD s) (damped s) (out s).
Lemma turn_cases {S} (L : lib S) o zd fl iz s dz s0 s2 : decide L o iz s = Some (dz, s0) -> s2 = checks L o zd iz (moved L dz s0) ->
  ((zEnd o <= zOf L (fs s2) \/ Rabs (zOf L (fs s2) - zEnd o) < / 10 ^ 10) /\ turn L o zd fl iz s = Break s2) \/
  (zOf L (fs s2) < zEnd o /\ / 10 ^ 10 <= Rabs (zOf L (fs s2) - zEnd o) /\
   exists s3, s3 = (if now s2 then taken L iz s2 else s2) /\
     turn L o zd fl iz s = match verdict fl with 1 | 2 => Exit (ERestart (index s3)) s3 | 3 => Exit EAbort s3 | _ => Next s3 end).
Proof.
  intros D E. unfold turn. rewrite D. cbv zeta. change (checks L o zd iz _) with (checks L o zd iz (moved L dz s0)). rewrite <- E. clear E D.
  destruct (Rle_dec (zEnd o) (zOf L (fs s2))) as [A|A]; [left; split; [left; exact A|reflexivity]|].
  destruct (Rlt_dec (Rabs (zOf L (fs s2) - zEnd o)) (/ 10 ^ 10)) as [B|B]; [left; split; [right; exact B|reflexivity]|].
  right. split; [lra|]. split; [lra|]. eexists. split; [reflexivity|]. reflexivity.
Qed.
Lemma taken_keeps {S} (L : lib S) iz s : let s' := taken L iz s in
  fs s' = fs s /\ iM s' = (iM s + 1)%nat /\ now s' = false /\ inf s' = withMeas (dflt s) (inf s) /\ dflt s' = dflt s /\
  strC s' = strC s /\ coD s' = coD s /\ damped s' = damped s /\
  out s' = out s ++ [Made Sched (index s) (withMeas (dflt s) (inf s)) (fs s) iz].
Proof. cbv zeta. unfold taken, measure. cbv zeta. cbn [fs iM now inf dflt strC coD damped out]. repeat split. Qed.

(** *** The list *)
Definition stepOf {S} (L : lib S) (o : opts) (s : loop S) : R := if oAdapt o then dzSize L (fs s) else (zEnd o - oZInit o) / INR (oSteps o).
Lemma stepOf_pos {S} (L : lib S) o s : sound L -> steadily o -> 0 < stepOf L o s.
Proof.
  intros W [A|[A B]]; unfold stepOf.
  - rewrite A. apply (dz_pos L W).
  - destruct (oAdapt o); [apply (dz_pos L W)|]. apply Rdiv_lt_0_compat; [lra|]. apply lt_0_INR. exact B.
Qed.
Lemma decide_list {S} (L : lib S) o iz s l e : oDump o = FromList l -> nth_error l (iM s) = Some e -> zOf L (fs s) < eCt e ->
  exists dz s0, decide L o iz s = Some (dz, s0) /\ fs s0 = fs s /\ iM s0 = iM s /\ out s0 = out s /\
   ((eCt e <= zOf L (fs s) + stepOf L o s /\ dz = eCt e - zOf L (fs s) /\ now s0 = negb (iM s =? length l - 1)%nat /\ inf s0 = eInfo e /\ dflt s0 = iMeas (eInfo e)) \/
    (zOf L (fs s) + stepOf L o s < eCt e /\ dz = stepOf L o s /\ now s0 = now s /\ inf s0 = inf s /\ dflt s0 = dflt s)).
Proof.
  intros D E Z. unfold decide. rewrite D. cbv zeta. rewrite E. fold (stepOf L o s).
  destruct (Rlt_dec (eCt e) (zOf L (fs s))) as [F|_]; [lra|]. rewrite E. cbn [fs iM now index inf dflt strD strC coD damped out].
  destruct (Rle_dec (eCt e) (zOf L (fs s) + stepOf L o s)) as [A|A].
  - destruct (Rlt_dec (zOf L (fs s)) (eCt e)) as [_|F]; [|lra].
    eexists. eexists. split; [reflexivity|]. cbn [fs iM now index inf dflt strD strC coD damped out]. do 3 (split; [reflexivity|]). left. split; [exact A|]. repeat split.
  - eexists. eexists. split; [reflexivity|]. cbn [fs iM now index inf dflt strD strC coD damped out]. do 3 (split; [reflexivity|]). right. split; [lra|]. repeat split.
Qed.
Definition Inv {S} (L : lib S) (o : opts) (l : list entry) (s : loop S) : Prop :=
  now s = false /\ (exists e, nth_error l (iM s) = Some e /\ zOf L (fs s) < eCt e) /\
  (forall j e, (j < iM s)%nat -> nth_error l j = Some e -> eCt e <= zOf L (fs s)) /\
  map (seen L) (madeAt Sched (out s)) = map asked (firstn (iM s) l) /\
  (oSwitch o = false -> map (seenAll L) (madeAt Sched (out s)) = map askedAll (firstn (iM s) l)).
(** After the last turn *)
Definition Over {S} (L : lib S) (o : opts) (l : list entry) (s : loop S) : Prop :=
  zEnd o - / 10 ^ 10 < zOf L (fs s) <= zEnd o /\
  map (seen L) (madeAt Sched (out s)) = map asked (firstn (length l - 1) l) /\
  (oSwitch o = false -> map (seenAll L) (madeAt Sched (out s)) = map askedAll (firstn (length l - 1) l)) /\
  (zOf L (fs s) = zEnd o -> dflt s = iMeas (eInfo (last l (Entry (oZFinl o) (oDen o)))) /\
     (oSwitch o = false -> inf s = eInfo (last l (Entry (oZFinl o) (oDen o))))).

Lemma nth_removelast {A} (l : list A) i a : (i < length l - 1)%nat -> nth_error l i = Some a -> In a (removelast l).
Proof.
  revert i. induction l as [|x l IH]; intros i H E; [cbn in H; lia|]. cbn [removelast]. destruct l as [|y l]; [cbn in H; lia|].
  destruct i as [|i]; [cbn in E; injection E as <-; left; reflexivity|]. right. apply (IH i); [cbn [length] in *; lia|exact E].
Qed.
Lemma nth_last {A} (l : list A) d a : nth_error l (length l - 1) = Some a -> last l d = a.
Proof.
  induction l as [|x l IH]; intros H; [discriminate H|]. destruct l as [|y l]; [cbn in H; injection H as <-; reflexivity|].
  change (last (x :: y :: l) d) with (last (y :: l) d). apply IH.
  replace (length (x :: y :: l) - 1)%nat with (Datatypes.S (length (y :: l) - 1)) in H by (cbn [length]; lia). exact H.
Qed.
Lemma firstn_snoc {A} (l : list A) i a : nth_error l i = Some a -> firstn (i + 1) l = firstn i l ++ [a].
Proof.
  revert i. induction l as [|x l IH]; intros [|i] H; try discriminate H.
  - cbn in *. injection H as <-. reflexivity.
  - cbn [Nat.add firstn app]. rewrite (IH i H). reflexivity.
Qed.
Lemma Inv_app {S} (L : lib S) (m0 : list (made S)) a b : mTag a = Pre -> mTag b = Post -> madeAt Sched (m0 ++ [a; b]) = madeAt Sched m0.
Proof. intros A B. rewrite madeAt_app. unfold madeAt at 2. cbn [filter]. rewrite A, B. cbn. apply app_nil_r. Qed.

Lemma list_turn {S} (L : lib S) o l zd fl iz s : sound L -> steadily o -> oDump o = FromList l -> ascending l -> apart l (zEnd o) -> Inv L o l s ->
  match turn L o zd fl iz s with
  | Fault => False
  | Next s' | Exit _ s' => Inv L o l s' /\ zOf L (fs s) < zOf L (fs s') < zEnd o /\
      (INR (iM s') - INR (iM s) = 1 \/ (iM s' = iM s /\ zOf L (fs s') = zOf L (fs s) + stepOf L o s))
  | Break s' => Over L o l s' /\ zOf L (fs s) < zOf L (fs s')
  end.
Proof.
  intros W St D As Ap [In0 [[e [E Z]] [Past [Se SeA]]]].
  pose proof (stepOf_pos L o s W St) as SP.
  destruct (decide_list L o iz s l e D E Z) as [dz [s0 [Dc [F0 [I0 [O0 Cs]]]]]].
  assert (Len : (iM s < length l)%nat) by (apply nth_error_Some; congruence).
  assert (ZF : zEnd o = eCt (last l (Entry (oZFinl o) (oDen o)))) by (unfold zEnd; rewrite D; reflexivity).
  assert (LastE : exists el, nth_error l (length l - 1) = Some el /\ last l (Entry (oZFinl o) (oDen o)) = el).
  { destruct (nth_error l (length l - 1)) as [el|] eqn:Q; [|apply nth_error_None in Q; lia]. exists el. split; [reflexivity|]. apply (nth_last l _ el Q). }
  destruct LastE as [el [Qel Lel]]. rewrite Lel in ZF.
  assert (Ele : eCt e <= zEnd o).
  { rewrite ZF. destruct (Nat.eq_dec (iM s) (length l - 1)) as [Q|Q]; [rewrite Q in E; rewrite E in Qel; injection Qel as <-; lra|].
    left. apply (As (iM s) (length l - 1)%nat e el); [lia|exact E|exact Qel]. }
  remember (checks L o zd iz (moved L dz s0)) as s2 eqn:E2.
  destruct (checks_shape L o zd iz (moved L dz s0) s2 E2) as [I2 [N2 [D2 Sh]]].
  assert (Z2 : zOf L (fs s2) = zOf L (fs s) + dz).
  { destruct Sh as [[_ [A _]]|[_ [a [b [_ [_ [_ A]]]]]]]; rewrite A; [|rewrite (theta_time L W)]; cbn [moved fs]; rewrite (step_time L W), F0; reflexivity. }
  assert (O2 : madeAt Sched (out s2) = madeAt Sched (out s)).
  { destruct Sh as [[A _]|[_ [a [b [A [TA [TB _]]]]]]]; rewrite A; cbn [moved out]; rewrite O0; [reflexivity|]. apply (Inv_app L); assumption. }
  assert (F2 : oSwitch o = false -> inf s2 = inf s0).
  { intros Sw. destruct Sh as [[_ [_ A]]|[B _]]; [exact A|congruence]. }
  cbn [moved iM now dflt] in I2, N2, D2. rewrite I0 in I2.
  clear Sh.
  assert (Bk : forall x, 0 < x -> zOf L (fs s2) <= zEnd o -> Rabs (zOf L (fs s2) - zEnd o) < x -> zEnd o - x < zOf L (fs s2)).
  { intros x Hx A B. rewrite Rabs_left1 in B by lra. lra. }
  assert (P10 : 0 < / 10 ^ 10) by (apply Rinv_0_lt_compat, pow_lt; lra).
  assert (Pastlast : zOf L (fs s2) <= eCt e -> zEnd o - / 10 ^ 10 < zOf L (fs s2) -> iM s = (length l - 1)%nat).
  { intros A B. destruct (Nat.eq_dec (iM s) (length l - 1)) as [Q|Q]; [exact Q|exfalso].
    pose proof (Ap e (nth_removelast l (iM s) e ltac:(lia) E)). lra. }
  assert (Stop : zOf L (fs s2) <= eCt e -> (zEnd o <= zOf L (fs s2) \/ Rabs (zOf L (fs s2) - zEnd o) < / 10 ^ 10) ->
                 zEnd o - / 10 ^ 10 < zOf L (fs s2) <= zEnd o /\ iM s = (length l - 1)%nat).
  { intros A B. assert (C : zEnd o - / 10 ^ 10 < zOf L (fs s2)) by (destruct B as [B|B]; [lra|apply Bk; [exact P10|lra|exact B]]).
    split; [lra|]. apply Pastlast; assumption. }
  clear Bk.
  destruct Cs as [[Le [Dz [Nw [If Df]]]]|[Gt [Dz [Nw [If Df]]]]].
  - (* clipped *)
    assert (Z2e : zOf L (fs s2) = eCt e) by (rewrite Z2, Dz; lra).
    destruct (turn_cases L o zd fl iz s dz s0 s2 Dc E2) as [[Br T]|[Zl [Za [s3 [E3 T]]]]]; clear E2 Dc.
    + rewrite T. destruct (Stop ltac:(lra) Br) as [Rg Il]. split; [|lra]. unfold Over. split; [exact Rg|]. rewrite O2, <- Il. split; [exact Se|]. split; [exact SeA|].
      intros _. rewrite Il in E. rewrite E in Qel. injection Qel as <-. rewrite Lel, D2, Df. split; [reflexivity|]. intros Sw. rewrite (F2 Sw). exact If.
    + assert (Il : iM s <> (length l - 1)%nat).
      { intros Q. rewrite Q in E. rewrite E in Qel. injection Qel as <-. lra. }
      rewrite N2, Nw in E3. destruct (Nat.eqb_spec (iM s) (length l - 1)) as [Q|_]; [contradiction|]. cbn [negb] in E3.
      destruct (taken_keeps L iz s2) as [F3 [I3 [N3 [If3 [D3 [_ [_ [_ O3]]]]]]]]. rewrite <- E3 in *.
      assert (G : Inv L o l s3 /\ zOf L (fs s) < zOf L (fs s3) < zEnd o /\ (INR (iM s3) - INR (iM s) = 1 \/ (iM s3 = iM s /\ zOf L (fs s3) = zOf L (fs s) + stepOf L o s))).
      { split.
        - unfold Inv. rewrite F3, I3, I2, N3, O3, Z2e. split; [reflexivity|].
          destruct (nth_error l (iM s + 1)) as [e'|] eqn:E'; [|apply nth_error_None in E'; lia].
          split; [exists e'; split; [reflexivity|]; apply (As (iM s) (iM s + 1)%nat e e'); [lia|exact E|exact E']|].
          split.
          { intros j x Hj Hx. destruct (Nat.eq_dec j (iM s)) as [->|Q]; [rewrite E in Hx; injection Hx as <-; lra|].
            left. apply (As j (iM s) x e); [lia|exact Hx|exact E]. }
          rewrite madeAt_app, O2, madeAt_one. cbn [mTag]. destruct (tag_eq Sched Sched) as [_|Q]; [|congruence].
          rewrite (firstn_snoc l (iM s) e E), !map_app. split.
          + rewrite Se. cbn [map]. unfold seen at 1, asked at 2. cbn [mField mInfo withMeas iMeas]. rewrite Z2e, D2, Df. reflexivity.
          + intros Sw. rewrite (SeA Sw). cbn [map]. unfold seenAll at 1, askedAll at 2. cbn [mField mInfo]. rewrite Z2e, D2, Df, (F2 Sw), If.
            destruct e as [ct [a b c d]]. reflexivity.
        - split; [rewrite F3, Z2e; lra|]. left. rewrite I3, I2, plus_INR. cbn [INR]. lra. }
      rewrite T. destruct (verdict fl) as [|[|[|[|v]]]]; exact G.
  - (* a full step *)
    destruct (turn_cases L o zd fl iz s dz s0 s2 Dc E2) as [[Br T]|[Zl [Za [s3 [E3 T]]]]]; clear E2 Dc.
    + rewrite T. destruct (Stop ltac:(lra) Br) as [Rg Il]. split; [|lra]. unfold Over. split; [exact Rg|]. rewrite O2, <- Il. split; [exact Se|]. split; [exact SeA|].
      intros Q. exfalso. lra.
    + rewrite N2, Nw, In0 in E3. subst s3.
      assert (G : Inv L o l s2 /\ zOf L (fs s) < zOf L (fs s2) < zEnd o /\ (INR (iM s2) - INR (iM s) = 1 \/ (iM s2 = iM s /\ zOf L (fs s2) = zOf L (fs s) + stepOf L o s))).
      { split.
        - unfold Inv. rewrite I2, N2, Nw, O2. split; [exact In0|]. split; [exists e; split; [exact E|lra]|]. split; [|split; assumption].
          intros j x Hj Hx. pose proof (Past j x Hj Hx). lra.
        - split; [lra|]. right. split; [exact I2|]. lra. }
      rewrite T. destruct (verdict fl) as [|[|[|[|v]]]]; exact G.
Qed.

Lemma list_turns {S} (L : lib S) o l zd fl n iz s : sound L -> steadily o -> oDump o = FromList l -> ascending l -> apart l (zEnd o) -> Inv L o l s ->
  match turns L o zd fl n iz s with
  | Fault | Next _ => False
  | Exit _ s' => Inv L o l s' /\ zOf L (fs s) <= zOf L (fs s') < zEnd o
  | Break s' => (Over L o l s' \/ Inv L o l s') /\ zOf L (fs s) <= zOf L (fs s')
  end.
Proof.
  intros W St D As Ap. revert iz s. induction n as [|n IH]; intros iz s H; cbn [turns]; [split; [right; exact H|lra]|].
  pose proof (list_turn L o l zd (fl iz) iz s W St D As Ap H) as T. destruct (turn L o zd (fl iz) iz s) as [|s'|s'|e s'].
  - exact T.
  - destruct T as [T [[Z1 Z2] _]]. pose proof (IH (iz + 1)%nat s' T) as R. destruct (turns L o zd fl n (iz + 1) s') as [|s2|s2|e s2]; try exact R.
    + destruct R as [R Q]; split; [exact R|lra].
    + destruct R as [R Q]. split; [exact R|lra].
  - destruct T as [T Z1]. split; [left; exact T|lra].
  - destruct T as [T [[Z1 Z2] _]]. split; [exact T|lra].
Qed.
Lemma filter_firstn {A} (P : A -> bool) (l : list A) k :
  (forall j a, (j < k)%nat -> nth_error l j = Some a -> P a = true) -> (forall j a, (k <= j)%nat -> nth_error l j = Some a -> P a = false) ->
  filter P l = firstn k l.
Proof.
  revert k. induction l as [|x l IH]; intros k Y N; [destruct k; reflexivity|]. cbn [filter]. destruct k as [|k].
  - rewrite (N 0%nat x (le_n _) eq_refl). rewrite (IH 0%nat); [reflexivity| |]; intros j a Hj Ha; [lia|]. apply (N (Datatypes.S j) a); [lia|exact Ha].
  - rewrite (Y 0%nat x ltac:(lia) eq_refl). cbn [firstn]. f_equal. apply IH; intros j a Hj Ha; [apply (Y (Datatypes.S j))|apply (N (Datatypes.S j))]; (lia || exact Ha).
Qed.
Lemma removelast_firstn {A} (l : list A) : removelast l = firstn (length l - 1) l.
Proof. rewrite removelast_firstn_len. f_equal. lia. Qed.
Lemma nth_firstn {A} (l : list A) k j a : nth_error (firstn k l) j = Some a -> (j < k)%nat /\ nth_error l j = Some a.
Proof.
  revert k l. induction j as [|j IH]; intros [|k] [|x l] H; cbn in *; try discriminate H.
  - split; [lia|exact H].
  - destruct (IH k l H). split; [lia|assumption].
Qed.
Lemma due_firstn (l : list entry) z k : (k <= length l - 1)%nat ->
  (forall j e, (j < k)%nat -> nth_error l j = Some e -> eCt e <= z) ->
  (forall j e, (k <= j)%nat -> (j < length l - 1)%nat -> nth_error l j = Some e -> z < eCt e) -> due l z = firstn k l.
Proof.
  intros Hk A B. unfold due. rewrite removelast_firstn. transitivity (firstn k (firstn (length l - 1) l)); [|rewrite firstn_firstn; f_equal; lia].
  apply filter_firstn; intros j e Hj He; apply nth_firstn in He; destruct He as [H1 H2].
  - pose proof (A j e Hj H2). destruct (Rle_dec (eCt e) z); [reflexivity|lra].
  - pose proof (B j e Hj H1 H2). destruct (Rle_dec (eCt e) z); [lra|reflexivity].
Qed.
Lemma due_inv {S} (L : lib S) o l (s : loop S) : ascending l -> Inv L o l s -> due l (zOf L (fs s)) = firstn (iM s) l.
Proof.
  intros As [_ [[e [E Z]] [P _]]]. assert ((iM s < length l)%nat) by (apply nth_error_Some; congruence).
  apply due_firstn; [lia|exact P|]. intros j x Hj Hl Hx. destruct (Nat.eq_dec j (iM s)) as [->|Q]; [rewrite E in Hx; injection Hx as <-; exact Z|].
  pose proof (As (iM s) j e x ltac:(lia) E Hx). lra.
Qed.
Lemma due_over {S} (L : lib S) o l (s : loop S) : apart l (zEnd o) -> Over L o l s -> due l (zOf L (fs s)) = firstn (length l - 1) l.
Proof.
  intros Ap [[Z1 Z2] _]. apply due_firstn; [lia| |lia]. intros j e Hj He. pose proof (Ap e (nth_removelast l j e Hj He)). lra.
Qed.
Lemma Inv_prepare {S} (L : lib S) o l e b f : oDump o = FromList (e :: l) -> zOf L f < eCt e ->
  (exists n, b = Restart n) \/ 1 / 10000 <= Rabs (1 - zOf L f / eCt e) ->
  exists s, prepare L o b f = Some s /\ fs s = f /\ iM s = 0%nat /\ Inv L o (e :: l) s.
Proof.
  intros D Z C. unfold prepare. rewrite D. cbv zeta. eexists. split; [reflexivity|].
  assert (G : forall s : loop S, fs s = f -> iM s = 0%nat -> now s = false -> madeAt Sched (out s) = [] -> fs s = f /\ iM s = 0%nat /\ Inv L o (e :: l) s).
  { intros s F I N M. split; [exact F|]. split; [exact I|]. unfold Inv. rewrite F, I, N, M. split; [reflexivity|]. split; [exists e; split; [reflexivity|exact Z]|].
    split; [intros j x Hj; lia|]. split; [reflexivity|reflexivity]. }
  destruct b as [n|n|n].
  - destruct (Rlt_dec _ _) as [Q|_]; [destruct C as [[k C]|C]; [discriminate C|lra]|]. apply G; reflexivity.
  - destruct (Rlt_dec _ _) as [Q|_]; [destruct C as [[k C]|C]; [discriminate C|lra]|]. apply G; reflexivity.
  - apply G; reflexivity.
Qed.
Lemma finish_sched {S} (L : lib S) o (s : loop S) : madeAt Sched (out (finish L o s)) = madeAt Sched (out s).
Proof.
  destruct (finish_out L o s) as [m [w [E [T [_ [Wk _]]]]]]. rewrite E, madeAt_app. unfold madeAt at 2. cbn [filter]. rewrite T. cbn [tag_eq].
  destruct Wk as [->|[m' [-> T']]]; cbn [filter]; [apply app_nil_r|]. rewrite T'. cbn. apply app_nil_r.
Qed.
Lemma lor_land a x : N.land a (N.lor a x) = a.
Proof. apply N.bits_inj. intros n. rewrite N.land_spec, N.lor_spec. destruct (N.testbit a n); reflexivity. Qed.

(** No final measurement before the end *)
Definition unfinished {S} (s : loop S) : Prop := madeAt Final (out s) = [].
Lemma unfinished_snoc {S} (s s' : loop S) m : unfinished s -> out s' = out s ++ m -> madeAt Final m = [] -> unfinished s'.
Proof. unfold unfinished. intros A E M. rewrite E, madeAt_app, A, M. reflexivity. Qed.
Lemma unfinished_turns {S} (L : lib S) o zd fl n iz s : unfinished s ->
  match turns L o zd fl n iz s with Fault => True | Next s' | Break s' | Exit _ s' => unfinished s' end.
Proof.
  revert iz s. induction n as [|n IH]; intros iz s H; cbn [turns]; [exact H|].
  destruct (decide L o iz s) as [[dz s0]|] eqn:Dc; [|unfold turn; rewrite Dc; exact I].
  destruct (decide_keeps L o iz s dz s0 Dc) as [_ [_ [O0 _]]].
  remember (checks L o zd iz (moved L dz s0)) as s2 eqn:E2.
  assert (U2 : unfinished s2).
  { destruct (checks_shape L o zd iz (moved L dz s0) s2 E2) as [_ [_ [_ Sh]]]. destruct Sh as [[A _]|[_ [a [b [A [TA [TB _]]]]]]]; cbn [moved out] in A; rewrite O0 in A.
    - unfold unfinished. rewrite A. exact H.
    - apply (unfinished_snoc s s2 _ H A). unfold madeAt. cbn [filter]. rewrite TA, TB. reflexivity. }
  destruct (turn_cases L o zd (fl iz) iz s dz s0 s2 Dc E2) as [[_ T]|[_ [_ [s3 [E3 T]]]]]; clear E2; rewrite T; [exact U2|].
  assert (U3 : unfinished s3).
  { destruct (now s2); [|subst s3; exact U2]. destruct (taken_keeps L iz s2) as [_ [_ [_ [_ [_ [_ [_ [_ O3]]]]]]]]. rewrite <- E3 in O3.
    apply (unfinished_snoc s2 s3 _ U2 O3). reflexivity. }
  destruct (verdict (fl iz)) as [|[|[|[|v]]]]; try exact U3; apply IH; exact U3.
Qed.
Lemma unfinished_prepare {S} (L : lib S) o b f s : prepare L o b f = Some s -> unfinished s.
Proof.
  unfold prepare. destruct (match oDump o with EveryN => _ | FromList _ => _ end) as [i|]; [|discriminate]. cbv zeta. intros H. injection H as <-.
  destruct (oDump o) as [|[|e l]]; destruct b; try reflexivity; destruct (Rlt_dec _ _); reflexivity.
Qed.
Lemma finish_ended {S} (L : lib S) o (s : loop S) : unfinished s -> endedWith (Done (finish L o s)) (fs s) (out (finish L o s)).
Proof.
  intros U. cbn [endedWith]. split; [reflexivity|]. destruct (finish_out L o s) as [m [w [E [T [F [Wk _]]]]]]. exists m. split; [|exact F].
  rewrite E, madeAt_app, U. unfold madeAt. cbn [filter app]. rewrite T. destruct Wk as [->|[m' [-> T']]]; cbn; [reflexivity|]. rewrite T'. reflexivity.
Qed.
