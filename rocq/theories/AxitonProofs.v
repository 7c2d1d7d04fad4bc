(** Proofs about the axiton finder. *)
From Coq Require Import Arith List Bool QArith Qabs Permutation Sorted Lia Lqa.
From Verif Require Import AxitonModel AxitonSpec.
Import ListNotations.
Local Open Scope nat_scope.

Lemma Qlt_bool_spec a b : if Qlt_bool a b then (a < b)%Q else (b <= a)%Q.
Proof.
  unfold Qlt_bool. destruct (Qle_bool b a) eqn:E; simpl.
  - now apply Qle_bool_iff.
  - apply Qnot_le_lt. intros H. apply Qle_bool_iff in H. congruence.
Qed.

(** Insertion in a descending list, after the entries at least as large. *)
Fixpoint ins (x : Q * nat) (l : list (Q * nat)) : list (Q * nat) :=
  match l with
  | [] => [x]
  | y :: l' => if Qlt_bool (fst y) (fst x) then x :: l else y :: ins x l'
  end.

Definition desc := StronglySorted (fun a b : Q * nat => (fst b <= fst a)%Q).

Lemma ins_perm x l : Permutation (x :: l) (ins x l).
Proof.
  induction l as [|y l IH]; simpl; auto.
  destruct (Qlt_bool _ _); auto.
  eapply perm_trans; [apply perm_swap|]. now apply perm_skip.
Qed.

Lemma ins_desc x l : desc l -> desc (ins x l).
Proof.
  induction l as [|y l IH]; intros H; simpl.
  - repeat constructor.
  - inversion H as [|? ? H1 H2]; subst. pose proof (Qlt_bool_spec (fst y) (fst x)) as S.
    destruct (Qlt_bool (fst y) (fst x)).
    + constructor; auto. constructor; [lra|]. eapply Forall_impl; [|exact H2]. simpl. intros; lra.
    + constructor; [apply IH; auto|]. eapply Permutation_Forall; [apply ins_perm|]. constructor; auto.
Qed.

Lemma firstn_ins K x l : firstn K (ins x (firstn K l)) = firstn K (ins x l).
Proof.
  revert l. induction K as [|K IH]; intros l; [reflexivity|].
  destruct l as [|y l]; [reflexivity|]. cbn [firstn ins].
  destruct (Qlt_bool (fst y) (fst x)) eqn:E; cbn [firstn].
  - f_equal. destruct K as [|K]; [reflexivity|]. rewrite !firstn_cons. f_equal.
    rewrite firstn_firstn. f_equal. lia.
  - f_equal. apply IH.
Qed.

(** The arrays hold a list. *)
Definition holds (ct : nat -> Q) (ar : nat -> nat) (l : list (Q * nat)) : Prop :=
  forall i, i < length l -> nth_error l i = Some (ct i, ar i).

Lemma ins_split x l : exists p q, l = p ++ q /\ ins x l = p ++ x :: q /\
  (forall y, In y p -> (fst x <= fst y)%Q) /\
  (match q with [] => True | y :: _ => (fst y < fst x)%Q end).
Proof.
  induction l as [|y l IH]; simpl.
  - exists [], []. simpl. intuition.
  - pose proof (Qlt_bool_spec (fst y) (fst x)) as S.
    destruct (Qlt_bool (fst y) (fst x)).
    + exists [], (y :: l). simpl. intuition.
    + destruct IH as (p&q&->&->&Hp&Hq). exists (y :: p), q. simpl. split; auto. split; auto.
      split; auto. intros w [<-|Hw]; auto.
Qed.

(** The loop that makes room, on a descending list. *)
Lemma room_spec K val ct ar l p q :
  holds ct ar l -> l = p ++ q -> desc l -> length l <= K ->
  (forall y, In y p -> (val <= fst y)%Q) ->
  (match q with [] => True | y :: _ => (fst y < val)%Q end) ->
  forall q1 q2 ct' ar', q = q1 ++ q2 ->
  (forall i, i < length p + length q1 -> ct' i = ct i /\ ar' i = ar i) ->
  (forall i, length p + length q1 <= i < length l -> S i < K -> ct' (S i) = ct i /\ ar' (S i) = ar i) ->
  (forall i, length p + length q1 <= i < length l -> (fst (nth i l (0%Q,0%nat)) < val)%Q) ->
  exists ct'' ar'', room K val ct' ar' (length p + length q1) = (length p, ct'', ar'') /\
    (forall i, i < length p -> ct'' i = ct i /\ ar'' i = ar i) /\
    (forall i, length p <= i < length l -> S i < K -> ct'' (S i) = ct i /\ ar'' (S i) = ar i).
Proof.
  intros Hh -> Hd Hl Hp Hq. unfold holds in Hh. rewrite app_length in Hh, Hl |- *. induction q1 as [|y q1 IH] using rev_ind; intros q2 ct' ar' E H1 H2 H3.
  - simpl in *. rewrite Nat.add_0_r in *. exists ct', ar'. split; [|split; auto].
    destruct p as [|y0 p0] eqn:Ep; [reflexivity|]. rewrite <- Ep in *.
    assert (length p = S (length p - 1)) as L by (subst; simpl; lia).
    set (k := length p - 1) in *. rewrite L. simpl.
    destruct (H1 k) as (C1&_); [lia|]. rewrite C1.
    specialize (Hh k). assert (k < length p + length q) as L2 by lia.
    specialize (Hh L2). rewrite nth_error_app1 in Hh by lia. apply nth_error_In in Hh.
    specialize (Hp _ Hh). simpl in Hp. pose proof (Qlt_bool_spec (ct k) val) as S.
    destruct (Qlt_bool (ct k) val); [exfalso; lra|reflexivity].
  - rewrite app_length in H1, H2, H3 |- *. simpl in *. rewrite Nat.add_assoc, Nat.add_1_r in *.
    set (k := length p + length q1) in *. simpl.
    assert (Lq : length q = length q1 + 1 + length q2) by (rewrite E, !app_length; simpl; lia).
    assert (Hk : k < length p + length q) by lia.
    destruct (H1 k) as (C1&C2); [lia|].
    pose proof (Hh k Hk) as N.
    assert (V : (ct k < val)%Q).
    { (* the entry at k is in q, whose first is below val, and the list descends *)
      rewrite nth_error_app2 in N by lia. replace (k - length p) with (length q1) in N by lia.
      destruct q as [|y0 q0]; [simpl in Lq; lia|].
      destruct q1 as [|y1 q1'].
      - simpl in N. injection N as ->. exact Hq.
      - simpl in E. injection E as -> E. simpl in N. apply nth_error_In in N.
        assert (D : desc (y1 :: q0)).
        { clear - Hd. induction p as [|a p IHp]; auto. simpl in Hd. apply IHp. now inversion Hd. }
        inversion D as [|? ? _ D2]; subst. rewrite Forall_forall in D2. specialize (D2 _ N). simpl in D2. lra. }
    rewrite C1. pose proof (Qlt_bool_spec (ct k) val) as S. destruct (Qlt_bool (ct k) val); [|exfalso; lra].
    assert (E' : q = q1 ++ y :: q2) by (rewrite E, <- app_assoc; reflexivity).
    destruct (Nat.ltb_spec (Datatypes.S k) K).
    + eapply IH; [exact E'| | |].
      * intros i Hi. unfold upd. destruct (Nat.eqb_spec i (Datatypes.S k)); [lia|]. apply H1. lia.
      * intros i Hi HK. unfold upd. simpl. destruct (Nat.eqb_spec i k) as [->|].
        -- rewrite ?C1, ?C2. auto.
        -- apply H2; lia.
      * intros i Hi. destruct (Nat.eq_dec i k) as [->|]; [|apply H3; lia].
        erewrite nth_error_nth; [|exact N]. exact V.
    + eapply IH; [exact E'| | |].
      * intros i Hi. apply H1. lia.
      * intros i Hi HK. apply H2; lia.
      * intros i Hi. destruct (Nat.eq_dec i k) as [->|]; [|apply H3; lia].
        erewrite nth_error_nth; [|exact N]. exact V.
Qed.

Definition rep (s : slots) (l : list (Q * nat)) := used s = length l /\ holds (ctL s) (arL s) l.

Lemma insertSite_rep K s l val f :
  rep s l -> desc l -> length l <= K ->
  rep (insertSite K s val f) (firstn K (ins (val, f) l)) .
Proof.
  intros (U&Hh) Hd Hl.
  destruct (ins_split (val, f) l) as (p&q&E&Ei&Hp&Hq). simpl in Hp.
  assert (Lpq : length l = length p + length q) by (rewrite E, app_length; reflexivity).
  unfold insertSite.
  destruct (room_spec K val (ctL s) (arL s) l p q Hh E Hd Hl) with (q1 := q) (q2 := @nil (Q*nat))
    (ct' := ctL s) (ar' := arL s) as (ct''&ar''&R&R1&R2); auto.
  { now rewrite app_nil_r. }
  { intros i Hi. lia. }
  { intros i Hi. lia. }
  rewrite U, Lpq, R. rewrite <- Lpq.
  set (size := if length l <? K then S (length l) else length l).
  assert (Lf : length (firstn K (ins (val, f) l)) = size).
  { rewrite firstn_length. rewrite <- (Permutation_length (ins_perm (val,f) l)). simpl.
    unfold size. destruct (Nat.ltb_spec (length l) K); lia. }
  assert (NE : forall i, i < size -> nth_error (firstn K (ins (val, f) l)) i = nth_error (p ++ (val,f) :: q) i).
  { intros i Hi. rewrite <- Ei. rewrite <- (firstn_skipn K (ins (val,f) l)) at 2.
    rewrite nth_error_app1; auto. lia. }
  assert (Sz : size <= K) by (unfold size; destruct (Nat.ltb_spec (length l) K); lia).
  assert (Sl : size <= S (length l)) by (unfold size; destruct (Nat.ltb_spec (length l) K); lia).
  assert (Main : forall i, i < size -> i <> length p ->
     nth_error (p ++ (val, f) :: q) i = Some (ct'' i, ar'' i)).
  { intros i Hi Hn. destruct (Nat.lt_ge_cases i (length p)).
    - rewrite nth_error_app1 by lia. destruct (R1 i) as (->&->); [lia|].
      rewrite <- Hh by lia. rewrite E, nth_error_app1 by lia. reflexivity.
    - rewrite nth_error_app2 by lia. destruct (i - length p) as [|k] eqn:Ek; [lia|]. simpl.
      destruct i as [|i]; [lia|]. destruct (R2 i) as (->&->); [lia|lia|].
      rewrite <- Hh by lia. rewrite E, nth_error_app2 by lia. f_equal. lia. }
  destruct (Nat.ltb_spec (length p) size) as [Hlt|Hge].
  - split; simpl; [symmetry; exact Lf|]. intros i Hi. rewrite Lf in Hi. rewrite NE by lia.
    unfold upd. destruct (Nat.eqb_spec i (length p)) as [->|Hn].
    + rewrite nth_error_app2, Nat.sub_diag by lia. reflexivity.
    + apply Main; auto.
  - split; simpl; [symmetry; exact Lf|]. intros i Hi. rewrite Lf in Hi. rewrite NE by lia.
    apply Main; auto. lia.
Qed.

(** The candidates sorted, and the run of the loop. *)
Definition isort (l : list (Q * nat)) := fold_left (fun acc x => ins x acc) l [].

Lemma fold_ins_desc l acc : desc acc -> desc (fold_left (fun acc x => ins x acc) l acc).
Proof. revert acc. induction l as [|x l IH]; intros acc H; simpl; auto. apply IH, ins_desc, H. Qed.

Lemma fold_ins_perm l acc : Permutation (l ++ acc) (fold_left (fun acc x => ins x acc) l acc).
Proof.
  revert acc. induction l as [|x l IH]; intros acc; simpl; auto.
  eapply perm_trans; [|apply IH].
  eapply perm_trans; [apply Permutation_middle|]. apply Permutation_app_head, ins_perm.
Qed.

Lemma desc_firstn K l : desc l -> desc (firstn K l).
Proof.
  intros H. rewrite <- (firstn_skipn K l) in H. revert H. generalize (skipn K l).
  induction (firstn K l) as [|a m IH]; intros r H; [constructor|].
  simpl in H. inversion H as [|? ? H1 H2]; subst. constructor; [eapply IH; eauto|].
  apply Forall_app in H2. apply H2.
Qed.

Lemma desc_app_le l1 l2 a b : desc (l1 ++ l2) -> In a l1 -> In b l2 -> (fst b <= fst a)%Q.
Proof.
  induction l1 as [|x l1 IH]; intros H Ha Hb; [contradiction|].
  simpl in H. inversion H as [|? ? H1 H2]; subst. destruct Ha as [->|Ha]; [|now apply IH].
  rewrite Forall_forall in H2. apply H2, in_or_app. now right.
Qed.

Section Run.
Variables n1 Lz shift : nat.
Variable folded : bool.
Variables C Th : nat -> Q.
Variables z thr : Q.

Definition cands (idxs : list nat) : list (Q * nat) :=
  map (fun i => (C i, fieldPos n1 shift folded i)) (filter (passes n1 Lz shift folded C Th z thr) idxs).

Lemma run_rep K idxs : forall s acc,
  rep s (firstn K acc) -> desc acc ->
  rep (fold_left (visit n1 Lz shift folded C Th z thr K) idxs s)
      (firstn K (fold_left (fun acc x => ins x acc) (cands idxs) acc)).
Proof.
  induction idxs as [|i idxs IH]; intros s acc H Hd; [exact H|].
  unfold cands in *. cbn [fold_left filter map]. unfold visit at 2.
  destruct (passes n1 Lz shift folded C Th z thr i).
  - cbn [map fold_left]. apply IH; [|now apply ins_desc].
    rewrite <- firstn_ins. apply insertSite_rep; auto using desc_firstn.
    rewrite firstn_length. lia.
  - apply IH; auto.
Qed.

(** Entries not used keep the value they started with. *)
Lemma room_above K val j pos : forall ct ar, pos <= K ->
  (forall i, i < pos -> ct i = ct i) ->
  forall p' ct' ar', room K val ct ar pos = (p', ct', ar') -> pos < j -> ar' j = ar j.
Proof.
  induction pos as [|p IH]; intros ct ar HK _ p' ct' ar' E Hj; simpl in E.
  - now injection E as _ _ <-.
  - destruct (Qlt_bool (ct p) val).
    + destruct (Nat.ltb_spec (S p) K).
      * erewrite IH with (ar := upd ar (S p) (ar p)); [|lia| |exact E|lia]; auto.
        unfold upd. destruct (Nat.eqb_spec j (S p)); [lia|reflexivity].
      * eapply IH; [|auto|exact E|]; lia.
    + now injection E as _ _ <-.
Qed.

Lemma room_pos K val pos : forall ct ar p' ct' ar', room K val ct ar pos = (p', ct', ar') -> p' <= pos.
Proof.
  induction pos as [|p IH]; intros ct ar p' ct' ar' E; simpl in E.
  - injection E as <- _ _. lia.
  - destruct (Qlt_bool (ct p) val).
    + destruct (S p <? K); apply IH in E; lia.
    + injection E as <- _ _. lia.
Qed.

Lemma insertSite_unused K s val f : used s <= K -> (forall j, j < K -> used s <= j -> arL s j = 0) ->
  used (insertSite K s val f) <= K /\
  (forall j, j < K -> used (insertSite K s val f) <= j -> arL (insertSite K s val f) j = 0).
Proof.
  intros HU H. unfold insertSite.
  destruct (room K val (ctL s) (arL s) (used s)) as ((pos&ct)&ar) eqn:E.
  pose proof (room_pos _ _ _ _ _ _ _ _ E) as Hp.
  assert (A : forall j, j < K -> used s < j -> ar j = 0).
  { intros j HjK Hj. rewrite (room_above _ _ j _ _ _ HU (fun _ _ => eq_refl) _ _ _ E Hj). apply H; lia. }
  set (size := if used s <? K then S (used s) else used s).
  assert (HS : size <= K) by (unfold size; destruct (Nat.ltb_spec (used s) K); lia).
  assert (HS' : size = S (used s) \/ size = K) by (unfold size; destruct (Nat.ltb_spec (used s) K); lia).
  destruct (Nat.ltb_spec pos size); simpl; (split; [exact HS|]); intros j Hj Hsz.
  - unfold upd. destruct (Nat.eqb_spec j pos); [lia|]. apply A; lia.
  - apply A; lia.
Qed.
End Run.
