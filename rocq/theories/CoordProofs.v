(** Lemmas on the file of coordinates. *)
From Coq Require Import List Arith NArith Bool Lia.
From Verif Require Import CoordModel CoordSpec.
Import ListNotations.
Ltac Zify.zify_post_hook ::= idtac.

Lemma total_from (l : list holder) : forall a, fold_left (fun t r => t + cnt r) l a = a + total l.
Proof.
  induction l as [|r l IH]; intros a; [unfold total; cbn [fold_left]; lia|]. unfold total. cbn [fold_left]. rewrite IH. rewrite (IH (0 + cnt r)). lia.
Qed.
Lemma total_cons r (l : list holder) : total (r :: l) = cnt r + total l. Proof. unfold total at 1. cbn [fold_left]. rewrite total_from. lia. Qed.
Lemma total_app (l k : list holder) : total (l ++ k) = total l + total k.
Proof. induction l as [|r l IH]; [unfold total at 2; reflexivity|]. cbn [app]. rewrite !total_cons, IH. lia. Qed.
Lemma coords_length size r : length (buf r) = size /\ 3 * cnt r <= size -> length (coords r) = 3 * cnt r.
Proof. intros [A B]. unfold coords. rewrite firstn_length_le; lia. Qed.
Lemma all_length size (l : list holder) : (forall r, In r l -> length (buf r) = size /\ 3 * cnt r <= size) -> length (flat_map coords l) = 3 * total l.
Proof.
  induction l as [|r l IH]; intros H; [reflexivity|]. cbn [flat_map]. rewrite app_length, (coords_length size), IH, total_cons; [lia| |]; intros; apply H; cbn [In]; auto.
Qed.
Lemma receive_length b d : length d <= length b -> length (receive b d) = length b.
Proof. intros H. unfold receive. rewrite app_length, skipn_length. lia. Qed.
Lemma receive_first b d : firstn (length d) (receive b d) = d.
Proof. unfold receive. rewrite firstn_app, Nat.sub_diag, firstn_all, firstn_O, app_nil_r. reflexivity. Qed.
Lemma slab_next (done rest d : list nat) : length d <= length rest -> writeSlab (done ++ rest) (length done) d = (done ++ d) ++ skipn (length d) rest.
Proof.
  intros H. unfold writeSlab. rewrite firstn_app, Nat.sub_diag, firstn_all, firstn_O, app_nil_r. rewrite skipn_app.
  rewrite (skipn_all2 done) by lia. cbn [app]. rewrite <- app_assoc. f_equal. f_equal. f_equal. lia.
Qed.
Lemma skipn_repeat (x : nat) : forall k n, skipn k (repeat x n) = repeat x (n - k).
Proof. induction k as [|k IH]; intros [|n]; try reflexivity. cbn [skipn repeat Nat.sub]. apply IH. Qed.
(** The memory of rank 0 after the first k turns. *)
Definition memAfter (b : list nat) (l : list holder) : list nat := fold_left (fun m r => receive m (coords r)) l b.
Lemma memAfter_length size l : forall b, length b = size -> (forall r, In r l -> length (buf r) = size /\ 3 * cnt r <= size) -> length (memAfter b l) = size.
Proof.
  induction l as [|r l IH]; intros b Hb H; [exact Hb|]. cbn [memAfter fold_left]. apply IH; [|intros; apply H; right; assumption].
  rewrite receive_length; [exact Hb|]. rewrite (coords_length size) by (apply H; left; reflexivity). pose proof (H r (or_introl eq_refl)). lia.
Qed.
Lemma turns size r0 others blank : length (buf r0) = size /\ 3 * cnt r0 <= size -> (forall r, In r others -> (length (buf r) = size /\ 3 * cnt r <= size) /\ fits r) ->
  forall k, k <= length others ->
  fold_left (turn (r0 :: others)) (seq 0 (S k)) (Some (repeat blank (3 * total (r0 :: others)), buf r0)) =
  Some (flat_map coords (r0 :: firstn k others) ++ repeat blank (3 * total (skipn k others)), memAfter (buf r0) (firstn k others)).
Proof.
  intros H0 H. set (ranks := r0 :: others). assert (HA : forall r, In r ranks -> length (buf r) = size /\ 3 * cnt r <= size).
  { intros r [<-|I]; [exact H0|apply H, I]. }
  induction k as [|k IH]; intros L.
  - cbn [seq fold_left]. unfold turn. cbn [nth_error ranks Nat.eqb firstn]. destruct (Nat.leb_spec (3 * cnt r0) (length (buf r0))); [|lia].
    change (total []) with 0. apply (f_equal Some), (f_equal2 pair); [|reflexivity]. fold (coords r0). rewrite Nat.mul_0_r.
    pose proof (slab_next [] (repeat blank (3 * total ranks)) (coords r0)) as Q. cbn [app length] in Q. rewrite Q by (rewrite repeat_length, (coords_length size) by exact H0; unfold ranks; rewrite total_cons; lia).
    cbn [app flat_map skipn]. rewrite app_nil_r. f_equal. rewrite skipn_repeat, (coords_length size) by exact H0. f_equal. unfold ranks. rewrite total_cons. lia.
  - rewrite seq_S, fold_left_app, IH by lia. cbn [fold_left plus].
    destruct (nth_error others k) as [r|] eqn:E; [|apply nth_error_None in E; lia].
    assert (IR : In r others) by (apply nth_error_In in E; exact E). destruct (H r IR) as [Hr F].
    pose proof (coords_length size r Hr) as CL.
    set (mem := memAfter (buf r0) (firstn k others)).
    assert (ML : length mem = size).
    { apply memAfter_length; [apply H0|]. intros x I. apply H. rewrite <- (firstn_skipn k others). apply in_or_app. left. exact I. }
    assert (SP : skipn k others = r :: skipn (S k) others).
    { clear - E. revert k E. induction others as [|a l IH]; intros [|k] E; cbn [nth_error] in E; try discriminate; [injection E as ->; reflexivity|]. cbn [skipn]. rewrite IH by exact E. reflexivity. }
    assert (FP : firstn (S k) others = firstn k others ++ [r]).
    { clear - E. revert k E. induction others as [|a l IH]; intros [|k] E; cbn [nth_error] in E; try discriminate; [injection E as ->; reflexivity|].
      change (firstn (S (S k)) (a :: l)) with (a :: firstn (S k) l). rewrite IH by exact E. reflexivity. }
    unfold turn. unfold ranks. cbn [nth_error Nat.eqb]. rewrite E. fold ranks.
    destruct (Nat.leb_spec (3 * cnt r) (length (buf r))) as [_|B]; [|lia]. destruct (Nat.leb_spec (3 * cnt r) (length mem)) as [_|B]; [|lia].
    unfold messageFits. unfold fits in F. rewrite (proj2 (N.ltb_lt _ _) F). cbn [andb]. fold (coords r).
    rewrite receive_length by lia. destruct (Nat.leb_spec (3 * cnt r) (length mem)) as [_|B]; [|lia].
    apply (f_equal Some), (f_equal2 pair).
    + rewrite <- CL. rewrite receive_first.
      assert (DL : length (flat_map coords (r0 :: firstn k others)) = 3 * total (firstn (S k) ranks)).
      { unfold ranks. cbn [firstn]. apply (all_length size). intros x [<-|I]; [exact H0|]. apply H. rewrite <- (firstn_skipn k others). apply in_or_app. left. exact I. }
      rewrite <- DL. rewrite slab_next.
      * rewrite FP. cbn [flat_map]. rewrite flat_map_app. cbn [flat_map]. rewrite app_nil_r, <- !app_assoc. do 3 f_equal. rewrite skipn_repeat, CL, SP, total_cons. f_equal. lia.
      * rewrite repeat_length, CL, SP, total_cons. lia.
    + rewrite FP. unfold memAfter. rewrite fold_left_app. reflexivity.
Qed.
Lemma written size r0 others blank : length (buf r0) = size /\ 3 * cnt r0 <= size -> (forall r, In r others -> (length (buf r) = size /\ 3 * cnt r <= size) /\ fits r) ->
  writeCo true true true blank (r0 :: others) = Wrote (flat_map coords (r0 :: others)) (Holder (memAfter (buf r0) others) (cnt r0) :: others).
Proof.
  intros H0 H. unfold writeCo. cbn [negb]. change (length (r0 :: others)) with (S (length others)). rewrite (turns size r0 others blank H0 H (length others)) by lia.
  rewrite firstn_all, skipn_all. change (total []) with 0. rewrite Nat.mul_0_r. cbn [repeat]. rewrite app_nil_r. reflexivity.
Qed.
Lemma turn_none ranks (l : list nat) : fold_left (turn ranks) l None = None. Proof. induction l; [reflexivity|]. exact IHl. Qed.
