(** C123: the file of string coordinates. *)
From Coq Require Import List Arith NArith Bool Lia.
From Verif Require Import CoordModel CoordSpec CoordProofs.
Import ListNotations.
Ltac Zify.zify_post_hook ::= idtac.

(** The coordinates of all ranks one after another, nothing else; the other ranks keep theirs. Only messages need be below 2^31 bytes: rank 0 sends none. *)
Theorem coords_file_partial size blank r0 others : sound size (r0 :: others) -> Forall fits others ->
  exists mem, writeCo true true true blank (r0 :: others) = Wrote (flat_map coords (r0 :: others)) (Holder mem (cnt r0) :: others) /\ length mem = size.
Proof.
  intros [_ H] F. rewrite Forall_forall in F. exists (memAfter (buf r0) others).
  assert (H1 : forall r, In r others -> length (buf r) = size /\ 3 * cnt r <= size) by (intros; apply H; right; assumption). assert (H0 := H r0 (or_introl eq_refl)).
  split; [|apply memAfter_length; [apply H0|exact H1]]. apply (written size); auto.
Qed.
Definition rankA := Holder [1; 2; 3; 9; 9; 9; 9; 9; 9] 1.
Definition rankB := Holder [4; 5; 6; 7; 8; 9; 0; 0; 0] 2.
Definition rankC := Holder [0; 0; 0; 0; 0; 0; 0; 0; 0] 0.
Lemma two_sound : sound 9 [rankA; rankC; rankB] /\ Forall fits [rankC; rankB].
Proof.
  split; [split; [discriminate|]|].
  - intros r [<-|[<-|[<-|[]]]]; cbn; lia.
  - repeat constructor; unfold fits; cbn; lia.
Qed.
Example coords_case : exists mem, writeCo true true true 0 [rankA; rankC; rankB] = Wrote [1; 2; 3; 4; 5; 6; 7; 8; 9] (Holder mem 1 :: [rankC; rankB]) /\ length mem = 9.
Proof. exact (coords_file_partial 9 0 rankA [rankC; rankB] (proj1 two_sound) (proj2 two_sound)). Qed.
(** Three numbers for each point counted. *)
Theorem coords_length_partial size blank ranks f a : sound size ranks -> Forall fits ranks -> writeCo true true true blank ranks = Wrote f a -> length f = 3 * total ranks.
Proof.
  intros S F E. destruct ranks as [|r0 others]; [destruct S as [N _]; contradiction|]. inversion F as [|? ? _ F']. subst.
  destruct (coords_file_partial size blank r0 others S F') as [mem [W _]]. rewrite W in E. injection E as <- _. apply (all_length size (r0 :: others)). intros r I. apply S, I.
Qed.
Example coords_length_case : total [rankA; rankC; rankB] = 3. Proof. reflexivity. Qed.
(** Without coordinates in memory, or without a file, nothing is written and nothing changes. *)
Theorem coords_nothing ready opened blank ranks : ready = false \/ opened = false -> writeCo ready opened true blank ranks = Nothing.
Proof. intros [->| ->]; [reflexivity|]. destruct ready; reflexivity. Qed.
Example coords_nothing_case : writeCo true false true 0 [rankA] = Nothing. Proof. apply coords_nothing. right. reflexivity. Qed.
(** One rank keeps what it had. *)
Theorem coords_alone_partial size blank r : sound size [r] -> writeCo true true true blank [r] = Wrote (coords r) [r].
Proof. intros [_ H]. rewrite (written size) by (apply H || intros ? []; left; reflexivity). cbn [flat_map memAfter fold_left]. rewrite app_nil_r. destruct r. reflexivity. Qed.
Example coords_alone_case : writeCo true true true 0 [rankB] = Wrote [4; 5; 6; 7; 8; 9] [rankB].
Proof. apply (coords_alone_partial 9). split; [discriminate|]. intros r [<-|[]]. cbn. lia. Qed.
(** With more, rank 0 has afterwards the coordinates of the last rank in place of its own. *)
Theorem coords_lost_refuted size blank r0 others r : sound size (r0 :: others ++ [r]) -> Forall fits (others ++ [r]) ->
  exists mem, writeCo true true true blank (r0 :: others ++ [r]) = Wrote (flat_map coords (r0 :: others ++ [r])) (Holder mem (cnt r0) :: others ++ [r]) /\ firstn (3 * cnt r) mem = coords r.
Proof.
  intros [N H] F. rewrite Forall_forall in F. exists (memAfter (buf r0) (others ++ [r])). split.
  - apply (written size); [apply H; left; reflexivity|]. intros x I. split; [apply H; right; exact I|apply F, I].
  - unfold memAfter. rewrite fold_left_app. cbn [fold_left]. rewrite <- (coords_length size r) by (apply H; right; apply in_or_app; right; left; reflexivity). apply receive_first.
Qed.
Example coords_lost_case : sound 9 (rankA :: [rankC] ++ [rankB]) /\ Forall fits ([rankC] ++ [rankB]). Proof. exact two_sound. Qed.
(** So that a second file differs from the first. *)
Theorem coords_again_refuted : ~ repeatable.
Proof.
  intros H. destruct two_sound as [S F].
  destruct (coords_lost_refuted 9 0 rankA [rankC] rankB S F) as [mem [E M]]. cbn [app] in E.
  assert (FA : Forall fits [rankA; rankC; rankB]) by (constructor; [unfold fits; cbn; lia|exact F]).
  pose proof (H 9 0 _ _ _ S FA E) as [a' W].
  destruct (coords_file_partial 9 0 rankA [rankC; rankB] S F) as [mem' [E' L']]. rewrite E in E'. injection E' as <-.
  assert (S' : sound 9 [Holder mem 1; rankC; rankB]).
  { split; [discriminate|]. intros r [<-|[<-|[<-|[]]]]; cbn [buf cnt]; try (split; [exact L'|lia]); cbn; lia. }
  destruct (coords_file_partial 9 0 (Holder mem 1) [rankC; rankB] S' F) as [m2 [W' _]]. change (cnt rankA) with 1 in W. rewrite W in W'. injection W' as W' _.
  change (cnt rankB) with 2 in M. apply (f_equal (firstn 3)) in M. cbn [flat_map] in W'. change (coords (Holder mem 1)) with (firstn 3 mem) in W'.
  rewrite firstn_firstn in M. change (Nat.min 3 (3 * 2)) with 3 in M. rewrite M in W'. discriminate W'.
Qed.
(** A rank other than the first with 2^31 bytes or more of coordinates stops it. *)
Theorem coords_many_refuted blank r0 others r rest : (2 ^ 31 <= N.of_nat (6 * cnt r))%N -> writeCo true true true blank (r0 :: others ++ r :: rest) = Bad.
Proof.
  intros H. unfold writeCo. cbn [negb]. set (ranks := r0 :: others ++ r :: rest).
  assert (L : length ranks = S (length others) + (1 + length rest)) by (unfold ranks; cbn [length]; rewrite app_length; cbn [length]; lia).
  rewrite L, seq_app, fold_left_app. cbn [plus]. change (seq (S (length others)) (S (length rest))) with (S (length others) :: seq (S (S (length others))) (length rest)).
  set (st := fold_left _ (seq 0 (S (length others))) _). cbn [fold_left].
  assert (T : turn ranks st (S (length others)) = None).
  { unfold turn. destruct st as [[file mem]|]; [|reflexivity]. unfold ranks. cbn [nth_error]. rewrite nth_error_app2, Nat.sub_diag by lia. cbn [nth_error Nat.eqb].
    unfold messageFits. destruct (N.ltb_spec (N.of_nat (6 * cnt r)) (2 ^ 31)) as [B|_]; [lia|]. rewrite andb_false_r. reflexivity. }
  rewrite T, turn_none. reflexivity.
Qed.
Example coords_many_case : exists n, (2 ^ 31 <= N.of_nat (6 * n))%N.
Proof. exists (N.to_nat 400000000). rewrite Nnat.Nat2N.inj_mul, Nnat.N2Nat.id. cbn. lia. Qed.

Print Assumptions coords_file_partial.
Print Assumptions coords_length_partial.
Print Assumptions coords_nothing.
Print Assumptions coords_alone_partial.
Print Assumptions coords_lost_refuted.
Print Assumptions coords_again_refuted.
Print Assumptions coords_many_refuted.
