(** C131: the times of the parts of a run. *)
From Coq Require Import Reals List Arith Lia Lra ZArith.
From Verif Require Import ProfModel ProfSpec ProfProofs.
Import ListNotations.
Ltac Zify.zify_post_hook ::= idtac.

(** However the other profilers are used in between: where the parts a profiler times do not overlap, each name has the time and the operations of its parts, and all its times together
    fit into the time that went by. Missing: parts that overlap, refuted below; rounding of doubles. *)
Theorem times_partial k all items w : wrun clean all = Some w -> of_ k all = history items ->
  (forall n, dTime (w k) n = spent n items 0 /\ rate (w k) n = if Nat.eq_dec (spent n items 0) 0 then None else Some (done n items 0 / INR (spent n items 0))%R) /\
  (forall t0 t1, inOrder t0 t1 items -> 1000 * total (w k) <= t1 - t0).
Proof.
  intros H E. pose proof (wrun_of k all clean w H) as R0. rewrite E in R0. destruct (history_run items (clean k)) as [q [Q [P W]]]. rewrite R0 in Q. injection Q as <-. split.
  - intros n. destruct (P n) as [A B]. change (dTime (clean k) n) with 0 in A. change (cF (get n (pC (clean k)))) with 0%R in B. split; [exact A|]. unfold rate. rewrite A, B.
    destruct (Nat.eq_dec (spent n items 0) 0) as [D|D]; [rewrite D; reflexivity|]. apply Nat.eqb_neq in D. rewrite D. reflexivity.
  - intros t0 t1 O. destruct (W t0 t1 O) as [_ X]. change (total (clean k)) with 0 in X. lia.
Qed.
(** Parts timed one after another never use a number that is not set. *)
Theorem times_defined items p : exists q, run p (history items) = Some q.
Proof. destruct (history_run items p) as [q [Q _]]. exists q. exact Q. Qed.
Example times_case : exists w, wrun clean [(3, Start (1 * 1000)); (4, Start (2 * 1000)); (4, Stop (5 * 1000)); (3, Stop (9 * 1000)); (4, Add 0 1%R 1%R); (3, Add 7 2%R 2%R); (3, Start (20 * 1000)); (3, Stop (22 * 1000)); (3, Add 7 3%R 3%R)] = Some w /\ dTime (w 3) 7 = 10 /\ dTime (w 4) 0 = 3.
Proof.
  destruct (wrun clean [(3, Start (1 * 1000)); (4, Start (2 * 1000)); (4, Stop (5 * 1000)); (3, Stop (9 * 1000)); (4, Add 0 1%R 1%R); (3, Add 7 2%R 2%R); (3, Start (20 * 1000)); (3, Stop (22 * 1000)); (3, Add 7 3%R 3%R)]) as [w|] eqn:E; [|discriminate].
  exists w. split; [reflexivity|]. split.
  - destruct (times_partial 3 _ [Part 7 (1 * 1000) (9 * 1000) 2 2; Part 7 (20 * 1000) (22 * 1000) 3 3] w E eq_refl) as [P _]. rewrite (proj1 (P 7)). cbn [spent]. destruct (Nat.eq_dec 7 7) as [_|N]; [|contradiction].
    rewrite <- (Nat.mul_sub_distr_r 9 1 1000). rewrite <- (Nat.mul_sub_distr_r 22 20 1000). rewrite !Nat.div_mul by discriminate. reflexivity.
  - destruct (times_partial 4 _ [Part 0 (2 * 1000) (5 * 1000) 1 1] w E eq_refl) as [P _]. rewrite (proj1 (P 0)). cbn [spent]. destruct (Nat.eq_dec 0 0) as [_|N]; [|contradiction].
    rewrite <- (Nat.mul_sub_distr_r 5 2 1000). rewrite Nat.div_mul by discriminate. reflexivity.
Qed.
(** A part within another part of the same profiler: the outer part is timed from the beginning of the inner one, which counts twice. *)
Theorem nested_refuted outer inner a b c d : outer <> inner -> a <= b -> b <= c -> c <= d ->
  exists q, run fresh [Start a; Start b; Stop c; Add inner 0%R 0%R; Stop d; Add outer 0%R 0%R] = Some q /\ dTime q outer = (d - b) / 1000 /\ dTime q inner = (c - b) / 1000 /\ total q = (d - b) / 1000 + (c - b) / 1000.
Proof.
  intros N _ _ _. assert (N' : (inner =? outer) = false) by (apply Nat.eqb_neq; auto). eexists. split; [reflexivity|]. unfold dTime, total. cbn [pC pS pD fresh].
  generalize ((d - b) / 1000). generalize ((c - b) / 1000). intros u v. cbn. rewrite !Nat.eqb_refl. cbn. rewrite !N'. cbn. rewrite ?N', !Nat.eqb_refl. cbn. rewrite ?N', ?Nat.eqb_refl. cbn. repeat split; lia.
Qed.
(** A part without a beginning is timed from the epoch. *)
Theorem no_start_refuted n d : exists q, run fresh [Stop d; Add n 0%R 0%R] = Some q /\ dTime q n = d / 1000.
Proof. eexists. split; [reflexivity|]. unfold dTime. cbn [pC pS pD fresh]. rewrite !get_at. cbn [cT zero get]. unfold zero. cbn [cT]. rewrite Nat.sub_0_r. lia. Qed.
(** A part without an end uses a number that was not set. *)
Theorem no_stop_refuted n t x y : run fresh [Start t; Add n x y] = None. Proof. reflexivity. Qed.
(** Parts of two profilers, one within the other: more is accounted for than went by. *)
Theorem unaccounted_refuted j k m n T : j <> k -> (0 < T)%nat -> exists w, wrun clean [(j, Start 0); (k, Start 0); (k, Stop (T * 1000)); (k, Add n 0%R 0%R); (j, Stop (T * 1000)); (j, Add m 0%R 0%R)] = Some w /\
  (unaccounted w [j; k] 0 (T * 1000) < 0)%Z.
Proof.
  intros N HT. set (all := [(j, Start 0); (k, Start 0); (k, Stop (T * 1000)); (k, Add n 0%R 0%R); (j, Stop (T * 1000)); (j, Add m 0%R 0%R)]).
  assert (JK : (j =? k) = false) by (apply Nat.eqb_neq; exact N). assert (KJ : (k =? j) = false) by (apply Nat.eqb_neq; auto).
  destruct (wrun clean all) as [w|] eqn:E.
  2:{ exfalso. unfold all in E. cbn [wrun step clean fresh pD pS pC] in E. rewrite !JK, ?KJ, ?Nat.eqb_refl in E. cbn [pD pS pC] in E. rewrite ?JK, ?KJ, ?Nat.eqb_refl in E. cbn [pD pS pC] in E. discriminate. }
  exists w. split; [reflexivity|].
  assert (TT : forall i nm, of_ i all = history [Part nm 0 (T * 1000) 0 0] -> total (w i) = T).
  { intros i nm H. pose proof (wrun_of i all clean w E) as R0. rewrite H in R0. destruct (part (clean i) nm 0 (T * 1000) 0 0) as [q [Q [_ [_ [_ S]]]]].
    unfold history in R0. cbn [flat_map] in R0. rewrite app_nil_r in R0. rewrite R0 in Q. injection Q as <-. rewrite S, Nat.sub_0_r, Nat.div_mul by discriminate. reflexivity. }
  unfold unaccounted. cbn [fold_left]. rewrite (TT j m), (TT k n).
  - rewrite Nat.sub_0_r, Nat.div_mul by discriminate. lia.
  - unfold of_, all. cbn [filter fst]. rewrite JK, Nat.eqb_refl. reflexivity.
  - unfold of_, all. cbn [filter fst]. rewrite KJ, Nat.eqb_refl. reflexivity.
Qed.

Print Assumptions times_partial.
Print Assumptions times_defined.
Print Assumptions nested_refuted.
Print Assumptions no_start_refuted.
Print Assumptions no_stop_refuted.
Print Assumptions unaccounted_refuted.
