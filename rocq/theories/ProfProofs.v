From Coq Require Import Reals List Arith Lia ZArith.
From Verif Require Import ProfModel ProfSpec.
Import ListNotations.
Ltac Zify.zify_post_hook ::= idtac.

Lemma get_at name f l : get name (at_ name f l) = f (get name l).
Proof.
  induction l as [|[n c] l IH]; cbn; [rewrite Nat.eqb_refl; reflexivity|]. destruct (Nat.eqb_spec n name) as [->|N]; cbn.
  - rewrite Nat.eqb_refl. reflexivity.
  - apply Nat.eqb_neq in N. rewrite N. exact IH.
Qed.
Lemma get_other name n f l : n <> name -> get name (at_ n f l) = get name l.
Proof.
  intros N. induction l as [|[m c] l IH]; cbn.
  - apply Nat.eqb_neq in N. rewrite N. reflexivity.
  - destruct (Nat.eqb_spec m n) as [->|M]; cbn; [apply Nat.eqb_neq in N; rewrite N; reflexivity|]. rewrite IH. reflexivity.
Qed.
Definition sumT (l : list (nat * ctr)) (a : nat) := fold_left (fun a nc => a + cT (snd nc))%nat l a.
Lemma sumT_acc l : forall a, sumT l a = (a + sumT l 0)%nat.
Proof. unfold sumT. induction l as [|[n c] l IH]; intros a; cbn [fold_left snd]; [lia|]. rewrite IH, (IH (0 + _)%nat). lia. Qed.
Lemma sumT_at n f l : (sumT (at_ n f l) 0 + cT (get n l) = sumT l 0 + cT (f (get n l)))%nat.
Proof.
  induction l as [|[m c] l IH]; [cbn; lia|]. cbn [at_ get]. destruct (Nat.eqb_spec m n) as [->|M].
  - unfold sumT. cbn [fold_left snd]. fold (sumT l (0 + cT (f c))) (sumT l (0 + cT c)). rewrite (sumT_acc l (0 + cT (f c))), (sumT_acc l (0 + cT c)). lia.
  - unfold sumT. cbn [fold_left snd]. fold (sumT (at_ n f l) (0 + cT c)) (sumT l (0 + cT c)). rewrite (sumT_acc (at_ n f l)), (sumT_acc l). lia.
Qed.
Lemma run_app l : forall p l', run p (l ++ l') = match run p l with Some q => run q l' | None => None end.
Proof. induction l as [|e l IH]; intros p l'; [reflexivity|]. cbn. destruct (step p e); [apply IH|reflexivity]. Qed.

Lemma part p n b f x y : exists q, run p (events (Part n b f x y)) = Some q /\ (dTime q n = dTime p n + (f - b) / 1000)%nat /\ cF (get n (pC q)) = (cF (get n (pC p)) + x)%R /\
  (forall m, m <> n -> get m (pC q) = get m (pC p)) /\ total q = (total p + (f - b) / 1000)%nat.
Proof.
  eexists. split; [reflexivity|]. unfold dTime, total. cbn [pC pS pD]. rewrite !get_at. cbn [cT cF]. split; [reflexivity|]. split; [reflexivity|]. split.
  - intros m N. rewrite !get_other by auto. reflexivity.
  - set (d := ((f - b) / 1000)%nat). set (g1 := fun c => Ctr (cF c) (cB c) (cT c + d)). set (g2 := fun c => Ctr (cF c + x)%R (cB c + y)%R (cT c)).
    pose proof (sumT_at n g2 (at_ n g1 (pC p))) as A. pose proof (sumT_at n g1 (pC p)) as B. rewrite get_at in A. unfold g2 at 2 in A. unfold g1 at 2 in B. cbn [cT] in A, B. unfold sumT in A, B. lia.
Qed.
Lemma back p n : exists q, run p (events (Back n)) = Some q /\ get n (pC q) = zero /\ (forall m, m <> n -> get m (pC q) = get m (pC p)) /\ (total q <= total p)%nat.
Proof.
  eexists. split; [reflexivity|]. cbn [pC pS pD]. rewrite get_at. split; [reflexivity|]. split.
  - intros m N. rewrite get_other by auto. reflexivity.
  - unfold total. cbn [pC]. pose proof (sumT_at n (fun _ => zero) (pC p)) as A. unfold sumT in A. cbn [cT zero] in A. lia.
Qed.
Lemma history_run l : forall p, exists q, run p (history l) = Some q /\
  (forall n, dTime q n = spent n l (dTime p n) /\ cF (get n (pC q)) = done n l (cF (get n (pC p)))) /\ (forall t0 t1, inOrder t0 t1 l -> t0 <= t1 /\ 1000 * total q <= 1000 * total p + (t1 - t0))%nat.
Proof.
  induction l as [|i l IH]; intros p.
  - exists p. split; [reflexivity|]. split; [intros n; split; reflexivity|]. intros t0 t1 H. cbn [inOrder] in H. lia.
  - unfold history. cbn [flat_map]. fold (history l). destruct i as [n b f x y|n].
    + destruct (part p n b f x y) as [q [E [T [F [O S]]]]]. destruct (IH q) as [r [E' [P W]]]. exists r. split; [rewrite run_app, E; exact E'|]. split.
      * intros m. destruct (P m) as [A B]. cbn [spent done]. rewrite A, B. destruct (Nat.eq_dec n m) as [->|N].
        { rewrite T, F. split; reflexivity. }
        { unfold dTime. rewrite (O m) by auto. split; reflexivity. }
      * intros t0 t1 [H1 [H2 H3]]. destruct (W f t1 H3) as [A B]. pose proof (Nat.mul_div_le (f - b) 1000 ltac:(lia)). split; [lia|]. rewrite S in B. lia.
    + destruct (back p n) as [q [E [Z0 [O S]]]]. destruct (IH q) as [r [E' [P W]]]. exists r. split; [rewrite run_app, E; exact E'|]. split.
      * intros m. destruct (P m) as [A B]. cbn [spent done]. rewrite A, B. unfold dTime. destruct (Nat.eq_dec n m) as [->|N].
        { rewrite Z0. split; reflexivity. }
        { rewrite (O m) by auto. split; reflexivity. }
      * intros t0 t1 H. destruct (W t0 t1 H) as [A B]. split; lia.
Qed.
Lemma wrun_of k l : forall w w', wrun w l = Some w' -> run (w k) (of_ k l) = Some (w' k).
Proof.
  induction l as [|[j e] l IH]; intros w w' H; [injection H as <-; reflexivity|]. cbn in H. destruct (step (w j) e) as [p|] eqn:E; [|discriminate].
  apply IH in H. unfold of_. cbn [filter fst]. destruct (Nat.eqb_spec j k) as [->|N].
  - cbn [map snd run]. rewrite E. rewrite Nat.eqb_refl in H. exact H.
  - destruct (Nat.eqb_spec k j) as [X|_]; [exfalso; apply N; symmetry; exact X|]. exact H.
Qed.
