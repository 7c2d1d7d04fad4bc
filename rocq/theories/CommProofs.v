From Coq Require Import List Arith Bool Lia.
From Verif Require Import CommModel CommSpec.
Import ListNotations.
Ltac Zify.zify_post_hook ::= idtac.

Lemma buffer_len M name : 0 < M -> length (hostBuffer M name) = M.
Proof. intros H. unfold hostBuffer. rewrite app_length, firstn_length, app_length, repeat_length. cbn [length]. lia. Qed.
Lemma buffer_fits M name : length name < M -> exists k, hostBuffer M name = name ++ 0 :: repeat 0 k.
Proof.
  intros H. exists (M - 1 - length name). unfold hostBuffer. rewrite firstn_app. rewrite firstn_all2 by lia. rewrite <- app_assoc. f_equal.
  replace (firstn (M - 1 - length name) (repeat 0 M)) with (repeat 0 (M - 1 - length name)).
  - generalize (M - 1 - length name). intros k. induction k as [|k IH]; [reflexivity|]. cbn [repeat app]. f_equal. exact IH.
  - assert (L : M - 1 - length name <= M) by lia. revert L. generalize (M - 1 - length name). generalize M. intros m. induction m as [|m IH]; intros k Hk; [replace k with 0 by lia; reflexivity|].
    destruct k as [|k]; [reflexivity|]. cbn [repeat firstn]. f_equal. apply IH. lia.
Qed.
Lemma same_eq a : forall M b ra rb, length a < M -> length b < M -> ~ In 0 a -> ~ In 0 b -> same M (a ++ 0 :: ra) (b ++ 0 :: rb) = true <-> a = b.
Proof.
  induction a as [|x a IH]; intros M b ra rb La Lb Na Nb.
  - destruct M as [|M]; [lia|]. destruct b as [|y b]; cbn; [intuition|]. destruct y; [exfalso; apply Nb; left; reflexivity|]. cbn. split; discriminate.
  - destruct M as [|M]; [lia|]. cbn [length] in La. assert (x <> 0) as X by (intros ->; apply Na; left; reflexivity). destruct b as [|y b].
    + cbn. destruct (Nat.eqb_spec x 0); [contradiction|]. cbn. split; discriminate.
    + cbn [length] in Lb. cbn [app same]. destruct (Nat.eqb_spec x y) as [->|N]; cbn [andb]; [|split; [discriminate|intros E; injection E; contradiction]].
      destruct (Nat.eqb_spec y 0) as [E|_]; [contradiction|]. cbn [orb]. rewrite IH; [|lia|lia|intros I; apply Na; right; exact I|intros I; apply Nb; right; exact I].
      split; [intros ->; reflexivity|intros E; injection E; auto].
Qed.
Lemma nameAt_eq M names : 0 < M -> forall i, i < length names -> exists rest, nameAt M (gathered M names) i = hostBuffer M (nth i names []) ++ rest.
Proof.
  intros HM. induction names as [|n l IH]; intros i Hi; [cbn in Hi; lia|]. unfold nameAt, gathered in *. cbn [map concat]. destruct i as [|i].
  - rewrite Nat.mul_0_r. cbn [skipn nth]. eexists. reflexivity.
  - cbn [length] in Hi. rewrite skipn_app, buffer_len by exact HM. replace (M * S i - M) with (M * i) by lia.
    rewrite skipn_all2 by (rewrite buffer_len by exact HM; lia). cbn [nth app]. apply IH. lia.
Qed.
Lemma told M names p i : fits M names -> p < length names -> i < length names ->
  same M (hostBuffer M (nth p names [])) (nameAt M (gathered M names) i) = (if list_eq_dec Nat.eq_dec (nth i names []) (nth p names []) then true else false).
Proof.
  intros F Hp Hi. destruct (F _ (nth_In names [] Hp)) as [Lp Np]. destruct (F _ (nth_In names [] Hi)) as [Li Ni].
  destruct (nameAt_eq M names ltac:(lia) i Hi) as [rest ->]. destruct (buffer_fits M _ Lp) as [k ->]. destruct (buffer_fits M _ Li) as [k' ->]. rewrite <- app_assoc. cbn [app].
  pose proof (same_eq (nth p names []) M (nth i names []) (repeat 0 k) (repeat 0 k' ++ rest) Lp Li Np Ni) as E.
  destruct (list_eq_dec Nat.eq_dec (nth i names []) (nth p names [])) as [D|D].
  - apply E. symmetry. exact D.
  - destruct (same M _ _); [exfalso; apply D; symmetry; apply E; reflexivity|reflexivity].
Qed.
Lemma count_filter (f : nat -> bool) l : forall c, fold_left (fun c (i : nat) => if f i then c + 1 else c) l c = c + length (filter f l).
Proof. induction l as [|i l IH]; intros c; [cbn; lia|]. cbn [fold_left filter]. rewrite IH. destruct (f i); cbn [length]; lia. Qed.
Lemma filter_ext_in' (f h : nat -> bool) l : (forall i, In i l -> f i = h i) -> filter f l = filter h l.
Proof. induction l as [|i l IH]; intros H; [reflexivity|]. cbn [filter]. rewrite (H i (or_introl eq_refl)), IH by (intros j J; apply H; right; exact J). reflexivity. Qed.
Lemma acc_mates M names p : fits M names -> p < length names -> idxAcc M names p = length (mates names p p).
Proof.
  intros F Hp. unfold idxAcc, mates. rewrite (count_filter (fun i => same M (hostBuffer M (nth p names [])) (nameAt M (gathered M names) i))). cbn [plus]. f_equal. apply filter_ext_in'. intros i I. apply in_seq in I. apply told; [exact F|exact Hp|lia].
Qed.
Lemma node_mates M names p : fits M names -> p < length names -> ranksPerNode M names (length names) p = length (mates names p (length names)).
Proof.
  intros F Hp. unfold ranksPerNode, mates. rewrite (count_filter (fun i => same M (hostBuffer M (nth p names [])) (nameAt M (gathered M names) i))). cbn [plus]. f_equal. apply filter_ext_in'. intros i I. apply in_seq in I. apply told; [exact F|exact Hp|lia].
Qed.
Lemma mates_more names p a b : mates names p (a + b) = mates names p a ++ filter (fun i => if list_eq_dec Nat.eq_dec (nth i names []) (nth p names []) then true else false) (seq a b).
Proof. unfold mates. rewrite seq_app, filter_app. reflexivity. Qed.
Lemma mates_host names p q n : nth p names [] = nth q names [] -> mates names p n = mates names q n.
Proof. intros E. unfold mates. rewrite E. reflexivity. Qed.
(** The k-th of those that pass. *)
Lemma nth_pass (f : nat -> bool) n : forall k, k < length (filter f (seq 0 n)) -> exists q, q < n /\ f q = true /\ length (filter f (seq 0 q)) = k.
Proof.
  induction n as [|n IH]; intros k H; [cbn in H; lia|].
  rewrite seq_S, filter_app, app_length in H. cbn [plus filter] in H.
  destruct (lt_dec k (length (filter f (seq 0 n)))) as [L|L].
  - destruct (IH k L) as [q [A [B C]]]. exists q. repeat split; try assumption; lia.
  - destruct (f n) eqn:E; cbn [length] in H; [|lia]. exists n. repeat split; try assumption; lia.
Qed.
