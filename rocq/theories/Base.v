(** Shared vocabulary of the models: arrays, loops and copies.
    Nothing in this file models a particular function of /repo; it gives the
    meaning of the C constructs used by the other model files. *)
From Coq Require Import List Arith Lia Bool ZArith.
From Coq Require Import ZifyBool ZifyNat.
Import ListNotations.
Ltac Zify.zify_post_hook ::= Z.div_mod_to_equations.

(** [for (size_t i = 0; i < n; i++) body]: a left fold over 0 .. n-1. *)
Definition for_loop {S : Type} (n : nat) (body : nat -> S -> S) (s : S) : S :=
  fold_left (fun s i => body i s) (seq 0 n) s.

(** [for (size_t i = a; i < b; i++) body]. *)
Definition for_range {S : Type} (a b : nat) (body : nat -> S -> S) (s : S) : S :=
  fold_left (fun s i => body i s) (seq a (b - a)) s.

(** The arrays owned by a field object: m (with ghosts), v, m2, m2h, sData. *)
Inductive arr := ArrM | ArrV | ArrM2 | ArrM2h | ArrS.

Definition arr_eqb (a b : arr) : bool :=
  match a, b with
  | ArrM, ArrM | ArrV, ArrV | ArrM2, ArrM2 | ArrM2h, ArrM2h | ArrS, ArrS => true
  | _, _ => false
  end.

(** A location: an array and an element index inside it. *)
Definition loc := (arr * nat)%type.

Definition loc_eqb (a b : loc) : bool :=
  arr_eqb (fst a) (fst b) && (snd a =? snd b).

(** Memory contents. *)
Definition mem (A : Type) := loc -> A.

Definition upd {A} (m : mem A) (l : loc) (v : A) : mem A :=
  fun l' => if loc_eqb l l' then v else m l'.

(** [memcpy(&d[doff], &s[soff], n * sizeof)]; source and destination ranges are
    disjoint in every use in the models (overlap would be undefined). *)
Definition memcpy {A} (d : arr) (doff : nat) (s : arr) (soff n : nat) (m : mem A) : mem A :=
  for_loop n (fun i m => upd m (d, doff + i) (m (s, soff + i))) m.

(** [memmove]: as if through a temporary, overlap allowed. *)
Definition memmove {A} (d : arr) (doff : nat) (s : arr) (soff n : nat) (m : mem A) : mem A :=
  fun l => if arr_eqb (fst l) d && (doff <=? snd l) && (snd l <? doff + n)
           then m (s, soff + (snd l - doff)) else m l.

(** ** Lemmas *)

Lemma arr_eqb_eq a b : arr_eqb a b = true <-> a = b.
Proof. destruct a, b; simpl; split; congruence. Qed.

Lemma loc_eqb_eq a b : loc_eqb a b = true <-> a = b.
Proof.
  destruct a as [a i], b as [b j]; unfold loc_eqb; simpl.
  rewrite andb_true_iff, arr_eqb_eq, Nat.eqb_eq. split.
  - intros [-> ->]; reflexivity.
  - intros H; inversion H; auto.
Qed.

Lemma loc_eqb_refl a : loc_eqb a a = true.
Proof. apply loc_eqb_eq; reflexivity. Qed.

Lemma loc_eqb_neq a b : a <> b -> loc_eqb a b = false.
Proof.
  intros H. destruct (loc_eqb a b) eqn:E; auto.
  apply loc_eqb_eq in E; contradiction.
Qed.

Lemma loc_eq_dec (a b : loc) : {a = b} + {a <> b}.
Proof.
  destruct (loc_eqb a b) eqn:E.
  - left; apply loc_eqb_eq; exact E.
  - right; intros ->; rewrite loc_eqb_refl in E; discriminate.
Qed.

Lemma upd_same {A} (m : mem A) l v : upd m l v l = v.
Proof. unfold upd; now rewrite loc_eqb_refl. Qed.

Lemma upd_other {A} (m : mem A) l l' v : l <> l' -> upd m l v l' = m l'.
Proof. intros H; unfold upd; now rewrite loc_eqb_neq. Qed.

Lemma for_loop_0 {S} (body : nat -> S -> S) s : for_loop 0 body s = s.
Proof. reflexivity. Qed.

Lemma for_loop_S {S} n (body : nat -> S -> S) s :
  for_loop (Datatypes.S n) body s = body n (for_loop n body s).
Proof. unfold for_loop. rewrite seq_S, fold_left_app. reflexivity. Qed.

(** Loop invariant rule. *)
Lemma for_loop_inv {S} (P : nat -> S -> Prop) n body s :
  P 0 s ->
  (forall i s, i < n -> P i s -> P (Datatypes.S i) (body i s)) ->
  P n (for_loop n body s).
Proof.
  intros H0 HS. induction n as [|n IH]; [exact H0|].
  rewrite for_loop_S. apply HS; [lia|].
  apply IH. intros; apply HS; [lia|assumption].
Qed.

Lemma fold_left_map {A B S} (g : S -> B -> S) (f : A -> B) l s :
  fold_left g (map f l) s = fold_left (fun s a => g s (f a)) l s.
Proof. revert s; induction l as [|a l IH]; intros s; simpl; auto. Qed.

Lemma seq_add_map a k n : seq (a + k) n = map (fun i => a + i) (seq k n).
Proof.
  revert k; induction n as [|n IH]; intros k; [reflexivity|].
  simpl. f_equal. rewrite <- IH. f_equal. lia.
Qed.

Lemma for_range_spec {S} a b (body : nat -> S -> S) s :
  for_range a b body s = for_loop (b - a) (fun i => body (a + i)) s.
Proof.
  unfold for_range, for_loop.
  replace a with (a + 0) at 1 by lia.
  rewrite seq_add_map, fold_left_map. reflexivity.
Qed.

(** A sequence of single-element copies (destination, source). *)
Definition copies {A} (l : list (loc * loc)) (m : mem A) : mem A :=
  fold_left (fun m p => upd m (fst p) (m (snd p))) l m.

Lemma fold_left_flat_map {A B S} (g : S -> B -> S) (f : A -> list B) l s :
  fold_left g (flat_map f l) s = fold_left (fun s a => fold_left g (f a) s) l s.
Proof.
  revert s; induction l as [|a l IH]; intros s; simpl; [reflexivity|].
  rewrite fold_left_app. apply IH.
Qed.

Lemma for_loop_copies {A} n (body : nat -> mem A -> mem A) f m :
  (forall i m, i < n -> body i m = copies (f i) m) ->
  for_loop n body m = copies (flat_map f (seq 0 n)) m.
Proof.
  intros H. induction n as [|n IH]; [reflexivity|].
  rewrite for_loop_S, IH by (intros; apply H; lia).
  rewrite seq_S, flat_map_app. unfold copies at 2. rewrite fold_left_app.
  simpl. rewrite app_nil_r. rewrite H by lia. reflexivity.
Qed.

(** Copies whose sources are never destinations, and whose destinations have a
    well-defined source, act like one parallel assignment. *)
Lemma copies_spec {A} (l : list (loc * loc)) (m : mem A) :
  (forall d s d' s', In (d, s) l -> In (d', s') l -> s <> d') ->
  (forall d s s', In (d, s) l -> In (d, s') l -> s = s') ->
  (forall d s, In (d, s) l -> copies l m d = m s) /\
  (forall d, (forall s, ~ In (d, s) l) -> copies l m d = m d).
Proof.
  induction l as [|[d0 s0] l IH] using rev_ind; intros Hsep Hfun.
  - simpl; split; intros; tauto.
  - unfold copies in *. rewrite fold_left_app; simpl.
    destruct IH as [IH1 IH2].
    + intros. eapply Hsep; apply in_or_app; left; eauto.
    + intros. eapply Hfun; apply in_or_app; left; eauto.
    + assert (Hs0 : fold_left (fun m p => upd m (fst p) (m (snd p))) l m s0 = m s0).
      { apply IH2. intros s Hin.
        apply (Hsep d0 s0 s0 s); auto; apply in_or_app; simpl; auto. }
      split.
      * intros d s Hin. destruct (loc_eq_dec d0 d) as [->|Hne].
        -- rewrite upd_same, Hs0. f_equal.
           apply (Hfun d); auto. apply in_or_app; simpl; auto.
        -- rewrite upd_other by auto. apply IH1.
           apply in_app_or in Hin. destruct Hin as [?|[E|[]]]; auto.
           inversion E; contradiction.
      * intros d Hd. rewrite upd_other.
        -- apply IH2. intros s Hin. apply (Hd s). apply in_or_app; auto.
        -- intros ->. apply (Hd s0). apply in_or_app; simpl; auto.
Qed.

Lemma memcpy_copies {A} d doff s soff n (m : mem A) :
  memcpy d doff s soff n m =
  copies (flat_map (fun i => [((d, doff + i), (s, soff + i))]) (seq 0 n)) m.
Proof. unfold memcpy. apply for_loop_copies. intros; reflexivity. Qed.

(** [memcpy] between disjoint ranges. *)
Lemma memcpy_spec {A} d doff s soff n (m : mem A) :
  (d = s -> doff + n <= soff \/ soff + n <= doff) ->
  (forall i, i < n -> memcpy d doff s soff n m (d, doff + i) = m (s, soff + i)) /\
  (forall l, (forall i, i < n -> l <> (d, doff + i)) ->
             memcpy d doff s soff n m l = m l).
Proof.
  intros Hdis. rewrite memcpy_copies.
  match goal with |- context [copies ?L _] => set (l := L) end.
  assert (Hin : forall p q, In (p, q) l <-> exists i, i < n /\ p = (d, doff + i) /\ q = (s, soff + i)).
  { intros p q. unfold l. rewrite in_flat_map. split.
    - intros (i & Hi & H). apply in_seq in Hi. simpl in H.
      destruct H as [H|[]]. inversion H. exists i. repeat split; auto; lia.
    - intros (i & Hi & -> & ->). exists i. rewrite in_seq. split; [lia|]. simpl; auto. }
  destruct (copies_spec l m) as [H1 H2].
  - intros d1 s1 d2 s2 A1 A2. apply Hin in A1. apply Hin in A2.
    destruct A1 as (i & Hi & -> & ->). destruct A2 as (j & Hj & -> & ->).
    intros E; inversion E; subst. destruct (Hdis eq_refl); lia.
  - intros d1 s1 s2 A1 A2. apply Hin in A1. apply Hin in A2.
    destruct A1 as (i & Hi & -> & ->). destruct A2 as (j & Hj & E & ->).
    inversion E. f_equal; lia.
  - split.
    + intros i Hi. apply H1. apply Hin. eauto.
    + intros l0 Hl0. apply H2. intros s1 A1. apply Hin in A1.
      destruct A1 as (i & Hi & -> & _). apply (Hl0 i Hi eq_refl).
Qed.
