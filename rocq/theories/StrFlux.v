(** Walls, fluxes and sums over planes. *)
From Coq Require Import List Arith ZArith QArith Lia Lqa Permutation.
From Verif Require Import Base FolderModel FolderSpec KernelModel KernelSpec StrModel StrSpec StrProofs.
Import ListNotations.
Local Open Scope nat_scope.
Ltac Zify.zify_post_hook ::= idtac.

Lemma wallb_iff : forall a b, wallb a b = true <-> crossesNegative a b.
Proof.
  intros [ra ia] [rb ib]. unfold wallb, crossesNegative. cbn [re im].
  rewrite Bool.andb_true_iff, !Qltb_iff. split.
  - intros [H1 H2].
    assert (S : ((ia < 0 /\ 0 < ib) \/ (0 < ia /\ ib < 0))%Q).
    { destruct (Qlt_le_dec 0 ia) as [A | A].
      - right. split; [ exact A | ]. destruct (Qlt_le_dec ib 0) as [B | B]; [ exact B | exfalso; nra ].
      - left. destruct (Qlt_le_dec 0 ib) as [B | B]; [ | exfalso; nra ]. split; [ nra | exact B ]. }
    split; [ exact S | ].
    assert (D : ~ (ia - ib == 0)%Q) by lra.
    assert (E : (ia / (ia - ib) * (ia - ib) == ia)%Q) by (field; exact D).
    set (t := (ia / (ia - ib))%Q) in *. exists t.
    assert (R : ((ra + t * (rb - ra)) * (ia - ib) == ia * rb - ra * ib)%Q).
    { setoid_replace ((ra + t * (rb - ra)) * (ia - ib))%Q with (ra * (ia - ib) + (t * (ia - ib)) * (rb - ra))%Q by ring.
      rewrite E. ring. }
    assert (R2 : ((ra + t * (rb - ra)) * ((ia - ib) * (ia - ib)) < 0)%Q).
    { setoid_replace ((ra + t * (rb - ra)) * ((ia - ib) * (ia - ib)))%Q with (((ra + t * (rb - ra)) * (ia - ib)) * (ia - ib))%Q by ring.
      rewrite R. exact H1. }
    assert (D2 : (0 < (ia - ib) * (ia - ib))%Q) by nra.
    split; [ destruct S; nra | ]. split; [ destruct S; nra | ]. split.
    + setoid_replace (ia + t * (ib - ia))%Q with (ia - t * (ia - ib))%Q by ring. rewrite E. ring.
    + destruct (Qlt_le_dec (ra + t * (rb - ra)) 0) as [C | C]; [ exact C | exfalso ].
      assert (0 <= (ra + t * (rb - ra)) * ((ia - ib) * (ia - ib)))%Q by (apply Qmult_le_0_compat; lra). lra.
  - intros [S (t & T0 & T1 & E & N)]. split; [ | destruct S; nra ].
    assert (E' : (t * (ia - ib) == ia)%Q).
    { setoid_replace (t * (ia - ib))%Q with (ia - (ia + t * (ib - ia)))%Q by ring. rewrite E. ring. }
    assert (R : (ia * rb - ra * ib == (ra + t * (rb - ra)) * (ia - ib))%Q).
    { setoid_replace ((ra + t * (rb - ra)) * (ia - ib))%Q with (ra * (ia - ib) + (t * (ia - ib)) * (rb - ra))%Q by ring.
      rewrite E'. ring. }
    rewrite R. assert (D2 : (0 < (ia - ib) * (ia - ib))%Q) by (destruct S; nra).
    setoid_replace ((ra + t * (rb - ra)) * (ia - ib) * (ia - ib))%Q with ((ra + t * (rb - ra)) * ((ia - ib) * (ia - ib)))%Q by ring.
    set (P := ((ia - ib) * (ia - ib))%Q) in *. set (N0 := (ra + t * (rb - ra))%Q) in *. nra.
Qed.

Lemma turn_anti : forall a b, genericEdge a b -> turn b a = (- turn a b)%Z.
Proof.
  intros a b (_ & _ & G). unfold turn.
  rewrite (Qltb_comp (im b * im a) (im a * im b) 0 0) by (ring || reflexivity).
  destruct (Qltb (im a * im b) 0) eqn:E; [ | reflexivity ]. apply Qltb_iff in E.
  destruct (Qltb 0 (im a * re b - re a * im b)) eqn:C1; [ apply Qltb_iff in C1 | apply Qltb_false in C1 ];
  (destruct (Qltb 0 (im b * re a - re b * im a)) eqn:C2; [ apply Qltb_iff in C2 | apply Qltb_false in C2 ]); try reflexivity; exfalso.
  - lra.
  - apply G. split; [ lra | exact E ].
Qed.
Lemma generic_sym : forall a b, genericEdge a b -> genericEdge b a.
Proof.
  intros a b (A & B & G). split; [ exact B | split; [ exact A | ] ]. intros [C D]. apply G. split; lra.
Qed.

(** ** A plaquette counts -2, 0 or 2 *)
Section hand.
Variables (a b c d : cplx).
Hypotheses (G1 : genericEdge a b) (G2 : genericEdge b c) (G3 : genericEdge c d) (G4 : genericEdge d a).
Lemma turn_quotient : forall a b, genericEdge a b -> (im a * im b < 0)%Q ->
  (turn a b = 1%Z /\ re b / im b < re a / im a)%Q \/ (turn a b = (-1)%Z /\ re a / im a < re b / im b)%Q.
Proof.
  clear. intros [ra ia] [rb ib] (A & B & G) H. unfold turn. cbn [re im] in *.
  assert (E : Qltb (ia * ib) 0 = true) by now apply Qltb_iff. rewrite E.
  assert (R : (ia * rb - ra * ib == (rb / ib - ra / ia) * (ia * ib))%Q) by (field; split; assumption).
  set (u := (rb / ib)%Q) in *. set (v := (ra / ia)%Q) in *.
  destruct (Qltb 0 (ia * rb - ra * ib)) eqn:C; [ apply Qltb_iff in C | apply Qltb_false in C ].
  - left. split; [ reflexivity | ]. rewrite R in C. set (P := (ia * ib)%Q) in *.
    destruct (Qlt_le_dec u v) as [D | D]; [ exact D | exfalso; nra ].
  - right. split; [ reflexivity | ].
    assert (N : ~ (ia * rb - ra * ib == 0)%Q) by (intros C'; apply G; auto).
    rewrite R in C, N. set (P := (ia * ib)%Q) in *.
    destruct (Qlt_le_dec v u) as [D | D]; [ exact D | exfalso ].
    apply N. assert (0 <= (u - v) * P)%Q by nra. lra.
Qed.
Lemma turn_none : forall a b, ~ (im a * im b < 0)%Q -> turn a b = 0%Z.
Proof.
  clear. intros a b H. unfold turn. destruct (Qltb (im a * im b) 0) eqn:E; [ apply Qltb_iff in E; contradiction | reflexivity ].
Qed.
Lemma turns_values : turns a b c d = (-2)%Z \/ turns a b c d = 0%Z \/ turns a b c d = 2%Z.
Proof.
  unfold turns.
  assert (Sg : forall s, ~ (im s == 0)%Q -> (0 < im s \/ im s < 0)%Q).
  { intros s Hs. destruct (Qlt_le_dec 0 (im s)) as [? | L]; [ now left | right ].
    apply Qle_lt_or_eq in L as [? | E]; [ assumption | now elim Hs ]. }
  destruct (Sg a (proj1 G1)) as [A | A], (Sg b (proj1 G2)) as [B | B], (Sg c (proj1 G3)) as [C | C], (Sg d (proj1 G4)) as [D | D];
  repeat match goal with
  | |- context [ turn ?s ?t ] =>
      first [ rewrite (turn_none s t) by nra
            | let Q := fresh "Q" in let V := fresh "V" in
              assert (Q : (im s * im t < 0)%Q) by nra;
              destruct (turn_quotient s t ltac:(assumption) Q) as [[V ?] | [V ?]]; rewrite V; clear V Q ]
  end; try (cbn; tauto); exfalso; lra.
Qed.
End hand.

(** ** Sums *)
Lemma zsum_lsum : forall n f, zsum n f = lsum f (seq 0 n).
Proof. reflexivity. Qed.
Lemma zsum_ext : forall n f g, (forall i, i < n -> f i = g i) -> zsum n f = zsum n g.
Proof. intros n f g H. apply lsum_ext. intros i Hi. apply H. apply in_seq in Hi. lia. Qed.
Lemma zsum_plus : forall n f g, zsum n (fun i => f i + g i)%Z = (zsum n f + zsum n g)%Z.
Proof. intros. apply lsum_plus. Qed.
Lemma zsum_swap : forall n k f, zsum n (fun i => zsum k (fun j => f i j)) = zsum k (fun j => zsum n (fun i => f i j)).
Proof. intros. apply sum_swap. Qed.
Lemma zsum_S : forall n f, zsum (S n) f = (zsum n f + f n)%Z.
Proof. intros n f. rewrite zsum_lsum, seq_S, lsum_app. cbn. unfold zsum, lsum. lia. Qed.
Lemma zsum_shift : forall n f, f n = f 0 -> zsum n (fun i => f (i + 1)) = zsum n (fun i => f i).
Proof.
  intros n f E. assert (H : (zsum n (fun i => f (i + 1)%nat) + f 0%nat = zsum n (fun i => f i) + f n)%Z).
  { clear E. induction n as [ | n IH ]; [ reflexivity | ]. rewrite !zsum_S. replace (n + 1) with (S n) by lia. lia. }
  lia.
Qed.
Lemma zsum_scale : forall n k f, zsum n (fun i => k * f i)%Z = (k * zsum n f)%Z.
Proof. intros n k f. induction n as [ | n IH ]; [ cbn; lia | ]. rewrite !zsum_S, IH. lia. Qed.
Lemma zsum_zero : forall n f, (forall i, i < n -> f i = 0%Z) -> zsum n f = 0%Z.
Proof. intros n f H. rewrite (zsum_ext n f (fun _ => 0%Z) H). apply lsum_zero. Qed.

(** The turns of a periodic plane cancel. *)
Lemma torus_sum : forall A B (F : nat -> nat -> cplx),
  (forall j, F A j = F 0 j) -> (forall i, F i B = F i 0) ->
  (forall i j, genericEdge (F i j) (F (i + 1) j)) -> (forall i j, genericEdge (F i j) (F i (j + 1))) ->
  zsum A (fun i => zsum B (fun j => turns (F i j) (F (i + 1) j) (F (i + 1) (j + 1)) (F i (j + 1)))) = 0%Z.
Proof.
  intros A B F PA PB GA GB.
  set (e1 := fun i j => turn (F i j) (F (i + 1) j)). set (e2 := fun i j => turn (F i j) (F i (j + 1))).
  rewrite (zsum_ext A _ (fun i => zsum B (fun j => (e1 i j + -1 * e1 i (j + 1)%nat) + (e2 (i + 1)%nat j + -1 * e2 i j)))%Z).
  2:{ intros i _. apply zsum_ext. intros j _. unfold turns, e1, e2.
      rewrite (turn_anti (F i (j + 1)) (F (i + 1) (j + 1))) by apply GA. rewrite (turn_anti (F i j) (F i (j + 1))) by apply GB. lia. }
  rewrite (zsum_ext A _ (fun i => zsum B (fun j => e2 (i + 1)%nat j) + -1 * zsum B (fun j => e2 i j))%Z).
  2:{ intros i _. rewrite zsum_plus, !zsum_plus, !zsum_scale.
      rewrite (zsum_shift B (e1 i)); [ match goal with |- (?a + -1 * ?b + ?c = ?d)%Z => change b with a; change d with c; lia end | ]. unfold e1. now rewrite !PB. }
  rewrite zsum_plus, zsum_scale.
  rewrite (zsum_shift A (fun i => zsum B (fun j => e2 i j))); [ lia | ].
  apply zsum_ext. intros j _. unfold e2. now rewrite !PA.
Qed.
