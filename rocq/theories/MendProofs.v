(** Lemmas for the mending claims. *)
From Coq Require Import List Arith ZArith QArith Qabs Qround Lia Lqa Permutation Setoid.
From Verif Require Import Base StrModel StrProofs MendModel MendSpec.
Import ListNotations.
Local Open Scope nat_scope.
Ltac Zify.zify_post_hook ::= idtac.

(** ** How many periods a difference is moved *)
Definition per (c : Q) (k : Z) : Q := (inject_Z k * (2 * c))%Q.
Lemma per_0 : forall c, (per c 0 == 0)%Q.
Proof. intros. unfold per. change (inject_Z 0) with 0%Q. lra. Qed.
Lemma per_add : forall c j k, (per c (j + k) == per c j + per c k)%Q.
Proof. intros. unfold per. rewrite inject_Z_plus. lra. Qed.
Lemma per_opp : forall c k, (per c (- k) == - per c k)%Q.
Proof. intros. unfold per. rewrite inject_Z_opp. lra. Qed.
Lemma per_1 : forall c, (per c 1 == 2 * c)%Q.
Proof. intros. unfold per. change (inject_Z 1) with 1%Q. lra. Qed.
Lemma per_m1 : forall c, (per c (-1) == - (2 * c))%Q.
Proof. intros. unfold per. change (inject_Z (-1)) with (-1)%Q. lra. Qed.
Lemma per_lt : forall c j k, (0 < c)%Q -> (per c j < per c k + 2 * c)%Q -> (j <= k)%Z.
Proof.
  intros c j k Hc H. destruct (Z_le_gt_dec j k) as [L | L]; [ exact L | exfalso ].
  assert (E : (k + 1 <= j)%Z) by lia. rewrite Zle_Qle in E. rewrite inject_Z_plus in E. change (inject_Z 1) with 1%Q in E.
  unfold per in H. set (a := inject_Z j) in *. set (b := inject_Z k) in *. nra.
Qed.

Definition kzH (c d : Q) : Z := (- Qfloor ((d + c) / (2 * c)))%Z.
Lemma kzH_range : forall c d, (0 < c)%Q -> noJumpHalf c (d + per c (kzH c d)).
Proof.
  intros c d Hc. unfold noJumpHalf, kzH. rewrite per_opp. unfold per.
  set (x := ((d + c) / (2 * c))%Q).
  assert (E : (x * (2 * c) == d + c)%Q) by (unfold x; field; lra).
  pose proof (Qfloor_le x) as A. pose proof (Qlt_floor x) as B. rewrite inject_Z_plus in B. change (inject_Z 1) with 1%Q in B.
  set (n := inject_Z (Qfloor x)) in *. split; nra.
Qed.
Lemma kzH_unique : forall c d k, (0 < c)%Q -> noJumpHalf c (d + per c k) -> k = kzH c d.
Proof.
  intros c d k Hc [A B]. destruct (kzH_range c d Hc) as [A' B'].
  apply Z.le_antisymm; apply (per_lt c); try exact Hc; lra.
Qed.
Lemma kzH_comp : forall c d d', (0 < c)%Q -> (d == d')%Q -> kzH c d = kzH c d'.
Proof.
  intros c d d' Hc E. apply kzH_unique; [ exact Hc | ]. destruct (kzH_range c d Hc) as [A B]. split; lra.
Qed.
Lemma kzH_shift : forall c d j, (0 < c)%Q -> kzH c (d + per c j) = (kzH c d - j)%Z.
Proof.
  intros c d j Hc. symmetry. apply kzH_unique; [ exact Hc | ].
  destruct (kzH_range c d Hc) as [A B]. replace (kzH c d - j)%Z with (kzH c d + - j)%Z by lia.
  split; rewrite per_add, per_opp; lra.
Qed.
Lemma kzH_zero : forall c d, (0 < c)%Q -> (kzH c d = 0%Z <-> noJumpHalf c d).
Proof.
  intros c d Hc. split.
  - intros E. destruct (kzH_range c d Hc) as [A B]. rewrite E, per_0 in A, B. split; lra.
  - intros [A B]. symmetry. apply kzH_unique; [ exact Hc | ]. split; rewrite per_0; lra.
Qed.
Lemma kzH_sign : forall c d, (0 < c)%Q -> ((c <= d)%Q -> (kzH c d < 0)%Z) /\ ((d < - c)%Q -> (0 < kzH c d)%Z).
Proof.
  intros c d Hc. destruct (kzH_range c d Hc) as [A B]. split; intros H.
  - apply Z.lt_nge. intros C. assert (D : (0 <= kzH c d)%Z) by lia. rewrite Zle_Qle in D. change (inject_Z 0) with 0%Q in D.
    unfold per in *. set (k := inject_Z (kzH c d)) in *. nra.
  - apply Z.lt_nge. intros C. rewrite Zle_Qle in C. change (inject_Z 0) with 0%Q in C.
    unfold per in *. set (k := inject_Z (kzH c d)) in *. nra.
Qed.

Definition kzC (c d : Q) : Z := if Qltb c d then (- kzH c (- d))%Z else if Qltb d (- c) then kzH c d else 0%Z.
Lemma kzC_comp : forall c d d', (0 < c)%Q -> (d == d')%Q -> kzC c d = kzC c d'.
Proof.
  intros c d d' Hc E. unfold kzC.
  rewrite (Qltb_comp c c d d') by (reflexivity || exact E). rewrite (Qltb_comp d d' (- c) (- c)) by (reflexivity || exact E).
  rewrite (kzH_comp c d d' Hc E). rewrite (kzH_comp c (- d) (- d') Hc) by (now rewrite E). reflexivity.
Qed.
Lemma Qabs_le : forall a b, (Qabs a <= b <-> - b <= a /\ a <= b)%Q.
Proof. intros a b. apply Qabs_Qle_condition. Qed.
Lemma kzC_range : forall c d, (0 < c)%Q -> noJump c (d + per c (kzC c d)).
Proof.
  intros c d Hc. unfold noJump. apply Qabs_le. unfold kzC.
  destruct (Qltb c d) eqn:E1; [ apply Qltb_iff in E1 | apply Qltb_false in E1 ].
  - destruct (kzH_range c (- d) Hc) as [A B]. rewrite per_opp. split; lra.
  - destruct (Qltb d (- c)) eqn:E2; [ apply Qltb_iff in E2 | apply Qltb_false in E2 ].
    + destruct (kzH_range c d Hc) as [A B]. split; lra.
    + rewrite per_0. split; lra.
Qed.
Lemma kzC_zero : forall c d, (0 < c)%Q -> (kzC c d = 0%Z <-> noJump c d).
Proof.
  intros c d Hc. split.
  - intros E. pose proof (kzC_range c d Hc) as A. rewrite E in A. unfold noJump in *. rewrite Qabs_le in *. rewrite per_0 in A. lra.
  - unfold noJump. rewrite Qabs_le. intros [A B]. unfold kzC.
    assert (E1 : Qltb c d = false) by (apply Qltb_false; lra). assert (E2 : Qltb d (- c) = false) by (apply Qltb_false; lra).
    now rewrite E1, E2.
Qed.
Lemma kzC_down : forall c d, (0 < c)%Q -> (c < d)%Q -> kzC c d = (kzC c (d - 2 * c) - 1)%Z /\ (kzC c d < 0)%Z.
Proof.
  intros c d Hc H. assert (E1 : Qltb c d = true) by now apply Qltb_iff. unfold kzC at 1 3. rewrite E1.
  assert (P : (0 < kzH c (- d))%Z) by (apply kzH_sign; lra). split; [ | lia ].
  unfold kzC. destruct (Qltb c (d - 2 * c)) eqn:E2; [ apply Qltb_iff in E2 | apply Qltb_false in E2 ].
  - rewrite (kzH_comp c (- (d - 2 * c)) (- d + per c 1) Hc) by (rewrite per_1; lra). rewrite kzH_shift by exact Hc. lia.
  - destruct (Qltb (d - 2 * c) (- c)) eqn:E3; [ apply Qltb_iff in E3; exfalso; lra | apply Qltb_false in E3 ].
    assert (kzH c (- d) = 1%Z); [ | lia ]. symmetry. apply kzH_unique; [ exact Hc | ]. split; rewrite per_1; lra.
Qed.
Lemma kzC_up : forall c d, (0 < c)%Q -> (d < - c)%Q -> kzC c d = (kzC c (d + 2 * c) + 1)%Z /\ (0 < kzC c d)%Z.
Proof.
  intros c d Hc H. assert (E1 : Qltb c d = false) by (apply Qltb_false; lra). assert (E2 : Qltb d (- c) = true) by now apply Qltb_iff.
  unfold kzC at 1 3. rewrite E1, E2.
  assert (P : (0 < kzH c d)%Z) by (apply kzH_sign; lra). split; [ | lia ].
  unfold kzC. destruct (Qltb c (d + 2 * c)) eqn:E3; [ apply Qltb_iff in E3; exfalso; lra | apply Qltb_false in E3 ].
  destruct (Qltb (d + 2 * c) (- c)) eqn:E4; [ apply Qltb_iff in E4 | apply Qltb_false in E4 ].
  - rewrite (kzH_comp c (d + 2 * c) (d + per c 1) Hc) by (rewrite per_1; lra). rewrite kzH_shift by exact Hc. lia.
  - assert (kzH c d = 1%Z); [ | lia ]. symmetry. apply kzH_unique; [ exact Hc | ]. split; rewrite per_1; lra.
Qed.

(** ** One point *)
Lemma moved_0 : forall c q f v, moved c q f v f v 0.
Proof. intros. unfold moved. change (inject_Z 0) with 0%Q. split; lra. Qed.
Lemma mendPoint_ok : forall c q, (0 < c)%Q -> forall fuel ref m v count, (Z.abs (kzC c (m - ref)) <= Z.of_nat fuel)%Z ->
  exists m' v', mendPoint fuel c q ref m v count = Some (m', v', count + Z.abs_nat (kzC c (m - ref))) /\
    moved c q m v m' v' (kzC c (m - ref)).
Proof.
  intros c q Hc. induction fuel as [ | fuel IH ]; intros ref m v count Hf.
  - assert (E : kzC c (m - ref) = 0%Z) by lia. rewrite E. exists m, v. split; [ | apply moved_0 ].
    apply kzC_zero in E; [ | exact Hc ]. cbn [mendPoint].
    assert (X : Qltb c (Qabs (m - ref)) = false) by (now apply Qltb_false). rewrite X. cbn. now rewrite Nat.add_0_r.
  - cbn [mendPoint]. destruct (Qltb c (Qabs (m - ref))) eqn:E; [ apply Qltb_iff in E | apply Qltb_false in E ].
    + destruct (Qltb c (m - ref)) eqn:E1; [ apply Qltb_iff in E1 | apply Qltb_false in E1 ].
      * destruct (kzC_down c (m - ref) Hc E1) as [K S].
        assert (D : kzC c (m - 2 * c - ref) = kzC c (m - ref - 2 * c)) by (apply kzC_comp; [ exact Hc | lra ]).
        destruct (IH ref (m - 2 * c)%Q (v - q)%Q (count + 1)) as (m' & v' & R & M1 & M2); [ rewrite D; lia | ].
        exists m', v'. rewrite D in R, M1, M2. rewrite K. split; [ rewrite R; do 2 f_equal; lia | ].
        replace (kzC c (m - ref - 2 * c) - 1)%Z with (kzC c (m - ref - 2 * c) + -1)%Z by lia.
        unfold moved. rewrite M1, M2, !inject_Z_plus. change (inject_Z (-1)) with (-1)%Q. split; lra.
      * assert (E2 : (m - ref < - c)%Q).
        { destruct (Qlt_le_dec (m - ref) (- c)) as [? | G]; [ assumption | exfalso ].
          assert (Qabs (m - ref) <= c)%Q by (apply Qabs_le; lra). lra. }
        destruct (kzC_up c (m - ref) Hc E2) as [K S].
        assert (D : kzC c (m + 2 * c - ref) = kzC c (m - ref + 2 * c)) by (apply kzC_comp; [ exact Hc | lra ]).
        destruct (IH ref (m + 2 * c)%Q (v + q)%Q (count + 1)) as (m' & v' & R & M1 & M2); [ rewrite D; lia | ].
        exists m', v'. rewrite D in R, M1, M2. rewrite K. split; [ rewrite R; do 2 f_equal; lia | ].
        unfold moved. rewrite M1, M2, !inject_Z_plus. change (inject_Z 1) with 1%Q. split; lra.
    + assert (K : kzC c (m - ref) = 0%Z) by (apply kzC_zero; [ exact Hc | exact E ]).
      rewrite K. exists m, v. split; [ cbn; now rewrite Nat.add_0_r | apply moved_0 ].
Qed.

(** ** Vectors *)
Lemma Qleb_iff : forall a b, Qleb a b = true <-> (a <= b)%Q.
Proof. intros a b. unfold Qleb. rewrite Bool.negb_true_iff. apply Qltb_false. Qed.
Lemma Qleb_false : forall a b, Qleb a b = false <-> (b < a)%Q.
Proof. intros a b. unfold Qleb. rewrite Bool.negb_false_iff. apply Qltb_iff. Qed.
Lemma mask_kz : forall c ref m k, (0 < c)%Q -> orM (maskP c ref m) (maskM c ref m) k = negb (kzH c (m k - ref k) =? 0)%Z.
Proof.
  intros c ref m k Hc. unfold orM, maskP, maskM. apply Bool.eq_iff_eq_true.
  rewrite Bool.orb_true_iff, Qleb_iff, Qltb_iff, Bool.negb_true_iff, Z.eqb_neq.
  destruct (kzH_sign c (m k - ref k) Hc) as [S1 S2]. split.
  - intros [H | H]; [ apply S1 in H | apply S2 in H ]; lia.
  - intros H. destruct (Qlt_le_dec (m k - ref k) (- c)) as [? | G]; [ now right | left ].
    destruct (Qlt_le_dec (m k - ref k) c) as [G' | ?]; [ exfalso | assumption ].
    apply H. apply kzH_zero; [ exact Hc | ]. now split.
Qed.
Lemma vecLoop_ok : forall c q step, (0 < c)%Q -> forall fuel ref m v count,
  (forall k, k < step -> (Z.abs (kzH c (m k - ref k)) <= Z.of_nat fuel)%Z) ->
  exists m' v' n, vecLoop fuel c q step ref m v count = Some (m', v', n) /\
    forall k, k < step -> moved c q (m k) (v k) (m' k) (v' k) (kzH c (m k - ref k)).
Proof.
  intros c q step Hc. induction fuel as [ | fuel IH ]; intros ref m v count Hf.
  - exists m, v, count. cbn [vecLoop].
    assert (X : existsb (orM (maskP c ref m) (maskM c ref m)) (seq 0 step) = false).
    { apply Bool.not_true_iff_false. rewrite existsb_exists. intros (k & Hk & C). apply in_seq in Hk.
      rewrite mask_kz in C by exact Hc. rewrite Bool.negb_true_iff, Z.eqb_neq in C. specialize (Hf k ltac:(lia)). lia. }
    rewrite X. split; [ reflexivity | ]. intros k Hk. specialize (Hf k Hk).
    replace (kzH c (m k - ref k)) with 0%Z by lia. apply moved_0.
  - cbn [vecLoop]. destruct (existsb (orM (maskP c ref m) (maskM c ref m)) (seq 0 step)) eqn:X.
    + set (p := maskP c ref m). set (n := maskM c ref m).
      (* one round moves every lane at most one period towards its place *)
      assert (Round : forall k, exists j, ((j = 0 \/ j = 1 \/ j = -1)%Z /\
        (moveLanes p n m (2 * c) k == m k + inject_Z j * (2 * c))%Q /\ (moveLanes p n v q k == v k + inject_Z j * q)%Q /\
        (Z.abs (kzH c (m k - ref k) - j) = Z.max 0 (Z.abs (kzH c (m k - ref k)) - 1))%Z)).
      { intros k. unfold moveLanes, p, n, maskP, maskM. destruct (kzH_sign c (m k - ref k) Hc) as [S1 S2].
        destruct (Qleb c (m k - ref k)) eqn:A; [ apply Qleb_iff in A | apply Qleb_false in A ];
        (destruct (Qltb (m k - ref k) (- c)) eqn:B; [ apply Qltb_iff in B | apply Qltb_false in B ]).
        - exfalso. lra.
        - exists (-1)%Z. change (inject_Z (-1)) with (-1)%Q. specialize (S1 A). repeat split; [ tauto | lra | lra | lia ].
        - exists 1%Z. change (inject_Z 1) with 1%Q. specialize (S2 B). repeat split; [ tauto | lra | lra | lia ].
        - exists 0%Z. change (inject_Z 0) with 0%Q. assert (kzH c (m k - ref k) = 0%Z) by (apply kzH_zero; [ exact Hc | now split ]).
          repeat split; [ tauto | lra | lra | lia ]. }
      assert (Kz : forall k j, (moveLanes p n m (2 * c) k == m k + inject_Z j * (2 * c))%Q ->
        kzH c (moveLanes p n m (2 * c) k - ref k) = (kzH c (m k - ref k) - j)%Z).
      { intros k j E. rewrite <- kzH_shift by exact Hc. apply kzH_comp; [ exact Hc | ]. unfold per. rewrite E. lra. }
      destruct (IH ref (moveLanes p n m (2 * c)) (moveLanes p n v q) (count + setLanes step (orM p n))) as (m' & v' & cnt & R & M).
      { intros k Hk. destruct (Round k) as (j & _ & E & _ & B). rewrite (Kz k j E). specialize (Hf k Hk). lia. }
      exists m', v', cnt. split; [ exact R | ]. intros k Hk. destruct (M k Hk) as [M1 M2].
      destruct (Round k) as (j & _ & E1 & E2 & B). rewrite (Kz k j E1) in M1, M2.
      unfold moved. rewrite M1, M2, E1, E2.
      replace (kzH c (m k - ref k)) with ((kzH c (m k - ref k) - j) + j)%Z at 2 4 by lia.
      rewrite !inject_Z_plus. split; lra.
    + exists m, v, count. split; [ reflexivity | ]. intros k Hk.
      assert (Z0 : kzH c (m k - ref k) = 0%Z).
      { apply Bool.not_true_iff_false in X. rewrite existsb_exists in X.
        destruct (Z.eq_dec (kzH c (m k - ref k)) 0) as [? | C]; [ assumption | exfalso; apply X ].
        exists k. split; [ apply in_seq; lia | ]. rewrite mask_kz by exact Hc. now rewrite Bool.negb_true_iff, Z.eqb_neq. }
      rewrite Z0. apply moved_0.
Qed.

(** ** foldM *)
Lemma foldM_cons : forall (S A : Type) (f : S -> A -> option S) a l s, foldM f (a :: l) s = bind (f s a) (foldM f l).
Proof.
  intros S A f a l s. unfold foldM. cbn [fold_left bind]. destruct (f s a) as [s' | ]; [ reflexivity | ].
  cbn [bind]. induction l as [ | b l IH ]; [ reflexivity | exact IH ].
Qed.
Lemma foldM_app : forall (S A : Type) (f : S -> A -> option S) l l' s, foldM f (l ++ l') s = bind (foldM f l s) (foldM f l').
Proof.
  intros S A f l. induction l as [ | a l IH ]; intros l' s; [ reflexivity | ].
  cbn [app]. rewrite !foldM_cons. destruct (f s a) as [s' | ]; cbn [bind]; [ apply IH | reflexivity ].
Qed.
Lemma foldM_snoc : forall (S A : Type) (f : S -> A -> option S) l a s, foldM f (l ++ [a]) s = bind (foldM f l s) (fun s' => f s' a).
Proof.
  intros. rewrite foldM_app. destruct (foldM f l s) as [s' | ]; [ | reflexivity ]. cbn [bind]. rewrite foldM_cons.
  destruct (f s' a); reflexivity.
Qed.
(** induction over the number of rounds done *)
Lemma foldM_seq : forall (S : Type) (f : S -> nat -> option S) (Inv : nat -> S -> Prop) n s,
  Inv 0 s -> (forall i s, i < n -> Inv i s -> exists s', f s i = Some s' /\ Inv (i + 1) s') ->
  exists s', foldM f (seq 0 n) s = Some s' /\ Inv n s'.
Proof.
  intros S f Inv n s H0 HS. induction n as [ | n IH ].
  - exists s. split; [ reflexivity | exact H0 ].
  - destruct IH as (s1 & E1 & I1); [ intros i s' Hi; apply HS; lia | ].
    destruct (HS n s1 ltac:(lia) I1) as (s2 & E2 & I2). exists s2. rewrite seq_S, foldM_snoc. cbn [plus].
    rewrite E1. cbn [bind]. rewrite E2. split; [ reflexivity | ]. now replace (Datatypes.S n) with (n + 1) by lia.
Qed.
Lemma foldM_map : forall (S A B : Type) (h : A -> B) (f : S -> B -> option S) l s, foldM f (map h l) s = foldM (fun s a => f s (h a)) l s.
Proof.
  intros S A B h f l. induction l as [ | a l IH ]; intros s; [ reflexivity | ].
  cbn [map]. rewrite !foldM_cons. destruct (f s (h a)); cbn [bind]; [ apply IH | reflexivity ].
Qed.
Lemma foldM_ext : forall (S A : Type) (f g : S -> A -> option S) l s, (forall s a, In a l -> f s a = g s a) -> foldM f l s = foldM g l s.
Proof.
  intros S A f g l. induction l as [ | a l IH ]; intros s H; [ reflexivity | ].
  rewrite !foldM_cons, H by now left. destruct (g s a); cbn [bind]; [ | reflexivity ]. apply IH. intros; apply H; now right.
Qed.
Lemma fold_seq : forall (S : Type) (f : S -> nat -> S) (Inv : nat -> S -> Prop) n s,
  Inv 0 s -> (forall i s, i < n -> Inv i s -> Inv (i + 1) (f s i)) -> Inv n (fold_left f (seq 0 n) s).
Proof.
  intros S f Inv n s H0 HS. induction n as [ | n IH ]; [ exact H0 | ].
  rewrite seq_S, fold_left_app. cbn [fold_left plus]. replace (Datatypes.S n) with (n + 1) by lia. apply HS; [ lia | ].
  apply IH. intros i s' Hi. apply HS. lia.
Qed.

Lemma upd_same : forall m p a, upd m p a p = a.
Proof. intros. unfold upd. now rewrite Nat.eqb_refl. Qed.
Lemma upd_other : forall m p a i, i <> p -> upd m p a i = m i.
Proof. intros m p a i H. unfold upd. now rewrite (proj2 (Nat.eqb_neq i p) H). Qed.
Lemma bound_all : forall (n : nat) (k : nat -> Z), exists N, forall i, i < n -> (Z.abs (k i) <= Z.of_nat N)%Z.
Proof.
  intros n k. induction n as [ | n [N H] ]; [ exists 0; lia | ].
  exists (Nat.max N (Z.abs_nat (k n))). intros i Hi. destruct (Nat.eq_dec i n) as [-> | D]; [ lia | ].
  specialize (H i ltac:(lia)). lia.
Qed.

(** ** A line of sites *)
Fixpoint kline (c : Q) (ref : Q) (f : nat -> Q) (i : nat) : Z :=
  match i with
  | 0 => kzC c (f 0 - ref)
  | S j => kzC c (f i - (f j + per c (kline c ref f j)))
  end.
Definition ksum (n : nat) (k : nat -> Z) : nat := list_sum (map (fun i => Z.abs_nat (k i)) (seq 0 n)).
Lemma ksum_S : forall n k, ksum (n + 1) k = ksum n k + Z.abs_nat (k n).
Proof.
  intros n k. unfold ksum. rewrite Nat.add_1_r, seq_S, map_app, list_sum_app. cbn [map list_sum fold_right plus]. lia.
Qed.

Section line.
Variables (c q : Q) (Sf NN : nat).
Hypotheses (Hc : (0 < c)%Q) (HS : 0 < Sf) (HN : 0 < NN).
Definition zp (i : nat) : nat := i * Sf + Sf * NN.
Lemma zp_inj : forall i j, zp i = zp j -> i = j.
Proof. unfold zp. intros i j E. apply Nat.mul_cancel_r with Sf; lia. Qed.
Lemma zp_prev : forall i, i * Sf + Sf * (NN - 1) = if i =? 0 then Sf * (NN - 1) else zp (i - 1).
Proof.
  intros i. unfold zp. destruct (Nat.eqb_spec i 0) as [-> | D]; [ reflexivity | ].
  destruct NN as [ | N ]; [ lia | ]. destruct i as [ | i ]; [ lia | ]. cbn [Nat.sub]. rewrite !Nat.sub_0_r. lia.
Qed.
Lemma zp_ghost : forall i, zp i <> Sf * (NN - 1).
Proof. unfold zp. intros i E. destruct NN as [ | N ]; [ lia | ]. cbn [Nat.sub] in E. rewrite Nat.sub_0_r in E. nia. Qed.

Lemma lineRank_ok : forall fuel Lz m v count,
  let k := kline c (m (Sf * (NN - 1))) (fun i => m (zp i)) in
  (forall i, i < Lz -> (Z.abs (k i) <= Z.of_nat fuel)%Z) ->
  exists m' v', lineRank fuel c q Lz Sf NN (m, v, count) = Some (m', v', count + ksum Lz k) /\
    (forall i, i < Lz -> moved c q (m (zp i)) (v (i * Sf)) (m' (zp i)) (v' (i * Sf)) (k i)) /\
    (forall p, (forall i, i < Lz -> p <> zp i) -> m' p = m p) /\
    (forall p, (forall i, i < Lz -> p <> i * Sf) -> v' p = v p).
Proof.
  intros fuel Lz m v count k Hk. unfold lineRank.
  set (Inv := fun (n : nat) (st : (nat -> Q) * (nat -> Q) * nat) => exists m' v', st = (m', v', count + ksum n k) /\
    (forall i, i < n -> moved c q (m (zp i)) (v (i * Sf)) (m' (zp i)) (v' (i * Sf)) (k i)) /\
    (forall p, (forall i, i < n -> p <> zp i) -> m' p = m p) /\ (forall p, (forall i, i < n -> p <> i * Sf) -> v' p = v p)).
  destruct (foldM_seq _ (lineSite fuel c q Sf NN) Inv Lz (m, v, count)) as (st & E & m' & v' & -> & R).
  - exists m, v. split; [ unfold ksum; cbn; now rewrite Nat.add_0_r | ]. split; [ intros i Hi; lia | ]. auto.
  - intros i st Hi (m1 & v1 & -> & M & F1 & F2). unfold lineSite. cbn [fst snd].
    change (i * Sf + Sf * NN) with (zp i).
    assert (Vi : v1 (i * Sf) = v (i * Sf)).
    { apply F2. intros j Hj C. apply Nat.mul_cancel_r in C; lia. }
    assert (Mi : m1 (zp i) = m (zp i)) by (apply F1; intros j Hj C; apply zp_inj in C; lia).
    assert (Ki : kzC c (m1 (zp i) - m1 (i * Sf + Sf * (NN - 1))) = k i).
    { rewrite Mi, zp_prev. destruct (Nat.eqb_spec i 0) as [-> | D].
      - rewrite (F1 (Sf * (NN - 1))); [ reflexivity | intros j Hj; lia ].
      - destruct i as [ | j ]; [ lia | ]. cbn [Nat.sub]. rewrite Nat.sub_0_r. apply kzC_comp; [ exact Hc | ].
        destruct (M j ltac:(lia)) as [Mj _]. rewrite Mj. fold (k j). reflexivity. }
    destruct (mendPoint_ok c q Hc fuel (m1 (i * Sf + Sf * (NN - 1))) (m1 (zp i)) (v1 (i * Sf)) (count + ksum i k)) as (a & b & R & Mv).
    { rewrite Ki. now apply Hk. }
    rewrite R. cbn [bind]. rewrite Ki in *. eexists; split; [ reflexivity | ].
    exists (upd m1 (zp i) a), (upd v1 (i * Sf) b). split; [ rewrite ksum_S, Nat.add_assoc; reflexivity | ]. split; [ | split ].
    + intros j Hj. destruct (Nat.eq_dec j i) as [-> | D].
      * rewrite !upd_same. rewrite Mi, Vi in Mv. exact Mv.
      * rewrite !upd_other; [ apply M; lia | | ].
        -- intros C. apply Nat.mul_cancel_r in C; lia.
        -- intros C. apply zp_inj in C. lia.
    + intros p Hp. rewrite upd_other by (apply Hp; lia). apply F1. intros j Hj. apply Hp. lia.
    + intros p Hp. rewrite upd_other by (apply Hp; lia). apply F2. intros j Hj. apply Hp. lia.
  - exists m', v'. auto.
Qed.
End line.

Lemma kline_ext : forall c ref ref' f f' n, (0 < c)%Q -> (ref == ref')%Q -> (forall i, i <= n -> f i = f' i) ->
  forall i, i <= n -> kline c ref f i = kline c ref' f' i.
Proof.
  intros c ref ref' f f' n Hc Er Ef. induction i as [ | i IH ]; intros Hi.
  - cbn [kline]. apply kzC_comp; [ exact Hc | ]. now rewrite (Ef 0 Hi), Er.
  - cbn [kline]. apply kzC_comp; [ exact Hc | ]. rewrite (Ef (S i) Hi), (Ef i ltac:(lia)), (IH ltac:(lia)). reflexivity.
Qed.
Lemma kline_shift : forall c ref f a i, (0 < c)%Q -> 0 < a ->
  kline c (f (a - 1)%nat + per c (kline c ref f (a - 1)%nat))%Q (fun i => f (a + i)) i = kline c ref f (a + i).
Proof.
  intros c ref f a i Hc Ha. induction i as [ | i IH ].
  - rewrite Nat.add_0_r. destruct a as [ | a ]; [ lia | ]. cbn [Nat.sub kline]. rewrite Nat.sub_0_r, Nat.add_0_r. reflexivity.
  - replace (a + S i) with (S (a + i)) by lia. cbn [kline]. rewrite IH. now replace (a + S i) with (S (a + i)) by lia.
Qed.
Lemma ksum_ext : forall n k k', (forall i, i < n -> k i = k' i) -> ksum n k = ksum n k'.
Proof. intros n k k' H. unfold ksum. f_equal. apply map_ext_in. intros i Hi. apply in_seq in Hi. now rewrite H by lia. Qed.
Lemma kline_near : forall c ref f, (0 < c)%Q ->
  noJump c (lifted c f (kline c ref f) 0 - ref) /\
  (forall i, noJump c (lifted c f (kline c ref f) (i + 1) - lifted c f (kline c ref f) i)).
Proof.
  intros c ref f Hc. split.
  - pose proof (kzC_range c (f 0 - ref) Hc) as R. unfold noJump in *. rewrite Qabs_le in *. unfold lifted. cbn [kline].
    fold (per c (kzC c (f 0 - ref))). lra.
  - intros i. rewrite Nat.add_1_r. unfold lifted at 1. cbn [kline].
    set (d := (f (S i) - (f i + per c (kline c ref f i)))%Q). pose proof (kzC_range c d Hc) as R. unfold noJump in *.
    rewrite Qabs_le in *. unfold d in R at 1 3. fold (per c (kzC c d)). unfold lifted. fold (per c (kline c ref f i)). lra.
Qed.

Section ranks.
Variables (c q : Q) (P Lz Sf NN : nat).
Hypotheses (Hc : (0 < c)%Q) (HP : 0 < P) (HL : 0 < Lz) (HS : 0 < Sf) (HN : 0 < NN).
Variables ms vs : nat -> nat -> Q.
Notation ZP := (zp Sf NN).
Definition fline (Z : nat) : Q := ms (Z / Lz) (ZP (Z mod Lz)).
Definition kglob : nat -> Z := kline c (fline (P * Lz - 1)) fline.
Lemma fline_at : forall r i, i < Lz -> fline (r * Lz + i) = ms r (ZP i).
Proof.
  intros r i Hi. unfold fline. rewrite (Nat.add_comm (r * Lz)), Nat.div_add by lia. rewrite Nat.mod_add by lia.
  rewrite Nat.div_small, Nat.mod_small by exact Hi. reflexivity.
Qed.
Lemma zp_last : Sf * (Lz + NN - 1) = ZP (Lz - 1).
Proof. unfold zp. destruct Lz as [ | l ]; [ lia | ]. cbn [plus Nat.sub]. rewrite !Nat.sub_0_r. lia. Qed.
Lemma rank_last : forall r, 0 < r -> r * Lz - 1 = (r - 1) * Lz + (Lz - 1).
Proof. intros r Hr. destruct r as [ | r ]; [ lia | ]. cbn [Nat.sub]. rewrite Nat.sub_0_r. lia. Qed.

Definition rankOk (r : nat) (d : rankData) : Prop := exists m' v', d = (m', v', ksum Lz (fun i => kglob (r * Lz + i))) /\
  (forall i, i < Lz -> moved c q (ms r (ZP i)) (vs r (i * Sf)) (m' (ZP i)) (v' (i * Sf)) (kglob (r * Lz + i))) /\
  (forall p, (forall i, i < Lz -> p <> ZP i) -> p <> Sf * (NN - 1) -> m' p = ms r p) /\
  (forall p, (forall i, i < Lz -> p <> i * Sf) -> v' p = vs r p).
Lemma mendLine_ok : forall fuel, (forall Z, Z < P * Lz -> (Z.abs (kglob Z) <= Z.of_nat fuel)%Z) ->
  exists st, mendLine fuel c q P Lz Sf NN ms vs = Some st /\ forall r, r < P -> rankOk r (st r).
Proof.
  intros fuel Hf. unfold mendLine.
  set (Inv := fun n (st : nat -> rankData) => (forall r, r < n -> rankOk r (st r)) /\ (forall r, n <= r -> st r = (ms r, vs r, 0))).
  destruct (foldM_seq _ (lineStep fuel c q P Lz Sf NN) Inv P (fun r => (ms r, vs r, 0))) as (st & E & R & _).
  - split; [ intros r Hr; lia | reflexivity ].
  - intros r st Hr (I1 & I2). unfold lineStep. rewrite (I2 r) by lia. cbn [fst snd].
    set (g := fst (fst (st ((r + P - 1) mod P))) (Sf * (Lz + NN - 1))).
    assert (Kr : forall i, i < Lz -> kline c g (fun i => ms r (ZP i)) i = kglob (r * Lz + i)).
    { intros i Hi. unfold g. rewrite zp_last. destruct (Nat.eq_dec r 0) as [-> | D].
      - cbn [plus mult]. rewrite Nat.mod_small by lia. rewrite I2 by lia. cbn [fst]. unfold kglob.
        apply kline_ext with (n := Lz - 1); [ exact Hc | | | lia ].
        + rewrite rank_last by lia. rewrite fline_at by lia. replace (P - 1) with (0 + P - 1) by lia. reflexivity.
        + intros j Hj. symmetry. apply (fline_at 0). lia.
      - replace ((r + P - 1) mod P) with (r - 1).
        2:{ replace (r + P - 1) with (r - 1 + 1 * P) by lia. rewrite Nat.mod_add by lia. now rewrite Nat.mod_small by lia. }
        destruct (I1 (r - 1) ltac:(lia)) as (m1 & v1 & -> & M & _). cbn [fst].
        destruct (M (Lz - 1) ltac:(lia)) as [M1 _].
        unfold kglob. rewrite <- kline_shift by (exact Hc || nia). fold kglob. apply kline_ext with (n := Lz - 1); [ exact Hc | | | lia ].
        + rewrite M1. rewrite rank_last by lia. rewrite fline_at by lia. reflexivity.
        + intros j Hj. symmetry. apply fline_at. lia. }
    assert (Ke : forall i, i < Lz -> kline c (upd (ms r) (Sf * (NN - 1)) g (Sf * (NN - 1))) (fun i => upd (ms r) (Sf * (NN - 1)) g (ZP i)) i = kglob (r * Lz + i)).
    { intros i Hi. rewrite <- Kr by exact Hi. rewrite upd_same. apply kline_ext with (n := i); [ exact Hc | reflexivity | | lia ].
      intros j Hj. apply upd_other. apply zp_ghost; assumption. }
    destruct (lineRank_ok c q Sf NN Hc HS HN fuel Lz (upd (ms r) (Sf * (NN - 1)) g) (vs r) 0) as (m' & v' & R & M & F1 & F2).
    { intros i Hi. rewrite Ke by exact Hi. apply Hf. nia. }
    change (fun r0 : (nat -> Q) * (nat -> Q) * nat => ?e) with (fun r0 : rankData => e).
    rewrite R. cbn [bind]. eexists; split; [ reflexivity | ]. split.
    + intros r' Hr'. unfold updR. destruct (Nat.eqb_spec r' r) as [-> | D]; [ | apply I1; lia ].
      exists m', v'. split; [ f_equal; cbn [plus]; apply ksum_ext; exact Ke | ]. split; [ | split ].
      * intros i Hi. specialize (M i Hi). rewrite Ke in M by exact Hi. rewrite upd_other in M by (apply zp_ghost; assumption). exact M.
      * intros p H1 H2. rewrite F1 by exact H1. now apply upd_other.
      * exact F2.
    + intros r' Hr'. unfold updR. destruct (Nat.eqb_spec r' r) as [-> | D]; [ lia | apply I2; lia ].
  - exists st. auto.
Qed.
End ranks.

(** ** Rows *)
Section kseq.
Variables (c : Q) (kz : Q -> Z) (near : Q -> Prop).
Hypotheses (Hc : (0 < c)%Q) (Kr : forall d, near (d + per c (kz d))) (Nc : forall d d', (d == d')%Q -> near d -> near d').
Fixpoint kseq (f : nat -> Q) (t : nat) : Z :=
  match t with 0 => 0%Z | S j => kz (f t - (f j + per c (kseq f j))) end.
Lemma kseq_near : forall f t, near (f (S t) + per c (kseq f (S t)) - (f t + per c (kseq f t)))%Q.
Proof.
  intros f t. cbn [kseq]. set (d := (f (S t) - (f t + per c (kseq f t)))%Q).
  apply Nc with (2 := Kr d). unfold d at 1. lra.
Qed.
(** forward and backward lifts of a closed row of L sites *)
Definition kFw (L : nat) (f : nat -> Q) : nat -> Z := kseq (fun t => f (t mod L)).
Definition bwd (L : nat) (f : nat -> Q) (t : nat) : Q := f ((L - t) mod L).
Definition kBw (L : nat) (f : nat -> Q) (y : nat) : Z := kseq (bwd L f) ((L - y) mod L).
Lemma per_inj : forall j k, (per c j == per c k)%Q -> j = k.
Proof. intros j k E. apply Z.le_antisymm; apply (per_lt c); try exact Hc; lra. Qed.
Lemma rowMended_intro : forall L q f v f' v' count, (forall d, near d -> kz d = 0%Z) -> 0 < L ->
  (forall y, y < L -> (kFw L f y = kBw L f y -> moved c q (f y) (v y) (f' y) (v' y) (kFw L f y)) /\
                      (kFw L f y <> kBw L f y -> f' y = f y /\ v' y = v y)) ->
  count = length (filter (fun y => (kFw L f y =? kBw L f y)%Z && negb (kFw L f y =? 0)%Z) (seq 0 L)) ->
  rowMended near L c q f v f' v' count.
Proof.
  intros L q f v f' v' count Kn HL H1 H2. exists (kFw L f), (kBw L f). split; [ reflexivity | ]. split.
  { unfold kBw. rewrite Nat.sub_0_r, Nat.mod_same by lia. reflexivity. }
  assert (EB : forall y t, L - y = S t -> 0 < y -> (L - (y + 1) mod L) mod L = t).
  { intros y t Ey Hy. destruct (Nat.eq_dec (y + 1) L) as [D | D].
    - rewrite D, Nat.mod_same by lia. rewrite Nat.sub_0_r, Nat.mod_same by lia. lia.
    - rewrite (Nat.mod_small (y + 1)) by lia. rewrite Nat.mod_small by lia. lia. }
  split; [ | split; [ | split; [ | split; [ | split; assumption ] ] ] ].
  - intros y Hy. unfold lifted. rewrite Nat.add_1_r.
    pose proof (kseq_near (fun t => f (t mod L)) y) as N. cbv beta in N.
    rewrite !Nat.mod_small in N by lia. exact N.
  - intros y Hy. unfold lifted, kBw. rewrite (Nat.mod_small (L - y)) by lia.
    destruct (L - y) as [ | t ] eqn:Ey; [ lia | ].
    pose proof (kseq_near (bwd L f) t) as N. unfold bwd at 1 3 in N.
    replace (L - S t) with y in N by lia. rewrite (Nat.mod_small y) in N by lia.
    replace (L - t) with (y + 1) in N by lia.
    rewrite (EB y t Ey ltac:(lia)). exact N.
  - intros y Hy N. unfold kFw in *. rewrite Nat.add_1_r in *. cbn [kseq]. apply Kn. rewrite !Nat.mod_small by lia. exact N.
  - intros y Hy N. unfold lifted, kBw in *. rewrite (Nat.mod_small (L - y)) in * by lia.
    destruct (L - y) as [ | t ] eqn:Ey; [ lia | ]. cbn [kseq]. apply Kn. unfold bwd at 1 2.
    replace (L - S t) with y by lia. rewrite (Nat.mod_small y) by lia. replace (L - t) with (y + 1) by lia.
    rewrite (EB y t Ey ltac:(lia)) in N. exact N.
Qed.
End kseq.

Section slice.
Variables (c q : Q) (L step YC : nat).
Hypotheses (Hc : (0 < c)%Q) (Hs : 0 < step) (HY : 0 < YC) (Hd : L = step * YC) (HL : 4 <= L).
Notation XC := (L * step).
Definition ypos (y : nat) : nat := (y mod YC) * XC + y / YC.
Lemma YC_eq : L / step = YC.
Proof. rewrite Hd, Nat.mul_comm. now apply Nat.div_mul; lia. Qed.
Lemma lane_lt : forall y, y < L -> y / YC < step.
Proof. intros y Hy. apply Nat.div_lt_upper_bound; [ lia | ]. rewrite Nat.mul_comm, <- Hd. exact Hy. Qed.
Lemma ypos_inj : forall y y' j j', y < L -> y' < L -> j < 4 -> j' < 4 -> ypos y + j * step = ypos y' + j' * step -> y = y' /\ j = j'.
Proof.
  intros y y' j j' H H' Hj Hj' E. unfold ypos in E. pose proof (lane_lt y H) as A. pose proof (lane_lt y' H') as A'.
  assert (B : j * step + y / YC < XC) by nia. assert (B' : j' * step + y' / YC < XC) by nia.
  destruct (Nat.div_mod_unique XC (y mod YC) (y' mod YC) (j * step + y / YC) (j' * step + y' / YC)) as [E1 E2]; [ lia | lia | lia | ].
  destruct (Nat.div_mod_unique step j j' (y / YC) (y' / YC)) as [E3 E4]; [ lia | lia | lia | ].
  split; [ | exact E3 ]. rewrite (Nat.div_mod y YC), (Nat.div_mod y' YC) by lia. rewrite E1, E4. reflexivity.
Qed.
Lemma ypos_inj0 : forall y y' j, y < L -> y' < L -> j < 4 -> ypos y + j * step = ypos y' -> y = y' /\ j = 0.
Proof. intros y y' j H H' Hj E. apply (ypos_inj y y' j 0); lia. Qed.
Lemma ypos_inj1 : forall y y' j, y < L -> y' < L -> j < 4 -> ypos y + j * step = ypos y' + step -> y = y' /\ j = 1.
Proof. intros y y' j H H' Hj E. apply (ypos_inj y y' j 1); lia. Qed.
Lemma ypos_0 : ypos 0 = 0.
Proof. unfold ypos. rewrite Nat.mod_0_l, Nat.div_0_l by lia. reflexivity. Qed.
Lemma at_y : forall vIdx yPt, yPt < YC -> ypos (yPt + vIdx * YC) = yPt * XC + vIdx.
Proof.
  intros v y Hy. unfold ypos. rewrite Nat.mod_add, Nat.div_add by lia. rewrite Nat.mod_small, Nat.div_small by lia. reflexivity.
Qed.
Lemma y_lt : forall vIdx yPt, vIdx < step -> yPt < YC -> yPt + vIdx * YC < L.
Proof. intros v y Hv Hy. rewrite Hd. nia. Qed.
Lemma sl_idx_pos : forall y, y < L -> sl_idx step YC XC (L * L) (y / YC) (y mod YC) = ypos y.
Proof.
  intros y Hy. unfold sl_idx, ypos. destruct (Nat.eqb_spec (y mod YC) (YC - 1)) as [E | E]; [ | reflexivity ].
  rewrite E. f_equal. assert (L * L = YC * XC) by (rewrite Hd at 1; lia). nia.
Qed.
Lemma sl_idxP_pos : forall y, y < L -> sl_idxP step YC XC (y / YC) (y mod YC) = ypos ((y + 1) mod L).
Proof.
  intros y Hy. pose proof (lane_lt y Hy) as A. pose proof (Nat.mod_upper_bound y YC ltac:(lia)) as B.
  pose proof (Nat.div_mod y YC ltac:(lia)) as D. unfold sl_idxP.
  destruct (Nat.eqb_spec (y mod YC) (YC - 1)) as [E | E].
  - assert (Y1 : y + 1 = (y / YC + 1) * YC) by (rewrite D at 1; nia).
    destruct (Nat.eq_dec (y / YC + 1) step) as [F | F].
    + rewrite Y1, F. replace (step * YC) with L by lia. rewrite !Nat.mod_same by lia. symmetry. apply ypos_0.
    + rewrite (Nat.mod_small (y / YC + 1)) by lia. rewrite (Nat.mod_small (y + 1)) by (rewrite Y1, Hd; nia).
      rewrite Y1. pose proof (at_y (y / YC + 1) 0 HY) as P. rewrite Nat.add_0_l in P. rewrite P. lia.
  - assert (Y1 : y + 1 = (y mod YC + 1) + (y / YC) * YC) by (rewrite D at 1; lia).
    rewrite (Nat.mod_small (y + 1)) by (rewrite Y1; apply y_lt; lia). rewrite Y1, at_y by lia. lia.
Qed.
Lemma back_y : forall y, y < L -> (L - 1 - y) / YC = step - 1 - y / YC /\ (L - 1 - y) mod YC = YC - 1 - y mod YC.
Proof.
  intros y Hy. pose proof (lane_lt y Hy) as A. pose proof (Nat.mod_upper_bound y YC ltac:(lia)) as B.
  pose proof (Nat.div_mod y YC ltac:(lia)) as D.
  assert (E : L - 1 - y = (YC - 1 - y mod YC) + (step - 1 - y / YC) * YC).
  { revert D A B Hy Hd. generalize (y / YC) (y mod YC). clear. intros a b D A B Hy Hd.
    assert (exists a', step = a + 1 + a') as (a' & ->) by (exists (step - a - 1); lia).
    replace (a + 1 + a' - 1 - a) with a' by lia. subst y. subst L. nia. }
  rewrite E. rewrite Nat.div_add, Nat.mod_add by lia. rewrite Nat.div_small, Nat.mod_small by lia. lia.
Qed.
Lemma lanesRows_seq : forall s, lanesRows s YC = map (fun y => (y / YC, y mod YC)) (seq 0 (s * YC)).
Proof.
  induction s as [ | s IH ]; [ reflexivity | ]. unfold lanesRows in *. rewrite seq_S, flat_map_app, IH. cbn [flat_map plus].
  rewrite app_nil_r. replace (S s * YC) with (s * YC + YC) by lia. rewrite seq_app, map_app. f_equal. cbn [plus].
  replace (seq (s * YC) YC) with (map (fun y => y + s * YC) (seq 0 YC)).
  - rewrite map_map. apply map_ext_in. intros y Hy. apply in_seq in Hy.
    rewrite Nat.div_add, Nat.mod_add by lia. rewrite Nat.div_small, Nat.mod_small by lia. reflexivity.
  - clear. generalize (s * YC). intros a. revert a. induction YC as [ | n IH ]; intros a; [ reflexivity | ].
    cbn [seq map]. f_equal. rewrite <- (IH (S a)), <- (seq_shift n 0), map_map. apply map_ext. intros. lia.
Qed.

Variables (m v : nat -> Q).
Notation f := (fun y => m (ypos y)).
Notation kF := (kFw c (kzC c) L f).
Notation kB := (kBw c (kzC c) L f).
Notation kb := (kseq c (kzC c) (bwd L f)).
Definition scanInv (n : nat) (st : (nat -> Q) * nat * nat) : Prop :=
  let b := fst (fst st) in
  (forall y, y <= n -> y < L -> (b (ypos y) == m (ypos y) + per c (kF y))%Q /\
     (0 < y -> (b (ypos y + 1 * step)%nat == v (ypos y) + inject_Z (kF y) * q)%Q)) /\
  (forall t, t <= n -> t < L -> (b (ypos ((L - t) mod L) + 2 * step)%nat == bwd L f t + per c (kb t))%Q).

Lemma scan_ok : forall fuel b0, (forall t, t <= L -> (Z.abs (kF t) <= Z.of_nat fuel /\ Z.abs (kb t) <= Z.of_nat fuel)%Z) ->
  exists st, foldM (sliceScan fuel c q step YC XC (L * L) m v) (lanesRows step YC)
               (upd (upd b0 0 (m 0)) (2 * step) (m 0), 0, 0) = Some st /\ scanInv L st.
Proof.
  intros fuel b0 Hf. rewrite lanesRows_seq, foldM_map, <- Hd. apply foldM_seq with (Inv := scanInv).
  - unfold scanInv. cbn [fst]. split.
    + intros y Hy _. assert (y = 0) by lia. subst y. rewrite ypos_0. split; [ | lia ]. rewrite upd_other, upd_same by lia.
      unfold kFw. cbn [kseq]. rewrite per_0. lra.
    + intros t Ht _. assert (t = 0) by lia. subst t. unfold bwd. rewrite Nat.sub_0_r, Nat.mod_same by lia. rewrite ypos_0.
      cbn [plus]. rewrite upd_same. cbn [kseq]. rewrite per_0. lra.
  - intros y st Hy I. destruct st as ((b & cF) & cB). destruct I as (I1 & I2). cbn [fst] in I1, I2.
    unfold sliceScan. destruct (back_y y Hy) as [B1 B2].
    rewrite <- B1, <- B2, !sl_idx_pos, !sl_idxP_pos by lia.
    replace ((L - 1 - y + 1) mod L) with ((L - y) mod L) by (f_equal; lia).
    destruct (I1 y ltac:(lia) Hy) as [F1 _]. pose proof (I2 y ltac:(lia) Hy) as G1.
    (* the two mended values *)
    assert (KF : kzC c (m (ypos ((y + 1) mod L)) - b (ypos y)) = kF (y + 1)).
    { rewrite Nat.add_1_r. unfold kFw. cbn [kseq]. apply kzC_comp; [ exact Hc | ]. rewrite F1.
      rewrite (Nat.mod_small y) by lia. unfold kFw. reflexivity. }
    assert (KB : kzC c (m (ypos (L - 1 - y)) - b (2 * step + ypos ((L - y) mod L))) = kb (y + 1)).
    { rewrite Nat.add_1_r. cbn [kseq]. apply kzC_comp; [ exact Hc | ]. rewrite Nat.add_comm, G1.
      assert (EB : bwd L f (S y) = m (ypos (L - 1 - y))).
      { unfold bwd. replace (L - S y) with (L - 1 - y) by lia. now rewrite (Nat.mod_small (L - 1 - y)) by lia. }
      rewrite EB. reflexivity. }
    destruct (mendPoint_ok c q Hc fuel (b (ypos y)) (m (ypos ((y + 1) mod L))) (v (ypos ((y + 1) mod L))) cF) as (a & av & R & M).
    { rewrite KF. apply Hf. lia. }
    rewrite R. cbn [bind]. rewrite KF in M. clear R.
    destruct (mendPoint_ok c q Hc fuel (b (2 * step + ypos ((L - y) mod L))) (m (ypos (L - 1 - y))) (v (ypos (L - 1 - y))) cB) as (g & gv & R & N).
    { rewrite KB. apply Hf. lia. }
    rewrite R. cbn [bind]. rewrite KB in N. clear R. eexists; split; [ reflexivity | ]. unfold scanInv. cbn [fst].
    set (b1 := if ypos ((y + 1) mod L) =? 0 then b else upd (upd b (ypos ((y + 1) mod L)) a) (ypos ((y + 1) mod L) + step) av).
    set (b2 := if ypos (L - 1 - y) =? 0 then b1 else upd (upd b1 (ypos (L - 1 - y) + 2 * step) g) (ypos (L - 1 - y) + 3 * step) gv).
    assert (Hm : (y + 1) mod L < L) by (apply Nat.mod_upper_bound; lia).
    assert (Z0 : forall z, z < L -> (ypos z = 0 <-> z = 0)).
    { intros z Hz. split; [ | intros ->; apply ypos_0 ]. intros E. destruct (ypos_inj z 0 0 0) as [? _]; try lia. rewrite ypos_0. lia. }
    (* reading the two buffers back *)
    assert (R2 : forall z j, z < L -> j < 2 -> b2 (ypos z + j * step) = b1 (ypos z + j * step)).
    { intros z j Hz Hj. unfold b2. destruct (ypos (L - 1 - y) =? 0); [ reflexivity | ].
      rewrite !upd_other; [ reflexivity | | ]; intros E; apply ypos_inj in E; lia. }
    assert (R1 : forall z, z < L -> b1 (ypos z + 2 * step) = b (ypos z + 2 * step)).
    { intros z Hz. unfold b1. destruct (ypos ((y + 1) mod L) =? 0); [ reflexivity | ].
      rewrite !upd_other; [ reflexivity | | ]; intros E; (apply ypos_inj0 in E || apply ypos_inj1 in E); lia. }
    split.
    + intros z Hz HzL. replace (ypos z) with (ypos z + 0 * step) at 1 by lia. rewrite !R2 by lia.
      unfold b1. destruct (Nat.eqb_spec (ypos ((y + 1) mod L)) 0) as [E0 | E0].
      * apply (proj1 (Z0 _ Hm)) in E0. assert (y + 1 = L) by (destruct (Nat.eq_dec (y + 1) L); [ assumption | rewrite Nat.mod_small in E0 by lia; lia ]).
        rewrite Nat.mul_0_l, Nat.add_0_r. apply I1; lia.
      * assert (y + 1 < L) by (destruct (Nat.eq_dec (y + 1) L) as [C | C]; [ rewrite C, Nat.mod_same, ypos_0 in E0 by lia; lia | lia ]).
        rewrite !(Nat.mod_small (y + 1)) in * by lia.
        destruct (Nat.eq_dec z (y + 1)) as [-> | D].
        -- destruct M as [M1 M2]. split.
           ++ rewrite upd_other, Nat.mul_0_l, Nat.add_0_r, upd_same by lia. exact M1.
           ++ intros _. rewrite Nat.mul_1_l, upd_same. exact M2.
        -- destruct (I1 z ltac:(lia) HzL) as [J1 J2]. split.
           ++ rewrite !upd_other; [ now rewrite Nat.mul_0_l, Nat.add_0_r | | ]; intros E; (apply ypos_inj0 in E || apply ypos_inj1 in E); lia.
           ++ intros Hz0. specialize (J2 Hz0). rewrite !upd_other; [ exact J2 | | ]; intros E; (apply ypos_inj0 in E || apply ypos_inj1 in E); lia.
    + intros t Ht HtL. assert (Htm : (L - t) mod L < L) by (apply Nat.mod_upper_bound; lia).
      unfold b2. destruct (Nat.eqb_spec (ypos (L - 1 - y)) 0) as [E0 | E0].
      * apply (proj1 (Z0 (L - 1 - y) ltac:(lia))) in E0. rewrite R1 by exact Htm. apply I2; lia.
      * rewrite Z0 in E0 by lia. rewrite upd_other by (intros E; apply ypos_inj in E; lia).
        destruct (Nat.eq_dec t (y + 1)) as [-> | D].
        -- assert (E : (L - (y + 1)) mod L = L - 1 - y) by (rewrite Nat.mod_small; lia).
           rewrite E, upd_same. destruct N as [N1 _]. rewrite N1.
           assert (EB : bwd L f (y + 1) = m (ypos (L - 1 - y))) by (unfold bwd; now rewrite E). rewrite EB. reflexivity.
        -- rewrite upd_other; [ rewrite R1 by exact Htm; apply I2; lia | ].
           intros E. apply ypos_inj in E; [ | lia | lia | lia | lia ]. destruct E as [E _].
           destruct (Nat.eq_dec t 0) as [-> | D0]; [ rewrite Nat.sub_0_r, Nat.mod_same in E by lia; lia | ].
           rewrite Nat.mod_small in E by lia. lia.
Qed.

Definition agree (y : nat) : bool := (kF y =? kB y)%Z && negb (kF y =? 0)%Z.
Definition writeInv (n : nat) (st : (nat -> Q) * (nat -> Q) * nat) : Prop :=
  let '(m', v', count) := st in
  (forall y, 0 < y <= n -> y < L -> (kF y = kB y -> moved c q (m (ypos y)) (v (ypos y)) (m' (ypos y)) (v' (ypos y)) (kF y)) /\
     (kF y <> kB y -> m' (ypos y) = m (ypos y) /\ v' (ypos y) = v (ypos y))) /\
  (forall p, (forall y, 0 < y <= n -> y < L -> p <> ypos y) -> m' p = m p /\ v' p = v p) /\
  count = length (filter agree (seq 0 (Nat.min (n + 1) L))).
Lemma kB_at : forall y, 0 < y -> y < L -> kB y = kb (L - y).
Proof. intros y H1 H2. unfold kBw. now rewrite Nat.mod_small by lia. Qed.
Lemma write_ok : forall st, scanInv L st -> writeInv L (fold_left (sliceWrite step YC XC (fst (fst st))) (lanesRows step YC) (m, v, 0)).
Proof.
  intros ((b & cF) & cB) (I1 & I2). cbn [fst] in *. rewrite lanesRows_seq, <- Hd.
  assert (FM : forall (A B S : Type) (h : A -> B) (g : S -> B -> S) l s, fold_left g (map h l) s = fold_left (fun s a => g s (h a)) l s).
  { intros A B S h g l. induction l as [ | a l IH ]; intros s; [ reflexivity | apply IH ]. }
  rewrite FM. clear FM. apply fold_seq with (Inv := writeInv).
  - unfold writeInv. split; [ intros; lia | ]. split; [ auto | ]. rewrite Nat.min_l by lia. cbn [seq filter plus].
    unfold agree at 1. change (kF 0) with 0%Z. rewrite Z.eqb_refl. now rewrite Bool.andb_false_r.
  - intros y ((m1 & v1) & count) Hy (W1 & W2 & W3). unfold sliceWrite. rewrite sl_idxP_pos by exact Hy.
    assert (Z0 : forall z, z < L -> (ypos z = 0 <-> z = 0)).
    { intros z Hz. split; [ | intros ->; apply ypos_0 ]. intros E. destruct (ypos_inj z 0 0 0) as [? _]; try lia. rewrite ypos_0. lia. }
    assert (PI : forall z z', z < L -> z' < L -> ypos z = ypos z' -> z = z').
    { intros z z' A B E. destruct (ypos_inj z z' 0 0) as [? _]; try lia. }
    destruct (Nat.eq_dec (y + 1) L) as [E | E].
    + rewrite E, Nat.mod_same, ypos_0 by lia. cbn [Nat.eqb negb].
      destruct (Qeq_bool (b 0) (b (0 + 2 * step))); (split; [ | split ]).
      1, 4: intros z Hz HzL; apply W1; lia.
      1, 3: intros p Hp; apply W2; intros z Hz HzL; apply Hp; lia.
      all: rewrite W3; do 3 f_equal; lia.
    + rewrite (Nat.mod_small (y + 1)) by lia.
      destruct (I1 (y + 1) ltac:(lia) ltac:(lia)) as [J1 J2]. specialize (J2 ltac:(lia)).
      pose proof (I2 (L - (y + 1)) ltac:(lia) ltac:(lia)) as J3. unfold bwd at 1 in J3.
      replace (L - (L - (y + 1))) with (y + 1) in J3 by lia. rewrite !(Nat.mod_small (y + 1)) in J3 by lia. rewrite <- kB_at in J3 by lia.
      assert (Old : m1 (ypos (y + 1)) = m (ypos (y + 1)) /\ v1 (ypos (y + 1)) = v (ypos (y + 1))).
      { apply W2. intros z Hz HzL C. apply PI in C; lia. }
      assert (Cnt : length (filter agree (seq 0 (Nat.min (y + 1 + 1) L))) =
                    length (filter agree (seq 0 (Nat.min (y + 1) L))) + (if agree (y + 1) then 1 else 0)).
      { rewrite !Nat.min_l by lia. replace (y + 1 + 1) with (S (y + 1)) by lia. rewrite seq_S, filter_app, app_length. cbn [filter plus].
        destruct (agree (y + 1)); reflexivity. }
      assert (Ag : Qeq_bool (b (ypos (y + 1))) (b (ypos (y + 1) + 2 * step)) = (kF (y + 1) =? kB (y + 1))%Z).
      { apply Bool.eq_iff_eq_true. rewrite Qeq_bool_iff, Z.eqb_eq, J1, J3. split.
        - intros H. apply (per_inj c Hc). lra.
        - intros ->. reflexivity. }
      rewrite Ag. destruct (Z.eqb_spec (kF (y + 1)) (kB (y + 1))) as [EK | EK].
      * destruct (Nat.eqb_spec (ypos (y + 1)) 0) as [E0 | E0]; [ apply (proj1 (Z0 (y + 1) ltac:(lia))) in E0; lia | ]. cbn [negb].
        split; [ | split ].
        -- intros z Hz HzL. destruct (Nat.eq_dec z (y + 1)) as [-> | D].
           ++ rewrite !upd_same. split; [ intros _ | contradiction ]. split; [ exact J1 | ]. rewrite <- J2, Nat.mul_1_l. reflexivity.
           ++ rewrite !upd_other by (intros C; apply PI in C; lia). apply W1; lia.
        -- intros p Hp. rewrite !upd_other by (apply Hp; lia). apply W2. intros z Hz HzL. apply Hp; lia.
        -- rewrite Cnt, <- W3. unfold agree. rewrite EK, Z.eqb_refl, Bool.andb_true_l.
           unfold Qneqb. replace (Qeq_bool (m1 (ypos (y + 1))) (b (ypos (y + 1)))) with (kB (y + 1) =? 0)%Z.
           ++ destruct (_ =? 0)%Z; cbn [negb]; lia.
           ++ apply Bool.eq_iff_eq_true. rewrite Qeq_bool_iff, Z.eqb_eq, J1, (proj1 Old), EK. split.
              ** intros ->. rewrite per_0. lra.
              ** intros H. apply (per_inj c Hc). rewrite per_0. lra.
      * split; [ | split ].
        -- intros z Hz HzL. destruct (Nat.eq_dec z (y + 1)) as [-> | D]; [ | apply W1; lia ].
           split; [ contradiction | ]. intros _. exact Old.
        -- intros p Hp. apply W2. intros z Hz HzL. apply Hp; lia.
        -- rewrite Cnt, <- W3. unfold agree. apply Z.eqb_neq in EK. rewrite EK. cbn. lia.
Qed.
Lemma mendSlice_ok : forall fuel b0, (forall t, t <= L -> (Z.abs (kF t) <= Z.of_nat fuel /\ Z.abs (kb t) <= Z.of_nat fuel)%Z) ->
  exists m' v' count, mendSlice fuel c q L step b0 m v = Some (m', v', count) /\
    rowMended (noJump c) L c q f (fun y => v (ypos y)) (fun y => m' (ypos y)) (fun y => v' (ypos y)) count /\
    (forall p, (forall y, y < L -> p <> ypos y) -> m' p = m p /\ v' p = v p).
Proof.
  intros fuel b0 Hf. unfold mendSlice. rewrite YC_eq. cbv zeta.
  destruct (scan_ok fuel b0 Hf) as (st & E & I). rewrite E. cbn [bind].
  pose proof (write_ok st I) as W. destruct (fold_left _ _ _) as ((m' & v') & count).
  exists m', v', count. split; [ reflexivity | ]. destruct W as (W1 & W2 & W3). split.
  - apply rowMended_intro with (kz := kzC c).
    + intros d. apply kzC_range. exact Hc.
    + intros d d' Ed. unfold noJump. now rewrite Ed.
    + intros d. now apply kzC_zero.
    + lia.
    + intros y Hy. destruct (Nat.eq_dec y 0) as [-> | D]; [ | apply W1; lia ].
      assert (K0 : kB 0 = 0%Z) by (unfold kBw; rewrite Nat.sub_0_r, Nat.mod_same by lia; reflexivity).
      change (kF 0) with 0%Z. rewrite K0. split; [ intros _ | contradiction ].
      destruct (W2 (ypos 0)) as [-> ->]; [ | apply moved_0 ].
      intros z Hz HzL C. destruct (ypos_inj 0 z 0 0); lia.
    + rewrite Nat.min_r in W3 by lia. exact W3.
  - intros p Hp. apply W2. intros y _ Hy. now apply Hp.
Qed.
End slice.
