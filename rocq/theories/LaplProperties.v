(** Claim C15. *)
From Coq Require Import Reals List Arith Lra Lia Permutation FinFun ZArith.
From Verif Require Import KernelModel LaplModel.
Import ListNotations.
Open Scope R_scope.

(** ** Specification *)

(** A polynomial in x, y, z: a sum of c x^i y^j z^k. *)
Definition poly := list (R * (nat * nat * nat)).
Fixpoint sum {A} (f : A -> R) (l : list A) : R :=
  match l with [] => 0 | a :: l' => f a + sum f l' end.
Definition peval (p : poly) (x y z : R) : R :=
  sum (fun t => let '(c, (i, j, k)) := t in c * x ^ i * y ^ j * z ^ k) p.
(** Its Laplacian, term by term. *)
Definition d2 (i : nat) (x : R) : R := INR i * INR (i - 1) * x ^ (i - 2).
Definition plaplacian (p : poly) (x y z : R) : R :=
  sum (fun t => let '(c, (i, j, k)) := t in
         c * (d2 i x * y ^ j * z ^ k + x ^ i * d2 j y * z ^ k + x ^ i * y ^ j * d2 k z)) p.
Definition degree_le (n : nat) (p : poly) : Prop :=
  Forall (fun t => let '(_, (i, j, k)) := t in (i <= n /\ j <= n /\ k <= n)%nat) p.

(** The values of [f] at distance n*delta of (x, y, z). *)
Definition around (f : R -> R -> R -> R) (delta x y z : R) (n : nat) (d : dir) : R :=
  let h := INR n * delta in
  match d with
  | Xp => f (x + h) y z | Xm => f (x - h) y z
  | Yp => f x (y + h) z | Ym => f x (y - h) z
  | Zp => f x y (z + h) | Zm => f x y (z - h)
  end.

(** ** Proofs *)

(** One axis. *)
Definition lap1 (PC : list R) (NN : nat) (ood2 : R) (f : R -> R) : R :=
  sum (fun nv => (f (INR nv) + f (- INR nv) - 2 * f 0) * (nth (nv - 1) PC 0 * ood2)) (seq 1 NN).

Lemma fold_sum {A} (g : A -> R) l a : fold_left (fun s x => s + g x) l a = a + sum g l.
Proof. revert a. induction l as [|x l IH]; intros a; cbn; [lra|]. rewrite IH. lra. Qed.

Lemma sum_plus {A} (f g h : A -> R) l : (forall x, h x = f x + g x) -> sum h l = sum f l + sum g l.
Proof. intros E. induction l as [|x l IH]; cbn; [lra|]. rewrite E, IH. lra. Qed.
Lemma sum_scal {A} (f g : A -> R) a l : (forall x, g x = a * f x) -> sum g l = a * sum f l.
Proof. intros E. induction l as [|x l IH]; cbn; [lra|]. rewrite E, IH. lra. Qed.
Lemma sum_ext {A} (f g : A -> R) l : (forall x, In x l -> f x = g x) -> sum f l = sum g l.
Proof. intros E. induction l as [|x l IH]; cbn; [lra|]. rewrite E by (left; auto). rewrite IH; [lra|]. intros; apply E; right; auto. Qed.

Lemma lap_axes PC NN ood2 f delta x y z :
  lap PC NN ood2 (f x y z) (around f delta x y z) =
  lap1 PC NN ood2 (fun t => f (x + t * delta) y z) +
  lap1 PC NN ood2 (fun t => f x (y + t * delta) z) +
  lap1 PC NN ood2 (fun t => f x y (z + t * delta)).
Proof.
  unfold lap, lap1. rewrite fold_sum, Rplus_0_l.
  rewrite <- (sum_plus _ _ _ _ (fun x => eq_refl)). rewrite <- (sum_plus _ _ _ _ (fun x => eq_refl)).
  apply sum_ext. intros nv _. unfold shell, around.
  rewrite !Rmult_0_l, !Rplus_0_r, !Ropp_mult_distr_l_reverse.
  unfold Rminus. ring.
Qed.

(** Exactness on monomials, one axis. *)
Lemma lap1_mono N k x delta : delta <> 0 -> (1 <= N <= 5)%nat -> (k <= 2 * N + 1)%nat ->
  lap1 (setCO N) N (1 / (delta * delta)) (fun t => (x + t * delta) ^ k) = d2 k x.
Proof.
  intros Hd HN Hk.
  do 6 (destruct N as [|N]; [try lia;
    do 12 (destruct k as [|k]; [try lia; unfold lap1, d2; cbn [sum seq setCO nth Nat.sub INR pow];
      replace 1.5 with (3 / 2) by lra; replace 1.6 with (8 / 5) by lra; replace (-0.2) with (- (1 / 5)) by lra; field; auto|]); lia|]).
  lia.
Qed.

Lemma lap1_scal PC NN o f a : lap1 PC NN o (fun t => a * f t) = a * lap1 PC NN o f.
Proof. unfold lap1. apply sum_scal. intros; ring. Qed.
Lemma lap1_plus PC NN o f g : lap1 PC NN o (fun t => f t + g t) = lap1 PC NN o f + lap1 PC NN o g.
Proof. unfold lap1. apply sum_plus. intros; ring. Qed.
Lemma lap1_ext PC NN o f g : (forall t, f t = g t) -> lap1 PC NN o f = lap1 PC NN o g.
Proof. intros E. unfold lap1. apply sum_ext. intros. rewrite !E. reflexivity. Qed.
Lemma lap1_zero PC NN o : lap1 PC NN o (fun _ => 0) = 0.
Proof. rewrite (lap1_ext _ _ _ _ (fun t => 0 * 0)) by (intros; ring). rewrite lap1_scal. ring. Qed.

(** C15: with N = 1..5 neighbours the Laplacian of the code is exact on every
    polynomial of degree at most 2N+1 in each coordinate, at every point and for
    every lattice spacing. In particular it annihilates constants. *)
Theorem laplacian_order N (p : poly) delta x y z :
  (1 <= N <= 5)%nat -> degree_le (2 * N + 1) p -> delta <> 0 ->
  lap (setCO N) N (1 / (delta * delta)) (peval p x y z) (around (peval p) delta x y z) = plaplacian p x y z.
Proof.
  intros HN Hp Hd. rewrite lap_axes. induction Hp as [|[c [[i j] k]] p Hk Hp IH].
  - unfold peval, plaplacian. cbn [sum]. rewrite !lap1_zero. ring.
  - cbn [plaplacian]. unfold peval, plaplacian in *. cbn [sum]. rewrite !lap1_plus.
    destruct Hk as (Hi & Hj & Hk).
    rewrite (lap1_ext _ _ _ (fun t => c * (x + t * delta) ^ i * y ^ j * z ^ k) (fun t => (c * y ^ j * z ^ k) * (x + t * delta) ^ i)) by (intros; ring).
    rewrite (lap1_ext _ _ _ (fun t => c * x ^ i * (y + t * delta) ^ j * z ^ k) (fun t => (c * x ^ i * z ^ k) * (y + t * delta) ^ j)) by (intros; ring).
    rewrite !lap1_scal, !lap1_mono by auto. rewrite <- IH. ring.
Qed.
Print Assumptions laplacian_order.

(** The order is not higher: x^(2N+2) is not treated exactly. *)
Theorem laplacian_order_sharp N :
  (1 <= N <= 5)%nat ->
  exists p delta x y z, degree_le (2 * N + 2) p /\ delta <> 0 /\
  lap (setCO N) N (1 / (delta * delta)) (peval p x y z) (around (peval p) delta x y z) <> plaplacian p x y z.
Proof.
  intros HN. exists [(1, (2 * N + 2, 0, 0)%nat)], 1, 0, 0, 0. split.
  { constructor; [|constructor]. lia. } split; [lra|].
  rewrite lap_axes. unfold peval, plaplacian, d2.
  do 6 (destruct N as [|N]; [try lia; unfold lap1; cbn [sum seq setCO nth Nat.sub INR pow Nat.mul Nat.add];
    lra|]). lia.
Qed.
Print Assumptions laplacian_order_sharp.

(** ** Periodic sum *)

(** Value of the periodic row [f] of length L, n sites to the right or left of i. *)
Definition row_at (L : nat) (f : nat -> R) (i : nat) (n : nat) (right : bool) : R :=
  f (Z.to_nat ((Z.of_nat i + (if right then Z.of_nat n else - Z.of_nat n)) mod Z.of_nat L)%Z).
Definition row_nb (L : nat) (f : nat -> R) (i n : nat) (d : dir) : R :=
  match d with Xp => row_at L f i n true | Xm => row_at L f i n false | _ => f i end.

Lemma sum_perm {A} (f : A -> R) l l' : Permutation l l' -> sum f l = sum f l'.
Proof. induction 1; cbn; lra. Qed.
Lemma sum_map {A B} (g : A -> B) (f : B -> R) l : sum f (map g l) = sum (fun a => f (g a)) l.
Proof. induction l; cbn; congruence. Qed.
Lemma sum_swap {A B} (f : A -> B -> R) l l' :
  sum (fun a => sum (f a) l') l = sum (fun b => sum (fun a => f a b) l) l'.
Proof.
  induction l as [|a l IH]; cbn.
  - induction l'; cbn; lra.
  - rewrite IH. symmetry. apply sum_plus. reflexivity.
Qed.

Lemma NoDup_map_in {A B} (f : A -> B) l :
  (forall a b, In a l -> In b l -> f a = f b -> a = b) -> NoDup l -> NoDup (map f l).
Proof.
  intros Hf Hl. induction Hl as [|a l Ha Hl IH]; cbn; constructor.
  - intros H. apply in_map_iff in H as (b & E & Hb). apply Hf in E; [subst; auto|right; auto|left; auto].
  - apply IH. intros x y Hx Hy. apply Hf; right; auto.
Qed.

Lemma shift_perm L (k : Z) : (0 < L)%nat ->
  Permutation (map (fun i => Z.to_nat ((Z.of_nat i + k) mod Z.of_nat L)%Z) (seq 0 L)) (seq 0 L).
Proof.
  intros HL. apply NoDup_Permutation_bis.
  - apply NoDup_map_in; [|apply seq_NoDup].
    intros i j Hi Hj E. apply in_seq in Hi, Hj.
    pose proof (Z.mod_pos_bound (Z.of_nat i + k) (Z.of_nat L) ltac:(lia)) as B1.
    pose proof (Z.mod_pos_bound (Z.of_nat j + k) (Z.of_nat L) ltac:(lia)) as B2.
    apply (f_equal Z.of_nat) in E. rewrite !Z2Nat.id in E by lia.
    pose proof (Z.div_mod (Z.of_nat i + k) (Z.of_nat L) ltac:(lia)) as D1.
    pose proof (Z.div_mod (Z.of_nat j + k) (Z.of_nat L) ltac:(lia)) as D2.
    rewrite E in D1. set (q1 := ((Z.of_nat i + k) / Z.of_nat L)%Z) in *. set (q2 := ((Z.of_nat j + k) / Z.of_nat L)%Z) in *.
    assert (Z.of_nat i - Z.of_nat j = Z.of_nat L * (q1 - q2))%Z by lia.
    assert (q1 - q2 = 0)%Z by nia. lia.
  - rewrite map_length. lia.
  - intros a Ha. apply in_map_iff in Ha as (i & <- & Hi). apply in_seq.
    pose proof (Z.mod_pos_bound (Z.of_nat i + k) (Z.of_nat L) ltac:(lia)). lia.
Qed.

Lemma row_shift_sum L f n b : (0 < L)%nat -> sum (fun i => row_at L f i n b) (seq 0 L) = sum f (seq 0 L).
Proof.
  intros HL. unfold row_at.
  rewrite <- (sum_perm f _ _ (shift_perm L (if b then Z.of_nat n else - Z.of_nat n) HL)).
  rewrite sum_map. reflexivity.
Qed.

(** C15: for a field that varies along x only, the sum of the Laplacian over a
    periodic row is zero, for every length of the row (also shorter than the
    stencil), every coefficient set and number of neighbours. *)
Theorem laplacian_row_sum PC N ood2 L (f : nat -> R) : (0 < L)%nat ->
  sum (fun i => lap PC N ood2 (f i) (row_nb L f i)) (seq 0 L) = 0.
Proof.
  intros HL. unfold lap.
  rewrite (sum_ext _ (fun i => sum (fun nv => shell (f i) (row_nb L f i nv) * (nth (nv - 1) PC 0 * ood2)) (seq 1 N))).
  2:{ intros i _. rewrite fold_sum. ring. }
  rewrite sum_swap.
  rewrite (sum_ext _ (fun _ => 0)).
  { induction (seq 1 N); cbn; lra. }
  intros nv _.
  rewrite (sum_scal (fun i => shell (f i) (row_nb L f i nv)) _ (nth (nv - 1) PC 0 * ood2)) by (intros; ring).
  rewrite (sum_plus (fun i => row_at L f i nv true + row_at L f i nv false) (fun i => -2 * f i)).
  2:{ intros i. unfold shell, row_nb. ring. }
  rewrite (sum_plus (fun i => row_at L f i nv true) (fun i => row_at L f i nv false)) by reflexivity.
  rewrite !row_shift_sum by auto. rewrite (sum_scal f (fun i => -2 * f i) (-2)) by reflexivity. ring.
Qed.
Print Assumptions laplacian_row_sum.

(** C15 fails beyond five neighbours: the coefficient table then has one entry only,
    so the sum is not that of a stencil with N neighbours and reads outside it. *)
Theorem laplacian_many_neighbours_refuted N : (6 <= N)%nat -> (length (setCO N) < N)%nat.
Proof. intros H. do 6 (destruct N as [|N]; [lia|]). cbn. lia. Qed.
Print Assumptions laplacian_many_neighbours_refuted.

(** Hypotheses met: N = 2, a polynomial of degree 5 in three variables. *)
Example laplacian_ex : degree_le (2 * 2 + 1) [(1, (5, 1, 0)%nat); (-2, (0, 3, 4)%nat); (7, (2, 2, 2)%nat)] /\
  plaplacian [(1, (5, 1, 0)%nat); (-2, (0, 3, 4)%nat); (7, (2, 2, 2)%nat)] 1 1 1 = 26.
Proof.
  split; [repeat constructor; lia|]. unfold plaplacian, d2. cbn [sum Nat.sub INR pow]. lra.
Qed.
