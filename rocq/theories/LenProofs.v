(** Lemmas for the length of strings. *)
From Coq Require Import Reals List Arith ZArith QArith Qreals Lra Psatz Lia.
From Verif Require Import StrModel StrSpec LenModel LenSpec.
Import ListNotations.
Local Open Scope R_scope.

(** ** Signs *)
Lemma sqpos K x : 0 < K -> x <> 0 -> 0 < K * (x * x).
Proof. intros H X. apply Rmult_lt_0_compat; [exact H|]. nra. Qed.
Lemma mulpos a b : 0 < a -> 0 < b -> 0 < a * b. Proof. apply Rmult_lt_0_compat. Qed.
Lemma mulneg a b : a < 0 -> b < 0 -> 0 < a * b. Proof. intros. nra. Qed.
Lemma neg_prod_cases a b : a * b < 0 -> (0 < a /\ b < 0) \/ (a < 0 /\ 0 < b).
Proof. intros H. destruct (Rtotal_order a 0) as [A|[A|A]]; [right|subst; lra|left]; split; auto; nra. Qed.
Lemma pos_prod_cases a b : 0 < a * b -> (0 < a /\ 0 < b) \/ (a < 0 /\ b < 0).
Proof. intros H. destruct (Rtotal_order a 0) as [A|[A|A]]; [right|subst; lra|left]; split; auto; nra. Qed.
(** a node strictly inside a side *)
Lemma frac a b : a * b < 0 -> a - b <> 0 /\ 0 < a / (a - b) < 1 /\ a / (a - b) * (a - b) = a.
Proof.
  intros H. destruct (neg_prod_cases a b H) as [[A B]|[A B]].
  - assert (D : 0 < a - b) by lra. split; [lra|]. split; [|field; lra].
    split; [apply Rdiv_lt_0_compat; lra|]. apply Rmult_lt_reg_r with (a - b); [lra|]. replace (a / (a - b) * (a - b)) with a by (field; lra). lra.
  - assert (D : 0 < b - a) by lra. split; [lra|]. split; [|field; lra].
    replace (a / (a - b)) with ((- a) / (b - a)) by (field; lra).
    split; [apply Rdiv_lt_0_compat; lra|]. apply Rmult_lt_reg_r with (b - a); [lra|]. replace (- a / (b - a) * (b - a)) with (- a) by (field; lra). lra.
Qed.

(** ** The line through two points *)
Definition lineF (x0 y0 x1 y1 x y : R) : R := (y1 - y0) * x + (x0 - x1) * y + (y0 * x1 - y1 * x0).
Lemma lineF_affine x0 y0 x1 y1 s0 t0 s1 t1 k : lineF x0 y0 x1 y1 (s0 + k * (s1 - s0)) (t0 + k * (t1 - t0)) =
  lineF x0 y0 x1 y1 s0 t0 + k * (lineF x0 y0 x1 y1 s1 t1 - lineF x0 y0 x1 y1 s0 t0).
Proof. unfold lineF. ring. Qed.
Lemma fdiv_ok a b : b <> 0 -> fdiv a b = Some (a / b).
Proof. intros H. unfold fdiv. destruct (Req_EM_T b 0); [contradiction|reflexivity]. Qed.
Lemma meet_ok x0 y0 x1 y1 s0 t0 s1 t1 :
  lineF x0 y0 x1 y1 s0 t0 * lineF x0 y0 x1 y1 s1 t1 < 0 ->
  exists k, 0 < k < 1 /\ meet x0 y0 x1 y1 s0 t0 s1 t1 = Some (s0 + k * (s1 - s0), t0 + k * (t1 - t0)) /\
    lineF x0 y0 x1 y1 (s0 + k * (s1 - s0)) (t0 + k * (t1 - t0)) = 0 /\ (x0 <> x1 \/ y0 <> y1) /\ (s0 <> s1 \/ t0 <> t1).
Proof.
  set (f := lineF x0 y0 x1 y1 s0 t0). set (g := lineF x0 y0 x1 y1 s1 t1). intros H.
  destruct (frac f g H) as (D & K & E). exists (f / (f - g)). split; [exact K|].
  assert (DD : (y1 - y0) * (s0 - s1) - (t1 - t0) * (x0 - x1) = f - g) by (unfold f, g, lineF; ring).
  split; [|split; [|split]].
  - unfold meet. cbv zeta. rewrite fdiv_ok by (rewrite DD; exact D).
    rewrite fdiv_ok by (replace ((x0 - x1) * (t1 - t0) - (s0 - s1) * (y1 - y0)) with (- (f - g)) by (rewrite <- DD; ring); lra).
    cbn [bind]. do 2 f_equal.
    + rewrite DD. unfold f at 2. apply Rmult_eq_reg_r with (f - g); [|exact D]. unfold Rdiv. rewrite Rmult_assoc, Rinv_l, Rmult_1_r by exact D.
      rewrite Rmult_plus_distr_r. replace (lineF x0 y0 x1 y1 s0 t0 * / (f - g) * (s1 - s0) * (f - g)) with (lineF x0 y0 x1 y1 s0 t0 * (s1 - s0) * (/ (f - g) * (f - g))) by ring.
      rewrite Rinv_l, Rmult_1_r by exact D. rewrite <- DD. unfold lineF. ring.
    + replace ((x0 - x1) * (t1 - t0) - (s0 - s1) * (y1 - y0)) with (- (f - g)) by (rewrite <- DD; ring).
      replace (- ((y0 * x1 - y1 * x0) * (t1 - t0) - (t0 * s1 - t1 * s0) * (y1 - y0)) / - (f - g)) with
        (((y0 * x1 - y1 * x0) * (t1 - t0) - (t0 * s1 - t1 * s0) * (y1 - y0)) / (f - g)) by (field; exact D).
      unfold f at 2. apply Rmult_eq_reg_r with (f - g); [|exact D]. unfold Rdiv. rewrite Rmult_assoc, Rinv_l, Rmult_1_r by exact D.
      rewrite Rmult_plus_distr_r. replace (lineF x0 y0 x1 y1 s0 t0 * / (f - g) * (t1 - t0) * (f - g)) with (lineF x0 y0 x1 y1 s0 t0 * (t1 - t0) * (/ (f - g) * (f - g))) by ring.
      rewrite Rinv_l, Rmult_1_r by exact D. rewrite <- DD. unfold lineF. ring.
  - rewrite lineF_affine. fold f g. replace (f + f / (f - g) * (g - f)) with (f - f / (f - g) * (f - g)) by ring. rewrite E. ring.
  - destruct (Req_EM_T x0 x1) as [A|A]; [|left; exact A]. destruct (Req_EM_T y0 y1) as [B|B]; [|right; exact B].
    exfalso. subst. unfold f, g, lineF in H. replace (y1 - y1) with 0 in H by ring. replace (x1 - x1) with 0 in H by ring. nra.
  - destruct (Req_EM_T s0 s1) as [A|A]; [|left; exact A]. destruct (Req_EM_T t0 t1) as [B|B]; [|right; exact B].
    exfalso. subst. apply D. unfold f, g. ring.
Qed.

(** ** Sides of the chord through the two zeros *)
Inductive edge := Eb | Er | Et | El.
Definition ept (e : edge) (t : R) : R * R := match e with Eb => (t, 0) | Er => (1, t) | Et => (t, 1) | El => (0, t) end.
Definition eval (p u v w : R) (e : edge) (t : R) : R :=
  match e with Eb => p + t * (u - p) | Er => u + t * (w - u) | Et => v + t * (w - v) | El => p + t * (v - p) end.

Lemma mix_pos A B t : 0 < A -> 0 < B -> 0 <= t <= 1 -> 0 < (1 - t) * A + t * B.
Proof.
  intros HA HB T. destruct (Req_EM_T t 1) as [->|N]; [lra|].
  assert (0 < (1 - t) * A) by (apply Rmult_lt_0_compat; lra). assert (0 <= t * B) by (apply Rmult_le_pos; lra). lra.
Qed.
Lemma mix_same s a b t : 0 < s * a -> 0 < s * b -> 0 <= t <= 1 -> 0 < s * (a + t * (b - a)).
Proof. intros A B T. replace (s * (a + t * (b - a))) with ((1 - t) * (s * a) + t * (s * b)) by ring. apply mix_pos; assumption. Qed.
Lemma mix_opp s a b t : s * a < 0 -> s * b < 0 -> 0 <= t <= 1 -> s * (a + t * (b - a)) < 0.
Proof. intros A B T. replace (s * (a + t * (b - a))) with (- ((1 - t) * - (s * a) + t * - (s * b))) by ring. pose proof (mix_pos (- (s * a)) (- (s * b)) t ltac:(lra) ltac:(lra) T). lra. Qed.
Lemma same_side s a f : 0 < s * a -> 0 < f -> 0 < s * a * f. Proof. apply Rmult_lt_0_compat. Qed.
Lemma opp_side s a f : s * a < 0 -> f < 0 -> 0 < s * a * f. Proof. intros. nra. Qed.

(** positive on one part of the border and negative on the other *)
Definition separates (p u v w x0 y0 x1 y1 : R) : Prop :=
  exists s, s <> 0 /\ forall e t, 0 <= t <= 1 -> eval p u v w e t <> 0 ->
    0 < s * eval p u v w e t * lineF x0 y0 x1 y1 (fst (ept e t)) (snd (ept e t)).
(** the factor of a side on which the value changes sign *)
Lemma on_node s a b t K c : a * b < 0 -> 0 < c * (s * (b - a)) -> K = c * (t - a / (a - b)) -> a + t * (b - a) <> 0 ->
  0 < s * (a + t * (b - a)) * K.
Proof.
  intros H C -> N. destruct (frac a b H) as (D & _ & E). set (q := a / (a - b)) in *.
  assert (V : a + t * (b - a) = (b - a) * (t - q)) by (replace ((b - a) * (t - q)) with (t * (b - a) + q * (a - b)) by ring; rewrite E; ring).
  rewrite V in *. replace (s * ((b - a) * (t - q)) * (c * (t - q))) with (c * (s * (b - a)) * ((t - q) * (t - q))) by ring.
  apply sqpos; [exact C|]. intros Z. apply N. rewrite Z. ring.
Qed.
Ltac signs := repeat match goal with
  | H : ?a * ?b < 0 |- _ => apply neg_prod_cases in H
  | H : 0 < ?a * ?b |- _ => apply pos_prod_cases in H end.

Lemma mulnn a b : 0 <= a -> 0 <= b -> 0 <= a * b. Proof. apply Rmult_le_pos. Qed.
Ltac prods A B t := generalize dependent A; intros a; generalize dependent B; intros b; intros;
  pose proof (mix_pos a b t ltac:(lra) ltac:(lra) ltac:(lra)); pose proof (mix_pos b a t ltac:(lra) ltac:(lra) ltac:(lra));
  pose proof (mix_pos (1 - a) (1 - b) t ltac:(lra) ltac:(lra) ltac:(lra)); pose proof (mix_pos (1 - b) (1 - a) t ltac:(lra) ltac:(lra) ltac:(lra));
  pose proof (mulpos a b ltac:(lra) ltac:(lra)); pose proof (mulpos (1 - a) b ltac:(lra) ltac:(lra));
  pose proof (mulpos a (1 - b) ltac:(lra) ltac:(lra)); pose proof (mulpos (1 - a) (1 - b) ltac:(lra) ltac:(lra));
  pose proof (mulnn a t ltac:(lra) ltac:(lra)); pose proof (mulnn a (1 - t) ltac:(lra) ltac:(lra));
  pose proof (mulnn (1 - a) t ltac:(lra) ltac:(lra)); pose proof (mulnn (1 - a) (1 - t) ltac:(lra) ltac:(lra));
  pose proof (mulnn b t ltac:(lra) ltac:(lra)); pose proof (mulnn b (1 - t) ltac:(lra) ltac:(lra));
  pose proof (mulnn (1 - b) t ltac:(lra) ltac:(lra)); pose proof (mulnn (1 - b) (1 - t) ltac:(lra) ltac:(lra)); lra.

Lemma sep_br p u v w : p * u < 0 -> u * w < 0 -> 0 < w * v -> 0 < v * p -> separates p u v w (p / (p - u)) 0 1 (u / (u - w)).
Proof.
  intros H1 H2 H3 H4. destruct (frac p u H1) as (Da & A & _). destruct (frac u w H2) as (Db & B & _).
  exists u. split; [nra|]. intros e t T N. destruct e; cbn [ept eval fst snd] in *; unfold lineF.
  - apply (on_node u p u t _ (u / (u - w))); [exact H1| |ring|exact N]. apply mulpos; [lra|]. nra.
  - apply (on_node u u w t _ (- (1 - p / (p - u)))); [exact H2| |ring|exact N]. replace (- (1 - p / (p - u)) * (u * (w - u))) with ((1 - p / (p - u)) * (u * (u - w))) by ring.
    apply mulpos; [lra|]. nra.
  - apply opp_side; [apply mix_opp; [|nra|exact T]|]. { signs. nra. } prods (p / (p - u)) (u / (u - w)) t.
  - apply opp_side; [apply mix_opp; [nra| |exact T]|]. { signs. nra. } prods (p / (p - u)) (u / (u - w)) t.
Qed.
Lemma sep_bl p u v w : p * u < 0 -> 0 < u * w -> 0 < w * v -> v * p < 0 -> separates p u v w (p / (p - u)) 0 0 (p / (p - v)).
Proof.
  intros H1 H2 H3 H4. destruct (frac p u H1) as (Da & A & _). destruct (frac p v ltac:(lra)) as (Dd & B & _).
  exists (- p). split; [nra|]. intros e t T N. destruct e; cbn [ept eval fst snd] in *; unfold lineF.
  - apply (on_node (- p) p u t _ (p / (p - v))); [exact H1| |ring|exact N]. apply mulpos; [lra|]. nra.
  - apply same_side; [apply mix_same; [nra| |exact T]|]. { signs. nra. } prods (p / (p - u)) (p / (p - v)) t.
  - apply same_side; [apply mix_same; [nra| |exact T]|]. { signs. nra. } prods (p / (p - u)) (p / (p - v)) t.
  - apply (on_node (- p) p v t _ (p / (p - u))); [lra| |ring|exact N]. apply mulpos; [lra|]. nra.
Qed.
Lemma sep_rt p u v w : 0 < p * u -> u * w < 0 -> w * v < 0 -> 0 < v * p -> separates p u v w 1 (u / (u - w)) (v / (v - w)) 1.
Proof.
  intros H1 H2 H3 H4. destruct (frac u w H2) as (Da & A & _). destruct (frac v w ltac:(lra)) as (Dd & B & _).
  exists w. split; [nra|]. intros e t T N. destruct e; cbn [ept eval fst snd] in *; unfold lineF.
  - apply opp_side; [apply mix_opp; [|nra|exact T]|]. { signs. nra. } prods (u / (u - w)) (v / (v - w)) t.
  - apply (on_node w u w t _ (1 - v / (v - w))); [exact H2| |ring|exact N]. apply mulpos; [lra|]. nra.
  - apply (on_node w v w t _ (1 - u / (u - w))); [lra| |ring|exact N]. apply mulpos; [lra|]. nra.
  - apply opp_side; [apply mix_opp; [|nra|exact T]|]. { signs. nra. } prods (u / (u - w)) (v / (v - w)) t.
Qed.
Lemma sep_tl p u v w : 0 < p * u -> 0 < u * w -> w * v < 0 -> v * p < 0 -> separates p u v w (v / (v - w)) 1 0 (p / (p - v)).
Proof.
  intros H1 H2 H3 H4. destruct (frac v w ltac:(lra)) as (Da & A & _). destruct (frac p v ltac:(lra)) as (Dd & B & _).
  exists v. split; [nra|]. intros e t T N. destruct e; cbn [ept eval fst snd] in *; unfold lineF.
  - apply opp_side; [apply mix_opp; [nra| |exact T]|]. { signs. nra. } prods (v / (v - w)) (p / (p - v)) t.
  - apply opp_side; [apply mix_opp; [|nra|exact T]|]. { signs. nra. } prods (v / (v - w)) (p / (p - v)) t.
  - apply (on_node v v w t _ (- (1 - p / (p - v)))); [lra| |ring|exact N]. replace (- (1 - p / (p - v)) * (v * (w - v))) with ((1 - p / (p - v)) * (v * (v - w))) by ring.
    apply mulpos; [lra|]. nra.
  - apply (on_node v p v t _ (v / (v - w))); [lra| |ring|exact N]. apply mulpos; [lra|]. nra.
Qed.
Lemma sep_bt p u v w : p * u < 0 -> 0 < u * w -> w * v < 0 -> 0 < v * p -> separates p u v w (p / (p - u)) 0 (v / (v - w)) 1.
Proof.
  intros H1 H2 H3 H4. destruct (frac p u H1) as (Da & A & _). destruct (frac v w ltac:(lra)) as (Dd & B & _).
  exists u. split; [nra|]. intros e t T N. destruct e; cbn [ept eval fst snd] in *; unfold lineF.
  - apply (on_node u p u t _ 1); [exact H1| |ring|exact N]. nra.
  - apply same_side; [apply mix_same; [nra|nra|exact T]|]. prods (p / (p - u)) (v / (v - w)) t.
  - apply (on_node u v w t _ 1); [lra| |ring|exact N]. signs. nra.
  - apply opp_side; [apply mix_opp; [nra| |exact T]|]. { signs. nra. } prods (p / (p - u)) (v / (v - w)) t.
Qed.
Lemma sep_rl p u v w : 0 < p * u -> u * w < 0 -> 0 < w * v -> v * p < 0 -> separates p u v w 1 (u / (u - w)) 0 (p / (p - v)).
Proof.
  intros H1 H2 H3 H4. destruct (frac u w H2) as (Da & A & _). destruct (frac p v ltac:(lra)) as (Dd & B & _).
  exists w. split; [nra|]. intros e t T N. destruct e; cbn [ept eval fst snd] in *; unfold lineF.
  - apply opp_side; [apply mix_opp; [|nra|exact T]|]. { signs. nra. } prods (u / (u - w)) (p / (p - v)) t.
  - apply (on_node w u w t _ 1); [exact H2| |ring|exact N]. nra.
  - apply same_side; [apply mix_same; [nra|nra|exact T]|]. prods (u / (u - w)) (p / (p - v)) t.
  - apply (on_node w p v t _ 1); [lra| |ring|exact N]. signs. nra.
Qed.

(** ** The two nodes of the real part *)
Lemma sign_all s p u v w e t : 0 <= s * p -> 0 <= s * u -> 0 <= s * v -> 0 <= s * w -> 0 <= t <= 1 -> 0 <= s * eval p u v w e t.
Proof.
  intros Hp Hu Hv Hw T.
  assert (M : forall a b, 0 <= s * a -> 0 <= s * b -> 0 <= s * (a + t * (b - a))).
  { intros a b A B. replace (s * (a + t * (b - a))) with ((1 - t) * (s * a) + t * (s * b)) by ring.
    pose proof (mulnn (1 - t) (s * a) ltac:(lra) A). pose proof (mulnn t (s * b) ltac:(lra) B). lra. }
  destruct e; cbn [eval]; apply M; assumption.
Qed.
Lemma no_opposite s p u v w e1 t1 e2 t2 : 0 <= s * p -> 0 <= s * u -> 0 <= s * v -> 0 <= s * w -> 0 <= t1 <= 1 -> 0 <= t2 <= 1 -> s <> 0 ->
  eval p u v w e1 t1 * eval p u v w e2 t2 < 0 -> False.
Proof.
  intros A B C D T1 T2 S N. pose proof (sign_all s p u v w e1 t1 A B C D T1) as E1. pose proof (sign_all s p u v w e2 t2 A B C D T2) as E2.
  generalize dependent (eval p u v w e1 t1). generalize dependent (eval p u v w e2 t2). intros y Y x N X.
  pose proof (mulnn _ _ X Y) as Z. replace (s * x * (s * y)) with ((s * s) * (x * y)) in Z by ring.
  pose proof (sqpos 1 s ltac:(lra) S) as S2. pose proof (Rmult_lt_compat_l (s * s) _ _ ltac:(lra) N) as K. lra.
Qed.
Definition unitPair (x y : R) : Prop := 0 <= x <= 1 /\ 0 <= y <= 1.
Lemma re_nodes p u v w n0 n1 e1 t1 e2 t2 : nodes p u v w = [n0; n1] -> 0 <= t1 <= 1 -> 0 <= t2 <= 1 ->
  eval p u v w e1 t1 * eval p u v w e2 t2 < 0 ->
  exists x0 y0 x1 y1, n0 = (Some x0, Some y0) /\ n1 = (Some x1, Some y1) /\ separates p u v w x0 y0 x1 y1 /\
    zeroOnBorder p u v w x0 y0 /\ zeroOnBorder p u v w x1 y1.
Proof.
  intros H T1 T2 N. pose proof (fun s a b c d n => no_opposite s p u v w e1 t1 e2 t2 a b c d T1 T2 n N) as NO. clear N.
  assert (NODE : forall a b, a * b < 0 -> fdiv a (a - b) = Some (a / (a - b)) /\ 0 <= a / (a - b) <= 1 /\ a + a / (a - b) * (b - a) = 0).
  { intros a b L. destruct (frac a b L) as (D & K & E). split; [apply fdiv_ok; exact D|]. split; [lra|].
    replace (a + a / (a - b) * (b - a)) with (a - a / (a - b) * (a - b)) by ring. rewrite E. ring. }
  assert (SQ : forall a b, a * b <= 0 -> a <> 0 -> b <> 0 -> a * b < 0).
  { intros a b L A B. destruct (Rle_lt_or_eq_dec _ _ L) as [Z|Z]; [exact Z|]. apply Rmult_integral in Z. tauto. }
  unfold nodes in H.
  destruct (Rle_dec (p * u) 0) as [A|A]; destruct (Rle_dec (u * w) 0) as [B|B]; destruct (Rle_dec (w * v) 0) as [C|C]; destruct (Rle_dec (v * p) 0) as [D|D];
    cbn [app] in H; try discriminate H; injection H as <- <-; try apply Rnot_le_lt in A; try apply Rnot_le_lt in B; try apply Rnot_le_lt in C; try apply Rnot_le_lt in D.
  - destruct (Req_EM_T u 0) as [Z|Z]. { exfalso. apply (NO v); [nra|nra|nra|nra|nra]. }
    assert (A' : p * u < 0) by (apply SQ; [exact A|nra|exact Z]). assert (B' : u * w < 0) by (apply SQ; [exact B|exact Z|nra]).
    destruct (NODE p u A') as (-> & R1 & Z1). destruct (NODE u w B') as (-> & R2 & Z2). do 4 eexists. split; [reflexivity|]. split; [reflexivity|].
    split; [apply sep_br; assumption|]. split; [left; auto|right; left; auto].
  - assert (A' : p * u < 0) by (apply SQ; [exact A|nra|nra]). assert (C' : w * v < 0) by (apply SQ; [exact C|nra|nra]).
    destruct (NODE p u A') as (-> & R1 & Z1). destruct (NODE v w ltac:(lra)) as (-> & R2 & Z2). do 4 eexists. split; [reflexivity|]. split; [reflexivity|].
    split; [apply sep_bt; assumption|]. split; [left; auto|right; right; left; auto].
  - destruct (Req_EM_T p 0) as [Z|Z]. { exfalso. apply (NO w); [nra|nra|nra|nra|nra]. }
    assert (A' : p * u < 0) by (apply SQ; [exact A|exact Z|nra]). assert (D' : v * p < 0) by (apply SQ; [exact D|nra|exact Z]).
    destruct (NODE p u A') as (-> & R1 & Z1). destruct (NODE p v ltac:(lra)) as (-> & R2 & Z2). do 4 eexists. split; [reflexivity|]. split; [reflexivity|].
    split; [apply sep_bl; assumption|]. split; [left; auto|right; right; right; auto].
  - destruct (Req_EM_T w 0) as [Z|Z]. { exfalso. apply (NO p); [nra|nra|nra|nra|nra]. }
    assert (B' : u * w < 0) by (apply SQ; [exact B|nra|exact Z]). assert (C' : w * v < 0) by (apply SQ; [exact C|exact Z|nra]).
    destruct (NODE u w B') as (-> & R1 & Z1). destruct (NODE v w ltac:(lra)) as (-> & R2 & Z2). do 4 eexists. split; [reflexivity|]. split; [reflexivity|].
    split; [apply sep_rt; assumption|]. split; [right; left; auto|right; right; left; auto].
  - assert (B' : u * w < 0) by (apply SQ; [exact B|nra|nra]). assert (D' : v * p < 0) by (apply SQ; [exact D|nra|nra]).
    destruct (NODE u w B') as (-> & R1 & Z1). destruct (NODE p v ltac:(lra)) as (-> & R2 & Z2). do 4 eexists. split; [reflexivity|]. split; [reflexivity|].
    split; [apply sep_rl; assumption|]. split; [right; left; auto|right; right; right; auto].
  - destruct (Req_EM_T v 0) as [Z|Z]. { exfalso. apply (NO u); [nra|nra|nra|nra|nra]. }
    assert (C' : w * v < 0) by (apply SQ; [exact C|nra|exact Z]). assert (D' : v * p < 0) by (apply SQ; [exact D|exact Z|nra]).
    destruct (NODE v w ltac:(lra)) as (-> & R1 & Z1). destruct (NODE p v ltac:(lra)) as (-> & R2 & Z2). do 4 eexists. split; [reflexivity|]. split; [reflexivity|].
    split; [apply sep_tl; assumption|]. split; [right; right; left; auto|right; right; right; auto].
Qed.

(** ** The two nodes of the imaginary part of a plaquette with a string *)
Definition crossR (a b : cpx) : R := cim a * cre b - cre a * cim b.
Definition turnR (a b : cpx) : Z := if Rlt_dec (cim a * cim b) 0 then (if Rlt_dec 0 (crossR a b) then 1 else -1)%Z else 0%Z.
Lemma value_at ra ia rb ib : ia - ib <> 0 -> ra + ia / (ia - ib) * (rb - ra) = (ia * rb - ra * ib) / (ia - ib).
Proof. intros. field. assumption. Qed.
Lemma value_back ra ia rb ib : ib - ia <> 0 -> rb + ib / (ib - ia) * (ra - rb) = (ia * rb - ra * ib) / (ia - ib).
Proof. intros H. field. split; lra. Qed.
Lemma quot_neg c1 d1 c2 d2 : 0 < c1 * c2 -> d1 * d2 < 0 -> (c1 / d1) * (c2 / d2) < 0.
Proof.
  intros C D. assert (d1 <> 0 /\ d2 <> 0) as [N1 N2] by (split; intros ->; lra).
  replace (c1 / d1 * (c2 / d2)) with (- ((c1 * c2) / (- (d1 * d2)))) by (field; auto).
  pose proof (Rdiv_lt_0_compat _ (- (d1 * d2)) C ltac:(lra)). lra.
Qed.
Lemma turnR_same a b c d : turnR a b = turnR c d -> cim a * cim b < 0 -> cim c * cim d < 0 -> crossR a b <> 0 -> crossR c d <> 0 -> 0 < crossR a b * crossR c d.
Proof.
  unfold turnR. intros T A B C D. destruct (Rlt_dec (cim a * cim b) 0); [|contradiction]. destruct (Rlt_dec (cim c * cim d) 0); [|contradiction].
  destruct (Rlt_dec 0 (crossR a b)); destruct (Rlt_dec 0 (crossR c d)); try discriminate T; [apply mulpos|apply mulneg]; lra.
Qed.
Lemma turnR_range a b : (turnR a b = 0 \/ turnR a b = 1 \/ turnR a b = -1)%Z.
Proof. unfold turnR. destruct (Rlt_dec _ _); [destruct (Rlt_dec _ _)|]; auto. Qed.
Lemma turnR_strict a b : (turnR a b <> 0)%Z -> cim a * cim b < 0.
Proof. unfold turnR. destruct (Rlt_dec (cim a * cim b) 0); [auto|congruence]. Qed.
Lemma turnR_none a b : 0 < cim a * cim b -> turnR a b = 0%Z.
Proof. unfold turnR. destruct (Rlt_dec (cim a * cim b) 0); [lra|auto]. Qed.

Lemma im_nodes m mu mv muv n0 n1 :
  (forall a b, In (a, b) [(m, mu); (mu, muv); (muv, mv); (mv, m)] -> cim a * cim b < 0 -> crossR a b <> 0) ->
  (turnR m mu + turnR mu muv + turnR muv mv + turnR mv m = 2 \/ turnR m mu + turnR mu muv + turnR muv mv + turnR mv m = -2)%Z ->
  nodes (cim m) (cim mu) (cim mv) (cim muv) = [n0; n1] ->
  exists e1 t1 e2 t2, n0 = (Some (fst (ept e1 t1)), Some (snd (ept e1 t1))) /\ n1 = (Some (fst (ept e2 t2)), Some (snd (ept e2 t2))) /\
    0 <= t1 <= 1 /\ 0 <= t2 <= 1 /\
    eval (cre m) (cre mu) (cre mv) (cre muv) e1 t1 * eval (cre m) (cre mu) (cre mv) (cre muv) e2 t2 < 0 /\
    eval (cim m) (cim mu) (cim mv) (cim muv) e1 t1 = 0 /\ eval (cim m) (cim mu) (cim mv) (cim muv) e2 t2 = 0.
Proof.
  intros G T H.
  assert (NODE : forall a b, a * b < 0 -> fdiv a (a - b) = Some (a / (a - b)) /\ 0 <= a / (a - b) <= 1 /\ a + a / (a - b) * (b - a) = 0).
  { intros a b L. destruct (frac a b L) as (D & K & E). split; [apply fdiv_ok; exact D|]. split; [lra|].
    replace (a + a / (a - b) * (b - a)) with (a - a / (a - b) * (a - b)) by ring. rewrite E. ring. }
  pose proof (G m mu ltac:(cbn; auto)) as G1. pose proof (G mu muv ltac:(cbn; auto)) as G2.
  pose proof (G muv mv ltac:(cbn; auto)) as G3. pose proof (G mv m ltac:(cbn; auto)) as G4. clear G.
  pose proof (turnR_range m mu) as R1. pose proof (turnR_range mu muv) as R2. pose proof (turnR_range muv mv) as R3. pose proof (turnR_range mv m) as R4.
  pose proof (turnR_strict m mu) as S1. pose proof (turnR_strict mu muv) as S2. pose proof (turnR_strict muv mv) as S3. pose proof (turnR_strict mv m) as S4.
  pose proof (turnR_none m mu) as N1. pose proof (turnR_none mu muv) as N2. pose proof (turnR_none muv mv) as N3. pose proof (turnR_none mv m) as N4.
  unfold nodes in H.
  destruct (Rle_dec (cim m * cim mu) 0) as [A|A]; destruct (Rle_dec (cim mu * cim muv) 0) as [B|B];
  destruct (Rle_dec (cim muv * cim mv) 0) as [C|C]; destruct (Rle_dec (cim mv * cim m) 0) as [D|D];
    cbn [app] in H; try discriminate H; injection H as <- <-;
    try (apply Rnot_le_lt in A; specialize (N1 A)); try (apply Rnot_le_lt in B; specialize (N2 B));
    try (apply Rnot_le_lt in C; specialize (N3 C)); try (apply Rnot_le_lt in D; specialize (N4 D)).
  - assert (E : turnR m mu = turnR mu muv) by lia. assert (X1 : turnR m mu <> 0%Z) by lia. assert (X2 : turnR mu muv <> 0%Z) by lia.
    specialize (S1 X1). specialize (S2 X2). specialize (G1 S1). specialize (G2 S2). pose proof (turnR_same _ _ _ _ E S1 S2 G1 G2) as P.
    destruct (NODE _ _ S1) as (-> & K1 & Z1). destruct (NODE _ _ S2) as (-> & K2 & Z2).
    exists Eb, (cim m / (cim m - cim mu)), Er, (cim mu / (cim mu - cim muv)). cbn [ept eval fst snd]. do 4 (split; [first [reflexivity|assumption]|]). split; [|split; assumption].
    rewrite !value_at by (signs; lra). apply quot_neg; [exact P|]. signs. nra.
  - assert (E : turnR m mu = turnR muv mv) by lia. assert (X1 : turnR m mu <> 0%Z) by lia. assert (X2 : turnR muv mv <> 0%Z) by lia.
    specialize (S1 X1). specialize (S3 X2). specialize (G1 S1). specialize (G3 S3). pose proof (turnR_same _ _ _ _ E S1 S3 G1 G3) as P.
    destruct (NODE _ _ S1) as (-> & K1 & Z1). destruct (NODE (cim mv) (cim muv) ltac:(lra)) as (-> & K2 & Z2).
    exists Eb, (cim m / (cim m - cim mu)), Et, (cim mv / (cim mv - cim muv)). cbn [ept eval fst snd]. do 4 (split; [first [reflexivity|assumption]|]). split; [|split; assumption].
    rewrite value_at by (signs; lra). rewrite (value_back (cre muv) (cim muv) (cre mv) (cim mv)) by (signs; lra). apply quot_neg; [exact P|]. signs. nra.
  - assert (E : turnR m mu = turnR mv m) by lia. assert (X1 : turnR m mu <> 0%Z) by lia. assert (X2 : turnR mv m <> 0%Z) by lia.
    specialize (S1 X1). specialize (S4 X2). specialize (G1 S1). specialize (G4 S4). pose proof (turnR_same _ _ _ _ E S1 S4 G1 G4) as P.
    destruct (NODE _ _ S1) as (-> & K1 & Z1). destruct (NODE (cim m) (cim mv) ltac:(lra)) as (-> & K2 & Z2).
    exists Eb, (cim m / (cim m - cim mu)), El, (cim m / (cim m - cim mv)). cbn [ept eval fst snd]. do 4 (split; [first [reflexivity|assumption]|]). split; [|split; assumption].
    rewrite (value_at (cre m) (cim m) (cre mu)) by (signs; lra). rewrite (value_back (cre mv) (cim mv) (cre m) (cim m)) by (signs; lra). apply quot_neg; [exact P|]. signs. nra.
  - assert (E : turnR mu muv = turnR muv mv) by lia. assert (X1 : turnR mu muv <> 0%Z) by lia. assert (X2 : turnR muv mv <> 0%Z) by lia.
    specialize (S2 X1). specialize (S3 X2). specialize (G2 S2). specialize (G3 S3). pose proof (turnR_same _ _ _ _ E S2 S3 G2 G3) as P.
    destruct (NODE _ _ S2) as (-> & K1 & Z1). destruct (NODE (cim mv) (cim muv) ltac:(lra)) as (-> & K2 & Z2).
    exists Er, (cim mu / (cim mu - cim muv)), Et, (cim mv / (cim mv - cim muv)). cbn [ept eval fst snd]. do 4 (split; [first [reflexivity|assumption]|]). split; [|split; assumption].
    rewrite (value_at (cre mu) (cim mu) (cre muv)) by (signs; lra). rewrite (value_back (cre muv) (cim muv) (cre mv) (cim mv)) by (signs; lra). apply quot_neg; [exact P|]. signs. nra.
  - assert (E : turnR mu muv = turnR mv m) by lia. assert (X1 : turnR mu muv <> 0%Z) by lia. assert (X2 : turnR mv m <> 0%Z) by lia.
    specialize (S2 X1). specialize (S4 X2). specialize (G2 S2). specialize (G4 S4). pose proof (turnR_same _ _ _ _ E S2 S4 G2 G4) as P.
    destruct (NODE _ _ S2) as (-> & K1 & Z1). destruct (NODE (cim m) (cim mv) ltac:(lra)) as (-> & K2 & Z2).
    exists Er, (cim mu / (cim mu - cim muv)), El, (cim m / (cim m - cim mv)). cbn [ept eval fst snd]. do 4 (split; [first [reflexivity|assumption]|]). split; [|split; assumption].
    rewrite (value_at (cre mu) (cim mu) (cre muv)) by (signs; lra). rewrite (value_back (cre mv) (cim mv) (cre m) (cim m)) by (signs; lra). apply quot_neg; [exact P|]. signs. nra.
  - assert (E : turnR muv mv = turnR mv m) by lia. assert (X1 : turnR muv mv <> 0%Z) by lia. assert (X2 : turnR mv m <> 0%Z) by lia.
    specialize (S3 X1). specialize (S4 X2). specialize (G3 S3). specialize (G4 S4). pose proof (turnR_same _ _ _ _ E S3 S4 G3 G4) as P.
    destruct (NODE (cim mv) (cim muv) ltac:(lra)) as (-> & K1 & Z1). destruct (NODE (cim m) (cim mv) ltac:(lra)) as (-> & K2 & Z2).
    exists Et, (cim mv / (cim mv - cim muv)), El, (cim m / (cim m - cim mv)). cbn [ept eval fst snd]. do 4 (split; [first [reflexivity|assumption]|]). split; [|split; assumption].
    rewrite (value_back (cre muv) (cim muv) (cre mv) (cim mv)) by (signs; lra). rewrite (value_back (cre mv) (cim mv) (cre m) (cim m)) by (signs; lra). apply quot_neg; [exact P|]. signs. nra.
Qed.

(** ** The point of a plaquette *)
Lemma eval_zero p u v w e t : 0 <= t <= 1 -> eval p u v w e t = 0 -> zeroOnBorder p u v w (fst (ept e t)) (snd (ept e t)).
Proof. intros T H. destruct e; cbn [ept eval fst snd] in *; unfold zeroOnBorder; auto 6. Qed.
Lemma ept_range e t : 0 <= t <= 1 -> unitPair (fst (ept e t)) (snd (ept e t)).
Proof. intros T. destruct e; cbn [ept fst snd]; unfold unitPair; lra. Qed.
Lemma lineF_onLine x0 y0 x1 y1 x y : (x0 <> x1 \/ y0 <> y1) -> lineF x0 y0 x1 y1 x y = 0 -> onLine x0 y0 x1 y1 x y.
Proof. intros D H. split; [exact D|]. unfold lineF in H. lra. Qed.
Lemma between_unit a b k : 0 <= a <= 1 -> 0 <= b <= 1 -> 0 < k < 1 -> 0 <= a + k * (b - a) <= 1.
Proof. intros A B K. pose proof (mulnn (1 - k) a). pose proof (mulnn k b). pose proof (mulnn (1 - k) (1 - a)). pose proof (mulnn k (1 - b)). lra. Qed.

Definition strong (m mu mv muv : cpx) : Prop :=
  (forall a b, In (a, b) [(m, mu); (mu, muv); (muv, mv); (mv, m)] -> cim a * cim b < 0 -> crossR a b <> 0) /\
  (turnR m mu + turnR mu muv + turnR muv mv + turnR mv m = 2 \/ turnR m mu + turnR mu muv + turnR muv mv + turnR mv m = -2)%Z.
Lemma cross_two m mu mv muv n0 n1 i0 i1 : strong m mu mv muv ->
  nodes (cre m) (cre mu) (cre mv) (cre muv) = [n0; n1] -> nodes (cim m) (cim mu) (cim mv) (cim muv) = [i0; i1] ->
  exists x y, setCross m mu mv muv = Some (x, y) /\ unitPair x y /\
  exists x0 y0 x1 y1 s0 t0 s1 t1, zeroOnBorder (cre m) (cre mu) (cre mv) (cre muv) x0 y0 /\ zeroOnBorder (cre m) (cre mu) (cre mv) (cre muv) x1 y1 /\
    zeroOnBorder (cim m) (cim mu) (cim mv) (cim muv) s0 t0 /\ zeroOnBorder (cim m) (cim mu) (cim mv) (cim muv) s1 t1 /\
    onLine x0 y0 x1 y1 x y /\ onLine s0 t0 s1 t1 x y.
Proof.
  intros [G T] HR HI. destruct (im_nodes m mu mv muv i0 i1 G T HI) as (e1 & q1 & e2 & q2 & E1 & E2 & Q1 & Q2 & N & Z1 & Z2).
  destruct (re_nodes _ _ _ _ n0 n1 e1 q1 e2 q2 HR Q1 Q2 N) as (x0 & y0 & x1 & y1 & F1 & F2 & (s & S & SEP) & W0 & W1).
  set (s0 := fst (ept e1 q1)) in *. set (t0 := snd (ept e1 q1)) in *. set (s1 := fst (ept e2 q2)) in *. set (t1 := snd (ept e2 q2)) in *.
  assert (L : lineF x0 y0 x1 y1 s0 t0 * lineF x0 y0 x1 y1 s1 t1 < 0).
  { pose proof (SEP e1 q1 Q1) as P1. pose proof (SEP e2 q2 Q2) as P2. fold s0 t0 in P1. fold s1 t1 in P2.
    generalize dependent (eval (cre m) (cre mu) (cre mv) (cre muv) e1 q1). generalize dependent (eval (cre m) (cre mu) (cre mv) (cre muv) e2 q2).
    intros y P2 x N P1. specialize (P1 ltac:(intros ->; lra)). specialize (P2 ltac:(intros ->; lra)).
    generalize dependent (lineF x0 y0 x1 y1 s0 t0). generalize dependent (lineF x0 y0 x1 y1 s1 t1). intros g P2 f P1.
    pose proof (mulpos _ _ P1 P2) as P. replace (s * x * f * (s * y * g)) with ((s * s) * (- (x * y)) * (- (f * g))) in P by ring.
    pose proof (sqpos 1 s ltac:(lra) S). assert (0 < (s * s) * (- (x * y))) by (apply mulpos; lra).
    destruct (Rlt_le_dec (f * g) 0) as [O|O]; [exact O|]. exfalso. pose proof (mulnn _ _ (Rlt_le _ _ H0) O). lra. }
  destruct (meet_ok _ _ _ _ _ _ _ _ L) as (k & K & M & O & D1 & D2).
  exists (s0 + k * (s1 - s0)), (t0 + k * (t1 - t0)). split; [|split].
  - unfold setCross. rewrite HR, HI, F1, F2, E1, E2. cbn [bind]. exact M.
  - destruct (ept_range e1 q1 Q1) as [U1 U2]. destruct (ept_range e2 q2 Q2) as [U3 U4]. split; apply between_unit; assumption.
  - exists x0, y0, x1, y1, s0, t0, s1, t1. split; [exact W0|]. split; [exact W1|]. split; [apply eval_zero; assumption|]. split; [apply eval_zero; assumption|].
    split; [apply lineF_onLine; assumption|]. split; [exact D2|]. ring.
Qed.
Lemma cross_square m mu mv muv : strong m mu mv muv -> exists x y, setCross m mu mv muv = Some (x, y) /\ unitPair x y.
Proof.
  intros H. destruct (nodes (cre m) (cre mu) (cre mv) (cre muv)) as [|n0 [|n1 [|n2 l]]] eqn:HR;
    try (exists (/ 2), (/ 2); split; [unfold setCross; rewrite HR; try destruct n0; try destruct n1; try destruct n2; reflexivity|unfold unitPair; lra]).
  destruct (nodes (cim m) (cim mu) (cim mv) (cim muv)) as [|i0 [|i1 [|i2 l]]] eqn:HI.
  1, 2, 4: exists (/ 2), (/ 2); split; [unfold setCross; rewrite HR, HI; destruct n0, n1; try destruct i0; try destruct i1; reflexivity|unfold unitPair; lra].
  destruct (cross_two _ _ _ _ _ _ _ _ H HR HI) as (x & y & A & B & _). eauto.
Qed.

(** ** Fields linear in the square *)
Lemma linear_zero p u v w x y : p + w = u + v -> zeroOnBorder p u v w x y -> p + x * (u - p) + y * (v - p) = 0.
Proof.
  intros L H. assert (E : w = u + v - p) by lra. subst w. destruct H as [(-> & _ & H)|[(-> & _ & H)|[(-> & _ & H)|(-> & _ & H)]]]; (etransitivity; [|exact H]); ring.
Qed.
Lemma linear_line p b c x0 y0 x1 y1 x y : p + x0 * b + y0 * c = 0 -> p + x1 * b + y1 * c = 0 -> onLine x0 y0 x1 y1 x y -> p + x * b + y * c = 0.
Proof.
  intros A B [D L]. assert (E : (x1 - x0) * b + (y1 - y0) * c = 0) by lra.
  assert (G : (x - x0) * b + (y - y0) * c = 0); [|lra].
  destruct D as [D|D].
  - apply Rmult_eq_reg_r with (x1 - x0); [|lra]. rewrite Rmult_0_l.
    replace (((x - x0) * b + (y - y0) * c) * (x1 - x0)) with ((x - x0) * ((x1 - x0) * b) + (y - y0) * (x1 - x0) * c) by ring.
    rewrite <- L. replace ((x - x0) * ((x1 - x0) * b) + (x - x0) * (y1 - y0) * c) with ((x - x0) * ((x1 - x0) * b + (y1 - y0) * c)) by ring. rewrite E. ring.
  - apply Rmult_eq_reg_r with (y1 - y0); [|lra]. rewrite Rmult_0_l.
    replace (((x - x0) * b + (y - y0) * c) * (y1 - y0)) with ((x - x0) * (y1 - y0) * b + (y - y0) * ((y1 - y0) * c)) by ring.
    rewrite L. replace ((y - y0) * (x1 - x0) * b + (y - y0) * ((y1 - y0) * c)) with ((y - y0) * ((x1 - x0) * b + (y1 - y0) * c)) by ring. rewrite E. ring.
Qed.
Definition allSame (p u v w : R) : Prop := 0 < p * u /\ 0 < u * w /\ 0 < w * v /\ 0 < v * p.
Lemma linear_nodes p u v w : p <> 0 -> u <> 0 -> v <> 0 -> w <> 0 -> p + w = u + v -> allSame p u v w \/ exists n0 n1, nodes p u v w = [n0; n1].
Proof.
  intros P U V W L. unfold nodes, allSame.
  destruct (Rle_dec (p * u) 0) as [A|A]; destruct (Rle_dec (u * w) 0) as [B|B]; destruct (Rle_dec (w * v) 0) as [C|C]; destruct (Rle_dec (v * p) 0) as [D|D];
    cbn [app]; try (right; do 2 eexists; reflexivity); try apply Rnot_le_lt in A; try apply Rnot_le_lt in B; try apply Rnot_le_lt in C; try apply Rnot_le_lt in D;
    try (left; repeat split; assumption); exfalso;
    destruct (Rdichotomy _ _ P); destruct (Rdichotomy _ _ U); destruct (Rdichotomy _ _ V); destruct (Rdichotomy _ _ W); try lra; nra.
Qed.
Lemma cross_linear m mu mv muv : strong m mu mv muv ->
  cre m <> 0 -> cre mu <> 0 -> cre mv <> 0 -> cre muv <> 0 -> cim m <> 0 -> cim mu <> 0 -> cim mv <> 0 -> cim muv <> 0 ->
  cre m + cre muv = cre mu + cre mv -> cim m + cim muv = cim mu + cim mv ->
  exists x y, setCross m mu mv muv = Some (x, y) /\ unitPair x y /\
    cre m + x * (cre mu - cre m) + y * (cre mv - cre m) = 0 /\ cim m + x * (cim mu - cim m) + y * (cim mv - cim m) = 0.
Proof.
  intros S A1 A2 A3 A4 B1 B2 B3 B4 LA LB.
  destruct (linear_nodes _ _ _ _ B1 B2 B3 B4 LB) as [K|(i0 & i1 & HI)].
  { exfalso. destruct S as [_ T]. destruct K as (K1 & K2 & K3 & K4). rewrite !turnR_none in T by assumption. lia. }
  destruct (linear_nodes _ _ _ _ A1 A2 A3 A4 LA) as [K|(n0 & n1 & HR)].
  { exfalso. destruct S as [G T]. destruct (im_nodes _ _ _ _ i0 i1 G T HI) as (e1 & q1 & e2 & q2 & _ & _ & Q1 & Q2 & N & _).
    destruct K as (K1 & K2 & K3 & K4). eapply (no_opposite (cre m)); [| | | |exact Q1|exact Q2|exact A1|exact N]; signs; nra. }
  destruct (cross_two _ _ _ _ _ _ _ _ S HR HI) as (x & y & E & U & x0 & y0 & x1 & y1 & s0 & t0 & s1 & t1 & Z1 & Z2 & Z3 & Z4 & L1 & L2).
  exists x, y. split; [exact E|]. split; [exact U|]. split.
  - apply (linear_line _ _ _ x0 y0 x1 y1); auto; eapply linear_zero; eauto.
  - apply (linear_line _ _ _ s0 t0 s1 t1); auto; eapply linear_zero; eauto.
Qed.

(** ** From rational fields *)
Lemma Q2R_lt0 a : (a < 0)%Q <-> Q2R a < 0.
Proof. rewrite <- RMicromega.Q2R_0. split; [apply Qlt_Rlt|apply Rlt_Qlt]. Qed.
Lemma Q2R_gt0 a : (0 < a)%Q <-> 0 < Q2R a.
Proof. rewrite <- RMicromega.Q2R_0. split; [apply Qlt_Rlt|apply Rlt_Qlt]. Qed.
Lemma Q2R_eq0 a : (a == 0)%Q <-> Q2R a = 0.
Proof. rewrite <- RMicromega.Q2R_0. split; [apply Qeq_eqR|apply eqR_Qeq]. Qed.
Lemma crossR_toC a b : crossR (toC a) (toC b) = Q2R (im a * re b - re a * im b).
Proof. unfold crossR, toC. cbn [cre cim]. rewrite Q2R_minus, !Q2R_mult. reflexivity. Qed.
Lemma imR_toC a b : cim (toC a) * cim (toC b) = Q2R (im a * im b).
Proof. unfold toC. cbn [cim]. rewrite Q2R_mult. reflexivity. Qed.
Lemma turn_toC a b : turn a b = turnR (toC a) (toC b).
Proof.
  unfold turn, turnR. rewrite imR_toC, crossR_toC. unfold Qltb.
  destruct (Qlt_le_dec (im a * im b) 0) as [A|A]; destruct (Rlt_dec (Q2R (im a * im b)) 0) as [B|B]; try reflexivity.
  2: { exfalso. apply B, Q2R_lt0, A. } 2: { exfalso. apply Q2R_lt0 in B. apply (Qlt_not_le _ _ B A). }
  destruct (Qlt_le_dec 0 (im a * re b - re a * im b)) as [C|C]; destruct (Rlt_dec 0 (Q2R (im a * re b - re a * im b))) as [D|D]; try reflexivity.
  - exfalso. apply D, Q2R_gt0, C.
  - exfalso. apply Q2R_gt0 in D. apply (Qlt_not_le _ _ D C).
Qed.
Lemma strong_toC a b c d : notOpposite a b -> notOpposite b c -> notOpposite c d -> notOpposite d a ->
  (turns a b c d = 2 \/ turns a b c d = -2)%Z -> strong (toC a) (toC b) (toC d) (toC c).
Proof.
  intros A B C D T. split; [|unfold turns in T; rewrite !turn_toC in T; exact T].
  assert (K : forall x y, notOpposite x y -> cim (toC x) * cim (toC y) < 0 -> crossR (toC x) (toC y) <> 0).
  { intros x y N H Z. apply N. rewrite imR_toC in H. rewrite crossR_toC in Z. split; [apply Q2R_eq0, Z|apply Q2R_lt0, H]. }
  intros x y H. cbn [In] in H. destruct H as [H|[H|[H|[H|[]]]]]; injection H as <- <-; auto.
Qed.

(** ** Lengths *)
Lemma dist_euclid a b : dist a b = euclid a b.
Proof. unfold dist, euclid, Rsqr. f_equal. ring. Qed.
Lemma euclid_pos a b : 0 <= euclid a b. Proof. apply sqrt_pos. Qed.
Lemma euclid_strict a b : a <> b -> 0 < euclid a b.
Proof.
  intros N. apply sqrt_lt_R0. pose proof (Rle_0_sqr (px a - px b)) as X. pose proof (Rle_0_sqr (py a - py b)) as Y. pose proof (Rle_0_sqr (pz a - pz b)) as Z.
  destruct (Req_EM_T (px a - px b) 0) as [A|A]; [|pose proof (Rlt_0_sqr _ A); lra].
  destruct (Req_EM_T (py a - py b) 0) as [B|B]; [|pose proof (Rlt_0_sqr _ B); lra].
  destruct (Req_EM_T (pz a - pz b) 0) as [C|C]; [|pose proof (Rlt_0_sqr _ C); lra].
  exfalso. apply N. destruct a, b. cbn in *. f_equal; lra.
Qed.
Lemma mean2 a b : meanLength [a; b] = euclid a b.
Proof. unfold meanLength, pairings. cbn. field. Qed.
Lemma mean4 a b c d : meanLength [a; b; c; d] = ((euclid a b + euclid c d) + (euclid a c + euclid b d) + (euclid a d + euclid b c)) / 3.
Proof. unfold meanLength, pairings. cbn. field. Qed.

Lemma rsum_app l l' : rsum (l ++ l') = rsum l + rsum l'.
Proof. unfold rsum. induction l as [|x l IH]; cbn [fold_right app]; [ring|rewrite IH; ring]. Qed.
Lemma rsum_flat {A} (f : A -> list R) l : rsum (flat_map f l) = rsum (map (fun a => rsum (f a)) l).
Proof. induction l as [|x l IH]; [reflexivity|]. cbn [flat_map map]. rewrite rsum_app, IH. reflexivity. Qed.
Lemma osum_some l : osum (map Some l) = Some (rsum l).
Proof. induction l as [|x l IH]; [reflexivity|]. cbn [map osum fold_right]. fold (osum (map Some l)). rewrite IH. reflexivity. Qed.
Lemma flat_some {A} (f : A -> list (option R)) (g : A -> list R) l : (forall a, In a l -> f a = map Some (g a)) -> flat_map f l = map Some (flat_map g l).
Proof. intros H. induction l as [|x l IH]; [reflexivity|]. cbn [flat_map]. rewrite map_app, H by (left; reflexivity). f_equal. apply IH. intros a I. apply H. right. exact I. Qed.
Lemma rsum_const {A} c (l : list A) : rsum (map (fun _ => c) l) = INR (length l) * c.
Proof. induction l as [|x l IH]; [cbn; ring|]. cbn [map length]. rewrite S_INR. unfold rsum in *. cbn [fold_right]. rewrite IH. ring. Qed.
