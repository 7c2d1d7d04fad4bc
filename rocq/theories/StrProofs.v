(** Lemmas for the string claims. *)
From Coq Require Import List Arith ZArith QArith Lia Lqa Permutation.
From Verif Require Import Base FolderModel FolderSpec KernelModel KernelSpec StrModel StrSpec.
Import ListNotations.
Local Open Scope nat_scope.
Ltac Zify.zify_post_hook ::= idtac.

Lemma Qltb_iff : forall a b, Qltb a b = true <-> (a < b)%Q.
Proof. intros a b. unfold Qltb. destruct (Qlt_le_dec a b); split; intros H; try easy. exfalso; lra. Qed.
Lemma Qltb_false : forall a b, Qltb a b = false <-> (b <= a)%Q.
Proof. intros a b. unfold Qltb. destruct (Qlt_le_dec a b); split; intros H; try easy. exfalso; lra. Qed.
Lemma Qltb_comp : forall a a' b b', (a == a')%Q -> (b == b')%Q -> Qltb a b = Qltb a' b'.
Proof.
  intros a a' b b' E1 E2. apply Bool.eq_iff_eq_true. rewrite !Qltb_iff, E1, E2. reflexivity.
Qed.

(** ** Registers *)
(** register r holds f 0, f 1, ... in its first w complex lanes *)
Definition holds (w : nat) (r : reg) (f : nat -> cplx) : Prop :=
  forall k, k < w -> r (2 * k) = re (f k) /\ r (2 * k + 1) = im (f k).

Lemma even_2k : forall k, Nat.even (2 * k) = true.
Proof. intros k. rewrite Nat.even_mul. reflexivity. Qed.
Lemma even_2k1 : forall k, Nat.even (2 * k + 1) = false.
Proof. intros k. rewrite Nat.even_add, even_2k. reflexivity. Qed.
Lemma half_2k : forall k, 2 * k / 2 = k.
Proof. intros k. rewrite Nat.mul_comm. apply Nat.div_mul. lia. Qed.
Lemma half_2k1 : forall k, (2 * k + 1) / 2 = k.
Proof. intros k. symmetry. apply Nat.div_unique with 1; lia. Qed.

Lemma load_holds : forall w m idx, holds w (load m idx) (fun k => m (idx + k)).
Proof.
  intros w m idx k Hk. unfold load. rewrite even_2k, even_2k1, half_2k, half_2k1. auto.
Qed.
Lemma holds_ext : forall w r f f', holds w r f -> (forall k, k < w -> f k = f' k) -> holds w r f'.
Proof. intros w r f f' H E k Hk. rewrite <- E by assumption. now apply H. Qed.

Lemma signs_holds : forall w r1 r2 f1 f2 k, holds w r1 f1 -> holds w r2 f2 -> k < w ->
  signs r1 r2 (2 * k + 1) = Qltb (im (f1 k) * im (f2 k)) 0.
Proof.
  intros w r1 r2 f1 f2 k H1 H2 Hk. unfold signs, rmul.
  rewrite (proj2 (H1 k Hk)), (proj2 (H2 k Hk)). reflexivity.
Qed.
Lemma cross_holds : forall w r1 r2 f1 f2 k, holds w r1 f1 -> holds w r2 f2 -> k < w ->
  (crossReg r1 r2 (2 * k + 1)%nat == im (f1 k) * re (f2 k) - re (f1 k) * im (f2 k))%Q.
Proof.
  intros w r1 r2 f1 f2 k H1 H2 Hk. destruct (H1 k Hk) as [A1 A2]. destruct (H2 k Hk) as [B1 B2].
  unfold crossReg, radd, rswap, rmul, rconj.
  replace (pred (2 * k + 1)) with (2 * k) by lia.
  replace (S (2 * k)) with (2 * k + 1) by lia. rewrite ?even_2k1, ?even_2k.
  rewrite A1, A2, B1, B2. ring.
Qed.
Lemma hand_holds : forall w r1 r2 f1 f2 h k, holds w r1 f1 -> holds w r2 f2 -> k < w ->
  stringHandV r1 r2 h k = (h k + turn (f1 k) (f2 k))%Z.
Proof.
  intros w r1 r2 f1 f2 h k H1 H2 Hk. unfold stringHandV, turn. f_equal.
  rewrite (signs_holds w r1 r2 f1 f2 k H1 H2 Hk).
  rewrite (Qltb_comp 0 0 _ _ (Qeq_refl _) (cross_holds w r1 r2 f1 f2 k H1 H2 Hk)). reflexivity.
Qed.
Definition wallb (a b : cplx) : bool :=
  Qltb ((im a * re b - re a * im b) * (im a - im b)) 0 && Qltb (im a * im b) 0.
Lemma wall_holds : forall w r1 r2 f1 f2 h k, holds w r1 f1 -> holds w r2 f2 -> k < w ->
  wallV r1 r2 h k = (h k || wallb (f1 k) (f2 k)).
Proof.
  intros w r1 r2 f1 f2 h k H1 H2 Hk. unfold wallV, wallb. f_equal.
  rewrite (signs_holds w r1 r2 f1 f2 k H1 H2 Hk). f_equal.
  apply Qltb_comp; [ | reflexivity ]. unfold rmul at 1. unfold rsub.
  rewrite (cross_holds w r1 r2 f1 f2 k H1 H2 Hk), (proj2 (H1 k Hk)), (proj2 (H2 k Hk)). reflexivity.
Qed.

(** The lanes of the last row take the next lane of row 0, in all builds but one. *)
Lemma wrap_lanes : forall b r i, b <> AVX512d -> i < 2 * lanes b -> wrap b r i = r ((i + 2) mod (2 * lanes b)).
Proof.
  intros b r i Hb Hi. destruct b; [ congruence | .. ]; cbn [lanes] in Hi |- *;
  (repeat (destruct i as [ | i ]; [ reflexivity | ])); exfalso; lia.
Qed.
Lemma wrap_holds : forall b r f, b <> AVX512d -> holds (lanes b) r f ->
  holds (lanes b) (wrap b r) (fun k => f ((k + 1) mod lanes b)).
Proof.
  intros b r f Hb H k Hk.
  assert (Hl : lanes b <> 0) by (destruct b; cbn; lia).
  rewrite !wrap_lanes by (assumption || lia).
  set (w := lanes b) in *. pose proof (Nat.mod_upper_bound (k + 1) w Hl) as Hm.
  assert (E1 : (2 * k + 2) mod (2 * w) = 2 * ((k + 1) mod w)).
  { replace (2 * k + 2) with (2 * (k + 1)) by lia. apply Nat.mul_mod_distr_l; lia. }
  assert (E2 : (2 * k + 1 + 2) mod (2 * w) = 2 * ((k + 1) mod w) + 1).
  { destruct (Nat.eq_dec (k + 1) w) as [E | E].
    - rewrite E, Nat.mod_same by lia. replace (2 * k + 1 + 2) with (1 + 1 * (2 * w)) by lia.
      rewrite Nat.mod_add by lia. rewrite Nat.mod_small by lia. lia.
    - rewrite (Nat.mod_small (k + 1)) by lia. rewrite Nat.mod_small by lia. lia. }
  rewrite E1, E2. now apply H.
Qed.

(** ** Events: marks left on the map *)
Definition applyEv (mp : nat -> Z) (evs : list (nat * Z)) : nat -> Z :=
  fold_left (fun mp e => orAt mp (fst e) (snd e)) evs mp.
Definition at_ (p : nat) (e : nat * Z) : bool := fst e =? p.

Lemma applyEv_app : forall mp a b, applyEv mp (a ++ b) = applyEv (applyEv mp a) b.
Proof. intros. apply fold_left_app. Qed.
Lemma applyEv_at : forall evs mp p, applyEv mp evs p = fold_left Z.lor (map snd (filter (at_ p) evs)) (mp p).
Proof.
  induction evs as [ | e evs IH ]; intros mp p; [ reflexivity | ].
  cbn [applyEv fold_left filter]. fold (applyEv (orAt mp (fst e) (snd e)) evs). rewrite IH.
  unfold at_ at 2, orAt. rewrite (Nat.eqb_sym p). destruct (fst e =? p); reflexivity.
Qed.
Lemma lor_perm : forall l l', Permutation l l' -> forall a, fold_left Z.lor l a = fold_left Z.lor l' a.
Proof.
  intros l l' P. induction P as [ | x l l' P IH | x y l | l m k P1 IH1 P2 IH2 ]; intros a; cbn [fold_left].
  - reflexivity.
  - apply IH.
  - f_equal. rewrite <- !Z.lor_assoc. f_equal. apply Z.lor_comm.
  - now rewrite IH1.
Qed.
Lemma filter_perm : forall (A : Type) (f : A -> bool) l l', Permutation l l' -> Permutation (filter f l) (filter f l').
Proof.
  intros A f l l' P. induction P as [ | x l l' P IH | x y l | l m k P1 IH1 P2 IH2 ]; cbn [filter].
  - constructor.
  - destruct (f x); [ now constructor | assumption ].
  - destruct (f x), (f y); try apply Permutation_refl. constructor.
  - eapply Permutation_trans; eassumption.
Qed.
Lemma applyEv_perm : forall evs evs' mp p, Permutation evs evs' -> applyEv mp evs p = applyEv mp evs' p.
Proof.
  intros evs evs' mp p P. rewrite !applyEv_at. apply lor_perm, Permutation_map, filter_perm, P.
Qed.
Lemma flat_map_perm2 : forall (A B : Type) (f g : A -> list B) l,
  Permutation (flat_map f l ++ flat_map g l) (flat_map (fun x => f x ++ g x) l).
Proof.
  intros A B f g l. induction l as [ | x l IH ]; cbn [flat_map]; [ constructor | ].
  rewrite <- !app_assoc. apply Permutation_app_head.
  transitivity (g x ++ flat_map f l ++ flat_map g l).
  - rewrite !app_assoc. apply Permutation_app_tail, Permutation_app_comm.
  - apply Permutation_app_head, IH.
Qed.
Lemma flat_map_perm_ext : forall (A B : Type) (f g : A -> list B) l,
  (forall x, In x l -> Permutation (f x) (g x)) -> Permutation (flat_map f l) (flat_map g l).
Proof.
  intros A B f g l. induction l as [ | x l IH ]; intros H; cbn [flat_map]; [ constructor | ].
  apply Permutation_app; [ apply H; now left | apply IH; intros; apply H; now right ].
Qed.
Lemma flat_map_perm_l : forall (A B : Type) (f : A -> list B) l l', Permutation l l' -> Permutation (flat_map f l) (flat_map f l').
Proof.
  intros A B f l l' P. induction P as [ | x l l' P IH | x y l | l m k P1 IH1 P2 IH2 ]; cbn [flat_map].
  - constructor.
  - now apply Permutation_app_head.
  - rewrite !app_assoc. apply Permutation_app_tail, Permutation_app_comm.
  - eapply Permutation_trans; eassumption.
Qed.
(** Only the events of q are at p. *)
Lemma filter_none : forall (A : Type) (f : A -> bool) l, (forall x, In x l -> f x = false) -> filter f l = [].
Proof.
  intros A f l. induction l as [ | x l IH ]; intros H; [ reflexivity | ].
  cbn [filter]. rewrite H by now left. apply IH. intros; apply H; now right.
Qed.
Lemma select : forall (A : Type) (ev : A -> list (nat * Z)) l q p, NoDup l -> In q l ->
  (forall q' e, In q' l -> q' <> q -> In e (ev q') -> fst e <> p) ->
  filter (at_ p) (flat_map ev l) = filter (at_ p) (ev q).
Proof.
  intros A ev l q p. induction l as [ | x l IH ]; intros N Hq H; [ destruct Hq | ].
  apply NoDup_cons_iff in N as [N1 N2]. cbn [flat_map]. rewrite filter_app.
  destruct Hq as [-> | Hq].
  - rewrite (filter_none _ _ (flat_map ev l)); [ apply app_nil_r | ].
    intros e He. apply in_flat_map in He as (q' & Hq' & He). apply Nat.eqb_neq.
    apply (H q' e); [ now right | intros ->; contradiction | exact He ].
  - rewrite (filter_none _ _ (ev x)).
    + cbn [app]. apply IH; [ assumption | assumption | ]. intros q' e Hq' Hn He. apply (H q' e); [ now right | assumption | assumption ].
    + intros e He. apply Nat.eqb_neq. apply (H x e); [ now left | intros ->; contradiction | exact He ].
Qed.

(** ** One block as events and counts *)
Definition handEv (pos neg : Z) (h : Z) (p : nat) : list (nat * Z) :=
  if (h =? 2)%Z then [(p, pos)] else if (h =? -2)%Z then [(p, neg)] else [].
Definition wallEv (wl : bool) (p : nat) : list (nat * Z) := if wl then [(p, WALL)] else [].
Definition nHand (h : Z) : Z := (isTwo h + isMinusTwo h)%Z.
Definition cHand (h : Z) : Z := (isTwo h - isMinusTwo h)%Z.

Definition after (st : sdata) (evs : list (nat * Z)) (a b c : Z) : sdata :=
  SD (applyEv (smap st) evs) (nStr st + a) (nChr st + b) (nWll st + c).

Lemma markLane_ev : forall pos neg hand tIdx st ih,
  markLane pos neg hand tIdx st ih = after st (handEv pos neg (hand ih) (tIdx ih)) (nHand (hand ih)) (cHand (hand ih)) 0.
Proof.
  intros. unfold markLane, after, handEv, nHand, cHand, isTwo, isMinusTwo.
  destruct (Z.eqb_spec (hand ih) 2) as [-> | H2]; [ destruct st; cbn; f_equal; lia | ].
  destruct (Z.eqb_spec (hand ih) (-2)) as [H3 | H3]; destruct st; cbn; f_equal; lia.
Qed.
Lemma markWall_ev : forall wl tIdx st ih,
  markWall wl tIdx st ih = after st (wallEv (wl ih) (tIdx ih)) 0 0 (b2z (wl ih)).
Proof. intros. unfold markWall, after, wallEv, b2z. destruct (wl ih), st; cbn; f_equal; lia. Qed.
Lemma after_after : forall st e1 a1 b1 c1 e2 a2 b2 c2,
  after (after st e1 a1 b1 c1) e2 a2 b2 c2 = after st (e1 ++ e2) (a1 + a2) (b1 + b2) (c1 + c2).
Proof. intros. unfold after. cbn [smap nStr nChr nWll]. rewrite applyEv_app. f_equal; lia. Qed.

Lemma after_nil : forall st, st = after st [] 0 0 0.
Proof. intros [mp a b c]. unfold after. cbn. f_equal; lia. Qed.

Definition lsum (A : Type) (f : A -> Z) (l : list A) : Z := fold_right Z.add 0%Z (map f l).
Arguments lsum {A}.
Lemma lsum_cons : forall (A : Type) (f : A -> Z) x l, lsum f (x :: l) = (f x + lsum f l)%Z.
Proof. reflexivity. Qed.
Lemma lsum_plus : forall (A : Type) (f g : A -> Z) l, lsum (fun x => f x + g x)%Z l = (lsum f l + lsum g l)%Z.
Proof. intros. induction l as [ | x l IH ]; [ reflexivity | ]. rewrite !lsum_cons, IH. lia. Qed.
Lemma lsum_ext : forall (A : Type) (f g : A -> Z) l, (forall x, In x l -> f x = g x) -> lsum f l = lsum g l.
Proof.
  intros A f g l. induction l as [ | x l IH ]; intros H; [ reflexivity | ].
  rewrite !lsum_cons, IH by (intros; apply H; now right). rewrite H by now left. reflexivity.
Qed.
Lemma lsum_perm : forall (A : Type) (f : A -> Z) l l', Permutation l l' -> lsum f l = lsum f l'.
Proof.
  intros A f l l' P. induction P; rewrite ?lsum_cons; lia.
Qed.
Lemma lsum_zero : forall (A : Type) (l : list A), lsum (fun _ => 0%Z) l = 0%Z.
Proof. intros. induction l as [ | x l IH ]; [ reflexivity | ]. now rewrite lsum_cons, IH. Qed.
Lemma lsum_map : forall (A B : Type) (h : B -> A) (f : A -> Z) l, lsum f (map h l) = lsum (fun x => f (h x)) l.
Proof. intros. unfold lsum. now rewrite map_map. Qed.
Lemma lsum_app : forall (A : Type) (f : A -> Z) l l', lsum f (l ++ l') = (lsum f l + lsum f l')%Z.
Proof. intros. induction l as [ | x l IH ]; [ reflexivity | ]. cbn [app]. rewrite !lsum_cons, IH. lia. Qed.
Lemma lsum_flat_map : forall (A B : Type) (h : B -> list A) (f : A -> Z) l, lsum f (flat_map h l) = lsum (fun x => lsum f (h x)) l.
Proof. intros. induction l as [ | x l IH ]; [ reflexivity | ]. cbn [flat_map]. now rewrite lsum_app, lsum_cons, IH. Qed.

Lemma fold_ev : forall (A : Type) (body : sdata -> A -> sdata) (ev : A -> list (nat * Z)) (a b c : A -> Z),
  (forall st x, body st x = after st (ev x) (a x) (b x) (c x)) ->
  forall l st, fold_left body l st = after st (flat_map ev l) (lsum a l) (lsum b l) (lsum c l).
Proof.
  intros A body ev a b c H. induction l as [ | x l IH ]; intros st.
  - apply after_nil.
  - cbn [fold_left flat_map]. rewrite IH, H, after_after, !lsum_cons. reflexivity.
Qed.

Lemma ar_col : forall x L w, x < L -> x * w + w <= L * w.
Proof. intros. nia. Qed.
Lemma ar_last : forall x L w, x < L -> x = L - 1 -> x * w = L * w - w.
Proof. intros. subst. nia. Qed.
Lemma ar_nlast : forall x L w, 0 < w -> x < L -> x <> L - 1 -> x * w + w < L * w.
Proof. intros. nia. Qed.
Lemma ar_le : forall z S, 0 < z -> S <= z * S.
Proof. intros. nia. Qed.
Lemma addresses : forall L w YC XC x r z, 0 < w -> XC = L * w -> L * L = YC * XC -> x < L -> r < YC -> 0 < z ->
  let A x r z := z * (L * L) + r * XC + x * w in
  let lastX := x =? L - 1 in let lastY := r =? YC - 1 in
  let x' := if lastX then 0 else x + 1 in let r' := if lastY then 0 else r + 1 in
  (x * w =? XC - w) = lastX /\
  (if lastX then A x r z - XC + w else A x r z + w) = A x' r z /\
  (if lastY then A x r z - L * L + XC else A x r z + XC) = A x r' z /\
  A x r z + L * L = A x r (z + 1) /\
  (if lastY then (if lastX then A x r z - L * L + w else A x r z - L * L + XC + w)
   else (if lastX then A x r z + w else A x r z + XC + w)) = A x' r' z /\
  (if lastY then A x r z + XC else A x r z + L * L + XC) = A x r' (z + 1) /\
  (if lastX then A x r z + L * L - XC + w else A x r z + L * L + w) = A x' r (z + 1).
Proof.
  intros L w YC XC x r z Hw HXC HS Hx Hr Hz A lastX lastY x' r'.
  assert (Hxw := ar_col x L w Hx). rewrite <- HXC in Hxw.
  assert (Hzz := ar_le z (L * L) Hz).
  assert (Hrr := ar_col r YC XC Hr). rewrite <- HS in Hrr.
  assert (Hxl := ar_last x L w Hx). rewrite <- HXC in Hxl.
  assert (Hxn := ar_nlast x L w Hw Hx). rewrite <- HXC in Hxn.
  assert (Hrl := ar_last r YC XC Hr). rewrite <- HS in Hrl.
  unfold x', r', lastX, lastY, A.
  assert (E1 : (z + 1) * (L * L) = z * (L * L) + L * L) by lia.
  assert (E2 : (r + 1) * XC = r * XC + XC) by lia.
  assert (E3 : (x + 1) * w = x * w + w) by lia.
  rewrite E1. clear E1 HS HXC A lastX lastY x' r' Hz.
  destruct (Nat.eqb_spec x (L - 1)) as [Ex | Ex]; [ specialize (Hxl Ex) | specialize (Hxn Ex) ];
  (destruct (Nat.eqb_spec r (YC - 1)) as [Er | Er]; [ specialize (Hrl Er) | ]);
  rewrite ?E2, ?E3, ?Nat.mul_0_l; clear E2 E3;
  generalize dependent (x * w); generalize dependent (r * XC); generalize dependent (z * (L * L)); generalize dependent (L * L);
  intros; repeat split; try lia;
  try (apply Nat.eqb_eq; lia); try (apply Nat.eqb_neq; lia).
Qed.
Lemma fold_ev_in : forall (A : Type) (body : sdata -> A -> sdata) (ev : A -> list (nat * Z)) (a b c : A -> Z) l,
  (forall st x, In x l -> body st x = after st (ev x) (a x) (b x) (c x)) ->
  forall st, fold_left body l st = after st (flat_map ev l) (lsum a l) (lsum b l) (lsum c l).
Proof.
  intros A body ev a b c. induction l as [ | x l IH ]; intros H st.
  - apply after_nil.
  - cbn [fold_left flat_map]. rewrite IH by (intros; apply H; now right). rewrite H by now left.
    rewrite after_after, !lsum_cons. reflexivity.
Qed.
Lemma sum_split : forall (f : nat -> Z) A B,
  lsum f (seq 0 (A * B)) = lsum (fun a => lsum (fun b => f (a * B + b)) (seq 0 B)) (seq 0 A).
Proof.
  intros f A B. induction A as [ | A IH ]; [ reflexivity | ].
  rewrite seq_S, lsum_app, <- IH. replace (S A * B) with (A * B + B) by lia.
  rewrite seq_app, lsum_app. f_equal. cbn [plus].
  rewrite lsum_cons. change (lsum _ []) with 0%Z. rewrite Z.add_0_r.
  rewrite <- (lsum_map _ _ (fun b => A * B + b) f). f_equal.
  replace (A * B) with (A * B + 0) at 1 by lia. apply seq_add_map.
Qed.
Lemma sum_swap : forall (A B : Type) (f : A -> B -> Z) la lb,
  lsum (fun a => lsum (fun b => f a b) lb) la = lsum (fun b => lsum (fun a => f a b) la) lb.
Proof.
  intros A B f la lb. induction la as [ | a la IH ].
  - cbn. now rewrite lsum_zero.
  - rewrite lsum_cons, IH, <- lsum_plus. apply lsum_ext. intros b _. now rewrite lsum_cons.
Qed.
(** Where the site of lane k of a block lies: storage slice z, row r + k * YC. *)
Section block.
Variable (b : isa) (g : geom) (m : nat -> cplx).
Hypothesis (Hb : b <> AVX512d) (Hw : g_w g = lanes b) (H1 : 0 < g_n1 g) (Hd : g_n1 g mod g_w g = 0).
Let L := g_n1 g.
Let w := lanes b.
Let YC := L / w.
Let XC := L * w.
Let phi := fieldAt g m.

Lemma w_pos : 0 < w.
Proof. unfold w. destruct b; cbn; lia. Qed.
Lemma L_YC : L = YC * w.
Proof.
  unfold YC. pose proof (Nat.div_mod L w ltac:(pose proof w_pos; lia)) as D.
  unfold L, w in *. rewrite <- Hw in *. rewrite Hd in D. lia.
Qed.
Lemma YC_pos : 0 < YC.
Proof. pose proof L_YC. pose proof w_pos. unfold L in *. destruct YC; lia. Qed.
Lemma Sf_eq : L * L = YC * XC.
Proof. unfold XC. rewrite L_YC at 1. lia. Qed.

(** address of lane 0 of the block *)
Definition addr (x r z : nat) : nat := z * (L * L) + r * XC + x * w.

Lemma cell_addr : forall x r z k, x < L -> r < YC -> k < w -> cell g x (r + k * YC) z = addr x r z + k.
Proof.
  intros x r z k Hx Hr Hk. unfold cell, vector_pos, addr, g_n2. rewrite Hw. fold L w YC.
  assert (E1 : (r + k * YC) mod YC = r) by (rewrite Nat.mod_add by lia; now apply Nat.mod_small).
  assert (E2 : (r + k * YC) / YC = k) by (rewrite Nat.div_add by lia; rewrite Nat.div_small by assumption; lia).
  rewrite E1, E2. fold XC. lia.
Qed.
Lemma lane_row : forall r k, r < YC -> k < w -> r + k * YC < L.
Proof.
  intros r k Hr Hk. rewrite L_YC. assert (k * YC + YC <= w * YC) by nia. lia.
Qed.
Lemma load_row : forall x r z, x < L -> r < YC ->
  holds w (load m (addr x r z)) (fun k => phi x (r + k * YC) z).
Proof.
  intros x r z Hx Hr. eapply holds_ext; [ apply load_holds | ]. intros k Hk. cbv beta.
  unfold phi, fieldAt. fold L. rewrite !Nat.mod_small by (assumption || now apply lane_row).
  now rewrite cell_addr.
Qed.
(** the next column *)
Lemma next_col : forall x z y, x < L -> phi (x + 1) y z = phi (if x =? L - 1 then 0 else x + 1) y z.
Proof.
  intros x z y Hx. unfold phi, fieldAt. fold L. f_equal. f_equal.
  destruct (Nat.eqb_spec x (L - 1)) as [-> | Hn].
  - replace (L - 1 + 1) with L by lia. rewrite Nat.mod_same, Nat.mod_0_l by lia. reflexivity.
  - reflexivity.
Qed.
(** the next row *)
Lemma next_row : forall x r z, x < L -> r < YC ->
  holds w ((if r =? YC - 1 then wrap b else fun v => v) (load m (addr x (if r =? YC - 1 then 0 else r + 1) z)))
    (fun k => phi x (r + k * YC + 1) z).
Proof.
  intros x r z Hx Hr. pose proof w_pos as Hw0. pose proof YC_pos as HY.
  destruct (Nat.eqb_spec r (YC - 1)) as [E | Hn].
  - eapply holds_ext; [ apply wrap_holds; [ exact Hb | apply (load_row x 0 z Hx HY) ] | ].
    intros k Hk. cbv beta. fold w. unfold phi, fieldAt. fold L. f_equal. f_equal.
    destruct (Nat.eq_dec (k + 1) w) as [Ek | Ek].
    + rewrite Ek, Nat.mod_same by lia. replace (r + k * YC + 1) with L.
      * rewrite Nat.mod_same by (unfold L; lia). rewrite Nat.mod_0_l by (unfold L; lia). reflexivity.
      * rewrite L_YC. replace w with (k + 1) by assumption. subst r. nia.
    + rewrite (Nat.mod_small (k + 1) w) by lia. f_equal. subst r. nia.
  - eapply holds_ext; [ apply (load_row x (r + 1) z Hx ltac:(lia)) | ].
    intros k Hk. cbv beta. f_equal. lia.
Qed.

(** position on the map *)
Definition mapPos (x y z : nat) : nat := x + y * L + z * (L * L).

(** events and counts of one site (z: storage slice) *)
Definition wallAt (x y z : nat) : bool :=
  wallb (phi x y z) (phi (x + 1) y z) || wallb (phi x y z) (phi x (y + 1) z) || wallb (phi x y z) (phi x y (z + 1)).
Definition siteEv (x y z : nat) : list (nat * Z) :=
  let p := mapPos x y (z - 1) in
  handEv XYP XYN (plaqXY phi x y z) p ++ handEv YZP YZN (plaqYZ phi x y z) p ++
  handEv ZXP ZXN (plaqZX phi x y z) p ++ wallEv (wallAt x y z) p.
Definition siteStr (x y z : nat) : Z := (nHand (plaqXY phi x y z) + nHand (plaqYZ phi x y z) + nHand (plaqZX phi x y z))%Z.
Definition siteChr (x y z : nat) : Z := (cHand (plaqXY phi x y z) + cHand (plaqYZ phi x y z) + cHand (plaqZX phi x y z))%Z.
Definition siteWll (x y z : nat) : Z := b2z (wallAt x y z).

(** the block at (x, r, z) *)
Definition blockEv (x r z : nat) : list (nat * Z) :=
  flat_map (fun k => handEv XYP XYN (plaqXY phi x (r + k * YC) z) (mapPos x (r + k * YC) (z - 1))) (seq 0 w) ++
  flat_map (fun k => handEv YZP YZN (plaqYZ phi x (r + k * YC) z) (mapPos x (r + k * YC) (z - 1))) (seq 0 w) ++
  flat_map (fun k => handEv ZXP ZXN (plaqZX phi x (r + k * YC) z) (mapPos x (r + k * YC) (z - 1)) ++
                     wallEv (wallAt x (r + k * YC) z) (mapPos x (r + k * YC) (z - 1))) (seq 0 w).

Lemma block_coords : forall x r z, x < L -> r < YC -> 0 < z ->
  let idx := addr x r z in let tmi := idx / XC in
  tmi / YC = z /\ tmi - tmi / YC * YC = r /\ idx - tmi * XC = x * w.
Proof.
  intros x r z Hx Hr Hz idx tmi.
  assert (HXC : x * w < XC) by (unfold XC; apply Nat.mul_lt_mono_pos_r; [ apply w_pos | assumption ]).
  assert (E : tmi = z * YC + r).
  { unfold tmi, idx, addr. rewrite Sf_eq. symmetry. apply Nat.div_unique with (x * w); [ exact HXC | nia ]. }
  assert (E2 : tmi / YC = z).
  { rewrite E. symmetry. apply Nat.div_unique with r; [ exact Hr | nia ]. }
  rewrite E2. split; [ reflexivity | ]. split; [ lia | ].
  rewrite E. unfold idx, addr. rewrite Sf_eq. nia.
Qed.

Lemma fold_lanes : forall (body body' : sdata -> nat -> sdata) l st, (forall st k, In k l -> body st k = body' st k) ->
  fold_left body l st = fold_left body' l st.
Proof.
  intros body body' l. induction l as [ | k l IH ]; intros st H; [ reflexivity | ].
  cbn [fold_left]. rewrite H by now left. apply IH. intros; apply H; now right.
Qed.

Lemma block_events : forall x r z st, x < L -> r < YC -> 0 < z ->
  stringBlock b L (L * L) m st (addr x r z) =
  after st (blockEv x r z) (lsum (fun k => siteStr x (r + k * YC) z) (seq 0 w))
    (lsum (fun k => siteChr x (r + k * YC) z) (seq 0 w)) (lsum (fun k => siteWll x (r + k * YC) z) (seq 0 w)).
Proof.
  intros x r z st Hx Hr Hz.
  pose proof w_pos as Hw0. pose proof YC_pos as HY. pose proof L_YC as HL. pose proof Sf_eq as HS.
  destruct (block_coords x r z Hx Hr Hz) as (C2 & C1 & C0).
  assert (HXC : XC = L * w) by reflexivity.
  unfold stringBlock. fold w. fold YC. fold XC. rewrite C2 in C1. rewrite C2, C1, C0.
  set (lastY := r =? YC - 1).
  set (lastX := x =? L - 1).
  set (wr := if lastY then wrap b else fun v : reg => v).
  set (x' := if lastX then 0 else x + 1). set (r' := if lastY then 0 else r + 1).
  assert (Hx' : x' < L) by (unfold x', lastX; clear - Hx; destruct (Nat.eqb_spec x (L - 1)); lia).
  destruct (addresses L w YC XC x r z Hw0 HXC HS Hx Hr Hz) as (ElX & Apx & Apy & Apz & Axy & Ayz & Azx).
  fold lastX in ElX, Apx, Axy, Azx. fold lastY in Apy, Axy, Ayz. fold x' in Apx, Axy, Azx. fold r' in Apy, Axy, Ayz.
  fold (addr x r z) in Apx, Apy, Apz, Axy, Ayz, Azx.
  fold (addr x' r z) in Apx. fold (addr x r' z) in Apy. fold (addr x r (z + 1)) in Apz. fold (addr x' r' z) in Axy.
  fold (addr x r' (z + 1)) in Ayz. fold (addr x' r (z + 1)) in Azx.
  rewrite ElX. fold lastX. rewrite Apx, Apy, Axy, Ayz, Azx, Apz.
  clear HL C2 C1 C0.
  assert (Rel := load_row x r z Hx Hr).
  assert (Rpx := load_row x' r z Hx' Hr).
  assert (Rpz := load_row x r (z + 1) Hx Hr).
  assert (Rzx := load_row x' r (z + 1) Hx' Hr).
  assert (Rpy := next_row x r z Hx Hr). fold lastY in Rpy. fold r' wr in Rpy.
  assert (Rxy := next_row x' r z Hx' Hr). fold lastY in Rxy. fold r' wr in Rxy.
  assert (Ryz := next_row x r (z + 1) Hx Hr). fold lastY in Ryz. fold r' wr in Ryz.
  clear Apx Apy Apz Axy Ayz Azx ElX.
  revert Rel Rpx Rpz Rzx Rpy Rxy Ryz.
  generalize (load m (addr x r z)) as mel, (load m (addr x' r z)) as mPx, (load m (addr x r (z + 1))) as mPz,
    (load m (addr x' r (z + 1))) as mZX, (wr (load m (addr x r' z))) as mPy, (wr (load m (addr x' r' z))) as mXY,
    (wr (load m (addr x r' (z + 1)))) as mYZ.
  intros mel mPx mPz mZX mPy mXY mYZ Rel Rpx Rpz Rzx Rpy Rxy Ryz.
  assert (N : forall y z0, phi x' y z0 = phi (x + 1) y z0) by (intros; symmetry; now apply next_col).
  (* positions *)
  set (t := fun ih : nat => x * w / w + r * L + (z - 1) * (L * L) + ih * YC * L).
  assert (Ht : forall k, t k = mapPos x (r + k * YC) (z - 1)).
  { intros k. unfold t, mapPos. rewrite Nat.div_mul by lia. lia. }
  (* the first plaquette *)
  match goal with |- context [ markLane XYP XYN ?h _ ] => set (hXY := h) end.
  match goal with |- context [ markLane YZP YZN ?h _ ] => set (hYZ := h) end.
  match goal with |- context [ markLane ZXP ZXN ?h _ ] => set (hZX := h) end.
  match goal with |- context [ markWall ?h _ ] => set (wl := h) end.
  assert (EXY : forall k, k < w -> hXY k = plaqXY phi x (r + k * YC) z).
  { intros k Hk. unfold hXY. rewrite (hand_holds w _ _ _ _ _ k Rpy Rel Hk), (hand_holds w _ _ _ _ _ k Rxy Rpy Hk),
      (hand_holds w _ _ _ _ _ k Rpx Rxy Hk), (hand_holds w _ _ _ _ _ k Rel Rpx Hk).
    unfold plaqXY, turns. rewrite !N. lia. }
  assert (EYZ : forall k, k < w -> hYZ k = plaqYZ phi x (r + k * YC) z).
  { intros k Hk. unfold hYZ. rewrite (hand_holds w _ _ _ _ _ k Rpz Rel Hk), (hand_holds w _ _ _ _ _ k Ryz Rpz Hk),
      (hand_holds w _ _ _ _ _ k Rpy Ryz Hk), (hand_holds w _ _ _ _ _ k Rel Rpy Hk).
    unfold plaqYZ, turns. lia. }
  assert (EZX : forall k, k < w -> hZX k = plaqZX phi x (r + k * YC) z).
  { intros k Hk. unfold hZX. rewrite (hand_holds w _ _ _ _ _ k Rpx Rel Hk), (hand_holds w _ _ _ _ _ k Rzx Rpx Hk),
      (hand_holds w _ _ _ _ _ k Rpz Rzx Hk), (hand_holds w _ _ _ _ _ k Rel Rpz Hk).
    unfold plaqZX, turns. rewrite !N. lia. }
  assert (EW : forall k, k < w -> wl k = wallAt x (r + k * YC) z).
  { intros k Hk. unfold wl. rewrite (wall_holds w _ _ _ _ _ k Rel Rpz Hk), (wall_holds w _ _ _ _ _ k Rel Rpy Hk),
      (wall_holds w _ _ _ _ _ k Rel Rpx Hk). unfold wallAt. rewrite !N. reflexivity. }
  clearbody hXY hYZ hZX wl t.
  rewrite (fold_lanes (markLane XYP XYN hXY t)
    (fun st k => after st (handEv XYP XYN (plaqXY phi x (r + k * YC) z) (mapPos x (r + k * YC) (z - 1)))
       (nHand (plaqXY phi x (r + k * YC) z)) (cHand (plaqXY phi x (r + k * YC) z)) 0)).
  2:{ intros st0 k Hk. apply in_seq in Hk. rewrite markLane_ev, EXY, Ht by lia. reflexivity. }
  rewrite (fold_lanes (markLane YZP YZN hYZ t)
    (fun st k => after st (handEv YZP YZN (plaqYZ phi x (r + k * YC) z) (mapPos x (r + k * YC) (z - 1)))
       (nHand (plaqYZ phi x (r + k * YC) z)) (cHand (plaqYZ phi x (r + k * YC) z)) 0)).
  2:{ intros st0 k Hk. apply in_seq in Hk. rewrite markLane_ev, EYZ, Ht by lia. reflexivity. }
  rewrite (fold_lanes (fun st ih => markWall wl t (markLane ZXP ZXN hZX t st ih) ih)
    (fun st k => after st (handEv ZXP ZXN (plaqZX phi x (r + k * YC) z) (mapPos x (r + k * YC) (z - 1)) ++
        wallEv (wallAt x (r + k * YC) z) (mapPos x (r + k * YC) (z - 1)))
       (nHand (plaqZX phi x (r + k * YC) z)) (cHand (plaqZX phi x (r + k * YC) z)) (b2z (wallAt x (r + k * YC) z)))).
  2:{ intros st0 k Hk. apply in_seq in Hk. rewrite markWall_ev, markLane_ev, after_after, EZX, EW, Ht by lia.
      f_equal; lia. }
  rewrite (fold_ev _ _ _ _ _ _ (fun st0 k => eq_refl)).
  rewrite (fold_ev _ _ _ _ _ _ (fun st0 k => eq_refl)).
  rewrite (fold_ev _ _ _ _ _ _ (fun st0 k => eq_refl)).
  rewrite !after_after. unfold blockEv. rewrite <- ?app_assoc.
  f_equal; unfold siteStr, siteChr, siteWll; rewrite ?lsum_plus, ?lsum_zero; lia.
Qed.

Lemma block_perm : forall x r z, Permutation (blockEv x r z) (flat_map (fun k => siteEv x (r + k * YC) z) (seq 0 w)).
Proof.
  intros x r z. unfold blockEv.
  eapply Permutation_trans; [ apply Permutation_app_head, flat_map_perm2 | ].
  eapply Permutation_trans; [ apply flat_map_perm2 | ].
  apply Permutation_refl.
Qed.

(** ** The whole kernel *)
Definition ix (i : nat) := i mod L.
Definition ir (i : nat) := (i / L) mod YC.
Definition iz (i : nat) := i / L / YC.
Lemma L_pos : 0 < L.
Proof. exact H1. Qed.
Lemma index_parts : forall x r z, x < L -> r < YC ->
  let i := (z * YC + r) * L + x in ix i = x /\ ir i = r /\ iz i = z.
Proof.
  intros x r z Hx Hr i. pose proof L_pos as HL. pose proof YC_pos as HY.
  assert (E1 : i / L = z * YC + r) by (symmetry; apply Nat.div_unique with x; [ exact Hx | unfold i; lia ]).
  unfold ix, ir, iz. rewrite E1. split; [ | split ].
  - symmetry. apply Nat.mod_unique with (z * YC + r); [ exact Hx | unfold i; lia ].
  - rewrite Nat.add_comm, Nat.mod_add by lia. now apply Nat.mod_small.
  - symmetry. apply Nat.div_unique with r; [ exact Hr | lia ].
Qed.
Lemma index_compose : forall i, i = (iz i * YC + ir i) * L + ix i.
Proof.
  intros i. pose proof L_pos as HL. pose proof YC_pos as HY. unfold ix, ir, iz.
  rewrite (Nat.div_mod i L) at 1 by lia. rewrite (Nat.div_mod (i / L) YC) at 1 by lia. lia.
Qed.
Lemma index_ranges : forall i, ix i < L /\ ir i < YC.
Proof.
  intros i. pose proof L_pos as HL. pose proof YC_pos as HY. unfold ix, ir. split; apply Nat.mod_upper_bound; lia.
Qed.
Lemma index_addr : forall i, L * L + i * w = addr (ix i) (ir i) (S (iz i)).
Proof.
  intros i. rewrite (index_compose i) at 1. unfold addr.
  assert (E : (iz i * YC + ir i) * L * w = iz i * (L * L) + ir i * XC).
  { rewrite Sf_eq. unfold XC. lia. }
  rewrite Nat.mul_add_distr_r, E. lia.
Qed.
Lemma order_index : forall Lz, stringOrder b L Lz = map (fun i => L * L + i * w) (seq 0 (Lz * YC * L)).
Proof.
  intros Lz. unfold stringOrder, blocks. fold w. f_equal. f_equal.
  pose proof w_pos as Hw0.
  assert (E : L * L * Lz = Lz * YC * L * w) by (rewrite L_YC at 1; lia).
  rewrite E. symmetry. apply Nat.div_unique with (w - 1); [ lia | ].
  generalize (Lz * YC * L) (L * L). intros a c. lia.
Qed.

Definition runEv (ord : list nat) : list (nat * Z) := flat_map (fun i => blockEv (ix i) (ir i) (S (iz i))) ord.
Definition overSites (Lz : nat) (f : nat -> nat -> nat -> Z) : Z :=
  zsum Lz (fun z => zsum L (fun y => zsum L (fun x => f x y (S z)))).

Lemma sum_sites : forall Lz f,
  lsum (fun i => lsum (fun k => f (ix i) (ir i + k * YC) (S (iz i))) (seq 0 w)) (seq 0 (Lz * YC * L)) = overSites Lz f.
Proof.
  intros Lz f. rewrite sum_split.
  transitivity (lsum (fun a => lsum (fun x => lsum (fun k => f x (a mod YC + k * YC) (S (a / YC))) (seq 0 w)) (seq 0 L)) (seq 0 (Lz * YC))).
  { apply lsum_ext. intros a _. apply lsum_ext. intros x Hx. apply in_seq in Hx.
    assert (Ha : a = a / YC * YC + a mod YC) by (rewrite Nat.mul_comm; apply Nat.div_mod; pose proof YC_pos; lia).
    assert (Hr : a mod YC < YC) by (apply Nat.mod_upper_bound; pose proof YC_pos; lia).
    destruct (index_parts x (a mod YC) (a / YC) ltac:(lia) Hr) as (E1 & E2 & E3).
    rewrite <- Ha in E1, E2, E3. now rewrite E1, E2, E3. }
  rewrite sum_split. unfold overSites, zsum.
  apply lsum_ext. intros z _.
  transitivity (lsum (fun r => lsum (fun x => lsum (fun k => f x (r + k * YC) (S z)) (seq 0 w)) (seq 0 L)) (seq 0 YC)).
  { apply lsum_ext. intros r Hr. apply in_seq in Hr. apply lsum_ext. intros x _. apply lsum_ext. intros k _.
    assert (E1 : (z * YC + r) mod YC = r) by (rewrite Nat.add_comm, Nat.mod_add by lia; apply Nat.mod_small; lia).
    assert (E2 : (z * YC + r) / YC = z) by (symmetry; apply Nat.div_unique with r; lia).
    now rewrite E1, E2. }
  change (fold_right Z.add 0%Z (map ?g (seq 0 L))) with (lsum g (seq 0 L)).
  transitivity (lsum (fun y => lsum (fun x => f x y (S z)) (seq 0 L)) (seq 0 (w * YC))).
  2:{ rewrite (Nat.mul_comm w), <- L_YC. reflexivity. }
  rewrite sum_split.
  rewrite (sum_swap _ _ (fun k r => lsum (fun x => f x (k * YC + r) (S z)) (seq 0 L))).
  apply lsum_ext. intros r _.
  rewrite (sum_swap _ _ (fun x k => f x (r + k * YC) (S z))).
  apply lsum_ext. intros k _. apply lsum_ext. intros x _. f_equal. lia.
Qed.

Lemma kernel_events : forall Lz order mp, Permutation order (stringOrder b L Lz) ->
  exists ord, Permutation ord (seq 0 (Lz * YC * L)) /\
  stringRun b L Lz m order mp =
  SD (applyEv (fun p => if p <? L * L * Lz then 0%Z else mp p) (runEv ord)) (overSites Lz siteStr) (overSites Lz siteChr) (overSites Lz siteWll).
Proof.
  intros Lz order mp P. rewrite order_index in P.
  apply Permutation_map_inv in P as (ord & -> & P). exists ord. split; [ now apply Permutation_sym | ].
  unfold stringRun, stringKernel.
  rewrite (fold_left_map (stringBlock b L (L * L) m)).
  rewrite (fold_ev_in _ _ (fun i => blockEv (ix i) (ir i) (S (iz i)))
    (fun i => lsum (fun k => siteStr (ix i) (ir i + k * YC) (S (iz i))) (seq 0 w))
    (fun i => lsum (fun k => siteChr (ix i) (ir i + k * YC) (S (iz i))) (seq 0 w))
    (fun i => lsum (fun k => siteWll (ix i) (ir i + k * YC) (S (iz i))) (seq 0 w))).
  2:{ intros st i _. destruct (index_ranges i) as [R1 R2]. rewrite index_addr. apply block_events; [ assumption | assumption | lia ]. }
  unfold after. cbn [smap nStr nChr nWll].
  rewrite !(lsum_perm _ _ _ _ (Permutation_sym P)), !sum_sites. reflexivity.
Qed.

Lemma siteEv_pos : forall x y z e, In e (siteEv x y (S z)) -> fst e = mapPos x y z.
Proof.
  intros x y z e. unfold siteEv, handEv, wallEv. replace (S z - 1) with z by lia.
  rewrite !in_app_iff.
  repeat match goal with |- context [ if ?c then _ else _ ] => destruct c end; cbn [In]; intuition (subst; reflexivity).
Qed.
Lemma mapPos_inj : forall x y z x' y' z', x < L -> y < L -> x' < L -> y' < L ->
  mapPos x y z = mapPos x' y' z' -> x = x' /\ y = y' /\ z = z'.
Proof.
  intros x y z x' y' z' Hx Hy Hx' Hy' E. unfold mapPos in E.
  assert (E' : x + (y + z * L) * L = x' + (y' + z' * L) * L) by lia.
  pose proof L_pos as HL.
  assert (A : (x + (y + z * L) * L) / L = y + z * L) by (rewrite Nat.div_add by lia; rewrite Nat.div_small by assumption; lia).
  assert (B : (x' + (y' + z' * L) * L) / L = y' + z' * L) by (rewrite Nat.div_add by lia; rewrite Nat.div_small by assumption; lia).
  rewrite E' in A. rewrite A in B.
  assert (A2 : (y + z * L) / L = z) by (rewrite Nat.div_add by lia; rewrite Nat.div_small by assumption; lia).
  assert (B2 : (y' + z' * L) / L = z') by (rewrite Nat.div_add by lia; rewrite Nat.div_small by assumption; lia).
  rewrite B in A2. rewrite A2 in B2. subst z'. split; [ | split; [ | reflexivity ] ]; lia.
Qed.
Lemma filter_all : forall (A : Type) (f : A -> bool) l, (forall x, In x l -> f x = true) -> filter f l = l.
Proof.
  intros A f l. induction l as [ | x l IH ]; intros H; [ reflexivity | ].
  cbn [filter]. rewrite H by now left. f_equal. apply IH. intros; apply H; now right.
Qed.

Lemma kernel_map : forall Lz ord mp x y z, Permutation ord (seq 0 (Lz * YC * L)) -> x < L -> y < L -> z < Lz ->
  applyEv mp (runEv ord) (mapPos x y z) = fold_left Z.lor (map snd (siteEv x y (S z))) (mp (mapPos x y z)).
Proof.
  intros Lz ord mp x y z P Hx Hy Hz. pose proof YC_pos as HY. pose proof w_pos as Hw0.
  set (r := y mod YC). set (k := y / YC).
  assert (Hr : r < YC) by (apply Nat.mod_upper_bound; lia).
  assert (Ey : y = r + k * YC) by (unfold r, k; rewrite (Nat.div_mod y YC) at 1 by lia; lia).
  assert (Hk : k < w) by (apply Nat.div_lt_upper_bound; [ lia | rewrite <- L_YC; exact Hy ]).
  set (i := (z * YC + r) * L + x).
  destruct (index_parts x r z Hx Hr) as (E1 & E2 & E3). fold i in E1, E2, E3.
  assert (Hi : i < Lz * YC * L).
  { assert (z * YC + r < Lz * YC) by nia. unfold i. nia. }
  rewrite (applyEv_perm _ (flat_map (fun i => flat_map (fun k => siteEv (ix i) (ir i + k * YC) (S (iz i))) (seq 0 w)) ord)).
  2:{ apply flat_map_perm_ext. intros; apply block_perm. }
  rewrite applyEv_at. f_equal. f_equal.
  rewrite (select _ _ ord i).
  - rewrite (select _ _ (seq 0 w) k).
    + rewrite E1, E2, E3, <- Ey. apply filter_all. intros e He. apply Nat.eqb_eq. eapply siteEv_pos; exact He.
    + apply seq_NoDup.
    + apply in_seq. lia.
    + intros k' e Hk' Hn He C. apply siteEv_pos in He. rewrite He in C. apply in_seq in Hk'.
      rewrite E1, E2, E3 in C.
      apply mapPos_inj in C; try assumption; [ | apply lane_row; [ assumption | lia ] ].
      destruct C as (_ & C & _). rewrite Ey in C. apply Hn.
      assert (C' : k' * YC = k * YC) by lia. apply Nat.mul_cancel_r in C'; lia.
  - apply (Permutation_NoDup (Permutation_sym P)), seq_NoDup.
  - apply (Permutation_in _ (Permutation_sym P)), in_seq. lia.
  - intros i' e Hi' Hn He C. apply in_flat_map in He as (k' & Hk' & He). apply in_seq in Hk'.
    apply siteEv_pos in He. rewrite He in C. destruct (index_ranges i') as [R1 R2].
    assert (R3 : ir i' + k' * YC < L) by (apply lane_row; [ assumption | lia ]).
    apply mapPos_inj in C; try assumption.
    destruct C as (C1 & C2 & C3). apply Hn. rewrite (index_compose i'), C1, C3. unfold i.
    assert (ir i' = r); [ | congruence ].
    unfold r. rewrite <- C2. rewrite Nat.mod_add by lia. symmetry. now apply Nat.mod_small.
Qed.
Lemma kernel_map_out : forall Lz ord mp p, Permutation ord (seq 0 (Lz * YC * L)) -> L * L * Lz <= p ->
  applyEv mp (runEv ord) p = mp p.
Proof.
  intros Lz ord mp p P Hp.
  rewrite (applyEv_perm _ (flat_map (fun i => flat_map (fun k => siteEv (ix i) (ir i + k * YC) (S (iz i))) (seq 0 w)) ord)).
  2:{ apply flat_map_perm_ext. intros; apply block_perm. }
  rewrite applyEv_at. rewrite filter_none; [ reflexivity | ].
  intros e He. apply in_flat_map in He as (i & Hi & He). apply in_flat_map in He as (k & Hk & He).
  apply siteEv_pos in He. apply Nat.eqb_neq. rewrite He. apply in_seq in Hk.
  apply (Permutation_in _ P) in Hi. apply in_seq in Hi.
  destruct (index_ranges i) as [R1 R2]. assert (R3 := lane_row (ir i) k R2 ltac:(lia)).
  assert (Z : iz i < Lz).
  { unfold iz. apply Nat.div_lt_upper_bound; [ pose proof YC_pos; lia | ].
    apply Nat.div_lt_upper_bound; [ pose proof L_pos; lia | lia ]. }
  unfold mapPos. revert Hp R1 R3 Z. generalize (ix i) (ir i + k * YC) (iz i). clear. intros x y z Hp Hx Hy Hz C.
  assert (x + y * L < L * L) by nia. assert (z * (L * L) + L * L <= L * L * Lz) by nia. lia.
Qed.

Definition word (x y z : nat) : Z :=
  (isTwo (plaqXY phi x y z) + 2 * isTwo (plaqYZ phi x y z) + 4 * isTwo (plaqZX phi x y z) +
   8 * isMinusTwo (plaqXY phi x y z) + 16 * isMinusTwo (plaqYZ phi x y z) + 32 * isMinusTwo (plaqZX phi x y z) +
   64 * b2z (wallAt x y z))%Z.
Lemma site_word : forall x y z, fold_left Z.lor (map snd (siteEv x y z)) 0%Z = word x y z.
Proof.
  intros x y z. unfold siteEv, word, handEv, wallEv, isTwo, isMinusTwo.
  destruct (Z.eqb_spec (plaqXY phi x y z) 2) as [A | A]; [ rewrite A | destruct (Z.eqb_spec (plaqXY phi x y z) (-2)) as [A' | A'] ];
  (destruct (Z.eqb_spec (plaqYZ phi x y z) 2) as [B | B]; [ rewrite B | destruct (Z.eqb_spec (plaqYZ phi x y z) (-2)) as [B' | B'] ]);
  (destruct (Z.eqb_spec (plaqZX phi x y z) 2) as [C | C]; [ rewrite C | destruct (Z.eqb_spec (plaqZX phi x y z) (-2)) as [C' | C'] ]);
  destruct (wallAt x y z); reflexivity.
Qed.
End block.
