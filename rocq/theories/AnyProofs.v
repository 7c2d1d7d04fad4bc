(** Lemmas on strings given by points in space. *)
From Coq Require Import Lqa Lra Reals List Arith Bool Lia.
From Verif Require Import ConserveProofs PaxProofs AnyModel AnySpec.
Import ListNotations.
Local Open Scope R_scope.
Ltac Zify.zify_post_hook ::= idtac.

(** *** Lines *)
Lemma run_S n B f : run (Datatypes.S n) B f = upd (run n B f) (n + 1) (run n B f n + B n).
Proof. unfold run. rewrite seq_S, fold_left_app. reflexivity. Qed.
Lemma run_at n B f : forall i, (i <= n)%nat -> run n B f i = f 0%nat + sumTo i B.
Proof.
  induction n as [|n IH]; intros i H.
  - replace i with 0%nat by lia. cbn. ring.
  - rewrite run_S. unfold upd. destruct (Nat.eqb_spec i (n + 1)) as [->|N].
    + rewrite IH by lia. replace (n + 1)%nat with (Datatypes.S n) by lia. cbn [sumTo]. ring.
    + apply IH. lia.
Qed.
Lemma run_beyond n B f : forall i, (n < i)%nat -> run n B f i = f i.
Proof.
  induction n as [|n IH]; intros i H; [reflexivity|]. rewrite run_S. unfold upd. destruct (Nat.eqb_spec i (n + 1)) as [->|N]; [lia|]. apply IH. lia.
Qed.
Lemma set_at t r z y x v : set t r z y x v r z y x = v. Proof. unfold set. rewrite !Nat.eqb_refl. reflexivity. Qed.
Lemma set_other t r z y x v r' z' y' x' : (r' <> r \/ z' <> z \/ y' <> y \/ x' <> x)%nat -> set t r z y x v r' z' y' x' = t r' z' y' x'.
Proof.
  intros H. unfold set. destruct (Nat.eqb_spec r' r), (Nat.eqb_spec z' z), (Nat.eqb_spec y' y), (Nat.eqb_spec x' x); cbn [andb]; try reflexivity. lia.
Qed.
Lemma zTurn_other K nz Bz t c r iz iy ix : r <> c -> (K = 1 -> r <> 0)%nat -> zTurn K nz Bz t c r iz iy ix = t r iz iy ix.
Proof.
  intros H H0. unfold zTurn. cbv zeta. destruct (Nat.eqb_spec K 1) as [E|E]; rewrite set_other by lia; unfold zLine; rewrite (proj2 (Nat.eqb_neq r c) H); reflexivity.
Qed.

(** *** The integral *)
Lemma same_primitive F G f a b : primitive F f -> primitive G f -> F b - F a = G b - G a.
Proof.
  intros HF HG.
  assert (D : forall u, derivable_pt_lim (fun u => F u - G u) u 0).
  { intros u. replace 0 with (f u - f u) by ring. apply derivable_pt_lim_minus; [apply HF|apply HG]. }
  set (pr := (fun u => exist _ 0 (D u)) : derivable (fun u => F u - G u)).
  assert (C : constant (fun u => F u - G u)).
  { apply null_derivative_1 with (pr := pr). intros u. reflexivity. }
  unfold constant in C. pose proof (C a b). lra.
Qed.
Lemma sum_pos u a2 : 0 < a2 -> 0 < u * u + a2. Proof. intros H. pose proof (Rle_0_sqr u) as Q. unfold Rsqr in Q. lra. Qed.
Definition prim (a2 u : R) : R := u / (a2 * sqrt (u * u + a2)).
Lemma prim_right a2 : 0 < a2 -> primitive (prim a2) (fun u => 1 / sqrt (u * u + a2) ^ 3).
Proof.
  intros H u. pose proof (sum_pos u a2 H) as P. pose proof (sqrt_lt_R0 _ P) as SP. pose proof (sqrt_sqrt (u * u + a2) ltac:(lra)) as SS.
  assert (D0 : derivable_pt_lim (fun u => u * u + a2) u (2 * u)).
  { replace (2 * u) with ((1 * u + u * 1) + 0) by ring. apply derivable_pt_lim_plus; [|apply derivable_pt_lim_const].
    apply derivable_pt_lim_mult; apply derivable_pt_lim_id. }
  assert (D1 : derivable_pt_lim (fun u => sqrt (u * u + a2)) u (/ (2 * sqrt (u * u + a2)) * (2 * u))).
  { apply (derivable_pt_lim_comp (fun u => u * u + a2) sqrt); [exact D0|]. apply derivable_pt_lim_sqrt. exact P. }
  assert (D2 : derivable_pt_lim (fun u => a2 * sqrt (u * u + a2)) u (a2 * (/ (2 * sqrt (u * u + a2)) * (2 * u)))).
  { apply (derivable_pt_lim_scal (fun u => sqrt (u * u + a2))). exact D1. }
  set (q := sqrt (u * u + a2)) in *.
  assert (NZ : a2 * q <> 0) by (apply Rmult_integral_contrapositive_currified; lra).
  pose proof (derivable_pt_lim_div (fun u => u) (fun u => a2 * sqrt (u * u + a2)) u 1 _ (derivable_pt_lim_id u) D2 NZ) as D3.
  fold q in D3. unfold prim. unfold div_fct in D3.
  replace (1 / q ^ 3) with ((1 * (a2 * q) - a2 * (/ (2 * q) * (2 * u)) * u) / Rsqr (a2 * q)); [exact D3|].
  unfold Rsqr. assert (U : u * u = q * q - a2) by lra.
  transitivity ((a2 * (q * q - u * u)) / (q * (a2 * q * (a2 * q)))); [field; split; lra|]. rewrite U. field. split; lra.
Qed.
Lemma int0_prim dx dy dz : 0 < dy * dy + dz * dz -> int0 dx dy dz = Some (prim (dy * dy + dz * dz) (dx + 1) - prim (dy * dy + dz * dz) dx).
Proof.
  intros H. unfold int0. cbv zeta. set (a2 := dy * dy + dz * dz) in *.
  pose proof (sum_pos dx a2 H) as P1. pose proof (sum_pos (dx + 1) a2 H) as P2.
  unfold prim, quot.
  destruct (Req_EM_T dx (- (1 / 2))) as [E|E].
  - assert (Q : 0 < sqrt (a2 + 1 / 4)) by (apply sqrt_lt_R0; lra).
    destruct (Req_EM_T (a2 * sqrt (a2 + 1 / 4)) 0) as [Z|_].
    { exfalso. apply Rmult_integral in Z. lra. }
    f_equal. rewrite E. replace ((- (1 / 2) + 1) * (- (1 / 2) + 1) + a2) with (a2 + 1 / 4) by field. replace (- (1 / 2) * - (1 / 2) + a2) with (a2 + 1 / 4) by field. field. split; lra.
  - set (s1 := sqrt (dx * dx + a2)) in *. set (s2 := sqrt ((dx + 1) * (dx + 1) + a2)) in *.
    assert (S1 : 0 < s1) by (apply sqrt_lt_R0; exact P1). assert (S2 : 0 < s2) by (apply sqrt_lt_R0; exact P2).
    assert (Q1 : s1 * s1 = dx * dx + a2) by (apply sqrt_sqrt; lra). assert (Q2 : s2 * s2 = (dx + 1) * (dx + 1) + a2) by (apply sqrt_sqrt; lra).
    assert (PR : ((dx + 1) * s1 + dx * s2) * ((dx + 1) * s1 - dx * s2) = a2 * (1 + 2 * dx)).
    { transitivity ((dx + 1) * (dx + 1) * (s1 * s1) - dx * dx * (s2 * s2)); [ring|]. rewrite Q1, Q2. ring. }
    assert (NZ : (dx + 1) * s1 + dx * s2 <> 0).
    { intros Z. rewrite Z, Rmult_0_l in PR. symmetry in PR. apply Rmult_integral in PR. destruct PR; [lra|]. apply E. lra. }
    destruct (Req_EM_T (s1 * s2 * ((dx + 1) * s1 + dx * s2)) 0) as [Z|_].
    { exfalso. apply Rmult_integral in Z. destruct Z as [Z|Z]; [apply Rmult_integral in Z; lra|contradiction]. }
    f_equal. set (N := (dx + 1) * s1 + dx * s2) in *.
    assert (X : 1 + 2 * dx = N * ((dx + 1) * s1 - dx * s2) / a2) by (rewrite PR; field; lra).
    rewrite Rmult_1_l, X. field. repeat split; lra || assumption.
Qed.

(** *** One piece *)
Lemma scale_primitive F c f : primitive F f -> primitive (fun u => c * F u) (fun u => c * f u).
Proof. intros H u. apply (derivable_pt_lim_scal F). apply H. Qed.
Lemma mora_far p q site : let d := minus site (middle p q) in 1 <= cx d * cx d + cy d * cy d + cz d * cz d ->
  mora p q site = match int0 (cx d) (cy d) (cz d) with Some k => Some ((cy (minus q p) * cz d - cz (minus q p) * cy d) * k) | None => None end.
Proof.
  intros d. unfold mora. cbv zeta.
  replace (cx site - 1 / 2 * (cx q + cx p)) with (cx d) by (unfold d, minus, middle, cx, cy, cz; cbn [fst snd]; field).
  replace (cy site - 1 / 2 * (cy q + cy p)) with (cy d) by (unfold d, minus, middle, cx, cy, cz; cbn [fst snd]; field).
  replace (cz site - 1 / 2 * (cz q + cz p)) with (cz d) by (unfold d, minus, middle, cx, cy, cz; cbn [fst snd]; field).
  intros H. destruct (Rlt_dec _ 1); [lra|]. reflexivity.
Qed.
Lemma mora_integral p q site F : let d := minus site (middle p q) in
  1 <= cx d * cx d + cy d * cy d + cz d * cz d -> 0 < cy d * cy d + cz d * cz d -> primitive F (biotSavart (minus q p) (cy d) (cz d)) ->
  mora p q site = Some (F (cx d + 1) - F (cx d)).
Proof.
  intros d H1 H2 HF. rewrite mora_far by exact H1. fold d. rewrite int0_prim by exact H2.
  set (c := cy (minus q p) * cz d - cz (minus q p) * cy d). set (a2 := cy d * cy d + cz d * cz d) in *.
  pose proof (scale_primitive _ c _ (prim_right a2 H2)) as HG. cbv beta in HG.
  assert (HF' : primitive F (fun u => c * (1 / sqrt (u * u + a2) ^ 3))).
  { intros u. pose proof (HF u) as Q. unfold biotSavart in Q. fold c a2 in Q. replace (c * (1 / sqrt (u * u + a2) ^ 3)) with (c / sqrt (u * u + a2) ^ 3) by (unfold Rdiv; ring). exact Q. }
  rewrite (same_primitive F _ _ (cx d) (cx d + 1) HF' HG). f_equal. ring.
Qed.
Lemma mora_reverse p q site k : let d := minus site (middle p q) in 1 <= cx d * cx d + cy d * cy d + cz d * cz d ->
  mora p q site = Some k -> mora q p site = Some (- k).
Proof.
  intros d H. assert (D : minus site (middle q p) = d).
  { unfold d, minus, middle, cx, cy, cz. cbn [fst snd]. f_equal; [f_equal|]; field. }
  rewrite mora_far by exact H. rewrite mora_far by (rewrite D; exact H). rewrite D. fold d.
  destruct (int0 (cx d) (cy d) (cz d)) as [x|]; [|discriminate]. intros E. apply (f_equal (fun o => match o with Some a => a | None => 0 end)) in E. cbv beta iota in E. rewrite <- E.
  f_equal. unfold minus, cx, cy, cz. cbn [fst snd]. ring.
Qed.

(** *** All pieces *)
Definition addPiece (rot : vec -> vec) (pts : list vec) (eps : list nat) (site : vec) (res : option R) (il : nat) : option R :=
    match res with
    | None => None
    | Some b => if (nth (il mod length eps) eps 0 =? 1)%nat then Some b
                else match nth_error pts il, nth_error pts (il + 1) with
                     | Some p, Some q => match mora (rot p) (rot q) (rot site) with Some k => Some (b + k) | None => None end
                     | _, _ => None
                     end
    end.
Lemma pieces_eq rot pts eps site : pieces rot pts eps site = match fold_left (addPiece rot pts eps site) (seq 0 (length pts)) (Some 0) with Some b => Some (1 / 2 * b) | None => None end.
Proof. reflexivity. Qed.
Lemma pieces_none rot pts eps site (l : list nat) : fold_left (addPiece rot pts eps site) l None = None. Proof. induction l; [reflexivity|]. exact IHl. Qed.
Lemma pieces_fold rot pts eps site (k : nat -> R) :
  (forall il, (il < length pts)%nat -> nth (il mod length eps) eps 0%nat <> 1%nat -> exists p q, nth_error pts il = Some p /\ nth_error pts (il + 1) = Some q /\ mora (rot p) (rot q) (rot site) = Some (k il)) ->
  forall n, (n <= length pts)%nat ->
  fold_left (addPiece rot pts eps site) (seq 0 n) (Some 0) = Some (sumTo n (fun il => if (nth (il mod length eps) eps 0 =? 1)%nat then 0 else k il)).
Proof.
  intros H. induction n as [|n IH]; intros L; [reflexivity|]. rewrite seq_S, fold_left_app, IH by lia. cbn [fold_left sumTo addPiece plus].
  destruct (Nat.eqb_spec (nth (n mod length eps) eps 0%nat) 1) as [E|E].
  - rewrite Rplus_0_r. reflexivity.
  - destruct (H n ltac:(lia) E) as [p [q [E1 [E2 E3]]]]. rewrite E1, E2, E3. reflexivity.
Qed.

(** *** The phase *)
Lemma phase_one L nz Bx By Bz t r iz iy ix : r = 0%nat -> (1 <= nz)%nat -> t 0%nat 0%nat 0%nat 0%nat = 0 -> (iz < nz)%nat -> (iy < L)%nat -> (ix < L)%nat ->
  xLine L nz Bx (yLine L nz By (zAll 1 nz Bz t)) r iz iy ix = pathSum nz Bx By Bz r iz iy ix.
Proof.
  intros -> H1 T0 Hz Hy Hx. unfold xLine at 1. rewrite (proj2 (Nat.ltb_lt _ _) Hz), (proj2 (Nat.ltb_lt _ _) Hy). cbn [andb].
  rewrite run_at by lia. unfold yLine at 1. rewrite (proj2 (Nat.ltb_lt _ _) Hz). cbn [andb Nat.eqb].
  rewrite run_at by lia. unfold pathSum. cbn [sumTo].
  enough (Z : zAll 1 nz Bz t 0%nat iz 0%nat 0%nat = sumTo iz (Bz 0%nat)) by (rewrite Z; ring).
  unfold zAll. cbn [seq fold_left]. unfold zTurn. cbv zeta. cbn [Nat.eqb].
  destruct iz as [|iz]; [rewrite set_at; reflexivity|]. rewrite set_other by lia. unfold zLine. cbn [Nat.eqb andb].
  rewrite run_at by lia. rewrite T0. ring.
Qed.
Lemma zAll_split K nz Bz t n : fold_left (zTurn K nz Bz) (seq 0 (Datatypes.S n)) t = zTurn K nz Bz (fold_left (zTurn K nz Bz) (seq 0 n) t) n.
Proof. rewrite seq_S, fold_left_app. reflexivity. Qed.
Lemma zAll_later K nz Bz t (H : (2 <= K)%nat) : forall n r iz iy ix, (n <= r)%nat -> fold_left (zTurn K nz Bz) (seq 0 n) t r iz iy ix = t r iz iy ix.
Proof.
  induction n as [|n IH]; intros r iz iy ix L; [reflexivity|]. rewrite zAll_split, zTurn_other by lia. apply IH. lia.
Qed.
Lemma zAll_stays K nz Bz t (H : (2 <= K)%nat) : forall m n r iz iy ix, (r < n)%nat -> (n <= m)%nat ->
  fold_left (zTurn K nz Bz) (seq 0 m) t r iz iy ix = fold_left (zTurn K nz Bz) (seq 0 n) t r iz iy ix.
Proof.
  induction m as [|m IH]; intros n r iz iy ix L1 L2; [lia|]. destruct (Nat.eq_dec n (Datatypes.S m)) as [->|N]; [reflexivity|].
  rewrite zAll_split, zTurn_other by lia. apply IH; lia.
Qed.
(** Slice iz > 0 of rank r: only the gradients of this rank. *)
Lemma zAll_at K nz Bz t r iz : (2 <= K)%nat -> (r < K)%nat -> (1 <= iz <= nz)%nat -> zAll K nz Bz t r iz 0%nat 0%nat = t r 0%nat 0%nat 0%nat + sumTo iz (Bz r).
Proof.
  intros HK Hr Hz. unfold zAll. rewrite (zAll_stays K nz Bz t HK K (Datatypes.S r)) by lia. rewrite zAll_split. unfold zTurn at 1. cbv zeta.
  destruct (Nat.eqb_spec K 1) as [E|_]; [lia|]. rewrite set_other by lia. unfold zLine. rewrite Nat.eqb_refl. cbn [andb Nat.eqb]. rewrite run_at by lia. cbv beta.
  rewrite (zAll_later K nz Bz t HK r) by lia. reflexivity.
Qed.
Lemma zAll_first K nz Bz t r : (2 <= K)%nat -> (1 <= r < K)%nat -> (1 <= nz)%nat -> zAll K nz Bz t r 0%nat 0%nat 0%nat = zAll K nz Bz t (r - 1)%nat nz 0%nat 0%nat.
Proof.
  intros HK Hr Hz. rewrite (zAll_at K nz Bz t (r - 1) nz) by lia. unfold zAll. rewrite (zAll_stays K nz Bz t HK K (Datatypes.S r)) by lia. rewrite zAll_split. unfold zTurn at 1. cbv zeta.
  destruct (Nat.eqb_spec K 1) as [E|_]; [lia|]. rewrite set_at.
  replace ((r + K - 1) mod K)%nat with (r - 1)%nat.
  2:{ replace (r + K - 1)%nat with (r - 1 + 1 * K)%nat by lia. rewrite Nat.mod_add by lia. rewrite Nat.mod_small; lia. }
  unfold zLine. destruct (Nat.eqb_spec (r - 1) r) as [E|_]; [lia|]. cbn [andb].
  rewrite (zAll_stays K nz Bz t HK r (Datatypes.S (r - 1))) by lia. rewrite <- (zAll_stays K nz Bz t HK K (Datatypes.S (r - 1))) by lia. apply (zAll_at K nz Bz t (r - 1) nz); lia.
Qed.

(** *** Near *)
Definition sample (p q site : vec) (h : nat -> R) (i : nat) : R :=
  1 / 10 * (cy (minus q p) * cz (minus site (along p q i)) - cz (minus q p) * cy (minus site (along p q i))) * h i.
Lemma near_fold p q site h : let d := minus site (middle p q) in cx d * cx d + cy d * cy d + cz d * cz d < 1 ->
  (forall i, (i < 10)%nat -> int0 (cx (minus site (along p q i))) (cy (minus site (along p q i))) (cz (minus site (along p q i))) = Some (h i)) ->
  mora p q site = Some (sumTo 10 (sample p q site h)).
Proof.
  intros d H HI. unfold mora. cbv zeta.
  replace (cx site - 1 / 2 * (cx q + cx p)) with (cx d) by (unfold d, minus, middle, cx, cy, cz; cbn [fst snd]; field).
  replace (cy site - 1 / 2 * (cy q + cy p)) with (cy d) by (unfold d, minus, middle, cx, cy, cz; cbn [fst snd]; field).
  replace (cz site - 1 / 2 * (cz q + cz p)) with (cz d) by (unfold d, minus, middle, cx, cy, cz; cbn [fst snd]; field).
  destruct (Rlt_dec _ 1) as [_|N]; [|contradiction].
  set (f := fun (res : option R) (i : nat) => _).
  assert (G : forall n, (n <= 10)%nat -> fold_left f (seq 0 n) (Some 0) = Some (sumTo n (sample p q site h))).
  { induction n as [|n IH]; intros L; [reflexivity|]. rewrite seq_S, fold_left_app, IH by lia. cbn [fold_left sumTo plus]. unfold f at 1. cbv zeta.
    assert (X : forall c : vec -> R, (c = cx \/ c = cy \/ c = cz) -> c d + (c q - c p) * (- (1 / 2) + INR n / 10) = c (minus site (along p q n))).
    { intros c [->|[->| ->]]; unfold d, minus, middle, along, cx, cy, cz; cbn [fst snd]; field. }
    rewrite (X cx), (X cy), (X cz) by tauto. rewrite HI by lia. f_equal. }
  exact (G 10%nat (le_n _)).
Qed.
Lemma sumTo_ext n f g : (forall i, (i < n)%nat -> f i = g i) -> sumTo n f = sumTo n g.
Proof. induction n as [|n IH]; intros H; [reflexivity|]. cbn [sumTo]. rewrite IH by (intros; apply H; lia). rewrite H by lia. reflexivity. Qed.
Lemma near_integrals p q site (F : nat -> R -> R) : let d := minus site (middle p q) in cx d * cx d + cy d * cy d + cz d * cz d < 1 ->
  (forall i, (i < 10)%nat -> let e := minus site (along p q i) in 0 < cy e * cy e + cz e * cz e /\ primitive (F i) (biotSavart (minus q p) (cy e) (cz e))) ->
  mora p q site = Some (sumTo 10 (fun i => let e := minus site (along p q i) in 1 / 10 * (F i (cx e + 1) - F i (cx e)))).
Proof.
  intros d H HF.
  rewrite (near_fold p q site (fun i => let e := minus site (along p q i) in prim (cy e * cy e + cz e * cz e) (cx e + 1) - prim (cy e * cy e + cz e * cz e) (cx e)) H).
  2:{ intros i L. cbv zeta. apply int0_prim. apply HF. exact L. }
  f_equal. apply sumTo_ext. intros i L. destruct (HF i L) as [A B]. cbv zeta. set (e := minus site (along p q i)) in *. unfold sample. fold e. cbv zeta.
  set (c := cy (minus q p) * cz e - cz (minus q p) * cy e). set (a2 := cy e * cy e + cz e * cz e) in *.
  pose proof (scale_primitive _ c _ (prim_right a2 A)) as HG. cbv beta in HG.
  assert (HF' : primitive (F i) (fun u => c * (1 / sqrt (u * u + a2) ^ 3))).
  { intros u. pose proof (B u) as Q. unfold biotSavart in Q. fold c a2 in Q. replace (c * (1 / sqrt (u * u + a2) ^ 3)) with (c / sqrt (u * u + a2) ^ 3) by (unfold Rdiv; ring). exact Q. }
  rewrite (same_primitive (F i) _ _ (cx e) (cx e + 1) HF' HG). ring.
Qed.
(** A piece beside a link, and the same piece reversed. *)
Definition gy (y : R) : R := 1 / ((y * y + 1 / 4) * sqrt (y * y + 1 / 4 + 1 / 4)).
Lemma int_half a y z : a = - (1 / 2) -> z * z = 1 / 4 -> int0 a y z = Some (gy y).
Proof.
  intros -> Hz. unfold int0. cbv zeta. destruct (Req_EM_T _ _) as [_|N]; [|exfalso; apply N; reflexivity]. rewrite Hz. unfold quot, gy.
  pose proof (Rle_0_sqr y) as Q. unfold Rsqr in Q. assert (S0 : 0 < sqrt (y * y + 1 / 4 + 1 / 4)) by (apply sqrt_lt_R0; lra).
  destruct (Req_EM_T _ 0) as [Z|_]; [|reflexivity]. apply Rmult_integral in Z. lra.
Qed.
Lemma gy_less : gy 1 < gy 0.
Proof.
  unfold gy. assert (A : sqrt (0 * 0 + 1 / 4 + 1 / 4) < sqrt (1 * 1 + 1 / 4 + 1 / 4)) by (apply sqrt_lt_1; lra).
  assert (B : 0 < sqrt (0 * 0 + 1 / 4 + 1 / 4)) by (apply sqrt_lt_R0; lra).
  set (a := sqrt (0 * 0 + 1 / 4 + 1 / 4)) in *. set (b := sqrt (1 * 1 + 1 / 4 + 1 / 4)) in *.
  replace (1 / ((1 * 1 + 1 / 4) * b)) with (/ (5 / 4 * b)) by (field; lra). replace (1 / ((0 * 0 + 1 / 4) * a)) with (/ (1 / 4 * a)) by (field; lra).
  apply Rinv_lt_contravar; [|lra]. apply Rmult_lt_0_compat; lra.
Qed.
Definition pA : vec := (1 / 2, - 1, 0).
Definition pB : vec := (1 / 2, 0, 0).
Definition sA : vec := (0, 0, 1 / 2).
Lemma beside_forth : mora pA pB sA = Some (sumTo 10 (fun i => 1 / 20 * gy (INR i / 10))).
Proof.
  rewrite (near_fold pA pB sA (fun i => gy (INR i / 10))).
  - f_equal. apply sumTo_ext. intros i _. unfold sample, sA, pA, pB, minus, along, cx, cy, cz. cbn [fst snd]. field.
  - unfold sA, pA, pB, minus, middle, cx, cy, cz. cbn [fst snd]. lra.
  - intros i L. replace (INR i / 10) with (cy (minus sA (along pA pB i))) by (unfold sA, pA, pB, minus, along, cx, cy, cz; cbn [fst snd]; field).
    apply int_half; unfold sA, pA, pB, minus, along, cx, cy, cz; cbn [fst snd]; field.
Qed.
Lemma beside_back : mora pB pA sA = Some (sumTo 10 (fun i => - (1 / 20 * gy (INR (10 - i) / 10)))).
Proof.
  rewrite (near_fold pB pA sA (fun i => gy (INR (10 - i) / 10))).
  - f_equal. apply sumTo_ext. intros i _. unfold sample, sA, pA, pB, minus, along, cx, cy, cz. cbn [fst snd]. field.
  - unfold sA, pA, pB, minus, middle, cx, cy, cz. cbn [fst snd]. lra.
  - intros i L. replace (INR (10 - i) / 10) with (cy (minus sA (along pB pA i))).
    2:{ rewrite minus_INR by lia. unfold sA, pA, pB, minus, along, cx, cy, cz; cbn [fst snd]. replace (INR 10) with 10 by (cbn; ring). field. }
    apply int_half; unfold sA, pA, pB, minus, along, cx, cy, cz; cbn [fst snd]; field.
Qed.
Lemma nth_of_last (l : list nat) : nth (length l - 1) l 0%nat = last l 0%nat.
Proof.
  induction l as [|a l IH]; [reflexivity|]. destruct l as [|b l]; [reflexivity|]. change (last (a :: b :: l) 0%nat) with (last (b :: l) 0%nat). rewrite <- IH.
  cbn [length Nat.sub]. rewrite Nat.sub_0_r. reflexivity.
Qed.
