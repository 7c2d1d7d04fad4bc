(** C122: the field of strings given by points. *)
From Coq Require Import Lqa Lra Reals List Arith Bool ZArith Lia.
From Verif Require Import AnyModel AnySpec AnyProofs.
Import ListNotations.
Local Open Scope R_scope.
Ltac Zify.zify_post_hook ::= idtac.

(** A piece whose middle is at least one spacing away gives a link the integral along it of the field of one element at its middle. *)
Theorem link_integral_partial p q site F : let d := minus site (middle p q) in
  1 <= cx d * cx d + cy d * cy d + cz d * cz d -> 0 < cy d * cy d + cz d * cz d -> primitive F (biotSavart (minus q p) (cy d) (cz d)) ->
  mora p q site = Some (F (cx d + 1) - F (cx d)).
Proof. apply mora_integral. Qed.
Example link_case : mora (0, 0, 0) (0, 0, 1) (3, 4, 1 / 2) = Some (- 4 * (prim 16 4 - prim 16 3)) /\ 0 < prim 16 4 - prim 16 3.
Proof.
  split.
  - rewrite (link_integral_partial _ _ _ (fun u => - 4 * prim 16 u)).
    + unfold minus, middle, cx, cy, cz. cbn [fst snd]. f_equal. replace (3 - (0 + 0) / 2) with 3 by field. replace (3 + 1) with 4 by ring. ring.
    + unfold minus, middle, cx, cy, cz. cbn [fst snd]. lra.
    + unfold minus, middle, cx, cy, cz. cbn [fst snd]. lra.
    + intros u. unfold biotSavart, minus, middle, cx, cy, cz. cbn [fst snd].
      replace ((4 - (0 + 0) / 2) * (4 - (0 + 0) / 2) + (1 / 2 - (0 + 1) / 2) * (1 / 2 - (0 + 1) / 2)) with 16 by field.
      replace (((0 - 0) * (1 / 2 - (0 + 1) / 2) - (1 - 0) * (4 - (0 + 0) / 2)) / sqrt (u * u + 16) ^ 3) with (- 4 * (1 / sqrt (u * u + 16) ^ 3)) by (unfold Rdiv; field; apply Rgt_not_eq; apply sqrt_lt_R0; pose proof (Rle_0_sqr u) as Q; unfold Rsqr in Q; lra).
      exact (scale_primitive _ (- 4) _ (prim_right 16 ltac:(lra)) u).
  - unfold prim. replace (3 * 3 + 16) with (5 * 5) by ring. rewrite sqrt_square by lra. assert (A : 0 < sqrt (4 * 4 + 16)) by (apply sqrt_lt_R0; lra).
    assert (B : sqrt (4 * 4 + 16) < 20 / 3). { replace (20 / 3) with (sqrt (20 / 3 * (20 / 3))) by (apply sqrt_square; lra). apply sqrt_lt_1; lra. }
    set (s := sqrt (4 * 4 + 16)) in *. replace (4 / (16 * s)) with (/ (4 * s)) by (field; lra). replace (3 / (16 * 5)) with (/ (4 * (20 / 3))) by field.
    pose proof (Rinv_lt_contravar (4 * s) (4 * (20 / 3)) ltac:(apply Rmult_lt_0_compat; lra) ltac:(lra)). lra.
Qed.
(** Nearer, it is the mean of ten: elements at the end of the piece and at each tenth back from there, but not at its start. *)
Theorem near_integral_partial p q site (F : nat -> R -> R) : let d := minus site (middle p q) in cx d * cx d + cy d * cy d + cz d * cz d < 1 ->
  (forall i, (i < 10)%nat -> let e := minus site (along p q i) in 0 < cy e * cy e + cz e * cz e /\ primitive (F i) (biotSavart (minus q p) (cy e) (cz e))) ->
  mora p q site = Some (sumTo 10 (fun i => let e := minus site (along p q i) in 1 / 10 * (F i (cx e + 1) - F i (cx e)))).
Proof. apply near_integrals. Qed.
Example near_case : mora pA pB sA = Some (sumTo 10 (fun i => 1 / 20 * gy (INR i / 10))). Proof. exact beside_forth. Qed.

(** Run the other way, a piece far away gives the opposite. *)
Theorem reversed_partial p q site k : let d := minus site (middle p q) in 1 <= cx d * cx d + cy d * cy d + cz d * cz d ->
  mora p q site = Some k -> mora q p site = Some (- k).
Proof. apply mora_reverse. Qed.
Example reversed_case : mora (0, 0, 1) (0, 0, 0) (3, 4, 1 / 2) = Some (- (- 4 * (prim 16 4 - prim 16 3))).
Proof. apply reversed_partial; [unfold minus, middle, cx, cy, cz; cbn [fst snd]; lra|]. apply link_case. Qed.
(** One near does not. *)
Theorem reversed_refuted : ~ (forall p q site k, mora p q site = Some k -> mora q p site = Some (- k)).
Proof.
  intros H. pose proof (H _ _ _ _ beside_forth) as E. rewrite beside_back in E. apply (f_equal (fun o => match o with Some a => a | None => 0 end)) in E.
  cbn [sumTo Nat.sub] in E. pose proof gy_less as G. replace (INR 0 / 10) with 0 in E by (cbn; field). replace (INR 10 / 10) with 1 in E by (cbn; field).
  set (g0 := gy 0) in *. set (g1 := gy 1) in *. lra.
Qed.
(** A piece whose middle is on a link gives no number. *)
Theorem through_refuted : mora (1 / 2, - (1 / 2), 0) (1 / 2, 1 / 2, 0) (0, 0, 0) = None.
Proof.
  unfold mora. cbv zeta. unfold cx, cy, cz. cbn [fst snd]. destruct (Rlt_dec _ 1) as [_|N]; [|exfalso; apply N; lra].
  change (seq 0 10) with (seq 0 5 ++ [5%nat] ++ seq 6 4). rewrite !fold_left_app.
  set (f := fun (res : option R) (i : nat) => _).
  assert (Q : int0 (0 - 1 / 2 * (1 / 2 + 1 / 2) + (1 / 2 - 1 / 2) * (- (1 / 2) + INR 5 / 10)) (0 - 1 / 2 * (1 / 2 + - (1 / 2)) + (1 / 2 - - (1 / 2)) * (- (1 / 2) + INR 5 / 10)) (0 - 1 / 2 * (0 + 0) + (0 - 0) * (- (1 / 2) + INR 5 / 10)) = None).
  { replace (INR 5) with 5 by (cbn; ring). unfold int0. cbv zeta. destruct (Req_EM_T _ _) as [_|N]; [|exfalso; apply N; field]. unfold quot.
    destruct (Req_EM_T _ 0) as [_|N]; [reflexivity|]. exfalso. apply N. set (s := sqrt _). field. }
  set (a := fold_left f (seq 0 5) (Some 0)).
  assert (M : fold_left f [5%nat] a = None).
  { cbn [fold_left]. unfold f. rewrite Q. destruct a; reflexivity. }
  rewrite M. reflexivity.
Qed.

(** The gradient of a link is half the sum of what the pieces give, without those from an end to the next point. *)
Theorem pieces_sum_partial rot pts eps site (k : nat -> R) :
  (forall il, (il < length pts)%nat -> nth (il mod length eps) eps 0%nat <> 1%nat ->
     exists p q, nth_error pts il = Some p /\ nth_error pts (il + 1) = Some q /\ mora (rot p) (rot q) (rot site) = Some (k il)) ->
  pieces rot pts eps site = Some (1 / 2 * sumTo (length pts) (fun il => if (nth (il mod length eps) eps 0 =? 1)%nat then 0 else k il)).
Proof. intros H. rewrite pieces_eq. rewrite (pieces_fold rot pts eps site k H) by lia. reflexivity. Qed.
Example pieces_case : pieces (fun p => p) [(0, 0, 0); (0, 0, 1)] [0; 1]%nat (3, 4, 1 / 2) = Some (1 / 2 * (- 4 * (prim 16 4 - prim 16 3))).
Proof.
  rewrite (pieces_sum_partial _ _ _ _ (fun _ => - 4 * (prim 16 4 - prim 16 3))).
  - cbn [length sumTo nth Nat.modulo Nat.divmod fst snd Nat.sub Nat.eqb]. f_equal. ring.
  - intros [|[|il]] L; cbn [length] in *; [intros _|intros N; exfalso; apply N; reflexivity|lia]. exists (0, 0, 0), (0, 0, 1). split; [reflexivity|]. split; [reflexivity|]. apply link_case.
Qed.
(** If the last point is not marked as an end, a point behind the last is read. *)
Theorem open_end_refuted rot T pts eps site : length eps = length pts -> pts <> [] -> last eps 0%nat <> 1%nat -> pieces rot (withCopies T pts) eps site = None.
Proof.
  intros HE HP HL. rewrite pieces_eq. set (all := withCopies T pts).
  assert (LA : length all = (3 * length pts)%nat).
  { unfold all, withCopies. cbn [flat_map]. rewrite !app_length, !map_length. cbn [length]. lia. }
  assert (P1 : (1 <= length pts)%nat) by (destruct pts; [contradiction|cbn [length]; lia]).
  replace (length all) with (Datatypes.S (length all - 1)) by lia. rewrite seq_S, fold_left_app. cbn [fold_left plus].
  destruct (fold_left _ _ _) as [b|]; [|reflexivity]. unfold addPiece.
  assert (M : ((length all - 1) mod length eps = length eps - 1)%nat).
  { rewrite LA, HE. replace (3 * length pts - 1)%nat with (length pts - 1 + 2 * length pts)%nat by lia. rewrite Nat.mod_add by lia. apply Nat.mod_small. lia. }
  rewrite M. assert (NL : nth (length eps - 1) eps 0%nat = last eps 0%nat).
  { apply nth_of_last. }
  rewrite NL. destruct (Nat.eqb_spec (last eps 0%nat) 1) as [E|_]; [contradiction|].
  replace (length all - 1 + 1)%nat with (length all) by lia. rewrite (proj2 (nth_error_None all (length all))) by lia. destruct (nth_error all (length all - 1)); reflexivity.
Qed.
Example open_case : pieces (fun p => p) (withCopies 4 [(0, 0, 0); (0, 0, 1)]) [0; 0]%nat (3, 4, 0) = None.
Proof. apply open_end_refuted; [reflexivity|discriminate|cbn; lia]. Qed.

(** The copy above is one box above; the one meant for one box below is not: it is 2^64 less the box above. *)
Theorem copies_partial T pts : (1 <= T < 2 ^ 63)%Z ->
  withCopies T pts = pts ++ map (fun p => (cx p, cy p, cz p + (IZR (2 ^ 64) - IZR T))) pts ++ map (fun p => (cx p, cy p, cz p + IZR T)) pts.
Proof.
  intros H. unfold withCopies. cbn [flat_map]. rewrite app_nil_r. unfold shift.
  replace ((-1 * T) mod 2 ^ 64)%Z with (2 ^ 64 - T)%Z.
  2:{ apply Z.mod_unique with (q := (-1)%Z); [left|]; lia. }
  replace ((1 * T) mod 2 ^ 64)%Z with T by (rewrite Z.mul_1_l, Z.mod_small; [reflexivity|lia]).
  rewrite minus_IZR. reflexivity.
Qed.
Example copies_case : (1 <= 128 < 2 ^ 63)%Z. Proof. lia. Qed.
Theorem below_refuted T p : (1 <= T < 2 ^ 63)%Z -> ~ In (cx p, cy p, cz p - IZR T) (withCopies T [p]).
Proof.
  intros H. rewrite copies_partial by exact H. assert (A : 1 <= IZR T) by (apply IZR_le; lia). assert (B : 2 * IZR T < IZR (2 ^ 64)) by (rewrite <- mult_IZR; apply IZR_lt; lia).
  cbn [app map In]. set (h := IZR (2 ^ 64)) in *. intros [E|[E|[E|[]]]]; apply (f_equal cz) in E; unfold cz in E; cbn [snd] in E; fold (cz p) in E; lra.
Qed.

(** On one rank, in a box at most twice as deep as wide, the field is the phase summed along z, then y, then x, if v was zero at the first site. *)
Theorem any_phase_partial L nz Bx By Bz t r iz iy ix : (1 <= nz <= 2 * L)%nat -> t 0%nat 0%nat 0%nat 0%nat = 0 -> (r < 1)%nat -> (iz < nz)%nat -> (iy < L)%nat -> (ix < L)%nat ->
  exists f, anystring L nz 1 Bx By Bz t = Some f /\ f r iz iy ix = fieldOf (pathSum nz Bx By Bz r iz iy ix).
Proof.
  intros H T0 Hr Hz Hy Hx. unfold anystring. destruct (Nat.ltb_spec (2 * (L * L)) (L * nz)) as [B|_].
  { exfalso. assert (L * nz <= L * (2 * L))%nat by (apply Nat.mul_le_mono_l; lia). lia. }
  eexists. split; [reflexivity|]. cbv beta zeta. rewrite phase_one by lia || exact T0. reflexivity.
Qed.
Example any_case : exists f, anystring 2 2 1 (fun _ _ _ _ => 1) (fun _ _ _ => 2) (fun _ _ => 3) (fun _ _ _ _ => 0) = Some f /\ f 0%nat 1%nat 1%nat 1%nat = fieldOf 6.
Proof.
  destruct (any_phase_partial 2 2 (fun _ _ _ _ => 1) (fun _ _ _ => 2) (fun _ _ => 3) (fun _ _ _ _ => 0) 0 1 1 1) as [f [A B]]; try lia; [reflexivity|].
  exists f. split; [exact A|]. rewrite B. f_equal. unfold pathSum. cbn [sumTo]. ring.
Qed.
(** On any number of ranks, whatever v held: modulus 1 and at rest. *)
Theorem any_vacuum L nz K Bx By Bz t f r iz iy ix : anystring L nz K Bx By Bz t = Some f ->
  fst (fst (f r iz iy ix)) * fst (fst (f r iz iy ix)) + snd (fst (f r iz iy ix)) * snd (fst (f r iz iy ix)) = 1 /\ snd (f r iz iy ix) = (0, 0).
Proof.
  unfold anystring. destruct (2 * (L * L) <? L * nz)%nat; [discriminate|]. intros E. apply (f_equal (fun o => match o with Some a => a r iz iy ix | None => f r iz iy ix end)) in E. cbv beta iota in E.
  rewrite <- E. cbn [fst snd]. split; [|reflexivity]. set (th := xLine _ _ _ _ _ _ _ _). pose proof (sin2_cos2 th) as Q. unfold Rsqr in Q. lra.
Qed.
Example vacuum_case : exists f, anystring 2 1 2 (fun _ _ _ _ => 1) (fun _ _ _ => 2) (fun _ _ => 3) (fun _ _ _ _ => 7) = Some f. Proof. eexists. reflexivity. Qed.
(** On more ranks, the first slice of a rank follows from the rank before, and the others from zero. *)
Theorem any_ranks_partial L nz K Bx By Bz r : (2 <= K)%nat -> (1 <= r < K)%nat -> (2 <= nz <= 2 * L)%nat ->
  exists f, anystring L nz K Bx By Bz (fun _ _ _ _ => 0) = Some f /\ f r 0%nat 0%nat 0%nat = fieldOf (sumTo nz (Bz (r - 1)%nat)) /\
    (forall iz, (1 <= iz < nz)%nat -> f r iz 0%nat 0%nat = fieldOf (sumTo iz (Bz r))).
Proof.
  intros HK Hr Hz. unfold anystring. destruct (Nat.ltb_spec (2 * (L * L)) (L * nz)) as [B|_].
  { exfalso. assert (L * nz <= L * (2 * L))%nat by (apply Nat.mul_le_mono_l; lia). lia. }
  eexists. split; [reflexivity|]. cbv beta zeta.
  assert (X : forall iz, (iz < nz)%nat -> xLine L nz Bx (yLine L nz By (zAll K nz Bz (fun _ _ _ _ => 0))) r iz 0%nat 0%nat = zAll K nz Bz (fun _ _ _ _ => 0) r iz 0%nat 0%nat).
  { intros iz Hi. unfold xLine at 1. rewrite (proj2 (Nat.ltb_lt _ _) Hi), (proj2 (Nat.ltb_lt 0 L)) by lia. cbn [andb]. rewrite run_at by lia. unfold yLine at 1. rewrite (proj2 (Nat.ltb_lt _ _) Hi).
    cbn [andb Nat.eqb]. rewrite run_at by lia. cbn [sumTo]. ring. }
  split.
  - rewrite X by lia. rewrite zAll_first by lia. rewrite zAll_at by lia. rewrite Rplus_0_l. reflexivity.
  - intros iz Hi. rewrite X by lia. rewrite zAll_at by lia. rewrite Rplus_0_l. reflexivity.
Qed.
Example any_ranks_case : (2 <= 4)%nat /\ (1 <= 3 < 4)%nat /\ (2 <= 2 <= 2 * 8)%nat. Proof. lia. Qed.
(** So that the phase is not the sum along the path. *)
Theorem any_ranks_refuted : ~ anyRight.
Proof.
  intros H. destruct (H 4%nat 2%nat 2%nat (fun _ _ _ _ => 0) (fun _ _ _ => 0) (fun r z => if (r =? 0)%nat then PI / 4 else 0) 1%nat 1%nat 0%nat 0%nat) as [f [A B]]; try lia.
  destruct (any_ranks_partial 4 2 2 (fun _ _ _ _ => 0) (fun _ _ _ => 0) (fun r z => if (r =? 0)%nat then PI / 4 else 0) 1) as [f' [A' [_ C]]]; try lia.
  rewrite A in A'. injection A' as <-. rewrite C in B by lia. unfold fieldOf, pathSum in B. cbn [sumTo Nat.eqb] in B. apply (f_equal (fun o => snd (fst o))) in B. cbn [fst snd] in B.
  replace (0 + (0 + PI / 4 + PI / 4) + (0 + 0) + 0 + 0) with (PI / 2) in B by field. rewrite sin_PI2 in B. replace (0 + 0) with 0 in B by ring. rewrite sin_0 in B. lra.
Qed.
(** A box more than twice as deep as wide: two gradients are written to one place. *)
Theorem any_deep_refuted L nz K Bx By Bz t : (1 <= L)%nat -> (2 * L < nz)%nat -> anystring L nz K Bx By Bz t = None.
Proof.
  intros H1 H2. unfold anystring. destruct (Nat.ltb_spec (2 * (L * L)) (L * nz)) as [_|B]; [reflexivity|]. exfalso.
  assert (L * (2 * L + 1) <= L * nz)%nat by (apply Nat.mul_le_mono_l; lia). lia.
Qed.
Example any_deep_case : (1 <= 4)%nat /\ (2 * 4 < 16)%nat. Proof. lia. Qed.
(** The height of a slice is right in a box as deep as wide, and on the first rank. *)
Theorem heights_partial L T K r iz iy ix : T = L \/ r = 0%nat -> cz (siteOf L K r iz iy ix) = INR (trueHeight T K r iz).
Proof. intros [->| ->]; unfold siteOf, trueHeight, cz; cbn [snd]; f_equal; lia. Qed.
Example heights_case : cz (siteOf 8 2 1 3 0 0) = INR 7. Proof. reflexivity. Qed.
(** In a deeper or flatter box, on any other rank, it is not. *)
Theorem heights_refuted L T K r iz iy ix : (1 <= r)%nat -> (L / K <> T / K)%nat -> cz (siteOf L K r iz iy ix) <> INR (trueHeight T K r iz).
Proof.
  intros Hr N E. apply INR_eq in E. unfold trueHeight in E. apply N. assert (M : (r * (L / K) = r * (T / K))%nat) by lia. apply Nat.mul_cancel_l in M; [exact M|lia].
Qed.
Example heights_bad_case : (8 / 2 <> 16 / 2)%nat. Proof. cbn. lia. Qed.

Print Assumptions link_integral_partial.
Print Assumptions near_integral_partial.
Print Assumptions reversed_partial.
Print Assumptions reversed_refuted.
Print Assumptions through_refuted.
Print Assumptions pieces_sum_partial.
Print Assumptions open_end_refuted.
Print Assumptions copies_partial.
Print Assumptions below_refuted.
Print Assumptions any_phase_partial.
Print Assumptions any_vacuum.
Print Assumptions any_ranks_partial.
Print Assumptions any_ranks_refuted.
Print Assumptions any_deep_refuted.
Print Assumptions heights_partial.
Print Assumptions heights_refuted.
