(** Lemmas on the phase of the WKB transport: Gauss' series solves its equation, and what the tabulated expressions are. *)
From Coq Require Import Lqa Lra Reals List Arith ZArith Lia Bool Ranalysis5.
From Verif Require Import CosmoModel CosmoSpec CosmoProofs ConserveProofs PaxProofs SplineModel SplineSpec WkbModel WkbSpec WkbProofs.
Import ListNotations.
Open Scope R_scope.
Ltac Zify.zify_post_hook ::= idtac.

(** ** The series *)
Definition gc (c : R) (n : nat) : R := poch (1 / 2) n / poch c n.
Lemma poch_pos a n : 0 < a -> 0 < poch a n.
Proof. intros A. induction n as [|n IH]; cbn [poch]; [lra|]. apply Rmult_lt_0_compat; [exact IH|]. pose proof (pos_INR n). lra. Qed.
Lemma poch_one n : poch 1 n = INR (fact n).
Proof. induction n as [|n IH]; [reflexivity|]. cbn [poch]. rewrite IH, fact_simpl, mult_INR, S_INR. ring. Qed.
Lemma gc_is c n : 0 < c -> poch (1 / 2) n * poch 1 n / (poch c n * INR (fact n)) = gc c n.
Proof. intros C. rewrite poch_one. pose proof (INR_fact_neq_0 n). pose proof (poch_pos c n C). unfold gc. field. split; lra. Qed.
Lemma gc_next c n : 0 < c -> (c + INR n) * gc c (S n) = (1 / 2 + INR n) * gc c n.
Proof.
  intros C. unfold gc. cbn [poch]. pose proof (poch_pos c n C). pose proof (pos_INR n). field. split; lra.
Qed.
Lemma gc_bound c n : 1 <= c -> 0 < gc c n <= 1.
Proof.
  intros C. assert (P : forall k, 0 < gc c k) by (intros k; unfold gc; apply Rdiv_lt_0_compat; apply poch_pos; lra).
  split; [apply P|]. induction n as [|n IH]; [unfold gc; cbn [poch]; lra|].
  pose proof (gc_next c n ltac:(lra)) as E. pose proof (pos_INR n) as Q. pose proof (P (S n)) as PS. pose proof (P n) as PN.
  assert (B : (c + INR n) * gc c (S n) <= (c + INR n) * 1).
  { rewrite E. apply Rle_trans with ((1 / 2 + INR n) * 1); [apply Rmult_le_compat_l; lra|lra]. }
  apply Rmult_le_reg_l with (c + INR n); [lra|exact B].
Qed.
Fixpoint gS (c : R) (n : nat) (y : R) : R := match n with O => 1 | S m => gS c m y + gc c (S m) * y ^ S m end.
Fixpoint gD (c : R) (n : nat) (y : R) : R := match n with O => 0 | S m => gD c m y + gc c (S m) * (INR (S m) * y ^ m) end.
Lemma dl_gS c n y : derivable_pt_lim (gS c n) y (gD c n y).
Proof.
  induction n as [|n IH]; cbn [gS gD]; [apply dl_const|]. apply dl_plus; [exact IH|].
  eapply dl_eq; [apply dl_mult; [apply dl_const|exact (derivable_pt_lim_pow y (S n))]|]. cbv beta. replace (pred (S n)) with n by reflexivity. ring.
Qed.
Lemma gS_sum c n y : 0 < c -> sum_f_R0 (fun n => poch (1 / 2) n * poch 1 n / (poch c n * INR (fact n)) * y ^ n) n = gS c n y.
Proof.
  intros C. induction n as [|n IH]; [cbn [sum_f_R0 gS]; rewrite gc_is by exact C; unfold gc; cbn [poch pow]; lra|].
  cbn [sum_f_R0 gS]. rewrite IH, gc_is by exact C. reflexivity.
Qed.
Lemma gD_eq c n y : 0 < c -> y * (1 - y) * gD c n y = (c - 1) * (1 - gS c n y) + y / 2 * gS c n y - (INR n + 1 / 2) * gc c n * y ^ S n.
Proof.
  intros C. induction n as [|n IH].
  - cbn [gD gS INR]. unfold gc. cbn [poch pow]. lra.
  - pose proof (gc_next c n C) as E. cbn [gD gS]. rewrite Rmult_plus_distr_l, IH.
    replace ((INR n + 1 / 2) * gc c n) with ((c + INR n) * gc c (S n)) by (rewrite E; ring). rewrite S_INR.
    change (y ^ S (S n)) with (y * (y * y ^ n)). change (y ^ S n) with (y * y ^ n). set (g := gc c (S n)). set (q := y ^ n). field.
Qed.
Lemma gS_tail c n j y : 1 <= c -> 0 <= y < 1 -> 0 <= gS c (n + j) y - gS c n y <= y ^ S n * (1 - y ^ j) / (1 - y).
Proof.
  intros C Y. induction j as [|j IH].
  - rewrite Nat.add_0_r. cbn [pow]. replace (y * y ^ n * (1 - 1) / (1 - y)) with 0 by (field; lra). lra.
  - replace (n + S j)%nat with (S (n + j)) by lia. cbn [gS]. pose proof (gc_bound c (S (n + j)) C) as B.
    assert (P : 0 <= y ^ S (n + j)) by (apply pow_le; lra).
    assert (U : gc c (S (n + j)) * y ^ S (n + j) <= y ^ S (n + j)) by (rewrite <- (Rmult_1_l (y ^ S (n + j))) at 2; apply Rmult_le_compat_r; lra).
    assert (L : 0 <= gc c (S (n + j)) * y ^ S (n + j)) by (apply Rmult_le_pos; lra).
    replace (y ^ S n * (1 - y ^ S j) / (1 - y)) with (y ^ S n * (1 - y ^ j) / (1 - y) + y ^ S (n + j)).
    + lra.
    + replace (S (n + j)) with (S n + j)%nat by lia. rewrite pow_add. cbn [pow]. field. lra.
Qed.
Lemma limit_between f l n lo hi : infinite_sum f l -> (forall j, lo <= sum_f_R0 f (n + j) <= hi) -> lo <= l <= hi.
Proof.
  intros H B. assert (Q : forall e, 0 < e -> lo - e <= l <= hi + e).
  { intros e E. destruct (H e E) as [N K]. specialize (K (n + N)%nat ltac:(lia)). specialize (B N). unfold R_dist in K. apply Rabs_def2 in K. lra. }
  split; apply Rnot_lt_le; intros X.
  - specialize (Q ((lo - l) / 2) ltac:(lra)). lra.
  - specialize (Q ((l - hi) / 2) ltac:(lra)). lra.
Qed.
Lemma gauss_tail F c n y : gaussFunction F -> 1 <= c -> 0 <= y < 1 -> 0 <= F (1 / 2) 1 c y - gS c n y <= y ^ S n / (1 - y).
Proof.
  intros G C Y. assert (B : gS c n y <= F (1 / 2) 1 c y <= gS c n y + y ^ S n / (1 - y)); [|lra].
  apply (limit_between _ _ n _ _ (G c y C Y)). intros j. rewrite gS_sum by lra. pose proof (gS_tail c n j y C Y) as T.
  assert (P : 0 <= y ^ S n) by (apply pow_le; lra). assert (P' : 0 <= y ^ j) by (apply pow_le; lra).
  assert (U : y ^ S n * (1 - y ^ j) / (1 - y) <= y ^ S n / (1 - y)).
  { unfold Rdiv. apply Rmult_le_compat_r; [left; apply Rinv_0_lt_compat; lra|]. rewrite <- (Rmult_1_r (y ^ S n)) at 2. apply Rmult_le_compat_l; lra. }
  lra.
Qed.
Lemma geo_bound q n : 0 < q < 1 -> INR (S n) * q ^ n <= / (1 - q).
Proof.
  intros Q. assert (A : INR (S n) * q ^ n <= sum_f_R0 (fun k => q ^ k) n).
  { induction n as [|n IH]; [cbn; lra|]. cbn [sum_f_R0]. rewrite (S_INR (S n)), Rmult_plus_distr_r, Rmult_1_l. apply Rplus_le_compat_r.
    eapply Rle_trans; [|exact IH]. apply Rmult_le_compat_l; [apply pos_INR|]. cbn [pow]. rewrite <- (Rmult_1_l (q ^ n)) at 2. apply Rmult_le_compat_r; [apply pow_le; lra|lra]. }
  eapply Rle_trans; [exact A|]. rewrite tech3 by lra. unfold Rdiv. rewrite <- (Rmult_1_l (/ (1 - q))) at 2. apply Rmult_le_compat_r; [left; apply Rinv_0_lt_compat; lra|].
  pose proof (pow_lt q (S n) ltac:(lra)). lra.
Qed.
Definition gaussRate (F : R -> R -> R -> R -> R) (c x : R) : R := ((c - 1) * (1 - F (1 / 2) 1 c x) + x / 2 * F (1 / 2) 1 c x) / (x * (1 - x)).
(** Uniform bounds between lo and hi *)
Lemma pow_mono x y n : 0 <= x <= y -> x ^ n <= y ^ n. Proof. intros H. apply pow_incr, H. Qed.
Lemma gauss_uniform F c lo hi : gaussFunction F -> 1 <= c -> 0 < lo <= hi -> hi < 1 -> exists K q, 0 < K /\ 0 < q < 1 /\
  forall n y, lo <= y <= hi -> Rabs (F (1 / 2) 1 c y - gS c n y) <= K * q ^ n /\ Rabs (gaussRate F c y - gD c n y) <= K * q ^ n.
Proof.
  intros G C LH H. set (q := sqrt hi). assert (Q0 : 0 < q) by (apply sqrt_lt_R0; lra). assert (QQ : q * q = hi) by (apply sqrt_sqrt; lra).
  assert (Q1 : q < 1) by (unfold q; rewrite <- sqrt_1; apply sqrt_lt_1; lra).
  set (T := / (1 - hi)). set (U := / (1 - q)). set (V := / (lo * (1 - hi))).
  assert (T0 : 0 < T) by (apply Rinv_0_lt_compat; lra). assert (U0 : 0 < U) by (apply Rinv_0_lt_compat; lra).
  assert (V0 : 0 < V) by (apply Rinv_0_lt_compat; apply Rmult_lt_0_compat; lra).
  set (K2 := (c * T + U) * V). assert (K0 : 0 < K2) by (apply Rmult_lt_0_compat; [apply Rplus_lt_0_compat; [apply Rmult_lt_0_compat; lra|lra]|lra]).
  exists (T + K2), q. split; [lra|]. split; [lra|]. intros n y Y.
  pose proof (gauss_tail F c n y G C ltac:(lra)) as TL. set (d := F (1 / 2) 1 c y - gS c n y) in *.
  assert (QN : 0 < q ^ n) by (apply pow_lt; lra).
  assert (HQ : hi ^ S n <= q ^ n).
  { rewrite <- QQ, Rpow_mult_distr. cbn [pow]. assert (A : q ^ n <= 1) by (rewrite <- (pow1 n); apply pow_mono; lra).
    apply Rle_trans with (1 * (q * q ^ n)); [|rewrite Rmult_1_l; rewrite <- (Rmult_1_l (q ^ n)) at 2; apply Rmult_le_compat_r; lra].
    apply Rmult_le_compat_r; [apply Rmult_le_pos; lra|]. apply Rle_trans with (1 * 1); [apply Rmult_le_compat; lra|lra]. }
  assert (YH : y ^ S n <= hi ^ S n) by (apply pow_mono; lra). assert (Y0 : 0 < y ^ S n) by (apply pow_lt; lra).
  assert (DB : d <= q ^ n * T).
  { apply Rle_trans with (y ^ S n / (1 - y)); [apply TL|]. unfold Rdiv, T. apply Rmult_le_compat; [lra|left; apply Rinv_0_lt_compat; lra|lra|]. apply Rinv_le_contravar; lra. }
  split.
  - rewrite Rabs_right by lra. apply Rle_trans with (q ^ n * T); [exact DB|]. rewrite Rmult_plus_distr_r. assert (0 < K2 * q ^ n) by (apply Rmult_lt_0_compat; lra). lra.
  - assert (YY : 0 < y * (1 - y)) by (apply Rmult_lt_0_compat; lra).
    assert (E : gaussRate F c y - gD c n y = ((3 / 2 - c - (1 - y) / 2) * d + (INR n + 1 / 2) * gc c n * y ^ S n) * / (y * (1 - y))).
    { pose proof (gD_eq c n y ltac:(lra)) as E. unfold gaussRate, d. replace (gD c n y) with (y * (1 - y) * gD c n y * / (y * (1 - y))) by (field; lra). rewrite E. field. lra. }
    rewrite E, Rabs_mult, (Rabs_right (/ _)) by (left; apply Rinv_0_lt_compat, YY).
    assert (IV : / (y * (1 - y)) <= V).
    { unfold V. apply Rinv_le_contravar; [apply Rmult_lt_0_compat; lra|]. apply Rmult_le_compat; lra. }
    assert (B2 : Rabs ((INR n + 1 / 2) * gc c n * y ^ S n) <= q ^ n * U).
    { pose proof (gc_bound c n C) as GB. pose proof (pos_INR n) as IN. pose proof (geo_bound q n ltac:(lra)) as GE. fold U in GE. rewrite S_INR in GE.
      assert (A1 : 0 <= (INR n + 1 / 2) * gc c n) by (apply Rmult_le_pos; lra).
      rewrite Rabs_right by (apply Rle_ge, Rmult_le_pos; lra).
      assert (A2 : (INR n + 1 / 2) * gc c n <= INR n + 1).
      { apply Rle_trans with ((INR n + 1 / 2) * 1); [apply Rmult_le_compat_l; lra|lra]. }
      apply Rle_trans with ((INR n + 1) * hi ^ S n); [apply Rmult_le_compat; lra|].
      rewrite <- QQ, Rpow_mult_distr. change (q ^ S n) with (q * q ^ n). replace ((INR n + 1) * (q * q ^ n * (q * q ^ n))) with ((q * q) * (((INR n + 1) * q ^ n) * q ^ n)) by ring.
      assert (A3 : 0 <= (INR n + 1) * q ^ n * q ^ n) by (apply Rmult_le_pos; [apply Rmult_le_pos|]; lra).
      apply Rle_trans with (1 * ((INR n + 1) * q ^ n * q ^ n)); [apply Rmult_le_compat_r; lra|]. rewrite Rmult_1_l, (Rmult_comm (q ^ n) U). apply Rmult_le_compat_r; lra. }
    assert (B1 : Rabs ((3 / 2 - c - (1 - y) / 2) * d) <= q ^ n * (c * T)).
    { rewrite Rabs_mult, (Rabs_right d) by lra. replace (q ^ n * (c * T)) with (c * (q ^ n * T)) by ring. apply Rmult_le_compat; [apply Rabs_pos|lra| |exact DB]. apply Rabs_le. lra. }
    apply Rle_trans with ((q ^ n * (c * T) + q ^ n * U) * V).
    + apply Rmult_le_compat; [apply Rabs_pos|left; apply Rinv_0_lt_compat, YY| |exact IV]. eapply Rle_trans; [apply Rabs_triang|]. lra.
    + unfold K2. rewrite Rmult_plus_distr_r. assert (0 < T * q ^ n) by (apply Rmult_lt_0_compat; lra). replace ((q ^ n * (c * T) + q ^ n * U) * V) with ((c * T + U) * V * q ^ n) by ring. lra.
Qed.
Lemma pow_vanish K q e : 0 < K -> 0 < q < 1 -> 0 < e -> exists N, forall n, (N <= n)%nat -> K * q ^ n < e.
Proof.
  intros K0 Q E. destruct (pow_lt_1_zero q ltac:(rewrite Rabs_right; lra) (e / K) ltac:(apply Rdiv_lt_0_compat; lra)) as [N H]. exists N. intros n L.
  specialize (H n ltac:(lia)). rewrite Rabs_right in H by (left; apply pow_lt; lra). apply Rmult_lt_reg_r with (/ K); [apply Rinv_0_lt_compat, K0|]. replace (K * q ^ n * / K) with (q ^ n) by (field; lra). exact H.
Qed.
(** Gauss' equation *)
Lemma gauss_equation F c x : gaussFunction F -> 1 <= c -> 0 < x < 1 -> derivable_pt_lim (F (1 / 2) 1 c) x (gaussRate F c x).
Proof.
  intros G C X. set (rr := Rmin x (1 - x) / 2). assert (R0 : 0 < rr) by (unfold rr; pose proof (Rmin_pos x (1 - x)); lra).
  assert (RB : rr <= x / 2 /\ rr <= (1 - x) / 2) by (unfold rr; pose proof (Rmin_l x (1 - x)); pose proof (Rmin_r x (1 - x)); lra).
  destruct (gauss_uniform F c (x / 2) ((1 + x) / 2) G C ltac:(lra) ltac:(lra)) as [K [q [K0 [Q B]]]].
  assert (BO : forall y, Boule x (mkposreal rr R0) y -> x / 2 <= y <= (1 + x) / 2).
  { intros y H. unfold Boule in H. cbn [pos] in H. apply Rabs_def2 in H. lra. }
  assert (U1 : CVU (gS c) (F (1 / 2) 1 c) x (mkposreal rr R0)).
  { intros e E. destruct (pow_vanish K q e K0 Q E) as [N H]. exists N. intros n y L Y. eapply Rle_lt_trans; [apply (B n y (BO y Y))|]. apply H, L. }
  assert (U2 : CVU (gD c) (gaussRate F c) x (mkposreal rr R0)).
  { intros e E. destruct (pow_vanish K q e K0 Q E) as [N H]. exists N. intros n y L Y. eapply Rle_lt_trans; [apply (B n y (BO y Y))|]. apply H, L. }
  assert (CF : forall y, Boule x (mkposreal rr R0) y -> continuity_pt (F (1 / 2) 1 c) y).
  { apply (CVU_continuity (gS c)); [exact U1|]. intros n y _. exact (dl_cont _ _ _ (dl_gS c n y)). }
  apply (derivable_pt_lim_CVU (gS c) (gD c) (F (1 / 2) 1 c) (gaussRate F c) x x (mkposreal rr R0)).
  - unfold Boule. rewrite Rminus_diag_eq by reflexivity. rewrite Rabs_R0. exact R0.
  - intros y n _. apply dl_gS.
  - intros y Y e E. destruct (U1 e E) as [N H]. exists N. intros n L. unfold R_dist. rewrite <- Rabs_Ropp, Ropp_minus_distr. apply H; [exact L|exact Y].
  - exact U2.
  - intros y Y. pose proof (CF y Y) as CY. apply BO in Y.
    assert (CI : continuity_pt (fun u => u) y) by (apply (dl_cont _ _ 1), dl_idv).
    assert (CC : forall k, continuity_pt (fun _ => k) y) by (intros k; apply (dl_cont _ _ 0), dl_const).
    unfold gaussRate. apply (continuity_pt_div (fun u => (c - 1) * (1 - F (1 / 2) 1 c u) + u / 2 * F (1 / 2) 1 c u) (fun u => u * (1 - u))).
    + apply (continuity_pt_plus (fun u => (c - 1) * (1 - F (1 / 2) 1 c u)) (fun u => u / 2 * F (1 / 2) 1 c u)).
      * apply (continuity_pt_mult (fun _ => c - 1) (fun u => 1 - F (1 / 2) 1 c u)); [apply CC|]. apply (continuity_pt_minus (fun _ => 1) (F (1 / 2) 1 c)); [apply CC|exact CY].
      * apply (continuity_pt_mult (fun u => u / 2) (F (1 / 2) 1 c)); [|exact CY]. apply (continuity_pt_mult (fun u => u) (fun _ => / 2)); [exact CI|apply CC].
    + apply (continuity_pt_mult (fun u => u) (fun u => 1 - u)); [exact CI|]. apply (continuity_pt_minus (fun _ => 1) (fun u => u)); [apply CC|exact CI].
    + apply Rgt_not_eq. apply Rmult_lt_0_compat; lra.
Qed.
(** There is such a function *)
Lemma gauss_converges c x : 1 <= c -> 0 <= x < 1 -> {l | infinite_sum (fun n => poch (1 / 2) n * poch 1 n / (poch c n * INR (fact n)) * x ^ n) l}.
Proof.
  intros C X. destruct (growing_cv (fun n => gS c n x)) as [l H].
  - intros n. cbn [gS]. pose proof (gc_bound c (S n) C). assert (0 <= x ^ S n) by (apply pow_le; lra). assert (0 <= gc c (S n) * x ^ S n) by (apply Rmult_le_pos; lra). lra.
  - exists (1 + x ^ 1 / (1 - x)). intros y [n ->]. pose proof (gS_tail c 0 n x C X) as T. cbn [Nat.add] in T. cbn [gS] in T.
    assert (U : x ^ 1 * (1 - x ^ n) / (1 - x) <= x ^ 1 / (1 - x)).
    { unfold Rdiv. apply Rmult_le_compat_r; [left; apply Rinv_0_lt_compat; lra|]. pose proof (pow_le x n ltac:(lra)). rewrite !pow_1. apply Rle_trans with (x * 1); [apply Rmult_le_compat_l; lra|lra]. }
    lra.
  - exists l. intros e E. destruct (H e E) as [N K]. exists N. intros n L. rewrite gS_sum by lra. apply K, L.
Qed.
Definition someGauss (a b c x : R) : R :=
  match Rle_dec 1 c with
  | left C => match Rle_dec 0 x with
              | left X => match Rlt_dec x 1 with left Y => proj1_sig (gauss_converges c x C (conj X Y)) | right _ => 0 end
              | right _ => 0
              end
  | right _ => 0
  end.
Lemma someGauss_is : gaussFunction someGauss.
Proof.
  intros c x C X. unfold someGauss. destruct (Rle_dec 1 c); [|lra]. destruct (Rle_dec 0 x); [|lra]. destruct (Rlt_dec x 1); [|lra]. exact (proj2_sig (gauss_converges c x _ _)).
Qed.

(** ** The expressions of the phase *)
Definition xOf (i n k z : R) : R := mz i n z * mz i n z / (omega i n (k * k) z * omega i n (k * k) z).
Definition acc (F : R -> R -> R -> R -> R) (i n k z : R) : R :=
  2 / (4 + n) * (z * omega i n (k * k) z + (n / 2 + 1) * (z * (k * k) / omega i n (k * k) z * F (1 / 2) 1 (1 / (2 + n) + 1) (xOf i n k z))).
Lemma sq_pos x : x <> 0 -> 0 < x * x. Proof. intros H. apply (Rsqr_pos_lt x H). Qed.
Lemma mz_pos i n z : 0 < i -> 0 < z -> 0 < mz i n z.
Proof. intros I Z. unfold mz. apply Rmult_lt_0_compat; [apply Rmult_lt_0_compat; [exact I|apply exp_pos]|exact Z]. Qed.
Lemma mz_nz i n z : i <> 0 -> 0 < z -> mz i n z <> 0.
Proof. intros I Z. unfold mz. apply Rmult_integral_contrapositive_currified; [apply Rmult_integral_contrapositive_currified; [exact I|apply Rgt_not_eq, exp_pos]|lra]. Qed.
Lemma k_positive i n k z : k <> 0 -> 0 < k * k + mz i n z * mz i n z.
Proof. intros K. pose proof (sq_pos k K). pose proof (Rle_0_sqr (mz i n z)) as Q. unfold Rsqr in Q. lra. Qed.
Lemma xOf_range i n k z : k <> 0 -> i <> 0 -> 0 < z -> 0 < xOf i n k z < 1.
Proof.
  intros K I Z. unfold xOf. pose proof (sq_pos k K) as KK. rewrite omega_sq by lra. pose proof (sq_pos _ (mz_nz i n z I Z)) as MM.
  split; [apply Rdiv_lt_0_compat; lra|]. apply Rmult_lt_reg_r with (k * k + mz i n z * mz i n z); [lra|]. unfold Rdiv. rewrite Rmult_assoc, Rinv_l by lra. lra.
Qed.
Lemma dl_xOf i n k z : k <> 0 -> i <> 0 -> 0 < z -> derivable_pt_lim (xOf i n k) z (2 * (n / 2 + 1) / z * (xOf i n k z * (1 - xOf i n k z))).
Proof.
  intros K I Z. pose proof (k_positive i n k z K) as P. pose proof (omega_pos _ _ _ _ P) as W.
  unfold xOf at 1. eapply dl_eq.
  - apply dl_mult; [apply dl_mult; apply (dl_mz i n z Z)|]. apply dl_inv; [apply dl_mult; apply (dl_omega i n (k * k) z Z P)|]. cbv beta. apply Rgt_not_eq, Rmult_lt_0_compat; exact W.
  - cbv beta. unfold lograte, xOf. set (w := omega i n (k * k) z) in *. set (m := mz i n z). field. split; lra.
Qed.
Lemma dl_acc F i n k z : gaussFunction F -> -2 < n -> k <> 0 -> i <> 0 -> 0 < z -> derivable_pt_lim (acc F i n k) z (omega i n (k * k) z).
Proof.
  intros G N K I Z. pose proof (k_positive i n k z K) as P. pose proof (omega_pos _ _ _ _ P) as W. pose proof (sq_pos k K) as KK. pose proof (omega_sq i n (k * k) z ltac:(lra)) as SQ.
  pose proof (xOf_range i n k z K I Z) as X. pose proof (dl_xOf i n k z K I Z) as DX. set (c := 1 / (2 + n) + 1).
  assert (C : 1 <= c) by (unfold c; assert (0 < 1 / (2 + n)) by (apply Rdiv_lt_0_compat; lra); lra).
  pose proof (gauss_equation F c (xOf i n k z) G C X) as GE.
  pose proof (derivable_pt_lim_comp (xOf i n k) (F (1 / 2) 1 c) z _ _ DX GE) as DF. unfold comp in DF.
  unfold acc. fold c. eapply dl_eq.
  - apply dl_mult; [apply dl_const|]. apply dl_plus; [apply dl_mult; [apply dl_idv|apply (dl_omega i n (k * k) z Z P)]|].
    apply dl_mult; [apply dl_const|]. apply dl_mult; [|exact DF]. apply dl_mult; [apply dl_mult; [apply dl_idv|apply dl_const]|]. apply dl_inv; [apply (dl_omega i n (k * k) z Z P)|lra].
  - cbv beta. unfold gaussRate, lograte. set (f := F (1 / 2) 1 c (xOf i n k z)).
    assert (XE : mz i n z * mz i n z = xOf i n k z * (omega i n (k * k) z * omega i n (k * k) z)) by (unfold xOf; field; lra).
    assert (KE : k * k = (1 - xOf i n k z) * (omega i n (k * k) z * omega i n (k * k) z)) by lra.
    assert (CE : c - 1 = 1 / (2 + n)) by (unfold c; ring). rewrite CE.
    set (x := xOf i n k z) in *. set (w := omega i n (k * k) z) in *. rewrite XE. set (kk := k * k) in *. clearbody w. rewrite KE. clear SQ.
    field. repeat split; lra.
Qed.
Lemma sum_pos m w kk : 0 < kk -> 0 < w -> w * w = kk + m * m -> 0 < w + m.
Proof.
  intros K W E. apply Rnot_le_lt. intros L. assert (w * w <= m * m); [|lra]. replace (m * m) with ((- m) * (- m)) by ring. apply Rmult_le_compat; lra.
Qed.
Lemma omega_root i n k z : 0 < z -> sqrt (k * k + i * Rpower z (n / 2 + 1) * (i * Rpower z (n / 2 + 1))) = omega i n (k * k) z.
Proof. intros Z. rewrite omega_mz, mz_power by exact Z. reflexivity. Qed.
Lemma one_end F i n k z : -2 < n -> k <> 0 -> i <> 0 -> 0 < z ->
  let m := i * Rpower z (n / 2 + 1) in let w := sqrt (k * k + m * m) in let v := k * k / (k * k + m * m) in
  2 * z / (4 + n) * w * v * (w / (w + m) + (1 + n / 2) * con2F1 F (1 / 2) 1 (1 / (2 + n) + 1) (1 - v)) = acc F i n k z - 2 * z / (4 + n) * mz i n z.
Proof.
  intros N K I Z. cbv zeta. rewrite omega_root by exact Z. rewrite <- mz_power by exact Z.
  pose proof (k_positive i n k z K) as P. pose proof (omega_pos _ _ _ _ P) as W. pose proof (sq_pos k K) as KK. pose proof (omega_sq i n (k * k) z ltac:(lra)) as SQ.
  pose proof (xOf_range i n k z K I Z) as X. pose proof (sum_pos _ _ _ KK W SQ) as SP.
  replace (1 - k * k / (k * k + mz i n z * mz i n z)) with (xOf i n k z) by (unfold xOf; rewrite SQ; field; lra).
  unfold con2F1. rewrite Rabs_right by lra. destruct (Rlt_dec (xOf i n k z) 1); [|lra]. unfold acc. rewrite <- SQ.
  set (f := F _ _ _ _). set (w := omega i n (k * k) z) in *. set (m := mz i n z) in *. clearbody w m f. 
  assert (E : 2 * z / (4 + n) * w * (k * k / (w * w)) * (w / (w + m)) = 2 * z / (4 + n) * (w - m)).
  { replace (k * k) with ((w - m) * (w + m)) by lra. field. repeat split; lra. }
  rewrite Rmult_plus_distr_l, E. field. split; lra.
Qed.
Lemma calc_general F zI zE k n i : -2 < n -> n <> 0 -> k <> 0 -> i <> 0 -> 0 < zI -> 0 < zE ->
  calculatePhi F zI zE k n i = (acc F i n k zE - 2 * zE / (4 + n) * mz i n zE) - (acc F i n k zI - 2 * zI / (4 + n) * mz i n zI).
Proof.
  intros N N0 K I ZI ZE. unfold calculatePhi. destruct (Req_EM_T k 0); [contradiction|]. destruct (Req_EM_T i 0); [contradiction|]. destruct (Req_EM_T n 0); [contradiction|]. cbv zeta.
  rewrite <- (one_end F i n k zE N K I ZE), <- (one_end F i n k zI N K I ZI). reflexivity.
Qed.
(** The expression for a frozen mass *)
Definition flat (i k z : R) : R := 1 / 2 * k * (ln (mz i 0 z + omega i 0 (k * k) z) + mz i 0 z / (omega i 0 (k * k) z + mz i 0 z)) / i.
Lemma mz_flat i z : 0 < z -> mz i 0 z = i * z.
Proof. intros Z. unfold mz. replace (0 / 2) with 0 by lra. rewrite Rpower_O by exact Z. ring. Qed.
Lemma calc_flat F zI zE k i : k <> 0 -> i <> 0 -> 0 < zI -> 0 < zE -> calculatePhi F zI zE k 0 i = flat i k zE - flat i k zI.
Proof.
  intros K I ZI ZE. unfold calculatePhi. destruct (Req_EM_T k 0); [contradiction|]. destruct (Req_EM_T i 0); [contradiction|]. destruct (Req_EM_T 0 0); [|contradiction]. cbv zeta.
  assert (O : forall z, 0 < z -> sqrt (k * k + i * z * (i * z)) = omega i 0 (k * k) z) by (intros z Z; rewrite omega_mz, mz_flat by exact Z; reflexivity).
  rewrite (O zI ZI), (O zE ZE). unfold flat. rewrite (mz_flat i zI ZI), (mz_flat i zE ZE).
  assert (SP : forall z, 0 < z -> 0 < i * z + omega i 0 (k * k) z).
  { intros z Z. pose proof (k_positive i 0 k z K) as P. pose proof (omega_pos _ _ _ _ P) as W. pose proof (sq_pos k K) as KK. pose proof (omega_sq i 0 (k * k) z ltac:(lra)) as SQ. pose proof (sum_pos _ _ _ KK W SQ) as S. rewrite mz_flat in S by exact Z. lra. }
  unfold Rdiv at 3. rewrite ln_mult, ln_Rinv by (apply SP || (apply Rinv_0_lt_compat, SP); assumption). field.
  pose proof (SP zI ZI). pose proof (SP zE ZE). repeat split; lra.
Qed.
Lemma dl_flat i k z : k <> 0 -> i <> 0 -> 0 < z -> derivable_pt_lim (flat i k) z ((omega i 0 (k * k) z - mz i 0 z) / k).
Proof.
  intros K I Z. pose proof (k_positive i 0 k z K) as P. pose proof (omega_pos _ _ _ _ P) as W. pose proof (sq_pos k K) as KK. pose proof (omega_sq i 0 (k * k) z ltac:(lra)) as SQ. pose proof (sum_pos _ _ _ KK W SQ) as S.
  assert (DM : derivable_pt_lim (mz i 0) z i) by (eapply dl_eq; [apply (dl_mz i 0 z Z)|]; rewrite mz_flat by exact Z; field; lra).
  assert (DW : derivable_pt_lim (omega i 0 (k * k)) z (i * mz i 0 z / omega i 0 (k * k) z)) by (eapply dl_eq; [apply (dl_omega i 0 (k * k) z Z P)|]; unfold lograte; rewrite (mz_flat i z Z); field; split; lra).
  unfold flat. eapply dl_eq.
  - apply dl_mult; [|apply dl_const]. apply dl_mult; [apply dl_const|]. apply dl_plus.
    + apply dl_ln; [apply dl_plus; [exact DM|exact DW]|lra].
    + apply dl_mult; [exact DM|]. apply dl_inv; [apply dl_plus; [exact DW|exact DM]|lra].
  - cbv beta. set (w := omega i 0 (k * k) z) in *. set (m := mz i 0 z) in *. clearbody w m.
    transitivity (k / (w + m)); [field; repeat split; lra|]. apply Rmult_eq_reg_r with ((w + m) * k); [|apply Rmult_integral_contrapositive_currified; lra].
    transitivity (k * k); [field; lra|]. transitivity ((w - m) * (w + m)); [lra|field; exact K].
Qed.
