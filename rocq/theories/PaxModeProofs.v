(** Lemmas for PaxProperties: the scheme on one mode. *)
From Coq Require Import Lqa Lra Reals List Arith Lia.
From Verif Require Import SchemeModel PaxModel.
Import ListNotations.
Open Scope R_scope.
Ltac Zify.zify_post_hook ::= idtac.

(** Amplitudes of the two parts after the stages. *)
Definition ampStage (th : R) (s : R * R) (cd : R * R) : R * R :=
  let b := snd s - fst cd * th * fst s in (fst s + snd cd * th * b, b).
Definition amp (th : R) (l : list (R * R)) (s : R * R) : R * R := fold_left (ampStage th) l s.
Lemma amp_linear th l : forall a b, amp th l (a, b) =
  (a * fst (amp th l (1, 0)) + b * fst (amp th l (0, 1)), a * snd (amp th l (1, 0)) + b * snd (amp th l (0, 1))).
Proof.
  assert (G : forall a b x y x' y', amp th l (a * x + b * x', a * y + b * y') =
    (a * fst (amp th l (x, y)) + b * fst (amp th l (x', y')), a * snd (amp th l (x, y)) + b * snd (amp th l (x', y')))).
  { intros a b. unfold amp. induction l as [|[c d] l IH]; intros x y x' y'; [reflexivity|]. cbn [fold_left].
    replace (ampStage th (x, y) (c, d)) with (fst (ampStage th (x, y) (c, d)), snd (ampStage th (x, y) (c, d))) by reflexivity.
    replace (ampStage th (x', y') (c, d)) with (fst (ampStage th (x', y') (c, d)), snd (ampStage th (x', y') (c, d))) by reflexivity.
    rewrite <- IH. f_equal. unfold ampStage. cbn [fst snd]. f_equal; ring. }
  intros a b. rewrite <- G. f_equal. f_equal; ring.
Qed.
(** Areas are kept. *)
Lemma amp_area th l : forall p q, fst (amp th l p) * snd (amp th l q) - snd (amp th l p) * fst (amp th l q) = fst p * snd q - snd p * fst q.
Proof.
  unfold amp. induction l as [|[c d] l IH]; intros [p1 p2] [q1 q2]; [reflexivity|]. cbn [fold_left]. rewrite IH. unfold ampStage. cbn [fst snd]. ring.
Qed.
Definition mA (th : R) := fst (amp th rkn4Pairs (1, 0)).
Definition mB (th : R) := fst (amp th rkn4Pairs (0, 1)).
Definition mC (th : R) := snd (amp th rkn4Pairs (1, 0)).
Definition mD (th : R) := snd (amp th rkn4Pairs (0, 1)).
Lemma m_det th : mA th * mD th - mC th * mB th = 1.
Proof. unfold mA, mB, mC, mD. rewrite amp_area. cbn [fst snd]. ring. Qed.
Lemma m_step th a b : amp th rkn4Pairs (a, b) = (a * mA th + b * mB th, a * mC th + b * mD th).
Proof. apply amp_linear. Qed.

(** The coefficients of the trace and of the two other entries. *)
Definition c1 : R := 0.1344961992774310892. Definition c2 : R := - 0.2248198030794208058. Definition c3 : R := 0.7563200005156682911. Definition c4 : R := 0.3340036032863214255.
Definition d1 : R := 0.5153528374311229364. Definition d2 : R := - 0.085782019412973646. Definition d3 : R := 0.4415830236164665242. Definition d4 : R := 0.1288461583653841854.
Lemma pairs : rkn4Pairs = [(c1, d1); (c2, d2); (c3, d3); (c4, d4)].
Proof. reflexivity. Qed.
Definition ek1 : R := c1 * d1 + c1 * d2 + c1 * d3 + c1 * d4 + c2 * d1 + c2 * d2 + c2 * d3 + c2 * d4 + c3 * d1 + c3 * d2 + c3 * d3 + c3 * d4 + c4 * d1 + c4 * d2 + c4 * d3 + c4 * d4.
Definition ek2 : R := c1 * c2 * d1 * d2 + c1 * c2 * d1 * d3 + c1 * c2 * d1 * d4 + c1 * c3 * d1 * d3 + c1 * c3 * d1 * d4 + c1 * c3 * d2 * d3 + c1 * c3 * d2 * d4 + c1 * c4 * d1 * d4 + c1 * c4 * d2 * d4 + c1 * c4 * d3 * d4 + c2 * c3 * d1 * d2 + c2 * c3 * d2 * d3 + c2 * c3 * d2 * d4 + c2 * c4 * d1 * d2 + c2 * c4 * d1 * d3 + c2 * c4 * d2 * d4 + c2 * c4 * d3 * d4 + c3 * c4 * d1 * d3 + c3 * c4 * d2 * d3 + c3 * c4 * d3 * d4.
Definition ek3 : R := c1 * c2 * c3 * d1 * d2 * d3 + c1 * c2 * c3 * d1 * d2 * d4 + c1 * c2 * c4 * d1 * d2 * d4 + c1 * c2 * c4 * d1 * d3 * d4 + c1 * c3 * c4 * d1 * d3 * d4 + c1 * c3 * c4 * d2 * d3 * d4 + c2 * c3 * c4 * d1 * d2 * d3 + c2 * c3 * c4 * d2 * d3 * d4.
Definition ek4 : R := c1 * c2 * c3 * c4 * d1 * d2 * d3 * d4.
Definition bk1 : R := d1 + d2 + d3 + d4.
Definition bk2 : R := c2 * d1 * d2 + c2 * d1 * d3 + c2 * d1 * d4 + c3 * d1 * d3 + c3 * d1 * d4 + c3 * d2 * d3 + c3 * d2 * d4 + c4 * d1 * d4 + c4 * d2 * d4 + c4 * d3 * d4.
Definition bk3 : R := c2 * c3 * d1 * d2 * d3 + c2 * c3 * d1 * d2 * d4 + c2 * c4 * d1 * d2 * d4 + c2 * c4 * d1 * d3 * d4 + c3 * c4 * d1 * d3 * d4 + c3 * c4 * d2 * d3 * d4.
Definition bk4 : R := c2 * c3 * c4 * d1 * d2 * d3 * d4.
Definition ck1 : R := c1 + c2 + c3 + c4.
Definition ck2 : R := c1 * c2 * d1 + c1 * c3 * d1 + c1 * c3 * d2 + c1 * c4 * d1 + c1 * c4 * d2 + c1 * c4 * d3 + c2 * c3 * d2 + c2 * c4 * d2 + c2 * c4 * d3 + c3 * c4 * d3.
Definition ck3 : R := c1 * c2 * c3 * d1 * d2 + c1 * c2 * c4 * d1 * d2 + c1 * c2 * c4 * d1 * d3 + c1 * c3 * c4 * d1 * d3 + c1 * c3 * c4 * d2 * d3 + c2 * c3 * c4 * d2 * d3.
Definition ck4 : R := c1 * c2 * c3 * c4 * d1 * d2 * d3.
Lemma trace_poly th : let x := th * th in mA th + mD th = 2 - ek1 * x + ek2 * x ^ 2 - ek3 * x ^ 3 + ek4 * x ^ 4.
Proof.
  unfold mA, mD, amp. rewrite pairs. cbn [fold_left]. unfold ampStage. cbn [fst snd]. unfold ek1, ek2, ek3, ek4.  cbv zeta. ring.
Qed.
Lemma b_poly th : let x := th * th in mB th = th * (bk1 - bk2 * x + bk3 * x ^ 2 - bk4 * x ^ 3).
Proof.
  unfold mB, amp. rewrite pairs. cbn [fold_left]. unfold ampStage. cbn [fst snd]. unfold bk1, bk2, bk3, bk4.  cbv zeta. ring.
Qed.
Lemma c_poly th : let x := th * th in mC th = - th * (ck1 - ck2 * x + ck3 * x ^ 2 - ck4 * x ^ 3).
Proof.
  unfold mC, amp. rewrite pairs. cbn [fold_left]. unfold ampStage. cbn [fst snd]. unfold ck1, ck2, ck3, ck4.  cbv zeta. ring.
Qed.
Lemma ek_bounds : ek1 = 1 /\ 0.0833333 < ek2 < 0.0833334 /\ 0.002554 < ek3 < 0.002555 /\ 0.00001921 < ek4 < 0.00001922.
Proof. unfold ek1, ek2, ek3, ek4, c1, c2, c3, c4, d1, d2, d3, d4. repeat split; lra. Qed.
Lemma bk_bounds : bk1 = 1 /\ 0.1666666 < bk2 < 0.1666667 /\ 0.008687 < bk3 < 0.008688 /\ 0.0001428 < bk4 < 0.0001429.
Proof. unfold bk1, bk2, bk3, bk4, c1, c2, c3, c4, d1, d2, d3, d4. repeat split; lra. Qed.
Lemma ck_bounds : ck1 = 1 /\ Rabs (ck2 - bk2) < 0.0000000000001 /\ 0.0077 < ck3 < 0.00776 /\ 0.0001491 < ck4 < 0.0001492.
Proof. unfold ck1, ck2, ck3, ck4, bk2, c1, c2, c3, c4, d1, d2, d3, d4. repeat split; try (apply Rabs_def1); lra. Qed.

(** ** Bounded *)
Lemma trace_small th : th <> 0 -> th * th <= 8 -> -2 < mA th + mD th < 2.
Proof.
  intros N L. rewrite trace_poly. cbv zeta. destruct ek_bounds as (E1 & E2 & E3 & E4). rewrite E1.
  assert (X : 0 < th * th) by (destruct (Rdichotomy _ _ N); nra). set (x := th * th) in *. clearbody x. clear N E1.
  set (p := ek2) in *. set (q := ek3) in *. set (s := ek4) in *. clearbody p q s.
  assert (X2 : 0 < x * x) by (apply Rmult_lt_0_compat; assumption).
  assert (A1 : p * x <= 0.0833334 * 8) by (apply Rmult_le_compat; lra).
  assert (A2 : s * x <= 0.00001922 * 8) by (apply Rmult_le_compat; lra).
  assert (A3 : 0 <= s * (x * x)) by (apply Rmult_le_pos; lra).
  assert (A4 : q * x <= 0.002555 * 8) by (apply Rmult_le_compat; lra).
  replace (2 - 1 * x + p * x ^ 2 - q * x ^ 3 + s * x ^ 4) with (2 - x * (1 - p * x + (x * x) * (q - s * x))) by ring.
  assert (B1 : 0 < (x * x) * (q - s * x)) by (apply Rmult_lt_0_compat; lra).
  assert (B2 : 0 < x * (1 - p * x + (x * x) * (q - s * x))) by (apply Rmult_lt_0_compat; lra).
  split; [|lra].
  replace (2 - x * (1 - p * x + x * x * (q - s * x))) with (-2 + ((2 - x / 4) * (2 - x / 4) + (x * x) * (p - / 16 - q * x + s * (x * x)))) by field.
  assert (B3 : 0 < (x * x) * (p - / 16 - q * x + s * (x * x))) by (apply Rmult_lt_0_compat; lra).
  pose proof (Rle_0_sqr (2 - x / 4)) as SQ. unfold Rsqr in SQ. lra.
Qed.
Fixpoint ampN (th : R) (k : nat) (s : R * R) : R * R := match k with 0%nat => s | S k => ampN th k (amp th rkn4Pairs s) end.
Definition form (th : R) (s : R * R) : R := mB th * (snd s * snd s) + (mA th - mD th) * (fst s * snd s) - mC th * (fst s * fst s).
Lemma form_kept th s : form th (amp th rkn4Pairs s) = form th s.
Proof.
  destruct s as [a b]. rewrite m_step. unfold form. cbn [fst snd]. pose proof (m_det th) as D.
  set (A := mA th) in *. set (B := mB th) in *. set (C := mC th) in *. set (E := mD th) in *. clearbody A B C E.
  replace (B * ((a * C + b * E) * (a * C + b * E)) + (A - E) * ((a * A + b * B) * (a * C + b * E)) - C * ((a * A + b * B) * (a * A + b * B)))
    with ((A * E - C * B) * (B * (b * b) + (A - E) * (a * b) - C * (a * a))) by ring.
  rewrite D. ring.
Qed.
Lemma formN_kept th k : forall s, form th (ampN th k s) = form th s.
Proof. induction k as [|k IH]; intros s; [reflexivity|]. cbn [ampN]. rewrite IH. apply form_kept. Qed.
Definition sq2 (s : R * R) : R := fst s * fst s + snd s * snd s.
Lemma bounded th : th * th <= 8 -> exists K, 0 <= K /\ forall k s, sq2 (ampN th k s) <= K * sq2 s.
Proof.
  intros L. destruct (Req_dec th 0) as [Z|N].
  - exists 1. split; [lra|]. intros k s. assert (E : ampN th k s = s); [|rewrite E; lra].
    induction k as [|k IH]; [reflexivity|]. cbn [ampN]. destruct s as [a b]. rewrite m_step.
    assert (A1 : mA th = 1 /\ mB th = 0 /\ mC th = 0 /\ mD th = 1).
    { unfold mA, mB, mC, mD, amp. rewrite pairs, Z. cbn [fold_left]. unfold ampStage. cbn [fst snd]. repeat split; ring. }
    destruct A1 as (-> & -> & -> & ->). replace (a * 1 + b * 0, a * 0 + b * 1) with (a, b) by (f_equal; ring). exact IH.
  - pose proof (trace_small th N L) as T. pose proof (m_det th) as D.
    set (A := mA th) in *. set (B := mB th) in *. set (C := mC th) in *. set (E := mD th) in *.
    set (dl := 4 - (A + E) * (A + E)). assert (DL : 0 < dl) by (unfold dl; assert (0 < (2 - (A + E)) * (2 + (A + E))) by (apply Rmult_lt_0_compat; lra); lra).
    exists (4 * Rabs (B - C) * (Rabs B + Rabs (A - E) + Rabs C) / dl). split.
    + apply Rmult_le_pos; [|left; apply Rinv_0_lt_compat; exact DL]. repeat apply Rmult_le_pos; try lra; try apply Rabs_pos.
      pose proof (Rabs_pos B). pose proof (Rabs_pos (A - E)). pose proof (Rabs_pos C). lra.
    + intros k s. pose proof (formN_kept th k s) as F. set (u := ampN th k s) in *. destruct u as [a b]. destruct s as [a0 b0].
      unfold form in F. unfold sq2. cbn [fst snd] in *. fold A B C E in F. clearbody A B C E.
      set (Q := B * (b * b) + (A - E) * (a * b) - C * (a * a)) in *.
      assert (U : dl * (a * a + b * b) <= 4 * (B - C) * Q).
      { assert (V1 : dl * (a * a) <= 4 * B * Q).
        { pose proof (Rle_0_sqr (2 * B * b + (A - E) * a)) as SQ. unfold Rsqr in SQ.
          replace (4 * B * Q) with ((2 * B * b + (A - E) * a) * (2 * B * b + (A - E) * a) + (4 * (A * E - C * B) - (A + E) * (A + E)) * (a * a)) by (unfold Q; ring).
          rewrite D. unfold dl. lra. }
        assert (V2 : dl * (b * b) <= - 4 * C * Q).
        { pose proof (Rle_0_sqr (2 * C * a - (A - E) * b)) as SQ. unfold Rsqr in SQ.
          replace (- 4 * C * Q) with ((2 * C * a - (A - E) * b) * (2 * C * a - (A - E) * b) + (4 * (A * E - C * B) - (A + E) * (A + E)) * (b * b)) by (unfold Q; ring).
          rewrite D. unfold dl. lra. }
        lra. }
      assert (W : (B - C) * Q <= Rabs (B - C) * ((Rabs B + Rabs (A - E) + Rabs C) * (a0 * a0 + b0 * b0))).
      { eapply Rle_trans; [apply Rle_abs|]. rewrite Rabs_mult. apply Rmult_le_compat_l; [apply Rabs_pos|]. rewrite F.
        assert (S1 : 0 <= a0 * a0) by apply Rle_0_sqr. assert (S2 : 0 <= b0 * b0) by apply Rle_0_sqr.
        unfold Rminus at 1. eapply Rle_trans; [apply Rabs_triang|]. rewrite Rabs_Ropp. eapply Rle_trans; [apply Rplus_le_compat_r, Rabs_triang|].
        rewrite !Rabs_mult. rewrite <- !Rabs_mult with (x := b0), <- !Rabs_mult with (x := a0) || idtac.
        assert (M1 : Rabs b0 * Rabs b0 = b0 * b0) by (rewrite <- Rabs_mult; apply Rabs_pos_eq; exact S2).
        assert (M2 : Rabs a0 * Rabs a0 = a0 * a0) by (rewrite <- Rabs_mult; apply Rabs_pos_eq; exact S1).
        assert (M3 : Rabs a0 * Rabs b0 <= a0 * a0 + b0 * b0).
        { pose proof (Rle_0_sqr (Rabs a0 - Rabs b0)) as SQ. unfold Rsqr in SQ. lra. }
        rewrite ?Rabs_mult. rewrite M1, M2.
        assert (N1 : Rabs B * (b0 * b0) <= Rabs B * (a0 * a0 + b0 * b0)) by (apply Rmult_le_compat_l; [apply Rabs_pos|lra]).
        assert (N2 : Rabs C * (a0 * a0) <= Rabs C * (a0 * a0 + b0 * b0)) by (apply Rmult_le_compat_l; [apply Rabs_pos|lra]).
        assert (N3 : Rabs (A - E) * (Rabs a0 * Rabs b0) <= Rabs (A - E) * (a0 * a0 + b0 * b0)) by (apply Rmult_le_compat_l; [apply Rabs_pos|lra]).
        unfold Rminus in *. lra. }
      apply Rmult_le_reg_l with dl; [exact DL|].
      replace (dl * (4 * Rabs (B - C) * (Rabs B + Rabs (A - E) + Rabs C) / dl * (a0 * a0 + b0 * b0)))
        with (4 * (Rabs (B - C) * ((Rabs B + Rabs (A - E) + Rabs C) * (a0 * a0 + b0 * b0)))) by (field; lra).
      lra.
Qed.

(** ** Growing *)
Lemma trace_5 : mA 5 + mD 5 < -3.
Proof. rewrite trace_poly. cbv zeta. destruct ek_bounds as (E1 & E2 & E3 & E4). lra. Qed.
Lemma b_5 : 0.1 < mB 5.
Proof. rewrite b_poly. cbv zeta. destruct bk_bounds as (E1 & E2 & E3 & E4). lra. Qed.
Lemma ampN_S th k s : ampN th (S k) s = amp th rkn4Pairs (ampN th k s).
Proof. revert s. induction k as [|k IH]; intros s; [reflexivity|]. cbn [ampN] in *. apply IH. Qed.
Lemma two_steps th k s : fst (ampN th (S (S k)) s) = (mA th + mD th) * fst (ampN th (S k) s) - fst (ampN th k s).
Proof.
  rewrite !ampN_S. destruct (ampN th k s) as [a b]. rewrite !m_step. cbn [fst snd]. pose proof (m_det th) as D.
  set (A := mA th) in *. set (B := mB th) in *. set (C := mC th) in *. set (E := mD th) in *. clearbody A B C E.
  apply Rminus_diag_uniq. replace (_ - _) with (a * (1 - (A * E - C * B))) by ring. rewrite D. ring.
Qed.
Lemma grows k : 0.1 * 2 ^ k <= Rabs (fst (ampN 5 (S k) (0, 1))) /\ Rabs (fst (ampN 5 k (0, 1))) <= Rabs (fst (ampN 5 (S k) (0, 1))).
Proof.
  induction k as [|k [I1 I2]].
  - cbn [ampN]. rewrite m_step. cbn [fst]. pose proof b_5 as B. rewrite Rabs_R0. replace (0 * mA 5 + 1 * mB 5) with (mB 5) by ring.
    rewrite Rabs_pos_eq by lra. cbn [pow]. split; lra.
  - rewrite two_steps. pose proof trace_5 as T. set (x := fst (ampN 5 (S k) (0, 1))) in *. set (y := fst (ampN 5 k (0, 1))) in *. clearbody x y.
    assert (G : 3 * Rabs x - Rabs y <= Rabs ((mA 5 + mD 5) * x - y)).
    { pose proof (Rabs_triang_inv ((mA 5 + mD 5) * x) y) as H. rewrite Rabs_mult in H.
      assert (TT : 3 <= Rabs (mA 5 + mD 5)) by (rewrite Rabs_left by lra; lra).
      assert (3 * Rabs x <= Rabs (mA 5 + mD 5) * Rabs x) by (apply Rmult_le_compat_r; [apply Rabs_pos|exact TT]). lra. }
    cbn [pow]. pose proof (Rabs_pos x). split; lra.
Qed.
(** ** Not a rotation *)
Lemma not_rotation th : 0.01 <= th -> th * th <= 8 -> mB th + mC th <> 0.
Proof.
  intros L U. rewrite b_poly, c_poly. cbv zeta. destruct bk_bounds as (B1 & B2 & B3 & B4). destruct ck_bounds as (C1 & C2 & C3 & C4).
  rewrite B1, C1. apply Rabs_def2 in C2.
  assert (X : 0.0001 <= th * th) by nra. set (x := th * th) in *. clearbody x.
  set (e := bk2 - ck2). set (f := bk3 - ck3). set (g := ck4 - bk4).
  assert (E : e < 0.0000000000001) by (unfold e; lra). assert (F : 0.0009 < f) by (unfold f; lra). assert (G : 0 < g) by (unfold g; lra).
  replace (th * (1 - bk2 * x + bk3 * x ^ 2 - bk4 * x ^ 3) + - th * (1 - ck2 * x + ck3 * x ^ 2 - ck4 * x ^ 3))
    with (th * x * (f * x - e + g * (x * x))) by (unfold e, f, g; ring).
  clearbody e f g. assert (0 < f * x - e + g * (x * x)).
  { assert (0.0009 * 0.0001 <= f * x) by (apply Rmult_le_compat; lra). assert (0 <= g * (x * x)) by (repeat apply Rmult_le_pos; lra). lra. }
  apply Rgt_not_eq. repeat apply Rmult_lt_0_compat; lra.
Qed.
Lemma some_changes th : 0.01 <= th -> th * th <= 8 -> exists a b, sq2 (amp th rkn4Pairs (a, b)) <> sq2 (a, b).
Proof.
  intros L U. pose proof (not_rotation th L U) as N. pose proof (m_det th) as D.
  destruct (Req_dec (sq2 (amp th rkn4Pairs (1, 0))) (sq2 (1, 0))) as [H1|H1]; [|exists 1, 0; exact H1].
  destruct (Req_dec (sq2 (amp th rkn4Pairs (0, 1))) (sq2 (0, 1))) as [H2|H2]; [|exists 0, 1; exact H2].
  destruct (Req_dec (sq2 (amp th rkn4Pairs (1, 1))) (sq2 (1, 1))) as [H3|H3]; [|exists 1, 1; exact H3].
  exfalso. revert H1 H2 H3. rewrite !m_step. unfold sq2. cbn [fst snd].
  set (A := mA th) in *. set (B := mB th) in *. set (C := mC th) in *. set (E := mD th) in *. clearbody A B C E. intros H1 H2 H3.
  assert (H4 : A * B + C * E = 0) by lra. apply N.
  (* orthogonal with area one: B = -C *)
  assert (Z : (B + C) * (B + C) + (A - E) * (A - E) = 0).
  { replace ((B + C) * (B + C) + (A - E) * (A - E)) with (A * A + C * C + (B * B + E * E) - 2 * (A * E - C * B)) by ring. rewrite D. lra. }
  pose proof (Rle_0_sqr (B + C)) as S1. pose proof (Rle_0_sqr (A - E)) as S2. unfold Rsqr in *.
  destruct (Req_dec (B + C) 0) as [Q|Q]; [exact Q|]. exfalso. assert (0 < (B + C) * (B + C)) by (destruct (Rdichotomy _ _ Q); nra). lra.
Qed.
