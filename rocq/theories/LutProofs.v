(** Proofs about the look-up of the string-core correction. *)
From Coq Require Import ZArith QArith Qround List Bool Lia Lqa.
From Verif Require Import LutModel LutSpec.
Import ListNotations.

Lemma xA_eq A : (xA A == A * 5)%Q.
Proof. unfold xA, N_A. change (inject_Z (26-1)) with (25#1). change (inject_Z 5) with (5#1). field. Qed.
Lemma xB_eq A : (xB A == A * 5)%Q.
Proof. unfold xB, N_B. change (inject_Z (26-1)) with (25#1). change (inject_Z 5) with (5#1). field. Qed.
Lemma xE_eq A : (xE A == A * 5)%Q.
Proof. unfold xE, N_E. change (inject_Z (6-1)) with (5#1). field. Qed.
Lemma xC_eq A : (xC A == (A + 1) * 10)%Q.
Proof. unfold xC, N_C. change (inject_Z (21-1)) with (20#1). change (inject_Z 2) with (2#1). field. Qed.

Lemma floor_between x lo hi :
  (inject_Z lo <= x)%Q -> (x <= inject_Z hi)%Q -> (lo <= Qfloor x <= hi)%Z.
Proof.
  intros H1 H2. split.
  - rewrite <- (Qfloor_Z lo). now apply Qfloor_resp_le.
  - rewrite <- (Qfloor_Z hi). now apply Qfloor_resp_le.
Qed.

Lemma floor_lt x hi : (x < inject_Z hi)%Q -> (Qfloor x < hi)%Z.
Proof.
  intros H. pose proof (Qfloor_le x) as H1.
  rewrite Zlt_Qlt. eapply Qle_lt_trans; eauto.
Qed.

Lemma frac_ge x : (0 <= x - inject_Z (Qfloor x))%Q.
Proof. pose proof (Qfloor_le x). lra. Qed.
Lemma frac_lt x : (x - inject_Z (Qfloor x) < 1)%Q.
Proof. pose proof (Qlt_floor x) as H. rewrite inject_Z_plus in H. change (inject_Z 1) with 1%Q in H. lra. Qed.

Section Range.
Variables A B e cb : Q.
Hypothesis R : InRange A B e cb.

Lemma iA_range : (0 <= toInt (xA A) <= 25)%Z.
Proof. destruct R as ((?&?)&_). apply floor_between; rewrite xA_eq;
  [change (inject_Z 0) with 0%Q|change (inject_Z 25) with (25#1)]; lra. Qed.
Lemma iB_range : (0 <= toInt (xB B) <= 25)%Z.
Proof. destruct R as (_&(?&?)&_). apply floor_between; rewrite xB_eq;
  [change (inject_Z 0) with 0%Q|change (inject_Z 25) with (25#1)]; lra. Qed.
Lemma iE_range : (0 <= toInt (xE e) <= 5)%Z.
Proof. destruct R as (_&_&(?&?)&_). apply floor_between; rewrite xE_eq;
  [change (inject_Z 0) with 0%Q|change (inject_Z 5) with (5#1)]; lra. Qed.
Lemma iC_range : (0 <= toInt (xC cb) <= 20)%Z.
Proof. destruct R as (_&_&_&(?&?)). apply floor_between; rewrite xC_eq;
  [change (inject_Z 0) with 0%Q|change (inject_Z 20) with (20#1)]; lra. Qed.

Lemma i0_nonneg : (0 <= i0 A B e cb)%Z.
Proof. pose proof iA_range; pose proof iB_range; pose proof iE_range; pose proof iC_range.
  unfold i0, N_C, N_CE, N_CEB, N_C, N_E, N_B. lia. Qed.

Lemma i0_room : (A < 5 \/ B < 5)%Q -> (i0 A B e cb + 54 < lutSize)%Z.
Proof.
  intros H. pose proof iA_range; pose proof iB_range; pose proof iE_range; pose proof iC_range.
  assert ((toInt (xA A) < 25)%Z \/ (toInt (xB B) < 25)%Z).
  { destruct H; [left|right]; apply floor_lt; [rewrite xA_eq|rewrite xB_eq];
    change (inject_Z 25) with (25#1); lra. }
  unfold i0, lutSize, N_C, N_CE, N_CEB, N_C, N_E, N_B. lia.
Qed.
End Range.

Lemma rd_in T i : (0 <= i < lutSize)%Z -> rd T i = Some (T i).
Proof. intros H. unfold rd. destruct (Z.leb_spec 0 i), (Z.ltb_spec i lutSize); simpl; auto; lia. Qed.

Lemma faceC_in T d i : (0 <= i)%Z -> (i + 1 < lutSize)%Z ->
  faceC T d i = Some (T i * (1 - d) + T (i + 1)%Z * d)%Q.
Proof. intros. unfold faceC. rewrite !rd_in by lia. reflexivity. Qed.

(** Every read is inside the table if the last one is. *)
Lemma lookup_some T A B e cb :
  (0 <= i0 A B e cb)%Z -> (i0 A B e cb + 54 < lutSize)%Z ->
  exists v, lookup T A B e cb = Some v.
Proof.
  intros H1 H2. unfold lookup. rewrite !faceC_in by (unfold N_B, N_C, N_E; lia).
  simpl. eauto.
Qed.

Lemma mix_none d u : mix d u None = None.
Proof. destruct u; reflexivity. Qed.

Lemma lookup_none T A B e cb :
  (lutSize <= i0 A B e cb + 54)%Z -> lookup T A B e cb = None.
Proof.
  intros H. unfold lookup.
  assert (E : faceC T (xC cb - inject_Z (toInt (xC cb))) (i0 A B e cb + N_B + N_E + N_C) = None).
  { unfold faceC. replace (rd T (i0 A B e cb + N_B + N_E + N_C + 1)) with (@None Q).
    + destruct (rd T _); reflexivity.
    + unfold rd. replace (i0 A B e cb + N_B + N_E + N_C + 1)%Z with (i0 A B e cb + 54)%Z
        by (unfold N_B, N_E, N_C; lia).
      destruct (Z.ltb_spec (i0 A B e cb + 54) lutSize); [lia|]. now rewrite andb_false_r. }
  cbv zeta. rewrite E, !mix_none. reflexivity.
Qed.

(** *** Bounds *)
Definition within lo hi (o : option Q) := forall v, o = Some v -> (lo <= v <= hi)%Q.

Lemma mix_within lo hi d u w : (0 <= d)%Q -> (d <= 1)%Q ->
  within lo hi u -> within lo hi w -> within lo hi (mix d u w).
Proof.
  intros H0 H1 Hu Hw v. destruct u as [u|], w as [w|]; simpl; try discriminate.
  intros E. injection E as <-. destruct (Hu u eq_refl), (Hw w eq_refl). split; nra.
Qed.

Lemma faceC_within lo hi T d i : (0 <= d)%Q -> (d <= 1)%Q ->
  (forall i, (0 <= i < lutSize)%Z -> (lo <= T i <= hi)%Q) -> within lo hi (faceC T d i).
Proof.
  intros H0 H1 HT v. unfold faceC, rd.
  destruct ((0 <=? i) && (i <? lutSize))%Z eqn:E1; [|discriminate].
  destruct ((0 <=? i + 1) && (i + 1 <? lutSize))%Z eqn:E2; [|discriminate].
  apply andb_true_iff in E1, E2. destruct E1 as (a&b), E2 as (c&d').
  apply Z.leb_le in a, c. apply Z.ltb_lt in b, d'.
  intros E. injection E as <-.
  destruct (HT i (conj a b)), (HT (i+1)%Z (conj c d')). split; nra.
Qed.

Lemma lookup_within lo hi T A B e cb :
  (forall i, (0 <= i < lutSize)%Z -> (lo <= T i <= hi)%Q) -> within lo hi (lookup T A B e cb).
Proof.
  intros HT. unfold lookup, toInt.
  cbv zeta.
  (apply mix_within; [apply frac_ge|apply Qlt_le_weak, frac_lt| |]);
  (apply mix_within; [apply frac_ge|apply Qlt_le_weak, frac_lt| |]);
  (apply mix_within; [apply frac_ge|apply Qlt_le_weak, frac_lt| |]);
  apply faceC_within; auto using frac_ge, Qlt_le_weak, frac_lt.
Qed.

(** *** The part of the interpolation that is right *)
Lemma lin_ext f g x : (f (Qfloor x) == g (Qfloor x))%Q ->
  (f (Qfloor x + 1)%Z == g (Qfloor x + 1)%Z \/ x == inject_Z (Qfloor x))%Q ->
  (lin f x == lin g x)%Q.
Proof.
  intros H1 H2. unfold lin. rewrite H1. destruct H2 as [H2|H2].
  - now rewrite H2.
  - assert (x - inject_Z (Qfloor x) == 0)%Q as -> by lra. ring.
Qed.

Lemma lin_comp f x y : (x == y)%Q -> (lin f x == lin f y)%Q.
Proof. intros H. unfold lin. rewrite (Qfloor_comp _ _ H), H. reflexivity. Qed.

Lemma lin_grid f x : (x == inject_Z (Qfloor x))%Q -> (lin f x == f (Qfloor x))%Q.
Proof. intros H. unfold lin. rewrite inject_Z_plus. change (inject_Z 1) with 1%Q.
  assert (x - inject_Z (Qfloor x) == 0)%Q as -> by lra.
  assert (inject_Z (Qfloor x) + 1 - x == 1)%Q as -> by lra. ring. Qed.

Lemma frac_comp x y : (x == y)%Q -> (x - inject_Z (Qfloor x) == y - inject_Z (Qfloor y))%Q.
Proof. intros H. rewrite (Qfloor_comp _ _ H), H. reflexivity. Qed.

(** The value of the code's interpolation where A and B lie on the grid. *)
Lemma lookup_grid T F A B e cb :
  Tabulates T F -> InRange A B e cb -> (A < 5 \/ B < 5)%Q ->
  (A * 5 == inject_Z (Qfloor (A * 5)))%Q -> (B * 5 == inject_Z (Qfloor (B * 5)))%Q ->
  exists v, lookup T A B e cb = Some v /\ (v == surrounding F A B e cb)%Q.
Proof.
  intros HT HR HA GA GB.
  pose proof (i0_nonneg _ _ _ _ HR) as P0. pose proof (i0_room _ _ _ _ HR HA) as P1.
  unfold lookup. rewrite !faceC_in by (unfold N_B, N_C, N_E; lia).
  simpl. eexists; split; [reflexivity|].
  assert (dA0 : (xA A - inject_Z (toInt (xA A)) == 0)%Q).
  { unfold toInt. rewrite (frac_comp _ _ (xA_eq A)). lra. }
  assert (dB0 : (xB B - inject_Z (toInt (xB B)) == 0)%Q).
  { unfold toInt. rewrite (frac_comp _ _ (xB_eq B)). lra. }
  rewrite dA0, dB0.
  unfold surrounding. rewrite (lin_grid _ _ GA), (lin_grid _ _ GB).
  pose proof (iA_range _ _ _ _ HR) as RA. pose proof (iB_range _ _ _ _ HR) as RB.
  pose proof (iE_range _ _ _ _ HR) as RE. pose proof (iC_range _ _ _ _ HR) as RC.
  unfold i0 in *. unfold toInt in *.
  rewrite (Qfloor_comp _ _ (xA_eq A)) in *. rewrite (Qfloor_comp _ _ (xB_eq B)) in *.
  pose proof (frac_comp _ _ (xE_eq e)) as fE. pose proof (frac_comp _ _ (xC_eq cb)) as fC.
  rewrite fE, fC.
  rewrite (Qfloor_comp _ _ (xE_eq e)) in *. rewrite (Qfloor_comp _ _ (xC_eq cb)) in *.
  unfold lin.
  set (a := Qfloor (A * 5)) in *. set (b := Qfloor (B * 5)) in *.
  set (k := Qfloor (e * 5)) in *. set (c := Qfloor ((cb + 1) * 10)) in *.
  rewrite !inject_Z_plus. change (inject_Z 1) with 1%Q.
  (* the entries *)
  assert (E : forall x y, (0 <= k + x < 6)%Z -> (0 <= c + y < 21)%Z ->
     (T (c + N_C * k + N_CE * b + N_CEB * a + (N_C * x + y))%Z == F a b (k + x)%Z (c + y)%Z)%Q).
  { intros x y Hx Hy. rewrite <- (HT a b (k+x)%Z (c+y)%Z) by lia.
    match goal with |- (?x == ?y)%Q => replace y with x; [reflexivity|] end. f_equal. unfold N_CE, N_CEB, N_C, N_E, N_B. ring. }
  set (i := (c + N_C * k + N_CE * b + N_CEB * a)%Z) in *.
  assert (Z1 : (e * 5 - inject_Z k == 0)%Q \/ (k < 5)%Z).
  { destruct (Z.eq_dec k 5) as [K|]; [left|right; lia].
    destruct HR as (_&_&(?&?)&_). pose proof (frac_ge (e*5)) as Fr. fold k in Fr.
    rewrite K in *. change (inject_Z 5) with (5#1) in *. lra. }
  assert (Z2 : ((cb + 1) * 10 - inject_Z c == 0)%Q \/ (c < 20)%Z).
  { destruct (Z.eq_dec c 20) as [K|]; [left|right; lia].
    destruct HR as (_&_&_&(?&?)). pose proof (frac_ge ((cb+1)*10)) as Fr. fold c in Fr.
    rewrite K in *. change (inject_Z 20) with (20#1) in *. lra. }
  assert (E00 : (T i == F a b k c)%Q).
  { pose proof (E 0 0)%Z as H. rewrite Z.mul_0_r, !Z.add_0_r in H. apply H; lia. }
  assert (E01 : (T (i + 1)%Z == F a b k (c + 1)%Z)%Q \/ ((cb + 1) * 10 - inject_Z c == 0)%Q).
  { destruct Z2 as [z2|z2]; [now right|left].
    pose proof (E 0 1)%Z as H. rewrite Z.mul_0_r, !Z.add_0_r, Z.add_0_l in H. apply H; lia. }
  assert (E10 : (T (i + N_C)%Z == F a b (k + 1)%Z c)%Q \/ (e * 5 - inject_Z k == 0)%Q).
  { destruct Z1 as [z1|z1]; [now right|left].
    pose proof (E 1 0)%Z as H. rewrite Z.mul_1_r, !Z.add_0_r in H. apply H; lia. }
  assert (E11 : (T (i + N_C + 1)%Z == F a b (k + 1)%Z (c + 1)%Z)%Q \/
                (e * 5 - inject_Z k == 0)%Q \/ ((cb + 1) * 10 - inject_Z c == 0)%Q).
  { destruct Z1 as [z1|z1]; [now (right; left)|]. destruct Z2 as [z2|z2]; [now (right; right)|]. left.
    pose proof (E 1 1)%Z as H. rewrite Z.mul_1_r, !Z.add_assoc in H. apply H; lia. }
  clear - E00 E01 E10 E11.
  assert (inject_Z k + 1 - e * 5 == 1 - (e * 5 - inject_Z k))%Q as -> by ring.
  assert (inject_Z c + 1 - (cb + 1) * 10 == 1 - ((cb + 1) * 10 - inject_Z c))%Q as -> by ring.
  revert E00 E01 E10 E11.
  generalize (e * 5 - inject_Z k)%Q as d1. generalize ((cb + 1) * 10 - inject_Z c)%Q as d2.
  intros d2 d1 -> E01 E10 E11.
  destruct E01 as [->|E2]; [|rewrite E2].
  - destruct E10 as [->|E1]; [|rewrite E1; ring].
    destruct E11 as [->|[E1|E2]]; [ring|rewrite E1; ring|rewrite E2; ring].
  - destruct E10 as [->|E1]; [ring|rewrite E1; ring].
Qed.

(** The value of the interpolation at every position in the range. *)
Lemma lookup_all T A B e cb : InRange A B e cb -> (A < 5 \/ B < 5)%Q ->
  exists v, lookup T A B e cb = Some v /\ (v == combined T A B e cb)%Q.
Proof.
  intros HR HA.
  pose proof (i0_nonneg _ _ _ _ HR) as P0. pose proof (i0_room _ _ _ _ HR HA) as P1.
  unfold lookup. rewrite !faceC_in by (unfold N_B, N_C, N_E; lia).
  simpl. eexists; split; [reflexivity|].
  unfold combined. cbv zeta.
  assert (EI : (((Qfloor (A * 5) * 26 + Qfloor (B * 5)) * 6 + Qfloor (e * 5)) * 21 + Qfloor ((cb + 1) * 10))%Z = i0 A B e cb).
  { unfold i0, toInt. rewrite (Qfloor_comp _ _ (xA_eq A)), (Qfloor_comp _ _ (xB_eq B)), (Qfloor_comp _ _ (xE_eq e)), (Qfloor_comp _ _ (xC_eq cb)).
    unfold N_CE, N_CEB, N_C, N_E, N_B. ring. }
  rewrite EI. unfold toInt.
  rewrite (frac_comp _ _ (xA_eq A)), (frac_comp _ _ (xB_eq B)), (frac_comp _ _ (xE_eq e)), (frac_comp _ _ (xC_eq cb)).
  fold (frac (A * 5)) (frac (B * 5)) (frac (e * 5)) (frac ((cb + 1) * 10)).
  generalize (frac (A * 5)) (frac (B * 5)) (frac (e * 5)) (frac ((cb + 1) * 10)) (i0 A B e cb). clear. intros a b k c n.
  unfold between. change N_B with 26%Z. change N_E with 6%Z. change N_C with 21%Z.
  replace (n + 26 * 0 + 6 * 0 + 21 * 0 + 0)%Z with (n + 0)%Z by ring.
  replace (n + 26 * 0 + 6 * 0 + 21 * 0 + 1)%Z with (n + 1)%Z by ring.
  replace (n + 26 * 0 + 6 * 0 + 21 * 1 + 0)%Z with (n + 21)%Z by ring.
  replace (n + 26 * 0 + 6 * 0 + 21 * 1 + 1)%Z with (n + 22)%Z by ring.
  replace (n + 26 * 0 + 6 * 1 + 21 * 0 + 0)%Z with (n + 6)%Z by ring.
  replace (n + 26 * 0 + 6 * 1 + 21 * 0 + 1)%Z with (n + 7)%Z by ring.
  replace (n + 26 * 0 + 6 * 1 + 21 * 1 + 0)%Z with (n + 27)%Z by ring.
  replace (n + 26 * 0 + 6 * 1 + 21 * 1 + 1)%Z with (n + 28)%Z by ring.
  replace (n + 26 * 1 + 6 * 0 + 21 * 0 + 0)%Z with (n + 26)%Z by ring.
  replace (n + 26 * 1 + 6 * 0 + 21 * 0 + 1)%Z with (n + 27)%Z by ring.
  replace (n + 26 * 1 + 6 * 0 + 21 * 1 + 0)%Z with (n + 47)%Z by ring.
  replace (n + 26 * 1 + 6 * 0 + 21 * 1 + 1)%Z with (n + 48)%Z by ring.
  replace (n + 26 * 1 + 6 * 1 + 21 * 0 + 0)%Z with (n + 32)%Z by ring.
  replace (n + 26 * 1 + 6 * 1 + 21 * 0 + 1)%Z with (n + 33)%Z by ring.
  replace (n + 26 * 1 + 6 * 1 + 21 * 1 + 0)%Z with (n + 53)%Z by ring.
  replace (n + 26 * 1 + 6 * 1 + 21 * 1 + 1)%Z with (n + 54)%Z by ring.
  replace (n + 26 + 6 + 21 + 1)%Z with (n + 54)%Z by ring.
  replace (n + 26 + 21 + 1)%Z with (n + 48)%Z by ring.
  replace (n + 26 + 6 + 21)%Z with (n + 53)%Z by ring.
  replace (n + 6 + 21 + 1)%Z with (n + 28)%Z by ring.
  replace (n + 26 + 6 + 1)%Z with (n + 33)%Z by ring.
  replace (n + 26 + 21)%Z with (n + 47)%Z by ring.
  replace (n + 21 + 1)%Z with (n + 22)%Z by ring.
  replace (n + 6 + 21)%Z with (n + 27)%Z by ring.
  replace (n + 26 + 1)%Z with (n + 27)%Z by ring.
  replace (n + 26 + 6)%Z with (n + 32)%Z by ring.
  replace (n + 6 + 1)%Z with (n + 7)%Z by ring.
  rewrite ?Z.add_0_r. ring.
Qed.
