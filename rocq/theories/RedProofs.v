(** Lemmas on the reduction loops. *)
From Coq Require Import List Arith ZArith QArith Qabs Qminmax Lia Lqa Psatz.
From Verif Require Import RedModel RedSpec.
Import ListNotations.
Local Open Scope nat_scope.

(** ** positions *)
Lemma cMin_ge : forall L n i, 0 < n -> n <= L -> i <= cMin (i * L) n.
Proof. intros; unfold cMin. apply Nat.div_le_lower_bound; nia. Qed.

Lemma ceil_lt : forall L n i, 0 < n -> n <= L -> i < n -> (i * L + (n - 1)) / n < L.
Proof. intros. apply Nat.div_lt_upper_bound; nia. Qed.

Lemma cMax_eq : forall L n i, 0 < n -> n <= L -> i < n -> cMax (i * L) n L = (i * L + (n - 1)) / n.
Proof.
  intros L n i H1 H2 H3; unfold cMax. pose proof (ceil_lt L n i H1 H2 H3).
  destruct (Nat.leb_spec L ((i * L + (n - 1)) / n)); [lia|reflexivity].
Qed.

Lemma cMax_ge : forall L n i, 0 < n -> n <= L -> i < n -> cMin (i * L) n <= cMax (i * L) n L.
Proof.
  intros L n i H1 H2 H3. rewrite cMax_eq by assumption. unfold cMin.
  apply Nat.div_le_mono; lia.
Qed.

Lemma cMax_lt : forall L n i, 0 < n -> n <= L -> i < n -> cMax (i * L) n L < L.
Proof. intros L n i H1 H2 H3. rewrite cMax_eq by assumption. apply ceil_lt; assumption. Qed.

Lemma flat_ge : forall L n x y z ix iy iz, n <= L -> ix <= x -> iy <= y -> iz <= z ->
  ix + n * (iy + n * iz) <= x + L * (y + L * z).
Proof.
  intros. assert (n * iz <= L * z) by (apply Nat.mul_le_mono; assumption).
  assert (n * (iy + n * iz) <= L * (y + L * z)) by (apply Nat.mul_le_mono; lia). lia.
Qed.

(** the value at one site depends only on what has not been overwritten *)
Lemma interp_ext : forall Lx Lz nLx nLz f g ix iy iz,
  0 < nLx -> nLx <= Lx -> 0 < nLz -> nLz <= Lz -> ix < nLx -> iy < nLx -> iz < nLz ->
  (forall p, ix + nLx * (iy + nLx * iz) <= p -> f p = g p) ->
  interp Lx Lz nLx nLz f (ix * Lx) (iy * Lx) (iz * Lz) = interp Lx Lz nLx nLz g (ix * Lx) (iy * Lx) (iz * Lz).
Proof.
  intros Lx Lz nLx nLz f g ix iy iz H1 H2 H3 H4 Hx Hy Hz E. unfold interp.
  pose proof (cMin_ge Lx nLx ix H1 H2). pose proof (cMin_ge Lx nLx iy H1 H2).
  pose proof (cMin_ge Lz nLz iz H3 H4).
  pose proof (cMax_ge Lx nLx ix H1 H2 Hx). pose proof (cMax_ge Lx nLx iy H1 H2 Hy).
  pose proof (cMax_ge Lz nLz iz H3 H4 Hz).
  rewrite !E by (apply flat_ge; lia). reflexivity.
Qed.

(** ** the loops *)
Section Loop.
  Variables (Lx Lz nLx nLz : nat) (f : nat -> Q).
  Hypothesis (H1 : 0 < nLx) (H2 : nLx <= Lx) (H3 : 0 < nLz) (H4 : nLz <= Lz).

  (** the state after the first c coarse sites in row-major order *)
  Definition at_count (c : nat) (g : nat -> Q) : Prop :=
    (forall p, c <= p -> g p = f p) /\
    (forall ix iy iz, ix < nLx -> iy < nLx -> iz < nLz -> ix + nLx * (iy + nLx * iz) < c ->
       g (ix + nLx * (iy + nLx * iz)) = interp Lx Lz nLx nLz f (ix * Lx) (iy * Lx) (iz * Lz)).

  Lemma decode : forall a b c x y z, a < nLx -> b < nLx -> x < nLx -> y < nLx ->
    a + nLx * (b + nLx * c) = x + nLx * (y + nLx * z) -> a = x /\ b = y /\ c = z.
  Proof.
    clear. intros a b c x y z Ha Hb Hx Hy E.
    assert (R : forall n p q r s, p < n -> r < n -> p + n * q = r + n * s -> p = r /\ q = s).
    { clear. intros n p q r s Hp Hr E.
      assert (q = s) by (destruct (Nat.lt_trichotomy q s) as [?|[?|?]]; [nia|assumption|nia]). subst. lia. }
    destruct (R _ _ _ _ _ Ha Hx E) as [-> E2]. destruct (R _ _ _ _ _ Hb Hy E2) as [-> ->]. auto.
  Qed.

  Lemma step_count : forall ix iy iz g, ix < nLx -> iy < nLx -> iz < nLz ->
    at_count (ix + nLx * (iy + nLx * iz)) g ->
    at_count (S (ix + nLx * (iy + nLx * iz)))
      (upd g (ix + nLx * (iy + nLx * iz)) (interp Lx Lz nLx nLz g (ix * Lx) (iy * Lx) (iz * Lz))).
  Proof.
    intros ix iy iz g Hx Hy Hz [A B].
    assert (V : interp Lx Lz nLx nLz g (ix * Lx) (iy * Lx) (iz * Lz) = interp Lx Lz nLx nLz f (ix * Lx) (iy * Lx) (iz * Lz))
      by (apply interp_ext; assumption).
    rewrite V. split.
    - intros p Hp. unfold upd. destruct (Nat.eqb_spec p (ix + nLx * (iy + nLx * iz))) as [E|E]; [exfalso|].
      + revert Hp E; generalize (ix + nLx * (iy + nLx * iz)); clear; lia.
      + apply A. lia.
    - intros a b c Ha Hb Hc Hlt. unfold upd.
      destruct (Nat.eqb_spec (a + nLx * (b + nLx * c)) (ix + nLx * (iy + nLx * iz))) as [E|E].
      + destruct (decode _ _ _ _ _ _ Ha Hb Hx Hy E) as [-> [-> ->]]. reflexivity.
      + apply B; try assumption. lia.
  Qed.

  Lemma rowX : forall iy iz g k, iy < nLx -> iz < nLz -> k <= nLx -> at_count (nLx * (iy + nLx * iz)) g ->
    exists g', fold_left (redX Lx Lz nLx nLz iy iz (iy * Lx) (iz * Lz)) (seq 0 k) (g, 0) = (g', k * Lx) /\
      at_count (k + nLx * (iy + nLx * iz)) g'.
  Proof.
    intros iy iz g k Hy Hz Hk A. induction k as [|k IH].
    - exists g. split; [reflexivity|exact A].
    - destruct IH as [g' [E B]]; [lia|]. rewrite seq_S, fold_left_app, E. cbn [fold_left redX].
      eexists; split; [rewrite (Nat.mul_comm (S k)), Nat.mul_succ_r, (Nat.mul_comm Lx); cbn [plus]; reflexivity|].
      apply step_count; [lia|assumption..].
  Qed.

  Lemma rowY : forall iz g k, iz < nLz -> k <= nLx -> at_count (nLx * (nLx * iz)) g ->
    exists g', fold_left (redY Lx Lz nLx nLz iz (iz * Lz)) (seq 0 k) (g, 0, 0) = (g', 0, k * Lx) /\
      at_count (nLx * (k + nLx * iz)) g'.
  Proof.
    intros iz g k Hz Hk A. induction k as [|k IH].
    - exists g. split; [reflexivity|exact A].
    - destruct IH as [g' [E B]]; [lia|]. rewrite seq_S, fold_left_app, E. cbn [fold_left redY].
      destruct (rowX k iz g' nLx) as [g2 [E2 B2]]; [lia|assumption|lia|assumption|].
      cbn [plus]. rewrite E2. exists g2. split.
      + rewrite (Nat.mul_comm (S k)), Nat.mul_succ_r, (Nat.mul_comm Lx). reflexivity.
      + rewrite Nat.mul_succ_r, Nat.add_comm. exact B2.
  Qed.

  Lemma rowZ : forall g k, k <= nLz -> at_count 0 g ->
    exists g', fold_left (redZ Lx Lz nLx nLz) (seq 0 k) (g, 0, 0, 0) = (g', 0, 0, k * Lz) /\
      at_count (nLx * (nLx * k)) g'.
  Proof.
    intros g k Hk A. induction k as [|k IH].
    - exists g. split; [reflexivity|]. rewrite !Nat.mul_0_r. exact A.
    - destruct IH as [g' [E B]]; [lia|]. rewrite seq_S, fold_left_app, E. cbn [fold_left redZ].
      destruct (rowY k g' nLx) as [g2 [E2 B2]]; [lia|lia|assumption|].
      cbn [plus]. rewrite E2. exists g2. split.
      + rewrite (Nat.mul_comm (S k)), Nat.mul_succ_r, (Nat.mul_comm Lz). reflexivity.
      + replace (nLx * (nLx * S k)) with (nLx * (nLx + nLx * k)) by (clear; lia). exact B2.
  Qed.

  Lemma loop_count : at_count (nLx * (nLx * nLz)) (reduceLoop Lx Lz nLx nLz f).
  Proof.
    unfold reduceLoop. destruct (rowZ f nLz) as [g [E B]]; [lia| |].
    - split; [reflexivity|]. intros ix iy iz _ _ _ Hlt; exfalso; lia.
    - rewrite E. exact B.
  Qed.
End Loop.

(** ** sums with tent weights *)
Lemma sumN_ext : forall n f g, (forall i, i < n -> (f i == g i)%Q) -> (sumN n f == sumN n g)%Q.
Proof.
  induction n; intros f g H; [reflexivity|]. cbn [sumN]. rewrite (IHn f g) by (intros; apply H; lia).
  rewrite (H n) by lia. reflexivity.
Qed.
Lemma sumN_zero : forall n f, (forall i, i < n -> (f i == 0)%Q) -> (sumN n f == 0)%Q.
Proof. induction n; intros f H; [reflexivity|]. cbn [sumN]. rewrite IHn by (intros; apply H; lia). rewrite (H n) by lia. reflexivity. Qed.
Lemma sumN_scal : forall n c f, (sumN n (fun i => c * f i) == c * sumN n f)%Q.
Proof. induction n; intros c f; cbn [sumN]; [ring|]. rewrite IHn. ring. Qed.
Lemma sumN_plus : forall n f g, (sumN n (fun i => f i + g i) == sumN n f + sumN n g)%Q.
Proof. induction n; intros f g; cbn [sumN]; [ring|]. rewrite IHn. ring. Qed.
Lemma sumN_one : forall n k f, k < n -> (forall i, i < n -> i <> k -> (f i == 0)%Q) -> (sumN n f == f k)%Q.
Proof.
  induction n; intros k f Hk H; [lia|]. cbn [sumN]. destruct (Nat.eq_dec k n) as [->|Hn].
  - rewrite sumN_zero; [ring|]. intros i Hi. apply H; lia.
  - rewrite (IHn k) by (try lia; intros; apply H; lia). rewrite (H n) by lia. ring.
Qed.
Lemma sumN_two : forall n k f, S k < n -> (forall i, i < n -> i <> k -> i <> S k -> (f i == 0)%Q) -> (sumN n f == f k + f (S k))%Q.
Proof.
  induction n; intros k f Hk H; [lia|]. cbn [sumN]. destruct (Nat.eq_dec (S k) n) as [<-|Hn].
  - rewrite (sumN_one (S k) k) by (try lia; intros; apply H; lia). reflexivity.
  - rewrite (IHn k) by (try lia; intros; apply H; lia). rewrite (H n) by lia. ring.
Qed.

Lemma tent_far : forall d, (1 <= Qabs d -> tent d == 0)%Q.
Proof. intros d H. unfold tent. apply Q.max_l. lra. Qed.
Lemma tent_near : forall d, (Qabs d <= 1 -> tent d == 1 - Qabs d)%Q.
Proof. intros d H. unfold tent. apply Q.max_r. lra. Qed.
Global Instance tent_comp : Proper (Qeq ==> Qeq) tent.
Proof. intros a b E. unfold tent. rewrite E. reflexivity. Qed.

Lemma place_eq : forall L n i, 0 < n ->
  (place L n i == inject_Z (Z.of_nat (cMin (i * L) n)) + cRem (i * L) n)%Q.
Proof.
  intros L n i H. unfold place, cMin, cRem, qdiv.
  assert (N : ~ inject_Z (Z.of_nat n) == 0). { unfold inject_Z, Qeq; cbn. lia. }
  assert (E : inject_Z (Z.of_nat i) * inject_Z (Z.of_nat L) ==
              inject_Z (Z.of_nat n) * inject_Z (Z.of_nat (i * L / n)) + inject_Z (Z.of_nat ((i * L) mod n))).
  { rewrite <- !inject_Z_mult, <- inject_Z_plus, <- !Nat2Z.inj_mul, <- Nat2Z.inj_add.
    rewrite <- Nat.div_mod by lia. reflexivity. }
  apply (Qmult_inj_r _ _ (inject_Z (Z.of_nat n)) N). rewrite Qmult_plus_distr_l.
  unfold Qdiv.
  setoid_replace (inject_Z (Z.of_nat i) * (inject_Z (Z.of_nat L) * / inject_Z (Z.of_nat n)) * inject_Z (Z.of_nat n))%Q
    with (inject_Z (Z.of_nat i) * inject_Z (Z.of_nat L))%Q by (field; exact N).
  setoid_replace (inject_Z (Z.of_nat ((i * L) mod n)) * / inject_Z (Z.of_nat n) * inject_Z (Z.of_nat n))%Q
    with (inject_Z (Z.of_nat ((i * L) mod n))) by (field; exact N).
  rewrite E. ring.
Qed.

Lemma cRem_range : forall m n, 0 < n -> (0 <= cRem m n /\ cRem m n < 1)%Q.
Proof.
  intros m n H. unfold cRem, qdiv.
  assert (N : (0 < inject_Z (Z.of_nat n))%Q) by (unfold inject_Z, Qlt; cbn; lia).
  pose proof (Nat.mod_upper_bound m n) as U.
  split.
  - apply Qle_shift_div_l; [exact N|]. rewrite Qmult_0_l. change 0%Q with (inject_Z 0). rewrite <- Zle_Qle. lia.
  - apply Qlt_shift_div_r; [exact N|]. rewrite Qmult_1_l. rewrite <- Zlt_Qlt. specialize (U ltac:(lia)). lia.
Qed.

Lemma cRem_zero : forall m n, 0 < n -> m mod n = 0 -> (cRem m n == 0)%Q.
Proof. intros m n H E. unfold cRem, qdiv. rewrite E. cbn. unfold Qdiv. ring. Qed.

(** one dimension: the sum over all fine sites is the interpolation between two *)
Lemma line : forall L n i h, 0 < n -> n <= L -> i < n ->
  (sumN L (fun p => weight L n i p * h p) ==
   (1 - cRem (i * L) n) * h (cMin (i * L) n) + cRem (i * L) n * h (cMax (i * L) n L))%Q.
Proof.
  intros L n i h H1 H2 H3.
  pose proof (place_eq L n i H1) as P. pose proof (cRem_range (i * L) n H1) as [R0 R1].
  pose proof (cMax_lt L n i H1 H2 H3) as X. pose proof (cMax_ge L n i H1 H2 H3) as G.
  rewrite (cMax_eq L n i H1 H2 H3) in *.
  set (k := cMin (i * L) n) in *. set (r := cRem (i * L) n) in *.
  assert (W : forall p, (weight L n i p == tent (inject_Z (Z.of_nat k - Z.of_nat p) + r))%Q).
  { intro p. unfold weight. rewrite P. replace (Z.of_nat k - Z.of_nat p)%Z with (Z.of_nat k + - Z.of_nat p)%Z by ring.
    rewrite inject_Z_plus, inject_Z_opp. apply tent_comp. ring. }
  assert (Far1 : forall p, p < k -> (weight L n i p == 0)%Q).
  { intros p Hp. rewrite W. apply tent_far.
    assert (inject_Z 1 <= inject_Z (Z.of_nat k - Z.of_nat p))%Q by (rewrite <- Zle_Qle; lia).
    change (inject_Z 1) with 1%Q in *. rewrite Qabs_pos by lra. lra. }
  assert (Far2 : forall p, S k < p -> (weight L n i p == 0)%Q).
  { intros p Hp. rewrite W. apply tent_far.
    assert (inject_Z (Z.of_nat k - Z.of_nat p) <= inject_Z (-2))%Q by (rewrite <- Zle_Qle; lia).
    change (inject_Z (-2)) with (-(2))%Q in *. rewrite Qabs_neg by lra. lra. }
  assert (Wk : (weight L n i k == 1 - r)%Q).
  { rewrite W, Z.sub_diag. rewrite tent_near; rewrite Qabs_pos; try (change (inject_Z 0) with 0%Q; lra). }
  assert (WS : (weight L n i (S k) == r)%Q).
  { rewrite W. replace (Z.of_nat k - Z.of_nat (S k))%Z with (-1)%Z by lia.
    change (inject_Z (-1)) with (- (1))%Q. rewrite tent_near; rewrite Qabs_neg; try lra. }
  destruct (Nat.eq_dec ((i * L) mod n) 0) as [E|E].
  - assert (r == 0)%Q by (apply cRem_zero; assumption).
    assert (C : (i * L + (n - 1)) / n = k).
    { unfold k, cMin. rewrite (Nat.div_mod (i * L) n) at 1 by lia. rewrite E, Nat.add_0_r.
      rewrite (Nat.mul_comm n), Nat.div_add_l by lia. rewrite (Nat.div_small (n - 1)) by lia. lia. }
    rewrite C in *. rewrite (sumN_one L k); [rewrite Wk, H; ring|lia|].
    intros p Hp Np. destruct (Nat.eq_dec p (S k)) as [->|Ns].
    + rewrite WS, H. ring.
    + destruct (Nat.lt_ge_cases p k); [rewrite Far1 by lia|rewrite Far2 by lia]; ring.
  - assert (C : (i * L + (n - 1)) / n = S k).
    { unfold k, cMin. rewrite (Nat.div_mod (i * L) n) at 1 by lia.
      pose proof (Nat.mod_upper_bound (i * L) n).
      replace (n * (i * L / n) + (i * L) mod n + (n - 1)) with ((i * L / n + 1) * n + ((i * L) mod n - 1)) by nia.
      rewrite Nat.div_add_l by lia. rewrite (Nat.div_small ((i * L) mod n - 1)) by lia. lia. }
    rewrite C in *. rewrite (sumN_two L k); [rewrite Wk, WS; ring|lia|].
    intros p Hp Np Ns. destruct (Nat.lt_ge_cases p k); [rewrite Far1 by lia|rewrite Far2 by lia]; ring.
Qed.

Lemma interp_reduced : forall Lx Lz nLx nLz f ix iy iz,
  0 < nLx -> nLx <= Lx -> 0 < nLz -> nLz <= Lz -> ix < nLx -> iy < nLx -> iz < nLz ->
  (interp Lx Lz nLx nLz f (ix * Lx) (iy * Lx) (iz * Lz) == reducedAt Lx Lz nLx nLz f ix iy iz)%Q.
Proof.
  intros Lx Lz nLx nLz f ix iy iz H1 H2 H3 H4 Hx Hy Hz. unfold reducedAt.
  set (h z y := sumN Lx (fun x => weight Lx nLx ix x * f (x + Lx * (y + Lx * z))%nat)%Q).
  set (g z := sumN Lx (fun y => weight Lx nLx iy y * h z y)%Q).
  assert (E : (sumN Lz (fun z => sumN Lx (fun y => sumN Lx (fun x =>
    weight Lx nLx ix x * weight Lx nLx iy y * weight Lz nLz iz z * f (x + Lx * (y + Lx * z))%nat))) ==
    sumN Lz (fun z => weight Lz nLz iz z * g z))%Q).
  { apply sumN_ext; intros z _. unfold g. rewrite <- sumN_scal. apply sumN_ext; intros y _.
    unfold h. rewrite Qmult_assoc. rewrite <- sumN_scal. apply sumN_ext; intros x _. ring. }
  rewrite E. rewrite (line Lz nLz iz g H3 H4 Hz).
  assert (G : forall z, (g z == (1 - cRem (iy * Lx) nLx) * h z (cMin (iy * Lx) nLx) + cRem (iy * Lx) nLx * h z (cMax (iy * Lx) nLx Lx))%Q)
    by (intro z; apply (line Lx nLx iy (h z) H1 H2 Hy)).
  assert (Hh : forall z y, (h z y == (1 - cRem (ix * Lx) nLx) * f (cMin (ix * Lx) nLx + Lx * (y + Lx * z))%nat
      + cRem (ix * Lx) nLx * f (cMax (ix * Lx) nLx Lx + Lx * (y + Lx * z))%nat)%Q)
    by (intros z y; apply (line Lx nLx ix (fun x => f (x + Lx * (y + Lx * z))%nat) H1 H2 Hx)).
  rewrite !G, !Hh. unfold interp. ring.
Qed.

Lemma weight_sum : forall L n i, 0 < n -> n <= L -> i < n -> (sumN L (weight L n i) == 1)%Q.
Proof.
  intros L n i H1 H2 H3. rewrite (sumN_ext _ _ (fun p => weight L n i p * 1)%Q) by (intros; ring).
  rewrite (line L n i (fun _ => 1%Q) H1 H2 H3). ring.
Qed.

Lemma weight_pos : forall L n i p, (0 <= weight L n i p)%Q.
Proof. intros. unfold weight, tent. apply Q.le_max_l. Qed.
