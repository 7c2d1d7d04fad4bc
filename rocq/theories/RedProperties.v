(** C34, C35: reduction of grids and projection. *)
From Coq Require Import List Arith ZArith QArith Qabs Qminmax Lia Lqa Psatz.
From Verif Require Import RedModel RedSpec RedProofs.
Import ListNotations.
Local Open Scope nat_scope.

(** ** C34 *)
(** In place, every coarse site receives the linear interpolation of the original fine values, and
    nothing beyond the coarse grid changes. Partial: exact arithmetic, and not more sites than before. *)
Theorem reduce_interpolates_partial : forall Lx Lz nLx nLz f,
  0 < nLx -> nLx <= Lx -> 0 < nLz -> nLz <= Lz ->
  (forall ix iy iz, ix < nLx -> iy < nLx -> iz < nLz ->
     reduceLoop Lx Lz nLx nLz f (ix + nLx * (iy + nLx * iz)) == reducedAt Lx Lz nLx nLz f ix iy iz) /\
  (forall p, nLx * nLx * nLz <= p -> reduceLoop Lx Lz nLx nLz f p = f p).
Proof.
  intros Lx Lz nLx nLz f H1 H2 H3 H4.
  destruct (loop_count Lx Lz nLx nLz f H1 H2 H3 H4) as [A B]. split.
  - intros ix iy iz Hx Hy Hz. rewrite B; try assumption.
    + apply interp_reduced; assumption.
    + assert (ix + nLx * (iy + nLx * iz) < nLx * (S iy + nLx * iz)) by nia.
      assert (nLx * (S iy + nLx * iz) <= nLx * (nLx * S iz)) by (apply Nat.mul_le_mono_l; nia).
      assert (nLx * (nLx * S iz) <= nLx * (nLx * nLz)) by (apply Nat.mul_le_mono_l, Nat.mul_le_mono_l; lia). lia.
  - intros p Hp. apply A. rewrite Nat.mul_assoc. exact Hp.
Qed.

Lemma sumN_mono : forall n f g, (forall i, i < n -> (f i <= g i)%Q) -> (sumN n f <= sumN n g)%Q.
Proof.
  induction n; intros f g H; cbn [sumN]; [apply Qle_refl|].
  apply Qplus_le_compat; [apply IHn; intros; apply H|apply H]; lia.
Qed.

Lemma reducedAt_const : forall Lx Lz nLx nLz c ix iy iz,
  0 < nLx -> nLx <= Lx -> 0 < nLz -> nLz <= Lz -> ix < nLx -> iy < nLx -> iz < nLz ->
  (reducedAt Lx Lz nLx nLz (fun _ => c) ix iy iz == c)%Q.
Proof.
  intros. unfold reducedAt.
  rewrite (sumN_ext _ _ (fun z => c * weight Lz nLz iz z)%Q).
  - rewrite sumN_scal, weight_sum by assumption. ring.
  - intros z _. rewrite (sumN_ext _ _ (fun y => (c * weight Lz nLz iz z) * weight Lx nLx iy y)%Q).
    + rewrite sumN_scal, weight_sum by assumption. ring.
    + intros y _. rewrite (sumN_ext _ _ (fun x => (c * weight Lz nLz iz z * weight Lx nLx iy y) * weight Lx nLx ix x)%Q).
      * rewrite sumN_scal, weight_sum by assumption. ring.
      * intros x _. ring.
Qed.

(** The weights are not negative and add up to one over the fine grid. *)
Theorem reduce_weights : forall Lx Lz nLx nLz ix iy iz,
  0 < nLx -> nLx <= Lx -> 0 < nLz -> nLz <= Lz -> ix < nLx -> iy < nLx -> iz < nLz ->
  (forall x y z, 0 <= weight Lx nLx ix x * weight Lx nLx iy y * weight Lz nLz iz z)%Q /\
  (sumN Lz (fun z => sumN Lx (fun y => sumN Lx (fun x =>
     weight Lx nLx ix x * weight Lx nLx iy y * weight Lz nLz iz z))) == 1)%Q.
Proof.
  intros Lx Lz nLx nLz ix iy iz H1 H2 H3 H4 Hx Hy Hz. split.
  - intros. repeat apply Qmult_le_0_compat; apply weight_pos.
  - etransitivity; [|apply (reducedAt_const Lx Lz nLx nLz 1%Q ix iy iz); assumption]. unfold reducedAt.
    repeat (apply sumN_ext; intros ? _). ring.
Qed.

(** The reduced values stay between the bounds of the original; a constant stays constant. *)
Theorem reduce_bounds_partial : forall Lx Lz nLx nLz f lo hi ix iy iz,
  0 < nLx -> nLx <= Lx -> 0 < nLz -> nLz <= Lz -> ix < nLx -> iy < nLx -> iz < nLz ->
  (forall p, p < Lx * Lx * Lz -> (lo <= f p <= hi)%Q) ->
  (lo <= reduceLoop Lx Lz nLx nLz f (ix + nLx * (iy + nLx * iz)) <= hi)%Q.
Proof.
  intros Lx Lz nLx nLz f lo hi ix iy iz H1 H2 H3 H4 Hx Hy Hz B.
  destruct (reduce_interpolates_partial Lx Lz nLx nLz f H1 H2 H3 H4) as [E _].
  assert (R : forall x y z, x < Lx -> y < Lx -> z < Lz -> x + Lx * (y + Lx * z) < Lx * Lx * Lz).
  { clear. intros. assert (x + Lx * (y + Lx * z) < Lx * (S y + Lx * z)) by nia.
    assert (Lx * (S y + Lx * z) <= Lx * (Lx * S z)) by (apply Nat.mul_le_mono_l; nia).
    assert (Lx * (Lx * S z) <= Lx * (Lx * Lz)) by (apply Nat.mul_le_mono_l, Nat.mul_le_mono_l; lia). lia. }
  rewrite (E ix iy iz Hx Hy Hz). split.
  - rewrite <- (reducedAt_const Lx Lz nLx nLz lo ix iy iz) by assumption.
    unfold reducedAt. apply sumN_mono; intros z Lz0. apply sumN_mono; intros y Ly0. apply sumN_mono; intros x Lx0.
    rewrite !(Qmult_comm (_ * _ * _)). apply Qmult_le_compat_r; [apply B, R; assumption|].
    repeat apply Qmult_le_0_compat; apply weight_pos.
  - rewrite <- (reducedAt_const Lx Lz nLx nLz hi ix iy iz) by assumption.
    unfold reducedAt. apply sumN_mono; intros z Lz0. apply sumN_mono; intros y Ly0. apply sumN_mono; intros x Lx0.
    rewrite !(Qmult_comm (_ * _ * _)). apply Qmult_le_compat_r; [apply B, R; assumption|].
    repeat apply Qmult_le_0_compat; apply weight_pos.
Qed.

Corollary reduce_constant_partial : forall Lx Lz nLx nLz f c ix iy iz,
  0 < nLx -> nLx <= Lx -> 0 < nLz -> nLz <= Lz -> ix < nLx -> iy < nLx -> iz < nLz ->
  (forall p, p < Lx * Lx * Lz -> f p == c) ->
  reduceLoop Lx Lz nLx nLz f (ix + nLx * (iy + nLx * iz)) == c.
Proof.
  intros Lx Lz nLx nLz f c ix iy iz H1 H2 H3 H4 Hx Hy Hz B.
  assert (K : (c <= reduceLoop Lx Lz nLx nLz f (ix + nLx * (iy + nLx * iz)) <= c)%Q).
  { apply reduce_bounds_partial; try assumption. intros p Hp. rewrite (B p Hp). split; apply Qle_refl. }
  destruct K. apply Qle_antisym; assumption.
Qed.

(** When the sizes divide, the coarse grid is a subset of the fine one. *)
Theorem reduce_subset_partial : forall k l nLx nLz f ix iy iz,
  0 < k -> 0 < l -> ix < nLx -> iy < nLx -> iz < nLz ->
  reduceLoop (k * nLx) (l * nLz) nLx nLz f (ix + nLx * (iy + nLx * iz)) ==
  f (k * ix + (k * nLx) * (k * iy + (k * nLx) * (l * iz))).
Proof.
  intros k l nLx nLz f ix iy iz Hk Hl Hx Hy Hz.
  destruct (loop_count (k * nLx) (l * nLz) nLx nLz f) as [_ B]; try nia.
  rewrite B; try assumption.
  - assert (M : forall a n i, 0 < n -> cMin (i * (a * n)) n = a * i /\ cRem (i * (a * n)) n == 0).
    { clear. intros a n i H. unfold cMin. replace (i * (a * n)) with (a * i * n) by lia.
      rewrite Nat.div_mul by lia. split; [reflexivity|]. apply cRem_zero; [assumption|]. apply Nat.mod_mul. lia. }
    destruct (M k nLx ix ltac:(lia)) as [X1 X2]. destruct (M k nLx iy ltac:(lia)) as [Y1 Y2].
    destruct (M l nLz iz ltac:(lia)) as [Z1 Z2].
    unfold interp. rewrite X1, Y1, Z1, X2, Y2, Z2. ring.
  - assert (ix + nLx * (iy + nLx * iz) < nLx * (S iy + nLx * iz)) by nia.
    assert (nLx * (S iy + nLx * iz) <= nLx * (nLx * S iz)) by (apply Nat.mul_le_mono_l; nia).
    assert (nLx * (nLx * S iz) <= nLx * (nLx * nLz)) by (apply Nat.mul_le_mono_l, Nat.mul_le_mono_l; lia). lia.
Qed.

Lemma cMax_cases : forall L n i, 0 < n -> n <= L -> i < n ->
  cMax (i * L) n L = if (i * L) mod n =? 0 then cMin (i * L) n else S (cMin (i * L) n).
Proof.
  intros L n i H1 H2 H3. rewrite cMax_eq by assumption. unfold cMin.
  destruct (Nat.eqb_spec ((i * L) mod n) 0) as [E|E].
  - rewrite (Nat.div_mod (i * L) n) at 1 by lia. rewrite E, Nat.add_0_r.
    rewrite (Nat.mul_comm n), Nat.div_add_l by lia. rewrite (Nat.div_small (n - 1)) by lia. lia.
  - rewrite (Nat.div_mod (i * L) n) at 1 by lia. pose proof (Nat.mod_upper_bound (i * L) n).
    replace (n * (i * L / n) + (i * L) mod n + (n - 1)) with ((i * L / n + 1) * n + ((i * L) mod n - 1)) by nia.
    rewrite Nat.div_add_l by lia. rewrite (Nat.div_small ((i * L) mod n - 1)) by lia. lia.
Qed.

(** Each rank reduces its own part: the result is the part of the reduction of the whole box. *)
Theorem reduce_ranks_partial : forall Lx Lz nLx nLz R F r ix iy iz,
  0 < nLx -> nLx <= Lx -> 0 < nLz -> nLz <= Lz -> r < R -> ix < nLx -> iy < nLx -> iz < nLz ->
  reduceLoop Lx Lz nLx nLz (fun p => F (Lx * Lx * Lz * r + p)) (ix + nLx * (iy + nLx * iz)) ==
  reduceLoop Lx (R * Lz) nLx (R * nLz) F (ix + nLx * (iy + nLx * (r * nLz + iz))).
Proof.
  intros Lx Lz nLx nLz R F r ix iy iz H1 H2 H3 H4 Hr Hx Hy Hz.
  assert (G : r * nLz + iz < R * nLz) by nia.
  assert (T : forall n m j, ix < n -> iy < n -> j < m -> ix + n * (iy + n * j) < n * (n * m)).
  { clear. intros n m j Hx Hy Hj. assert (ix + n * (iy + n * j) < n * (S iy + n * j)) by nia.
    assert (n * (S iy + n * j) <= n * (n * S j)) by (apply Nat.mul_le_mono_l; nia).
    assert (n * (n * S j) <= n * (n * m)) by (apply Nat.mul_le_mono_l, Nat.mul_le_mono_l; lia). lia. }
  destruct (loop_count Lx Lz nLx nLz (fun p => F (Lx * Lx * Lz * r + p)) H1 H2 H3 H4) as [_ B].
  destruct (loop_count Lx (R * Lz) nLx (R * nLz) F H1 H2) as [_ C]; try nia.
  rewrite B by (try assumption; apply T; assumption).
  rewrite C by (try assumption; apply T; assumption).
  assert (D : (r * nLz + iz) * (R * Lz) = R * (r * Lz * nLz + iz * Lz)) by (clear; lia).
  assert (M : cMin ((r * nLz + iz) * (R * Lz)) (R * nLz) = r * Lz + cMin (iz * Lz) nLz).
  { unfold cMin. rewrite D, Nat.div_mul_cancel_l by lia. rewrite Nat.div_add_l by lia. reflexivity. }
  assert (N : ((r * nLz + iz) * (R * Lz)) mod (R * nLz) = R * ((iz * Lz) mod nLz)).
  { rewrite D, Nat.mul_mod_distr_l by lia. rewrite Nat.add_comm, Nat.mod_add by lia. reflexivity. }
  assert (E : cRem ((r * nLz + iz) * (R * Lz)) (R * nLz) == cRem (iz * Lz) nLz).
  { unfold cRem, qdiv. rewrite N. rewrite !Nat2Z.inj_mul, !inject_Z_mult. field. split.
    - unfold inject_Z, Qeq; cbn; lia.
    - unfold inject_Z, Qeq; cbn; lia. }
  assert (X : cMax ((r * nLz + iz) * (R * Lz)) (R * nLz) (R * Lz) = r * Lz + cMax (iz * Lz) nLz Lz).
  { rewrite (cMax_cases (R * Lz)) by nia. rewrite (cMax_cases Lz) by assumption. rewrite N, M.
    destruct (Nat.eqb_spec ((iz * Lz) mod nLz) 0) as [K|K].
    - rewrite K, Nat.mul_0_r. reflexivity.
    - destruct (Nat.eqb_spec (R * ((iz * Lz) mod nLz)) 0) as [K2|K2]; [exfalso; nia|]. lia. }
  unfold interp. rewrite E, M, X.
  assert (I : forall x y z, Lx * Lx * Lz * r + (x + Lx * (y + Lx * z)) = x + Lx * (y + Lx * (r * Lz + z))) by (clear; intros; ring).
  rewrite !I. reflexivity.
Qed.

(** ** The whole reduction *)
Lemma put_in : forall d o s n i, i < n -> put d o s n (o + i) = s i.
Proof.
  intros. unfold put. destruct (Nat.leb_spec o (o + i)); [|lia]. destruct (Nat.ltb_spec (o + i) (o + n)); [|lia].
  cbn. f_equal. lia.
Qed.
Lemma put_out : forall d o s n i, i < o \/ o + n <= i -> put d o s n i = d i.
Proof.
  intros. unfold put. destruct (Nat.leb_spec o i); [|reflexivity]. destruct (Nat.ltb_spec i (o + n)); [lia|reflexivity].
Qed.

Definition siteOf (n ix iy iz : nat) : nat := ix + n * (iy + n * iz).
Lemma siteOf_lt : forall n m ix iy iz, ix < n -> iy < n -> iz < m -> siteOf n ix iy iz < n * n * m.
Proof.
  unfold siteOf. intros n m ix iy iz Hx Hy Hj. assert (ix + n * (iy + n * iz) < n * (S iy + n * iz)) by nia.
  assert (n * (S iy + n * iz) <= n * (n * S iz)) by (apply Nat.mul_le_mono_l; nia).
  assert (n * (n * S iz) <= n * (n * m)) by (apply Nat.mul_le_mono_l, Nat.mul_le_mono_l; lia). lia.
Qed.

(** In place: m, behind the ghosts of the new size, and v hold the reductions of the filtered originals. *)
Theorem reduce_in_place_partial : forall saxion Lx Lz nLx nLz Ng filt fin out ix iy iz,
  0 < nLx -> nLx <= Lx -> 0 < nLz -> nLz <= Lz -> ix < nLx -> iy < nLx -> iz < nLz ->
  let '(fin', out') := runReduce saxion true Lx Lz nLx nLz Ng filt fin out in
  out' = out /\
  rm fin' (nLx * nLx * Ng + siteOf nLx ix iy iz) ==
    reducedAt Lx Lz nLx nLz (filt (fun i => rm fin (Lx * Lx * Ng + i))) ix iy iz /\
  rv fin' (siteOf nLx ix iy iz) == reducedAt Lx Lz nLx nLz (filt (rv fin)) ix iy iz.
Proof.
  intros saxion Lx Lz nLx nLz Ng filt fin out ix iy iz H1 H2 H3 H4 Hx Hy Hz. cbn.
  split; [reflexivity|]. split.
  - rewrite put_in by (apply siteOf_lt; assumption). apply reduce_interpolates_partial; assumption.
  - rewrite <- (Nat.add_0_l (siteOf nLx ix iy iz)). rewrite put_in by (apply siteOf_lt; assumption).
    apply reduce_interpolates_partial; assumption.
Qed.

(** Into a new field, for the complex field: the new one holds the reductions, the source keeps m and v. *)
Theorem reduce_new_partial : forall Lx Lz nLx nLz Ng filt fin out ix iy iz,
  0 < nLx -> nLx <= Lx -> 0 < nLz -> nLz <= Lz -> ix < nLx -> iy < nLx -> iz < nLz ->
  let '(fin', out') := runReduce true false Lx Lz nLx nLz Ng filt fin out in
  rm fin' = rm fin /\ rv fin' = rv fin /\
  rm out' (nLx * nLx * Ng + siteOf nLx ix iy iz) ==
    reducedAt Lx Lz nLx nLz (filt (fun i => rm fin (Lx * Lx * Ng + i))) ix iy iz /\
  rv out' (siteOf nLx ix iy iz) == reducedAt Lx Lz nLx nLz (filt (rv fin)) ix iy iz.
Proof.
  intros Lx Lz nLx nLz Ng filt fin out ix iy iz H1 H2 H3 H4 Hx Hy Hz. cbn.
  split; [reflexivity|]. split; [reflexivity|]. split.
  - rewrite put_in by (apply siteOf_lt; assumption). apply reduce_interpolates_partial; assumption.
  - rewrite <- (Nat.add_0_l (siteOf nLx ix iy iz)). rewrite put_in by (apply siteOf_lt; assumption).
    apply reduce_interpolates_partial; assumption.
Qed.

(** For the axion this is false in general: m of the new field is never written, and the source is
    overwritten with the reduced values. *)
Theorem reduce_new_axion_refuted : forall Lx Lz nLx nLz Ng filt fin out ix iy iz,
  0 < nLx -> nLx <= Lx -> 0 < nLz -> nLz <= Lz -> ix < nLx -> iy < nLx -> iz < nLz ->
  let '(fin', out') := runReduce false false Lx Lz nLx nLz Ng filt fin out in
  rm out' = rm out /\
  rm fin' (Lx * Lx * Ng + siteOf nLx ix iy iz) ==
    reducedAt Lx Lz nLx nLz (filt (fun i => rm fin (Lx * Lx * Ng + i))) ix iy iz.
Proof.
  intros Lx Lz nLx nLz Ng filt fin out ix iy iz H1 H2 H3 H4 Hx Hy Hz. cbn.
  split; [reflexivity|].
  rewrite put_in by (apply siteOf_lt; assumption). apply reduce_interpolates_partial; assumption.
Qed.

Definition ramp (i : nat) : Q := inject_Z (Z.of_nat i).
Example reduce_new_axion_seen :
  let fin := RField ramp ramp ramp in
  let '(fin', out') := runReduce false false 4 4 2 2 1 (fun f => f) fin (RField (fun _ => 0%Q) (fun _ => 0%Q) (fun _ => 0%Q)) in
  (Qeq_bool (rm fin' 17) (rm fin 17), Qeq_bool (rm out' 5) 0%Q, Qeq_bool (rv out' 1) 2) = (false, true, true).
Proof. vm_compute. reflexivity. Qed.

(** Nothing stops a request for more sites than there are; the result is then not the interpolation. *)
Theorem reduce_enlarge_refuted : exists Lx Lz nLx nLz f ix iy iz,
  0 < nLx /\ 0 < nLz /\ ix < nLx /\ iy < nLx /\ iz < nLz /\
  ~ reduceLoop Lx Lz nLx nLz f (siteOf nLx ix iy iz) == interp Lx Lz nLx nLz f (ix * Lx) (iy * Lx) (iz * Lz).
Proof.
  exists 2, 1, 3, 1, ramp, 2, 0, 0. repeat split; try lia. intro H. apply Qeq_bool_iff in H. vm_compute in H. discriminate.
Qed.

(** hypotheses met with a ratio that does not divide *)
Example reduce_seen : map (fun i => Qred (reduceLoop 3 3 2 2 ramp i)) (seq 0 8) =
  [0; 3 # 2; 9 # 2; 6; 27 # 2; 15; 18; 39 # 2]%Q.
Proof. vm_compute. reflexivity. Qed.
Example reduce_spec_seen : Qred (reducedAt 3 3 2 2 ramp 1 1 1) = (39 # 2)%Q.
Proof. vm_compute. reflexivity. Qed.

(** ** C35 *)
Lemma inner_sum : forall Sf (filter : Q -> Q) m2 pt b n m,
  let m' := fold_left (fun m zc => upd m b (m b + filter (m2 (pt + Sf * zc)%nat))%Q) (seq 0 n) m in
  m' b == m b + sumN n (fun z => filter (m2 (pt + Sf * z)%nat)) /\ (forall i, i <> b -> m' i = m i).
Proof.
  intros Sf filter m2 pt b n m. induction n as [|n IH].
  - cbn. split; [ring|reflexivity].
  - cbn zeta in *. destruct IH as [A B]. rewrite seq_S, fold_left_app. cbn [fold_left plus].
    set (g := fold_left _ (seq 0 n) m) in *. split.
    + unfold upd. rewrite Nat.eqb_refl, A. cbn [sumN]. ring.
    + intros i Hi. unfold upd. destruct (Nat.eqb_spec i b); [contradiction|]. apply B; assumption.
Qed.

Lemma local_sum : forall Sf Lz back (filter : Q -> Q) m2 m k, Sf <= back -> k <= Sf ->
  let m' := fold_left (fun m pt =>
    let m := upd m pt 0%Q in
    let m := upd m (back + pt) 0%Q in
    fold_left (fun m zc => upd m (back + pt) (m (back + pt)%nat + filter (m2 (pt + Sf * zc)%nat))%Q) (seq 0 Lz) m)
    (seq 0 k) m in
  (forall pt, pt < k -> m' pt = 0%Q) /\
  (forall pt, pt < k -> m' (back + pt) == sumN Lz (fun z => filter (m2 (pt + Sf * z)%nat))) /\
  (forall i, (i < back \/ back + k <= i) -> k <= i -> m' i = m i).
Proof.
  intros Sf Lz back filter m2 m k Hb. induction k as [|k IH]; intros Hk.
  - cbn. repeat split; intros; lia || reflexivity.
  - cbn zeta in *. destruct IH as (A & B & C); [lia|]. rewrite seq_S, fold_left_app. cbn [fold_left].
    set (g := fold_left _ (seq 0 k) m) in *. cbn [plus].
    destruct (inner_sum Sf filter m2 k (back + k) Lz (upd (upd g k 0%Q) (back + k) 0%Q)) as [D E].
    split; [|split].
    + intros pt Hp. rewrite E by lia. unfold upd. destruct (Nat.eqb_spec pt (back + k)); [lia|].
      destruct (Nat.eqb_spec pt k); [reflexivity|]. apply A. lia.
    + intros pt Hp. destruct (Nat.eq_dec pt k) as [->|N].
      * rewrite D. unfold upd. rewrite Nat.eqb_refl. ring.
      * rewrite E by lia. unfold upd. destruct (Nat.eqb_spec (back + pt) (back + k)); [lia|].
        destruct (Nat.eqb_spec (back + pt) k); [lia|]. apply B. lia.
    + intros i Hi Hk2. rewrite E by lia. unfold upd. destruct (Nat.eqb_spec i (back + k)); [lia|].
      destruct (Nat.eqb_spec i k); [lia|]. apply C; lia.
Qed.

Lemma sumN_blocks : forall R Lz (h : nat -> nat -> Q), 0 < Lz ->
  (sumN (Lz * R)%nat (fun z => h (z / Lz)%nat (z mod Lz)%nat) == sumN R (fun r => sumN Lz (h r)))%Q.
Proof.
  intros R Lz h HL. induction R as [|R IH].
  - rewrite Nat.mul_0_r. reflexivity.
  - rewrite Nat.mul_succ_r. cbn [sumN]. rewrite <- IH. clear IH.
    assert (K : forall n, n <= Lz -> (sumN (Lz * R + n)%nat (fun z => h (z / Lz)%nat (z mod Lz)%nat) ==
      sumN (Lz * R)%nat (fun z => h (z / Lz)%nat (z mod Lz)%nat) + sumN n (h R))%Q).
    { induction n as [|n IHn]; intro Hn.
      - rewrite Nat.add_0_r. cbn [sumN]. ring.
      - rewrite Nat.add_succ_r. cbn [sumN]. rewrite IHn by lia.
        rewrite (Nat.mul_comm Lz R), Nat.div_add_l, (Nat.div_small n) by lia.
        rewrite (Nat.add_comm (R * Lz) n), Nat.mod_add, Nat.mod_small by lia. rewrite Nat.add_0_r. ring. }
    apply K. lia.
Qed.

(** After a projection over any number of ranks, the first rank's front ghost holds the mean over the whole
    depth of the filtered values, the others' hold zero, and besides the first slice of the two ghosts
    nothing changes on any rank. Partial: exact arithmetic. *)
Theorem projection_mean_partial : forall Sf Lz R back filter m2 m,
  0 < Lz -> 0 < R -> Sf <= back ->
  let m' := project Sf Lz R back filter m2 m in
  (forall pt, pt < Sf -> m' 0 pt ==
     sumN (Lz * R)%nat (fun z => filter (m2 (z / Lz)%nat (pt + Sf * (z mod Lz))%nat)) / inject_Z (Z.of_nat (Lz * R))) /\
  (forall r pt, 0 < r -> pt < Sf -> m' r pt == 0) /\
  (forall r i, Sf <= i -> (i < back \/ back + Sf <= i) -> m' r i = m r i).
Proof.
  intros Sf Lz R back filter m2 m HL HR Hb. cbn zeta. unfold project, projLocal.
  assert (L : forall r, _) by (intro r; exact (local_sum Sf Lz back filter (m2 r) (m r) Sf Hb (Nat.le_refl _))).
  cbn zeta in L. split; [|split].
  - intros pt Hp. destruct (Nat.ltb_spec pt Sf); [|lia]. cbn [Nat.eqb andb].
    rewrite (sumN_ext R _ (fun r => sumN Lz (fun z => filter (m2 r (pt + Sf * z)%nat)))).
    + rewrite <- (sumN_blocks R Lz (fun r z => filter (m2 r (pt + Sf * z)%nat)) HL). unfold Qdiv. ring.
    + intros r _. apply (proj1 (proj2 (L r))). exact Hp.
  - intros r pt Hr Hp. destruct (Nat.ltb_spec pt Sf); [|lia]. destruct (Nat.eqb_spec r 0); [lia|]. cbn [andb].
    rewrite (proj1 (L r)) by exact Hp. ring.
  - intros r i Hi Ho. destruct (Nat.ltb_spec i Sf); [lia|]. rewrite Bool.andb_false_r.
    apply (proj2 (proj2 (L r))); [exact Ho|exact Hi].
Qed.

(** 2 ranks, 4 points per slice, depth 3 each *)
Example projection_seen :
  map (fun i => Qred (project 4 3 2 20 (fun x => x + 1)%Q (fun r i => ramp (12 * r + i)) (fun _ _ => 7%Q) 0 i)) (seq 0 5) =
  [11; 12; 13; 14; 7]%Q.
Proof. vm_compute. reflexivity. Qed.

Print Assumptions reduce_interpolates_partial.
Print Assumptions reduce_weights.
Print Assumptions reduce_bounds_partial.
Print Assumptions reduce_constant_partial.
Print Assumptions reduce_subset_partial.
Print Assumptions reduce_ranks_partial.
Print Assumptions reduce_in_place_partial.
Print Assumptions reduce_new_partial.
Print Assumptions reduce_new_axion_refuted.
Print Assumptions reduce_enlarge_refuted.
Print Assumptions projection_mean_partial.
