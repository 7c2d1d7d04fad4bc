(** Lemmas about the Gadget writer. *)
From Coq Require Import Lqa Lra Reals List Arith ZArith Bool Lia.
From Verif Require Import GadModel GadSpec.
Import ListNotations.
Open Scope R_scope.
Ltac Zify.zify_post_hook ::= idtac.

(** ** Coordinates *)
Lemma coordOf_at n x y z : (x < n)%nat -> (y < n)%nat -> coordOf n (x + n * (y + n * z)) = (x, y, z).
Proof.
  intros X Y. unfold coordOf.
  assert (E : ((x + n * (y + n * z)) / n = y + n * z)%nat).
  { rewrite (Nat.mul_comm n (y + n * z)), Nat.div_add by lia. rewrite Nat.div_small by exact X. lia. }
  rewrite E. assert (F : ((y + n * z) / n = z)%nat) by (rewrite (Nat.mul_comm n z), Nat.div_add by lia; rewrite Nat.div_small by exact Y; lia).
  rewrite F. replace (x + n * (y + n * z) - n * (y + n * z))%nat with x by lia. replace (y + n * z - z * n)%nat with y by (rewrite (Nat.mul_comm z n); lia). reflexivity.
Qed.
Lemma coord_split n i : (0 < n)%nat -> exists x y z, (x < n)%nat /\ (y < n)%nat /\ i = (x + n * (y + n * z))%nat.
Proof.
  intros N. exists (i mod n)%nat, (i / n mod n)%nat, (i / n / n)%nat.
  split; [apply Nat.mod_upper_bound; lia|]. split; [apply Nat.mod_upper_bound; lia|].
  pose proof (Nat.div_mod i n ltac:(lia)) as A. pose proof (Nat.div_mod (i / n) n ltac:(lia)) as B.
  rewrite (Nat.add_comm (i / n mod n)), <- B. lia.
Qed.
Lemma stepCoord_at n i : (0 < n)%nat -> stepCoord n (coordOf n i) = coordOf n (S i).
Proof.
  intros N. destruct (coord_split n i N) as (x & y & z & X & Y & ->). rewrite coordOf_at by assumption. unfold stepCoord.
  destruct (S x =? n)%nat eqn:E.
  - apply Nat.eqb_eq in E. destruct (S y =? n)%nat eqn:F.
    + apply Nat.eqb_eq in F. replace (S (x + n * (y + n * z)))%nat with (0 + n * (0 + n * (S z)))%nat.
      * rewrite coordOf_at by lia. reflexivity.
      * subst n. replace (S (x + S x * (y + S x * z)))%nat with (S x + S x * y + S x * (S x * z))%nat by ring. injection F as ->. ring.
    + apply Nat.eqb_neq in F. replace (S (x + n * (y + n * z)))%nat with (0 + n * (S y + n * z))%nat.
      * rewrite coordOf_at by lia. reflexivity.
      * transitivity (S x + n * (y + n * z))%nat; [|reflexivity]. rewrite E. ring.
  - apply Nat.eqb_neq in E. replace (y =? n)%nat with false by (symmetry; apply Nat.eqb_neq; lia).
    change (S (x + n * (y + n * z))) with (S x + n * (y + n * z))%nat. rewrite coordOf_at by lia. reflexivity.
Qed.
Lemma lift_at n lz r i : (0 < n)%nat -> lift n lz r (coordOf n i) = coordOf n (r * (n * n * lz) + i).
Proof.
  intros N. destruct (coord_split n i N) as (x & y & z & X & Y & ->). rewrite coordOf_at by assumption. unfold lift.
  replace (r * (n * n * lz) + (x + n * (y + n * z)))%nat with (x + n * (y + n * (z + r * lz)))%nat by ring.
  rewrite coordOf_at by assumption. reflexivity.
Qed.

(** ** Ranges *)
Lemma seq_blocks b k : seq 0 (k * b) = flat_map (fun r => map (fun i => (r * b + i)%nat) (seq 0 b)) (seq 0 k).
Proof.
  induction k as [|k IH]; [reflexivity|].
  rewrite seq_S, flat_map_app. cbn [flat_map]. rewrite app_nil_r, <- IH. replace (S k * b)%nat with (k * b + b)%nat by lia. rewrite seq_app. f_equal.
  cbn [plus]. clear IH. generalize (k * b)%nat as a. intros a. rewrite <- (Nat.add_0_r a) at 1. generalize 0%nat as s. induction b as [|b IH]; intros s; [reflexivity|].
  cbn [seq map]. rewrite <- IH. f_equal. f_equal. lia.
Qed.
Lemma flat_map_map {A B C} (f : B -> list C) (g : A -> B) l : flat_map f (map g l) = flat_map (fun x => f (g x)) l.
Proof. induction l; cbn; [reflexivity|]. rewrite IHl. reflexivity. Qed.
Lemma flat_map_flat {A B C} (f : B -> list C) (g : A -> list B) l : flat_map f (flat_map g l) = flat_map (fun x => flat_map f (g x)) l.
Proof. induction l; cbn; [reflexivity|]. rewrite flat_map_app, IHl. reflexivity. Qed.
Lemma map_flat {A B C} (f : B -> C) (g : A -> list B) l : map f (flat_map g l) = flat_map (fun x => map f (g x)) l.
Proof. induction l; cbn; [reflexivity|]. rewrite map_app, IHl. reflexivity. Qed.
Lemma flat_map_same {A B} (f g : A -> list B) l : (forall x, In x l -> f x = g x) -> flat_map f l = flat_map g l.
Proof. induction l; intros H; cbn; [reflexivity|]. rewrite (H a) by (left; reflexivity). rewrite IHl; [reflexivity|]. intros x I. apply H. right. exact I. Qed.
Lemma flat_map_one {A B} (f : A -> B) l : flat_map (fun x => [f x]) l = map f l.
Proof. induction l; cbn; [reflexivity|]. rewrite IHl. reflexivity. Qed.
Lemma map_rep {A B} (f : A -> B) x k : map f (repeat x k) = repeat (f x) k.
Proof. induction k; cbn; [reflexivity|]. rewrite IHk. reflexivity. Qed.
Lemma cubeSites_seq n : cubeSites n = map (coordOf n) (seq 0 (n * n * n)).
Proof.
  destruct n as [|n']; [reflexivity|]. set (n := S n'). replace (n * n * n)%nat with (n * (n * n))%nat by ring. rewrite seq_blocks, map_flat.
  unfold cubeSites. apply flat_map_same. intros z _. rewrite map_map, seq_blocks, map_flat. apply flat_map_same. intros y Iy. rewrite map_map. apply map_ext_in. intros x Ix.
  apply in_seq in Iy. apply in_seq in Ix. symmetry. replace (z * (n * n) + (y * n + x))%nat with (x + n * (y + n * z))%nat by ring. apply coordOf_at; lia.
Qed.

(** ** Sums *)
Lemma sumL_app {A} (f : A -> R) a b : sumL f (a ++ b) = sumL f a + sumL f b.
Proof. induction a; [unfold sumL; cbn; lra|]. unfold sumL in *. cbn. rewrite IHa. lra. Qed.
Lemma sumL_cons {A} (f : A -> R) a l : sumL f (a :: l) = f a + sumL f l.
Proof. reflexivity. Qed.
Lemma sumL_map {A B} (f : B -> R) (g : A -> B) l : sumL f (map g l) = sumL (fun x => f (g x)) l.
Proof. induction l; [reflexivity|]. cbn [map]. rewrite !sumL_cons, IHl. reflexivity. Qed.
Lemma sumL_ext {A} (f g : A -> R) l : (forall x, In x l -> f x = g x) -> sumL f l = sumL g l.
Proof. induction l; intros H; [reflexivity|]. rewrite !sumL_cons, IHl, (H a); [reflexivity|left; reflexivity|]. intros x I. apply H. right. exact I. Qed.
Lemma sumL_scale {A} (f : A -> R) c l : sumL (fun x => c * f x) l = c * sumL f l.
Proof. induction l; [cbn; unfold sumL; cbn; lra|]. rewrite !sumL_cons, IHl. lra. Qed.
Lemma sumL_repeat {A} (f : A -> R) x k : sumL f (repeat x k) = INR k * f x.
Proof. induction k; [cbn; unfold sumL; cbn; lra|]. rewrite S_INR. cbn [repeat]. rewrite sumL_cons, IHk. lra. Qed.
Lemma sumL_flat {A B} (f : B -> R) (g : A -> list B) l : sumL f (flat_map g l) = sumL (fun x => sumL f (g x)) l.
Proof. induction l; [reflexivity|]. cbn [flat_map]. rewrite sumL_app, sumL_cons, IHl. reflexivity. Qed.
Lemma sumN_sumL k f : sumN k f = sumL f (seq 0 k).
Proof. induction k; [reflexivity|]. cbn [sumN]. rewrite seq_S, sumL_app, IHk. unfold sumL at 3. cbn. lra. Qed.
Lemma sumN_scale k c f : sumN k (fun i => c * f i) = c * sumN k f.
Proof. rewrite !sumN_sumL. apply sumL_scale. Qed.
Lemma sumN_ext k f g : (forall i, (i < k)%nat -> f i = g i) -> sumN k f = sumN k g.
Proof. intros H. rewrite !sumN_sumL. apply sumL_ext. intros x I. apply in_seq in I. apply H. lia. Qed.
Lemma sumN_pairs k d : sumN k (fun i => d (2 * i)%nat + d (2 * i + 1)%nat) = sumN (2 * k) d.
Proof. induction k; [reflexivity|]. replace (2 * S k)%nat with (S (S (2 * k)))%nat by lia. cbn [sumN]. rewrite IHk. replace (2 * k + 1)%nat with (S (2 * k)) by lia. lra. Qed.
Lemma localMean_even roff d : Nat.Even roff -> localMean roff d = sumN roff d / INR roff.
Proof. intros [k E]. unfold localMean. rewrite sumN_pairs. replace (2 * (roff / 2))%nat with roff; [reflexivity|]. subst roff. rewrite (Nat.mul_comm 2 k), Nat.div_mul by lia. lia. Qed.
Lemma globalMean_all ranks roff d : Nat.Even roff -> (0 < ranks)%nat -> (0 < roff)%nat ->
  globalMean ranks roff d = sumL (fun r => sumL (d r) (seq 0 roff)) (seq 0 ranks) / (INR ranks * INR roff).
Proof.
  intros E K R0. unfold globalMean. rewrite sumN_sumL. rewrite (sumL_ext _ (fun r => / INR roff * sumL (d r) (seq 0 roff))).
  - rewrite sumL_scale. field. split; apply not_0_INR; lia.
  - intros r _. rewrite localMean_even, sumN_sumL by exact E. unfold Rdiv. ring.
Qed.

(** ** The void mapping *)
Definition whole (n : nat) (k a m : nat) : list gsite := flat_map (fun j => repeat (j, coordOf n j) k) (seq a m).
Lemma whole_S n k a m : whole n k a (S m) = repeat (a, coordOf n a) k ++ whole n k (S a) m.
Proof. reflexivity. Qed.
Lemma whole_app n k a m m' : whole n k a (m + m') = whole n k a m ++ whole n k (a + m) m'.
Proof. unfold whole. rewrite seq_app, flat_map_app. reflexivity. Qed.
Lemma whole_length n k a m : length (whole n k a m) = (m * k)%nat.
Proof. revert a. induction m; intros a; [reflexivity|]. rewrite whole_S, app_length, repeat_length, IHm. lia. Qed.
Lemma fillVoid_all n k slab V m : forall fuel idx t, (0 < n)%nat -> (m <= fuel)%nat -> (idx + m <= V)%nat -> (0 < k)%nat -> (t + m * k = slab)%nat ->
  fillVoid n k slab V fuel idx (coordOf n idx) t = (whole n k idx m, (idx + m)%nat).
Proof.
  induction m as [|m IH]; intros fuel idx t N F B K T.
  - rewrite Nat.add_0_r. destruct fuel; [reflexivity|]. cbn [fillVoid]. replace (t <? slab)%nat with false by (symmetry; apply Nat.ltb_ge; lia). rewrite andb_false_r. reflexivity.
  - destruct fuel as [|fuel]; [lia|]. cbn [fillVoid]. replace (idx <? V)%nat with true by (symmetry; apply Nat.ltb_lt; lia).
    replace (t <? slab)%nat with true by (symmetry; apply Nat.ltb_lt; rewrite <- T; cbn [Nat.mul]; lia). cbn [andb].
    rewrite stepCoord_at by exact N. rewrite (IH fuel (S idx) (t + k)%nat) by (try lia; rewrite <- T; cbn [Nat.mul]; lia). rewrite whole_S. f_equal. lia.
Qed.
Lemma refill_full {A} slab (buf : list (option A)) l : length l = slab -> refill slab buf l = map Some l.
Proof. intros E. unfold refill. rewrite <- E, <- (map_length Some l) at 1. rewrite firstn_app, Nat.sub_diag, firstn_all. cbn. apply app_nil_r. Qed.
Lemma voidSlabs_all n k m V : (0 < n)%nat -> (0 < k)%nat -> forall j lPos buf, (lPos + j * m <= V)%nat ->
  voidSlabs n k (m * k) V j lPos buf = map Some (whole n k lPos (j * m)).
Proof.
  intros N K. induction j as [|j IH]; intros lPos buf B; [reflexivity|]. cbn [voidSlabs].
  rewrite (fillVoid_all n k (m * k) V m V lPos 0) by (cbn [Nat.mul] in B; lia).
  rewrite refill_full by apply whole_length. rewrite IH by (cbn [Nat.mul] in B; lia). cbn [Nat.mul]. rewrite whole_app, map_app. reflexivity.
Qed.
Lemma fillVoid_none n slab V : forall fuel idx c t, fst (fillVoid n 0 slab V fuel idx c t) = [].
Proof. induction fuel as [|fuel IH]; intros idx c t; [reflexivity|]. cbn [fillVoid]. destruct (_ && _); [|reflexivity]. specialize (IH (S idx) (stepCoord n c) (t + 0)%nat). destruct (fillVoid _ _ _ _ _ _ _ _). cbn in IH. subst. reflexivity. Qed.
Lemma voidSlabs_none n slab V : forall j lPos, voidSlabs n 0 slab V j lPos (repeat None slab) = repeat None (j * slab).
Proof.
  induction j as [|j IH]; intros lPos; [reflexivity|]. cbn [voidSlabs]. pose proof (fillVoid_none n slab V V lPos (coordOf n lPos) 0) as F. destruct (fillVoid _ _ _ _ _ _ _ _) as [l i]. cbn in F. subst l.
  assert (E : refill slab (repeat (@None gsite) slab) [] = repeat None slab).
  { unfold refill. cbn. rewrite <- (repeat_length (@None gsite) slab) at 1. apply firstn_all. }
  rewrite E, IH, <- repeat_app. reflexivity.
Qed.

(** ** Folding *)
Lemma wrapOnce_in L x : 0 < L -> 0 <= x <= L -> wrapOnce L x = x.
Proof. intros P B. unfold wrapOnce. destruct (Rlt_dec x 0); [lra|]. destruct (Rlt_dec L x); lra. Qed.
Lemma wrapOnce_mod L x : sameMod L (wrapOnce L x) x.
Proof.
  unfold wrapOnce, sameMod. destruct (Rlt_dec x 0); [destruct (Rlt_dec L (x + L))|destruct (Rlt_dec L x)].
  - exists 0%Z. lra.
  - exists 1%Z. lra.
  - exists (-1)%Z. lra.
  - exists 0%Z. lra.
Qed.
Lemma place1_site n L c : 0 < L -> (c < n)%nat -> place1 n L 0 c = INR c * L / INR n.
Proof.
  intros P B. unfold place1. rewrite Rplus_0_r. apply wrapOnce_in; [exact P|].
  assert (N : 0 < INR n) by (apply lt_0_INR; lia). apply lt_INR in B. pose proof (pos_INR c) as C.
  split.
  - apply Rmult_le_pos; [apply Rmult_le_pos; lra|]. apply Rlt_le, Rinv_0_lt_compat, N.
  - apply (Rmult_le_reg_r (INR n)); [exact N|]. unfold Rdiv. rewrite Rmult_assoc, Rinv_l, Rmult_1_r by lra. rewrite (Rmult_comm L). apply Rmult_le_compat_r; lra.
Qed.
