(** Lemmas about saving and restoring data. *)
From Coq Require Import List Arith Lia Permutation Bool.
From Verif Require Import ConfModel ConfSpec.
Import ListNotations.
Local Open Scope nat_scope.

Lemma slab_unique s a b p : a * s <= p -> p < a * s + s -> b * s <= p -> p < b * s + s -> a = b.
Proof.
  intros H1 H2 H3 H4. destruct (Nat.lt_trichotomy a b) as [L|[E|L]]; [|exact E|]; exfalso.
  - assert ((a + 1) * s <= b * s) by (apply Nat.mul_le_mono_r; lia). lia.
  - assert ((b + 1) * s <= a * s) by (apply Nat.mul_le_mono_r; lia). lia.
Qed.
Lemma in_range a b p : (a <=? p) && (p <? b) = true <-> a <= p < b.
Proof. rewrite andb_true_iff, Nat.leb_le, Nat.ltb_lt. reflexivity. Qed.

Section P.
Context {A : Type}.

(** a place in the slab of slice q = r*d+z *)
Lemma write_other (g : cgeom) beg (a : @array A) order f p :
  (forall r z, In (r, z) order -> ~ ((r * cD g + z) * slab g <= p < (r * cD g + z) * slab g + slab g)) ->
  fold_left (writeSlice g beg a) order f p = f p.
Proof.
  revert f. induction order as [|[r z] l IH]; intros f H; [reflexivity|]. cbn [fold_left].
  rewrite IH by (intros r' z' I; apply H; right; exact I).
  cbn [writeSlice]. unfold hwrite. destruct (_ && _) eqn:E; [|reflexivity].
  exfalso. apply in_range in E. apply (H r z); [left; reflexivity|exact E].
Qed.

Lemma write_hit (g : cgeom) beg (a : @array A) order f r z i :
  i < slab g -> z < cD g -> (forall r' z', In (r', z') order -> z' < cD g) -> In (r, z) order ->
  fold_left (writeSlice g beg a) order f ((r * cD g + z) * slab g + i) = Some (a r (beg + slab g * z + i)).
Proof.
  intros Hi Hz. revert f. induction order as [|[r1 z1] l IH]; intros f HB HI; [destruct HI|]. cbn [fold_left].
  destruct (in_dec (fun x y : nat * nat => ltac:(repeat decide equality) : {x = y} + {x <> y}) (r, z) l) as [I|I].
  - apply IH; [intros r' z' I'; apply (HB r' z'); right; exact I'|exact I].
  - destruct HI as [HI|HI]; [|contradiction]. injection HI as -> ->.
    rewrite write_other.
    + cbn [writeSlice]. unfold hwrite. replace (_ && _) with true by (symmetry; apply in_range; lia).
      f_equal. f_equal. lia.
    + intros r' z' I' [H1 H2].
      assert (E : r' * cD g + z' = r * cD g + z).
      { apply (slab_unique (slab g) _ _ ((r * cD g + z) * slab g + i)); lia. }
      pose proof (HB r' z' (or_intror I')) as Hz'.
      assert (r' = r) by (apply (slab_unique (cD g) _ _ (r * cD g + z)); lia).
      subst r'. assert (z' = z) by lia. subst z'. contradiction.
Qed.

(** what is in the file after all slices: exactly the data of the box *)
Lemma write_all (g : cgeom) beg (a : @array A) order q i :
  anyOrder (cR g) (cD g) order -> i < slab g -> q < cR g * cD g ->
  writeData g beg a order (q * slab g + i) = Some (a (q / cD g) (beg + slab g * (q mod cD g) + i)).
Proof.
  intros HO Hi Hq. assert (HD : cD g <> 0) by (intros E; rewrite E in Hq; lia).
  pose proof (Nat.div_mod q (cD g) HD) as D. pose proof (Nat.mod_upper_bound q (cD g) HD) as U.
  assert (HR : q / cD g < cR g) by (apply Nat.div_lt_upper_bound; lia).
  replace (q * slab g + i) with ((q / cD g * cD g + q mod cD g) * slab g + i) by (f_equal; f_equal; lia).
  unfold writeData. apply write_hit; auto.
  - intros r' z' I. apply (Permutation_in _ HO) in I. apply in_prod_iff in I. destruct I as [_ I]. apply in_seq in I. lia.
  - apply (Permutation_in _ (Permutation_sym HO)). apply in_prod_iff. split; apply in_seq; lia.
Qed.
Lemma write_none (g : cgeom) beg (a : @array A) order p :
  anyOrder (cR g) (cD g) order -> cR g * cD g * slab g <= p -> writeData g beg a order p = None.
Proof.
  intros HO Hp. unfold writeData. rewrite write_other; [reflexivity|].
  intros r z I [H1 H2]. apply (Permutation_in _ HO) in I. apply in_prod_iff in I. destruct I as [I1 I2]. apply in_seq in I1, I2.
  assert (r * cD g + z + 1 <= cR g * cD g).
  { assert ((r + 1) * cD g <= cR g * cD g) by (apply Nat.mul_le_mono_r; lia). lia. }
  assert ((r * cD g + z + 1) * slab g <= cR g * cD g * slab g) by (apply Nat.mul_le_mono_r; assumption). lia.
Qed.

(** the loop of one reading rank *)
Lemma read_all sl nz beg r (f : @file A) junk a k p : k <= nz ->
  fold_left (fun a z => hread f ((r * nz + z) * sl) sl (beg + sl * z) junk a) (seq 0 k) a p =
  if (beg <=? p) && (p <? beg + sl * k)
  then match f (r * nz * sl + (p - beg)) with Some x => x | None => junk (r * nz * sl + (p - beg)) end
  else a p.
Proof.
  induction k as [|k IH]; intros Hk.
  - cbn [seq fold_left]. destruct (_ && _) eqn:E; [|reflexivity]. apply in_range in E. lia.
  - rewrite seq_S, fold_left_app. cbn [fold_left Nat.add]. unfold hread at 1.
    destruct ((beg + sl * k <=? p) && (p <? beg + sl * k + sl)) eqn:E.
    + apply in_range in E. replace ((beg <=? p) && (p <? beg + sl * S k)) with true by (symmetry; apply in_range; lia).
      replace ((r * nz + k) * sl + (p - (beg + sl * k))) with (r * nz * sl + (p - beg)); [reflexivity|].
      rewrite Nat.mul_add_distr_r. lia.
    + rewrite IH by lia.
      destruct ((beg <=? p) && (p <? beg + sl * k)) eqn:E1, ((beg <=? p) && (p <? beg + sl * S k)) eqn:E2; try reflexivity.
      * apply in_range in E1. exfalso. apply not_true_iff_false in E2. apply E2, in_range. lia.
      * apply in_range in E2. exfalso. apply not_true_iff_false in E, E1.
        destruct (Nat.lt_ge_cases p (beg + sl * k)); [apply E1, in_range; lia|apply E, in_range; lia].
Qed.
End P.

Lemma site_in n w c x y : c < w -> x < n -> y < n -> (y * n + x) * w + c < n * n * w.
Proof.
  intros Hc Hx Hy. assert (y * n + x < n * n) by nia.
  assert ((y * n + x + 1) * w <= n * n * w) by (apply Nat.mul_le_mono_r; lia). lia.
Qed.
