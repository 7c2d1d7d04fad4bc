(** The curve: where a point falls, how the pieces join, derivatives. *)
From Coq Require Import Lra Reals List Arith Bool Lia.
From Verif Require Import SplineModel SplineSpec SplineProofs SplineRowProofs.
Import ListNotations.
Open Scope R_scope.

(** ** Tables *)
Lemma rising_iff : forall l, rising l = true <-> (forall i, (i + 1 < length l)%nat -> nth i l 0 < nth (i + 1) l 0).
Proof.
  induction l as [|a [|b t] IH]; cbn [rising].
  - split; [intros _ i Hi; cbn in Hi; lia | reflexivity].
  - split; [intros _ i Hi; cbn in Hi; lia | reflexivity].
  - rewrite andb_true_iff, IH. split.
    + intros [H1 H2] [|i] Hi; [cbn; destruct (Rlt_dec a b); [assumption | discriminate]|]. cbn [Nat.add nth]. apply (H2 i). cbn [length] in *. lia.
    + intros H. split; [pose proof (H 0%nat) as Q; cbn in Q; destruct (Rlt_dec a b) as [|N]; [reflexivity | exfalso; apply N, Q; lia]|].
      intros i Hi. apply (H (S i)). cbn [length] in *. lia.
Qed.
Lemma steps_increasing : forall l, (forall i, (i + 1 < length l)%nat -> nth i l 0 < nth (i + 1) l 0) -> increasing l.
Proof.
  intros l H i j [Hij Hj]. replace j with (i + 1 + (j - i - 1))%nat in * by lia. clear Hij. revert Hj. generalize (j - i - 1)%nat. intros d. induction d as [|d IH]; intros Hd.
  - rewrite Nat.add_0_r in *. apply H, Hd.
  - apply Rlt_trans with (nth (i + 1 + d) l 0); [apply IH; lia|]. replace (i + 1 + S d)%nat with (i + 1 + d + 1)%nat by lia. apply H. lia.
Qed.
Lemma increasing_le : forall l i j, increasing l -> (i <= j < length l)%nat -> nth i l 0 <= nth j l 0.
Proof. intros l i j H Hij. destruct (Nat.eq_dec i j) as [->|N]; [lra|]. apply Rlt_le, H. lia. Qed.
Lemma accepted : forall xs ys, (length xs =? length ys)%nat && (2 <? length xs)%nat && rising xs = true <-> tableOf xs ys.
Proof.
  intros xs ys. unfold tableOf. rewrite !andb_true_iff, Nat.eqb_eq, Nat.ltb_lt, rising_iff. split.
  - intros [[H1 H2] H3]. auto using steps_increasing.
  - intros [H1 [H2 H3]]. split; [split; assumption|]. intros i Hi. apply H3. lia.
Qed.

(** ** The place of a point *)
Lemma lowerBound_is : forall l x k, (forall i, (i < k)%nat -> nth i l 0 < x) -> (k <= length l)%nat -> ((k < length l)%nat -> x <= nth k l 0) -> lowerBound l x = k.
Proof.
  induction l as [|a t IH]; intros x k H1 H2 H3; cbn [lowerBound].
  - cbn in H2. lia.
  - destruct k as [|k].
    + destruct (Rlt_dec a x) as [L|]; [|reflexivity]. exfalso. specialize (H3 ltac:(cbn; lia)). cbn in H3. lra.
    + destruct (Rlt_dec a x) as [_|N]; [|exfalso; apply N; apply (H1 0%nat); lia]. f_equal. apply IH.
      * intros i Hi. apply (H1 (S i)). lia.
      * cbn in H2. lia.
      * intros Hk. apply H3. cbn. lia.
Qed.
Lemma place_in : forall s x i, increasing (sX s) -> (i < length (sX s))%nat -> nth i (sX s) 0 < x -> ((i + 1 < length (sX s))%nat -> x <= nth (i + 1) (sX s) 0) -> place s x = i.
Proof.
  intros s x i I Hi L U. unfold place. rewrite (lowerBound_is _ x (i + 1)); [lia | | lia | exact U].
  intros j Hj. apply Rle_lt_trans with (nth i (sX s) 0); [apply increasing_le; [exact I | lia] | exact L].
Qed.
Lemma place_first : forall s x, x <= nth 0 (sX s) 0 -> place s x = 0%nat.
Proof. intros s x H. unfold place. rewrite (lowerBound_is _ x 0); [reflexivity | intros; lia | lia | intros _; exact H]. Qed.
(** Every point is to the left, between two neighbours, or to the right. *)
Lemma located : forall l x, (0 < length l)%nat -> increasing l -> x < first l \/ (exists i, (i + 1 < length l)%nat /\ nth i l 0 <= x < nth (i + 1) l 0) \/ final l <= x.
Proof.
  intros l x Hl I. unfold first, final. destruct (Rlt_dec x (nth 0 l 0)) as [L|L]; [left; exact L|]. right. destruct (Rlt_dec x (nth (length l - 1) l 0)) as [U|U]; [left | right; lra].
  assert (Q : forall k, (k < length l)%nat -> x < nth k l 0 -> exists i, (i + 1 < length l)%nat /\ nth i l 0 <= x < nth (i + 1) l 0).
  { induction k as [|k IH]; intros Hk Hx; [lra|]. destruct (Rlt_dec x (nth k l 0)) as [A|A]; [apply IH; [lia | exact A]|]. exists k. rewrite Nat.add_1_r. split; [lia | split; [lra | exact Hx]]. }
  apply (Q (length l - 1)%nat); [lia | exact U].
Qed.

(** ** Pieces *)
Definition poly (k a b c d u : R) : R := ((a * (u - k) + b) * (u - k) + c) * (u - k) + d.
Definition poly1 (k a b c u : R) : R := (3 * a * (u - k) + 2 * b) * (u - k) + c.
Definition poly2 (k a b u : R) : R := 6 * a * (u - k) + 2 * b.
Lemma dl_to : forall f t a b, derivable_pt_lim f t a -> a = b -> derivable_pt_lim f t b.
Proof. intros; subst; assumption. Qed.
Lemma dl_shift : forall k x, derivable_pt_lim (fun u => u - k) x 1.
Proof. intros k x. eapply dl_to; [apply (derivable_pt_lim_minus id (fct_cte k)); [apply derivable_pt_lim_id | apply derivable_pt_lim_const] | ring]. Qed.
Lemma dl_times : forall f a k x, derivable_pt_lim f x a -> derivable_pt_lim (fun u => f u * (u - k)) x (a * (x - k) + f x).
Proof. intros f a k x H. eapply dl_to; [apply (derivable_pt_lim_mult f (fun u => u - k)); [exact H | apply dl_shift] | ring]. Qed.
Lemma dl_add : forall f a c x, derivable_pt_lim f x a -> derivable_pt_lim (fun u => f u + c) x a.
Proof. intros f a c x H. eapply dl_to; [apply (derivable_pt_lim_plus f (fct_cte c)); [exact H | apply derivable_pt_lim_const] | ring]. Qed.
Lemma dl_cst : forall c x, derivable_pt_lim (fun _ => c) x 0.
Proof. intros. apply (derivable_pt_lim_const c). Qed.
Lemma poly_dl : forall k a b c d x, derivable_pt_lim (poly k a b c d) x (poly1 k a b c x).
Proof.
  intros. unfold poly. eapply dl_to; [apply (dl_add (fun u => ((a * (u - k) + b) * (u - k) + c) * (u - k))), (dl_times (fun u => (a * (u - k) + b) * (u - k) + c)),
    (dl_add (fun u => (a * (u - k) + b) * (u - k))), (dl_times (fun u => a * (u - k) + b)), (dl_add (fun u => a * (u - k))), (dl_times (fun _ => a)), dl_cst|]. unfold poly1. ring.
Qed.
Lemma poly1_dl : forall k a b c x, derivable_pt_lim (poly1 k a b c) x (poly2 k a b x).
Proof.
  intros. unfold poly1. eapply dl_to; [apply (dl_add (fun u => (3 * a * (u - k) + 2 * b) * (u - k))), (dl_times (fun u => 3 * a * (u - k) + 2 * b)), (dl_add (fun u => 3 * a * (u - k))), (dl_times (fun _ => 3 * a)), dl_cst|]. unfold poly2. ring.
Qed.
Lemma poly2_dl : forall k a b x, derivable_pt_lim (poly2 k a b) x (6 * a).
Proof. intros. unfold poly2. eapply dl_to; [apply (dl_add (fun u => 6 * a * (u - k))), (dl_times (fun _ => 6 * a)), dl_cst|]. ring. Qed.
(** Two functions glued at a point. *)
Lemma dl_glue : forall f p q x lo hi L, lo < x < hi -> (forall u, lo <= u <= x -> f u = p u) -> (forall u, x <= u <= hi -> f u = q u) ->
  derivable_pt_lim p x L -> derivable_pt_lim q x L -> derivable_pt_lim f x L.
Proof.
  intros f p q x lo hi L [Hl Hh] P Q DP DQ e He. destruct (DP e He) as [d1 H1]. destruct (DQ e He) as [d2 H2].
  assert (D : 0 < Rmin (Rmin d1 d2) (Rmin (x - lo) (hi - x))) by (repeat apply Rmin_pos; try apply cond_pos; lra).
  exists (mkposreal _ D). intros h Hn Hd. cbn [pos] in Hd. apply Rmin_Rgt_l in Hd. destruct Hd as [Hd Hd']. apply Rmin_Rgt_l in Hd, Hd'. destruct Hd as [G1 G2]. destruct Hd' as [G3 G4].
  destruct (Rle_dec 0 h) as [S|S].
  - rewrite Rabs_right in G4 by lra. rewrite !Q by lra. apply H2; assumption.
  - rewrite Rabs_left in G3 by lra. rewrite !P by lra. apply H1; assumption.
Qed.
Lemma continuity_of : forall f x L, derivable_pt_lim f x L -> continuity_pt f x.
Proof. intros f x L H. apply derivable_continuous_pt. exists L. exact H. Qed.
Lemma glue_continuous : forall f p q x lo hi, lo < x < hi -> (forall u, lo <= u <= x -> f u = p u) -> (forall u, x <= u <= hi -> f u = q u) ->
  continuity_pt p x -> continuity_pt q x -> continuity_pt f x.
Proof.
  intros f p q x lo hi [Hl Hh] P Q CP CQ. intros e He. destruct (CP e He) as [d1 [D1 H1]]. destruct (CQ e He) as [d2 [D2 H2]].
  exists (Rmin (Rmin d1 d2) (Rmin (x - lo) (hi - x))). split; [repeat apply Rmin_pos; lra|]. intros u [U Hu]. cbn in *. unfold R_dist in *. apply Rmin_Rgt_l in Hu. destruct Hu as [Hd Hd']. apply Rmin_Rgt_l in Hd, Hd'. destruct Hd as [G1 G2]. destruct Hd' as [G3 G4].
  destruct (Rle_dec x u) as [S|S].
  - rewrite Rabs_right in G4 by lra. rewrite !Q by lra. apply H2. split; [exact U | exact G2].
  - rewrite Rabs_left in G3 by lra. rewrite !P by lra. apply H1. split; [exact U | exact G1].
Qed.

(** ** What the coefficients fulfil *)
Definition kx (s : spl) (i : nat) : R := nth i (sX s) 0.
Definition ky (s : spl) (i : nat) : R := nth i (sY s) 0.
Definition piece (s : spl) (i : nat) : R -> R := poly (kx s i) (sA s i) (sB s i) (sC s i) (ky s i).
Definition piece1 (s : spl) (i : nat) : R -> R := poly1 (kx s i) (sA s i) (sB s i) (sC s i).
Definition piece2 (s : spl) (i : nat) : R -> R := poly2 (kx s i) (sA s i) (sB s i).
Definition last (s : spl) : nat := (length (sX s) - 1)%nat.
Definition wellFormed (s : spl) : Prop := increasing (sX s) /\ (2 < length (sX s))%nat /\ sA s (last s) = 0 /\ sC0 s = sC s 0%nat.
Definition valuesJoin (s : spl) : Prop := forall i, (i < last s)%nat -> piece s i (kx s (i + 1)) = ky s (i + 1).
Definition slopesJoin (s : spl) : Prop := forall i, (i < last s)%nat -> piece1 s i (kx s (i + 1)) = sC s (i + 1).
Definition curvJoin (s : spl) (m : nat) : Prop := forall i, (i < m)%nat -> piece2 s i (kx s (i + 1)) = 2 * sB s (i + 1).
Definition leftArm (s : spl) : R -> R := poly (kx s 0) 0 (sB0 s) (sC0 s) (ky s 0).
Definition leftArm1 (s : spl) : R -> R := poly1 (kx s 0) 0 (sB0 s) (sC0 s).
Section Curve.
  Variable s : spl.
  Hypothesis W : wellFormed s.
  Let n := length (sX s).
  Lemma kx_lt : forall i j, (i < j <= last s)%nat -> kx s i < kx s j.
  Proof. intros i j H. destruct W as [I [N _]]. apply I. unfold last in H. lia. Qed.
  Lemma kx_le : forall i j, (i <= j <= last s)%nat -> kx s i <= kx s j.
  Proof. intros i j H. destruct W as [I [N _]]. apply increasing_le; [exact I|]. unfold last in H. lia. Qed.
  Lemma place_left : forall x, x <= kx s 0 -> place s x = 0%nat.
  Proof. intros x H. apply place_first, H. Qed.
  Lemma place_piece : forall i x, (i < last s)%nat -> kx s i < x <= kx s (i + 1) -> place s x = i.
  Proof. intros i x Hi [L U]. destruct W as [I [N _]]. apply place_in; [exact I | unfold last in Hi; lia | exact L | intros _; exact U]. Qed.
  Lemma place_right : forall x, kx s (last s) < x -> place s x = last s.
  Proof. intros x H. destruct W as [I [N _]]. apply place_in; [exact I | unfold last; lia | exact H | unfold last; lia]. Qed.
  Lemma eval_left : forall x, x <= kx s 0 -> eval s x = leftArm s x.
  Proof.
    intros x H. unfold eval. rewrite (place_left x H). fold (kx s 0). destruct (Rlt_dec x (kx s 0)) as [L|L]; [unfold leftArm, poly, ky; ring|].
    assert (E : x = kx s 0) by lra. fold (last s). fold (kx s (last s)). pose proof (kx_lt 0 (last s)) as Q. destruct W as [_ [N _]].
    destruct (Rlt_dec (kx s (last s)) x) as [L'|L']; [exfalso; unfold last in *; specialize (Q ltac:(lia)); lra|]. unfold leftArm, poly, ky. rewrite E. ring.
  Qed.
  Lemma eval_inside : forall x, kx s 0 <= x <= kx s (last s) -> eval s x = piece s (place s x) x.
  Proof.
    intros x [L U]. unfold eval. fold (kx s 0). destruct (Rlt_dec x (kx s 0)); [lra|]. fold (last s). fold (kx s (last s)). destruct (Rlt_dec (kx s (last s)) x); [lra|]. reflexivity.
  Qed.
  Hypothesis VJ : valuesJoin s.
  Lemma eval_piece : forall i x, (i < last s)%nat -> kx s i <= x <= kx s (i + 1) -> eval s x = piece s i x.
  Proof.
    intros i x Hi [L U]. pose proof (kx_le 0 i ltac:(lia)) as B0. pose proof (kx_le (i + 1) (last s) ltac:(lia)) as B1. rewrite eval_inside by lra.
    destruct (Req_EM_T x (kx s i)) as [->|N]; [|rewrite (place_piece i x Hi) by lra; reflexivity].
    destruct i as [|i]; [rewrite place_left by lra; reflexivity|]. rewrite <- Nat.add_1_r in *. rewrite (place_piece i) by (try lia; pose proof (kx_lt i (i + 1) ltac:(lia)); lra).
    rewrite (VJ i) by lia. unfold piece, poly. ring.
  Qed.
  Lemma eval_right : forall x, kx s (last s) <= x -> eval s x = piece s (last s) x.
  Proof.
    intros x H. destruct W as [_ [N [ZA _]]]. pose proof (kx_lt 0 (last s) ltac:(unfold last; lia)) as B.
    destruct (Req_EM_T x (kx s (last s))) as [->|Nx].
    - rewrite (eval_piece (last s - 1)) by (unfold last; try lia; replace (length (sX s) - 1 - 1 + 1)%nat with (length (sX s) - 1)%nat by lia; pose proof (kx_lt (last s - 1) (last s) ltac:(unfold last; lia)) as Q; unfold last in Q; lra).
      replace (kx s (last s)) with (kx s (last s - 1 + 1)) at 1 by (f_equal; unfold last; lia). rewrite VJ by (unfold last; lia). replace (last s - 1 + 1)%nat with (last s) by (unfold last; lia). unfold piece, poly. ring.
    - unfold eval. fold (kx s 0). destruct (Rlt_dec x (kx s 0)); [lra|]. fold (last s). fold (kx s (last s)). destruct (Rlt_dec (kx s (last s)) x); [|lra]. rewrite (place_right x) by lra.
      unfold piece, poly. rewrite ZA. unfold kx, ky. ring.
  Qed.
  (** Slopes *)
  Lemma slope_left : forall x, x <= kx s 0 -> slopeAt s x = leftArm1 s x.
  Proof.
    intros x H. unfold slopeAt, deriv. cbn [Nat.eqb]. rewrite (place_left x H). fold (kx s 0). destruct (Rlt_dec x (kx s 0)) as [L|L]; [unfold leftArm1, poly1; ring|].
    assert (E : x = kx s 0) by lra. fold (last s). fold (kx s (last s)). pose proof (kx_lt 0 (last s)) as Q. destruct W as [_ [N [_ C]]].
    destruct (Rlt_dec (kx s (last s)) x) as [L'|L']; [exfalso; unfold last in *; specialize (Q ltac:(lia)); lra|]. unfold leftArm1, poly1. rewrite E, C. ring.
  Qed.
  Lemma slope_inside : forall x, kx s 0 <= x <= kx s (last s) -> slopeAt s x = piece1 s (place s x) x.
  Proof.
    intros x [L U]. unfold slopeAt, deriv. cbn [Nat.eqb]. fold (kx s 0). destruct (Rlt_dec x (kx s 0)); [lra|]. fold (last s). fold (kx s (last s)). destruct (Rlt_dec (kx s (last s)) x); [lra|]. reflexivity.
  Qed.
  Lemma slope_open : forall i x, (i < last s)%nat -> kx s i < x <= kx s (i + 1) -> slopeAt s x = piece1 s i x.
  Proof.
    intros i x Hi [L U]. pose proof (kx_le 0 i ltac:(lia)) as B0. pose proof (kx_le (i + 1) (last s) ltac:(lia)) as B1. rewrite slope_inside by lra. rewrite (place_piece i x Hi) by lra. reflexivity.
  Qed.
  Lemma curv_inside : forall x, kx s 0 <= x <= kx s (last s) -> curvAt s x = piece2 s (place s x) x.
  Proof.
    intros x [L U]. unfold curvAt, deriv. cbn [Nat.eqb]. fold (kx s 0). destruct (Rlt_dec x (kx s 0)); [lra|]. fold (last s). fold (kx s (last s)). destruct (Rlt_dec (kx s (last s)) x); [lra|]. reflexivity.
  Qed.
  Hypothesis SJ : slopesJoin s.
  Lemma slope_piece : forall i x, (i < last s)%nat -> kx s i <= x <= kx s (i + 1) -> slopeAt s x = piece1 s i x.
  Proof.
    intros i x Hi [L U]. pose proof (kx_le 0 i ltac:(lia)) as B0. pose proof (kx_le (i + 1) (last s) ltac:(lia)) as B1. rewrite slope_inside by lra.
    destruct (Req_EM_T x (kx s i)) as [->|N]; [|rewrite (place_piece i x Hi) by lra; reflexivity].
    destruct i as [|i]; [rewrite place_left by lra; reflexivity|]. rewrite <- Nat.add_1_r in *. rewrite (place_piece i) by (try lia; pose proof (kx_lt i (i + 1) ltac:(lia)); lra).
    rewrite (SJ i) by lia. unfold piece1, poly1. ring.
  Qed.
  Lemma slope_right : forall x, kx s (last s) <= x -> slopeAt s x = piece1 s (last s) x.
  Proof.
    intros x H. destruct W as [_ [N [ZA _]]]. pose proof (kx_lt 0 (last s) ltac:(unfold last; lia)) as B.
    destruct (Req_EM_T x (kx s (last s))) as [->|Nx].
    - rewrite (slope_piece (last s - 1)) by (unfold last; try lia; replace (length (sX s) - 1 - 1 + 1)%nat with (length (sX s) - 1)%nat by lia; pose proof (kx_lt (last s - 1) (last s) ltac:(unfold last; lia)) as Q; unfold last in Q; lra).
      replace (kx s (last s)) with (kx s (last s - 1 + 1)) at 1 by (f_equal; unfold last; lia). rewrite SJ by (unfold last; lia). replace (last s - 1 + 1)%nat with (last s) by (unfold last; lia). unfold piece1, poly1. ring.
    - unfold slopeAt, deriv. cbn [Nat.eqb]. fold (kx s 0). destruct (Rlt_dec x (kx s 0)); [lra|]. fold (last s). fold (kx s (last s)). destruct (Rlt_dec (kx s (last s)) x); [|lra]. rewrite (place_right x) by lra.
      unfold piece1, poly1. rewrite ZA. unfold kx. ring.
  Qed.
  Lemma curv_piece : forall m i x, curvJoin s m -> (m <= last s)%nat -> (i <= m)%nat -> (i < last s)%nat -> kx s i <= x <= kx s (i + 1) -> curvAt s x = piece2 s i x.
  Proof.
    intros m i x CJ Hm Him Hi [L U]. pose proof (kx_le 0 i ltac:(lia)) as B0. pose proof (kx_le (i + 1) (last s) ltac:(lia)) as B1. rewrite curv_inside by lra.
    destruct (Req_EM_T x (kx s i)) as [->|N]; [|rewrite (place_piece i x Hi) by lra; reflexivity].
    destruct i as [|i]; [rewrite place_left by lra; reflexivity|]. rewrite <- Nat.add_1_r in *. rewrite (place_piece i) by (try lia; pose proof (kx_lt i (i + 1) ltac:(lia)); lra).
    rewrite (CJ i) by lia. unfold piece2, poly2. ring.
  Qed.
  Lemma curv_right : forall x, curvJoin s (last s) -> kx s (last s) <= x -> curvAt s x = piece2 s (last s) x.
  Proof.
    intros x CJ H. destruct W as [_ [N [ZA _]]]. pose proof (kx_lt 0 (last s) ltac:(unfold last; lia)) as B.
    destruct (Req_EM_T x (kx s (last s))) as [->|Nx].
    - rewrite (curv_piece (last s) (last s - 1)) by (unfold last; try exact CJ; try lia; replace (length (sX s) - 1 - 1 + 1)%nat with (length (sX s) - 1)%nat by lia; pose proof (kx_lt (last s - 1) (last s) ltac:(unfold last; lia)) as Q; unfold last in Q; lra).
      replace (kx s (last s)) with (kx s (last s - 1 + 1)) at 1 by (f_equal; unfold last; lia). rewrite CJ by (unfold last; lia). replace (last s - 1 + 1)%nat with (last s) by (unfold last; lia). unfold piece2, poly2. ring.
    - unfold curvAt, deriv. cbn [Nat.eqb]. fold (kx s 0). destruct (Rlt_dec x (kx s 0)); [lra|]. fold (last s). fold (kx s (last s)). destruct (Rlt_dec (kx s (last s)) x); [|lra].
      unfold piece2, poly2. rewrite ZA. ring.
  Qed.
  (** Slope everywhere. *)
  Lemma located_in : forall x, x < kx s 0 \/ (exists i, (i < last s)%nat /\ kx s i <= x < kx s (i + 1)) \/ kx s (last s) <= x.
  Proof.
    intros x. destruct W as [I [N _]]. destruct (located (sX s) x ltac:(lia) I) as [A|[[i [Hi A]]|A]]; [left; exact A | right; left; exists i; split; [unfold last; lia | exact A] | right; right; exact A].
  Qed.
  Lemma eval_dl : forall x, derivable_pt_lim (eval s) x (slopeAt s x).
  Proof.
    intros x. destruct W as [_ [N [_ C]]]. destruct (located_in x) as [A|[[i [Hi [A B]]]|A]].
    - rewrite slope_left by lra. apply (dl_glue _ (leftArm s) (leftArm s) x (x - 1) (kx s 0)); [lra | intros; apply eval_left; lra | intros; apply eval_left; lra | apply poly_dl | apply poly_dl].
    - rewrite (slope_piece i) by (assumption || lra). destruct (Req_EM_T x (kx s i)) as [E|Ne].
      + assert (P1 : piece1 s i x = sC s i) by (rewrite E; unfold piece1, poly1; ring).
        destruct i as [|i].
        * apply (dl_glue _ (leftArm s) (piece s 0) x (x - 1) (kx s (0 + 1))); [lra | intros; apply eval_left; lra | intros; apply eval_piece; [lia | lra] | | apply poly_dl].
          rewrite P1, <- C. eapply dl_to; [apply poly_dl|]. rewrite E. unfold poly1. ring.
        * rewrite <- Nat.add_1_r in *. pose proof (kx_lt i (i + 1) ltac:(lia)) as Q.
          apply (dl_glue _ (piece s i) (piece s (i + 1)) x (kx s i) (kx s (i + 1 + 1))); [lra | intros; apply eval_piece; [lia | lra] | intros; apply eval_piece; [lia | lra] | | apply poly_dl].
          rewrite P1, <- (SJ i) by lia. rewrite E. apply poly_dl.
      + apply (dl_glue _ (piece s i) (piece s i) x (kx s i) (kx s (i + 1))); [lra | intros; apply eval_piece; [lia | lra] | intros; apply eval_piece; [lia | lra] | apply poly_dl | apply poly_dl].
    - rewrite slope_right by lra. destruct (Req_EM_T x (kx s (last s))) as [E|Ne].
      + assert (P1 : piece1 s (last s) x = sC s (last s)) by (rewrite E; unfold piece1, poly1; ring).
        assert (J : (last s - 1 + 1)%nat = last s) by (unfold last; lia). pose proof (kx_lt (last s - 1) (last s) ltac:(unfold last; lia)) as Q.
        apply (dl_glue _ (piece s (last s - 1)) (piece s (last s)) x (kx s (last s - 1)) (x + 1)); [lra | intros; apply eval_piece; [unfold last; lia | rewrite J; lra] | intros; apply eval_right; lra | | apply poly_dl].
        rewrite P1, <- J, <- (SJ (last s - 1)%nat) by (unfold last; lia). rewrite J, E. apply poly_dl.
      + apply (dl_glue _ (piece s (last s)) (piece s (last s)) x (kx s (last s)) (x + 1)); [lra | intros; apply eval_right; lra | intros; apply eval_right; lra | apply poly_dl | apply poly_dl].
  Qed.
  (** Curvature between the ends, and beyond. *)
  Lemma slope_dl_inner : forall x, curvJoin s (last s - 1) -> kx s 0 < x < kx s (last s) -> derivable_pt_lim (slopeAt s) x (curvAt s x).
  Proof.
    intros x CJ [Lo Hi']. destruct W as [_ [N _]]. destruct (located_in x) as [A|[[i [Hi [A B]]]|A]]; [lra | | lra].
    rewrite (curv_piece (last s - 1) i) by (assumption || lia || lra). destruct (Req_EM_T x (kx s i)) as [E|Ne].
    - assert (P1 : piece2 s i x = 2 * sB s i) by (rewrite E; unfold piece2, poly2; ring).
      destruct i as [|i]; [lra|]. rewrite <- Nat.add_1_r in *. pose proof (kx_lt i (i + 1) ltac:(lia)) as Q.
      apply (dl_glue _ (piece1 s i) (piece1 s (i + 1)) x (kx s i) (kx s (i + 1 + 1))); [lra | intros; apply slope_piece; [lia | lra] | intros; apply slope_piece; [lia | lra] | | apply poly1_dl].
      rewrite P1, <- (CJ i) by lia. rewrite E. apply poly1_dl.
    - apply (dl_glue _ (piece1 s i) (piece1 s i) x (kx s i) (kx s (i + 1))); [lra | intros; apply slope_piece; [lia | lra] | intros; apply slope_piece; [lia | lra] | apply poly1_dl | apply poly1_dl].
  Qed.
  Lemma slope_dl_right : forall x, curvJoin s (last s) -> kx s (last s) <= x -> derivable_pt_lim (slopeAt s) x (curvAt s x).
  Proof.
    intros x CJ A. destruct W as [_ [N _]]. rewrite curv_right by (assumption || lra). destruct (Req_EM_T x (kx s (last s))) as [E|Ne].
    - assert (P1 : piece2 s (last s) x = 2 * sB s (last s)) by (rewrite E; unfold piece2, poly2; ring).
      assert (J : (last s - 1 + 1)%nat = last s) by (unfold last; lia). pose proof (kx_lt (last s - 1) (last s) ltac:(unfold last; lia)) as Q.
      apply (dl_glue _ (piece1 s (last s - 1)) (piece1 s (last s)) x (kx s (last s - 1)) (x + 1)); [lra | intros; apply slope_piece; [unfold last; lia | rewrite J; lra] | intros; apply slope_right; lra | | apply poly1_dl].
      rewrite P1, <- J, <- (CJ (last s - 1)%nat) by (unfold last; lia). rewrite J, E. apply poly1_dl.
    - apply (dl_glue _ (piece1 s (last s)) (piece1 s (last s)) x (kx s (last s)) (x + 1)); [lra | intros; apply slope_right; lra | intros; apply slope_right; lra | apply poly1_dl | apply poly1_dl].
  Qed.
  Lemma slope_dl_left : forall x, x < kx s 0 -> derivable_pt_lim (slopeAt s) x (2 * sB0 s).
  Proof.
    intros x A. apply (dl_glue _ (leftArm1 s) (leftArm1 s) x (x - 1) (kx s 0)); [lra | intros; apply slope_left; lra | intros; apply slope_left; lra | |];
      (eapply dl_to; [apply poly1_dl | unfold poly2; ring]).
  Qed.
  Lemma slope_dl_corner : forall x, sB0 s = sB s 0 -> curvJoin s (last s - 1) -> x = kx s 0 -> derivable_pt_lim (slopeAt s) x (curvAt s x).
  Proof.
    intros x E0 CJ E. destruct W as [_ [N _]]. pose proof (kx_lt 0 (0 + 1) ltac:(unfold last; lia)) as Q. rewrite (curv_piece (last s - 1) 0) by (assumption || (unfold last; lia) || lra).
    apply (dl_glue _ (leftArm1 s) (piece1 s 0) x (x - 1) (kx s (0 + 1))); [lra | intros; apply slope_left; lra | intros; apply slope_piece; [unfold last; lia | lra] | | apply poly1_dl].
    eapply dl_to; [apply poly1_dl|]. unfold piece2, poly2. rewrite E, E0. ring.
  Qed.
  Lemma curv_continuous : forall x, curvJoin s (last s - 1) -> kx s 0 < x < kx s (last s) -> continuity_pt (curvAt s) x.
  Proof.
    intros x CJ [Lo Hi']. destruct W as [_ [N _]]. destruct (located_in x) as [A|[[i [Hi [A B]]]|A]]; [lra | | lra]. destruct (Req_EM_T x (kx s i)) as [E|Ne].
    - destruct i as [|i]; [lra|]. rewrite <- Nat.add_1_r in *. pose proof (kx_lt i (i + 1) ltac:(lia)) as Q.
      apply (glue_continuous _ (piece2 s i) (piece2 s (i + 1)) x (kx s i) (kx s (i + 1 + 1))); [lra | intros; apply (curv_piece (last s - 1)); (assumption || lia || lra) | intros; apply (curv_piece (last s - 1)); (assumption || lia || lra) | |]; eapply continuity_of, poly2_dl.
    - apply (glue_continuous _ (piece2 s i) (piece2 s i) x (kx s i) (kx s (i + 1))); [lra | intros; apply (curv_piece (last s - 1)); (assumption || lia || lra) | intros; apply (curv_piece (last s - 1)); (assumption || lia || lra) | |]; eapply continuity_of, poly2_dl.
  Qed.
End Curve.

(** ** What set_points leaves *)
Record fitted (l r : ending) (force : bool) (xs ys : list R) (b : nat -> R) (s : spl) : Prop := Fitted {
  fX : sX s = xs; fY : sY s = ys;
  fA : forall i, (i < last s)%nat -> sA s i = coefA (kx s) b i;
  fAn : sA s (last s) = 0;
  fB : forall i, (i < last s)%nat -> sB s i = b i;
  fBn : sB s (last s) = if force then 0 else b (last s);
  fC : forall i, (i < last s)%nat -> sC s i = coefC (kx s) (ky s) b i;
  fCn : sC s (last s) = piece1 s (last s - 1) (kx s (last s));
  fB0 : sB0 s = if force then 0 else b 0%nat;
  fC0 : sC0 s = coefC (kx s) (ky s) b 0 }.
Lemma setAt_same : forall f i v, setAt f i v i = v.
Proof. intros. unfold setAt. rewrite Nat.eqb_refl. reflexivity. Qed.
Lemma setAt_other : forall f i v j, j <> i -> setAt f i v j = f j.
Proof. intros f i v j H. unfold setAt. replace (j =? i)%nat with false by (symmetry; apply Nat.eqb_neq, H). reflexivity. Qed.
Lemma cubic_fitted : forall l r force old xs ys s, setPoints l r force old true xs ys = Some s -> tableOf xs ys /\
  exists b, rowsOK (length xs) (fun i => nth i xs 0) (fun i => nth i ys 0) l r b /\ fitted l r force xs ys b s.
Proof.
  intros l r force old xs ys s H. unfold setPoints in H. destruct ((length xs =? length ys)%nat && (2 <? length xs)%nat && rising xs) eqn:E; [|discriminate]. apply accepted in E. split; [exact E|].
  destruct E as [E1 [E2 E3]]. destruct (solveB_rows (length xs) (fun i => nth i xs 0) (fun i => nth i ys 0) l r E2) as [b [Eb Rb]]; [intros i Hi; apply E3; lia|].
  rewrite Eb in H. injection H as <-. exists b. split; [exact Rb|]. split; unfold last, piece1, poly1, kx, ky; cbn [sX sY sA sB sC sB0 sC0]; try reflexivity.
  - intros i Hi. rewrite setAt_other by lia. reflexivity.
  - apply setAt_same.
  - intros i Hi. destruct force; [rewrite setAt_other by lia|]; reflexivity.
  - destruct force; [apply setAt_same | reflexivity].
  - intros i Hi. rewrite setAt_other by lia. reflexivity.
  - rewrite setAt_same. replace (length xs - 1 - 1)%nat with (length xs - 2)%nat by lia. rewrite !setAt_other by lia. destruct force; [rewrite setAt_other by lia|]; ring.
Qed.
Lemma cubic_defined : forall l r force old xs ys, tableOf xs ys -> exists s, setPoints l r force old true xs ys = Some s.
Proof.
  intros l r force old xs ys T. unfold setPoints. rewrite (proj2 (accepted xs ys) T). destruct T as [E1 [E2 E3]].
  destruct (solveB_rows (length xs) (fun i => nth i xs 0) (fun i => nth i ys 0) l r E2) as [b [-> _]]; [intros i Hi; apply E3; lia|]. eexists; reflexivity.
Qed.
Lemma fitted_well : forall l r force xs ys b s, tableOf xs ys -> fitted l r force xs ys b s -> wellFormed s.
Proof.
  intros l r force xs ys b s [E1 [E2 E3]] F. unfold wellFormed, last. pose proof (fX _ _ _ _ _ _ _ F) as X. rewrite X. split; [exact E3|]. split; [exact E2|]. split.
  - rewrite <- X. apply (fAn _ _ _ _ _ _ _ F).
  - rewrite (fC0 _ _ _ _ _ _ _ F), (fC _ _ _ _ _ _ _ F); [reflexivity | unfold last; rewrite X; lia].
Qed.
Lemma fitted_values : forall l r force xs ys b s, tableOf xs ys -> fitted l r force xs ys b s -> valuesJoin s.
Proof.
  intros l r force xs ys b s T F i Hi. pose proof (kx_lt s (fitted_well _ _ _ _ _ _ _ T F) i (i + 1) ltac:(lia)) as Q. unfold piece, poly.
  rewrite (fA _ _ _ _ _ _ _ F), (fB _ _ _ _ _ _ _ F), (fC _ _ _ _ _ _ _ F) by exact Hi. unfold coefA, coefC. field. lra.
Qed.
Lemma fitted_curv : forall l r force xs ys b s, tableOf xs ys -> fitted l r force xs ys b s -> curvJoin s (if force then last s - 1 else last s).
Proof.
  intros l r force xs ys b s T F i Hi. assert (Hi' : (i < last s)%nat) by (destruct force; lia). pose proof (kx_lt s (fitted_well _ _ _ _ _ _ _ T F) i (i + 1) ltac:(lia)) as Q. unfold piece2, poly2.
  rewrite (fA _ _ _ _ _ _ _ F), (fB _ _ _ _ _ _ _ F) by exact Hi'. replace (sB s (i + 1)) with (b (i + 1)%nat); [unfold coefA; field; lra|].
  destruct (Nat.eq_dec (i + 1) (last s)) as [E|N]; [|rewrite (fB _ _ _ _ _ _ _ F) by lia; reflexivity]. destruct force; [lia|]. rewrite E, (fBn _ _ _ _ _ _ _ F). reflexivity.
Qed.
Lemma fitted_slopes : forall l r force xs ys b s, tableOf xs ys -> rowsOK (length xs) (fun i => nth i xs 0) (fun i => nth i ys 0) l r b -> fitted l r force xs ys b s -> slopesJoin s.
Proof.
  intros l r force xs ys b s T [RI _] F i Hi. pose proof (fitted_well _ _ _ _ _ _ _ T F) as Wf. pose proof (kx_lt s Wf i (i + 1) ltac:(lia)) as Q.
  destruct (Nat.eq_dec (i + 1) (last s)) as [E|N]; [rewrite E, (fCn _ _ _ _ _ _ _ F); replace (last s - 1)%nat with i by lia; reflexivity|].
  pose proof (kx_lt s Wf (i + 1) (i + 1 + 1) ltac:(lia)) as Q'. pose proof (fX _ _ _ _ _ _ _ F) as X. pose proof (fY _ _ _ _ _ _ _ F) as Y.
  specialize (RI (i + 1)%nat ltac:(unfold last in *; rewrite X in *; lia)). unfold innerRow, innerRhs in RI. replace (i + 1 - 1)%nat with i in RI by lia.
  unfold piece1, poly1. rewrite (fA _ _ _ _ _ _ _ F), (fB _ _ _ _ _ _ _ F), !(fC _ _ _ _ _ _ _ F) by lia. unfold coefA, coefC.
  assert (KX : forall j, nth j xs 0 = kx s j) by (intros; unfold kx; rewrite X; reflexivity). assert (KY : forall j, nth j ys 0 = ky s j) by (intros; unfold ky; rewrite Y; reflexivity). rewrite !KX, !KY in RI.
  set (x0 := kx s i) in *. set (x1 := kx s (i + 1)) in *. set (x2 := kx s (i + 1 + 1)) in *. set (y0 := ky s i) in *. set (y1 := ky s (i + 1)) in *. set (y2 := ky s (i + 1 + 1)) in *.
  set (b0 := b i) in *. set (b1 := b (i + 1)%nat) in *. set (b2 := b (i + 1 + 1)%nat) in *. clearbody x0 x1 x2 y0 y1 y2 b0 b1 b2. clear - RI Q Q'.
  replace ((3 * (1 / 3 * (b1 - b0) / (x1 - x0)) * (x1 - x0) + 2 * b0) * (x1 - x0)) with ((b1 + b0) * (x1 - x0)) by (field; lra). lra.
Qed.
