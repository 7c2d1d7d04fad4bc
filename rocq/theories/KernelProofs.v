(** Proofs about the propagation kernel. *)
From Coq Require Import List Arith Lia Bool Permutation.
From Verif Require Import Base FolderModel FolderSpec KernelModel KernelSpec.
From Verif Require FolderProofs.
Import ListNotations.

Ltac Zify.zify_post_hook ::= idtac.

(** ** Lists *)

Lemma NoDup_flat_map {A B} (f : A -> list B) l :
  NoDup l -> (forall a, In a l -> NoDup (f a)) ->
  (forall a b x, In a l -> In b l -> In x (f a) -> In x (f b) -> a = b) ->
  NoDup (flat_map f l).
Proof.
  induction l as [|a l IH]; intros Hl Hf Hd; simpl; [constructor|].
  inversion Hl; subst.
  assert (Happ : forall (l1 l2 : list B), NoDup l1 -> NoDup l2 ->
            (forall x, In x l1 -> In x l2 -> False) -> NoDup (l1 ++ l2)).
  { clear. induction l1 as [|b l1 IH]; simpl; intros l2 H1 H2 H; auto.
    inversion H1; subst. constructor.
    - rewrite in_app_iff. intros [?|?]; eauto.
    - apply IH; eauto. }
  apply Happ.
  - apply Hf; simpl; auto.
  - apply IH; auto.
    + intros; apply Hf; simpl; auto.
    + intros a0 b x ? ? ? ?. apply (Hd a0 b x); simpl; auto.
  - intros x Hx1 Hx2. apply in_flat_map in Hx2. destruct Hx2 as (b & Hb & Hx2).
    assert (a = b) by (apply (Hd a b x); simpl; auto). subst. contradiction.
Qed.

Lemma for_loop_fold {S B} n (f : nat -> list B) (stp : S -> B -> S) s :
  for_loop n (fun i s => fold_left stp (f i) s) s = fold_left stp (flat_map f (seq 0 n)) s.
Proof. rewrite fold_left_flat_map. reflexivity. Qed.

Lemma for_loop_ext {S} n (b1 b2 : nat -> S -> S) s :
  (forall i s, i < n -> b1 i s = b2 i s) -> for_loop n b1 s = for_loop n b2 s.
Proof.
  intros H. induction n as [|n IH]; [reflexivity|].
  rewrite !for_loop_S, IH by (intros; apply H; lia). apply H; lia.
Qed.

(** ** Pointwise updates of disjoint blocks *)

Section Pointwise.
Context {A P : Type}.
Variable w : nat.
Variable av am : P -> nat.                   (* addresses in v and in m2 *)
Variable r : P -> nat -> A -> A -> A * A.     (* result of lane k given v and m2 *)
Definition pstep (st : kstate A) (p : P) : kstate A :=
  let '(v, m2) := st in
  (vstore v (av p) w (fun k => fst (r p k (v (av p + k)) (m2 (am p + k)))),
   vstore m2 (am p) w (fun k => snd (r p k (v (av p + k)) (m2 (am p + k))))).

Lemma vstore_in (a : nat -> A) i k f : k < w -> vstore a i w f (i + k) = f k.
Proof.
  intros H. unfold vstore.
  replace (i <=? i + k) with true by (symmetry; apply Nat.leb_le; lia).
  replace (i + k <? i + w) with true by (symmetry; apply Nat.ltb_lt; lia).
  simpl. f_equal. lia.
Qed.
Lemma vstore_out (a : nat -> A) i j f : (forall k, k < w -> j <> i + k) -> vstore a i w f j = a j.
Proof.
  intros H. unfold vstore.
  destruct (i <=? j) eqn:E1; simpl; auto.
  destruct (j <? i + w) eqn:E2; simpl; auto.
  apply Nat.leb_le in E1. apply Nat.ltb_lt in E2.
  exfalso. apply (H (j - i)); lia.
Qed.

Lemma pstep_fold (l : list P) v0 m0 :
  NoDup l ->
  (forall p q k k', In p l -> In q l -> k < w -> k' < w -> av p + k = av q + k' -> p = q) ->
  (forall p q k k', In p l -> In q l -> k < w -> k' < w -> am p + k = am q + k' -> p = q) ->
  let st := fold_left pstep l (v0, m0) in
  (forall p k, In p l -> k < w ->
     fst st (av p + k) = fst (r p k (v0 (av p + k)) (m0 (am p + k))) /\
     snd st (am p + k) = snd (r p k (v0 (av p + k)) (m0 (am p + k)))) /\
  (forall j, (forall p k, In p l -> k < w -> j <> av p + k) -> fst st j = v0 j) /\
  (forall j, (forall p k, In p l -> k < w -> j <> am p + k) -> snd st j = m0 j).
Proof.
  induction l as [|p l IH] using rev_ind; intros Hnd Hv Hm.
  - simpl. repeat split; intros; try tauto.
  - rewrite fold_left_app. simpl.
    assert (Hnd' : NoDup l /\ ~ In p l).
    { apply NoDup_remove in Hnd. rewrite app_nil_r in Hnd. exact Hnd. }
    destruct Hnd' as [Hnd' Hp].
    destruct IH as (I1 & I2 & I3); auto.
    { intros a b k k' ? ? ? ? ?; apply (Hv a b k k'); auto; apply in_or_app; auto. }
    { intros a b k k' ? ? ? ? ?; apply (Hm a b k k'); auto; apply in_or_app; auto. }
    destruct (fold_left pstep l (v0, m0)) as [v m2] eqn:E. simpl in I1, I2, I3. simpl.
    assert (Hvp : forall k, k < w -> v (av p + k) = v0 (av p + k)).
    { intros k Hk. apply I2. intros q k' Hq Hk' Eq.
      assert (p = q) by (apply (Hv p q k k'); auto; apply in_or_app; simpl; auto). subst. contradiction. }
    assert (Hmp : forall k, k < w -> m2 (am p + k) = m0 (am p + k)).
    { intros k Hk. apply I3. intros q k' Hq Hk' Eq.
      assert (p = q) by (apply (Hm p q k k'); auto; apply in_or_app; simpl; auto). subst. contradiction. }
    split; [|split].
    + intros q k Hq Hk. apply in_app_or in Hq. destruct Hq as [Hq|[<-|[]]].
      * destruct (I1 q k Hq Hk) as [J1 J2]. split.
        -- rewrite vstore_out; auto. intros k' Hk' Eq.
           assert (q = p) by (apply (Hv q p k k'); auto; apply in_or_app; simpl; auto). subst. contradiction.
        -- rewrite vstore_out; auto. intros k' Hk' Eq.
           assert (q = p) by (apply (Hm q p k k'); auto; apply in_or_app; simpl; auto). subst. contradiction.
      * rewrite !vstore_in by auto. rewrite Hvp, Hmp by auto. auto.
    + intros j Hj. rewrite vstore_out.
      * apply I2. intros; apply Hj; auto. apply in_or_app; auto.
      * intros; apply Hj; auto. apply in_or_app; simpl; auto.
    + intros j Hj. rewrite vstore_out.
      * apply I3. intros; apply Hj; auto. apply in_or_app; auto.
      * intros; apply Hj; auto. apply in_or_app; simpl; auto.
Qed.
End Pointwise.

(** ** Geometry of the vector layout *)

Section Geo.
Variable g : geom.
Hypothesis Hwf : wf_geom g.

Lemma n1_wYC : g_n1 g = g_w g * kYC g.
Proof. unfold kYC. apply FolderProofs.wf_n1. exact Hwf. Qed.

Lemma ltb_mul a b c : 0 < c -> (a * c <? b * c) = (a <? b).
Proof.
  intros Hc. destruct (a <? b) eqn:E.
  - apply Nat.ltb_lt. apply Nat.ltb_lt in E. apply Nat.mul_lt_mono_pos_r; auto.
  - apply Nat.ltb_ge. apply Nat.ltb_ge in E. apply Nat.mul_le_mono_r; auto.
Qed.

Lemma n2_pos : 0 < g_n1 g -> 0 < g_n2 g.
Proof. unfold g_n2. intros; apply Nat.mul_pos_pos; auto. Qed.

Lemma n1_pos : 1 <= kYC g -> 0 < g_n1 g.
Proof. intros. pose proof (n1_wYC). destruct Hwf as (Hw & _ & _). destruct (g_n1 g); nia. Qed.

Lemma YX : kYC g * kXC g = g_n2 g.
Proof. unfold kXC, g_n2. rewrite n1_wYC at 2. lia. Qed.

Lemma vpos_lane x yC k : yC < kYC g -> k < g_w g ->
  vector_pos g x (yC + k * kYC g) = yC * kXC g + x * g_w g + k.
Proof.
  intros Hy Hk. unfold vector_pos. fold (kYC g). fold (kXC g).
  rewrite Nat.mod_add, Nat.mod_small by lia.
  rewrite Nat.div_add, Nat.div_small by lia. lia.
Qed.

Lemma lane_lt yC k : yC < kYC g -> k < g_w g -> yC + k * kYC g < g_n1 g.
Proof.
  intros. rewrite n1_wYC.
  assert ((k + 1) * kYC g <= g_w g * kYC g) by (apply Nat.mul_le_mono_r; lia). lia.
Qed.

Lemma lane_of y : y < g_n1 g -> exists yC k, yC < kYC g /\ k < g_w g /\ y = yC + k * kYC g.
Proof.
  intros H. pose proof n1_wYC as E.
  assert (0 < kYC g) by (destruct (kYC g); lia).
  exists (y mod kYC g), (y / kYC g).
  pose proof (Nat.mod_upper_bound y (kYC g) ltac:(lia)).
  pose proof (Nat.div_mod y (kYC g) ltac:(lia)).
  split; [auto|split].
  - apply Nat.div_lt_upper_bound; lia.
  - lia.
Qed.

(** Address of the vector (z, yC, xi). *)
Definition vaddr (z yC xi : nat) := z * (kYC g * kXC g) + yC * kXC g + xi * g_w g.

Lemma vaddr_cell z yC xi k : yC < kYC g -> k < g_w g ->
  vaddr z yC xi + k = cell g xi (yC + k * kYC g) z.
Proof.
  intros. unfold vaddr, cell. rewrite vpos_lane by auto. rewrite YX. lia.
Qed.

Lemma vaddr_inj z yC xi k z' yC' xi' k' :
  yC < kYC g -> xi < g_n1 g -> k < g_w g -> yC' < kYC g -> xi' < g_n1 g -> k' < g_w g ->
  vaddr z yC xi + k = vaddr z' yC' xi' + k' -> z = z' /\ yC = yC' /\ xi = xi' /\ k = k'.
Proof.
  intros H1 H2 H3 H4 H5 H6 E. unfold vaddr, kXC in E.
  assert (E' : ((z * kYC g + yC) * g_n1 g + xi) * g_w g + k =
               ((z' * kYC g + yC') * g_n1 g + xi') * g_w g + k') by lia.
  apply FolderProofs.digits2 in E'; auto. destruct E' as [E' ->].
  apply FolderProofs.digits2 in E'; auto. destruct E' as [E' ->].
  apply FolderProofs.digits2 in E'; auto. tauto.
Qed.

(** Removing the Ng ghost slices from the address. *)
Lemma vaddr_sub z yC xi : g_Ng g <= z ->
  vaddr z yC xi - g_n2 g * g_Ng g = vaddr (z - g_Ng g) yC xi.
Proof.
  intros H. unfold vaddr. rewrite YX.
  assert (E : z * g_n2 g = (z - g_Ng g) * g_n2 g + g_Ng g * g_n2 g).
  { rewrite <- Nat.mul_add_distr_r. f_equal. lia. }
  rewrite E. rewrite (Nat.mul_comm (g_n2 g)). clear E. generalize ((z - g_Ng g) * g_n2 g) (g_Ng g * g_n2 g). intros; lia.
Qed.

(** Name a difference and keep only its defining equation. *)
Ltac diff e t H := remember e as t eqn:H; match type of H with _ = ?a - ?b => 
   let H' := fresh in assert (H' : t + b = a) by lia; clear H; rename H' into H end.
Ltac mulr H c := apply (f_equal (fun u => u * c)) in H; rewrite ?Nat.mul_add_distr_r in H.

(** *** The neighbour registers *)
Lemma mod_wrap a L : L <= a < 2 * L -> a mod L = a - L.
Proof.
  intros H. replace a with ((a - L) + 1 * L) at 1 by lia.
  rewrite Nat.mod_add by lia. apply Nat.mod_small. lia.
Qed.

Lemma nbr_spec {A} (m : nat -> A) z yC xi k nv d :
  yC < kYC g -> xi < g_n1 g -> k < g_w g -> 1 <= nv -> 2 * nv <= kYC g -> nv <= z ->
  nbr g m (xi * g_w g) yC (vaddr z yC xi) nv d k =
  val g m (site_nbr (g_n1 g) d nv (xi, yC + k * kYC g, z)).
Proof.
  intros Hy Hx Hk Hn1 Hn2 Hz.
  pose proof n1_wYC as En. pose proof YX as EYX.
  pose proof (lane_lt yC k Hy Hk) as Hlt.
  assert (Hw : 0 < g_w g) by lia.
  assert (HYn : kYC g <= g_n1 g) by (rewrite En; nia).
  unfold nbr, val, site_nbr.
  destruct d.
  - (* Xp *) unfold vload. f_equal. unfold kXC in *.
    destruct (g_n1 g * g_w g <=? xi * g_w g + nv * g_w g) eqn:E.
    + apply Nat.leb_le in E.
      assert (g_n1 g <= xi + nv) by nia.
      rewrite mod_wrap by lia. rewrite <- vaddr_cell by auto.
      unfold vaddr, kXC. diff (xi + nv - g_n1 g) t Et. mulr Et (g_w g). lia.
    + apply Nat.leb_gt in E. assert (xi + nv < g_n1 g) by nia.
      rewrite Nat.mod_small by lia. rewrite <- vaddr_cell by auto. unfold vaddr, kXC. lia.
  - (* Xm *) unfold vload. f_equal.
    destruct (xi * g_w g <? nv * g_w g) eqn:E.
    + apply Nat.ltb_lt in E. assert (xi < nv) by nia.
      rewrite Nat.mod_small by lia. rewrite <- vaddr_cell by auto. unfold vaddr, kXC.
      diff (xi + g_n1 g - nv) t Et. mulr Et (g_w g). lia.
    + apply Nat.ltb_ge in E. assert (nv <= xi) by nia.
      rewrite mod_wrap by lia. rewrite <- vaddr_cell by auto. unfold vaddr, kXC.
      replace (xi + g_n1 g - nv - g_n1 g) with (xi - nv) by lia.
      diff (xi - nv) t Et. mulr Et (g_w g). lia.
  - (* Yp *)
    destruct (yC <? nv) eqn:E1; [apply Nat.ltb_lt in E1|apply Nat.ltb_ge in E1].
    + pose proof (lane_lt (yC + nv) k ltac:(lia) Hk).
      rewrite Nat.mod_small by lia. unfold vload. f_equal.
      replace (yC + k * kYC g + nv) with ((yC + nv) + k * kYC g) by lia.
      rewrite <- vaddr_cell by (auto; lia). unfold vaddr. lia.
    + destruct (kYC g <=? yC + nv) eqn:E2; [apply Nat.leb_le in E2|apply Nat.leb_gt in E2].
      * unfold rotL, vload. f_equal.
        destruct (Nat.eq_dec (k + 1) (g_w g)) as [Ek|Ek].
        -- rewrite Ek, Nat.mod_same by lia.
           assert (Eq : yC + k * kYC g + nv = (yC + nv - kYC g) + g_n1 g).
           { rewrite En, <- Ek. lia. }
           rewrite Eq. rewrite mod_wrap by lia.
           replace (yC + nv - kYC g + g_n1 g - g_n1 g) with ((yC + nv - kYC g) + 0 * kYC g) by lia.
           rewrite <- vaddr_cell by lia. unfold vaddr. rewrite <- EYX.
           diff (yC + nv - kYC g) t Et. mulr Et (kXC g). lia.
        -- rewrite (Nat.mod_small (k + 1)) by lia.
           pose proof (lane_lt (yC + nv - kYC g) (k + 1) ltac:(lia) ltac:(lia)).
           replace (yC + k * kYC g + nv) with ((yC + nv - kYC g) + (k + 1) * kYC g) by nia.
           rewrite Nat.mod_small by lia.
           rewrite <- vaddr_cell by lia. unfold vaddr. rewrite <- EYX.
           diff (yC + nv - kYC g) t Et. mulr Et (kXC g). lia.
      * pose proof (lane_lt (yC + nv) k ltac:(lia) Hk).
        rewrite Nat.mod_small by lia. unfold vload. f_equal.
        replace (yC + k * kYC g + nv) with ((yC + nv) + k * kYC g) by lia.
        rewrite <- vaddr_cell by (auto; lia). unfold vaddr. lia.
  - (* Ym *)
    destruct (yC <? nv) eqn:E1; [apply Nat.ltb_lt in E1|apply Nat.ltb_ge in E1].
    + unfold rotR, vload. f_equal.
      destruct (Nat.eq_dec k 0) as [Ek|Ek].
      * subst k. rewrite (Nat.mod_small (0 + g_w g - 1)) by lia.
        rewrite Nat.mod_small by lia.
        assert (Eq : yC + 0 * kYC g + g_n1 g - nv = (yC + kYC g - nv) + (0 + g_w g - 1) * kYC g).
        { rewrite En. replace (0 + g_w g - 1) with (g_w g - 1) by lia.
          assert (g_w g * kYC g = (g_w g - 1) * kYC g + kYC g) by nia. lia. }
        rewrite Eq. rewrite <- vaddr_cell by lia. unfold vaddr. rewrite <- EYX.
        diff (yC + kYC g - nv) t Et. mulr Et (kXC g). lia.
      * replace (k + g_w g - 1) with ((k - 1) + 1 * g_w g) by lia.
        rewrite Nat.mod_add by lia. rewrite (Nat.mod_small (k - 1)) by lia.
        assert (Eq : yC + k * kYC g = (yC + kYC g) + (k - 1) * kYC g) by nia.
        rewrite mod_wrap by lia.
        replace (yC + k * kYC g + g_n1 g - nv - g_n1 g) with ((yC + kYC g - nv) + (k - 1) * kYC g)
          by (clear - Eq E1 Hn2; generalize dependent ((k - 1) * kYC g); intros; lia).
        rewrite <- vaddr_cell by lia. unfold vaddr. rewrite <- EYX.
        diff (yC + kYC g - nv) t Et. mulr Et (kXC g). lia.
    + rewrite mod_wrap by lia. unfold vload. f_equal.
      replace (yC + k * kYC g + g_n1 g - nv - g_n1 g) with ((yC - nv) + k * kYC g) by lia.
      rewrite <- vaddr_cell by lia. unfold vaddr.
      diff (yC - nv) t Et. mulr Et (kXC g). lia.
  - (* Zp *) unfold vload. f_equal. rewrite <- vaddr_cell by auto. unfold vaddr. rewrite EYX. lia.
  - (* Zm *) unfold vload. f_equal. rewrite <- vaddr_cell by auto. unfold vaddr. rewrite EYX.
    diff (z - nv) t Et. mulr Et (g_n2 g). lia.
Qed.

End Geo.

(** ** The blocked, threaded loops *)

Section Blocks.
Context {A : Type}.
Variable g : geom.
Hypothesis Hwf : wf_geom g.
Variables bSizeY bSizeZ : nat.
Variable sched : nat -> nat -> list (nat * nat * nat).
Hypothesis HbY : 0 < bSizeY.
Hypothesis HbZ : 0 < bSizeZ.
Hypothesis Hsched : forall zT yT, Permutation (sched zT yT) (block_iters g bSizeY bSizeZ).
Variables z0 zF : nat.

Let zM := (zF - z0 + bSizeZ - 1) / bSizeZ.
Let bY := (kYC g + bSizeY - 1) / bSizeY.

Definition place (zT yT : nat) (i : nat * nat * nat) : nat * nat * nat :=
  let '(zz, yy, xi) := i in (zz + bSizeZ * zT + z0, yy + bSizeY * yT, xi).

Definition visits : list (nat * nat * nat) :=
  flat_map (fun zT => flat_map (fun yT => map (place zT yT) (sched zT yT)) (seq 0 bY)) (seq 0 zM).

Definition okv (p : nat * nat * nat) : bool :=
  let '(z, y, _) := p in negb ((kYC g <=? y) || (zF <=? z)).

Lemma in_iters zz yy xi :
  In (zz, yy, xi) (block_iters g bSizeY bSizeZ) <-> zz < bSizeZ /\ yy < bSizeY /\ xi < g_n1 g.
Proof.
  unfold block_iters. rewrite in_flat_map. split.
  - intros (a & Ha & H). apply in_flat_map in H. destruct H as (b & Hb & H).
    apply in_map_iff in H. destruct H as (c & E & Hc). inversion E; subst.
    apply in_seq in Ha, Hb, Hc. lia.
  - intros (H1 & H2 & H3). exists zz. rewrite in_seq. split; [lia|].
    apply in_flat_map. exists yy. rewrite in_seq. split; [lia|].
    apply in_map_iff. exists xi. rewrite in_seq. split; [auto|lia].
Qed.

Lemma iters_nodup : NoDup (block_iters g bSizeY bSizeZ).
Proof.
  unfold block_iters. apply NoDup_flat_map.
  - apply seq_NoDup.
  - intros zz _. apply NoDup_flat_map.
    + apply seq_NoDup.
    + intros yy _. apply FinFun.Injective_map_NoDup; [|apply seq_NoDup].
      intros a b E; inversion E; auto.
    + intros a b x _ _ Hx Hy. apply in_map_iff in Hx, Hy.
      destruct Hx as (c & <- & _), Hy as (c' & E & _). inversion E; auto.
  - intros a b x _ _ Hx Hy. apply in_flat_map in Hx, Hy.
    destruct Hx as (c & _ & Hx), Hy as (c' & _ & Hy). apply in_map_iff in Hx, Hy.
    destruct Hx as (e & <- & _), Hy as (e' & E & _). inversion E; auto.
Qed.

Lemma place_inj zT yT i i' : place zT yT i = place zT yT i' -> i = i'.
Proof.
  destruct i as [[a b] c], i' as [[a' b'] c']. simpl. intros E; inversion E.
  repeat f_equal; lia.
Qed.

Lemma visits_nodup : NoDup visits.
Proof.
  unfold visits. apply NoDup_flat_map.
  - apply seq_NoDup.
  - intros zT _. apply NoDup_flat_map.
    + apply seq_NoDup.
    + intros yT _. apply FinFun.Injective_map_NoDup.
      * intros i i' E. eapply place_inj; eauto.
      * eapply Permutation_NoDup; [apply Permutation_sym, Hsched|apply iters_nodup].
    + intros a b x _ _ Hx Hy. apply in_map_iff in Hx, Hy.
      destruct Hx as ([[z1 y1] x1] & <- & H1), Hy as ([[z2 y2] x2] & E & H2).
      apply (Permutation_in _ (Hsched _ _)) in H1, H2. apply in_iters in H1, H2.
      simpl in E. inversion E.
      assert (E' : a * bSizeY + y1 = b * bSizeY + y2) by lia.
      apply FolderProofs.digits2 in E'; tauto.
  - intros a b x _ _ Hx Hy. apply in_flat_map in Hx, Hy.
    destruct Hx as (yT & _ & Hx), Hy as (yT' & _ & Hy). apply in_map_iff in Hx, Hy.
    destruct Hx as ([[z1 y1] x1] & <- & H1), Hy as ([[z2 y2] x2] & E & H2).
    apply (Permutation_in _ (Hsched _ _)) in H1, H2. apply in_iters in H1, H2.
    simpl in E. inversion E.
    assert (E' : a * bSizeZ + z1 = b * bSizeZ + z2) by lia.
    apply FolderProofs.digits2 in E'; tauto.
Qed.

Lemma ceil_block n b q : 0 < b -> q < n -> q / b < (n + b - 1) / b.
Proof.
  intros Hb Hq. pose proof (Nat.div_mod q b ltac:(lia)) as E.
  pose proof (Nat.mod_upper_bound q b ltac:(lia)).
  assert (q / b + 1 <= (n + b - 1) / b); [|lia].
  apply Nat.div_le_lower_bound; [lia|]. rewrite Nat.mul_add_distr_l. lia.
Qed.

Lemma visits_in z y x : In (z, y, x) (filter okv visits) <-> z0 <= z < zF /\ y < kYC g /\ x < g_n1 g.
Proof.
  rewrite filter_In. unfold okv. rewrite negb_true_iff, orb_false_iff, !Nat.leb_gt. split.
  - intros (H & Hy & Hz). unfold visits in H. apply in_flat_map in H.
    destruct H as (zT & _ & H). apply in_flat_map in H. destruct H as (yT & _ & H).
    apply in_map_iff in H. destruct H as ([[z1 y1] x1] & E & H1).
    apply (Permutation_in _ (Hsched _ _)) in H1. apply in_iters in H1. inversion E. lia.
  - intros (Hz & Hy & Hx). split; [|lia].
    unfold visits. apply in_flat_map. exists ((z - z0) / bSizeZ). split.
    { apply in_seq. split; [apply Nat.le_0_l|]. simpl. apply ceil_block; lia. }
    apply in_flat_map. exists (y / bSizeY). split.
    { apply in_seq. split; [apply Nat.le_0_l|]. simpl. apply ceil_block; lia. }
    apply in_map_iff. exists ((z - z0) mod bSizeZ, y mod bSizeY, x). split.
    + simpl. pose proof (Nat.div_mod (z - z0) bSizeZ ltac:(lia)).
      pose proof (Nat.div_mod y bSizeY ltac:(lia)). repeat f_equal; lia.
    + apply (Permutation_in _ (Permutation_sym (Hsched _ _))). apply in_iters.
      pose proof (Nat.mod_upper_bound (z - z0) bSizeZ ltac:(lia)).
      pose proof (Nat.mod_upper_bound y bSizeY ltac:(lia)). auto.
Qed.

Lemma fold_left_filter {S B} (f : B -> bool) (stp : S -> B -> S) l s :
  (forall s b, f b = false -> stp s b = s) -> fold_left stp (filter f l) s = fold_left stp l s.
Proof.
  intros H. revert s. induction l as [|b l IH]; intros s; simpl; auto.
  destruct (f b) eqn:E; simpl; [apply IH|rewrite H by auto; apply IH].
Qed.

Lemma fold_left_ext_in {S B} (s1 s2 : S -> B -> S) l s :
  (forall s b, In b l -> s1 s b = s2 s b) -> fold_left s1 l s = fold_left s2 l s.
Proof.
  revert s. induction l as [|b l IH]; intros s H; simpl; auto.
  rewrite H by (simpl; auto). apply IH. intros; apply H; simpl; auto.
Qed.

Lemma blocked_visits {S} (body : nat -> nat -> nat -> S -> S) st :
  (forall z y x st, (kYC g <=? y) || (zF <=? z) = true -> body z y x st = st) ->
  blocked g bSizeY bSizeZ sched z0 zF body st =
  fold_left (fun st p => let '(z, y, x) := p in body z y (x * g_w g) st) (filter okv visits) st.
Proof.
  intros Hb. rewrite fold_left_filter.
  - unfold blocked. fold zM bY.
    unfold visits. rewrite fold_left_flat_map. unfold for_loop at 1.
    apply fold_left_ext_in. intros s zT _. rewrite fold_left_flat_map. unfold for_loop.
    apply fold_left_ext_in. intros s' yT _. rewrite fold_left_map.
    apply fold_left_ext_in. intros s'' [[zz yy] xi] _. reflexivity.
  - intros s [[z y] x] H. unfold okv in H. rewrite negb_false_iff in H. apply Hb; auto.
Qed.

Definition avp (p : nat * nat * nat) := let '(z, y, x) := p in vaddr g z y x - g_n2 g * g_Ng g.
Definition amp (p : nat * nat * nat) := let '(z, y, x) := p in vaddr g z y x.

(** Anything of the form of a blocked pointwise update acts site by site. *)
Lemma pstep_sites (r : nat * nat * nat -> nat -> A -> A -> A * A) v m2 : g_Ng g <= z0 ->
  let st := fold_left (pstep (g_w g) avp amp r) (filter okv visits) (v, m2) in
  (forall x yC k z, x < g_n1 g -> yC < kYC g -> k < g_w g -> z0 <= z < zF ->
     let y := yC + k * kYC g in
     let q := r (z, yC, x) k (v (cell g x y (z - g_Ng g))) (m2 (cell g x y z)) in
     fst st (cell g x y (z - g_Ng g)) = fst q /\ snd st (cell g x y z) = snd q) /\
  (forall j, (forall z, z0 <= z < zF -> ~ (z - g_Ng g) * g_n2 g <= j < (z - g_Ng g) * g_n2 g + g_n2 g) -> fst st j = v j) /\
  (forall j, (forall z, z0 <= z < zF -> ~ z * g_n2 g <= j < z * g_n2 g + g_n2 g) -> snd st j = m2 j).
Proof.
  intros Hz0.
  assert (HA : forall z y x k, g_Ng g <= z -> y < kYC g -> k < g_w g -> avp (z, y, x) + k = cell g x (y + k * kYC g) (z - g_Ng g)).
  { intros. unfold avp. rewrite vaddr_sub by auto. apply vaddr_cell; auto. }
  assert (HM : forall z y x k, y < kYC g -> k < g_w g -> amp (z, y, x) + k = cell g x (y + k * kYC g) z).
  { intros. unfold amp. apply vaddr_cell; auto. }
  destruct (pstep_fold (g_w g) avp amp r (filter okv visits) v m2) as (H1 & H2 & H3).
  - apply NoDup_filter, visits_nodup.
  - intros [[z y] x] [[z' y'] x'] k k' Hp Hq Hk Hk' E.
    apply visits_in in Hp, Hq. unfold avp in E. rewrite !vaddr_sub in E by (auto; lia).
    apply vaddr_inj in E; try tauto. destruct E as (E & -> & -> & _).
    assert (z = z') by lia. subst; reflexivity.
  - intros [[z y] x] [[z' y'] x'] k k' Hp Hq Hk Hk' E.
    apply visits_in in Hp, Hq. unfold amp in E.
    apply vaddr_inj in E; try tauto. destruct E as (-> & -> & -> & _). reflexivity.
  - cbv zeta. set (st := fold_left (pstep (g_w g) avp amp r) (filter okv visits) (v, m2)) in *.
    assert (Hcell : forall x y z, x < g_n1 g -> y < g_n1 g -> z * g_n2 g <= cell g x y z < z * g_n2 g + g_n2 g).
    { intros x y z Hx Hy. unfold cell.
      pose proof (FolderProofs.vector_pos_lt g Hwf x y Hx Hy). lia. }
    split; [|split].
    + intros x yC k z Hx HyC Hk Hz.
      assert (Hin : In (z, yC, x) (filter okv visits)) by (apply visits_in; lia).
      destruct (H1 (z, yC, x) k Hin Hk) as [J1 J2].
      rewrite <- (HA z yC x k), <- (HM z yC x k) by (auto; lia).
      rewrite J1, J2. auto.
    + intros j Hj. apply H2. intros [[z y] x] k Hin Hk E.
      apply visits_in in Hin. destruct Hin as (Hz & Hy & Hx).
      rewrite HA in E by (auto; lia). apply (Hj z Hz). rewrite E. apply Hcell; auto.
      apply lane_lt; auto.
    + intros j Hj. apply H3. intros [[z y] x] k Hin Hk E.
      apply visits_in in Hin. destruct Hin as (Hz & Hy & Hx).
      rewrite HM in E by auto. apply (Hj z Hz). rewrite E. apply Hcell; auto.
      apply lane_lt; auto.
Qed.

Definition rp (F : pointfun A) (m : nat -> A) (p : nat * nat * nat) (k : nat) (vel old : A) : A * A :=
  let '(z, y, x) := p in
  F (vload m (vaddr g z y x) k) (fun nv d => nbr g m (x * g_w g) y (vaddr g z y x) nv d k) vel.

Lemma kernel_pstep F (m : nat -> A) st : 0 < g_n1 g ->
  kernel g F bSizeY bSizeZ sched (z0 * g_n2 g) (zF * g_n2 g) m st =
  if zF <? z0 then st else fold_left (pstep (g_w g) avp amp (rp F m)) (filter okv visits) st.
Proof.
  intros Hn. pose proof (n2_pos g Hn). unfold kernel. fold (g_n2 g).
  rewrite !Nat.div_mul, ltb_mul by lia. destruct (zF <? z0); auto.
  rewrite blocked_visits.
  - apply fold_left_ext_in. intros [v m2] [[z y] x] Hin.
    apply visits_in in Hin. unfold kernel_point, pstep.
    replace ((kYC g <=? y) || (zF <=? z)) with false.
    2:{ symmetry. rewrite orb_false_iff, !Nat.leb_gt. lia. }
    reflexivity.
  - intros z y x [v m2] E. unfold kernel_point. rewrite E. reflexivity.
Qed.

Lemma kernel_effect F (m v m2 : nat -> A) : g_Ng g <= z0 -> uses_Ng g F -> 2 * g_Ng g <= kYC g ->
  let st := kernel g F bSizeY bSizeZ sched (z0 * g_n2 g) (zF * g_n2 g) m (v, m2) in
  (forall x y z, x < g_n1 g -> y < g_n1 g -> z0 <= z < zF ->
     fst st (cell g x y (z - g_Ng g)) = fst (point_result g F m v x y z) /\
     snd st (cell g x y z) = snd (point_result g F m v x y z)) /\
  (forall j, (forall z, z0 <= z < zF -> ~ (z - g_Ng g) * g_n2 g <= j < (z - g_Ng g) * g_n2 g + g_n2 g) -> fst st j = v j) /\
  (forall j, (forall z, z0 <= z < zF -> ~ z * g_n2 g <= j < z * g_n2 g + g_n2 g) -> snd st j = m2 j).
Proof.
  intros Hz0 HF HNg.
  assert (Hn : 0 < g_n1 g) by (apply n1_pos; auto; destruct Hwf; lia).
  cbv zeta. rewrite kernel_pstep by auto.
  destruct (zF <? z0) eqn:Ez.
  { apply Nat.ltb_lt in Ez. simpl. split; [intros; lia|auto]. }
  destruct (pstep_sites (rp F m) v m2 Hz0) as (H1 & H2 & H3).
  split; [|split; auto].
  intros x y z Hx Hy Hz. destruct (lane_of g Hwf y Hy) as (yC & k & HyC & Hk & ->).
  destruct (H1 x yC k z Hx HyC Hk Hz) as [J1 J2].
  match goal with |- _ = fst ?q /\ _ => match type of J1 with _ = fst ?q' => assert (E : q' = q) end end.
  { unfold rp, point_result. unfold vload. rewrite vaddr_cell by auto.
    apply HF. intros n d Hnd. apply nbr_spec; auto; try lia. }
  rewrite J1, J2, E. auto.
Qed.

(** Without any assumption on the stencil: what is written depends on the site only. *)
Lemma kernel_raw F (m v m2 : nat -> A) : g_Ng g <= z0 -> 0 < g_n1 g ->
  let st := kernel g F bSizeY bSizeZ sched (z0 * g_n2 g) (zF * g_n2 g) m (v, m2) in
  (forall x yC k z, x < g_n1 g -> yC < kYC g -> k < g_w g -> z0 <= z < zF ->
     let y := yC + k * kYC g in
     let q := rp F m (z, yC, x) k (v (cell g x y (z - g_Ng g))) (m2 (cell g x y z)) in
     fst st (cell g x y (z - g_Ng g)) = fst q /\ snd st (cell g x y z) = snd q) /\
  (forall j, (forall z, z0 <= z < zF -> ~ (z - g_Ng g) * g_n2 g <= j < (z - g_Ng g) * g_n2 g + g_n2 g) -> fst st j = v j) /\
  (forall j, (forall z, z0 <= z < zF -> ~ z * g_n2 g <= j < z * g_n2 g + g_n2 g) -> snd st j = m2 j).
Proof.
  intros Hz0 Hn. cbv zeta. rewrite kernel_pstep by auto.
  destruct (zF <? z0) eqn:Ez.
  { apply Nat.ltb_lt in Ez. simpl. split; [intros; lia|auto]. }
  apply (pstep_sites (rp F m) v m2 Hz0).
Qed.

Lemma drift_effect (D : A -> A -> A) (v m : nat -> A) : g_Ng g = z0 -> 0 < g_n1 g ->
  let st := drift g D bSizeY bSizeZ sched (z0 * g_n2 g) (zF * g_n2 g) (v, m) in
  (forall j, fst st j = v j) /\
  (forall x y z, x < g_n1 g -> y < g_n1 g -> z0 <= z < zF ->
     snd st (cell g x y z) = D (m (cell g x y z)) (v (cell g x y (z - g_Ng g)))) /\
  (forall j, (forall z, z0 <= z < zF -> ~ z * g_n2 g <= j < z * g_n2 g + g_n2 g) -> snd st j = m j).
Proof.
  intros Hz0 Hn. pose proof (n2_pos g Hn). cbv zeta.
  unfold drift. fold (g_n2 g). rewrite !Nat.div_mul by lia.
  rewrite blocked_visits.
  2:{ intros z y x [v0 m0] E. unfold drift_point. rewrite E. reflexivity. }
  set (r := fun (p : nat * nat * nat) (k : nat) (vel old : A) => (vel, D old vel)).
  (* the fold with the velocity left alone, against the one rewriting it *)
  assert (E : forall l v0 m0 m1,
     (forall p, In p l -> In p (filter okv visits)) -> (forall j, m0 j = m1 j) ->
     let a := fold_left (fun st p => let '(z, y, x) := p in
                drift_point g D (z0 * g_n2 g) zF z y (x * g_w g) st) l (v, m0) in
     (forall j, v0 j = v j) ->
     let b := fold_left (pstep (g_w g) avp amp r) l (v0, m1) in
     fst a = v /\ (forall j, snd a j = snd b j)).
  { induction l as [|[[z y] x] l IH]; intros v0 m0 m1 Hl Hm; cbv zeta; intros Hv.
    - simpl. auto.
    - cbn [fold_left]. assert (Hin := Hl _ (or_introl eq_refl)). apply visits_in in Hin.
      assert (Ed : drift_point g D (z0 * g_n2 g) zF z y (x * g_w g) (v, m0) =
                   (v, vstore m0 (vaddr g z y x) (g_w g) (fun k =>
                      D (vload m0 (vaddr g z y x) k) (vload v (vaddr g z y x - z0 * g_n2 g) k)))).
      { unfold drift_point. replace ((kYC g <=? y) || (zF <=? z)) with false; [reflexivity|].
        symmetry. rewrite orb_false_iff, !Nat.leb_gt. lia. }
      rewrite Ed. apply IH.
      + intros p Hp. apply Hl. simpl; auto.
      + intros j. unfold vstore, vload. cbn [amp avp r fst snd].
        destruct ((vaddr g z y x <=? j) && (j <? vaddr g z y x + g_w g)); auto.
        rewrite Hm, Hv. rewrite <- Hz0, (Nat.mul_comm (g_Ng g)). reflexivity.
      + intros j. unfold vstore. cbn [r fst].
        destruct ((avp (z, y, x) <=? j) && (j <? avp (z, y, x) + g_w g)) eqn:Ej; auto.
        apply andb_true_iff in Ej. destruct Ej as [Ej _]. apply Nat.leb_le in Ej.
        rewrite <- Hv. f_equal. lia. }
  destruct (E (filter okv visits) v m m ltac:(auto) ltac:(auto) ltac:(auto)) as [Ev Em]. clear E.
  destruct (pstep_sites r v m ltac:(lia)) as (H1 & _ & H3).
  split; [|split].
  - intros j. now rewrite Ev.
  - intros x y z Hx Hy Hz. destruct (lane_of g Hwf y Hy) as (yC & k & HyC & Hk & ->).
    rewrite Em. destruct (H1 x yC k z Hx HyC Hk Hz) as [_ J2]. rewrite J2. reflexivity.
  - intros j Hj. rewrite Em. apply H3; auto.
Qed.

End Blocks.
