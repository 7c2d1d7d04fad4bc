(** Proofs about a time step on all ranks. *)
From Coq Require Import List Arith Lia Bool Permutation.
From Verif Require Import Base FolderModel FolderSpec KernelModel KernelSpec KernelProofs GhostModel GhostSpec GhostProofs EvolveModel EvolveSpec.
From Verif Require FolderProofs.
Import ListNotations.
Ltac Zify.zify_post_hook ::= idtac.

Lemma point_result_ext {A} g (F : pointfun A) m v m' v' x y z :
  uses_Ng g F -> 0 < g_n1 g -> g_Ng g <= z -> x < g_n1 g -> y < g_n1 g ->
  (forall a b c, a < g_n1 g -> b < g_n1 g -> z - g_Ng g <= c <= z + g_Ng g -> m (cell g a b c) = m' (cell g a b c)) ->
  v (cell g x y (z - g_Ng g)) = v' (cell g x y (z - g_Ng g)) ->
  point_result g F m v x y z = point_result g F m' v' x y z.
Proof.
  intros HF Hn Hz Hx Hy Hm Hv. unfold point_result. rewrite Hv, Hm by lia.
  apply HF. intros k d Hk. unfold val, site_nbr.
  destruct d; apply Hm; try lia; try (apply Nat.mod_upper_bound; lia).
Qed.

Section Rank.
Context {A : Type}.
Variable g : geom.
Hypothesis Hwf : wf_geom g.
Hypothesis HY : 2 * g_Ng g <= kYC g.
Variable F : pointfun A.
Hypothesis HF : uses_Ng g F.
Variable e : env A.
Variable r : nat.
Hypothesis Hb : forall k, 0 < e_bY e r k /\ 0 < e_bZ e r k.
Hypothesis Hs : forall k zT yT, Permutation (e_sched e r k zT yT) (block_iters g (e_bY e r k) (e_bZ e r k)).

Let n2 := g_n2 g.
Let Ng := g_Ng g.
Let Lz := g_Lz g.

Lemma Hn1 : 0 < g_n1 g.
Proof using Hwf HY. apply n1_pos; auto. destruct Hwf as (_ & _ & H). clear - HY H. lia. Qed.

Lemma cell_range x y z : x < g_n1 g -> y < g_n1 g -> z * g_n2 g <= cell g x y z < z * g_n2 g + g_n2 g.
Proof.
  intros Hx Hy. unfold cell. pose proof (FolderProofs.vector_pos_lt g Hwf x y Hx Hy). lia.
Qed.

Lemma cell_not_slice x y z z' : x < g_n1 g -> y < g_n1 g -> z <> z' ->
  ~ z' * g_n2 g <= cell g x y z < z' * g_n2 g + g_n2 g.
Proof.
  intros Hx Hy Hz H. pose proof (cell_range x y z Hx Hy) as R.
  destruct (lt_eq_lt_dec z z') as [[L|L]|L]; try lia.
  - assert ((z + 1) * g_n2 g <= z' * g_n2 g) by (apply Nat.mul_le_mono_r; lia). lia.
  - assert ((z' + 1) * g_n2 g <= z * g_n2 g) by (apply Nat.mul_le_mono_r; lia). lia.
Qed.

(** One kernel call in terms of sites. *)
Lemma kcall_sites k z0 zF m v m2 : Ng <= z0 ->
  let st := kcall g F e r k (z0 * n2) (zF * n2) m (v, m2) in
  (forall x y z, x < g_n1 g -> y < g_n1 g -> Ng <= z ->
     (z0 <= z < zF ->
        fst st (cell g x y (z - Ng)) = fst (point_result g F m v x y z) /\
        snd st (cell g x y z) = snd (point_result g F m v x y z)) /\
     (~ z0 <= z < zF ->
        fst st (cell g x y (z - Ng)) = v (cell g x y (z - Ng)) /\
        snd st (cell g x y z) = m2 (cell g x y z))).
Proof.
  intros Hz0. cbv zeta. unfold kcall.
  destruct (kernel_effect g Hwf (e_bY e r k) (e_bZ e r k) (e_sched e r k)
     ltac:(apply Hb) ltac:(apply Hb) (Hs k) z0 zF F m v m2 Hz0 HF HY) as (H1 & H2 & H3).
  intros x y z Hx Hy Hz. split.
  - intros Hr. apply H1; auto.
  - intros Hr. split.
    + apply H2. intros z' Hz'. apply cell_not_slice; auto. unfold Ng in *. lia.
    + apply H3. intros z' Hz'. apply cell_not_slice; auto. lia.
Qed.

(** The three calls of a pass update every owned site once, from the values before
    the pass, as if the ghosts had been there from the start. *)
Lemma pass_sites m m' v d :
  2 * Ng <= Lz \/ Lz = Ng ->
  (forall x y z, x < g_n1 g -> y < g_n1 g -> Ng <= z < Ng + Lz -> m' (cell g x y z) = m (cell g x y z)) ->
  let st := kcall g F e r 0 (2 * (Ng * n2)) (Lz * n2) (in_flight g e r m) (v, d) in
  let st := kcall g F e r 1 (Ng * n2) (2 * (Ng * n2)) m' st in
  let st := if Ng * n2 <? Lz * n2 then kcall g F e r 2 (Lz * n2) (Lz * n2 + Ng * n2) m' st else st in
  forall x y z, x < g_n1 g -> y < g_n1 g -> Ng <= z < Ng + Lz ->
    fst st (cell g x y (z - Ng)) = fst (point_result g F m' v x y z) /\
    snd st (cell g x y z) = snd (point_result g F m' v x y z).
Proof.
  intros HL Hm. cbv zeta.
  replace (2 * (Ng * n2)) with ((2 * Ng) * n2) by lia.
  replace (Lz * n2 + Ng * n2) with ((Lz + Ng) * n2) by lia.
  rewrite (ltb_mul Ng Lz n2) by (apply (n2_pos g Hn1)).
  set (mf := in_flight g e r m).
  assert (Hmf : forall x y z, x < g_n1 g -> y < g_n1 g -> Ng <= z < Ng + Lz -> mf (cell g x y z) = m' (cell g x y z)).
  { intros x y z Hx Hy Hz. rewrite Hm by auto. unfold mf, in_flight.
    pose proof (cell_range x y z Hx Hy).
    assert (Ng * g_n2 g <= z * g_n2 g) by (apply Nat.mul_le_mono_r; lia).
    assert ((z + 1) * g_n2 g <= (Ng + Lz) * g_n2 g) by (apply Nat.mul_le_mono_r; lia).
    replace (cell g x y z <? g_Ng g * g_n2 g) with false by (symmetry; apply Nat.ltb_ge; fold Ng; lia).
    replace ((g_Ng g + g_Lz g) * g_n2 g <=? cell g x y z) with false by (symmetry; apply Nat.leb_gt; fold Ng Lz; lia).
    reflexivity. }
  pose proof (kcall_sites 0 (2 * Ng) Lz mf v d ltac:(lia)) as K0. cbv zeta in K0.
  set (st0 := kcall g F e r 0 (2 * Ng * n2) (Lz * n2) mf (v, d)) in *.
  destruct st0 as [v0 d0]. cbn [fst snd] in K0.
  pose proof (kcall_sites 1 Ng (2 * Ng) m' v0 d0 ltac:(lia)) as K1. cbv zeta in K1.
  set (st1 := kcall g F e r 1 (Ng * n2) (2 * Ng * n2) m' (v0, d0)) in *.
  destruct st1 as [v1 d1]. cbn [fst snd] in K1.
  pose proof (kcall_sites 2 Lz (Lz + Ng) m' v1 d1 ltac:(lia)) as K2. cbv zeta in K2.
  set (st2 := kcall g F e r 2 (Lz * n2) ((Lz + Ng) * n2) m' (v1, d1)) in *.
  destruct st2 as [v2 d2]. cbn [fst snd] in K2.
  intros x y z Hx Hy Hz.
  specialize (K0 x y z Hx Hy ltac:(lia)). specialize (K1 x y z Hx Hy ltac:(lia)).
  specialize (K2 x y z Hx Hy ltac:(lia)).
  assert (E0 : 2 * Ng <= z < Lz -> point_result g F mf v x y z = point_result g F m' v x y z).
  { intros Hr. apply point_result_ext; auto using Hn1; try (fold Ng; lia).
    intros a b c Ha Hb' Hc. apply Hmf; auto. fold Ng in Hc. lia. }
  assert (E1 : forall w w', w (cell g x y (z - Ng)) = w' (cell g x y (z - Ng)) ->
     point_result g F m' w x y z = point_result g F m' w' x y z).
  { intros. apply point_result_ext; auto using Hn1; fold Ng; lia. }
  destruct (Ng <? Lz) eqn:EL; [apply Nat.ltb_lt in EL|apply Nat.ltb_ge in EL]; cbn [fst snd].
  - destruct (le_lt_dec Lz z) as [C|C].
    + destruct (proj1 K2 ltac:(lia)) as [-> ->].
      rewrite (E1 v1 v). { auto. }
      destruct (proj2 K1 ltac:(lia)) as [-> _]. destruct (proj2 K0 ltac:(lia)) as [-> _]. auto.
    + destruct (proj2 K2 ltac:(lia)) as [-> ->].
      destruct (le_lt_dec (2 * Ng) z) as [C2|C2].
      * destruct (proj2 K1 ltac:(lia)) as [-> ->]. destruct (proj1 K0 ltac:(lia)) as [-> ->].
        rewrite E0 by lia. auto.
      * destruct (proj1 K1 ltac:(lia)) as [-> ->]. rewrite (E1 v0 v). { auto. }
        destruct (proj2 K0 ltac:(lia)) as [-> _]. auto.
  - destruct (proj1 K1 ltac:(lia)) as [-> ->]. rewrite (E1 v0 v). { auto. }
    destruct (proj2 K0 ltac:(lia)) as [-> _]. auto.
Qed.

Lemma kcall_frame k z0 zF m v m2 : Ng <= z0 ->
  let st := kcall g F e r k (z0 * n2) (zF * n2) m (v, m2) in
  forall x y z, x < g_n1 g -> y < g_n1 g -> ~ z0 <= z < zF ->
     (Ng <= z -> fst st (cell g x y (z - Ng)) = v (cell g x y (z - Ng))) /\
     snd st (cell g x y z) = m2 (cell g x y z).
Proof.
  intros Hz0. cbv zeta. unfold kcall.
  destruct (kernel_effect g Hwf (e_bY e r k) (e_bZ e r k) (e_sched e r k)
     ltac:(apply Hb) ltac:(apply Hb) (Hs k) z0 zF F m v m2 Hz0 HF HY) as (H1 & H2 & H3).
  intros x y z Hx Hy Hr. split.
  - intros Hz. apply H2. intros z' Hz'. apply cell_not_slice; auto. unfold Ng in *. lia.
  - apply H3. intros z' Hz'. apply cell_not_slice; auto. lia.
Qed.

Lemma pass_frame m m' v d : Ng <= Lz ->
  let st := kcall g F e r 0 (2 * (Ng * n2)) (Lz * n2) (in_flight g e r m) (v, d) in
  let st := kcall g F e r 1 (Ng * n2) (2 * (Ng * n2)) m' st in
  let st := if Ng * n2 <? Lz * n2 then kcall g F e r 2 (Lz * n2) (Lz * n2 + Ng * n2) m' st else st in
  forall x y z, x < g_n1 g -> y < g_n1 g -> z < Ng \/ Ng + Lz <= z ->
    (Ng <= z -> fst st (cell g x y (z - Ng)) = v (cell g x y (z - Ng))) /\
    snd st (cell g x y z) = d (cell g x y z).
Proof.
  intros HLN. cbv zeta.
  replace (2 * (Ng * n2)) with ((2 * Ng) * n2) by lia.
  replace (Lz * n2 + Ng * n2) with ((Lz + Ng) * n2) by lia.
  intros x y z Hx Hy Hz.
  pose proof (kcall_frame 0 (2 * Ng) Lz (in_flight g e r m) v d ltac:(lia) x y z Hx Hy ltac:(lia)) as [A0 B0].
  destruct (kcall g F e r 0 _ _ _ _) as [v0 d0]. cbn [fst snd] in A0, B0.
  pose proof (kcall_frame 1 Ng (2 * Ng) m' v0 d0 ltac:(lia) x y z Hx Hy ltac:(lia)) as [A1 B1].
  destruct (kcall g F e r 1 _ _ _ _) as [v1 d1]. cbn [fst snd] in A1, B1.
  destruct (Ng * n2 <? Lz * n2).
  - pose proof (kcall_frame 2 Lz (Lz + Ng) m' v1 d1 ltac:(lia) x y z Hx Hy ltac:(lia)) as [A2 B2].
    split; [intros H; rewrite A2, A1, A0; auto|rewrite B2, B1, B0; auto].
  - cbn [fst snd]. split; [intros H; rewrite A1, A0; auto|rewrite B1, B0; auto].
Qed.

End Rank.

Section All.
Context {A : Type}.
Variable c : comm.
Variable n : nat.
Variable g : geom.
Hypothesis Hgood : good_slab n g.
Hypothesis Hc : 0 < c_chunk c.

Let T := n * g_Lz g.

Lemma good_wf : wf_geom g. Proof. apply Hgood. Qed.
Lemma good_Y : 2 * g_Ng g <= kYC g. Proof. apply Hgood. Qed.
Lemma good_LN : g_Ng g <= g_Lz g. Proof. destruct Hgood as (_ & _ & _ & H). lia. Qed.
Lemma good_n1 : 0 < g_n1 g. Proof. apply Hn1; [apply good_wf|apply good_Y]. Qed.
Lemma good_n : 0 < n. Proof. apply Hgood. Qed.
Lemma good_Lz : 0 < g_Lz g.
Proof. pose proof good_LN. destruct good_wf as (_ & _ & ?). lia. Qed.

(** After the exchange, slice j of the slab of rank r holds slice r*Lz + j - Ng of
    the periodic box. *)
Lemma arrived_slab (e : env A) (m : nat -> nat -> A) (M : box A) :
  wf_env c n g e ->
  (forall r x y z, r < n -> x < g_n1 g -> y < g_n1 g -> z < g_Lz g ->
     m r (cell g x y (g_Ng g + z)) = M x y (r * g_Lz g + z)) ->
  forall r x y j, r < n -> x < g_n1 g -> y < g_n1 g -> j < g_Lz g + 2 * g_Ng g ->
    arrived e m r (cell g x y j) = M x y ((r * g_Lz g + j + T - g_Ng g) mod T).
Proof.
  intros He Hm r x y j Hr Hx Hy Hj.
  destruct He as ((l & Hl & HP) & _ & _).
  pose proof good_LN as HLN. pose proof good_Lz as HLz. pose proof good_n as Hn.
  pose proof (exchange_ok (c_max c) n (g_n2 g) (g_Ng g) (g_Lz g) (g_Ng g) _ l (e_order e)
     (fun l : bloc => m (fst l) (snd l)) Hn (le_n _) HLN
     (chunks1_covers (c_chunk c) (g_Ng g * g_n2 g) Hc) Hl HP) as [G1 G2].
  unfold arrived.
  pose proof (FolderProofs.vector_pos_lt g good_wf x y Hx Hy) as Hv.
  assert (Hcell : forall z, (r, cell g x y z) = slab (g_n2 g) r z (vector_pos g x y)) by reflexivity.
  assert (HT : g_Lz g <= T) by (unfold T; nia).
  assert (HrT : r * g_Lz g + g_Lz g <= T).
  { unfold T. replace (r * g_Lz g + g_Lz g) with ((r + 1) * g_Lz g) by lia. apply Nat.mul_le_mono_r; lia. }
  destruct (lt_dec j (g_Ng g)) as [C|C]; [|destruct (lt_dec j (g_Ng g + g_Lz g)) as [C2|C2]].
  - destruct (G1 r j (vector_pos g x y) Hr C Hv) as [E _].
    replace (g_Ng g - g_Ng g + j) with j in E by lia. rewrite Hcell, E.
    set (p := if r =? 0 then n - 1 else r - 1).
    replace (g_Ng g + g_Lz g - g_Ng g + j) with (g_Ng g + (g_Lz g - g_Ng g + j)) by lia.
    unfold slab. cbn [fst snd]. fold (cell g x y (g_Ng g + (g_Lz g - g_Ng g + j))).
    rewrite Hm; auto; [|unfold p; destruct (r =? 0); lia|lia].
    f_equal. unfold p. destruct (r =? 0) eqn:E0.
    + apply Nat.eqb_eq in E0. subst r. rewrite Nat.mod_small by lia.
      unfold T. assert ((n - 1) * g_Lz g + g_Lz g = n * g_Lz g) by nia.
      revert H HT HLN C. unfold T. generalize ((n - 1) * g_Lz g) (n * g_Lz g). intros; lia.
    + apply Nat.eqb_neq in E0.
      assert (Er : (r - 1) * g_Lz g + g_Lz g = r * g_Lz g) by nia.
      assert (Er' : g_Lz g <= r * g_Lz g) by (revert Er; generalize ((r - 1) * g_Lz g); intros; lia).
      replace (r * g_Lz g + j + T - g_Ng g) with ((r * g_Lz g + j - g_Ng g) + 1 * T) by (clear Er; lia).
      rewrite Nat.mod_add by (clear Er; lia). rewrite Nat.mod_small by (clear Er; lia).
      revert Er HLN C. generalize ((r - 1) * g_Lz g) (r * g_Lz g). intros; lia.
  - rewrite G2.
    + cbn [fst snd]. replace j with (g_Ng g + (j - g_Ng g)) at 1 by lia. rewrite Hm by (auto; lia).
      f_equal. replace (r * g_Lz g + j + T - g_Ng g) with ((r * g_Lz g + (j - g_Ng g)) + 1 * T) by lia.
      rewrite Nat.mod_add by lia. rewrite Nat.mod_small by lia. reflexivity.
    + intros r' z i Hr' Hz Hi. unfold slab, cell. split; intros E; inversion E as [[E1 E2]]; subst r';
      apply FolderProofs.digits2 in E2; auto; lia.
  - destruct (G1 r (j - g_Ng g - g_Lz g) (vector_pos g x y) Hr ltac:(lia) Hv) as [_ E].
    replace (g_Ng g + g_Lz g + (j - g_Ng g - g_Lz g)) with j in E by lia. rewrite Hcell, E.
    set (p := if r =? n - 1 then 0 else r + 1).
    unfold slab. cbn [fst snd]. fold (cell g x y (g_Ng g + (j - g_Ng g - g_Lz g))).
    rewrite Hm; auto; [|unfold p; destruct (r =? n - 1) eqn:Ex; [lia|apply Nat.eqb_neq in Ex; lia]|lia].
    f_equal. unfold p. destruct (r =? n - 1) eqn:E0.
    + apply Nat.eqb_eq in E0. 
      assert (HrT' : r * g_Lz g + g_Lz g = T) by (unfold T; subst r; nia).
      replace (r * g_Lz g + j + T - g_Ng g) with ((j - g_Ng g - g_Lz g) + 2 * T) by lia.
      rewrite Nat.mod_add by lia. rewrite Nat.mod_small by lia. lia.
    + apply Nat.eqb_neq in E0.
      assert (HrT' : r * g_Lz g + 2 * g_Lz g <= T).
      { unfold T. replace (r * g_Lz g + 2 * g_Lz g) with ((r + 2) * g_Lz g) by lia. apply Nat.mul_le_mono_r; lia. }
      replace (r * g_Lz g + j + T - g_Ng g) with ((r * g_Lz g + j - g_Ng g) + 1 * T) by lia.
      rewrite Nat.mod_add by lia. rewrite Nat.mod_small by lia. lia.
Qed.

Lemma arrived_owned (e : env A) (m : nat -> nat -> A) :
  wf_env c n g e ->
  forall r x y z, r < n -> x < g_n1 g -> y < g_n1 g -> g_Ng g <= z < g_Ng g + g_Lz g ->
    arrived e m r (cell g x y z) = m r (cell g x y z).
Proof.
  intros He r x y z Hr Hx Hy Hz.
  destruct He as ((l & Hl & HP) & _ & _).
  pose proof good_LN as HLN. pose proof good_n as Hn.
  pose proof (exchange_ok (c_max c) n (g_n2 g) (g_Ng g) (g_Lz g) (g_Ng g) _ l (e_order e)
     (fun l : bloc => m (fst l) (snd l)) Hn (le_n _) HLN
     (chunks1_covers (c_chunk c) (g_Ng g * g_n2 g) Hc) Hl HP) as [G1 G2].
  pose proof (FolderProofs.vector_pos_lt g good_wf x y Hx Hy) as Hv.
  unfold arrived. rewrite G2; [reflexivity|].
  intros r' z' i Hr' Hz' Hi. unfold slab, cell. split; intros E; inversion E as [[E1 E2]]; subst r';
    apply FolderProofs.digits2 in E2; auto; lia.
Qed.

Lemma pass_box (F : pointfun A) (e : env A) (m v d : nat -> nat -> A) (M V : box A) :
  uses_Ng g F -> wf_env c n g e -> holds n g (M, V) (Sys m v d) ->
  let s' := pass g F e m v d in
  holds n g (box_update (g_n1 g) T F (M, V)) (Sys (sm2 s') (sv s') (sm s')) /\
  holds n g (box_kick (g_n1 g) T F (M, V)) s'.
Proof.
  intros HF He Hh. cbv zeta.
  pose proof good_LN as HLN. pose proof good_Lz as HLz. pose proof good_n as Hn. pose proof good_n1 as Hn1'.
  assert (HHm : forall r x y z, r < n -> x < g_n1 g -> y < g_n1 g -> z < g_Lz g ->
     m r (cell g x y (g_Ng g + z)) = M x y (r * g_Lz g + z)) by (intros r x y z ? ? ? ?; apply (Hh r x y z); auto).
  pose proof (arrived_slab e m M He HHm) as Harr.
  assert (Hown : forall r x y z, r < n -> x < g_n1 g -> y < g_n1 g -> z < g_Lz g ->
     arrived e m r (cell g x y (g_Ng g + z)) = M x y (r * g_Lz g + z)).
  { intros r x y z Hr Hx Hy Hz. rewrite Harr by (auto; lia). f_equal.
    assert (HrT : r * g_Lz g + g_Lz g <= T).
    { unfold T. replace (r * g_Lz g + g_Lz g) with ((r + 1) * g_Lz g) by lia. apply Nat.mul_le_mono_r; lia. }
    replace (r * g_Lz g + (g_Ng g + z) + T - g_Ng g) with (r * g_Lz g + z + 1 * T) by lia.
    rewrite Nat.mod_add by lia. apply Nat.mod_small; lia. }
  assert (HR : forall r x y z, r < n -> x < g_n1 g -> y < g_n1 g -> z < g_Lz g ->
     point_result g F (arrived e m r) (v r) x y (g_Ng g + z) =
     F (M x y (r * g_Lz g + z)) (box_nbr (g_n1 g) T M x y (r * g_Lz g + z)) (V x y (r * g_Lz g + z))).
  { intros r x y z Hr Hx Hy Hz. unfold point_result.
    replace (g_Ng g + z - g_Ng g) with z by lia.
    pose proof (proj2 (Hh r x y z Hr Hx Hy Hz)) as Hv. cbn [sv snd] in Hv. rewrite Hv.
    rewrite Hown by auto. apply HF. intros k dd Hk. unfold val, site_nbr, box_nbr.
    assert (HrT : r * g_Lz g + g_Lz g <= T).
    { unfold T. replace (r * g_Lz g + g_Lz g) with ((r + 1) * g_Lz g) by lia. apply Nat.mul_le_mono_r; lia. }
    destruct dd; try (apply Hown; auto; apply Nat.mod_upper_bound; lia).
    - rewrite Harr by (auto; lia). f_equal.
      replace (r * g_Lz g + (g_Ng g + z + k) + T - g_Ng g) with (r * g_Lz g + z + k + 1 * T) by lia.
      apply Nat.mod_add; lia.
    - rewrite Harr by (auto; lia). f_equal. f_equal. lia. }
  destruct He as (He1 & He2 & He3).
  assert (HP : forall r x y z, r < n -> x < g_n1 g -> y < g_n1 g -> z < g_Lz g ->
     sv (pass g F e m v d) r (cell g x y z) = fst (point_result g F (arrived e m r) (v r) x y (g_Ng g + z)) /\
     sm2 (pass g F e m v d) r (cell g x y (g_Ng g + z)) = snd (point_result g F (arrived e m r) (v r) x y (g_Ng g + z))).
  { intros r x y z Hr Hx Hy Hz. unfold pass. cbn [sv sm2].
    pose proof (pass_sites g good_wf good_Y F HF e r (He2 r) (He3 r) (m r) (arrived e m r) (v r) (d r)) as K.
    cbv zeta in K. specialize (K ltac:(destruct Hgood as (_ & _ & _ & HH); exact HH)).
    assert (K1 : forall x0 y0 z0, x0 < g_n1 g -> y0 < g_n1 g -> g_Ng g <= z0 < g_Ng g + g_Lz g ->
       arrived e m r (cell g x0 y0 z0) = m r (cell g x0 y0 z0)).
    { intros a b0 z0 Ha Hb Hz0. replace z0 with (g_Ng g + (z0 - g_Ng g)) by lia.
      rewrite Hown, HHm by (auto; lia). reflexivity. }
    specialize (K K1 x y (g_Ng g + z) Hx Hy ltac:(lia)).
    replace (g_Ng g + z - g_Ng g) with z in K by lia. exact K. }
  split.
  - intros r x y z Hr Hx Hy Hz. cbn [sm sv box_update fst snd].
    destruct (HP r x y z Hr Hx Hy Hz) as [P1 P2]. rewrite P1, P2, HR by auto. auto.
  - intros r x y z Hr Hx Hy Hz. cbn [box_kick fst snd].
    destruct (HP r x y z Hr Hx Hy Hz) as [P1 _]. split.
    + unfold pass. cbn [sm]. apply Hown; auto.
    + rewrite P1, HR by auto. reflexivity.
Qed.

Lemma drift_box (D : A -> A -> A) (e : env A) (s : sys A) (MV : box A * box A) :
  wf_env c n g e -> holds n g MV s -> holds n g (box_drift D MV) (first_drift g D e s).
Proof.
  destruct MV as [M V]. intros (_ & He2 & He3) Hh r x y z Hr Hx Hy Hz.
  unfold first_drift. cbn [sm sv].
  replace (g_Lz g * g_n2 g + g_Ng g * g_n2 g) with ((g_Lz g + g_Ng g) * g_n2 g) by lia.
  destruct (drift_effect g good_wf (e_bY e r 0) (e_bZ e r 0) (e_sched e r 0)
     ltac:(apply He2) ltac:(apply He2) (He3 r 0) (g_Ng g) (g_Lz g + g_Ng g) D (sv s r) (sm s r) eq_refl good_n1) as (D1 & D2 & _).
  destruct (Hh r x y z Hr Hx Hy Hz) as [H1 H2].
  rewrite D1, D2 by (auto; lia). replace (g_Ng g + z - g_Ng g) with z by lia.
  rewrite H1, H2. cbn [box_drift fst snd]. auto.
Qed.

Lemma stages_box (stages : list ((pointfun A * env A) * (pointfun A * env A))) :
  forall (s : sys A) (MV : box A * box A),
  (forall p, In p stages -> uses_Ng g (fst (fst p)) /\ wf_env c n g (snd (fst p)) /\
                            uses_Ng g (fst (snd p)) /\ wf_env c n g (snd (snd p))) ->
  holds n g MV s ->
  holds n g (fold_left (fun s p => box_update (g_n1 g) T (snd p) (box_update (g_n1 g) T (fst p) s))
               (map (fun p => (fst (fst p), fst (snd p))) stages) MV)
            (fold_left (fun s p => two_stages g p s) stages s).
Proof.
  induction stages as [|[[F1 e1] [F2 e2]] l IH]; intros s MV Hp Hh; [exact Hh|].
  cbn [map fold_left fst snd].
  destruct (Hp _ (or_introl eq_refl)) as (U1 & W1 & U2 & W2). cbn [fst snd] in *.
  apply IH. { intros; apply Hp; simpl; auto. }
  destruct MV as [M V].
  destruct (pass_box F1 e1 (sm s) (sv s) (sm2 s) M V U1 W1) as [B1 _]. { intros ? ? ? ? ? ? ? ?; apply Hh; auto. }
  set (s1 := pass g F1 e1 (sm s) (sv s) (sm2 s)) in *.
  destruct (box_update (g_n1 g) T F1 (M, V)) as [M1 V1].
  destruct (pass_box F2 e2 (sm2 s1) (sv s1) (sm s1) M1 V1 U2 W2 B1) as [B2 _].
  exact B2.
Qed.

Lemma run_box first stages last (s : sys A) (MV : box A * box A) :
  (forall D e, first = Some (D, e) -> wf_env c n g e) ->
  (forall p, In p stages -> uses_Ng g (fst (fst p)) /\ wf_env c n g (snd (fst p)) /\
                            uses_Ng g (fst (snd p)) /\ wf_env c n g (snd (snd p))) ->
  (forall F e, last = Some (F, e) -> uses_Ng g F /\ wf_env c n g e) ->
  holds n g MV s ->
  holds n g (box_run (g_n1 g) T (option_map fst first) (map (fun p => (fst (fst p), fst (snd p))) stages)
                     (option_map fst last) MV)
            (runCpu g first stages last s).
Proof.
  intros Hf Hst Hl Hh. unfold runCpu, box_run.
  assert (H1 : holds n g (match option_map fst first with Some D => box_drift D MV | None => MV end)
                         (match first with Some (D, e) => first_drift g D e s | None => s end)).
  { destruct first as [[D e]|]; cbn [option_map fst]; auto. apply drift_box; eauto. }
  pose proof (stages_box stages _ _ Hst H1) as H2.
  destruct last as [[F e]|]; cbn [option_map fst]; auto.
  destruct (Hl F e eq_refl) as [U W]. unfold last_kick. cbn [fst snd].
  match goal with |- holds _ _ (box_kick _ _ _ ?mv) (pass _ _ _ (sm ?t) _ _) => set (MV' := mv) in *; set (s' := t) in * end.
  destruct MV' as [M V]. apply pass_box; auto.
Qed.

End All.
