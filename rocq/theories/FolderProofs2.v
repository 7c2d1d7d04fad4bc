(** Proofs about slice extraction, m2 folding and sequences of folder requests. *)
From Coq Require Import List Arith Lia Bool ZArith.
From Coq Require Import ZifyBool ZifyNat.
From Verif Require Import Base FolderModel FolderSpec FolderProofs.
Import ListNotations.
Ltac Zify.zify_post_hook ::= Z.div_mod_to_equations.

(** One destination array. *)
Lemma shuffle1_spec {A} a b c (o d : nat -> nat -> nat -> nat)
      (A1 B1 : arr) (d1 s1 no nd : nat) (m : mem A) :
  (forall i j k, i < a -> j < b -> k < c -> o i j k < no) ->
  (forall i j k, i < a -> j < b -> k < c -> d i j k < nd) ->
  (forall i j k i' j' k', i < a -> j < b -> k < c -> i' < a -> j' < b -> k' < c ->
     d i j k = d i' j' k' -> i = i' /\ j = j' /\ k = k') ->
  (forall x y, x < no -> y < nd -> (A1, d1 + y) <> (B1, s1 + x)) ->
  let m' := copies (nest3 a b c (fun i j k =>
              [((A1, d1 + d i j k), (B1, s1 + o i j k))])) m in
  (forall i j k, i < a -> j < b -> k < c -> m' (A1, d1 + d i j k) = m (B1, s1 + o i j k)) /\
  (forall l, (forall i, i < nd -> l <> (A1, d1 + i)) -> m' l = m l).
Proof.
  intros Ho Hd Hinj Z11 m'.
  match goal with m' := copies ?L _ |- _ => set (L0 := L) in m' end.
  assert (Hin : forall p q, In (p, q) L0 <-> exists i j k, i < a /\ j < b /\ k < c /\
     p = (A1, d1 + d i j k) /\ q = (B1, s1 + o i j k)).
  { intros p q. unfold L0. rewrite in_nest3. split.
    - intros (i & j & k & Hi & Hj & Hk & H). exists i, j, k. repeat split; auto;
      simpl in H; destruct H as [H|[]]; inversion H; auto.
    - intros (i & j & k & Hi & Hj & Hk & -> & ->). exists i, j, k. repeat split; auto.
      simpl; auto. }
  destruct (copies_spec L0 m) as [H1 H2].
  - intros p q p' q' I1 I2. apply Hin in I1. apply Hin in I2.
    destruct I1 as (i & j & k & Hi & Hj & Hk & -> & ->).
    destruct I2 as (i' & j' & k' & Hi' & Hj' & Hk' & -> & ->).
    apply not_eq_sym; auto.
  - intros p q q' I1 I2. apply Hin in I1. apply Hin in I2.
    destruct I1 as (i & j & k & Hi & Hj & Hk & -> & ->).
    destruct I2 as (i' & j' & k' & Hi' & Hj' & Hk' & E & ->).
    inversion E. destruct (Hinj i j k i' j' k') as (-> & -> & ->); auto; lia.
  - split.
    + intros i j k Hi Hj Hk. apply H1. apply Hin. exists i, j, k; auto 10.
    + intros l Hl. apply H2. intros q I. apply Hin in I.
      destruct I as (i & j & k & Hi & Hj & Hk & -> & _).
      apply (Hl (d i j k)); auto.
Qed.

Section Slices.
Context {A : Type}.
Variable g : geom.
Hypothesis Hwf : wf_geom g.

Lemma pl_o_inj i j k i' j' k' :
  i < g_n1 g / g_w g -> j < g_n1 g -> k < g_w g ->
  i' < g_n1 g / g_w g -> j' < g_n1 g -> k' < g_w g ->
  pl_o g i j k = pl_o g i' j' k' -> i = i' /\ j = j' /\ k = k'.
Proof. intros. unfold pl_o in *. eapply plain_dst_inj; eauto. Qed.

Lemma vec_o_inj i j k i' j' k' :
  i < g_n1 g / g_w g -> j < g_n1 g -> k < g_w g ->
  i' < g_n1 g / g_w g -> j' < g_n1 g -> k' < g_w g ->
  vec_o g i j k = vec_o g i' j' k' -> i = i' /\ j = j' /\ k = k'.
Proof. intros. unfold vec_o in *. eapply vec_dst_inj; eauto. Qed.

(** *** xy slices of m and v *)
Lemma slice2D_correct (s : fstate A) sZ :
  f_gpu s = false -> sZ < g_Lz g ->
  let s' := unfoldField2D g sZ s in
  (forall x y, x < g_n1 g -> y < g_n1 g ->
     f_mem s' (ArrM, plain_pos g x y) = m_at g s x y sZ /\
     f_mem s' (ArrM, mBack g + plain_pos g x y) = v_at g s x y sZ) /\
  (forall l, ~ scratch g l -> f_mem s' l = f_mem s l) /\
  f_folded s' = f_folded s /\ f_m2folded s' = f_m2folded s /\ f_gpu s' = f_gpu s.
Proof.
  intros Hg Hz s'. subst s'. unfold unfoldField2D.
  assert (HB : mBack g = mStart g + g_n3 g) by reflexivity.
  pose proof (wf_start g Hwf) as Hst. pose proof (slice_in g sZ Hz) as Hin3.
  assert (Hlt : (g_Lz g <? sZ) = false) by (apply Nat.ltb_ge; lia).
  rewrite Hlt, Hg. simpl.
  destruct (f_folded s) eqn:Ef; simpl.
  - (* folded *)
    rewrite Hg.
    replace (for_loop _ _ (f_mem s)) with
      (copies (nest3 (g_n1 g / g_w g) (g_n1 g) (g_w g) (fun i j k =>
         [((ArrM, 0 + pl_o g i j k), (ArrM, mStart g + sZ * g_n2 g + vec_o g i j k));
          ((ArrM, mBack g + pl_o g i j k), (ArrV, vStart g + sZ * g_n2 g + vec_o g i j k))])) (f_mem s)).
    2:{ symmetry. apply nest3_loops. intros i j k m0. rewrite copies_two. unfold vec_o, pl_o.
        rewrite !Nat.add_assoc. reflexivity. }
    destruct (shuffle_spec (g_n1 g / g_w g) (g_n1 g) (g_w g) (vec_o g) (pl_o g)
                ArrM ArrM ArrM ArrV 0 (mStart g + sZ * g_n2 g) (mBack g) (vStart g + sZ * g_n2 g)
                (g_n2 g) (g_n2 g) (f_mem s)) as [S1 S2];
      auto using vec_o_lt, pl_o_lt, pl_o_inj.
    { intros x y Hx Hy E. inversion E. lia. }
    { intros x y Hx Hy E. inversion E. }
    { intros x y Hx Hy E. inversion E. lia. }
    { intros x y Hx Hy E. inversion E. }
    { intros x y Hx Hy E. inversion E. lia. }
    split; [|split; auto].
    + intros x y Hx Hy. destruct (pos_exists g Hwf x y Hx Hy) as (H1 & H2 & Ev & Ep).
      unfold m_at, v_at. rewrite Ef. simpl site_pos. rewrite Ev, Ep.
      apply (S1 _ x _ H1 Hx H2).
    + intros l Hl. apply S2. intros i Hi. split; intros ->; apply Hl; exists i; auto.
  - (* unfolded *)
    rewrite Hg.
    set (ma := memcpy ArrM 0 ArrM (mStart g + g_n2 g * sZ) (g_n2 g) (f_mem s)).
    destruct (memcpy_spec ArrM 0 ArrM (mStart g + g_n2 g * sZ) (g_n2 g) (f_mem s)) as [Ma1 Ma2].
    { intros _. lia. }
    fold ma in Ma1, Ma2.
    destruct (memcpy_spec ArrM (mBack g) ArrV (vStart g + g_n2 g * sZ) (g_n2 g) ma) as [Mb1 Mb2].
    { discriminate. }
    split; [|split; auto].
    + intros x y Hx Hy. pose proof (plain_pos_lt g x y Hx Hy) as Hp.
      unfold m_at, v_at. rewrite Ef. simpl site_pos. split.
      * rewrite Mb2.
        -- change (plain_pos g x y) with (0 + plain_pos g x y) at 1. rewrite Ma1 by auto. f_equal. f_equal. lia.
        -- intros i Hi E. inversion E. lia.
      * rewrite Mb1 by auto. rewrite Ma2; [f_equal; f_equal; lia|]. intros; discriminate.
    + intros l Hl. rewrite Mb2; [apply Ma2|];
      intros i Hi ->; apply Hl; exists i; auto.
Qed.

(** *** yz slices *)
Definition scratch_yz (l : loc) : Prop :=
  exists i, i < g_Lz g * g_n1 g /\ (l = (ArrM, i) \/ l = (ArrM, mBack g + i)).

Lemma sliceYZ_correct (s : fstate A) sX :
  f_gpu s = false -> sX < g_n1 g -> g_Lz g <= g_Ng g * g_n1 g ->
  let s' := unfoldField2DYZ g sX s in
  (forall y z, y < g_n1 g -> z < g_Lz g ->
     f_mem s' (ArrM, z * g_n1 g + y) = m_at g s sX y z /\
     f_mem s' (ArrM, mBack g + (z * g_n1 g + y)) = v_at g s sX y z) /\
  (forall l, ~ scratch_yz l -> f_mem s' l = f_mem s l) /\
  f_folded s' = f_folded s /\ f_m2folded s' = f_m2folded s /\ f_gpu s' = f_gpu s.
Proof.
  intros Hg HX Hfit s'. subst s'. unfold unfoldField2DYZ.
  assert (HB : mBack g = mStart g + g_n3 g) by reflexivity.
  pose proof (wf_start g Hwf) as Hst.
  assert (HS : g_Lz g * g_n1 g <= mStart g) by (unfold mStart, g_n2; nia).
  assert (Hlt : (g_n1 g <? sX) = false) by (apply Nat.ltb_ge; lia).
  rewrite Hlt, Hg. simpl.
  pose proof (wf_n1 g Hwf) as Hn1.
  destruct (f_folded s) eqn:Ef; simpl; rewrite Hg.
  - set (o := fun i j k => k * g_n2 g + vec_o g i sX j).
    set (d := fun i j k => k * g_n1 g + (i + j * (g_n1 g / g_w g))).
    replace (for_loop _ _ (f_mem s)) with
      (copies (nest3 (g_n1 g / g_w g) (g_w g) (g_Lz g) (fun i j k =>
         [((ArrM, 0 + d i j k), (ArrM, mStart g + o i j k));
          ((ArrM, mBack g + d i j k), (ArrV, vStart g + o i j k))])) (f_mem s)).
    2:{ symmetry. apply nest3_loops. intros i j k m0. rewrite copies_two. unfold o, d, vec_o.
        rewrite !Nat.add_assoc. reflexivity. }
    assert (Hy : forall i j, i < g_n1 g / g_w g -> j < g_w g -> i + j * (g_n1 g / g_w g) < g_n1 g).
    { intros i j Hi Hj. rewrite Hn1 at 2.
      assert ((j + 1) * (g_n1 g / g_w g) <= g_w g * (g_n1 g / g_w g)) by (apply Nat.mul_le_mono_r; lia). lia. }
    destruct (shuffle_spec (g_n1 g / g_w g) (g_w g) (g_Lz g) o d
                ArrM ArrM ArrM ArrV 0 (mStart g) (mBack g) (vStart g)
                (g_n3 g) (g_Lz g * g_n1 g) (f_mem s)) as [S1 S2].
    { intros i j k Hi Hj Hk. unfold o. apply mult_slice; auto. apply vec_o_lt; auto. }
    { intros i j k Hi Hj Hk. unfold d. specialize (Hy i j Hi Hj). nia. }
    { intros i j k i' j' k' Hi Hj Hk Hi' Hj' Hk' E. unfold d in E.
      apply digits2 in E; auto. destruct E as [-> E].
      assert (E' : j * (g_n1 g / g_w g) + i = j' * (g_n1 g / g_w g) + i') by lia.
      apply digits2 in E'; auto. tauto. }
    { intros x y Hx Hy' E. inversion E. lia. }
    { intros x y Hx Hy' E. inversion E. }
    { intros x y Hx Hy' E. inversion E. lia. }
    { intros x y Hx Hy' E. inversion E. }
    { intros x y Hx Hy' E. inversion E. lia. }
    split; [|split; auto].
    + intros y z Hy' Hz. destruct (pos_exists g Hwf sX y HX Hy') as (H1 & H2 & Ev & Ep).
      specialize (S1 _ _ z H1 H2 Hz).
      unfold m_at, v_at. rewrite Ef. simpl site_pos. rewrite Ev.
      unfold o, d in S1. rewrite <- !Nat.add_assoc.
      replace (y mod (g_n1 g / g_w g) + y / (g_n1 g / g_w g) * (g_n1 g / g_w g)) with y in S1.
      2:{ rewrite (Nat.div_mod y (g_n1 g / g_w g)) at 1; [lia|]. lia. }
      exact S1.
    + intros l Hl. apply S2. intros i Hi. split; intros ->; apply Hl; exists i; auto.
  - set (o := fun i j (k : nat) => j * g_n2 g + i * g_n1 g + sX).
    set (d := fun i j (k : nat) => j * g_n1 g + i).
    replace (for_loop _ _ (f_mem s)) with
      (copies (nest3 (g_n1 g) (g_Lz g) 1 (fun i j k =>
         [((ArrM, 0 + d i j k), (ArrM, mStart g + o i j k));
          ((ArrM, mBack g + d i j k), (ArrV, vStart g + o i j k))])) (f_mem s)).
    2:{ symmetry.
        rewrite <- (nest3_loops (g_n1 g) (g_Lz g) 1 (fun i j k m =>
           let m' := upd m (ArrM, 0 + d i j k) (m (ArrM, mStart g + o i j k)) in
           upd m' (ArrM, mBack g + d i j k) (m' (ArrV, vStart g + o i j k)))).
        2:{ intros; apply copies_two. }
        reflexivity. }
    destruct (shuffle_spec (g_n1 g) (g_Lz g) 1 o d
                ArrM ArrM ArrM ArrV 0 (mStart g) (mBack g) (vStart g)
                (g_n3 g) (g_Lz g * g_n1 g) (f_mem s)) as [S1 S2].
    { intros i j k Hi Hj Hk. unfold o. rewrite <- Nat.add_assoc. apply mult_slice; auto. apply (plain_pos_lt g sX i); auto. }
    { intros i j k Hi Hj Hk. unfold d. nia. }
    { intros i j k i' j' k' Hi Hj Hk Hi' Hj' Hk' E. unfold d in E.
      apply digits2 in E; auto. destruct E as [-> ->]. repeat split; lia. }
    { intros x y Hx Hy' E. inversion E. lia. }
    { intros x y Hx Hy' E. inversion E. }
    { intros x y Hx Hy' E. inversion E. lia. }
    { intros x y Hx Hy' E. inversion E. }
    { intros x y Hx Hy' E. inversion E. lia. }
    split; [|split; auto].
    + intros y z Hy' Hz. specialize (S1 y z 0 Hy' Hz ltac:(lia)).
      unfold m_at, v_at. rewrite Ef. simpl site_pos.
      unfold o, d in S1. unfold plain_pos. rewrite !Nat.add_assoc in *. exact S1.
    + intros l Hl. apply S2. intros i Hi. split; intros ->; apply Hl; exists i; auto.
Qed.

(** *** m2 *)
Definition m2_slice_effect (d o : nat -> nat -> nat -> nat) (iz : nat) (m m' : mem A) : Prop :=
  (forall i j k, i < g_n1 g / g_w g -> j < g_n1 g -> k < g_w g ->
     m' (ArrM2, m2Start g + (iz * g_n2 g + d i j k)) = m (ArrM2, m2Start g + (iz * g_n2 g + o i j k))) /\
  (forall l, (forall i, i < g_n2 g -> l <> (ArrM, i)) ->
     (forall i, i < g_n2 g -> l <> (ArrM2, m2Start g + (iz * g_n2 g + i))) -> m' l = m l).

Lemma m2_slice_generic d o iz m :
  iz < g_Lz g ->
  (forall i j k, i < g_n1 g / g_w g -> j < g_n1 g -> k < g_w g -> o i j k < g_n2 g) ->
  (forall i j k, i < g_n1 g / g_w g -> j < g_n1 g -> k < g_w g -> d i j k < g_n2 g) ->
  (forall i j k i' j' k', i < g_n1 g / g_w g -> j < g_n1 g -> k < g_w g ->
     i' < g_n1 g / g_w g -> j' < g_n1 g -> k' < g_w g ->
     d i j k = d i' j' k' -> i = i' /\ j = j' /\ k = k') ->
  m2_slice_effect d o iz m
    (copies (nest3 (g_n1 g / g_w g) (g_n1 g) (g_w g) (fun i j k =>
       [((ArrM2, m2Start g + iz * g_n2 g + d i j k), (ArrM, 0 + o i j k))]))
          (memcpy ArrM 0 ArrM2 (m2Start g + g_n2 g * iz) (g_n2 g) m)).
Proof.
  intros Hiz Ho Hd Hinj.
  set (ma := memcpy ArrM 0 ArrM2 (m2Start g + g_n2 g * iz) (g_n2 g) m).
  destruct (memcpy_spec ArrM 0 ArrM2 (m2Start g + g_n2 g * iz) (g_n2 g) m) as [Ma1 Ma2].
  { discriminate. }
  fold ma in Ma1, Ma2.
  destruct (shuffle1_spec (g_n1 g / g_w g) (g_n1 g) (g_w g) o d ArrM2 ArrM
              (m2Start g + iz * g_n2 g) 0 (g_n2 g) (g_n2 g) ma) as [S1 S2]; auto.
  { intros x y Hx Hy E. discriminate. }
  split.
  - intros i j k Hi Hj Hk. rewrite Nat.add_assoc, S1 by auto.
    rewrite Ma1 by auto. f_equal. f_equal. lia.
  - intros l H1 H2. rewrite S2.
    + apply Ma2. auto.
    + intros i Hi. rewrite <- Nat.add_assoc. auto.
Qed.

Lemma m2_slices d o (body : nat -> mem A -> mem A) m k :
  (forall iz m, iz < g_Lz g -> m2_slice_effect d o iz m (body iz m)) ->
  (forall i j k, i < g_n1 g / g_w g -> j < g_n1 g -> k < g_w g -> o i j k < g_n2 g) ->
  (forall i j k, i < g_n1 g / g_w g -> j < g_n1 g -> k < g_w g -> d i j k < g_n2 g) ->
  k <= g_Lz g ->
  (forall z i j l, z < k -> i < g_n1 g / g_w g -> j < g_n1 g -> l < g_w g ->
     for_loop k body m (ArrM2, m2Start g + (z * g_n2 g + d i j l)) =
     m (ArrM2, m2Start g + (z * g_n2 g + o i j l))) /\
  (forall l, (forall i, i < g_n2 g -> l <> (ArrM, i)) ->
     (forall i, i < k * g_n2 g -> l <> (ArrM2, m2Start g + i)) ->
     for_loop k body m l = m l).
Proof.
  intros Hb Ho Hd Hk.
  apply (for_loop_inv (fun k m' =>
  (forall z i j l, z < k -> i < g_n1 g / g_w g -> j < g_n1 g -> l < g_w g ->
     m' (ArrM2, m2Start g + (z * g_n2 g + d i j l)) =
     m (ArrM2, m2Start g + (z * g_n2 g + o i j l))) /\
  (forall l, (forall i, i < g_n2 g -> l <> (ArrM, i)) ->
     (forall i, i < k * g_n2 g -> l <> (ArrM2, m2Start g + i)) ->
     m' l = m l))).
  - split; [intros; lia|reflexivity].
  - intros iz m' Hiz [IH1 IH2].
    destruct (Hb iz m' ltac:(lia)) as (E1 & E3).
    split.
    + intros z i j l Hz Hi Hj Hl. destruct (Nat.eq_dec z iz) as [->|Hne].
      * rewrite E1 by auto. pose proof (Ho i j l Hi Hj Hl). apply IH2.
        -- intros; discriminate.
        -- intros q Hq E; inversion E. nia.
      * rewrite <- (IH1 z i j l) by (auto; lia).
        pose proof (Hd i j l Hi Hj Hl).
        assert (z * g_n2 g + g_n2 g <= iz * g_n2 g) by nia.
        apply E3.
        -- intros; discriminate.
        -- intros q Hq E; inversion E. lia.
    + intros l H1 H2. rewrite E3; auto.
      * apply IH2; auto. intros i Hi. apply H2. nia.
      * intros i Hi. apply H2. nia.
Qed.

Lemma fold_m2_slice_effect iz m : iz < g_Lz g -> m2_slice_effect (vec_o g) (pl_o g) iz m (fold_m2_slice g iz m).
Proof.
  intros Hiz.
  replace (fold_m2_slice g iz m) with
    (copies (nest3 (g_n1 g / g_w g) (g_n1 g) (g_w g) (fun i j k =>
       [((ArrM2, m2Start g + iz * g_n2 g + vec_o g i j k), (ArrM, 0 + pl_o g i j k))]))
          (memcpy ArrM 0 ArrM2 (m2Start g + g_n2 g * iz) (g_n2 g) m)).
  - apply m2_slice_generic; auto using vec_o_lt, pl_o_lt, vec_o_inj.
  - unfold fold_m2_slice. symmetry. apply nest3_loops.
    intros i j k m0. rewrite copies_one. unfold vec_o, pl_o. rewrite !Nat.add_assoc. reflexivity.
Qed.

Lemma unfold_m2_slice_effect iz m : iz < g_Lz g -> m2_slice_effect (pl_o g) (vec_o g) iz m (unfold_m2_slice g iz m).
Proof.
  intros Hiz.
  replace (unfold_m2_slice g iz m) with
    (copies (nest3 (g_n1 g / g_w g) (g_n1 g) (g_w g) (fun i j k =>
       [((ArrM2, m2Start g + iz * g_n2 g + pl_o g i j k), (ArrM, 0 + vec_o g i j k))]))
          (memcpy ArrM 0 ArrM2 (m2Start g + g_n2 g * iz) (g_n2 g) m)).
  - apply m2_slice_generic; auto using vec_o_lt, pl_o_lt, pl_o_inj.
  - unfold unfold_m2_slice. symmetry. apply nest3_loops.
    intros i j k m0. rewrite copies_one. unfold vec_o, pl_o. rewrite !Nat.add_assoc. reflexivity.
Qed.

Lemma foldM2_sites (s : fstate A) x y z : site g x y z ->
  m2_at g (foldM2 g s) x y z = m2_at g s x y z.
Proof.
  intros (Hx & Hy & Hz). unfold foldM2.
  destruct (f_m2folded s) eqn:Ef; simpl; [auto|].
  destruct (f_gpu s) eqn:Eg; simpl; [auto|].
  destruct (m2_slices (vec_o g) (pl_o g) (fold_m2_slice g) (f_mem s) (g_Lz g)) as [H _];
    auto using vec_o_lt, pl_o_lt, fold_m2_slice_effect.
  destruct (pos_exists g Hwf x y Hx Hy) as (H1 & H2 & Ev & Ep).
  unfold m2_at. simpl. rewrite Ef. simpl. rewrite Ev, Ep, <- !Nat.add_assoc. auto.
Qed.

Lemma unfoldM2_sites (s : fstate A) x y z : site g x y z ->
  m2_at g (unfoldM2 g s) x y z = m2_at g s x y z.
Proof.
  intros (Hx & Hy & Hz). unfold unfoldM2.
  destruct (f_m2folded s) eqn:Ef; simpl; [|auto].
  destruct (f_gpu s) eqn:Eg; simpl; [auto|].
  destruct (m2_slices (pl_o g) (vec_o g) (unfold_m2_slice g) (f_mem s) (g_Lz g)) as [H _];
    auto using vec_o_lt, pl_o_lt, unfold_m2_slice_effect.
  destruct (pos_exists g Hwf x y Hx Hy) as (H1 & H2 & Ev & Ep).
  unfold m2_at. simpl. rewrite Ef. simpl. rewrite Ev, Ep, <- !Nat.add_assoc. auto.
Qed.

Definition owned_m2 (l : loc) : Prop := exists i, i < g_n3 g /\ l = (ArrM2, m2Start g + i).

Lemma foldM2_frame (s : fstate A) l : ~ scratch g l -> ~ owned_m2 l ->
  f_mem (foldM2 g s) l = f_mem s l.
Proof.
  intros H1 H2. unfold foldM2. destruct (f_m2folded s || f_gpu s); [auto|]. simpl.
  destruct (m2_slices (vec_o g) (pl_o g) (fold_m2_slice g) (f_mem s) (g_Lz g)) as [_ H];
    auto using vec_o_lt, pl_o_lt, fold_m2_slice_effect.
  apply H.
  - intros i Hi ->. apply H1. exists i; auto.
  - intros i Hi ->. apply H2. exists i. split; auto. unfold g_n3. lia.
Qed.

Lemma unfoldM2_frame (s : fstate A) l : ~ scratch g l -> ~ owned_m2 l ->
  f_mem (unfoldM2 g s) l = f_mem s l.
Proof.
  intros H1 H2. unfold unfoldM2. destruct (negb (f_m2folded s) || f_gpu s); [auto|]. simpl.
  destruct (m2_slices (pl_o g) (vec_o g) (unfold_m2_slice g) (f_mem s) (g_Lz g)) as [_ H];
    auto using vec_o_lt, pl_o_lt, unfold_m2_slice_effect.
  apply H.
  - intros i Hi ->. apply H1. exists i; auto.
  - intros i Hi ->. apply H2. exists i. split; auto. unfold g_n3. lia.
Qed.

Lemma slice2D_frame (s : fstate A) sZ l : sZ <= g_Lz g ->
  ~ scratch g l -> f_mem (unfoldField2D g sZ s) l = f_mem s l.
Proof.
  intros Hz Hl. destruct (f_gpu s) eqn:Hg.
  { unfold unfoldField2D. rewrite Hg, orb_true_r. reflexivity. }
  unfold unfoldField2D.
  destruct ((g_Lz g <? sZ) || f_gpu s); [reflexivity|].
  assert (HB : mBack g = mStart g + g_n3 g) by reflexivity.
  destruct (negb (f_folded s)); simpl.
  - rewrite !memcpy_copies. unfold copies. rewrite <- fold_left_app.
    match goal with |- fold_left _ ?L _ _ = _ => set (L0 := L) end.
    assert (HL : forall p q, In (p, q) L0 -> p <> l).
    { intros p q I. unfold L0 in I. apply in_app_or in I.
      destruct I as [I|I]; apply in_flat_map in I; destruct I as (i & Hi & [I|[]]);
        apply in_seq in Hi; inversion I; intros E; apply Hl; subst; exists i; split; auto; lia. }
    clearbody L0. generalize (f_mem s). induction L0 as [|[p q] L0 IH]; intros m; simpl; auto.
    rewrite IH. { apply upd_other. eapply HL; left; reflexivity. }
    intros p' q' I. eapply HL. right; eauto.
  - rewrite (nest3_loops _ _ _ _ (fun i j k =>
         [((ArrM, 0 + pl_o g i j k), (ArrM, mStart g + sZ * g_n2 g + vec_o g i j k));
          ((ArrM, mBack g + pl_o g i j k), (ArrV, vStart g + sZ * g_n2 g + vec_o g i j k))])).
    2:{ intros i j k m0. rewrite copies_two. unfold vec_o, pl_o. rewrite !Nat.add_assoc. reflexivity. }
    match goal with |- copies ?L _ _ = _ => set (L0 := L) end.
    assert (HL : forall p q, In (p, q) L0 -> p <> l).
    { intros p q I. unfold L0 in I. apply in_nest3 in I.
      destruct I as (i & j & k & Hi & Hj & Hk & I). pose proof (pl_o_lt g Hwf i j k Hi Hj Hk).
      simpl in I. destruct I as [I|[I|[]]]; inversion I; intros E; apply Hl; subst; eexists; split; eauto. }
    clearbody L0. generalize (f_mem s). unfold copies.
    induction L0 as [|[p q] L0 IH]; intros m; simpl; auto.
    rewrite IH. { apply upd_other. eapply HL; left; reflexivity. }
    intros p' q' I. eapply HL. right; eauto.
Qed.

Lemma sliceM2_frame (s : fstate A) sZ l :
  (forall i, i < g_n2 g -> l <> (ArrM2, i)) -> f_mem (unfoldM22D g sZ s) l = f_mem s l.
Proof.
  intros Hl. unfold unfoldM22D.
  destruct ((g_Lz g <? sZ) || f_gpu s); [reflexivity|].
  destruct (negb (f_m2folded s)); simpl.
  - rewrite !memcpy_copies. unfold copies.
    match goal with |- fold_left _ ?L _ _ = _ => set (L0 := L) end.
    assert (HL : forall p q, In (p, q) L0 -> p <> l).
    { intros p q I. unfold L0 in I.
      apply in_flat_map in I; destruct I as (i & Hi & [I|[]]).
        apply in_seq in Hi; inversion I; intros E. apply (Hl i); [lia|auto]. }
    clearbody L0. generalize (f_mem s). induction L0 as [|[p q] L0 IH]; intros m; simpl; auto.
    rewrite IH. { apply upd_other. eapply HL; left; reflexivity. }
    intros p' q' I. eapply HL. right; eauto.
  - rewrite (nest3_loops _ _ _ _ (fun i j k =>
         [((ArrM2, 0 + pl_o g i j k), (ArrM2, m2Start g + sZ * g_n2 g + vec_o g i j k))])).
    2:{ intros i j k m0. rewrite copies_one. unfold vec_o, pl_o. rewrite !Nat.add_assoc. reflexivity. }
    match goal with |- copies ?L _ _ = _ => set (L0 := L) end.
    assert (HL : forall p q, In (p, q) L0 -> p <> l).
    { intros p q I. unfold L0 in I. apply in_nest3 in I.
      destruct I as (i & j & k & Hi & Hj & Hk & I). pose proof (pl_o_lt g Hwf i j k Hi Hj Hk).
      simpl in I. destruct I as [I|[]]; inversion I; intros E; eapply Hl; eauto. }
    clearbody L0. generalize (f_mem s). unfold copies.
    induction L0 as [|[p q] L0 IH]; intros m; simpl; auto.
    rewrite IH. { apply upd_other. eapply HL; left; reflexivity. }
    intros p' q' I. eapply HL. right; eauto.
Qed.

(** m2 slice extraction. *)
Lemma sliceM2_correct (s : fstate A) sZ :
  f_gpu s = false -> sZ < g_Lz g ->
  forall x y, x < g_n1 g -> y < g_n1 g ->
     f_mem (unfoldM22D g sZ s) (ArrM2, plain_pos g x y) = m2_at g s x y sZ.
Proof.
  intros Hg Hz x y Hx Hy. unfold unfoldM22D.
  assert (Hst : g_n2 g <= m2Start g) by (exact (wf_start g Hwf)).
  assert (Hlt : (g_Lz g <? sZ) = false) by (apply Nat.ltb_ge; lia).
  rewrite Hlt, Hg. simpl. unfold m2_at.
  destruct (f_m2folded s) eqn:Ef; simpl.
  - rewrite (nest3_loops _ _ _ _ (fun i j k =>
         [((ArrM2, 0 + pl_o g i j k), (ArrM2, m2Start g + sZ * g_n2 g + vec_o g i j k))])).
    2:{ intros i j k m0. rewrite copies_one. unfold vec_o, pl_o. rewrite !Nat.add_assoc. reflexivity. }
    destruct (shuffle1_spec (g_n1 g / g_w g) (g_n1 g) (g_w g) (vec_o g) (pl_o g) ArrM2 ArrM2
                0 (m2Start g + sZ * g_n2 g) (g_n2 g) (g_n2 g) (f_mem s)) as [S1 _];
      auto using vec_o_lt, pl_o_lt, pl_o_inj.
    { intros a b Ha Hb E. inversion E. lia. }
    destruct (pos_exists g Hwf x y Hx Hy) as (H1 & H2 & Ev & Ep).
    rewrite Ev, Ep. apply (S1 _ x _ H1 Hx H2).
  - destruct (memcpy_spec ArrM2 0 ArrM2 (m2Start g + g_n2 g * sZ) (g_n2 g) (f_mem s)) as [Ma1 _].
    { intros _. lia. }
    change (plain_pos g x y) with (0 + plain_pos g x y) at 1.
    rewrite Ma1 by (apply plain_pos_lt; auto). f_equal. f_equal. lia.
Qed.

End Slices.

(** ** Sequences of requests *)

(** Requests that make sense for the grid: slice numbers accepted by the code and,
    for yz slices, a ghost zone large enough for the picture. *)
Definition ok_request (g : geom) (t : foldtype) : Prop :=
  match t with
  | UNFOLD_SLICEYZ x => x < g_n1 g /\ g_Lz g <= g_Ng g * g_n1 g
  | _ => True
  end.

Lemma folder_sites {A} (g : geom) (t : foldtype) (s : fstate A) x y z :
  wf_geom g -> ok_request g t -> site g x y z ->
  m_at g (folder g t s) x y z = m_at g s x y z /\
  v_at g (folder g t s) x y z = v_at g s x y z /\
  m2_at g (folder g t s) x y z = m2_at g s x y z.
Proof.
  intros Hwf Hok Hsite.
  assert (Hs := Hsite). destruct Hs as (Hx & Hy & Hz).
  assert (HB : mBack g = mStart g + g_n3 g) by reflexivity.
  pose proof (wf_start g Hwf) as Hst.
  assert (Hpos : forall b, site_pos g b x y < g_n2 g).
  { intros []; simpl; auto using vector_pos_lt, plain_pos_lt. }
  assert (Hin : forall b, z * g_n2 g + site_pos g b x y < g_n3 g) by (intros; apply mult_slice; auto).
  destruct t; simpl.
  - destruct (foldField_sites g Hwf s x y z Hsite) as [-> ->]. repeat split; auto.
    unfold m2_at. rewrite foldField_frame; auto.
    + replace (f_m2folded (foldField g s)) with (f_m2folded s); auto.
      unfold foldField. destruct (f_folded s || f_gpu s); reflexivity.
    + intros (i & Hi & [E|E]); inversion E.
    + intros (i & Hi & [E|E]); inversion E.
  - destruct (unfoldField_sites g Hwf s x y z Hsite) as [-> ->]. repeat split; auto.
    unfold m2_at. rewrite unfoldField_frame; auto.
    + replace (f_m2folded (unfoldField g s)) with (f_m2folded s); auto.
      unfold unfoldField. destruct (negb (f_folded s) || f_gpu s); reflexivity.
    + intros (i & Hi & [E|E]); inversion E.
    + intros (i & Hi & [E|E]); inversion E.
  - destruct (le_dec cZ (g_Lz g)) as [Hle|Hgt].
    2:{ unfold unfoldField2D. replace (g_Lz g <? cZ) with true; auto.
        symmetry; apply Nat.ltb_lt; lia. }
    assert (Ff : f_folded (unfoldField2D g cZ s) = f_folded s /\ f_m2folded (unfoldField2D g cZ s) = f_m2folded s).
    { unfold unfoldField2D. destruct (_ || f_gpu s); auto. destruct (negb _); auto. }
    destruct Ff as [F1 F2]. unfold m_at, v_at, m2_at. rewrite F1, F2.
    rewrite !slice2D_frame; auto.
    + intros (i & Hi & [E|E]); inversion E.
    + intros (i & Hi & [E|E]); inversion E.
    + intros (i & Hi & [E|E]); inversion E; specialize (Hin (f_folded s)); lia.
  - destruct Hok as [HX Hfit]. destruct (f_gpu s) eqn:Eg.
    { unfold unfoldField2DYZ. rewrite Eg, orb_true_r. auto. }
    destruct (sliceYZ_correct g Hwf s cX Eg HX Hfit) as (_ & Fr & F1 & F2 & _).
    assert (HS : g_Lz g * g_n1 g <= mStart g) by (unfold mStart, g_n2; nia).
    unfold m_at, v_at, m2_at. rewrite F1, F2. rewrite !Fr; auto.
    + intros (i & Hi & [E|E]); inversion E.
    + intros (i & Hi & [E|E]); inversion E.
    + intros (i & Hi & [E|E]); inversion E; specialize (Hin (f_folded s)); lia.
  - rewrite foldM2_sites; auto.
    assert (Ff : f_folded (foldM2 g s) = f_folded s).
    { unfold foldM2. destruct (_ || f_gpu s); auto. }
    unfold m_at, v_at. rewrite Ff. rewrite !foldM2_frame; auto.
    + intros (i & Hi & [E|E]); inversion E.
    + intros (i & Hi & E); inversion E.
    + apply own_not_scratch_m with (i := z * g_n2 g + site_pos g (f_folded s) x y) in Hwf; auto.
      rewrite Nat.add_assoc in Hwf; auto.
    + intros (i & Hi & E); inversion E.
  - rewrite unfoldM2_sites; auto.
    assert (Ff : f_folded (unfoldM2 g s) = f_folded s).
    { unfold unfoldM2. destruct (_ || f_gpu s); auto. }
    unfold m_at, v_at. rewrite Ff. rewrite !unfoldM2_frame; auto.
    + intros (i & Hi & [E|E]); inversion E.
    + intros (i & Hi & E); inversion E.
    + apply own_not_scratch_m with (i := z * g_n2 g + site_pos g (f_folded s) x y) in Hwf; auto.
      rewrite Nat.add_assoc in Hwf; auto.
    + intros (i & Hi & E); inversion E.
  - assert (Ff : f_folded (unfoldM22D g cZ s) = f_folded s /\ f_m2folded (unfoldM22D g cZ s) = f_m2folded s).
    { unfold unfoldM22D. destruct (_ || f_gpu s); auto. destruct (negb _); auto. }
    destruct Ff as [F1 F2]. unfold m_at, v_at, m2_at. rewrite F1, F2.
    rewrite !sliceM2_frame; auto.
    + intros i Hi E; inversion E. unfold m2Start, mStart in *. lia.
    + intros i Hi E; inversion E.
    + intros i Hi E; inversion E.
Qed.

Lemma folder_history {A} (g : geom) (l : list foldtype) (s : fstate A) x y z :
  wf_geom g -> (forall t, In t l -> ok_request g t) -> site g x y z ->
  let s' := fold_left (fun s t => folder g t s) l s in
  m_at g s' x y z = m_at g s x y z /\
  v_at g s' x y z = v_at g s x y z /\
  m2_at g s' x y z = m2_at g s x y z.
Proof.
  intros Hwf Hok Hsite. revert s Hok.
  induction l as [|t l IH]; intros s Hok; simpl; [auto|].
  destruct (IH (folder g t s)) as (E1 & E2 & E3); [intros; apply Hok; right; auto|].
  destruct (folder_sites g t s x y z Hwf) as (D1 & D2 & D3); auto.
  { apply Hok; left; auto. }
  simpl in *. rewrite E1, E2, E3. auto.
Qed.
