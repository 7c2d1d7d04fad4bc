(** Proofs about the folder model. *)
From Coq Require Import List Arith Lia Bool ZArith.
From Coq Require Import ZifyBool ZifyNat.
From Verif Require Import Base FolderModel FolderSpec.
Import ListNotations.
Ltac Zify.zify_post_hook ::= Z.div_mod_to_equations.

(** ** Index algebra *)

(** Mixed-radix digits are unique. *)
Lemma digits2 a b c a' b' : b < c -> b' < c -> a * c + b = a' * c + b' -> a = a' /\ b = b'.
Proof.
  intros Hb Hb' E.
  assert (a = a').
  { destruct (lt_eq_lt_dec a a') as [[H|H]|H]; auto; exfalso.
    - assert ((a + 1) * c <= a' * c) by (apply Nat.mul_le_mono_r; lia). nia.
    - assert ((a' + 1) * c <= a * c) by (apply Nat.mul_le_mono_r; lia). nia. }
  subst. split; auto; lia.
Qed.

Lemma vec_dst_inj n1 w iy ix sy iy' ix' sy' :
  ix < n1 -> sy < w -> ix' < n1 -> sy' < w ->
  iy * n1 * w + ix * w + sy = iy' * n1 * w + ix' * w + sy' ->
  iy = iy' /\ ix = ix' /\ sy = sy'.
Proof.
  intros H1 H2 H3 H4 E.
  assert (E' : (iy * n1 + ix) * w + sy = (iy' * n1 + ix') * w + sy') by lia.
  apply digits2 in E'; auto. destruct E' as [E' ->].
  apply digits2 in E'; auto. tauto.
Qed.

Lemma plain_dst_inj n1 K iy ix sy iy' ix' sy' :
  ix < n1 -> iy < K -> ix' < n1 -> iy' < K ->
  (iy + sy * K) * n1 + ix = (iy' + sy' * K) * n1 + ix' ->
  iy = iy' /\ ix = ix' /\ sy = sy'.
Proof.
  intros H1 H2 H3 H4 E. apply digits2 in E; auto. destruct E as [E ->].
  assert (E' : sy * K + iy = sy' * K + iy') by lia.
  apply digits2 in E'; auto. tauto.
Qed.

Lemma vec_dst_lt n1 w K iy ix sy :
  n1 = w * K -> iy < K -> ix < n1 -> sy < w -> iy * n1 * w + ix * w + sy < n1 * n1.
Proof.
  intros -> H1 H2 H3.
  assert (iy * (w * K) + ix < K * (w * K)).
  { assert ((iy + 1) * (w * K) <= K * (w * K)) by (apply Nat.mul_le_mono_r; lia). lia. }
  replace (w * K * (w * K)) with (K * (w * K) * w) by lia.
  assert ((iy * (w * K) + ix + 1) * w <= K * (w * K) * w) by (apply Nat.mul_le_mono_r; lia). lia.
Qed.

Lemma plain_dst_lt n1 w K iy ix sy :
  n1 = w * K -> iy < K -> ix < n1 -> sy < w -> (iy + sy * K) * n1 + ix < n1 * n1.
Proof.
  intros E H1 H2 H3.
  assert (iy + sy * K < n1).
  { rewrite E. assert ((sy + 1) * K <= w * K) by (apply Nat.mul_le_mono_r; lia). lia. }
  assert ((iy + sy * K + 1) * n1 <= n1 * n1) by (apply Nat.mul_le_mono_r; lia). lia.
Qed.

(** ** Loop nests as lists of copies *)

Definition nest3 (a b c : nat) (f : nat -> nat -> nat -> list (loc * loc)) : list (loc * loc) :=
  flat_map (fun i => flat_map (fun j => flat_map (fun k => f i j k) (seq 0 c)) (seq 0 b)) (seq 0 a).

Lemma in_nest3 a b c f p :
  In p (nest3 a b c f) <-> exists i j k, i < a /\ j < b /\ k < c /\ In p (f i j k).
Proof.
  unfold nest3. rewrite in_flat_map. split.
  - intros (i & Hi & H). apply in_flat_map in H. destruct H as (j & Hj & H).
    apply in_flat_map in H. destruct H as (k & Hk & H).
    apply in_seq in Hi. apply in_seq in Hj. apply in_seq in Hk.
    exists i, j, k. repeat split; auto; lia.
  - intros (i & j & k & Hi & Hj & Hk & H).
    exists i. rewrite in_seq. split; [lia|]. apply in_flat_map.
    exists j. rewrite in_seq. split; [lia|]. apply in_flat_map.
    exists k. rewrite in_seq. split; [lia|auto].
Qed.

Lemma nest3_loops {A} a b c (body : nat -> nat -> nat -> mem A -> mem A) f m :
  (forall i j k m, body i j k m = copies (f i j k) m) ->
  for_loop a (fun i => for_loop b (fun j => for_loop c (fun k m => body i j k m))) m =
  copies (nest3 a b c f) m.
Proof.
  intros H. unfold nest3. apply for_loop_copies. intros i m0 _.
  apply for_loop_copies. intros j m1 _. apply for_loop_copies. intros k m2 _. apply H.
Qed.

Lemma copies_two {A} (m : mem A) d1 s1 d2 s2 :
  (let m' := upd m d1 (m s1) in upd m' d2 (m' s2)) = copies [(d1, s1); (d2, s2)] m.
Proof. reflexivity. Qed.

Lemma copies_one {A} (m : mem A) d1 s1 : upd m d1 (m s1) = copies [(d1, s1)] m.
Proof. reflexivity. Qed.

(** Generic nest: for every (i,j,k) copy [s1 + o i j k -> d1 + d i j k] and
    [s2 + o -> d2 + d], destinations and sources in separate zones. *)
Lemma shuffle_spec {A} a b c (o d : nat -> nat -> nat -> nat)
      (A1 A2 B1 B2 : arr) (d1 s1 d2 s2 no nd : nat) (m : mem A) :
  (forall i j k, i < a -> j < b -> k < c -> o i j k < no) ->
  (forall i j k, i < a -> j < b -> k < c -> d i j k < nd) ->
  (forall i j k i' j' k', i < a -> j < b -> k < c -> i' < a -> j' < b -> k' < c ->
     d i j k = d i' j' k' -> i = i' /\ j = j' /\ k = k') ->
  (* zones: destinations D1, D2 of length nd, sources S1, S2 of length no *)
  (forall x y, x < no -> y < nd -> (A1, d1 + y) <> (B1, s1 + x)) ->
  (forall x y, x < no -> y < nd -> (A1, d1 + y) <> (B2, s2 + x)) ->
  (forall x y, x < no -> y < nd -> (A2, d2 + y) <> (B1, s1 + x)) ->
  (forall x y, x < no -> y < nd -> (A2, d2 + y) <> (B2, s2 + x)) ->
  (forall x y, x < nd -> y < nd -> (A1, d1 + x) <> (A2, d2 + y)) ->
  let m' := copies (nest3 a b c (fun i j k =>
              [((A1, d1 + d i j k), (B1, s1 + o i j k));
               ((A2, d2 + d i j k), (B2, s2 + o i j k))])) m in
  (forall i j k, i < a -> j < b -> k < c ->
      m' (A1, d1 + d i j k) = m (B1, s1 + o i j k) /\
      m' (A2, d2 + d i j k) = m (B2, s2 + o i j k)) /\
  (forall l, (forall i, i < nd -> l <> (A1, d1 + i) /\ l <> (A2, d2 + i)) -> m' l = m l).
Proof.
  intros Ho Hd Hinj Z11 Z12 Z21 Z22 ZD m'.
  match goal with m' := copies ?L _ |- _ => set (L0 := L) in m' end.
  assert (Hin : forall p q, In (p, q) L0 <-> exists i j k, i < a /\ j < b /\ k < c /\
     ((p = (A1, d1 + d i j k) /\ q = (B1, s1 + o i j k)) \/
      (p = (A2, d2 + d i j k) /\ q = (B2, s2 + o i j k)))).
  { intros p q. unfold L0. rewrite in_nest3. split.
    - intros (i & j & k & Hi & Hj & Hk & H). exists i, j, k. repeat split; auto.
      simpl in H. destruct H as [H|[H|[]]]; inversion H; auto.
    - intros (i & j & k & Hi & Hj & Hk & H). exists i, j, k. repeat split; auto.
      simpl. destruct H as [[-> ->]|[-> ->]]; auto. }
  destruct (copies_spec L0 m) as [H1 H2].
  - intros p q p' q' I1 I2. apply Hin in I1. apply Hin in I2.
    destruct I1 as (i & j & k & Hi & Hj & Hk & HH).
    destruct I2 as (i' & j' & k' & Hi' & Hj' & Hk' & HH').
    pose proof (Ho i j k Hi Hj Hk). pose proof (Hd i' j' k' Hi' Hj' Hk').
    destruct HH as [[-> ->]|[-> ->]]; destruct HH' as [[-> ->]|[-> ->]];
      apply not_eq_sym; auto.
  - intros p q q' I1 I2. apply Hin in I1. apply Hin in I2.
    destruct I1 as (i & j & k & Hi & Hj & Hk & HH).
    destruct I2 as (i' & j' & k' & Hi' & Hj' & Hk' & HH').
    pose proof (Hd i j k Hi Hj Hk). pose proof (Hd i' j' k' Hi' Hj' Hk').
    destruct HH as [[-> ->]|[-> ->]]; destruct HH' as [[E ->]|[E ->]].
    + inversion E. destruct (Hinj i j k i' j' k') as (-> & -> & ->); auto; lia.
    + exfalso. eapply ZD; [| |exact E]; auto.
    + exfalso. eapply ZD; [| |symmetry; exact E]; auto.
    + inversion E. destruct (Hinj i j k i' j' k') as (-> & -> & ->); auto; lia.
  - split.
    + intros i j k Hi Hj Hk. split; apply H1; apply Hin; exists i, j, k; auto 10.
    + intros l Hl. apply H2. intros q I. apply Hin in I.
      destruct I as (i & j & k & Hi & Hj & Hk & HH).
      pose proof (Hd i j k Hi Hj Hk) as Hlt. destruct (Hl _ Hlt) as [N1 N2].
      destruct HH as [[-> _]|[-> _]]; auto.
Qed.

(** ** One slice *)

Section Slice.
Context {A : Type}.
Variable g : geom.
Hypothesis Hwf : wf_geom g.

Let n1 := g_n1 g.
Let n2 := g_n2 g.
Let w := g_w g.
Let K := g_n1 g / g_w g.

Lemma wf_n1 : g_n1 g = g_w g * (g_n1 g / g_w g).
Proof.
  destruct Hwf as (H1 & H2 & _).
  pose proof (Nat.div_mod (g_n1 g) (g_w g) ltac:(lia)). lia.
Qed.

Lemma wf_start : g_n2 g <= mStart g.
Proof. destruct Hwf as (_ & _ & H). unfold mStart. nia. Qed.

Lemma slice_in iz : iz < g_Lz g -> g_n2 g * iz + g_n2 g <= g_n3 g.
Proof. intros H. unfold g_n3. nia. Qed.

Definition vec_o (iy ix sy : nat) := iy * g_n1 g * g_w g + ix * g_w g + sy.
Definition pl_o (iy ix sy : nat) := (iy + sy * (g_n1 g / g_w g)) * g_n1 g + ix.

Lemma vec_o_lt i j k : i < g_n1 g / g_w g -> j < g_n1 g -> k < g_w g -> vec_o i j k < g_n2 g.
Proof. intros. unfold vec_o, g_n2. eapply vec_dst_lt; eauto using wf_n1. Qed.
Lemma pl_o_lt i j k : i < g_n1 g / g_w g -> j < g_n1 g -> k < g_w g -> pl_o i j k < g_n2 g.
Proof. intros. unfold pl_o, g_n2. eapply plain_dst_lt; eauto using wf_n1. Qed.

(** What one pass over slice [iz] does, whatever the direction: [d], [o] are the
    destination and source positions inside the slice. *)
Definition slice_effect (d o : nat -> nat -> nat -> nat) (iz : nat) (m m' : mem A) : Prop :=
  (forall i j k, i < g_n1 g / g_w g -> j < g_n1 g -> k < g_w g ->
     m' (ArrM, mStart g + (iz * g_n2 g + d i j k)) = m (ArrM, mStart g + (iz * g_n2 g + o i j k)) /\
     m' (ArrV, vStart g + (iz * g_n2 g + d i j k)) = m (ArrV, vStart g + (iz * g_n2 g + o i j k))) /\
  (forall i, i < g_n2 g ->
     m' (ArrM, i) = m (ArrM, mStart g + (iz * g_n2 g + i)) /\
     m' (ArrM, mBack g + i) = m (ArrV, vStart g + (iz * g_n2 g + i))) /\
  (forall l, ~ scratch g l ->
     (forall i, i < g_n2 g -> l <> (ArrM, mStart g + (iz * g_n2 g + i)) /\
                              l <> (ArrV, vStart g + (iz * g_n2 g + i))) ->
     m' l = m l).

Lemma slice_generic d o iz m :
  iz < g_Lz g ->
  (forall i j k, i < g_n1 g / g_w g -> j < g_n1 g -> k < g_w g -> o i j k < g_n2 g) ->
  (forall i j k, i < g_n1 g / g_w g -> j < g_n1 g -> k < g_w g -> d i j k < g_n2 g) ->
  (forall i j k i' j' k', i < g_n1 g / g_w g -> j < g_n1 g -> k < g_w g ->
     i' < g_n1 g / g_w g -> j' < g_n1 g -> k' < g_w g ->
     d i j k = d i' j' k' -> i = i' /\ j = j' /\ k = k') ->
  slice_effect d o iz m
    (copies (nest3 (g_n1 g / g_w g) (g_n1 g) (g_w g) (fun i j k =>
       [((ArrM, mStart g + iz * g_n2 g + d i j k), (ArrM, 0 + o i j k));
        ((ArrV, vStart g + iz * g_n2 g + d i j k), (ArrM, mBack g + o i j k))]))
       (memcpy ArrM (mBack g) ArrV (vStart g + g_n2 g * iz) (g_n2 g)
          (memcpy ArrM 0 ArrM (mStart g + g_n2 g * iz) (g_n2 g) m))).
Proof.
  intros Hiz Ho Hd Hinj.
  pose proof wf_start as Hst. pose proof (slice_in iz Hiz) as Hin3.
  assert (HB : mBack g = mStart g + g_n3 g) by reflexivity.
  set (ma := memcpy ArrM 0 ArrM (mStart g + g_n2 g * iz) (g_n2 g) m).
  set (mb := memcpy ArrM (mBack g) ArrV (vStart g + g_n2 g * iz) (g_n2 g) ma).
  destruct (memcpy_spec ArrM 0 ArrM (mStart g + g_n2 g * iz) (g_n2 g) m) as [Ma1 Ma2].
  { intros _. lia. }
  fold ma in Ma1, Ma2.
  destruct (memcpy_spec ArrM (mBack g) ArrV (vStart g + g_n2 g * iz) (g_n2 g) ma) as [Mb1 Mb2].
  { discriminate. }
  fold mb in Mb1, Mb2.
  destruct (shuffle_spec (g_n1 g / g_w g) (g_n1 g) (g_w g) o d ArrM ArrV ArrM ArrM
              (mStart g + iz * g_n2 g) 0 (vStart g + iz * g_n2 g) (mBack g) (g_n2 g) (g_n2 g) mb)
    as [S1 S2]; auto.
  { intros x y Hx Hy E. inversion E. lia. }
  { intros x y Hx Hy E. inversion E. lia. }
  { intros x y Hx Hy E. discriminate. }
  { intros x y Hx Hy E. discriminate. }
  { intros x y Hx Hy E. discriminate. }
  set (m' := copies _ mb) in *.
  assert (Bm : forall i, i < g_n2 g -> mb (ArrM, i) = m (ArrM, mStart g + (iz * g_n2 g + i))).
  { intros i Hi. rewrite Mb2.
    - change i with (0 + i) at 1. rewrite Ma1 by auto. f_equal. f_equal. lia.
    - intros k Hk E. inversion E. lia. }
  assert (Bv : forall i, i < g_n2 g -> mb (ArrM, mBack g + i) = m (ArrV, vStart g + (iz * g_n2 g + i))).
  { intros i Hi. rewrite Mb1 by auto. rewrite Ma2.
    - f_equal. f_equal. lia.
    - intros k Hk E. discriminate. }
  assert (Bo : forall l, ~ scratch g l -> mb l = m l).
  { intros l Hl. rewrite Mb2.
    - apply Ma2. intros i Hi ->. apply Hl. exists i. auto.
    - intros i Hi ->. apply Hl. exists i. auto. }
  repeat split.
  - destruct (S1 i j k) as [E1 E2]; auto. rewrite Nat.add_assoc, E1. simpl.
    apply Bm. auto.
  - destruct (S1 i j k) as [E1 E2]; auto. rewrite Nat.add_assoc, E2. apply Bv. auto.
  - rewrite S2. { apply Bm; auto. }
    intros k Hk. split; intros E; inversion E. lia.
  - rewrite S2. { apply Bv; auto. }
    intros k Hk. split; intros E; inversion E. lia.
  - intros l Hl Hne. rewrite S2. { apply Bo; auto. }
    intros i Hi. destruct (Hne i Hi) as [N1 N2].
    rewrite <- !Nat.add_assoc. auto.
Qed.

Lemma fold_slice_effect iz m :
  iz < g_Lz g -> slice_effect vec_o pl_o iz m (fold_slice g iz m).
Proof.
  intros Hiz.
  replace (fold_slice g iz m) with
    (copies (nest3 (g_n1 g / g_w g) (g_n1 g) (g_w g) (fun i j k =>
       [((ArrM, mStart g + iz * g_n2 g + vec_o i j k), (ArrM, 0 + pl_o i j k));
        ((ArrV, vStart g + iz * g_n2 g + vec_o i j k), (ArrM, mBack g + pl_o i j k))]))
       (memcpy ArrM (mBack g) ArrV (vStart g + g_n2 g * iz) (g_n2 g)
          (memcpy ArrM 0 ArrM (mStart g + g_n2 g * iz) (g_n2 g) m))).
  - apply slice_generic; auto using vec_o_lt, pl_o_lt.
    intros i j k i' j' k' Hi Hj Hk Hi' Hj' Hk' E.
    unfold vec_o in E. eapply vec_dst_inj in E; eauto.
  - unfold fold_slice. symmetry. apply nest3_loops.
    intros i j k m0. rewrite copies_two. unfold vec_o, pl_o.
    rewrite !Nat.add_assoc. reflexivity.
Qed.

Lemma unfold_slice_effect iz m :
  iz < g_Lz g -> slice_effect pl_o vec_o iz m (unfold_slice g iz m).
Proof.
  intros Hiz.
  replace (unfold_slice g iz m) with
    (copies (nest3 (g_n1 g / g_w g) (g_n1 g) (g_w g) (fun i j k =>
       [((ArrM, mStart g + iz * g_n2 g + pl_o i j k), (ArrM, 0 + vec_o i j k));
        ((ArrV, vStart g + iz * g_n2 g + pl_o i j k), (ArrM, mBack g + vec_o i j k))]))
       (memcpy ArrM (mBack g) ArrV (vStart g + g_n2 g * iz) (g_n2 g)
          (memcpy ArrM 0 ArrM (mStart g + g_n2 g * iz) (g_n2 g) m))).
  - apply slice_generic; auto using vec_o_lt, pl_o_lt.
    intros i j k i' j' k' Hi Hj Hk Hi' Hj' Hk' E.
    unfold pl_o in E. eapply plain_dst_inj in E; eauto.
  - unfold unfold_slice. symmetry. apply nest3_loops.
    intros i j k m0. rewrite copies_two. unfold vec_o, pl_o.
    rewrite !Nat.add_assoc. reflexivity.
Qed.

(** ** All slices *)

(** Effect of [k] slices. *)
Definition field_effect (d o : nat -> nat -> nat -> nat) (k : nat) (m m' : mem A) : Prop :=
  (forall z i j l, z < k -> i < g_n1 g / g_w g -> j < g_n1 g -> l < g_w g ->
     m' (ArrM, mStart g + (z * g_n2 g + d i j l)) = m (ArrM, mStart g + (z * g_n2 g + o i j l)) /\
     m' (ArrV, vStart g + (z * g_n2 g + d i j l)) = m (ArrV, vStart g + (z * g_n2 g + o i j l))) /\
  (forall l, ~ scratch g l ->
     (forall i, i < k * g_n2 g -> l <> (ArrM, mStart g + i) /\ l <> (ArrV, vStart g + i)) ->
     m' l = m l).

Lemma own_not_scratch_m i : i < g_n3 g -> ~ scratch g (ArrM, mStart g + i).
Proof.
  intros H (k & Hk & [E|E]); inversion E.
  - pose proof wf_start. lia.
  - assert (mBack g = mStart g + g_n3 g) by reflexivity. lia.
Qed.
Lemma own_not_scratch_v i : ~ scratch g (ArrV, i).
Proof. intros (k & Hk & [E|E]); inversion E. Qed.

Lemma slices_effect d o (body : nat -> mem A -> mem A) m k :
  (forall iz m, iz < g_Lz g -> slice_effect d o iz m (body iz m)) ->
  (forall i j k, i < g_n1 g / g_w g -> j < g_n1 g -> k < g_w g -> o i j k < g_n2 g) ->
  (forall i j k, i < g_n1 g / g_w g -> j < g_n1 g -> k < g_w g -> d i j k < g_n2 g) ->
  k <= g_Lz g ->
  field_effect d o k m (for_loop k body m).
Proof.
  intros Hb Ho Hd Hk.
  apply (for_loop_inv (fun k m' => field_effect d o k m m')).
  - split.
    + intros; lia.
    + intros; reflexivity.
  - intros iz m' Hiz [IH1 IH2].
    destruct (Hb iz m' ltac:(lia)) as (E1 & E2 & E3).
    pose proof (slice_in iz ltac:(lia)) as Hin3.
    split.
    + intros z i j l Hz Hi Hj Hl.
      destruct (Nat.eq_dec z iz) as [->|Hne].
      * destruct (E1 i j l Hi Hj Hl) as [-> ->].
        pose proof (Ho i j l Hi Hj Hl).
        split; apply IH2.
        -- apply own_not_scratch_m. lia.
        -- intros q Hq. split; intros E; inversion E. nia.
        -- apply own_not_scratch_v.
        -- intros q Hq. split; intros E; inversion E. nia.
      * destruct (IH1 z i j l) as [<- <-]; auto; [lia|].
        pose proof (Hd i j l Hi Hj Hl).
        assert (z * g_n2 g + g_n2 g <= iz * g_n2 g) by nia.
        split; apply E3.
        -- apply own_not_scratch_m. lia.
        -- intros q Hq. split; intros E; inversion E. lia.
        -- apply own_not_scratch_v.
        -- intros q Hq. split; intros E; inversion E. lia.
    + intros l Hl Hne. rewrite E3; auto.
      * apply IH2; auto. intros i Hi. apply Hne. nia.
      * intros i Hi. apply Hne. nia.
Qed.

(** ** Positions *)

Lemma pos_exists x y : x < g_n1 g -> y < g_n1 g ->
  y mod (g_n1 g / g_w g) < g_n1 g / g_w g /\ y / (g_n1 g / g_w g) < g_w g /\
  vector_pos g x y = vec_o (y mod (g_n1 g / g_w g)) x (y / (g_n1 g / g_w g)) /\
  plain_pos g x y = pl_o (y mod (g_n1 g / g_w g)) x (y / (g_n1 g / g_w g)).
Proof.
  intros Hx Hy. pose proof wf_n1 as E.
  assert (HK : 0 < g_n1 g / g_w g) by nia.
  set (k := g_n1 g / g_w g) in *.
  pose proof (Nat.mod_upper_bound y k ltac:(lia)).
  pose proof (Nat.div_mod y k ltac:(lia)) as Hdm.
  repeat split.
  - auto.
  - apply Nat.div_lt_upper_bound; lia.
  - unfold vector_pos, vec_o. fold k. lia.
  - unfold plain_pos, pl_o. fold k. rewrite Hdm at 1. lia.
Qed.

Lemma plain_pos_lt x y : x < g_n1 g -> y < g_n1 g -> plain_pos g x y < g_n2 g.
Proof. unfold plain_pos, g_n2. nia. Qed.

Lemma vector_pos_lt x y : x < g_n1 g -> y < g_n1 g -> vector_pos g x y < g_n2 g.
Proof.
  intros Hx Hy. destruct (pos_exists x y Hx Hy) as (H1 & H2 & -> & _). apply vec_o_lt; auto.
Qed.

Lemma plain_pos_inj x y x' y' : x < g_n1 g -> y < g_n1 g -> x' < g_n1 g -> y' < g_n1 g ->
  plain_pos g x y = plain_pos g x' y' -> x = x' /\ y = y'.
Proof. intros H1 H2 H3 H4 E. apply digits2 in E; tauto. Qed.

Lemma vector_pos_inj x y x' y' : x < g_n1 g -> y < g_n1 g -> x' < g_n1 g -> y' < g_n1 g ->
  vector_pos g x y = vector_pos g x' y' -> x = x' /\ y = y'.
Proof.
  intros H1 H2 H3 H4 E.
  destruct (pos_exists x y H1 H2) as (A1 & A2 & E1 & _).
  destruct (pos_exists x' y' H3 H4) as (B1 & B2 & E2 & _).
  rewrite E1, E2 in E. unfold vec_o in E. apply vec_dst_inj in E; auto.
  destruct E as (E & -> & E').
  split; auto.
  rewrite (Nat.div_mod y (g_n1 g / g_w g)), (Nat.div_mod y' (g_n1 g / g_w g)) by lia. congruence.
Qed.

Lemma plain_pos_surj p : p < g_n2 g -> exists x y, x < g_n1 g /\ y < g_n1 g /\ p = plain_pos g x y.
Proof.
  intros H. unfold g_n2 in H. assert (0 < g_n1 g) by nia.
  exists (p mod g_n1 g), (p / g_n1 g).
  pose proof (Nat.mod_upper_bound p (g_n1 g) ltac:(lia)).
  pose proof (Nat.div_mod p (g_n1 g) ltac:(lia)).
  repeat split; auto.
  - apply Nat.div_lt_upper_bound; lia.
  - unfold plain_pos. lia.
Qed.

Lemma vector_pos_surj p : p < g_n2 g -> exists x y, x < g_n1 g /\ y < g_n1 g /\ p = vector_pos g x y.
Proof.
  intros H. pose proof wf_n1 as E. unfold g_n2 in H.
  assert (Hn : 0 < g_n1 g) by nia.
  set (k := g_n1 g / g_w g) in *.
  assert (Hw : 0 < g_w g) by nia. assert (Hk : 0 < k) by nia.
  set (sy := p mod g_w g). set (q := p / g_w g).
  pose proof (Nat.mod_upper_bound p (g_w g) ltac:(lia)) as Hsy. fold sy in Hsy.
  pose proof (Nat.div_mod p (g_w g) ltac:(lia)) as Hp. fold q sy in Hp.
  set (ix := q mod g_n1 g). set (iy := q / g_n1 g).
  pose proof (Nat.mod_upper_bound q (g_n1 g) ltac:(lia)) as Hix. fold ix in Hix.
  pose proof (Nat.div_mod q (g_n1 g) ltac:(lia)) as Hq. fold ix iy in Hq.
  assert (Hiy : iy < k).
  { assert (g_w g * (g_n1 g * iy) < g_w g * (g_n1 g * k)); [|nia].
    replace (g_w g * (g_n1 g * k)) with (g_n1 g * g_n1 g) by (rewrite E at 2; lia). nia. }
  assert (Hy : iy + sy * k < g_n1 g) by nia.
  exists ix, (iy + sy * k). repeat split; auto.
  unfold vector_pos. fold k.
  rewrite Nat.mod_add, Nat.mod_small by lia.
  rewrite Nat.div_add, Nat.div_small by lia. nia.
Qed.

End Slice.

(** ** Field-level results *)

Lemma mult_slice g z p : z < g_Lz g -> p < g_n2 g -> z * g_n2 g + p < g_n3 g.
Proof. unfold g_n3. nia. Qed.

Lemma n3_slice g i : i < g_n3 g -> exists z p, z < g_Lz g /\ p < g_n2 g /\ i = z * g_n2 g + p.
Proof.
  intros H. unfold g_n3 in H. assert (0 < g_n2 g) by nia.
  exists (i / g_n2 g), (i mod g_n2 g).
  pose proof (Nat.mod_upper_bound i (g_n2 g) ltac:(lia)).
  pose proof (Nat.div_mod i (g_n2 g) ltac:(lia)).
  repeat split; auto; [|lia].
  apply Nat.div_lt_upper_bound; lia.
Qed.

Section Field.
Context {A : Type}.
Variable g : geom.
Hypothesis Hwf : wf_geom g.

Lemma fold_all_effect (m : mem A) : field_effect g (vec_o g) (pl_o g) (g_Lz g) m (for_loop (g_Lz g) (fold_slice g) m).
Proof.
  apply slices_effect; auto using vec_o_lt, pl_o_lt, fold_slice_effect.
Qed.

Lemma unfold_all_effect (m : mem A) : field_effect g (pl_o g) (vec_o g) (g_Lz g) m (for_loop (g_Lz g) (unfold_slice g) m).
Proof.
  apply slices_effect; auto using vec_o_lt, pl_o_lt, unfold_slice_effect.
Qed.

(** Reading any site through the recorded layout gives the same value before and after. *)
Lemma foldField_sites (s : fstate A) x y z : site g x y z ->
  m_at g (foldField g s) x y z = m_at g s x y z /\
  v_at g (foldField g s) x y z = v_at g s x y z.
Proof.
  intros (Hx & Hy & Hz). unfold foldField.
  destruct (f_folded s) eqn:Ef; simpl; [auto|].
  destruct (f_gpu s) eqn:Eg; simpl; [auto|].
  destruct (fold_all_effect (f_mem s)) as [H _].
  destruct (pos_exists g Hwf x y Hx Hy) as (H1 & H2 & Ev & Ep).
  unfold m_at, v_at. simpl. rewrite Ef. simpl. rewrite Ev, Ep.
  destruct (H z _ x _ Hz H1 Hx H2) as [Em Ev'].
  rewrite <- !Nat.add_assoc. auto.
Qed.

Lemma unfoldField_sites (s : fstate A) x y z : site g x y z ->
  m_at g (unfoldField g s) x y z = m_at g s x y z /\
  v_at g (unfoldField g s) x y z = v_at g s x y z.
Proof.
  intros (Hx & Hy & Hz). unfold unfoldField.
  destruct (f_folded s) eqn:Ef; simpl; [|auto].
  destruct (f_gpu s) eqn:Eg; simpl; [auto|].
  destruct (unfold_all_effect (f_mem s)) as [H _].
  destruct (pos_exists g Hwf x y Hx Hy) as (H1 & H2 & Ev & Ep).
  unfold m_at, v_at. simpl. rewrite Ef. simpl. rewrite Ev, Ep.
  destruct (H z _ x _ Hz H1 Hx H2) as [Em Ev'].
  rewrite <- !Nat.add_assoc. auto.
Qed.

(** Nothing but the owned data and the scratch slices changes. *)
Lemma foldField_frame (s : fstate A) l :
  ~ owned_mv g l -> ~ scratch g l -> f_mem (foldField g s) l = f_mem s l.
Proof.
  intros Ho Hs. unfold foldField.
  destruct (f_folded s || f_gpu s); [reflexivity|]. simpl.
  destruct (fold_all_effect (f_mem s)) as [_ H]. apply H; auto.
  intros i Hi. split; intros ->; apply Ho; exists i; unfold g_n3; split; auto; lia.
Qed.

Lemma unfoldField_frame (s : fstate A) l :
  ~ owned_mv g l -> ~ scratch g l -> f_mem (unfoldField g s) l = f_mem s l.
Proof.
  intros Ho Hs. unfold unfoldField.
  destruct (negb (f_folded s) || f_gpu s); [reflexivity|]. simpl.
  destruct (unfold_all_effect (f_mem s)) as [_ H]. apply H; auto.
  intros i Hi. split; intros ->; apply Ho; exists i; unfold g_n3; split; auto; lia.
Qed.

(** Raw round trips on owned data. *)
Lemma fold_unfold_owned (s : fstate A) l :
  f_folded s = false -> owned_mv g l ->
  f_mem (unfoldField g (foldField g s)) l = f_mem s l.
Proof.
  intros Ef (i & Hi & Hl).
  destruct (f_gpu s) eqn:Eg.
  { unfold foldField. rewrite Eg, orb_true_r. unfold unfoldField. rewrite Eg, orb_true_r. reflexivity. }
  destruct (n3_slice g i Hi) as (z & p & Hz & Hp & ->).
  destruct (plain_pos_surj g p Hp) as (x & y & Hx & Hy & ->).
  assert (Hs : site g x y z) by (repeat split; auto).
  destruct (foldField_sites s x y z Hs) as [F1 F2].
  destruct (unfoldField_sites (foldField g s) x y z Hs) as [U1 U2].
  rewrite F1 in U1. rewrite F2 in U2. unfold m_at, v_at in U1, U2.
  assert (Ef2 : f_folded (unfoldField g (foldField g s)) = false).
  { unfold unfoldField, foldField. rewrite Ef, Eg. simpl. rewrite ?Eg. reflexivity. }
  rewrite Ef2, Ef in U1, U2. simpl in U1, U2.
  destruct Hl as [-> | ->]; rewrite Nat.add_assoc; auto.
Qed.

Lemma unfold_fold_owned (s : fstate A) l :
  f_folded s = true -> owned_mv g l ->
  f_mem (foldField g (unfoldField g s)) l = f_mem s l.
Proof.
  intros Ef (i & Hi & Hl).
  destruct (f_gpu s) eqn:Eg.
  { unfold unfoldField. rewrite Eg, orb_true_r. unfold foldField. rewrite Eg, orb_true_r. reflexivity. }
  destruct (n3_slice g i Hi) as (z & p & Hz & Hp & ->).
  destruct (vector_pos_surj g Hwf p Hp) as (x & y & Hx & Hy & ->).
  assert (Hs : site g x y z) by (repeat split; auto).
  destruct (unfoldField_sites s x y z Hs) as [F1 F2].
  destruct (foldField_sites (unfoldField g s) x y z Hs) as [U1 U2].
  rewrite F1 in U1. rewrite F2 in U2. unfold m_at, v_at in U1, U2.
  assert (Ef2 : f_folded (foldField g (unfoldField g s)) = true).
  { unfold unfoldField, foldField. rewrite Ef, Eg. simpl. rewrite ?Eg. reflexivity. }
  rewrite Ef2, Ef in U1, U2. simpl in U1, U2.
  destruct Hl as [-> | ->]; rewrite Nat.add_assoc; auto.
Qed.

End Field.
