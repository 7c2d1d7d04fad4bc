(** C38: dense points are grouped in clusters. *)
From Coq Require Import List Arith Bool Lia Relations Permutation.
From Verif Require Import Base FolderModel IndexModel IndexProofs TrackModel TagModel TagSpec TagProofs.
Import ListNotations.
Ltac Zify.zify_post_hook ::= idtac.

(** ** neighbours *)
Definition adjL (L p q : nat) : Prop := step1 L p q \/ step1 L q p.

Lemma num_decode : forall L x y z x' y' z', x < L -> y < L -> x' < L -> y' < L ->
  number L x y z = number L x' y' z' -> x = x' /\ y = y' /\ z = z'.
Proof.
  intros L x y z x' y' z' Hx Hy Hx' Hy' E.
  pose proof (idx2Vec_vec2Idx L x y z Hx Hy) as A. pose proof (idx2Vec_vec2Idx L x' y' z' Hx' Hy') as B.
  change (vec2Idx L (x, y, z)) with (number L x y z) in A. change (vec2Idx L (x', y', z')) with (number L x' y' z') in B.
  rewrite E, B in A. injection A. auto.
Qed.

Lemma num_lt : forall L Lz x y z, x < L -> y < L -> (number L x y z < L * L * Lz <-> z < Lz).
Proof.
  intros L Lz x y z Hx Hy. unfold number. split; intro H.
  - apply Nat.nle_gt. intro K.
    assert (L * (L * Lz) <= L * (y + L * z)) by (apply Nat.mul_le_mono_l; nia). nia.
  - assert (x + L * (y + L * z) < L * (S y + L * z)) by nia.
    assert (L * (S y + L * z) <= L * (L * S z)) by (apply Nat.mul_le_mono_l; nia).
    assert (L * (L * S z) <= L * (L * Lz)) by (apply Nat.mul_le_mono_l, Nat.mul_le_mono_l; lia). lia.
Qed.

Lemma num_exists : forall L p, 0 < L -> exists x y z, x < L /\ y < L /\ p = number L x y z.
Proof.
  intros L p H. exists (p mod L), ((p / L) mod L), (p / L / L).
  pose proof (Nat.mod_upper_bound p L). pose proof (Nat.mod_upper_bound (p / L) L).
  split; [lia|]. split; [lia|]. unfold number.
  rewrite (Nat.add_comm ((p / L) mod L)), <- Nat.div_mod, Nat.add_comm, <- Nat.div_mod by lia. reflexivity.
Qed.

Lemma num_up : forall L x y z, number L x y (z + 1) = number L x y z + L * L.
Proof. intros. unfold number. ring. Qed.

Lemma back_mod : forall L a, a < L -> ((a + L - 1) mod L + 1) mod L = a.
Proof.
  intros L a H. rewrite Nat.add_mod_idemp_l by lia. replace (a + L - 1 + 1) with (a + 1 * L) by lia.
  rewrite Nat.mod_add by lia. apply Nat.mod_small. exact H.
Qed.
Lemma fwd_mod : forall L a, a < L -> ((a + 1) mod L + L - 1) mod L = a.
Proof.
  intros L a H. replace ((a + 1) mod L + L - 1) with ((a + 1) mod L + (L - 1)) by lia.
  rewrite Nat.add_mod_idemp_l by lia. replace (a + 1 + (L - 1)) with (a + 1 * L) by lia.
  rewrite Nat.mod_add by lia. apply Nat.mod_small. exact H.
Qed.

Section Box.
  Variables (W L Lz : nat).
  Hypothesis HL : 2 <= L.
  Hypothesis HW : L * L * (Lz + 1) <= W.
  Let V := L * L * Lz.

  Lemma nebo_num : forall x y z, x < L -> y < L -> z < Lz ->
    nebo W L Lz (number L x y z) =
      [number L ((x + 1) mod L) y z; number L ((x + L - 1) mod L) y z;
       number L x ((y + 1) mod L) z; number L x ((y + L - 1) mod L) z] ++
      (if S z <? Lz then [number L x y (z + 1)] else []) ++
      (if L * L <? number L x y z then [number L x y z - L * L] else []).
  Proof.
    intros x y z Hx Hy Hz. unfold nebo.
    pose proof (neigh_spec W L x y z HL Hx Hy) as E. change (vec2Idx L (x, y, z)) with (number L x y z) in E.
    rewrite E.
    2:{ etransitivity; [|exact HW]. apply Nat.mul_le_mono_l. lia. }
    cbv zeta. f_equal. f_equal.
    rewrite num_up.
    assert (B : number L x y z < L * L * Lz - L * L <-> S z < Lz).
    { replace (L * L * Lz - L * L) with (L * L * (Lz - 1)) by (rewrite Nat.mul_sub_distr_l; lia).
      rewrite (num_lt L (Lz - 1) x y z Hx Hy). lia. }
    destruct (Nat.ltb_spec (S z) Lz), (Nat.ltb_spec (number L x y z) (L * L * Lz - L * L)); try reflexivity; exfalso.
    - apply B in H. lia.
    - apply B in H0. lia.
  Qed.

  Lemma nebo_sound : forall p q, p < V -> In q (nebo W L Lz p) -> q < V /\ adjL L p q.
  Proof.
    intros p q Hp Hq. destruct (num_exists L p ltac:(lia)) as (x & y & z & Hx & Hy & ->).
    assert (Hz : z < Lz) by (apply (num_lt L Lz x y z Hx Hy), Hp).
    rewrite nebo_num in Hq by assumption. pose proof (Nat.mod_upper_bound) as U.
    cbn [app] in Hq. unfold V.
    destruct Hq as [<-|[<-|[<-|[<-|Hq]]]].
    - split; [apply num_lt; auto; apply U; lia|]. left. constructor; assumption.
    - split; [apply num_lt; auto; apply U; lia|]. right.
      rewrite <- (back_mod L x Hx) at 2. constructor; auto. apply U. lia.
    - split; [apply num_lt; auto; apply U; lia|]. left. constructor; assumption.
    - split; [apply num_lt; auto; apply U; lia|]. right.
      rewrite <- (back_mod L y Hy) at 2. constructor; auto. apply U. lia.
    - apply in_app_or in Hq. destruct Hq as [Hq|Hq].
      + destruct (Nat.ltb_spec (S z) Lz) as [H|H]; [|destruct Hq]. destruct Hq as [<-|[]].
        split; [apply num_lt; auto; lia|]. left. constructor; assumption.
      + destruct (Nat.ltb_spec (L * L) (number L x y z)) as [H|H]; [|destruct Hq]. destruct Hq as [<-|[]].
        destruct z as [|z].
        * exfalso. pose proof (num_lt L 1 x y 0 Hx Hy) as B. rewrite Nat.mul_1_r in B. assert (number L x y 0 < L * L) by (apply B; lia). lia.
        * replace (S z) with (z + 1) in * by lia. rewrite num_up, Nat.add_sub. split; [apply num_lt; auto; lia|].
          right. rewrite <- num_up. constructor; assumption.
  Qed.

  Lemma nebo_complete : forall p q, p < V -> q < V -> adjL L p q -> In q (nebo W L Lz p) \/ q = 0.
  Proof.
    intros p q Hp Hq A.
    assert (M : forall a, (a + 1) mod L < L) by (intro; apply Nat.mod_upper_bound; lia).
    destruct A as [A|A]; inversion A as [x y z Hx Hy E1 E2|x y z Hx Hy E1 E2|x y z Hx Hy E1 E2]; subst.
    - left. rewrite nebo_num by (auto; apply (num_lt L Lz x y z); auto). left. reflexivity.
    - left. rewrite nebo_num by (auto; apply (num_lt L Lz x y z); auto). right; right; left. reflexivity.
    - left. rewrite nebo_num by (auto; apply (num_lt L Lz x y z); auto). cbn [app]. right; right; right; right. apply in_or_app. left.
      apply num_lt in Hq; auto. destruct (Nat.ltb_spec (S z) Lz); [left; reflexivity|lia].
    - left. rewrite nebo_num by (auto; apply (num_lt L Lz x y z); auto). right. left. rewrite fwd_mod by assumption. reflexivity.
    - left. rewrite nebo_num by (auto; apply (num_lt L Lz x y z); auto). cbn [app]. right; right; right; left. rewrite fwd_mod by assumption. reflexivity.
    - destruct (Nat.eq_dec (number L x y z) 0) as [E|E]; [right; exact E|left].
      rewrite nebo_num by (auto; apply (num_lt L Lz x y (z + 1)); auto). cbn [app]. right; right; right; right. apply in_or_app. right.
      rewrite num_up. destruct (Nat.ltb_spec (L * L) (number L x y z + L * L)); [|lia]. left. lia.
  Qed.
End Box.

(** ** tagging by one thread *)
Lemma tag_inv : forall crit share m2h acc found, NoDup share ->
  let '(m', acc', found') := fold_left (tagOne crit (fun i => i)) share (m2h, acc, found) in
  found' = found ++ filter crit share /\ acc' = acc + length (filter crit share) /\
  (forall q, ~ In q (filter crit share) -> m' q = m2h q) /\
  (forall k q, nth_error (filter crit share) k = Some q -> m' q = acc + k).
Proof.
  intros crit share. induction share as [|i share IH]; intros m2h acc found N.
  - cbn. rewrite app_nil_r, Nat.add_0_r. repeat split; auto. intros [|k] q H; discriminate.
  - inversion N as [|? ? Ni Ns]; subst. cbn [fold_left tagOne filter]. destruct (crit i) eqn:C.
    + specialize (IH (setf m2h i acc) (S acc) (found ++ [i]) Ns).
      destruct (fold_left _ share _) as [[m' acc'] found']. destruct IH as (E1 & E2 & E3 & E4).
      split; [rewrite E1, <- app_assoc; reflexivity|]. split; [rewrite E2; cbn; lia|]. split.
      * intros q Hq. rewrite E3; [|intro H; apply Hq; right; exact H]. apply setf_ne. intros ->. apply Hq. left. reflexivity.
      * intros [|k] q H; cbn in H.
        -- injection H as <-. rewrite E3, setf_eq by (intro H; apply Ni; apply filter_In in H; tauto). lia.
        -- rewrite (E4 k q H). lia.
    + specialize (IH m2h acc found Ns). exact IH.
Qed.

Lemma tag_thread : forall crit share m2h, NoDup share ->
  snd (tagThread crit (fun i => i) m2h share) = filter crit share /\
  (forall q, ~ In q (filter crit share) -> fst (tagThread crit (fun i => i) m2h share) q = m2h q) /\
  (forall k q, nth_error (filter crit share) k = Some q -> fst (tagThread crit (fun i => i) m2h share) q = k).
Proof.
  intros crit share m2h N. unfold tagThread. pose proof (tag_inv crit share m2h 0 [] N) as H.
  destruct (fold_left _ share _) as [[m' acc'] found']. destruct H as (E1 & E2 & E3 & E4). cbn. auto.
Qed.

(** The whole treatment in the plain layout by one thread: every site is examined in order, the
    dense ones are tagged, then grouped. [extra] is more steps than the while loop can take. *)
Definition tagAndGroup (W L Lz extra : nat) (dense : nat -> bool) :=
  let '(m2h, found) := tagThreads dense (fun i => i) (fun _ => 0) [seq 0 (L * L * Lz)] in
  groupTags (fun i => i) (nebo W L Lz) (L * L * Lz + extra) m2h found.

(** ** C38 *)
(** For every set of dense points the loops end, and the groups are the clusters: every dense point is in
    exactly one group, and points are in the same one if and only if joined. Partial: one thread, the plain layout,
    and within one rank's box. *)
Theorem groups_clusters_partial : forall W L Lz dense extra,
  2 <= L -> L * L * (Lz + 1) <= W -> 0 < extra ->
  exists t gid groups, tagAndGroup W L Lz extra dense = Some (t, gid, groups) /\
    NoDup (concat groups) /\
    (forall p, In p (concat groups) <-> p < L * L * Lz /\ dense p = true) /\
    (forall grp p q, In grp groups -> In p grp -> (In q grp <-> sameCluster L (L * L * Lz) dense p q)).
Proof.
  intros W L Lz dense extra HL HW Hx. unfold tagAndGroup. set (V := L * L * Lz).
  cbn [tagThreads].
  pose proof (tag_thread dense (seq 0 V) (fun _ => 0) (seq_NoDup V 0)) as T.
  destruct (tagThread dense (fun i => i) (fun _ => 0) (seq 0 V)) as [m2h found]. cbn [fst snd] in T.
  destruct T as (-> & T1 & T2). cbn [app]. rewrite app_nil_r.
  set (f := match filter dense (seq 0 V) with p :: _ => p | [] => 0 end).
  assert (F0 : forall q, q < V -> dense q = true -> q = 0 -> q = f).
  { intros q Hq D ->. unfold f. destruct V as [|n]; [lia|]. cbn [seq filter]. rewrite D. reflexivity. }
  destruct (groups_are_clusters V f (nebo W L Lz) dense (adjL L)) with (fuel := V + extra) (m2h := m2h) (order := filter dense (seq 0 V))
    as (t & gid & groups & E & N & P & Q).
  - intros p q [H|H]; [right|left]; exact H.
  - intros p q Hp Hq. apply (nebo_sound W L Lz HL HW); assumption.
  - intros p q Hp Hq A D. destruct (nebo_complete W L Lz HL HW p q Hp Hq A) as [H|H]; [left; exact H|right; apply F0; assumption].
  - lia.
  - intros q Hq Hf. split; intro H.
    + destruct (in_dec Nat.eq_dec q (filter dense (seq 0 V))) as [I|I]; [apply filter_In in I; tauto|].
      rewrite T1 in H by exact I. lia.
    + assert (I : In q (filter dense (seq 0 V))) by (apply filter_In; split; [apply in_seq; lia|exact H]).
      apply In_nth_error in I. destruct I as (k & Ek). rewrite (T2 k q Ek). destruct k; [|lia].
      exfalso. apply Hf. unfold f. destruct (filter dense (seq 0 V)); [discriminate|]. injection Ek. auto.
  - intro p. rewrite filter_In, in_seq. cbn. intuition lia.
  - destruct (filter dense (seq 0 V)) as [|a r] eqn:Ef; [left; reflexivity|right]. exists r. unfold f. reflexivity.
  - exists t, gid, groups. split; [exact E|]. split; [exact N|]. split; [exact P|].
    intros grp p q Hg Hp. rewrite (Q grp p q Hg Hp). unfold sameCluster, conn.
    split; intro H; induction H; try apply rt_refl; try (eapply rt_trans; eassumption); apply rt_step; exact H.
Qed.

Example groups_seen :
  match tagAndGroup 1000 4 2 1 (fun i => existsb (Nat.eqb i) [0; 3; 5; 16; 21; 26]) with
  | Some (_, _, groups) => groups = [[0; 3; 16]; [5; 21]; [26]] | None => False end.
Proof. vm_compute. reflexivity. Qed.

(** ** What fails *)
(** Two threads tag: the first point found by the second has the label 0, is not taken as a neighbour and later makes a
    group of its own, although it is joined to another point. *)
Theorem groups_two_threads_refuted : exists W L Lz dense share1 share2 t gid groups,
  2 <= L /\ L * L * (Lz + 1) <= W /\ share1 ++ share2 = seq 0 (L * L * Lz) /\
  (let '(m2h, found) := tagThreads dense (fun i => i) (fun _ => 0) [share1; share2] in
   groupTags (fun i => i) (nebo W L Lz) (L * L * Lz + 1) m2h found) = Some (t, gid, groups) /\
  exists g1 g2 p q, In g1 groups /\ In g2 groups /\ g1 <> g2 /\ In p g1 /\ In q g2 /\
    sameCluster L (L * L * Lz) dense p q.
Proof.
  exists 1000, 4, 1, (fun i => (i =? 5) || (i =? 9)), (seq 0 8), (seq 8 8).
  eexists _, _, _. split; [lia|]. split; [cbn; lia|]. split; [reflexivity|]. split; [vm_compute; reflexivity|].
  exists [5], [9], 5, 9. split; [left; reflexivity|]. split; [right; left; reflexivity|]. split; [discriminate|].
  split; [left; reflexivity|]. split; [left; reflexivity|].
  apply rt_step. repeat split; try (cbn; lia). left. exact (step_y 4 1 1 0 ltac:(lia) ltac:(lia)).
Qed.

(** In the vector layout (4x4, two lanes) the test whether a candidate is already in a group looks at another point's
    tag, and points are in two groups. *)
Definition g44 : geom := Geom 4 1 1 2 false.
Theorem groups_folded_refuted : exists dense t gid groups,
  (let '(m2h, found) := tagThreads dense (unfoldidx g44) (fun _ => 0) [seq 0 16] in
   groupTags (foldidx g44) (nebo 1000 4 1) 17 m2h found) = Some (t, gid, groups) /\
  ~ NoDup (concat groups).
Proof.
  exists (fun i => (i =? 0) || (i =? 2) || (i =? 4)). eexists _, _, _. split; [vm_compute; reflexivity|].
  cbn. intro N. inversion N as [|? ? H1 N1]; subst. inversion N1 as [|? ? H2 N2]; subst. apply H2. right. left. reflexivity.
Qed.

(** The first site of the box is missed as a neighbour of the one above it when it is not the first examined. *)
Theorem groups_order_refuted : exists m2h order t gid groups,
  Permutation order [0; 16] /\ (forall p, 0 < m2h p <-> p = 0 \/ p = 16) /\
  groupTags (fun i => i) (nebo 1000 4 2) 33 m2h order = Some (t, gid, groups) /\
  groups = [[16]; [0]] /\ sameCluster 4 32 (fun i => (i =? 0) || (i =? 16)) 0 16.
Proof.
  exists (fun p => if (p =? 0) || (p =? 16) then 1 else 0), [16; 0]. eexists _, _, _.
  split; [constructor|]. split.
  { intro p. destruct (Nat.eqb_spec p 0), (Nat.eqb_spec p 16); cbn; lia. }
  split; [vm_compute; reflexivity|]. split; [reflexivity|].
  apply rt_step. repeat split; try (cbn; lia). left. exact (step_z 4 0 0 0 ltac:(lia) ltac:(lia)).
Qed.

Print Assumptions groups_clusters_partial.
Print Assumptions groups_two_threads_refuted.
Print Assumptions groups_folded_refuted.
Print Assumptions groups_order_refuted.
