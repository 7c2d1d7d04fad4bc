(** Claims C01, C02, C03. *)
From Coq Require Import List Arith Lia Bool.
From Verif Require Import Base FolderModel FolderSpec FolderProofs FolderProofs2.
Import ListNotations.

(** C02: the vector layout is a bijection between sites of a slice and positions. *)
Theorem vector_layout_bijective (g : geom) : wf_geom g ->
  (forall x y, x < g_n1 g -> y < g_n1 g -> vector_pos g x y < g_n1 g * g_n1 g) /\
  (forall x y x' y', x < g_n1 g -> y < g_n1 g -> x' < g_n1 g -> y' < g_n1 g ->
      vector_pos g x y = vector_pos g x' y' -> x = x' /\ y = y') /\
  (forall p, p < g_n1 g * g_n1 g ->
      exists x y, x < g_n1 g /\ y < g_n1 g /\ p = vector_pos g x y).
Proof.
  exact (fun H => conj (vector_pos_lt g H) (conj (vector_pos_inj g H) (vector_pos_surj g H))).
Qed.
Print Assumptions vector_layout_bijective.

(** C02: folding an unfolded field on the CPU moves the value of every site from
    its row-major position to its vector position, in m and in v; nothing else but
    the scratch slices changes. *)
Theorem fold_places_sites {A} (g : geom) (s : fstate A) : wf_geom g ->
  f_folded s = false -> f_gpu s = false ->
  let s' := folder g FOLD_ALL s in
  f_folded s' = true /\
  (forall x y z, site g x y z ->
     f_mem s' (ArrM, mStart g + z * g_n2 g + vector_pos g x y) =
     f_mem s (ArrM, mStart g + z * g_n2 g + plain_pos g x y) /\
     f_mem s' (ArrV, vStart g + z * g_n2 g + vector_pos g x y) =
     f_mem s (ArrV, vStart g + z * g_n2 g + plain_pos g x y)) /\
  (forall l, ~ owned_mv g l -> ~ scratch g l -> f_mem s' l = f_mem s l).
Proof.
  intros Hwf Hf Hg s'.
  assert (E : f_folded s' = true) by (unfold s'; simpl; unfold foldField; rewrite Hf, Hg; reflexivity).
  repeat split; auto.
  - pose proof (proj1 (foldField_sites g Hwf s x y z H)) as P.
    unfold m_at in P. change (foldField g s) with s' in P. rewrite E, Hf in P. exact P.
  - pose proof (proj2 (foldField_sites g Hwf s x y z H)) as P.
    unfold v_at in P. change (foldField g s) with s' in P. rewrite E, Hf in P. exact P.
  - intros l. exact (foldField_frame g Hwf s l).
Qed.
Print Assumptions fold_places_sites.

(** C01: fold then unfold, and unfold then fold, restore every owned element of m
    and v, and change nothing else but the scratch slices. *)
Theorem fold_unfold_roundtrip {A} (g : geom) (s : fstate A) : wf_geom g ->
  (f_folded s = false ->
     let s' := folder g UNFOLD_ALL (folder g FOLD_ALL s) in
     f_folded s' = false /\ forall l, ~ scratch g l -> f_mem s' l = f_mem s l) /\
  (f_folded s = true ->
     let s' := folder g FOLD_ALL (folder g UNFOLD_ALL s) in
     f_folded s' = true /\ forall l, ~ scratch g l -> f_mem s' l = f_mem s l).
Proof.
  intros Hwf.
  assert (Hdec : forall l, owned_mv g l \/ ~ owned_mv g l).
  { intros [a i]. unfold owned_mv. destruct a.
    - destruct (le_lt_dec (mStart g) i) as [H1|H1]; destruct (le_lt_dec (mStart g + g_n3 g) i) as [H2|H2];
      try (right; intros (j & Hj & [E|E]); inversion E; lia).
      left. exists (i - mStart g). split; [lia|]. left. f_equal. lia.
    - destruct (le_lt_dec (vStart g) i) as [H1|H1]; destruct (le_lt_dec (vStart g + g_n3 g) i) as [H2|H2];
      try (right; intros (j & Hj & [E|E]); inversion E; lia).
      left. exists (i - vStart g). split; [lia|]. right. f_equal. lia.
    - right; intros (j & Hj & [E|E]); inversion E.
    - right; intros (j & Hj & [E|E]); inversion E.
    - right; intros (j & Hj & [E|E]); inversion E. }
  split; intros Hf s'.
  - split.
    + unfold s'; simpl. unfold unfoldField, foldField. rewrite Hf. simpl.
      destruct (f_gpu s) eqn:Eg; simpl; rewrite ?Hf, ?Eg; auto.
    + intros l Hl. destruct (Hdec l) as [Ho|Ho].
      * apply (fold_unfold_owned g Hwf s l Hf Ho).
      * unfold s'; simpl. rewrite unfoldField_frame, foldField_frame; auto.
  - split.
    + unfold s'; simpl. unfold unfoldField, foldField. rewrite Hf. simpl.
      destruct (f_gpu s) eqn:Eg; simpl; rewrite ?Hf, ?Eg; auto.
    + intros l Hl. destruct (Hdec l) as [Ho|Ho].
      * apply (unfold_fold_owned g Hwf s l Hf Ho).
      * unfold s'; simpl. rewrite foldField_frame, unfoldField_frame; auto.
Qed.
Print Assumptions fold_unfold_roundtrip.

(** C01: a request the field already satisfies changes nothing at all. *)
Theorem fold_idempotent {A} (g : geom) (s : fstate A) :
  (f_folded s = true -> folder g FOLD_ALL s = s) /\
  (f_folded s = false -> folder g UNFOLD_ALL s = s) /\
  (f_m2folded s = true -> folder g FOLD_M2 s = s) /\
  (f_m2folded s = false -> folder g UNFOLD_M2 s = s).
Proof.
  repeat split; intros H; simpl; unfold foldField, unfoldField, foldM2, unfoldM2; rewrite H; reflexivity.
Qed.
Print Assumptions fold_idempotent.

(** C01: after any history of folding, unfolding and slice requests every site
    still has its value in m, in v and in m2, read through the recorded layout. *)
Theorem folder_history_preserves_sites {A} (g : geom) (l : list foldtype) (s : fstate A) x y z :
  wf_geom g -> (forall t, In t l -> ok_request g t) -> site g x y z ->
  let s' := fold_left (fun s t => folder g t s) l s in
  m_at g s' x y z = m_at g s x y z /\
  v_at g s' x y z = v_at g s x y z /\
  m2_at g s' x y z = m2_at g s x y z.
Proof. exact (folder_history g l s x y z). Qed.
Print Assumptions folder_history_preserves_sites.

(** C03: an xy slice inside the field is delivered in row-major order in the ghost
    zones whatever the layout; only the scratch slices change. *)
Theorem slice_xy_correct {A} (g : geom) (s : fstate A) sZ :
  wf_geom g -> f_gpu s = false -> sZ < g_Lz g ->
  let s' := folder g (UNFOLD_SLICE sZ) s in
  (forall x y, x < g_n1 g -> y < g_n1 g ->
     f_mem s' (ArrM, y * g_n1 g + x) = m_at g s x y sZ /\
     f_mem s' (ArrM, mBack g + (y * g_n1 g + x)) = v_at g s x y sZ) /\
  (forall l, ~ scratch g l -> f_mem s' l = f_mem s l) /\
  f_folded s' = f_folded s /\ f_m2folded s' = f_m2folded s /\ f_gpu s' = f_gpu s.
Proof. exact (fun H => slice2D_correct g H s sZ). Qed.
Print Assumptions slice_xy_correct.

(** C03: a yz slice, transposed as documented (row z, column y), when the ghost
    zone is large enough. *)
Theorem slice_yz_correct {A} (g : geom) (s : fstate A) sX :
  wf_geom g -> f_gpu s = false -> sX < g_n1 g -> g_Lz g <= g_Ng g * g_n1 g ->
  let s' := folder g (UNFOLD_SLICEYZ sX) s in
  (forall y z, y < g_n1 g -> z < g_Lz g ->
     f_mem s' (ArrM, z * g_n1 g + y) = m_at g s sX y z /\
     f_mem s' (ArrM, mBack g + (z * g_n1 g + y)) = v_at g s sX y z) /\
  (forall l, ~ scratch_yz g l -> f_mem s' l = f_mem s l) /\
  f_folded s' = f_folded s /\ f_m2folded s' = f_m2folded s /\ f_gpu s' = f_gpu s.
Proof. exact (fun H => sliceYZ_correct g H s sX). Qed.
Print Assumptions slice_yz_correct.

(** C03: an m2 slice. *)
Theorem slice_m2_correct {A} (g : geom) (s : fstate A) sZ :
  wf_geom g -> f_gpu s = false -> sZ < g_Lz g ->
  let s' := folder g (UNFOLD_SLICEM2 sZ) s in
  (forall x y, x < g_n1 g -> y < g_n1 g ->
     f_mem s' (ArrM2, y * g_n1 g + x) = m2_at g s x y sZ) /\
  (forall l, (forall i, i < g_n1 g * g_n1 g -> l <> (ArrM2, i)) -> f_mem s' l = f_mem s l).
Proof. exact (fun H Hg Hz => conj (sliceM2_correct g H s sZ Hg Hz) (sliceM2_frame g H s sZ)). Qed.
Print Assumptions slice_m2_correct.

(** C03, false part: slice number = depth is not refused. The picture delivered
    depends on memory outside the buffers of the field. *)
Theorem slice_bound_refuted :
  exists (g : geom) (s1 s2 : fstate nat) (sZ : nat) (l : loc),
    wf_geom g /\ f_gpu s1 = false /\ f_gpu s2 = false /\
    f_folded s1 = f_folded s2 /\ ~ sZ < g_Lz g /\
    (forall l, in_buffers g l -> f_mem s1 l = f_mem s2 l) /\
    in_buffers g l /\
    f_mem (folder g (UNFOLD_SLICE sZ) s1) l <> f_mem (folder g (UNFOLD_SLICE sZ) s2) l.
Proof.
  set (g := Geom 2 1 1 2 false).
  exists g, (FState (fun _ => 0) false false false),
    (FState (fun l => match l with (ArrV, i) => if 4 <=? i then 1 else 0 | _ => 0 end) false false false),
    1, (ArrM, mBack g).
  split; [vm_compute; lia|]. do 3 (split; [reflexivity|]).
  split; [vm_compute; lia|].
  split.
  - intros [a i]; destruct a; intros H; try reflexivity.
    assert (Hi : i < 4) by (vm_compute in H; lia). clear H.
    do 4 (destruct i as [|i]; [reflexivity|]). lia.
  - split; [vm_compute; lia|]. vm_compute. discriminate.
Qed.
Print Assumptions slice_bound_refuted.

(** C03, false part: on a deep slab (depth > ghosts * length) extracting a yz slice
    overwrites owned sites of the field. *)
Theorem slice_yz_deep_refuted :
  exists (g : geom) (s : fstate nat) (sX x y z : nat),
    wf_geom g /\ f_gpu s = false /\ sX < g_n1 g /\ site g x y z /\
    m_at g (folder g (UNFOLD_SLICEYZ sX) s) x y z <> m_at g s x y z.
Proof.
  exists (Geom 2 4 1 2 false), (FState (fun l => snd l) false false false), 0, 0, 0, 0.
  split; [vm_compute; lia|]. split; [reflexivity|]. split; [vm_compute; lia|].
  split; [vm_compute; lia|]. vm_compute. discriminate.
Qed.
Print Assumptions slice_yz_deep_refuted.

(** Non-vacuity: a 8 x 8 x 3 grid with width 4 and two ghost slices meets the
    hypotheses, and the site (5,6,1) really moves. *)
Example geom_ex := Geom 8 3 2 4 false.
Example geom_ex_wf : wf_geom geom_ex /\ site geom_ex 5 6 1 /\
  ok_request geom_ex (UNFOLD_SLICEYZ 7) /\
  plain_pos geom_ex 5 6 = 53 /\ vector_pos geom_ex 5 6 = 23.
Proof. vm_compute. repeat split; try lia; auto. Qed.
Example fold_ex :
  let s := FState (fun l : loc => l) false false false in
  f_mem (folder geom_ex FOLD_ALL s) (ArrM, mStart geom_ex + 64 + 23) = (ArrM, mStart geom_ex + 64 + 53).
Proof. vm_compute. reflexivity. Qed.
