(** Claims C06 and C07: what one call of the propagation kernel does. *)
From Coq Require Import List Arith Lia Bool Permutation.
From Verif Require Import Base FolderModel FolderSpec KernelModel KernelSpec KernelProofs.
From Verif Require FolderProofs.
Import ListNotations.

(** C06: let the vector of row [row] and column [x] of slice [z] be loaded; its
    lane k is site (x, row + k*rows, z). Then lane k of each of the six neighbour
    registers at distance n holds the value of the periodic neighbour of that site.
    Partial: needs 2n <= number of rows. *)
Theorem stencil_neighbours_partial {A} (g : geom) (m : nat -> A) (x row z k n : nat) (d : dir) :
  wf_geom g ->
  let rows := g_n1 g / g_w g in
  row < rows -> x < g_n1 g -> k < g_w g -> 1 <= n -> 2 * n <= rows -> n <= z ->
  let idx := z * g_n2 g + row * (g_n1 g * g_w g) + x * g_w g in
  vload m idx k = m (cell g x (row + k * rows) z) /\
  nbr g m (x * g_w g) row idx n d k = val g m (site_nbr (g_n1 g) d n (x, row + k * rows, z)).
Proof.
  intros Hwf rows Hr Hx Hk Hn H2 Hz idx.
  assert (E : idx = vaddr g z row x) by (unfold idx, vaddr; rewrite (YX g Hwf); reflexivity).
  rewrite E. split.
  - unfold vload. rewrite vaddr_cell by auto. reflexivity.
  - apply nbr_spec; auto.
Qed.
Print Assumptions stencil_neighbours_partial.

(** C06 fails for shorter columns of vectors: with 3 rows and distance 2 the +y
    neighbour of a site of row 1 is taken from the next slice. *)
Theorem stencil_short_rows_refuted :
  exists (g : geom) (m : nat -> nat) (x row z k n : nat), wf_geom g /\
    let rows := g_n1 g / g_w g in
    row < rows /\ x < g_n1 g /\ k < g_w g /\ 1 <= n <= rows /\ n <= z /\
    let idx := z * g_n2 g + row * (g_n1 g * g_w g) + x * g_w g in
    nbr g m (x * g_w g) row idx n Yp k <> val g m (site_nbr (g_n1 g) Yp n (x, row + k * rows, z)).
Proof.
  exists (Geom 6 4 2 2 false), (fun i => i), 0, 1, 2, 0, 2.
  vm_compute. repeat split; try lia; discriminate.
Qed.
Print Assumptions stencil_short_rows_refuted.

Example stencil_ex : let g := Geom 8 4 2 2 false in
  wf_geom g /\ 2 * 2 <= g_n1 g / g_w g /\
  (* lane 0 of row 1: -y at distance 2 is site y = 7, in lane 1 of row 3 *)
  nbr g (fun i => i) 0 1 (2 * 64 + 1 * 16) 2 Ym 0 = cell g 0 7 2.
Proof. vm_compute. repeat split; lia. Qed.

(** C07 (and C06): whatever the block sizes and the thread schedule, a kernel call
    on slices z0 .. zF-1 sets the velocity and the destination field of every site
    of those slices to what F prescribes for the site, its periodic neighbours and
    its old velocity, and changes nothing else. Partial: the number of rows of
    vectors must be at least twice the stencil width. *)
Theorem kernel_updates_sites_partial {A} (g : geom) (F : pointfun A) (bY bZ : nat)
    (sched : nat -> nat -> list (nat * nat * nat)) (z0 zF : nat) (m v m2 : nat -> A) :
  wf_geom g -> uses_Ng g F -> 2 * g_Ng g <= g_n1 g / g_w g ->
  0 < bY -> 0 < bZ ->
  (forall zT yT, Permutation (sched zT yT) (block_iters g bY bZ)) ->
  g_Ng g <= z0 ->
  let '(v', m2') := kernel g F bY bZ sched (z0 * g_n2 g) (zF * g_n2 g) m (v, m2) in
  (forall x y z, x < g_n1 g -> y < g_n1 g -> z0 <= z < zF ->
     (v' (cell g x y (z - g_Ng g)), m2' (cell g x y z)) = point_result g F m v x y z) /\
  (forall j, (forall z, z0 <= z < zF ->
     ~ (z - g_Ng g) * g_n2 g <= j < (z - g_Ng g) * g_n2 g + g_n2 g) -> v' j = v j) /\
  (forall j, (forall z, z0 <= z < zF -> ~ z * g_n2 g <= j < z * g_n2 g + g_n2 g) -> m2' j = m2 j).
Proof.
  intros Hwf HF HY HbY HbZ Hs Hz.
  destruct (kernel_effect g Hwf bY bZ sched HbY HbZ Hs z0 zF F m v m2 Hz HF HY) as (H1 & H2 & H3).
  destruct (kernel g F bY bZ sched (z0 * g_n2 g) (zF * g_n2 g) m (v, m2)) as [v' m2'].
  cbn [fst snd] in *. split; [|auto].
  intros x y z Hx Hy Hr. destruct (H1 x y z Hx Hy Hr) as [-> ->]. now destruct (point_result g F m v x y z).
Qed.
Print Assumptions kernel_updates_sites_partial.

(** The cells of a range of slices are exactly the sites of those slices, so the
    three clauses above determine the whole result. *)
Lemma slice_cell (g : geom) z j : wf_geom g -> z * g_n2 g <= j < z * g_n2 g + g_n2 g ->
  exists x y, x < g_n1 g /\ y < g_n1 g /\ j = cell g x y z.
Proof.
  intros Hwf Hj. destruct (FolderProofs.vector_pos_surj g Hwf (j - z * g_n2 g) ltac:(lia)) as (x & y & Hx & Hy & E).
  exists x, y. unfold cell. repeat split; auto. lia.
Qed.

Lemma slice_dec (n2 a b j : nat) : 0 < n2 ->
  (exists z, a <= z < b /\ z * n2 <= j < z * n2 + n2) \/ (forall z, a <= z < b -> ~ z * n2 <= j < z * n2 + n2).
Proof.
  intros Hn. pose proof (Nat.div_mod j n2 ltac:(lia)). pose proof (Nat.mod_upper_bound j n2 ltac:(lia)).
  destruct (le_lt_dec a (j / n2)) as [C1|C1]; [destruct (lt_dec (j / n2) b) as [C2|C2]|].
  - left. exists (j / n2). split; [auto|lia].
  - right. intros z Hz Hj. assert (z = j / n2) by (apply Nat.div_unique with (r := j - z * n2); lia). lia.
  - right. intros z Hz Hj. assert (z = j / n2) by (apply Nat.div_unique with (r := j - z * n2); lia). lia.
Qed.

(** C07: two choices of block sizes and schedules give the same arrays, cell by
    cell, whatever F reads and however short the rows. *)
Theorem block_size_independent {A} (g : geom) (F : pointfun A)
    (bY bZ bY' bZ' : nat) (sched sched' : nat -> nat -> list (nat * nat * nat)) (z0 zF : nat) (m v m2 : nat -> A) :
  wf_geom g -> 0 < g_n1 g ->
  0 < bY -> 0 < bZ -> 0 < bY' -> 0 < bZ' ->
  (forall zT yT, Permutation (sched zT yT) (block_iters g bY bZ)) ->
  (forall zT yT, Permutation (sched' zT yT) (block_iters g bY' bZ')) ->
  g_Ng g <= z0 ->
  let st := kernel g F bY bZ sched (z0 * g_n2 g) (zF * g_n2 g) m (v, m2) in
  let st' := kernel g F bY' bZ' sched' (z0 * g_n2 g) (zF * g_n2 g) m (v, m2) in
  forall j, fst st j = fst st' j /\ snd st j = snd st' j.
Proof.
  intros Hwf Hn HbY HbZ HbY' HbZ' Hs Hs' Hz st st' j.
  destruct (kernel_raw g Hwf bY bZ sched HbY HbZ Hs z0 zF F m v m2 Hz Hn) as (H1 & H2 & H3).
  destruct (kernel_raw g Hwf bY' bZ' sched' HbY' HbZ' Hs' z0 zF F m v m2 Hz Hn) as (H1' & H2' & H3').
  fold st in H1, H2, H3. fold st' in H1', H2', H3'. cbv zeta in *.
  pose proof (n2_pos g Hn) as Hn2.
  split.
  - destruct (slice_dec (g_n2 g) (z0 - g_Ng g) (zF - g_Ng g) j Hn2) as [(z & Hr & Hj)|Hj].
    + destruct (slice_cell g z j Hwf Hj) as (x & y & Hx & Hy & ->).
      destruct (lane_of g Hwf y Hy) as (yC & k & HyC & Hk & ->).
      replace z with ((z + g_Ng g) - g_Ng g) by lia.
      rewrite (proj1 (H1 x yC k (z + g_Ng g) Hx HyC Hk ltac:(lia))), (proj1 (H1' x yC k (z + g_Ng g) Hx HyC Hk ltac:(lia))). auto.
    + rewrite H2, H2'; auto; intros z Hr; apply Hj; lia.
  - destruct (slice_dec (g_n2 g) z0 zF j Hn2) as [(z & Hr & Hj)|Hj].
    + destruct (slice_cell g z j Hwf Hj) as (x & y & Hx & Hy & ->).
      destruct (lane_of g Hwf y Hy) as (yC & k & HyC & Hk & ->).
      rewrite (proj2 (H1 x yC k z Hx HyC Hk Hr)), (proj2 (H1' x yC k z Hx HyC Hk Hr)). auto.
    + rewrite H3, H3'; auto.
Qed.
Print Assumptions block_size_independent.

(** The drift m += dz*d*v of updateMXeon, for every block size and schedule. *)
Theorem drift_updates_sites {A} (g : geom) (D : A -> A -> A) (bY bZ : nat)
    (sched : nat -> nat -> list (nat * nat * nat)) (zF : nat) (m v : nat -> A) :
  wf_geom g -> 0 < g_n1 g -> 0 < bY -> 0 < bZ ->
  (forall zT yT, Permutation (sched zT yT) (block_iters g bY bZ)) ->
  let '(v', m') := drift g D bY bZ sched (g_Ng g * g_n2 g) (zF * g_n2 g) (v, m) in
  (forall j, v' j = v j) /\
  (forall x y z, x < g_n1 g -> y < g_n1 g -> g_Ng g <= z < zF ->
     m' (cell g x y z) = D (m (cell g x y z)) (v (cell g x y (z - g_Ng g)))) /\
  (forall j, j < g_Ng g * g_n2 g \/ zF * g_n2 g <= j -> m' j = m j).
Proof.
  intros Hwf Hn HbY HbZ Hs.
  destruct (drift_effect g Hwf bY bZ sched HbY HbZ Hs (g_Ng g) zF D v m eq_refl Hn) as (H1 & H2 & H3).
  destruct (drift g D bY bZ sched (g_Ng g * g_n2 g) (zF * g_n2 g) (v, m)) as [v' m'].
  cbn [fst snd] in *. repeat split; auto.
  intros j Hj. apply H3. intros z Hz.
  assert (g_Ng g * g_n2 g <= z * g_n2 g) by (apply Nat.mul_le_mono_r; lia).
  assert ((z + 1) * g_n2 g <= zF * g_n2 g) by (apply Nat.mul_le_mono_r; lia). lia.
Qed.
Print Assumptions drift_updates_sites.

(** A concrete kernel call: 8x8 slices, two lanes, stencil width 1, blocks of 3 rows
    and 2 slices (neither divides the size), iterations in reverse order. *)
Definition lapF : pointfun nat := fun a f v => (v + f 1 Xp + f 1 Xm + f 1 Yp + f 1 Ym + f 1 Zp + f 1 Zm, a + 1).
Example kernel_ex : let g := Geom 8 3 1 2 false in
  wf_geom g /\ uses_Ng g lapF /\ 2 * g_Ng g <= g_n1 g / g_w g /\
  (forall zT yT : nat, Permutation (rev (block_iters g 3 2)) (block_iters g 3 2)) /\
  fst (kernel g lapF 3 2 (fun _ _ => rev (block_iters g 3 2)) (1 * 64) (4 * 64) (fun i => i) (fun i => i, fun _ => 0))
      (cell g 0 7 0) = fst (point_result g lapF (fun i => i) (fun i => i) 0 7 1).
Proof.
  intros g. split; [vm_compute; repeat split; lia|].
  split. { intros a v f f' H. unfold lapF. rewrite !H by (vm_compute; lia). reflexivity. }
  split; [vm_compute; lia|]. split; [intros; apply Permutation_sym, Permutation_rev|].
  vm_compute. reflexivity.
Qed.
