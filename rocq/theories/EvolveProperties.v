(** Claims C08 and C10. *)
From Coq Require Import List Arith Lia Bool Permutation.
From Verif Require Import Base FolderModel FolderSpec KernelModel KernelSpec KernelProofs GhostModel GhostProofs EvolveModel EvolveSpec EvolveProofs.
Import ListNotations.

(** C08: a kernel pass (inner slices while the ghosts hold arbitrary values, then
    the slices next to the ghosts) applies F exactly once to every owned site of
    every rank, to the values from before the pass and with up-to-date ghosts
    [sm (pass ...)], and touches no other slice of v or of the destination.
    Partial: needs Lz >= 2 Ng or Lz = Ng, and 2 Ng rows of vectors. *)
Theorem regions_tile_partial {A} (c : comm) (n : nat) (g : geom) (F : pointfun A) (e : env A)
    (src v dst : nat -> nat -> A) :
  good_slab n g -> 0 < c_chunk c -> wf_env c n g e -> uses_Ng g F ->
  let s := pass g F e src v dst in
  forall r x y z, r < n -> x < g_n1 g -> y < g_n1 g ->
    (g_Ng g <= z < g_Ng g + g_Lz g ->
      sm s r (cell g x y z) = src r (cell g x y z) /\
      (sv s r (cell g x y (z - g_Ng g)), sm2 s r (cell g x y z)) = point_result g F (sm s r) (v r) x y z) /\
    (g_Ng g + g_Lz g <= z ->
      sv s r (cell g x y (z - g_Ng g)) = v r (cell g x y (z - g_Ng g)) /\
      sm2 s r (cell g x y z) = dst r (cell g x y z)) /\
    (z < g_Ng g -> sm2 s r (cell g x y z) = dst r (cell g x y z)).
Proof.
  intros Hg Hc He HF s r x y z Hr Hx Hy.
  pose proof (arrived_owned c n g Hg Hc e src He) as Hown.
  destruct He as (_ & Hb & Hs). destruct Hg as (Hwf & _ & HY & HL).
  assert (HLN : g_Ng g <= g_Lz g) by lia.
  assert (Hm : forall x y z, x < g_n1 g -> y < g_n1 g -> g_Ng g <= z < g_Ng g + g_Lz g ->
     arrived e src r (cell g x y z) = src r (cell g x y z)).
  { intros x0 y0 z0 H1 H2 H3. apply Hown; auto. }
  split; [|split]; intros Hz.
  - split; [apply Hm; auto|].
    pose proof (pass_sites g Hwf HY F HF e r (Hb r) (Hs r) (src r) (arrived e src r) (v r) (dst r) HL Hm x y z Hx Hy Hz) as [K1 K2].
    change (sv s r (cell g x y (z - g_Ng g)) = fst (point_result g F (sm s r) (v r) x y z)) in K1.
    change (sm2 s r (cell g x y z) = snd (point_result g F (sm s r) (v r) x y z)) in K2.
    rewrite K1, K2. now destruct (point_result g F (sm s r) (v r) x y z).
  - pose proof (pass_frame g Hwf HY F HF e r (Hb r) (Hs r) (src r) (arrived e src r) (v r) (dst r) HLN x y z Hx Hy (or_intror Hz)) as [K1 K2].
    split; [apply K1; lia|exact K2].
  - exact (proj2 (pass_frame g Hwf HY F HF e r (Hb r) (Hs r) (src r) (arrived e src r) (v r) (dst r) HLN x y z Hx Hy (or_introl Hz))).
Qed.
Print Assumptions regions_tile_partial.

(** A default environment for the concrete cases: blocks of one row and one slice,
    iterations in order, messages delivered in order. *)
Definition env0 (g : geom) (n : nat) : env nat :=
  Env (fun _ _ => 999)
      (match sendGhosts 10 64 n (g_n2 g) (g_Ng g) (g_Lz g) with Some l => l | None => [] end)
      (fun _ _ => 1) (fun _ _ => 1) (fun _ _ _ _ => block_iters g 1 1).

(** Counts the updates of a site in its velocity. *)
Definition countF : pointfun nat := fun a f v => (v + 1, a).

(** C08 fails for Ng < Lz < 2 Ng: with 2 ghosts and 3 slices per rank the middle
    slice is kicked twice. *)
Theorem regions_overlap_refuted :
  exists g e r x y z, wf_geom g /\ 2 * g_Ng g <= g_n1 g / g_w g /\ g_Ng g < g_Lz g /\
    site g x y z /\
    sv (pass g countF e (fun _ _ => 0) (fun _ _ => 0) (fun _ _ => 0)) r (cell g x y z) = 2.
Proof.
  exists (Geom 4 3 2 1 false), (env0 (Geom 4 3 2 1 false) 1), 0, 0, 0, 1.
  vm_compute. repeat split; lia.
Qed.
Print Assumptions regions_overlap_refuted.

(** C08 fails for Lz < Ng: slices beyond the last owned one are updated; for v this
    is outside the buffer. *)
Theorem regions_overrun_refuted :
  exists g e r x y z, wf_geom g /\ 2 * g_Ng g <= g_n1 g / g_w g /\ 1 <= g_Lz g /\
    x < g_n1 g /\ y < g_n1 g /\ g_Lz g <= z /\
    sv (pass g countF e (fun _ _ => 0) (fun _ _ => 0) (fun _ _ => 0)) r (cell g x y z) = 1.
Proof.
  exists (Geom 4 1 2 1 false), (env0 (Geom 4 1 2 1 false) 1), 0, 0, 0, 1.
  vm_compute. repeat split; lia.
Qed.
Print Assumptions regions_overrun_refuted.

(** C10 (refinement): a time step on n ranks computes the time step of the whole
    periodic box, for every number of stages and whatever the environment does. *)
Theorem step_refines_box_partial {A} (c : comm) (n : nat) (g : geom)
    (first : option ((A -> A -> A) * env A)) stages (last : option (pointfun A * env A))
    (s : sys A) (MV : box A * box A) :
  good_slab n g -> 0 < c_chunk c ->
  (forall D e, first = Some (D, e) -> wf_env c n g e) ->
  (forall F1 e1 F2 e2, In ((F1, e1), (F2, e2)) stages ->
     uses_Ng g F1 /\ wf_env c n g e1 /\ uses_Ng g F2 /\ wf_env c n g e2) ->
  (forall F e, last = Some (F, e) -> uses_Ng g F /\ wf_env c n g e) ->
  holds n g MV s ->
  holds n g (box_run (g_n1 g) (n * g_Lz g) (option_map fst first)
               (map (fun p => (fst (fst p), fst (snd p))) stages) (option_map fst last) MV)
            (runCpu g first stages last s).
Proof.
  intros Hg Hc Hf Hs Hl Hh. apply (run_box c n g Hg Hc); auto.
  intros [[F1 e1] [F2 e2]] Hin. apply (Hs F1 e1 F2 e2 Hin).
Qed.
Print Assumptions step_refines_box_partial.

(** C10: two runs of the same box, cut into different numbers of ranks, with
    different vector widths, block sizes, schedules and message orders, end with
    the same field and velocity at every site. The scheme (drifts D, kernels F) is
    the same; only the environments differ. *)
Theorem rank_count_independent_partial {A} (c c' : comm) (n n' : nat) (g g' : geom)
    (first first' : option ((A -> A -> A) * env A)) stages stages' (last last' : option (pointfun A * env A))
    (s s' : sys A) (MV : box A * box A) :
  good_slab n g -> good_slab n' g' -> 0 < c_chunk c -> 0 < c_chunk c' ->
  g_n1 g = g_n1 g' -> n * g_Lz g = n' * g_Lz g' ->
  option_map fst first = option_map fst first' ->
  map (fun p => (fst (fst p), fst (snd p))) stages = map (fun p => (fst (fst p), fst (snd p))) stages' ->
  option_map fst last = option_map fst last' ->
  (forall D e, first = Some (D, e) -> wf_env c n g e) ->
  (forall D e, first' = Some (D, e) -> wf_env c' n' g' e) ->
  (forall F1 e1 F2 e2, In ((F1, e1), (F2, e2)) stages ->
     uses_Ng g F1 /\ wf_env c n g e1 /\ uses_Ng g F2 /\ wf_env c n g e2) ->
  (forall F1 e1 F2 e2, In ((F1, e1), (F2, e2)) stages' ->
     uses_Ng g' F1 /\ wf_env c' n' g' e1 /\ uses_Ng g' F2 /\ wf_env c' n' g' e2) ->
  (forall F e, last = Some (F, e) -> uses_Ng g F /\ wf_env c n g e) ->
  (forall F e, last' = Some (F, e) -> uses_Ng g' F /\ wf_env c' n' g' e) ->
  holds n g MV s -> holds n' g' MV s' ->
  forall r z r' z' x y, r < n -> z < g_Lz g -> r' < n' -> z' < g_Lz g' ->
    r * g_Lz g + z = r' * g_Lz g' + z' -> x < g_n1 g -> y < g_n1 g ->
    sm (runCpu g first stages last s) r (cell g x y (g_Ng g + z)) =
    sm (runCpu g' first' stages' last' s') r' (cell g' x y (g_Ng g' + z')) /\
    sv (runCpu g first stages last s) r (cell g x y z) =
    sv (runCpu g' first' stages' last' s') r' (cell g' x y z').
Proof.
  intros Hg Hg' Hc Hc' En ET Ef Es El Hf Hf' Hs Hs' Hl Hl' Hh Hh' r z r' z' x y Hr Hz Hr' Hz' Ez Hx Hy.
  pose proof (step_refines_box_partial c n g first stages last s MV Hg Hc Hf Hs Hl Hh r x y z Hr Hx Hy Hz) as [P1 P2].
  rewrite En in Hx, Hy.
  pose proof (step_refines_box_partial c' n' g' first' stages' last' s' MV Hg' Hc' Hf' Hs' Hl' Hh' r' x y z' Hr' Hx Hy Hz') as [Q1 Q2].
  rewrite P1, P2, Q1, Q2, En, ET, Ef, Es, El, Ez. auto.
Qed.
Print Assumptions rank_count_independent_partial.

(** Hypotheses met: a 4x4x4 box on one rank and on two ranks with two lanes, stencil
    width 1, one pair of stages; the same value at a site that sits next to a rank
    boundary in one of the runs. *)
Definition sumF : pointfun nat := fun a f v =>
  (v + f 1 Xp + f 1 Xm + f 1 Yp + 2 * f 1 Ym + f 1 Zp + 3 * f 1 Zm, a + v).
Definition init_box : box nat * box nat := (fun x y z => x + 2 * y + 5 * z, fun x y z => z).
Definition unpos (g : geom) (j : nat) : nat * nat * nat :=
  let p := j mod g_n2 g in
  ((p / g_w g) mod g_n1 g, p / (g_n1 g * g_w g) + (p mod g_w g) * (g_n1 g / g_w g), j / g_n2 g).
Definition init_sys (g : geom) : sys nat :=
  Sys (fun r i => let '(x, y, z) := unpos g i in fst init_box x y (r * g_Lz g + z - g_Ng g))
      (fun r i => let '(x, y, z) := unpos g i in snd init_box x y (r * g_Lz g + z))
      (fun _ _ => 0).
Example evolve_ex :
  let g1 := Geom 4 4 1 1 false in let g2 := Geom 4 2 1 2 false in
  good_slab 1 g1 /\ good_slab 2 g2 /\
  wf_env (Comm 64 10) 1 g1 (env0 g1 1) /\ wf_env (Comm 64 10) 2 g2 (env0 g2 2) /\
  uses_Ng g1 sumF /\
  (forall x y z, x < 4 -> y < 4 -> z < 4 ->
     sm (init_sys g1) 0 (cell g1 x y (1 + z)) = fst init_box x y z) /\
  sv (runCpu g1 None [((sumF, env0 g1 1), (sumF, env0 g1 1))] None (init_sys g1)) 0 (cell g1 0 3 2) =
  sv (runCpu g2 None [((sumF, env0 g2 2), (sumF, env0 g2 2))] None (init_sys g2)) 1 (cell g2 0 3 0) /\
  sv (runCpu g1 None [((sumF, env0 g1 1), (sumF, env0 g1 1))] None (init_sys g1)) 0 (cell g1 0 3 2) <> 2.
Proof.
  intros g1 g2. split; [vm_compute; repeat split; lia|]. split; [vm_compute; repeat split; lia|].
  split. { split; [|split; [simpl; auto|intros; apply Permutation_refl]].
           eexists; split; [vm_compute; reflexivity|apply Permutation_refl]. }
  split. { split; [|split; [simpl; auto|intros; apply Permutation_refl]].
           eexists; split; [vm_compute; reflexivity|apply Permutation_refl]. }
  split. { intros a v f f' H. unfold sumF. rewrite !H by (vm_compute; lia). reflexivity. }
  split. { intros x y z Hx Hy Hz.
    do 4 (destruct x as [|x]; [do 4 (destruct y as [|y]; [do 4 (destruct z as [|z]; [vm_compute; reflexivity|]); lia|]); lia|]). lia. }
  split; [vm_compute; reflexivity|vm_compute; discriminate].
Qed.
