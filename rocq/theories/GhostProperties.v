(** Claim C09: the ghost exchange. *)
From Coq Require Import List Arith Lia Bool Permutation.
From Verif Require Import GhostModel GhostSpec GhostProofs.
Import ListNotations.

(** C09: on any number n of ranks, any slice size sl (bytes) and any chunk size C,
    if a rank owns at least as many slices as it has ghosts, sendGhosts either stops
    the program (more than NMPICHUNK chunks) before any byte moves, or completes,
    and then, whatever the order in which the bytes of all messages arrive, every
    ghost slice holds its neighbour's boundary slice and nothing else has changed.
    Partial: needs Ng <= Lz. *)
Theorem ghost_exchange_partial {A} (NMPICHUNK C n sl Ng Lz : nat) (m : gmem A) :
  0 < C -> 0 < n -> Ng <= Lz ->
  (sendGhosts NMPICHUNK C n sl Ng Lz = None <-> NMPICHUNK < 1 + Ng * sl / C) /\
  (forall l order, sendGhosts NMPICHUNK C n sl Ng Lz = Some l -> Permutation order l ->
     ghosts_refreshed n sl Ng Lz Ng m (gcopies order m)).
Proof.
  intros HC Hn HL. split.
  - unfold sendGhosts, exchange. rewrite chunks1_length.
    destruct (NMPICHUNK <? 1 + Ng * sl / C) eqn:E.
    + apply Nat.ltb_lt in E. tauto.
    + apply Nat.ltb_ge in E. rewrite all_copies_ok by (auto; intros r Hr; apply in_seq in Hr; lia).
      split; [discriminate|intros; exfalso; apply (Nat.lt_irrefl NMPICHUNK); eapply Nat.lt_le_trans; eauto].
  - intros l order Hl HP. eapply exchange_ok; eauto. apply chunks1_covers; auto.
Qed.
Print Assumptions ghost_exchange_partial.

(** C09, for sendGhosts2 / exchangeGhosts, which can refresh only the [ng] slices
    nearest to the owned ones (all of them by default; a larger request is cut
    to Ng). *)
Theorem ghost_exchange2_partial {A} (NMPICHUNK C n sl Ng Lz : nat) (ng : option nat) (m : gmem A) :
  let k := match ng with None => Ng | Some q => Nat.min q Ng end in
  0 < C -> 0 < n -> k <= Lz ->
  (sendGhosts2 NMPICHUNK C n sl Ng Lz ng = None <-> NMPICHUNK < (k * sl + C - 1) / C) /\
  (forall l order, sendGhosts2 NMPICHUNK C n sl Ng Lz ng = Some l -> Permutation order l ->
     ghosts_refreshed n sl Ng Lz k m (gcopies order m)).
Proof.
  intros k HC Hn HL.
  assert (Ek : eff_Ng Ng ng = k).
  { unfold eff_Ng, k. destruct ng as [q|]; auto. destruct (Ng <? q) eqn:E;
    [apply Nat.ltb_lt in E|apply Nat.ltb_ge in E]; lia. }
  unfold sendGhosts2. rewrite Ek. split.
  - unfold exchange. rewrite chunks2_length by auto.
    destruct (NMPICHUNK <? (k * sl + C - 1) / C) eqn:E.
    + apply Nat.ltb_lt in E. tauto.
    + apply Nat.ltb_ge in E. rewrite all_copies_ok by (auto; intros r Hr; apply in_seq in Hr; lia).
      split; [discriminate|intros; exfalso; apply (Nat.lt_irrefl NMPICHUNK); eapply Nat.lt_le_trans; eauto].
  - intros l order Hl HP.
    assert (k <= Ng) by (unfold k; destruct ng; lia).
    eapply exchange_ok; eauto. apply chunks2_covers; auto.
Qed.
Print Assumptions ghost_exchange2_partial.

(** The exchange is idempotent: a second one without an update in between changes
    nothing. *)
Theorem ghost_exchange_idempotent_partial {A} (NMPICHUNK C n sl Ng Lz : nat) (m : gmem A) l o1 o2 :
  0 < C -> 0 < n -> Ng <= Lz ->
  sendGhosts NMPICHUNK C n sl Ng Lz = Some l -> Permutation o1 l -> Permutation o2 l ->
  forall p, gcopies o2 (gcopies o1 m) p = gcopies o1 m p.
Proof.
  intros HC Hn HL Hs P1 P2 p.
  destruct (ghost_exchange_partial NMPICHUNK C n sl Ng Lz m HC Hn HL) as [_ K1].
  destruct (ghost_exchange_partial NMPICHUNK C n sl Ng Lz (gcopies o1 m) HC Hn HL) as [_ K2].
  destruct (K1 l o1 Hs P1) as [A1 B1]. destruct (K2 l o2 Hs P2) as [A2 B2]. clear K1 K2.
  (* the owned slices were not touched by the first exchange *)
  assert (Own : forall r z i, r < n -> z < Lz -> i < sl -> gcopies o1 m (slab sl r (Ng + z) i) = m (slab sl r (Ng + z) i)).
  { intros r z i Hr Hz Hi. apply B1. intros r' z' i' Hr' Hz' Hi'. unfold slab.
    split; intros E; inversion E as [[E1 E2]].
    - assert (H : (Ng + z) * sl <= (Ng + z) * sl + i < (Ng + z) * sl + sl) by lia. rewrite E2 in H.
      assert ((Ng - Ng + z' + 1) * sl <= (Ng + z) * sl) by (apply Nat.mul_le_mono_r; lia). lia.
    - assert (H : (Ng + z) * sl <= (Ng + z) * sl + i < (Ng + z) * sl + sl) by lia. rewrite E2 in H.
      assert ((Ng + z + 1) * sl <= (Ng + Lz + z') * sl) by (apply Nat.mul_le_mono_r; lia). lia. }
  destruct (Nat.eq_dec sl 0) as [Hsl|Hsl].
  { apply B2. intros; lia. }
  (* either p is one of the ghost bytes or it is not *)
  destruct p as [r q].
  destruct (le_lt_dec n r) as [C1|C1].
  { apply B2. intros r' z' i' Hr' _ _. unfold slab. split; intros E; inversion E; lia. }
  pose proof (Nat.div_mod q sl ltac:(lia)) as Eq. pose proof (Nat.mod_upper_bound q sl ltac:(lia)) as Hq.
  assert (Ep : (r, q) = slab sl r (q / sl) (q mod sl)) by (unfold slab; f_equal; lia).
  destruct (lt_dec (q / sl) Ng) as [C2|C2].
  - rewrite Ep. destruct (A1 r (q / sl) (q mod sl) C1 C2 Hq) as [X1 _].
    destruct (A2 r (q / sl) (q mod sl) C1 C2 Hq) as [X2 _].
    replace (Ng - Ng + q / sl) with (q / sl) in X1, X2 by lia. rewrite X1, X2.
    replace (Ng + Lz - Ng + q / sl) with (Ng + (Lz - Ng + q / sl)) by lia.
    apply Own; auto; [destruct (r =? 0); lia|lia].
  - destruct (lt_dec (q / sl) (Ng + Lz)) as [C3|C3].
    + apply B2. intros r' z' i' _ Hz' Hi'. rewrite Ep. unfold slab.
      split; intros E; inversion E as [[E1 E2]].
      * assert ((Ng - Ng + z' + 1) * sl <= q / sl * sl) by (apply Nat.mul_le_mono_r; lia). lia.
      * assert ((q / sl + 1) * sl <= (Ng + Lz + z') * sl) by (apply Nat.mul_le_mono_r; lia). lia.
    + destruct (lt_dec (q / sl) (Ng + Lz + Ng)) as [C4|C4].
      * rewrite Ep. destruct (A1 r (q / sl - Ng - Lz) (q mod sl) C1 ltac:(lia) Hq) as [_ X1].
        destruct (A2 r (q / sl - Ng - Lz) (q mod sl) C1 ltac:(lia) Hq) as [_ X2].
        replace (Ng + Lz + (q / sl - Ng - Lz)) with (q / sl) in X1, X2 by lia. rewrite X1, X2.
        apply Own; auto; [|lia]. destruct (r =? n - 1) eqn:E; [lia|apply Nat.eqb_neq in E; lia].
      * apply B2. intros r' z' i' _ Hz' Hi'. rewrite Ep. unfold slab.
        split; intros E; inversion E as [[E1 E2]].
        -- assert ((Ng - Ng + z' + 1) * sl <= q / sl * sl) by (apply Nat.mul_le_mono_r; lia). lia.
        -- assert ((Ng + Lz + z' + 1) * sl <= q / sl * sl) by (apply Nat.mul_le_mono_r; lia). lia.
Qed.
Print Assumptions ghost_exchange_idempotent_partial.

(** C09 fails when a rank owns fewer slices than it has ghosts: ranks then send
    their own old ghosts. Three ranks with one slice each and two ghosts hold the
    slices 1, 2, 3 of a periodic box; after the exchange the outer front ghost of
    rank 2 is not slice 1 but the stale value that rank 1 had in its ghost. *)
Theorem ghost_thin_slab_refuted :
  exists n sl Ng Lz l, exists m : gmem nat, exists box : nat -> nat,
    0 < n /\ 1 <= Lz /\ (exists l0, sendGhosts 10 64 n sl Ng Lz = Some l0 /\ Permutation l0 l) /\
    (forall r z, r < n -> z < Lz -> m (slab sl r (Ng + z) 0) = box (r * Lz + z)) /\
    exists r, r < n /\ Ng <= r * Lz /\ gcopies l m (slab sl r 0 0) <> box (r * Lz - Ng).
Proof.
  exists 3, 1, 2, 1, (rev (match sendGhosts 10 64 3 1 2 1 with Some l => l | None => [] end)),
    (fun l => if snd l =? 2 then fst l + 1 else 0), (fun z => z + 1).
  split; [lia|]. split; [lia|]. split; [eexists; split; [reflexivity|apply Permutation_rev]|]. split.
  - intros r z Hr Hz. assert (z = 0) by lia. subst.
    destruct r as [|[|[|r]]]; try lia; reflexivity.
  - exists 2. split; [lia|]. split; [lia|]. vm_compute. discriminate.
Qed.
Print Assumptions ghost_thin_slab_refuted.

(** Exchanging the ghosts of v for a field type whose v has none (all but PAXION)
    overwrites owned slices of v. *)
Theorem ghost_exchange_v_refuted :
  exists n sl Ng Lz l, exists m : gmem nat,
    0 < n /\ Ng <= Lz /\ exchange 10 n (v_bufs false sl Ng Lz Ng) (chunks2 64 (Ng * sl)) = Some l /\
    exists r i, r < n /\ i < Lz * sl /\ gcopies l m (r, i) <> m (r, i).
Proof.
  exists 2, 1, 1, 2, (match exchange 10 2 (v_bufs false 1 1 2 1) (chunks2 64 1) with Some l => l | None => [] end),
    (fun l => 10 * fst l + snd l).
  repeat split; try lia. exists 0, 0. vm_compute. repeat split; try lia; try discriminate.
Qed.
Print Assumptions ghost_exchange_v_refuted.

(** For a PAXION v the buffers are those of m, so the theorems above apply. *)
Theorem ghost_exchange_v_paxion (sl Ng Lz k : nat) : v_bufs true sl Ng Lz k = m_bufs sl Ng Lz k.
Proof. reflexivity. Qed.
Print Assumptions ghost_exchange_v_paxion.

(** Hypotheses met: 3 ranks, 2 ghosts, 4 slices of 5 bytes, chunks of 4 bytes
    (3 chunks, the last one of 2 bytes), bytes delivered in reverse order. *)
Example ghost_ex : exists l, sendGhosts 10 4 3 5 2 4 = Some l /\ length l = 60 /\
  gcopies (rev l) (fun l => 100 * fst l + snd l) (slab 5 0 1 3) = 100 * 2 + 5 * 5 + 3 /\
  gcopies (rev l) (fun l => 100 * fst l + snd l) (slab 5 2 6 0) = 2 * 5.
Proof. eexists. split; [vm_compute; reflexivity|]. vm_compute. auto. Qed.
