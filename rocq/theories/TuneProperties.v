(** C18, C19: the block tuner. *)
From Coq Require Import List Arith Bool Lia.
From Verif Require Import TuneModel TuneSpec TuneProofs.
Import ListNotations.

(** ** C18: legal blocks, finitely many *)

(** The function used for the counting loop is the loop on W-valued unsigned integers. *)
Theorem counting_loop : forall W size b, b + 1 < W -> size < W ->
  count_up W size b (next size b) /\ forall r, count_up W size b r -> r = next size b.
Proof.
  intros W size b Hb Hs. split; [ now apply count_up_next | ].
  intros r H. eapply count_up_det; [ exact H | now apply count_up_next ].
Qed.

Lemma cpu_blocks_inside : forall xs ys zs b, 1 <= xs -> 2 <= ys -> 1 <= zs -> In b (cpu_blocks xs ys zs) -> inside b xs ys zs.
Proof.
  intros xs ys zs b Hx Hy Hz H. unfold cpu_blocks in H.
  destruct H as [<- | H]; [ cbn; lia | ].
  apply in_app_or in H as [H | H].
  - apply in_map_iff in H as (y & <- & H). apply in_divisors in H. cbn; lia.
  - apply in_flat_map in H as (z & Hd & H). apply in_map_iff in H as (y & <- & H).
    apply in_divisors in H. apply in_divisors in Hd. cbn; lia.
Qed.

(** On the CPU, with at least four rows per vector lane and whatever the times: tuning ends, exactly the blocks of
    the specification are tried, in order, and they fit in the grid. Missing: fewer
    rows, where the tuner crashes (next theorem). *)
Theorem cpu_tuning_blocks_partial : forall W mTB time Lx Lz shift,
  4 <= Lx / 2 ^ shift -> 1 <= Lz ->
  let blocks := cpu_blocks (Lx * 2 ^ shift) (Lx / 2 ^ shift) Lz in
  exists r, tuneLoop W mTB time (initCpu Lx Lz shift) blocks (Some r) /\
    (forall l' r', tuneLoop W mTB time (initCpu Lx Lz shift) l' r' -> l' = blocks /\ r' = Some r) /\
    (forall b, In b blocks -> inside b (Lx * 2 ^ shift) (Lx / 2 ^ shift) Lz).
Proof.
  intros W mTB time Lx Lz shift Hy Hz blocks.
  assert (Hp : 1 <= 2 ^ shift) by (apply Nat.neq_0_lt_0, Nat.pow_nonzero; lia).
  assert (Hx : 1 <= Lx * 2 ^ shift).
  { destruct Lx; [ rewrite Nat.div_0_l in Hy by lia; lia | ]. apply Nat.mul_le_mono with (n := 1) (p := 1); lia. }
  set (xs := Lx * 2 ^ shift) in *. set (ys := Lx / 2 ^ shift) in *.
  assert (At : at_cpu xs ys Lz 2 1 (initCpu Lx Lz shift)) by (unfold at_cpu, initCpu; cbn; auto 10).
  assert (E : blocks = cpu_rest xs ys Lz 2 1) by reflexivity.
  assert (R : exists r, tuneLoop W mTB time (initCpu Lx Lz shift) blocks (Some r)).
  { destruct (cpu_advance xs ys Lz 2 1 _ At Hy ltac:(lia) ltac:(lia)) as (t' & A & [(y' & z' & At2 & Hy' & Hz' & E' & L) | (T & E')]).
    - destruct (cpu_tuning W mTB time xs ys Lz Hy _ _ y' z' t' 1 (time 0) (le_n _) (le_n _) At2 Hy' Hz') as [r Tn].
      exists r. rewrite E, E'. change (xs, 2, 1) with (theBlock (initCpu Lx Lz shift)).
      apply tl_loop with t'; [ rewrite <- A; apply adv_cpu, At | exact Tn ].
    - eexists. rewrite E, E'. change (xs, 2, 1) with (theBlock (initCpu Lx Lz shift)).
      apply tl_loop with t'; [ rewrite <- A; apply adv_cpu, At | apply tn_end, T ]. }
  destruct R as [r R]. exists r. split; [ exact R | ]. split.
  - intros l' r' R'. destruct (tuneLoop_det _ _ _ _ _ _ R _ _ R') as [<- <-]. now split.
  - intros b Hb. apply cpu_blocks_inside; try assumption; lia.
Qed.

(** With one, two or three rows per lane the tuner divides by zero. *)
Theorem cpu_tuning_small_refuted : forall W mTB time Lx Lz shift,
  1 <= Lx / 2 ^ shift <= 3 -> exists l, tuneLoop W mTB time (initCpu Lx Lz shift) l None.
Proof.
  intros W mTB time Lx Lz shift Hy.
  set (t0 := initCpu Lx Lz shift).
  assert (G : isGpu t0 = false) by reflexivity.
  remember (Lx / 2 ^ shift) as ys eqn:E.
  assert (Ey : ySize t0 = ys) by (rewrite E; reflexivity).
  assert (C : ys = 1 \/ ys = 2 \/ ys = 3) by lia. destruct C as [C | [C | C]].
  - exists [theBlock t0]. apply tl_crash. replace (@None tun) with (advanceCpu t0); [ now apply adv_cpu | ].
    unfold advanceCpu. rewrite Ey, C. reflexivity.
  - exists [theBlock t0]. apply tl_crash. replace (@None tun) with (advanceCpu t0); [ now apply adv_cpu | ].
    unfold advanceCpu. rewrite Ey, C. reflexivity.
  - exists [theBlock t0; theBlock (setBlock t0 (xBlock t0, 3, zBlock t0))].
    apply tl_loop with (setBlock t0 (xBlock t0, 3, zBlock t0)).
    + replace (Some (setBlock t0 (xBlock t0, 3, zBlock t0))) with (advanceCpu t0); [ now apply adv_cpu | ].
      unfold advanceCpu. rewrite Ey, C. reflexivity.
    + apply tn_crash; [ reflexivity | ].
      match goal with |- advance _ _ ?t None => assert (A : advanceCpu t = None) end.
      { unfold advanceCpu. destruct (time 1 <? time 0); cbn [updateBest setBlock yBlock ySize]; rewrite Ey, C; reflexivity. }
      rewrite <- A. apply adv_cpu. destruct (time 1 <? time 0); reflexivity.
Qed.

(** On a GPU. Missing: slices of fewer than nine points. *)
Theorem gpu_tuning_blocks_partial : forall W mTB time Lx Lz mTx mTy,
  3 <= Lx -> 1 <= Lz -> Lx * Lx * Lz < W ->
  exists l r, tuneLoop W mTB time (initGpu Lx Lz mTx mTy) ((4, 1, 1) :: l) (Some r) /\
    (forall l' r', tuneLoop W mTB time (initGpu Lx Lz mTx mTy) l' r' -> l' = (4, 1, 1) :: l /\ r' = Some r) /\
    (forall b, In b ((4, 1, 1) :: l) -> inside b (Lx * Lx) Lz 1) /\
    (forall x y z, In (x, y, z) l -> (Lx * Lx) mod x = 0 /\ Lz mod y = 0 /\ x * y * z <= mTB).
Proof.
  intros W mTB time Lx Lz mTx mTy Hx Hz HW.
  set (t0 := initGpu Lx Lz mTx mTy). set (xs := Lx * Lx) in *.
  assert (H9 : 9 <= xs) by (apply (Nat.mul_le_mono 3 Lx 3 Lx); assumption).
  set (xm := if mTx <? xs then mTx else xs). set (ym := if mTy <? Lz then mTy else Lz).
  assert (Hxm : xm <= xs) by (subst xm; destruct (Nat.ltb_spec mTx xs); lia).
  assert (Hym : ym <= Lz) by (subst ym; destruct (Nat.ltb_spec mTy Lz); lia).
  assert (At : at_gpu xs Lz xm ym 4 1 t0) by (unfold at_gpu; cbn; auto 10).
  assert (R : exists l r, tuneLoop W mTB time t0 ((4, 1, 1) :: l) (Some r) /\ Forall (gpu_ok W mTB xs Lz) l).
  { destruct (gpu_advance W mTB xs Lz xm ym ltac:(lia) Hxm Hym _ 4 1 t0 (le_n _) At ltac:(lia) ltac:(lia) (Nat.mod_1_r _))
      as (t' & A & [(x' & y' & At2 & Ok & L) | T]).
    - destruct (gpu_tuning W mTB time xs Lz xm ym ltac:(lia) Hxm Hym _ x' y' t' 1 (time 0) (le_n _) At2) as (l & r & Tn & F).
      { unfold gpu_ok in Ok; lia. } { unfold gpu_ok in Ok; lia. } { unfold gpu_ok in Ok; intuition. }
      exists (theBlock t' :: l), r. split; [ exact (tl_loop _ _ _ _ _ _ _ A Tn) | ].
      constructor; [ | exact F ]. destruct At2 as (E1 & E2 & E3 & _). unfold theBlock. now rewrite E1, E2, E3.
    - exists [], (time 0, t'). split; [ | constructor ].
      exact (tl_loop _ _ _ _ _ _ _ A (tn_end _ _ _ _ _ _ T)). }
  destruct R as (l & r & R & F). exists l, r. split; [ exact R | ].
  rewrite Forall_forall in F. split; [ | split ].
  - intros l' r' R'. destruct (tuneLoop_det _ _ _ _ _ _ R _ _ R') as [<- <-]. now split.
  - intros b [<- | Hb]; [ cbn; lia | ]. apply F in Hb. destruct b as [[x y] z]. unfold gpu_ok in Hb. cbn; lia.
  - intros x y z Hb. apply F in Hb. unfold gpu_ok in Hb. destruct Hb as (B1 & B2 & -> & M1 & M2 & T).
    split; [ exact M1 | ]. split; [ exact M2 | ]. rewrite Nat.mul_1_r.
    assert (x * y <= xs * Lz) by (apply Nat.mul_le_mono; lia).
    rewrite Nat.mod_small in T by lia. exact T.
Qed.

Theorem gpu_tuning_small_refuted : forall W mTB time Lz mTx mTy,
  tuneLoop W mTB time (initGpu 2 Lz mTx mTy) [(4, 1, 1)] None.
Proof.
  intros W mTB time Lz mTx mTy. apply tl_crash. apply adv_gpu_crash; [ reflexivity | ].
  unfold stepGpu. cbn [initGpu xBlock xMax xSize]. change (2 * 2) with 4.
  destruct (Nat.ltb_spec mTx 4); destruct (Nat.ltb_spec 4 mTx); try lia; try reflexivity.
Qed.

(** A grid of side 48 in vectors of 4, 6 slices: the blocks tried. *)
Example cpu_blocks_ex :
  cpu_blocks (48 * 2 ^ 2) (48 / 2 ^ 2) 6 =
  [(192, 2, 1); (192, 3, 1); (192, 4, 1); (192, 6, 1); (192, 12, 1);
   (192, 4, 2); (192, 6, 2); (192, 12, 2); (192, 4, 3); (192, 6, 3); (192, 12, 3); (192, 4, 6); (192, 6, 6); (192, 12, 6)].
Proof. reflexivity. Qed.

(** ** C19: the fastest block wins; the cache is keyed *)

Theorem tuned_block_fastest : forall W mTB time t l best t',
  bestBlock t = theBlock t ->
  tuneLoop W mTB time t l (Some (best, t')) ->
  exists k, nth_error l k = Some (bestBlock t') /\ best = time k /\
    (forall j, j < length l -> time k <= time j) /\ (forall j, j < k -> time k < time j).
Proof.
  intros W mTB time t l best t' Hb H. inversion H as [ | t1 l1 r1 A T ]; subst.
  pose proof (advance_best _ _ _ _ A _ eq_refl) as AB.
  destruct (tuning_best _ _ _ _ _ _ _ _ T _ _ eq_refl) as (I1 & I2 & I3).
  destruct I3 as [[-> I3] | (k & K1 & K2 & K3 & K4 & K5)].
  - exists 0. cbn [nth_error]. split; [ congruence | ]. split; [ reflexivity | ]. split; [ | intros; lia ].
    intros [ | j ] Hj; [ lia | ]. cbn in Hj. apply (I1 j). lia.
  - exists (1 + k). cbn [nth_error plus]. split; [ exact K3 | ]. split; [ exact K2 | ]. split.
    + intros [ | j ] Hj; [ cbn in K2; lia | ]. cbn in Hj. cbn in K2. rewrite <- K2. apply (I1 j). lia.
    + intros [ | j ] Hj; [ cbn in K2; lia | ]. cbn in K2. rewrite <- K2. apply (K5 j). lia.
Qed.

Lemma initBlock_best : forall c shift mTx mTy, bestBlock (initBlock c shift mTx mTy) = theBlock (initBlock c shift mTx mTy).
Proof. intros c shift mTx mTy. unfold initBlock. destruct (cGpu c); reflexivity. Qed.

(** The field types the cache knows. *)
Definition known (k : fkind) : Prop := k = FSaxion \/ k = FAxion \/ k = FNaxion \/ k = FPaxion.
(** A line written for this run: same device, ranks, threads, grid, field type, ghosts. *)
Definition written_for (c : config) (k : fkind) (e : entry) : Prop :=
  eGpu e = cGpu c /\ eRanks e = cRanks c /\ eThreads e = cThreads c /\ eLx e = cLx c /\ eLz e = cLz c /\ eNg e = cNg c /\
  eKind e = kindCode k 0.

Lemma lookup_in : forall c junk t file b, lookup c junk t file = Some b ->
  exists e, In e file /\ eBlock e = b /\ keyMatches c junk e = true /\ blockFits c t b = true.
Proof.
  intros c junk t file b. induction file as [ | e file IH ]; cbn; intros H; [ discriminate | ].
  destruct (keyMatches c junk e && blockFits c t (eBlock e)) eqn:E.
  - injection H as <-. apply andb_true_iff in E as [E1 E2]. exists e. auto.
  - destruct (IH H) as (e' & H1 & H2). exists e'. auto.
Qed.
Lemma key_written : forall c junk e, known (cKind c) -> (keyMatches c junk e = true <-> written_for c (cKind c) e).
Proof.
  intros c junk e Hk. unfold keyMatches, written_for. rewrite !andb_true_iff, !Nat.eqb_eq, eqb_true_iff.
  assert (kindCode (cKind c) junk = kindCode (cKind c) 0) by (destruct Hk as [-> | [-> | [-> | ->]]]; reflexivity).
  rewrite H. tauto.
Qed.

(** Whatever the file holds and whatever the timings: the block in use afterwards is
    either one from a line written for this very configuration, or the fastest of the
    blocks timed, which is then added to the file. Missing: field types the cache does
    not know. *)
Theorem tuning_result_partial : forall W mTB time junk junk' canWrite c shift mTx mTy file t file' tried,
  known (cKind c) ->
  tunePropagator W mTB time junk junk' canWrite c shift mTx mTy file (Some (t, file', tried)) ->
  (exists e, In e file /\ written_for c (cKind c) e /\ theBlock t = eBlock e /\ bestBlock t = eBlock e /\ file' = file /\ tried = [])
  \/
  (exists k, nth_error tried k = Some (theBlock t) /\ bestBlock t = theBlock t /\
     (forall j, j < length tried -> time k <= time j) /\
     exists e, file' = file ++ [e] /\ written_for c (cKind c) e /\ eBlock e = theBlock t).
Proof.
  intros W mTB time junk junk' canWrite c shift mTx mTy file t file' tried Hk H.
  inversion H as [ b L E | | l best t1 L T K E | l best t1 L T K E ]; subst.
  - left. destruct (lookup_in _ _ _ _ _ L) as (e & H1 & H2 & H3 & H4). exists e.
    split; [ exact H1 | ]. split; [ now apply (key_written c junk e Hk) | ].
    destruct b as [[x y] z]. cbn. subst. rewrite H2. auto.
  - unfold known in Hk. rewrite K in Hk. intuition discriminate.
  - destruct canWrite; [ | discriminate ]. injection E as <- <- <-. right.
    destruct (tuned_block_fastest _ _ _ _ _ _ _ (initBlock_best c shift mTx mTy) T) as (k & N & _ & M & _).
    assert (Et : theBlock (setBest t1) = bestBlock t1) by (destruct t1; reflexivity).
    assert (Eb : bestBlock (setBest t1) = bestBlock t1) by (destruct t1; reflexivity).
    exists k. rewrite Et, Eb. repeat split; try assumption.
    eexists. split; [ reflexivity | ]. split; [ | reflexivity ].
    unfold written_for; cbn. repeat split. destruct Hk as [-> | [-> | [-> | ->]]]; reflexivity.
Qed.

Lemma lookup_app : forall c junk t f1 f2, lookup c junk t f1 = None -> lookup c junk t (f1 ++ f2) = lookup c junk t f2.
Proof.
  intros c junk t f1 f2. induction f1 as [ | e f1 IH ]; cbn; intros H; [ reflexivity | ].
  destruct (keyMatches c junk e && blockFits c t (eBlock e)); [ discriminate | now apply IH ].
Qed.
Lemma lookup_junk : forall c j1 j2 t f, known (cKind c) -> lookup c j1 t f = lookup c j2 t f.
Proof.
  intros c j1 j2 t f Hk. induction f as [ | e f IH ]; cbn; [ reflexivity | ].
  assert (keyMatches c j1 e = keyMatches c j2 e) as ->.
  { unfold keyMatches. destruct Hk as [-> | [-> | [-> | ->]]]; reflexivity. }
  now rewrite IH.
Qed.

(** Tuning again on the CPU with the file just written: the same block, nothing timed,
    nothing written. *)
Theorem tuning_again : forall W mTB time time' junk junk1 junk2 junk3 w w' c shift mTx mTy file t file' tried out,
  known (cKind c) -> cGpu c = false -> 4 <= cLx c / 2 ^ shift -> 1 <= cLz c ->
  tunePropagator W mTB time junk junk1 w c shift mTx mTy file (Some (t, file', tried)) ->
  tunePropagator W mTB time' junk2 junk3 w' c shift mTx mTy file' out ->
  exists t', out = Some (t', file', []) /\ theBlock t' = theBlock t /\ bestBlock t' = theBlock t /\ isTuned t' = true.
Proof.
  intros W mTB time time' junk junk1 junk2 junk3 w w' c shift mTx mTy file t file' tried out Hk Hg Hy Hz H H2.
  assert (L : exists b, lookup c junk2 (initBlock c shift mTx mTy) file' = Some b /\ theBlock t = b).
  { inversion H as [ b L E | | l best t1 L T K E | l best t1 L T K E ]; subst.
    - exists b. rewrite (lookup_junk c junk2 junk _ _ Hk). split; [ exact L | ]. destruct b as [[x y] z]; reflexivity.
    - unfold known in Hk. rewrite K in Hk. intuition discriminate.
    - destruct w; [ | discriminate ]. injection E as <- <- <-.
      exists (bestBlock t1). split; [ | destruct t1; reflexivity ].
      rewrite lookup_app by (rewrite (lookup_junk c junk2 junk _ _ Hk); exact L).
      cbn [lookup eBlock].
      match goal with |- context [ keyMatches c junk2 ?e ] => assert (KM : keyMatches c junk2 e = true) end.
      { apply key_written; [ assumption | ]. unfold written_for; cbn. repeat split.
        destruct Hk as [-> | [-> | [-> | ->]]]; reflexivity. }
      rewrite KM. cbn [andb].
      destruct (tuned_block_fastest _ _ _ _ _ _ _ (initBlock_best c shift mTx mTy) T) as (k & N & _).
      apply nth_error_In in N. unfold initBlock in *. rewrite Hg in *.
      destruct (cpu_tuning_blocks_partial W mTB time (cLx c) (cLz c) shift Hy Hz) as (r & _ & U & I).
      destruct (U _ _ T) as [-> _]. apply I in N. destruct (bestBlock t1) as [[x y] z].
      unfold blockFits. rewrite Hg. cbn [initCpu xBlock]. cbn in N.
      assert (Hp : 1 <= 2 ^ shift) by (apply Nat.neq_0_lt_0, Nat.pow_nonzero; lia).
      assert (Hx : cLx c <> 0) by (intros C; rewrite C, Nat.div_0_l in Hy by lia; lia).
      rewrite Nat.div_mul_cancel_l by lia.
      rewrite !(proj2 (Nat.leb_le _ _)) by lia. reflexivity. }
  destruct L as (b & L & E).
  inversion H2 as [ b0 L2 E2 | | | ]; try congruence.
  assert (Eb : b0 = theBlock t) by congruence. rewrite Eb.
  eexists. split; [ reflexivity | ]. destruct (theBlock t) as [[x y] z]. cbn. auto.
Qed.

(** An angle field with modulus has no code of its own in the cache: it can be given the
    block of another field type. *)
Theorem cache_unknown_field_refuted :
  exists c junk file b, cKind c = FAxionMod /\ lookup c junk (initBlock c 0 1 1) file = Some b /\
    forall e, In e file -> eBlock e = b -> written_for c FSaxion e.
Proof.
  exists (Config false 1 1 8 8 FAxionMod 1), 0, [Entry false 1 1 8 8 0 (8, 4, 2) 1], (8, 4, 2).
  split; [ reflexivity | ]. split; [ reflexivity | ].
  intros e [<- | []] _. unfold written_for; cbn. auto 10.
Qed.

(** A line with a zero size is used like any other. *)
Theorem cache_zero_block_refuted :
  exists c file b, known (cKind c) /\ lookup c 0 (initBlock c 0 1 1) file = Some b /\ ~ inside b (cLx c) (cLx c) (cLz c).
Proof.
  exists (Config false 1 1 8 8 FSaxion 1), [Entry false 1 1 8 8 0 (8, 0, 0) 1], (8, 0, 0).
  split; [ now left | ]. split; [ reflexivity | ]. cbn. lia.
Qed.

(** Field types outside the list of tunePropagator keep the last block looked at, not
    the best. *)
Theorem tuned_other_field_refuted :
  exists c time t file' tried, cKind c = FOther /\
    tunePropagator 100 1 time 0 0 true c 0 1 1 [] (Some (t, file', tried)) /\
    tried = [(4, 2, 1); (4, 4, 1)] /\ time 0 < time 1 /\ theBlock t = (4, 4, 1).
Proof.
  exists (Config false 1 1 4 1 FOther 1), (fun i => i),
    (Tun 4 4 1 4 2 1 4 4 1 4 4 1 true false), [], [(4, 2, 1); (4, 4, 1)].
  split; [ reflexivity | ]. split; [ | split; [ reflexivity | split; [ lia | reflexivity ] ] ].
  apply tp_other with (best := 0); [ reflexivity | | reflexivity ].
  apply (tl_loop 100 1 (fun i => i) (initCpu 4 1 0) (Tun 4 4 1 4 2 1 4 4 1 4 4 1 false false)).
  - exact (adv_cpu 100 1 (initCpu 4 1 0) eq_refl).
  - apply (tn_step 100 1 (fun i => i) 1 0 (Tun 4 4 1 4 2 1 4 4 1 4 4 1 false false) (Tun 4 4 1 4 2 1 4 4 1 4 4 1 true false) [] _ eq_refl).
    + exact (adv_cpu 100 1 (Tun 4 4 1 4 2 1 4 4 1 4 4 1 false false) eq_refl).
    + apply tn_end. reflexivity.
Qed.

(** A complete run from an empty directory: the second block is faster, is kept and is
    written. *)
Example tuning_ex :
  tunePropagator 100 1 (fun i => 10 - i) 0 0 true (Config false 1 1 4 1 FAxion 1) 0 1 1 []
    (Some (Tun 4 4 1 4 4 1 4 4 1 4 4 1 true false, [Entry false 1 1 4 1 1 (4, 4, 1) 1], [(4, 2, 1); (4, 4, 1)])).
Proof.
  apply (tp_tuned 100 1 (fun i => 10 - i) 0 0 true (Config false 1 1 4 1 FAxion 1) 0 1 1 [] [(4, 2, 1); (4, 4, 1)] 9
    (Tun 4 4 1 4 4 1 4 4 1 4 4 1 true false)); [ reflexivity | | discriminate ].
  apply (tl_loop 100 1 (fun i => 10 - i) (initCpu 4 1 0) (Tun 4 4 1 4 2 1 4 4 1 4 4 1 false false)).
  - exact (adv_cpu 100 1 (initCpu 4 1 0) eq_refl).
  - apply (tn_step 100 1 (fun i => 10 - i) 1 10 (Tun 4 4 1 4 2 1 4 4 1 4 4 1 false false) (Tun 4 4 1 4 4 1 4 4 1 4 4 1 true false) [] _ eq_refl).
    + exact (adv_cpu 100 1 (Tun 4 4 1 4 4 1 4 4 1 4 4 1 false false) eq_refl).
    + apply tn_end. reflexivity.
Qed.

Print Assumptions counting_loop.
Print Assumptions cpu_tuning_blocks_partial.
Print Assumptions cpu_tuning_small_refuted.
Print Assumptions gpu_tuning_blocks_partial.
Print Assumptions gpu_tuning_small_refuted.
Print Assumptions tuned_block_fastest.
Print Assumptions tuning_result_partial.
Print Assumptions tuning_again.
Print Assumptions cache_unknown_field_refuted.
Print Assumptions cache_zero_block_refuted.
Print Assumptions tuned_other_field_refuted.
