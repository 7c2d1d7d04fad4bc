(** Theorems about the halo mapping of the Gadget writer. *)
From Coq Require Import Lqa Lra Reals List Arith ZArith Bool Lia.
From Verif Require Import GadModel GadSpec GadProofs.
Import ListNotations.
Open Scope R_scope.
Ltac Zify.zify_post_hook ::= idtac.

(** ** Whole parts *)
Lemma Int_part_bounds x : IZR (Int_part x) <= x < IZR (Int_part x) + 1.
Proof. pose proof (base_Int_part x) as [A B]. lra. Qed.
Lemma Int_part_is x k : IZR k <= x < IZR k + 1 -> Int_part x = k.
Proof.
  intros [A B]. pose proof (Int_part_bounds x) as [C D]. assert (P : (Int_part x < k + 1)%Z) by (apply lt_IZR; rewrite plus_IZR; lra).
  assert (Q : (k < Int_part x + 1)%Z) by (apply lt_IZR; rewrite plus_IZR; lra). lia.
Qed.
Lemma firstTarget_near s : Rabs (IZR (firstTarget s) - s) <= 1 / 2.
Proof. unfold firstTarget. pose proof (Int_part_bounds (s + 1 / 2)). apply Rabs_le. lra. Qed.

(** ** The shares of the ranks *)
(** The normalised densities of a rank add up to its share, and the shares to the number of particles *)
Theorem share_is_sum n ranks roff np d r : Nat.Even roff -> (0 < roff)%nat -> sumN roff (hDen n ranks roff np d r) = hShare n ranks roff np d r.
Proof.
  intros E R0. unfold hShare. rewrite localMean_even by exact E. rewrite (sumN_ext _ _ (fun i => 1 / newMean n ranks roff np d * d r i)) by (intros i _; unfold hDen; ring).
  rewrite sumN_scale. replace (sumN roff (d r) / INR roff * INR roff) with (sumN roff (d r)) by (field; apply not_0_INR; lia). unfold Rdiv. ring.
Qed.
Theorem shares_add_up n ranks roff np d : Nat.Even roff -> (0 < roff)%nat -> (0 < ranks)%nat -> smallCube n -> (ranks * roff = n * n * n)%nat -> (0 < np)%nat -> sumN ranks (fun r => sumN roff (d r)) <> 0 ->
  sumN ranks (hShare n ranks roff np d) = INR np.
Proof.
  intros E R0 K S Q P NZ. assert (RN : INR roff <> 0) by (apply not_0_INR; lia). assert (KN : INR ranks <> 0) by (apply not_0_INR; lia). assert (PN : INR np <> 0) by (apply not_0_INR; lia).
  assert (CC : IZR (cells32 n) = INR ranks * INR roff).
  { rewrite <- mult_INR, Q. unfold cells32. rewrite Z.mod_small by (split; [lia|exact S]). rewrite INR_IZR_INZ. f_equal. lia. }
  assert (G : globalMean ranks roff d = sumN ranks (fun r => sumN roff (d r)) / (INR ranks * INR roff)).
  { rewrite globalMean_all by assumption. f_equal. rewrite sumN_sumL. apply sumL_ext. intros r _. symmetry. apply sumN_sumL. }
  rewrite (sumN_ext _ _ (fun r => / newMean n ranks roff np d * sumN roff (d r))).
  - rewrite sumN_scale. unfold newMean. rewrite G, CC. field. repeat split; assumption.
  - intros r _. unfold hShare. rewrite localMean_even by exact E. replace (sumN roff (d r) / INR roff * INR roff) with (sumN roff (d r)) by (field; exact RN). unfold Rdiv. ring.
Qed.
(** The targets of the ranks add up to the number of particles *)
Theorem targets_add_up np s ranks : (0 < ranks)%nat -> fold_right Z.add 0%Z (map (targets np s ranks) (seq 0 ranks)) = np.
Proof.
  intros K. destruct ranks as [|k]; [lia|]. assert (U : forall r, (0 < r)%nat -> targets np s (S k) r = firstTarget (s r)) by (intros r H; unfold targets; destruct r; [lia|reflexivity]).
  cbn [seq map fold_right]. rewrite (map_ext_in (targets np s (S k)) (fun q => firstTarget (s q)) (seq 1 k)) by (intros r I; apply U; apply in_seq in I; lia).
  unfold targets. cbn [Nat.eqb]. cbn [seq map fold_right]. set (x := fold_right _ _ _). lia.
Qed.
(** A rank other than the first gets its share, rounded *)
Theorem target_near_share np s ranks r : (0 < r)%nat -> Rabs (IZR (targets np s ranks r) - s r) <= 1 / 2.
Proof. intros H. unfold targets. destruct r; [lia|]. cbn [Nat.eqb]. apply firstTarget_near. Qed.

(** ** Balancing *)
Lemma sumZ_ext k f g : (forall i, (i < k)%nat -> f i = g i) -> sumZ k f = sumZ k g.
Proof. induction k; intros H; [reflexivity|]. cbn [sumZ]. rewrite IHk, (H k) by (try lia; intros; apply H; lia). reflexivity. Qed.
Lemma sumZ_upd k f i x : (i < k)%nat -> sumZ k (upd f i x) = (sumZ k f + (x - f i))%Z.
Proof.
  intros H. induction k as [|k IH]; [lia|]. cbn [sumZ]. unfold upd at 2. destruct (Nat.eq_dec i k) as [->|N].
  - rewrite Nat.eqb_refl. rewrite (sumZ_ext k (upd f k x) f); [lia|]. intros j J. unfold upd. replace (j =? k)%nat with false; [reflexivity|]. symmetry. apply Nat.eqb_neq. lia.
  - replace (k =? i)%nat with false by (symmetry; apply Nat.eqb_neq; lia). rewrite IH by lia. lia.
Qed.
Lemma sumZ_upd_out k f i x : (k <= i)%nat -> sumZ k (upd f i x) = sumZ k f.
Proof. intros H. apply sumZ_ext. intros j J. unfold upd. replace (j =? i)%nat with false; [reflexivity|]. symmetry. apply Nat.eqb_neq. lia. Qed.
Lemma sumZ_IZR k f : IZR (sumZ k f) = sumN k (fun i => IZR (f i)).
Proof. induction k; [reflexivity|]. cbn [sumZ sumN]. rewrite plus_IZR, IHk. reflexivity. Qed.
(** The counts of the sites add up to the total and each is within one particle of its density *)
Definition close (V : nat) (d : nat -> R) (s : bal) : Prop :=
  sumZ V (bCnt s) = bTot s /\ forall i, (i < V)%nat -> Rabs (IZR (bCnt s i) - d i) < 1.
Lemma bunched_close V d u junk : close V d (bunched V d u junk).
Proof.
  split.
  - cbn [bunched bCnt bTot]. apply sumZ_ext. intros i H. apply Nat.ltb_lt in H. rewrite H. reflexivity.
  - intros i H. cbn [bunched bCnt]. replace (i <? V)%nat with true by (symmetry; apply Nat.ltb_lt, H). unfold firstBunch. pose proof (Int_part_bounds (d i)) as B.
    destruct (u i); [destruct (Rlt_dec 0 (d i - IZR (Int_part (d i))))|]; rewrite plus_IZR; apply Rabs_def1; lra.
Qed.
Lemma balStep_close V d bits target s i u : (i < V)%nat -> close V d s -> close V d (balStep V d bits target s (i, u)).
Proof.
  intros H [A B]. unfold balStep. replace (i =? V)%nat with false by (symmetry; apply Nat.eqb_neq; lia). pose proof (B i H) as Bi. apply Rabs_def2 in Bi.
  assert (UP : forall x, Rabs (IZR x - d i) < 1 -> forall j, (j < V)%nat -> Rabs (IZR (upd (bCnt s) i x j) - d j) < 1).
  { intros x X j J. unfold upd. destruct (j =? i)%nat eqn:E; [apply Nat.eqb_eq in E; subst; exact X|apply B, J]. }
  destruct (Rlt_dec (IZR (bCnt s i)) (d i)) as [L|L]; [|destruct (Rlt_dec (d i) (IZR (bCnt s i))) as [G|G]].
  - destruct (bTot s <? target)%Z; [destruct u|]; try (split; assumption). split.
    + cbn [bCnt bTot]. rewrite sumZ_upd by exact H. lia.
    + cbn [bCnt]. apply UP. rewrite plus_IZR. apply Rabs_def1; lra.
  - destruct (target <? bTot s)%Z; [destruct u|]; try (split; assumption). split.
    + cbn [bCnt bTot]. rewrite sumZ_upd by exact H. lia.
    + cbn [bCnt]. apply UP. rewrite minus_IZR. apply Rabs_def1; lra.
  - split; assumption.
Qed.
(** When the draws stay on the sites, balancing ends with exactly the target, every site within one
    particle of its density *)
Theorem balanced_partial V d bits target u junk draws s : Forall (fun iu => (fst iu < V)%nat) draws -> balance V d bits target draws (bunched V d u junk) = Some s ->
  sumZ V (bCnt s) = target /\ (forall i, (i < V)%nat -> Rabs (IZR (bCnt s i) - d i) < 1) /\ (forall i, (i < V)%nat -> 0 <= d i -> (0 <= bCnt s i)%Z).
Proof.
  intros F. pose proof (bunched_close V d u junk) as C. revert F C. generalize (bunched V d u junk) as s0. induction draws as [|[i w] rest IH]; intros s0 F C H.
  - cbn [balance] in H. destruct (bTot s0 =? target)%Z eqn:E; [|discriminate]. injection H as <-. apply Z.eqb_eq in E. destruct C as [A B]. split; [lia|]. split; [exact B|].
    intros i I D. specialize (B i I). apply Rabs_def2 in B. assert (Q : -1 < IZR (bCnt s0 i)) by lra. change (-1) with (IZR (-1)) in Q. apply lt_IZR in Q. lia.
  - cbn [balance] in H. destruct (bTot s0 =? target)%Z eqn:E.
    + injection H as <-. apply Z.eqb_eq in E. destruct C as [A B]. split; [lia|]. split; [exact B|].
      intros j I D. specialize (B j I). apply Rabs_def2 in B. assert (Q : -1 < IZR (bCnt s0 j)) by lra. change (-1) with (IZR (-1)) in Q. apply lt_IZR in Q. lia.
    + inversion F as [|? ? F1 F2]; subst. apply (IH _ F2 (balStep_close V d bits target s0 i w F1 C) H).
Qed.
(** The draw goes one past the last site: the total then changes without any site changing, and the
    file misses a particle or has one too many *)
Theorem balanced_refuted V d bits target s : (0 < V)%nat -> (target < bTot s)%Z -> bits (bCnt s O) < IZR (bCnt s V) ->
  bTot (balStep V d bits target s (V, true)) = (bTot s - 1)%Z /\ (forall i, (i < V)%nat -> bCnt (balStep V d bits target s (V, true)) i = bCnt s i).
Proof.
  intros P T B. unfold balStep. rewrite Nat.eqb_refl. destruct (Rlt_dec (IZR (bCnt s V)) (bits (bCnt s O))); [lra|]. destruct (Rlt_dec (bits (bCnt s O)) (IZR (bCnt s V))); [|lra].
  replace (target <? bTot s)%Z with true by (symmetry; apply Z.ltb_lt; exact T). cbn [bTot bCnt]. split; [reflexivity|]. intros i H. unfold upd. replace (i =? V)%nat with false; [reflexivity|]. symmetry. apply Nat.eqb_neq. lia.
Qed.
Example balanced_short : exists d bits junk draws s, balance 2 d bits 1%Z draws (bunched 2 d (fun _ => true) junk) = Some s /\ sumZ 2 (bCnt s) = 2%Z.
Proof.
  exists (fun _ => 1 / 2), (fun _ => 0), 1%Z, [(2%nat, true)].
  assert (I : Int_part (1 / 2) = 0%Z) by (apply Int_part_is; lra).
  assert (FB : firstBunch (1 / 2) true = 1%Z) by (unfold firstBunch; rewrite I; destruct (Rlt_dec 0 (1 / 2 - 0)); [reflexivity|lra]).
  set (s0 := bunched 2 (fun _ => 1 / 2) (fun _ => true) 1). assert (T0 : bTot s0 = 2%Z) by (unfold s0; cbn [bunched bTot sumZ]; rewrite FB; reflexivity).
  destruct (balanced_refuted 2 (fun _ => 1 / 2) (fun _ => 0) 1 s0) as [A B]; [lia|lia|unfold s0; cbn; lra|]. rewrite T0 in A.
  eexists. split.
  - cbn [balance]. rewrite T0. change (2 =? 1)%Z with false. cbv iota. rewrite A. reflexivity.
  - cbn [sumZ]. rewrite !B by lia. unfold s0. cbn [bunched bCnt Nat.ltb Nat.leb]. rewrite FB. reflexivity.
Qed.
(** As long as a rank aims at its share, rounded, it can always go on: some draws end the loop *)
Lemma sumN_le k f g : (forall i, (i < k)%nat -> f i <= g i) -> sumN k f <= sumN k g.
Proof. induction k; intros H; cbn [sumN]; [lra|]. apply Rplus_le_compat; [apply IHk; intros; apply H; lia|apply H; lia]. Qed.
Lemma some_below V c d : sumN V (fun i => IZR (c i)) < sumN V d -> exists i, (i < V)%nat /\ IZR (c i) < d i.
Proof.
  induction V as [|V IH]; cbn [sumN]; intros H; [lra|]. destruct (Rlt_dec (IZR (c V)) (d V)) as [L|L]; [exists V; split; [lia|exact L]|].
  destruct IH as (i & I & Q); [lra|]. exists i. split; [lia|exact Q].
Qed.
Lemma some_above V c d : sumN V d < sumN V (fun i => IZR (c i)) -> exists i, (i < V)%nat /\ d i < IZR (c i).
Proof.
  induction V as [|V IH]; cbn [sumN]; intros H; [lra|]. destruct (Rlt_dec (d V) (IZR (c V))) as [L|L]; [exists V; split; [lia|exact L]|].
  destruct IH as (i & I & Q); [lra|]. exists i. split; [lia|exact Q].
Qed.
Theorem balancing_can_end V d bits target u junk : Rabs (IZR target - sumN V d) <= 1 / 2 ->
  exists draws s, Forall (fun iu => (fst iu < V)%nat) draws /\ balance V d bits target draws (bunched V d u junk) = Some s.
Proof.
  intros T. assert (T' : - (1 / 2) <= IZR target - sumN V d <= 1 / 2) by (split; [pose proof (Rle_abs (- (IZR target - sumN V d))) as Q; rewrite Rabs_Ropp in Q; lra|pose proof (Rle_abs (IZR target - sumN V d)); lra]).
  pose proof (bunched_close V d u junk) as C. revert C. generalize (bunched V d u junk) as s0. intros s0.
  assert (G : forall k s1, close V d s1 -> (Z.abs (bTot s1 - target) <= Z.of_nat k)%Z -> exists draws s, Forall (fun iu => (fst iu < V)%nat) draws /\ balance V d bits target draws s1 = Some s).
  { induction k as [|k IH]; intros s1 C B.
    - exists [], s1. split; [constructor|]. cbn [balance]. replace (bTot s1 =? target)%Z with true; [reflexivity|]. symmetry. apply Z.eqb_eq. lia.
    - destruct (Z.eq_dec (bTot s1) target) as [E|N].
      { exists [], s1. split; [constructor|]. cbn [balance]. replace (bTot s1 =? target)%Z with true; [reflexivity|]. symmetry. apply Z.eqb_eq. exact E. }
      destruct C as [A Cl]. pose proof (f_equal IZR A) as AR. rewrite sumZ_IZR in AR.
      assert (ST : exists i, (i < V)%nat /\ (Z.abs (bTot (balStep V d bits target s1 (i, true)) - target) <= Z.of_nat k)%Z).
      { destruct (Z_lt_dec (bTot s1) target) as [L|L].
        - assert (IL : IZR (bTot s1) + 1 <= IZR target) by (rewrite <- plus_IZR; apply IZR_le; lia).
          destruct (some_below V (bCnt s1) d) as (i & I & Q); [lra|]. exists i. split; [exact I|]. unfold balStep. replace (i =? V)%nat with false by (symmetry; apply Nat.eqb_neq; lia).
          destruct (Rlt_dec (IZR (bCnt s1 i)) (d i)); [|lra]. replace (bTot s1 <? target)%Z with true by (symmetry; apply Z.ltb_lt, L). cbn [bTot]. lia.
        - assert (IL : IZR target + 1 <= IZR (bTot s1)) by (rewrite <- plus_IZR; apply IZR_le; lia).
          destruct (some_above V (bCnt s1) d) as (i & I & Q); [lra|]. exists i. split; [exact I|]. unfold balStep. replace (i =? V)%nat with false by (symmetry; apply Nat.eqb_neq; lia).
          destruct (Rlt_dec (IZR (bCnt s1 i)) (d i)); [lra|]. destruct (Rlt_dec (d i) (IZR (bCnt s1 i))); [|lra]. replace (target <? bTot s1)%Z with true by (symmetry; apply Z.ltb_lt; lia). cbn [bTot]. lia. }
      destruct ST as (i & I & Q). destruct (IH _ (balStep_close V d bits target s1 i true I (conj A Cl)) Q) as (draws & s & F & H). exists ((i, true) :: draws), s. split; [constructor; assumption|].
      cbn [balance]. replace (bTot s1 =? target)%Z with false by (symmetry; apply Z.eqb_neq, N). exact H. }
  intros C. apply (G (Z.to_nat (Z.abs (bTot s0 - target)))); [exact C|lia].
Qed.
(** The first rank may be given another target than its share: when its densities are whole numbers it
    then loops for ever *)
Theorem balancing_can_end_refuted V d bits target s draws : (forall i, (i < V)%nat -> d i = IZR (bCnt s i)) -> bTot s <> target -> Forall (fun iu => (fst iu < V)%nat) draws ->
  balance V d bits target draws s = None.
Proof.
  intros D N. induction draws as [|[i u] rest IH]; intros F; cbn [balance]; (replace (bTot s =? target)%Z with false by (symmetry; apply Z.eqb_neq, N)); [reflexivity|].
  inversion F as [|? ? F1 F2]; subst. cbn [fst] in F1. replace (balStep V d bits target s (i, u)) with s; [apply IH, F2|]. unfold balStep. replace (i =? V)%nat with false by (symmetry; apply Nat.eqb_neq; lia).
  rewrite D by exact F1. destruct (Rlt_dec (IZR (bCnt s i)) (IZR (bCnt s i))); [lra|]. reflexivity.
Qed.
(** Four ranks with 4, 2.4, 2.4 and 3.2 particles: the first one, with one particle at each of its four sites, must find a fifth *)
Example first_rank_stuck : exists s : nat -> R, s 0%nat + s 1%nat + s 2%nat + s 3%nat = 12 /\ s 0%nat = sumN 4 (fun _ => 1) /\ targets 12 s 4 0 = 5%Z /\
  forall bits u junk draws, Forall (fun iu => (fst iu < 4)%nat) draws -> balance 4 (fun _ => 1) bits 5 draws (bunched 4 (fun _ => 1) u junk) = None.
Proof.
  exists (fun r => match r with O => 4 | 1%nat => 12 / 5 | 2%nat => 12 / 5 | _ => 16 / 5 end). split; [lra|]. split; [cbn [sumN]; lra|].
  assert (I1 : Int_part 1 = 1%Z) by (apply Int_part_is; lra). split.
  - unfold targets. cbn [Nat.eqb seq map fold_right]. unfold firstTarget.
    replace (Int_part (4 + 1 / 2)) with 4%Z by (symmetry; apply Int_part_is; lra). replace (Int_part (12 / 5 + 1 / 2)) with 2%Z by (symmetry; apply Int_part_is; lra). replace (Int_part (16 / 5 + 1 / 2)) with 3%Z by (symmetry; apply Int_part_is; lra). reflexivity.
  - intros bits u junk draws F. assert (FB : forall b, firstBunch 1 b = 1%Z) by (intros []; unfold firstBunch; rewrite I1; [destruct (Rlt_dec 0 (1 - 1)); [lra|reflexivity]|reflexivity]).
    apply balancing_can_end_refuted; [| |exact F].
    + intros i H. cbn [bunched bCnt]. replace (i <? 4)%nat with true by (symmetry; apply Nat.ltb_lt, H). rewrite FB. reflexivity.
    + cbn [bunched bTot sumZ]. rewrite !FB. discriminate.
Qed.

(** ** The slabs of one rank *)
Lemma placeSome_spec slab : forall k t, (t < slab)%nat -> placeSome slab k t = (Nat.min k (slab - t), (k - Nat.min k (slab - t))%nat).
Proof.
  induction k as [|k IH]; intros t T; cbn [placeSome]; [reflexivity|]. destruct (S t =? slab)%nat eqn:E.
  - apply Nat.eqb_eq in E. replace (slab - t)%nat with 1%nat by lia. f_equal; lia.
  - apply Nat.eqb_neq in E. rewrite IH by lia. f_equal; lia.
Qed.
Lemma expandAll_S n cnt a m : expandAll n cnt a (S m) = repeat (coordOf n a) (cnt a) ++ expandAll n cnt (S a) m.
Proof. reflexivity. Qed.
Lemma fillHalo_spec n slab V cnt : (0 < n)%nat -> (forall i, (i < V)%nat -> (cnt i <= S slab)%nat) -> forall m fuel idx t, (m <= fuel)%nat -> (idx + m = V)%nat -> (t <= slab)%nat -> (slab <= t + length (expandAll n cnt idx m))%nat ->
  exists l i rm, fillHalo n slab V cnt fuel idx (coordOf n idx) t = (l, i, rm) /\ (t + length l = slab)%nat /\ (idx <= i <= V)%nat /\ (rm <= slab)%nat /\ expandAll n cnt idx m = l ++ repeat (coordOf n (i - 1)) rm ++ expandAll n cnt i (V - i).
Proof.
  intros N CB. induction m as [|m IH]; intros fuel idx t F E T L.
  - cbn [expandAll flat_map seq length] in L. change (length (expandAll n cnt idx 0)) with 0%nat in L. exists [], idx, 0%nat. split; [|split; [cbn; lia|split; [lia|split; [lia|]]]].
    + destruct fuel; [reflexivity|]. cbn [fillHalo]. replace (idx <? V)%nat with false by (symmetry; apply Nat.ltb_ge; lia). reflexivity.
    + replace (V - idx)%nat with 0%nat by lia. reflexivity.
  - destruct fuel as [|fuel]; [lia|]. cbn [fillHalo]. replace (idx <? V)%nat with true by (symmetry; apply Nat.ltb_lt; lia). destruct (Nat.eq_dec t slab) as [->|NT].
    { rewrite Nat.ltb_irrefl. cbn [andb]. exists [], idx, 0%nat. split; [reflexivity|]. split; [cbn; lia|]. split; [lia|]. split; [lia|]. replace (V - idx)%nat with (S m) by lia. reflexivity. }
    replace (t <? slab)%nat with true by (symmetry; apply Nat.ltb_lt; lia). cbn [andb]. rewrite placeSome_spec by lia. pose proof (CB idx ltac:(lia)) as Ci. set (p := Nat.min (cnt idx) (slab - t)) in *.
    rewrite expandAll_S in *. rewrite app_length, repeat_length in L. destruct (t + p =? slab)%nat eqn:Q.
    + apply Nat.eqb_eq in Q. exists (repeat (coordOf n idx) p), (S idx), (cnt idx - p)%nat. split; [reflexivity|]. rewrite repeat_length. split; [lia|]. split; [lia|]. split; [lia|].
      replace (S idx - 1)%nat with idx by lia. replace (V - S idx)%nat with m by lia. rewrite app_assoc, <- repeat_app. f_equal. f_equal. lia.
    + apply Nat.eqb_neq in Q. assert (PE : p = cnt idx) by lia. rewrite stepCoord_at by exact N. destruct (IH fuel (S idx) (t + p)%nat) as (l & i & rm & Q1 & Q2 & Q3 & Q4 & Q5); [lia|lia|lia|lia|].
      rewrite Q1. exists (repeat (coordOf n idx) p ++ l), i, rm. split; [reflexivity|]. rewrite app_length, repeat_length. split; [lia|]. split; [lia|]. split; [exact Q4|]. rewrite Q5, PE, <- app_assoc. reflexivity.
Qed.
Lemma haloSlabs_spec n slab V cnt : (0 < n)%nat -> (forall i, (i < V)%nat -> (cnt i <= S slab)%nat) -> forall k lPos remain buf, (lPos <= V)%nat -> (remain <= slab)%nat ->
  let pending := repeat (coordOf n (lPos - 1)) remain ++ expandAll n cnt lPos (V - lPos) in
  (k * slab <= length pending)%nat -> haloSlabs n slab V cnt k lPos remain buf = Some (map Some (firstn (k * slab) pending)).
Proof.
  intros N CB. induction k as [|k IH]; intros lPos remain buf LP RM pending L; [reflexivity|]. cbn [haloSlabs]. unfold pending in L. rewrite app_length, repeat_length in L. cbn [Nat.mul] in L.
  destruct (fillHalo_spec n slab V cnt N CB (V - lPos) V lPos remain) as (l & i & rm & Q1 & Q2 & Q3 & Q4 & Q5); [lia|lia|lia|lia|]. rewrite Q1.
  assert (LL : length (repeat (coordOf n (lPos - 1)) remain ++ l) = slab) by (rewrite app_length, repeat_length; exact Q2).
  rewrite LL, Nat.ltb_irrefl. rewrite refill_full by exact LL. pose proof (f_equal (@length _) Q5) as LQ. rewrite !app_length, repeat_length in LQ.
  rewrite IH by (try lia; rewrite app_length, repeat_length; lia). unfold pending. rewrite Q5, app_assoc. set (head := repeat (coordOf n (lPos - 1)) remain ++ l) in *. set (back := repeat (coordOf n (i - 1)) rm ++ expandAll n cnt i (V - i)).
  rewrite <- map_app. do 2 f_equal. rewrite (firstn_app _ head back), LL. cbn [Nat.mul].
  replace (slab + k * slab - slab)%nat with (k * slab)%nat by lia. rewrite (firstn_all2 head) by lia. reflexivity.
Qed.
(** On one rank, with no site holding more than a slab and one of particles, the file is the list of all particles, site by site,
    each as often as its count says *)
Theorem halo_file_partial n slab V cnt k buf : (0 < n)%nat -> (forall i, (i < V)%nat -> (cnt i <= S slab)%nat) -> length (expandAll n cnt 0 V) = (k * slab)%nat ->
  haloSlabs n slab V cnt k 0 0 buf = Some (map Some (expandAll n cnt 0 V)).
Proof.
  intros N CB L. pose proof (haloSlabs_spec n slab V cnt N CB k 0 0 buf ltac:(lia) ltac:(lia)) as H. cbn [repeat app] in H. rewrite Nat.sub_0_r in H. rewrite H by lia. rewrite firstn_all2 by lia. reflexivity.
Qed.
(** When the number of particles is not a multiple of the slab, the last ones are dropped *)
Theorem halo_file_refuted n slab V cnt buf : (0 < n)%nat -> (0 < slab)%nat -> (forall i, (i < V)%nat -> (cnt i <= S slab)%nat) -> let np := length (expandAll n cnt 0 V) in (np mod slab <> 0)%nat ->
  exists f, haloSlabs n slab V cnt (np / slab) 0 0 buf = Some f /\ (length f < np)%nat.
Proof.
  intros N S0 CB np M. pose proof (Nat.div_mod np slab ltac:(lia)) as D. pose proof (haloSlabs_spec n slab V cnt N CB (np / slab) 0 0 buf ltac:(lia) ltac:(lia)) as H. cbn [repeat app] in H. rewrite Nat.sub_0_r in H. fold np in H.
  eexists. split; [apply H; rewrite (Nat.mul_comm (np / slab)); lia|]. rewrite map_length, firstn_length. fold np. rewrite (Nat.mul_comm (np / slab)). lia.
Qed.
(** A site with more than two slabs of particles, first on its rank: the second slab is written past its buffer *)
Theorem halo_overrun_refuted n slab V cnt k buf : (1 < slab)%nat -> (0 < V)%nat -> (2 * slab < cnt 0)%nat -> haloSlabs n slab V cnt (S (S k)) 0 0 buf = None.
Proof.
  intros S0 V0 C. cbn [haloSlabs]. assert (F1 : fillHalo n slab V cnt V 0 (coordOf n 0) 0 = (repeat (coordOf n 0) slab, 1%nat, (cnt 0 - slab)%nat)).
  { destruct V as [|V']; [lia|]. cbn [fillHalo]. replace (0 <? S V')%nat with true by reflexivity. replace (0 <? slab)%nat with true by (symmetry; apply Nat.ltb_lt; lia). cbn [andb]. rewrite placeSome_spec by lia. rewrite Nat.sub_0_r.
    replace (Nat.min (cnt 0%nat) slab) with slab by lia. cbn [Nat.add]. rewrite Nat.eqb_refl. reflexivity. }
  rewrite F1. cbn [repeat app]. rewrite repeat_length, Nat.ltb_irrefl.
  destruct (fillHalo n slab V cnt V 1 (coordOf n 1) (cnt 0%nat - slab)) as [[l2 i2] rm2]. rewrite app_length, repeat_length. replace (slab <? cnt 0 - slab + length l2)%nat with true by (symmetry; apply Nat.ltb_lt; lia). reflexivity.
Qed.
Example halo_file_two : haloSlabs 2 4 8 (fun i => if (i =? 3)%nat then 5%nat else if (i <? 3)%nat then 1%nat else 0%nat) 2 0 0 (repeat None 4)
  = Some (map Some [(0, 0, 0); (1, 0, 0); (0, 1, 0); (1, 1, 0); (1, 1, 0); (1, 1, 0); (1, 1, 0); (1, 1, 0)]%nat).
Proof. reflexivity. Qed.

(** ** Particles sent to another rank *)
Fixpoint total (l : list nat) : nat := match l with [] => 0%nat | k :: tl => (k + total tl)%nat end.
Lemma receive_length n l : forall c, length (receive n c l) = total l.
Proof. induction l as [|k tl IH]; intros c; [reflexivity|]. cbn [receive total]. rewrite app_length, repeat_length, IH. reflexivity. Qed.
Lemma prepare_spec n slab toSend : (0 < n)%nat -> forall rest lPos i pSent b i' r' lp ps, (pSent < toSend)%nat -> (i < slab)%nat -> prepare slab toSend rest lPos i pSent = Some (b, i', r', lp, ps) ->
  receive n (coordOf n lPos) rest = receive n (coordOf n lPos) b ++ receive n (coordOf n lp) r' /\ (pSent + total b = ps)%nat /\ (ps <= toSend)%nat /\ (i' <= slab)%nat /\ (i' <> slab -> ps = toSend) /\
  (if (i' =? slab)%nat then lp else S lp) = (lPos + length b)%nat.
Proof.
  intros N. induction rest as [|k tl IH]; intros lPos i pSent b i' r' lp ps PS IS H; cbn [prepare] in H; [discriminate|]. set (p := Nat.min k (toSend - pSent)) in *.
  destruct (pSent + p <? toSend)%nat eqn:Q.
  - apply Nat.ltb_lt in Q. assert (PK : p = k) by lia. destruct (S i =? slab)%nat eqn:E.
    + apply Nat.eqb_eq in E. injection H as <- <- <- <- <-. cbn [receive total length]. rewrite E, Nat.eqb_refl, stepCoord_at, PK, app_nil_r by exact N. repeat split; lia.
    + apply Nat.eqb_neq in E. destruct (prepare slab toSend tl (S lPos) (S i) (pSent + p)) as [[[[[b0 i0] r0] lp0] ps0]|] eqn:Z; [|discriminate]. injection H as <- <- <- <- <-.
      destruct (IH (S lPos) (S i) (pSent + p)%nat _ _ _ _ _ Q ltac:(lia) Z) as (A1 & A2 & A3 & A4 & A5 & A6). cbn [receive total length]. rewrite stepCoord_at, A1, PK by exact N. rewrite <- app_assoc. repeat split; lia.
  - apply Nat.ltb_ge in Q. injection H as <- <- <- <- <-. cbn [receive total length]. rewrite app_nil_r. replace (i =? slab)%nat with false by (symmetry; apply Nat.eqb_neq; lia).
    split; [|repeat split; lia]. rewrite app_assoc, <- repeat_app. f_equal. f_equal. lia.
Qed.
(** The particles a rank still has to place: what is left of the last site it used, and the sites it has not *)
Definition pendingOf (n remain : nat) (rest : list nat) (lPos : nat) : list (nat * nat * nat) := repeat (coordOf n (lPos - 1)) remain ++ receive n (coordOf n lPos) rest.
(** Whatever is sent is placed by the receiver at the sites it came from, and with what the sender keeps it is what the
    sender had: no particle is lost or doubled, and no more are sent than were asked for or are in excess *)
Theorem transfer_keeps_particles n lz rSend slab missing excess remain rest lPos sent iPos ePos buf rest' lPos' : (0 < n)%nat -> (1 < slab)%nat -> (remain <> 0%nat -> (0 < lPos)%nat) ->
  sendTo slab missing excess remain rest lPos = Sends sent iPos ePos buf rest' lPos' ->
  map (lift n lz rSend) (pendingOf n remain rest lPos) = received n lz rSend iPos ePos buf ++ map (lift n lz rSend) (pendingOf n 0 rest' lPos') /\
  length (received n lz rSend iPos ePos buf) = sent /\ (sent <= missing)%nat /\ (sent <= excess)%nat.
Proof.
  intros N S1 LP H. unfold sendTo in H. set (toSend := if (excess <? missing)%nat then excess else missing) in *. set (p0 := Nat.min remain toSend) in *.
  destruct (p0 =? toSend)%nat eqn:E; [discriminate|]. apply Nat.eqb_neq in E. assert (P0 : p0 = remain) by lia. assert (TS : (toSend <= missing)%nat /\ (toSend <= excess)%nat) by (unfold toSend; destruct (excess <? missing)%nat eqn:X; [apply Nat.ltb_lt in X|apply Nat.ltb_ge in X]; lia).
  destruct (prepare slab toSend rest lPos (if (remain =? 0)%nat then 0%nat else 1%nat) p0) as [[[[[b i] r] lp] ps]|] eqn:Z; [|discriminate].
  assert (I0 : ((if (remain =? 0)%nat then 0%nat else 1%nat) < slab)%nat) by (destruct (remain =? 0)%nat; lia).
  destruct (prepare_spec n slab toSend N rest lPos (if (remain =? 0)%nat then 0%nat else 1%nat) p0 _ _ _ _ _ ltac:(lia) I0 Z) as (A1 & A2 & A3 & A4 & A5 & A6). cbv zeta in H. rewrite A6 in H. injection H as <- <- <- <- <- <-. unfold received, pendingOf. cbn [repeat app]. rewrite A1, map_app.
  assert (SE : (if (i =? slab)%nat then ps else toSend) = ps) by (destruct (i =? slab)%nat eqn:X; [reflexivity|]; apply Nat.eqb_neq in X; symmetry; apply A5, X).
  rewrite SE. destruct (remain =? 0)%nat eqn:RZ.
  - apply Nat.eqb_eq in RZ. rewrite RZ in *. cbn [repeat app map]. replace (lPos + length b - lPos)%nat with (length b) by lia. rewrite firstn_all. split; [rewrite map_app; reflexivity|]. rewrite map_length, receive_length. lia.
  - apply Nat.eqb_neq in RZ. specialize (LP RZ). cbn [app]. replace (lPos + length b - (lPos - 1))%nat with (S (length b)) by lia. cbn [firstn]. rewrite firstn_all. cbn [receive]. rewrite stepCoord_at by exact N.
    replace (S (lPos - 1)) with lPos by lia. rewrite P0 in *. split; [rewrite !map_app, <- app_assoc; reflexivity|]. rewrite map_length, app_length, repeat_length, receive_length. lia.
Qed.
(** A sender whose last site alone has as many particles left as it must send leaves the loop without sending anything: the
    receiver waits for ever *)
Theorem sender_answers_refuted slab missing excess remain rest lPos : (Nat.min missing excess <= remain)%nat -> sendTo slab missing excess remain rest lPos = Silent.
Proof.
  intros H. unfold sendTo. set (toSend := if (excess <? missing)%nat then excess else missing). assert (TS : toSend = Nat.min missing excess) by (unfold toSend; destruct (excess <? missing)%nat eqn:X; [apply Nat.ltb_lt in X|apply Nat.ltb_ge in X]; lia).
  replace (Nat.min remain toSend =? toSend)%nat with true by (symmetry; apply Nat.eqb_eq; lia). reflexivity.
Qed.
(** In every other case it answers, if it has the particles it is said to have *)
Lemma prepare_some slab toSend : forall rest lPos i pSent, (pSent < toSend)%nat -> (toSend <= pSent + total rest)%nat -> prepare slab toSend rest lPos i pSent <> None.
Proof.
  induction rest as [|k tl IH]; intros lPos i pSent PS T; cbn [total] in T; [lia|]. cbn [prepare]. destruct (pSent + Nat.min k (toSend - pSent) <? toSend)%nat eqn:Q; [|discriminate].
  apply Nat.ltb_lt in Q. destruct (S i =? slab)%nat; [discriminate|]. specialize (IH (S lPos) (S i) (pSent + Nat.min k (toSend - pSent))%nat Q ltac:(lia)).
  destruct (prepare _ _ _ _ _ _) as [[[[[? ?] ?] ?] ?]|]; [discriminate|congruence].
Qed.
Theorem sender_answers_partial slab missing excess remain rest lPos : (remain < Nat.min missing excess)%nat -> (Nat.min missing excess <= remain + total rest)%nat ->
  exists sent iPos ePos buf rest' lPos', sendTo slab missing excess remain rest lPos = Sends sent iPos ePos buf rest' lPos'.
Proof.
  intros H T. unfold sendTo. set (toSend := if (excess <? missing)%nat then excess else missing). assert (TS : toSend = Nat.min missing excess) by (unfold toSend; destruct (excess <? missing)%nat eqn:X; [apply Nat.ltb_lt in X|apply Nat.ltb_ge in X]; lia).
  replace (Nat.min remain toSend) with remain by lia. replace (remain =? toSend)%nat with false by (symmetry; apply Nat.eqb_neq; lia).
  pose proof (prepare_some slab toSend rest lPos (if (remain =? 0)%nat then 0%nat else 1%nat) remain ltac:(lia) ltac:(lia)) as P.
  destruct (prepare _ _ _ _ _ _) as [[[[[b i] r] lp] ps]|]; [|congruence]. repeat eexists.
Qed.
Example transfer_one : sendTo 4 3 5 1 [0; 1; 4; 2]%nat 6 = Sends 3 5 9 [1; 0; 1; 1]%nat [3; 2]%nat 8.
Proof. reflexivity. Qed.

Print Assumptions balanced_partial.
Print Assumptions transfer_keeps_particles.
