(** Theorems about the axiton finder (C40). *)
From Coq Require Import Arith List Bool QArith Qabs Permutation Sorted Lia Lqa.
From Verif Require Import AxitonModel AxitonSpec AxitonProofs.
Import ListNotations.
Local Open Scope nat_scope.

Lemma site_coords n x y w : x < n -> y < n ->
  site n x y w / (n * n) = w /\ (site n x y w mod (n * n)) / n = y /\
  (site n x y w mod (n * n)) mod n = x.
Proof.
  intros Hx Hy. assert (n * n <> 0) by nia. unfold site.
  assert (x + y * n < n * n) by nia.
  rewrite Nat.div_add, Nat.mod_add, Nat.div_small, Nat.mod_small by auto.
  rewrite Nat.div_add, Nat.mod_add, Nat.div_small, Nat.mod_small by lia. repeat split; lia.
Qed.

Lemma negb_lt a b : negb (Qlt_bool a b) = true <-> (b <= a)%Q.
Proof.
  pose proof (Qlt_bool_spec a b) as S. destruct (Qlt_bool a b); simpl; split; intros; auto; try discriminate.
  exfalso. lra.
Qed.
Lemma lt_true a b : Qlt_bool a b = true <-> (a < b)%Q.
Proof.
  pose proof (Qlt_bool_spec a b) as S. destruct (Qlt_bool a b); split; intros; auto; try discriminate.
  exfalso. lra.
Qed.

(** Which sites are candidates. *)
Theorem axiton_candidates : forall n Lz shift folded C Th z thr x y w,
  x < n -> y < n ->
  (passes n Lz shift folded C Th z thr (site n x y w) = true <->
   (thr < C (site n x y w))%Q /\
   (314#100 <= Qabs (Th ((n * n + fieldPos n shift folded (site n x y w))%nat) / z))%Q /\
   Saddle n Lz C x y w).
Proof.
  intros n Lz shift folded C Th z thr x y w Hx Hy. unfold passes, Saddle.
  destruct (site_coords n x y w Hx Hy) as (E1&E2&E3). rewrite E1, E2, E3.
  rewrite !andb_true_iff, !negb_lt, lt_true.
  assert (S : forall a b c, a + b * n + c * (n * n) = site n a b c) by reflexivity.
  rewrite !S. intuition lra.
Qed.

(** The positions listed are those of the field's own layout. *)
Theorem axiton_positions : forall n shift folded x y w, x < n -> y < n -> 1 <= n / shift ->
  fieldPos n shift folded (site n x y w) = kept_at n shift folded x y w.
Proof.
  intros n shift folded x y w Hx Hy Hs. unfold fieldPos, kept_at.
  destruct (site_coords n x y w Hx Hy) as (E1&E2&E3). rewrite E1, E2, E3.
  destruct folded; [|reflexivity]. rewrite Nat.mod_eq by lia. rewrite (Nat.mul_comm (n / shift) (y / (n / shift))). ring.
Qed.

Example axiton_positions_ex : fieldPos 8 4 true (site 8 3 5 2) = 2 * 64 + (1 * 8 + 3) * 4 + 2 /\ 1 <= 8 / 4.
Proof. split; [reflexivity|]. cbn. lia. Qed.

(** The list returned: the largest candidates in descending order, nothing
    left out is larger, and unused entries are zero. What is missing for the
    full property is that the candidates are local maxima, refuted below. *)
Theorem axiton_list_partial : forall n Lz shift folded C Th z thr K idxbin,
  exists kept : list (Q * nat),
    Best K (map (fun i => (C i, fieldPos n shift folded i))
              (filter (passes n Lz shift folded C Th z thr) (seq 0 (n * n * Lz)))) kept /\
    axitonfinder n Lz shift folded C Th z thr true K idxbin
      = map snd kept ++ repeat 0 (K - length kept).
Proof.
  intros. set (idxs := seq 0 (n * n * Lz)).
  pose proof (run_rep n Lz shift folded C Th z thr K idxs noSlots []) as R.
  fold (isort (cands n Lz shift folded C Th z thr idxs)) in R.
  set (l := cands n Lz shift folded C Th z thr idxs) in *.
  assert (P : Permutation l (isort l)).
  { pose proof (fold_ins_perm l []) as P. now rewrite app_nil_r in P. }
  assert (D : desc (isort l)) by (apply fold_ins_desc; constructor).
  exists (firstn K (isort l)). split.
  - repeat split.
    + rewrite firstn_length. f_equal. symmetry. now apply Permutation_length.
    + now apply desc_firstn.
    + exists (skipn K (isort l)). rewrite firstn_skipn. split; [exact P|].
      intros a b Ha Hb. eapply desc_app_le; eauto. rewrite firstn_skipn. exact D.
  - unfold axitonfinder. fold idxs.
    destruct R as (U&Hh).
    { split; [now rewrite firstn_nil|]. intros i. rewrite firstn_nil. simpl. lia. }
    { constructor. }
    set (s := fold_left (visit n Lz shift folded C Th z thr K) idxs noSlots) in *.
    assert (UN : forall j, j < K -> used s <= j -> arL s j = 0).
    { assert (G : forall ii s0, used s0 <= K -> (forall j, j < K -> used s0 <= j -> arL s0 j = 0) ->
        let s1 := fold_left (visit n Lz shift folded C Th z thr K) ii s0 in
        used s1 <= K /\ forall j, j < K -> used s1 <= j -> arL s1 j = 0).
      { induction ii as [|i ii IH]; intros s0 H1 H2; simpl; auto.
        unfold visit at 2 4 6. destruct (passes n Lz shift folded C Th z thr i); [|now apply IH].
        destruct (insertSite_unused K s0 (C i) (fieldPos n shift folded i) H1 H2) as (A&B).
        now apply IH. }
      apply (G idxs noSlots); simpl; [lia|auto]. }
    assert (LK : length (firstn K (isort l)) <= K) by (rewrite firstn_length; lia).
    set (kept := firstn K (isort l)) in *.
    replace (seq 0 K) with (seq 0 (length kept) ++ seq (length kept) (K - length kept)).
    2:{ rewrite <- seq_app. f_equal. lia. }
    rewrite map_app. f_equal.
    + apply (nth_ext _ _ 0 0); rewrite !map_length, seq_length; [reflexivity|]. intros i Hi.
      rewrite (nth_indep (map snd kept) 0 (snd (0%Q, 0))) by (rewrite map_length; exact Hi).
      rewrite (map_nth snd).
      rewrite (nth_error_nth _ _ _ (Hh i Hi)). simpl.
      rewrite (nth_indep (map (arL s) _) 0 (arL s 0)) by (rewrite map_length, seq_length; exact Hi).
      rewrite (map_nth (arL s)), seq_nth by exact Hi. reflexivity.
    + rewrite <- (seq_length (K - length kept) (length kept)) at 2.
      assert (A : forall j, In j (seq (length kept) (K - length kept)) -> arL s j = 0).
      { intros j Hj. apply in_seq in Hj. apply UN; lia. }
      induction (seq (length kept) (K - length kept)) as [|a m IH]; [reflexivity|].
      simpl. rewrite A by (left; reflexivity). f_equal. apply IH. intros; apply A; now right.
Qed.

(** Outside axion mode the caller's array is left as it was. *)
Theorem axiton_other_mode : forall n Lz shift folded C Th z thr K idxbin,
  axitonfinder n Lz shift folded C Th z thr false K idxbin = idxbin.
Proof. reflexivity. Qed.

(** No listed site is a local maximum, whatever the field: the tests in the
    plane have the opposite sense. *)
Theorem axiton_maxima_refuted : forall n Lz shift C Th z thr K idxbin,
  exists kept : list (Q * nat),
    axitonfinder n Lz shift false C Th z thr true K idxbin
      = map snd kept ++ repeat 0 (K - length kept) /\
    forall v i, In (v, i) kept ->
      forall x y w, x < n -> y < n -> i = site n x y w -> ~ Peak n Lz C x y w.
Proof.
  intros. destruct (axiton_list_partial n Lz shift false C Th z thr K idxbin) as (kept&(L&D&rest&P&M)&E).
  exists kept. split; [exact E|]. intros v i Hi x y w Hx Hy -> HP.
  assert (I : In (v, site n x y w) (kept ++ rest)) by (apply in_or_app; now left).
  apply (Permutation_in _ (Permutation_sym P)) in I. apply in_map_iff in I.
  destruct I as (j&Ej&Hj). unfold fieldPos in Ej. injection Ej as _ ->.
  apply filter_In in Hj. destruct Hj as (_&Hj). apply axiton_candidates in Hj; auto.
  destruct Hj as (_&_&(S1&_)), HP as (P1&_). lra.
Qed.

(** A field with one clear peak above the threshold, of large amplitude, that
    the finder misses although it has room; and one with a saddle that it
    lists. *)
Definition onePeak (i : nat) : Q := if i =? site 4 1 2 1 then 9%Q else (1#2)%Q.
Definition oneSaddle (i : nat) : Q :=
  if i / 16 =? 1 then (if i =? site 4 1 2 1 then 9%Q else 12%Q) else (1#2)%Q.

Theorem axiton_misses_peak_refuted : exists n Lz C Th z thr x y w,
  x < n /\ y < n /\ w < Lz /\ Peak n Lz C x y w /\ (thr < C (site n x y w))%Q /\
  (forall i, (314#100 <= Qabs (Th i / z))%Q) /\
  forall K idxbin, axitonfinder n Lz 1 false C Th z thr true K idxbin = repeat 0 K.
Proof.
  exists 4, 4, onePeak, (fun _ => 10%Q), 1%Q, 2%Q, 1, 2, 1.
  do 3 (split; [lia|]).
  split; [unfold Peak; vm_compute; repeat split; reflexivity|].
  split; [vm_compute; reflexivity|]. split; [intros; vm_compute; discriminate|].
  intros K idxbin.
  destruct (axiton_list_partial 4 4 1 false onePeak (fun _ => 10%Q) 1%Q 2%Q K idxbin) as (kept&(L&_)&->).
  assert (F : filter (passes 4 4 1 false onePeak (fun _ => 10%Q) 1 2) (seq 0 (4 * 4 * 4)) = []) by (vm_compute; reflexivity).
  rewrite F in L. simpl in L. rewrite Nat.min_0_r in L. destruct kept; [|discriminate]. simpl.
  now rewrite Nat.sub_0_r.
Qed.

Example axiton_list_ex :
  axitonfinder 4 4 1 false oneSaddle (fun _ => 10%Q) 1%Q 2%Q true 13 (repeat 7 13)
  = [16; 17; 18; 19; 20; 22; 23; 27; 28; 30; 31; 25; 0] /\ site 4 1 2 1 = 25.
Proof. split; vm_compute; reflexivity. Qed.

Print Assumptions axiton_positions.
Print Assumptions axiton_candidates.
Print Assumptions axiton_list_partial.
Print Assumptions axiton_maxima_refuted.
Print Assumptions axiton_misses_peak_refuted.
