(** Theorems on the masking of balls around defects (C29, C30). *)
From Coq Require Import List Arith ZArith NArith Lia Permutation.
From Verif Require Import MaskModel MaskSpec MaskProofs MaskAll.
Import ListNotations.
Local Open Scope bool_scope.
Local Open Scope nat_scope.

(** ** C29 *)
(** For every number of ranks, set of defects, radius up to the depth of a rank (and to the side of
    the box), sharing of the work among threads and timing in which no thread is
    interrupted inside an update of a counter: a site gets the mask flag if and only if
    a defect is within the radius, periodically and across ranks; no other flag of any
    site changes. *)
Theorem mask_ball_partial : forall P L Lz R2 D M tms sds r s, 0 < P -> 0 < L -> 1 < Lz -> (0 <= R2)%Z ->
  (Z.sqrt R2 <= Z.of_nat Lz)%Z -> (Z.sqrt R2 <= Z.of_nat L)%Z -> N.land D M = 0%N ->
  (forall r, r < P -> sharing L Lz R2 (tms r)) -> (forall r, r < P -> calmBorder L Lz R2 D M (tms r) (sds r)) ->
  r < P -> maskball P L Lz R2 D M tms sds r = Some s ->
  forall z y x, z < Lz -> y < L -> x < L ->
    (nearDefect P L Lz R2 D sds r z y x -> s (site L z y x) = N.lor (sds r (site L z y x)) M) /\
    (~ nearDefect P L Lz R2 D sds r z y x -> s (site L z y x) = sds r (site L z y x)).
Proof.
  intros P L Lz R2 D M tms sds r s HP HL HLz HR Hrz _ HDM Hsh Hc Hr Hs z y x Hz Hy Hx. split; intros Hn.
  - now apply (mask_complete P L Lz R2 D M tms sds HP HL HLz HR Hrz HDM Hsh r s z y x).
  - destruct (mask_sound P L Lz R2 D M tms sds HP HL HLz HR Hrz HDM Hsh r s z y x Hr Hz Hy Hx Hs) as [E | [_ C]]; [ exact E | contradiction ].
Qed.
(** One thread is never interrupted. *)
Theorem one_thread_calm : forall L Lz R2 D M tm sd, Forall (eq 0) (tm_bsched tm) -> length (tm_border tm) = 1 -> calmBorder L Lz R2 D M tm sd.
Proof.
  intros L Lz R2 D M tm sd Hs Hl. unfold calmBorder.
  assert (G : forall sched s, Forall (eq 0) sched -> (forall j, j <> 0 -> snd (snd s j) = None) ->
    calm L D M (ballBorder L Lz R2 (Z.sqrt R2)) s sched).
  { induction sched as [ | i sched IH ]; intros s F N; [ exact I | ]. inversion F as [ | i' sc' Ei Fs ]; subst. split; [ exact N | ].
    apply IH; [ exact Fs | ]. intros j Hj. unfold step. destruct (stepThread _ _ _ _ _ _) as (st' & t'). cbn [snd]. rewrite setN_other by exact Hj. now apply N. }
  apply G; [ exact Hs | reflexivity ].
Qed.

(** ** C30 *)
(** For every timing: only sites near a defect are marked, all sites near a defect of their own
    rank are marked, and no other flag changes. *)
Theorem mask_any_timing_partial : forall P L Lz R2 D M tms sds r s, 0 < P -> 0 < L -> 1 < Lz -> (0 <= R2)%Z ->
  (Z.sqrt R2 <= Z.of_nat Lz)%Z -> (Z.sqrt R2 <= Z.of_nat L)%Z -> N.land D M = 0%N ->
  (forall r, r < P -> sharing L Lz R2 (tms r)) -> r < P -> maskball P L Lz R2 D M tms sds r = Some s ->
  forall z y x, z < Lz -> y < L -> x < L ->
    (s (site L z y x) = sds r (site L z y x) \/ (s (site L z y x) = N.lor (sds r (site L z y x)) M /\ nearDefect P L Lz R2 D sds r z y x)) /\
    (nearOwnDefect L Lz R2 D (sds r) z y x -> s (site L z y x) = N.lor (sds r (site L z y x)) M).
Proof.
  intros P L Lz R2 D M tms sds r s HP HL HLz HR Hrz _ HDM Hsh Hr Hs z y x Hz Hy Hx. split.
  - now apply (mask_sound P L Lz R2 D M tms sds HP HL HLz HR Hrz HDM Hsh r s z y x).
  - now apply (mask_own P L Lz R2 D M tms sds HP HL HLz HR Hrz HDM Hsh r s z y x).
Qed.

(** ** Cases *)
(** one thread does everything *)
Definition oneThread (L Lz : nat) (R2 : Z) (n : nat) : timing :=
  TM [borderRange Lz (Z.sqrt R2)] (repeat 0 n) [bulkRange Lz (Z.sqrt R2)] (repeat 0 n) (seq 0 (L * L)).
Lemma oneThread_sharing : forall L Lz R2 n, sharing L Lz R2 (oneThread L Lz R2 n).
Proof. intros. unfold sharing, oneThread. cbn [tm_border tm_bulk tm_cells concat]. rewrite !app_nil_r. auto. Qed.
Lemma oneThread_calm : forall L Lz R2 n D M sd, calmBorder L Lz R2 D M (oneThread L Lz R2 n) sd.
Proof.
  intros. apply one_thread_calm; [ | reflexivity ]. cbn [tm_bsched oneThread]. apply Forall_forall. intros i Hi. now apply repeat_spec in Hi.
Qed.
(** 2 ranks of 4 slices of 3 x 3, a string (flag 1) at (0, 1, 0) of rank 0 and one at (1, 1, 2) of rank 1; radius 1.5 *)
Definition exSd (r i : nat) : N :=
  if (r =? 0) && (i =? site 3 0 1 0) then 1%N else if (r =? 1) && (i =? site 3 2 1 1) then 5%N else if i =? 2 then 64%N else 0%N.
Example mask_ball_case : exists s, maskball 2 3 4 2 63 128 (fun _ => oneThread 3 4 2 200) exSd 1 = Some s /\
  s (site 3 3 1 0) = 128%N /\ s (site 3 0 0 2) = 64%N /\ s (site 3 2 1 1) = 133%N /\ s (site 3 1 0 1) = 128%N /\ s (site 3 0 1 1) = 0%N.
Proof. eexists. split; [ vm_compute; reflexivity | ]. repeat split; vm_compute; reflexivity. Qed.

(** ** C30 refuted as stated *)
(** Two threads of rank 0, three ranks of 2 slices, radius 2, defects at (0, 0, 0) and (0, 0, 1) of rank 0. The thread
    with the first slice reads the counter of column (0, 0), is delayed until the other has
    written 2 into it, and then writes 1. *)
Definition raceSd (r i : nat) : N := if (r =? 0) && ((i =? site 3 0 0 0) || (i =? site 3 1 0 0)) then 1%N else 0%N.
Definition raceTm : timing := TM [[0; 2]; [1; 3]] (repeat 0 44 ++ repeat 1 1000 ++ repeat 0 1000) [[]] [] (seq 0 9).
Definition raceTms (r : nat) : timing := if r =? 0 then raceTm else oneThread 3 2 4 100.
Theorem mask_race_refuted :
  (forall r, r < 3 -> sharing 3 2 4 (raceTms r)) /\
  nearDefect 3 3 2 4 63 raceSd 1 1 0 0 /\
  (exists s, maskball 3 3 2 4 63 128 raceTms raceSd 1 = Some s /\ s (site 3 1 0 0) = 0%N) /\
  (exists s, maskball 3 3 2 4 63 128 (fun _ => oneThread 3 2 4 1000) raceSd 1 = Some s /\ s (site 3 1 0 0) = 128%N).
Proof.
  split; [ | split; [ | split ] ].
  - intros r Hr. unfold raceTms. destruct (r =? 0); [ | apply oneThread_sharing ]. unfold sharing. split; [ | split; apply Permutation_refl ].
    apply NoDup_Permutation; [ repeat constructor; cbn; intuition discriminate | apply seq_NoDup | ].
    intros x. change (borderRange 2 (Z.sqrt 4)) with [0; 1; 2; 3]. cbn. intuition.
  - exists 0, 1, 0, 0, 0%Z, 0%Z, 2%Z. repeat split; try (vm_compute; (reflexivity || discriminate || lia)).
  - eexists. split; vm_compute; reflexivity.
  - eexists. split; vm_compute; reflexivity.
Qed.

(** ** C29 refuted for radii above the depth of a rank *)
(** Four ranks of 2 slices, radius 3: the site just below the first slice of rank 1 is not marked by a
    defect there. *)
Definition thinSd (r i : nat) : N := if (r =? 1) && (i =? 0) then 1%N else 0%N.
Theorem mask_thin_refuted : nearDefect 4 3 2 9 63 thinSd 0 1 0 0 /\
  (forall r, r < 4 -> sharing 3 2 9 (oneThread 3 2 9 1000)) /\
  exists s, maskball 4 3 2 9 63 128 (fun _ => oneThread 3 2 9 1000) thinSd 0 = Some s /\ s (site 3 1 0 0) = 0%N.
Proof.
  split; [ | split; [ intros; apply oneThread_sharing | ] ].
  - exists 1, 0, 0, 0, 0%Z, 0%Z, (-1)%Z. repeat split; try (vm_compute; (reflexivity || discriminate || lia)).
  - eexists. split; vm_compute; reflexivity.
Qed.
(** ** C29 refuted for ranks of one slice: the counters received are not used *)
Theorem mask_one_slice_refuted : nearDefect 4 3 1 1 63 thinSd 0 0 0 0 /\
  (forall r, r < 4 -> sharing 3 1 1 (oneThread 3 1 1 1000)) /\
  exists s, maskball 4 3 1 1 63 128 (fun _ => oneThread 3 1 1 1000) thinSd 0 = Some s /\ s (site 3 0 0 0) = 0%N.
Proof.
  split; [ | split; [ intros; apply oneThread_sharing | ] ].
  - exists 1, 0, 0, 0, 0%Z, 0%Z, (-1)%Z. repeat split; try (vm_compute; (reflexivity || discriminate || lia)).
  - eexists. split; vm_compute; reflexivity.
Qed.

Print Assumptions mask_ball_partial.
Print Assumptions one_thread_calm.
Print Assumptions mask_any_timing_partial.
Print Assumptions mask_race_refuted.
Print Assumptions mask_thin_refuted.
Print Assumptions mask_one_slice_refuted.
