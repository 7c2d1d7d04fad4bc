(** Waves on top of strings: C89. *)
From Coq Require Import Reals List Arith Bool Lia Lra.
From Verif Require Import ForceSpec ConserveSpec ConserveProofs AxionProofs GhostModel InitModel InitSpec InitProofs InitBoxProofs InitFieldProofs InitProperties SpaxModel SpaxSpec.
Import ListNotations.
Open Scope R_scope.

Lemma set_same : forall A i (x : A) f, set i x f i = x.
Proof. intros. unfold set. rewrite Nat.eqb_refl. reflexivity. Qed.
Lemma set_other : forall A i j (x : A) f, j <> i -> set i x f j = f j.
Proof. intros A i j x f H. unfold set. apply Nat.eqb_neq in H. rewrite H. reflexivity. Qed.
Lemma dl_div : forall f g t f' g', derivable_pt_lim f t f' -> derivable_pt_lim g t g' -> g t <> 0 ->
  derivable_pt_lim (fun u => f u / g u) t ((f' * g t - g' * f t) / (g t * g t)).
Proof. intros f g t f' g' F G N. exact (derivable_pt_lim_div f g t f' g' F G N). Qed.
Lemma dl_comp_cos : forall f t f', derivable_pt_lim f t f' -> derivable_pt_lim (fun u => cos (f u)) t (- sin (f t) * f').
Proof. intros f t f' F. exact (derivable_pt_lim_comp f cos t f' _ F (derivable_pt_lim_cos (f t))). Qed.
Lemma dl_comp_sin : forall f t f', derivable_pt_lim f t f' -> derivable_pt_lim (fun u => sin (f u)) t (cos (f t) * f').
Proof. intros f t f' F. exact (derivable_pt_lim_comp f sin t f' _ F (derivable_pt_lim_sin (f t))). Qed.
(** The derivative of R phi exp(i psi/R). *)
Lemma wavy_tangent : forall Rf psi phi i t Rp p', 0 < Rf t -> derivable_pt_lim Rf t (Rp * Rf t) -> derivable_pt_lim (psi i) t p' ->
  tangent (wavy Rf psi phi i) t (times2 (Rp, p' / Rf t - psi i t / Rf t * Rp) (wavy Rf psi phi i t)).
Proof.
  intros Rf psi phi i t Rp p' HR DR DP. assert (N : Rf t <> 0) by lra.
  pose proof (dl_div (psi i) Rf t _ _ DP DR N) as D. pose proof (dl_comp_cos _ t _ D) as DC. pose proof (dl_comp_sin _ t _ D) as DS. cbv beta in DC, DS.
  unfold tangent, wavy, rotated, times, times2. cbn [fst snd]. split.
  - eapply dl_eq; [apply (dl_mult Rf (fun u => cos (psi i u / Rf u) * fst (phi i) - sin (psi i u / Rf u) * snd (phi i))); [exact DR|];
      apply (dl_minus (fun u => cos (psi i u / Rf u) * fst (phi i)) (fun u => sin (psi i u / Rf u) * snd (phi i)));
      [apply (dl_scal (fun u => cos (psi i u / Rf u))), DC | apply (dl_scal (fun u => sin (psi i u / Rf u))), DS]|]. field. exact N.
  - eapply dl_eq; [apply (dl_mult Rf (fun u => sin (psi i u / Rf u) * fst (phi i) + cos (psi i u / Rf u) * snd (phi i))); [exact DR|];
      apply (dl_plus (fun u => sin (psi i u / Rf u) * fst (phi i)) (fun u => cos (psi i u / Rf u) * snd (phi i)));
      [apply (dl_scal (fun u => sin (psi i u / Rf u))), DS | apply (dl_scal (fun u => cos (psi i u / Rf u))), DC]|]. field. exact N.
Qed.
Lemma safe_tail : forall i l, safe (i :: l) -> safe l /\ forall j, In j l -> (j <> 2 * i)%nat /\ (j <> 2 * i + 1)%nat.
Proof.
  intros i l H. split.
  - intros a x b j c E. apply (H (i :: a) x b j c). cbn. rewrite E. reflexivity.
  - intros j Hj. apply in_split in Hj. destruct Hj as (b & c & ->). apply (H [] i b j c). reflexivity.
Qed.
Lemma merge_frame : forall Rs Rp fm order s i, ~ In i order -> stM (merge Rs Rp fm order s) i = stM s i /\
  stV (merge Rs Rp fm order s) (2 * i)%nat = stV s (2 * i)%nat /\ stV (merge Rs Rp fm order s) (2 * i + 1)%nat = stV s (2 * i + 1)%nat.
Proof.
  intros Rs Rp fm order. induction order as [|j l IH]; intros s i H; [auto|].
  assert (N : i <> j) by (intros ->; apply H; left; reflexivity). assert (N2 : ~ In i l) by (intros X; apply H; right; exact X).
  unfold merge. cbn [fold_left]. fold (merge Rs Rp fm l (mergeAt Rs Rp fm s j)). destruct (IH (mergeAt Rs Rp fm s j) i N2) as (-> & -> & ->).
  unfold mergeAt. cbv zeta. cbn [stM stV]. rewrite !set_other by lia. auto.
Qed.
Theorem merge_in_safe_order : forall Rf psi phi t Rp vol fm s order, mergeStart Rf psi phi t Rp vol fm s ->
  NoDup order -> (forall i, In i order <-> (i < vol)%nat) -> safe order ->
  forall i, (i < vol)%nat -> mergedRight Rf psi phi t (merge (Rf t) Rp fm order s) i.
Proof.
  intros Rf psi phi t Rp vol fm s order (HR & DR & H) ND IN SF i Hi.
  assert (G : forall l s', NoDup l -> safe l -> (forall j, In j l -> (j < vol)%nat /\ fm j = psi j t /\ stV s' j = stV s j /\ stM s' j = phi j) ->
     forall i, In i l -> mergedRight Rf psi phi t (merge (Rf t) Rp fm l s') i).
  { clear order ND IN SF i Hi. induction l as [|k l IH]; intros s' ND SF HJ i Hi; [destruct Hi|].
    inversion ND as [|? ? N1 N2]; subst. destruct (safe_tail k l SF) as [S1 S2].
    unfold merge. cbn [fold_left]. fold (merge (Rf t) Rp fm l (mergeAt (Rf t) Rp fm s' k)).
    destruct (Nat.eq_dec i k) as [->|NE].
    - destruct (HJ k (or_introl eq_refl)) as (Hk & F & V & M). destruct (H k Hk) as (_ & DP & _).
      destruct (merge_frame (Rf t) Rp fm l (mergeAt (Rf t) Rp fm s' k) k N1) as (A & B & C). unfold mergedRight. rewrite A, B, C.
      unfold mergeAt. cbv zeta. cbn [stM stV]. rewrite set_same, (set_other R (2 * k + 1) (2 * k)), !set_same by lia.
      rewrite F, V, M.
      assert (W : times2 (times2 (phi k) (turnBy (psi k t / Rf t))) (Rf t, 0) = wavy Rf psi phi k t).
      { unfold wavy, rotated, times, times2, turnBy. cbn [fst snd]. f_equal; ring. }
      rewrite W. split; [reflexivity|].
      pose proof (wavy_tangent Rf psi phi k t Rp (stV s k) HR DR DP) as T.
      destruct (times2 (Rp, stV s k / Rf t - psi k t / Rf t * Rp) (wavy Rf psi phi k t)) as [v1 v2]. exact T.
    - apply IH; [exact N2 | exact S1 | | destruct Hi; [congruence | assumption]].
      intros j Hj. destruct (HJ j (or_intror Hj)) as (A & B & C & D). destruct (S2 j Hj) as [E1 E2].
      assert (j <> k) by (intros ->; contradiction). unfold mergeAt. cbv zeta. cbn [stM stV]. rewrite !set_other by lia. auto. }
  apply G; [exact ND | exact SF | | apply IN, Hi].
  intros j Hj. apply IN in Hj. destruct (H j Hj) as (A & B & C). auto.
Qed.
(** One thread goes through the array from its end: the field and its velocity are right. *)
Theorem merge_one_thread : forall Rf psi phi t Rp vol fm s, mergeStart Rf psi phi t Rp vol fm s ->
  forall i, (i < vol)%nat -> mergedRight Rf psi phi t (merge (Rf t) Rp fm (handled vol 0 vol) s) i.
Proof.
  intros Rf psi phi t Rp vol fm s H. apply (merge_in_safe_order Rf psi phi t Rp vol fm s); [exact H| | |].
  - unfold handled. apply ConserveBoxProofs.NoDup_map_in; [apply seq_NoDup|]. intros x y Hx Hy E. apply in_seq in Hx. apply in_seq in Hy. lia.
  - intros i. unfold handled. rewrite in_map_iff. split.
    + intros (p & <- & Hp). apply in_seq in Hp. lia.
    + intros Hi. exists (vol - i - 1)%nat. rewrite in_seq. lia.
  - intros a i b j c E. unfold handled in E.
    assert (N : forall k, nth_error (map (fun p => (vol - p - 1)%nat) (seq 0 vol)) k = if (k <? vol)%nat then Some (vol - k - 1)%nat else None).
    { intros k. destruct (k <? vol)%nat eqn:Q; [apply Nat.ltb_lt in Q|apply Nat.ltb_ge in Q].
      - erewrite map_nth_error; [reflexivity|]. rewrite (nth_error_nth' _ 0%nat) by (rewrite seq_length; exact Q). rewrite seq_nth by exact Q. reflexivity.
      - apply nth_error_None. rewrite map_length, seq_length. exact Q. }
    pose proof (N (length a)) as N1. pose proof (N (length a + S (length b))%nat) as N2. rewrite E in N1, N2.
    rewrite nth_error_app2, Nat.sub_diag in N1 by lia. cbn [nth_error] in N1.
    rewrite nth_error_app2 in N2 by lia. replace (length a + S (length b) - length a)%nat with (S (length b)) in N2 by lia. cbn [nth_error] in N2.
    rewrite nth_error_app2, Nat.sub_diag in N2 by lia. cbn [nth_error] in N2.
    destruct (length a <? vol)%nat; [|discriminate]. destruct (length a + S (length b) <? vol)%nat eqn:Q2; [|discriminate]. apply Nat.ltb_lt in Q2.
    injection N1 as N1. injection N2 as N2. lia.
Qed.
Definition exS : store := Store (fun _ => (1, 0)) (fun i => INR i).
Example merge_meets : mergeStart (fun t => t) (fun i t => INR i * t) (fun _ => (1, 0)) 1 1 4 (fun i => INR i) exS.
Proof.
  split; [lra|]. split; [eapply dl_eq; [apply dl_id | ring]|]. intros i _. split; [ring|]. split; [|reflexivity].
  eapply dl_eq; [apply (dl_mult (fun _ => INR i) (fun u => u)); [apply dl_const | apply dl_id]|]. cbn [exS stV]. ring.
Qed.
(** Two threads: the second overwrites velocities that the first has yet to read. *)
Theorem merge_two_threads_refuted : ~ (forall Rf psi phi t Rp vol fm s n order, mergeStart Rf psi phi t Rp vol fm s -> (n <= vol)%nat ->
  mixed (handled vol 0 n) (handled vol n (vol - n)) order -> forall i, (i < vol)%nat -> mergedRight Rf psi phi t (merge (Rf t) Rp fm order s) i).
Proof.
  intros K.
  assert (MX : mixed (handled 4 0 2) (handled 4 2 (4 - 2)) [1; 0; 3; 2]%nat) by (cbn; repeat constructor).
  pose proof merge_meets as MM.
  destruct (K _ _ _ 1 1 4%nat _ exS 2%nat _ MM ltac:(lia) MX 3%nat ltac:(lia)) as [_ T].
  destruct MM as (HR & DR & HH). destruct (HH 3%nat ltac:(lia)) as (_ & DP & _).
  pose proof (wavy_tangent (fun t => t) (fun i t => INR i * t) (fun _ => (1, 0)) 3 1 1 _ HR DR DP) as T2.
  destruct T as [T1 T1']. destruct T2 as [T2 T2'].
  pose proof (uniqueness_limite _ _ _ _ T1 T2) as U1. pose proof (uniqueness_limite _ _ _ _ T1' T2') as U2. clear T1 T1' T2 T2' DP HH DR HR K MX.
  (* the velocity that iteration 3 reads is the imaginary part that iteration 1 has written *)
  cbn [fst snd] in U1, U2. unfold merge in U1, U2. cbn [fold_left] in U1, U2. unfold mergeAt, set, exS in U1, U2. cbn [stM stV Nat.eqb Nat.mul Nat.add] in U1, U2.
  unfold times2, turnBy, wavy, rotated, times in U1, U2. cbn [fst snd INR] in U1, U2.
  pose proof (sin2_cos2 (3 / 1)) as SC. unfold Rsqr in SC.
  replace ((1 + 1 + 1) / 1) with 3 in U1, U2 by lra. replace ((1 + 1 + 1) * 1 / 1) with 3 in U1, U2 by lra.
  replace (3 / 1) with 3 in SC by lra. replace (1 / 1) with 1 in U1, U2 by lra. replace ((1 + 1 + 1) * 1) with 3 in U1, U2 by ring.
  revert U1 U2 SC. generalize (sin 3) (cos 3). intros s3 c3 U1 U2 SC.
  pose proof (SIN_bound 1) as SB. replace ((1 + 1 + 1) * 1) with 3 in * by ring.
  assert (A : (sin 1 - 3) * s3 = 0) by lra. assert (B : (sin 1 - 3) * c3 = 0) by lra.
  apply Rmult_integral in A. apply Rmult_integral in B. destruct A as [A|A]; [lra|]. destruct B as [B|B]; [lra|]. rewrite A, B in SC. lra.
Qed.
Print Assumptions merge_one_thread.
Print Assumptions merge_two_threads_refuted.

(** The waves wait in m2 while the strings are made. Strings made by smoothing use m2 as
    their buffer: what waits there is the smoothed field itself. *)
Theorem waves_replaced_by_smoothing : forall g alpha first orders M w m2, sane g -> Forall (delivery g) (first :: orders) -> orders <> [] ->
  holds g M w -> wM2 w = Some m2 -> exists w' m2', smooth g alpha first orders w = Done w' /\ wM2 w' = Some m2' /\
    forall r x y z, (r < gRanks g)%nat -> (x < gL g)%nat -> (y < gL g)%nat -> (z < gZ g)%nat ->
      m2' r (spot g x y z) = wM w' r (spot g x y (gNg g + z)) /\
      m2' r (spot g x y z) = Some (Nat.iter (length orders) (averaged g alpha) M (x, y, r * gZ g + z)%nat).
Proof.
  intros g alpha first orders M w m2 SN D NE H E. destruct (exists_last NE) as (os & o & ->).
  inversion D as [|? ? D1 D2]; subst. apply Forall_app in D2. destruct D2 as [D2 D3]. inversion D3 as [|? ? D4 _]; subst.
  destruct (refresh_holds g first M w SN D1 H) as [H1 G1].
  destruct (smooth_iter g alpha os M (World (refresh first (wM w)) (wV w) (wM2 w)) m2 SN D2 H1 G1 E) as (w1 & F & H2 & G2 & _ & m21 & E1).
  destruct (once_averaged g alpha o _ w1 m21 SN D4 H2 G2 E1) as (w' & F2 & H3 & _ & _ & m2' & E2).
  exists w', m2'. split; [|split; [exact E2|]].
  - unfold smooth. rewrite fold_left_app, F. cbn [fold_left andThen]. exact F2.
  - intros r x y z Hr Hx Hy Hz. rewrite (H3 r x y z Hr Hx Hy Hz). rewrite app_length. cbn [length]. replace (length os + 1)%nat with (S (length os)) by lia.
    assert (Q : m2' r (spot g x y z) = Some (averaged g alpha (Nat.iter (length os) (averaged g alpha) M) (x, y, (r * gZ g + z)%nat))).
    { unfold smoothOnce in F2. rewrite E1 in F2. destruct (gNg g =? 0)%nat; [discriminate|]. injection F2 as <-. cbn [wM2] in E2. injection E2 as <-.
      rewrite overwrite_spot by auto. apply itera_averaged; auto. }
    split; exact Q.
Qed.
Theorem waves_kept_by_smoothing_refuted : ~ (forall g alpha first orders M w m2 w', sane g -> Forall (delivery g) (first :: orders) ->
  holds g M w -> wM2 w = Some m2 -> smooth g alpha first orders w = Done w' ->
  exists m2', wM2 w' = Some m2' /\ forall r i, (r < gRanks g)%nat -> (i < vol g)%nat -> m2' r i = m2 r i).
Proof.
  intros K. destruct (some_delivery g2 g2_sane) as [o Ho].
  set (w := World (wM (place g2 (fun _ => (1, 0)) (fun _ => (0, 0)))) (fun _ _ => None) (Some (fun _ _ => Some (0, 0)))).
  assert (H : holds g2 (fun _ => (1, 0)) w) by exact (proj1 (place_holds g2 (fun _ => (1, 0)) (fun _ => (0, 0)))).
  assert (D : Forall (delivery g2) [o; o]) by (repeat constructor; exact Ho).
  destruct (waves_replaced_by_smoothing g2 0 o [o] (fun _ => (1, 0)) w _ g2_sane D ltac:(discriminate) H eq_refl) as (w' & m2' & A & B & C).
  destruct (K g2 0 o [o] (fun _ => (1, 0)) w _ w' g2_sane D H eq_refl A) as (m2'' & B2 & C2). rewrite B in B2. injection B2 as <-.
  destruct (C 0 0 0 0)%nat as [_ C0]; [cbn; lia..|]. rewrite (C2 0%nat (spot g2 0 0 0)) in C0 by (cbn; lia).
  rewrite uniform_stays in C0. injection C0 as C0. lra.
Qed.
Print Assumptions waves_replaced_by_smoothing.
Print Assumptions waves_kept_by_smoothing_refuted.
