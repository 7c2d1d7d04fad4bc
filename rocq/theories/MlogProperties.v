(** The list of measurements that --measlistlog writes. Specification: [stringlog], the logarithm of the ratio of the mass of the saxion to the rate of expansion, at a time. *)
From Coq Require Import Reals List Arith ZArith Lia Lra Bool Sorted.
From Verif Require Import MlogModel.
Import ListNotations.
Local Open Scope R_scope.

(** Specification: the logarithm at time t, for a mass [msa] in units of the spacing [delta], which is constant in comoving units if lambda is not fixed, and grows with t if it is. *)
Definition stringlog (fixed : bool) (msa delta t : R) : R :=
  ln (msa * (if fixed then t * t else t) / delta).
(** The options make sense *)
Definition ml_ok (o : mlopts) : Prop := 0 < ml_msa o /\ 0 < ml_sizeL o /\ 0 < ml_sizeN o /\ 0 < ml_zFinl o.
(** The first logarithm: the value of --zi, or 0 if it is not given *)
Definition firstlog (o : mlopts) : R := match ml_zi o with Some z => z | None => 0 end.
Definition ml_delta (o : mlopts) : R := ml_sizeL o / ml_sizeN o.

Lemma logf_spec o : ml_ok o -> ml_logf o = stringlog (ml_fixed o) (ml_msa o) (ml_delta o) (ml_zFinl o).
Proof.
  intros (A & B & C & D). unfold ml_logf, stringlog, ml_delta. destruct (ml_fixed o); f_equal; field; lra.
Qed.
Lemma zas_pos o lo : ml_ok o -> 0 < ml_zas o lo.
Proof.
  intros (A & B & C & D). unfold ml_zas.
  assert (P : 0 < exp lo * ml_sizeL o / ml_sizeN o / ml_msa o).
  { pose proof (exp_pos lo). repeat apply Rdiv_lt_0_compat; try assumption. apply Rmult_lt_0_compat; assumption. }
  destruct (ml_fixed o); [apply sqrt_lt_R0|]; exact P.
Qed.
Lemma zas_log o lo : ml_ok o -> stringlog (ml_fixed o) (ml_msa o) (ml_delta o) (ml_zas o lo) = lo.
Proof.
  intros H. pose proof H as (A & B & C & D). unfold stringlog, ml_zas, ml_delta. cbv zeta.
  assert (P : 0 < exp lo * ml_sizeL o / ml_sizeN o / ml_msa o).
  { pose proof (exp_pos lo). repeat apply Rdiv_lt_0_compat; try assumption. apply Rmult_lt_0_compat; assumption. }
  apply eq_trans with (ln (exp lo)); [|apply ln_exp].
  destruct (ml_fixed o).
  - rewrite sqrt_sqrt by lra. f_equal. field. lra.
  - f_equal. field. lra.
Qed.
Lemma stringlog_lt fixed m d a b : 0 < m -> 0 < d -> 0 < a -> 0 < b ->
  stringlog fixed m d a < stringlog fixed m d b -> a < b.
Proof.
  intros Hm Hd Ha Hb H. destruct (Rlt_le_dec a b) as [L|L]; [exact L|exfalso].
  assert (Q : stringlog fixed m d b <= stringlog fixed m d a); [|lra].
  unfold stringlog.
  assert (E : m * (if fixed then b * b else b) / d <= m * (if fixed then a * a else a) / d).
  { apply Rmult_le_compat_r; [left; apply Rinv_0_lt_compat; exact Hd|].
    apply Rmult_le_compat_l; [lra|]. destruct fixed; nra. }
  assert (P : 0 < m * (if fixed then b * b else b) / d).
  { apply Rdiv_lt_0_compat; [|exact Hd]. apply Rmult_lt_0_compat; [exact Hm|]. destruct fixed; nra. }
  destruct E as [E|E]; [left; apply ln_increasing; assumption|rewrite E; right; reflexivity].
Qed.

(** The loop, from any value, when n more passes are due *)
Lemma loop_run o n : forall lo zas fuel, (0 < ml_dump o)%nat -> (n < fuel)%nat ->
  (forall k, (k < n)%nat -> lo + INR k / INR (ml_dump o) < ml_logf o) ->
  ml_logf o <= lo + INR n / INR (ml_dump o) ->
  ml_loop fuel o (Some lo) zas =
  Some (map (fun k => ml_zas o (lo + INR k / INR (ml_dump o))) (seq 0 n),
        match n with O => zas | S m => Some (ml_zas o (lo + INR m / INR (ml_dump o))) end).
Proof.
  induction n as [|n IH]; intros lo zas fuel Hd Hf Hb Hl; (destruct fuel as [|fuel]; [lia|]); cbn [ml_loop].
  - destruct (Rlt_dec lo (ml_logf o)) as [L|L]; [|reflexivity].
    exfalso. change (INR 0) with 0 in Hl. unfold Rdiv in Hl. rewrite Rmult_0_l in Hl. lra.
  - assert (HN : 0 < INR (ml_dump o)) by (apply lt_0_INR; exact Hd).
    assert (Z : lo + INR 0 / INR (ml_dump o) = lo) by (change (INR 0) with 0; field; lra).
    destruct (Rlt_dec lo (ml_logf o)) as [L|L]; [|exfalso; specialize (Hb 0%nat ltac:(lia)); rewrite Z in Hb; lra].
    assert (ST : forall k, lo + 1 / INR (ml_dump o) + INR k / INR (ml_dump o) = lo + INR (S k) / INR (ml_dump o)).
    { intros k. rewrite S_INR. field. lra. }
    unfold ml_next. replace (ml_dump o =? 0)%nat with false by (symmetry; apply Nat.eqb_neq; lia).
    rewrite IH; [|exact Hd|lia| |].
    + cbn [seq map]. rewrite Z. f_equal. f_equal.
      * f_equal. rewrite <- seq_shift, map_map. apply map_ext. intros k. rewrite ST. reflexivity.
      * destruct n as [|m]; [rewrite Z; reflexivity|rewrite ST; reflexivity].
    + intros k Hk. rewrite ST. apply Hb. lia.
    + rewrite ST. exact Hl.
Qed.

(** How many passes *)
Lemma passes (d : nat) (z lf : R) : (0 < d)%nat -> z < lf ->
  exists n, (0 < n)%nat /\ (forall k, (k < n)%nat -> z + INR k / INR d < lf) /\ lf <= z + INR n / INR d.
Proof.
  intros Hd Hz. assert (HN : 0 < INR d) by (apply lt_0_INR; exact Hd).
  assert (B : exists N, lf <= z + INR N / INR d).
  { assert (U : exists N, (lf - z) * INR d < INR N).
    { pose proof (archimed ((lf - z) * INR d)) as [U _]. exists (Z.to_nat (up ((lf - z) * INR d))).
      rewrite (INR_IZR_INZ (Z.to_nat _)), Z2Nat.id; [exact U|]. apply le_IZR. apply Rle_trans with ((lf - z) * INR d); [|lra].
      apply Rmult_le_pos; lra. }
    destruct U as [N HNN]. exists N.
    apply Rmult_le_reg_r with (INR d); [exact HN|].
    replace ((z + INR N / INR d) * INR d) with (z * INR d + INR N) by (field; lra). lra. }
  destruct B as [N HB].
  assert (G : forall N, lf <= z + INR N / INR d -> exists n, (forall k, (k < n)%nat -> z + INR k / INR d < lf) /\ lf <= z + INR n / INR d).
  { clear N HB. induction N as [N IH] using lt_wf_ind. intros H.
    destruct N as [|N]; [exists 0%nat; split; [intros; lia|exact H]|].
    destruct (Rlt_le_dec (z + INR N / INR d) lf) as [L|L]; [|apply (IH N); [lia|exact L]].
    exists (S N). split; [|exact H]. intros k Hk. apply Rle_lt_trans with (z + INR N / INR d); [|exact L].
    apply Rplus_le_compat_l. apply Rmult_le_compat_r; [left; apply Rinv_0_lt_compat; exact HN|]. apply le_INR. lia. }
  destruct (G N HB) as (n & H1 & H2). exists n. split; [|split; assumption].
  destruct n; [|lia]. change (INR 0) with 0 in H2. unfold Rdiv in H2. rewrite Rmult_0_l in H2. lra.
Qed.

(** C134, partial. If no list exists, --dump is not 0 and the first logarithm, --zi or 0, is below the one at the end of the run, then the generator ends and writes a list: its k-th time is positive and has the logarithm of the first plus k over the value of --dump; there is a line for each such logarithm below the last, and no other; the times increase strictly and the last line is the end of the run, which no other line reaches.
    Missing: the list is refused, unset or different in the cases refuted below; the times are rounded when they are printed. *)
Theorem measlist_partial o : ml_ok o -> (0 < ml_dump o)%nat ->
  firstlog o < stringlog (ml_fixed o) (ml_msa o) (ml_delta o) (ml_zFinl o) ->
  exists l, (exists f0, forall fuel, (f0 <= fuel)%nat -> createMeasLogList fuel o false = Some (MlWrote (l ++ [ml_zFinl o]))) /\
    l <> [] /\
    (forall k, (k < length l)%nat -> 0 < nth k l 0 /\
       stringlog (ml_fixed o) (ml_msa o) (ml_delta o) (nth k l 0) = firstlog o + INR k / INR (ml_dump o)) /\
    (forall k, (k < length l)%nat <-> firstlog o + INR k / INR (ml_dump o) < stringlog (ml_fixed o) (ml_msa o) (ml_delta o) (ml_zFinl o)) /\
    (forall i j, (i < j)%nat -> (j < length (l ++ [ml_zFinl o]))%nat -> nth i (l ++ [ml_zFinl o]) 0 < nth j (l ++ [ml_zFinl o]) 0).
Proof.
  change (firstlog o) with (ml_z0 o). intros Hok Hd Hz. rewrite <- (logf_spec o Hok) in *.
  assert (HN : 0 < INR (ml_dump o)) by (apply lt_0_INR; exact Hd).
  destruct (passes _ _ _ Hd Hz) as (n & Hn & Hb & Hl).
  pose (T := fun k => ml_zas o (ml_z0 o + INR k / INR (ml_dump o))).
  assert (LT : length (map T (seq 0 n)) = n) by (rewrite map_length, seq_length; reflexivity).
  assert (NT : forall k, (k < n)%nat -> nth k (map T (seq 0 n)) 0 = T k).
  { intros k Hk. rewrite nth_indep with (d' := T 0%nat) by (rewrite LT; exact Hk).
    rewrite map_nth, seq_nth by exact Hk. reflexivity. }
  assert (PT : forall k, 0 < T k) by (intros k; apply zas_pos; exact Hok).
  assert (ST : forall k, stringlog (ml_fixed o) (ml_msa o) (ml_delta o) (T k) = ml_z0 o + INR k / INR (ml_dump o))
    by (intros k; apply zas_log; exact Hok).
  pose proof Hok as (A & B & C & D).
  assert (DP : 0 < ml_delta o) by (unfold ml_delta; apply Rdiv_lt_0_compat; assumption).
  assert (LF : forall k, (k < n)%nat -> T k < ml_zFinl o).
  { intros k Hk. apply (stringlog_lt (ml_fixed o) (ml_msa o) (ml_delta o)); try assumption; [apply PT|].
    rewrite ST, <- logf_spec by exact Hok. apply Hb. exact Hk. }
  exists (map T (seq 0 n)). rewrite LT. split; [|split; [|split; [|split]]].
  - exists (S n). intros fuel Hf. unfold createMeasLogList.
    rewrite (loop_run o n) by (try assumption; lia).
    destruct n as [|m]; [lia|]. fold (T m).
    destruct (Req_EM_T (T m) (ml_zFinl o)) as [E|E]; [exfalso; specialize (LF m ltac:(lia)); lra|reflexivity].
  - intros E. rewrite E in LT. cbn in LT. lia.
  - intros k Hk. rewrite NT by exact Hk. split; [apply PT|apply ST].
  - intros k. split; [apply Hb|]. intros H. destruct (Nat.lt_ge_cases k n) as [G|G]; [exact G|exfalso].
    assert (ml_z0 o + INR n / INR (ml_dump o) <= ml_z0 o + INR k / INR (ml_dump o)); [|lra].
    apply Rplus_le_compat_l. apply Rmult_le_compat_r; [left; apply Rinv_0_lt_compat; exact HN|]. apply le_INR. exact G.
  - intros i j Hij Hj. rewrite app_length, LT in Hj. cbn in Hj.
    rewrite (app_nth1 _ _ 0 (n := i)) by (rewrite LT; lia). rewrite NT by lia.
    destruct (Nat.eq_dec j n) as [->|J].
    + rewrite app_nth2 by (rewrite LT; lia). rewrite LT, Nat.sub_diag. cbn. apply LF. lia.
    + rewrite app_nth1 by (rewrite LT; lia). rewrite NT by lia.
      apply (stringlog_lt (ml_fixed o) (ml_msa o) (ml_delta o)); try assumption; try apply PT.
      rewrite !ST. apply Rplus_lt_compat_l. apply Rmult_lt_compat_r; [apply Rinv_0_lt_compat; exact HN|]. apply lt_INR. exact Hij.
Qed.
(** A case: box 4 with 256 points, mass 1, up to time 4, from the logarithm 2, ten measurements each. *)
Definition ml_case (zi : option R) (d : nat) (zf : R) : mlopts :=
  {| ml_msa := 1; ml_sizeL := 4; ml_sizeN := 256; ml_zFinl := zf; ml_fixed := false; ml_zi := zi; ml_dump := d |}.
Lemma case_log zi d zf t : stringlog (ml_fixed (ml_case zi d zf)) (ml_msa (ml_case zi d zf)) (ml_delta (ml_case zi d zf)) t = ln (64 * t).
Proof. unfold stringlog, ml_delta, ml_case; cbn. f_equal. field. Qed.
Lemma exp2_lt_10 : exp 2 < 10.
Proof. replace 2 with (1 + 1) by lra. rewrite exp_plus. pose proof exp_le_3. pose proof (exp_pos 1). nra. Qed.
Definition ml_case_10 := ml_case (Some 2) 10 4.
Example measlist_case : ml_ok ml_case_10 /\ (0 < ml_dump ml_case_10)%nat /\
  firstlog ml_case_10 < stringlog (ml_fixed ml_case_10) (ml_msa ml_case_10) (ml_delta ml_case_10) (ml_zFinl ml_case_10).
Proof.
  unfold ml_case_10. rewrite case_log. unfold ml_ok, ml_case; cbn. split; [lra|]. split; [lia|].
  rewrite <- (ln_exp 2) at 1. apply ln_increasing; [apply exp_pos|]. pose proof exp2_lt_10. lra.
Qed.

(** C134: a list that exists is kept: the generator stops, and writes nothing, for all options. *)
Theorem measlist_keeps o fuel : createMeasLogList fuel o true = Some MlRefused.
Proof. reflexivity. Qed.

(** C134: with --dump 0 the list has the first time and the end, whatever is between. *)
Theorem measlist_zero_dump o fuel : ml_ok o -> ml_dump o = 0%nat -> (2 <= fuel)%nat ->
  firstlog o < stringlog (ml_fixed o) (ml_msa o) (ml_delta o) (ml_zFinl o) ->
  exists t, createMeasLogList fuel o false = Some (MlWrote [t; ml_zFinl o]) /\ 0 < t /\ t < ml_zFinl o /\
    stringlog (ml_fixed o) (ml_msa o) (ml_delta o) t = firstlog o.
Proof.
  change (firstlog o) with (ml_z0 o). intros Hok Hd Hf Hz. exists (ml_zas o (ml_z0 o)).
  assert (L : ml_zas o (ml_z0 o) < ml_zFinl o).
  { pose proof Hok as (A & B & C & D). apply (stringlog_lt (ml_fixed o) (ml_msa o) (ml_delta o)); try assumption.
    - unfold ml_delta. apply Rdiv_lt_0_compat; assumption.
    - apply zas_pos; exact Hok.
    - rewrite zas_log by exact Hok. exact Hz. }
  split; [|split; [apply zas_pos; exact Hok|split; [exact L|apply zas_log; exact Hok]]].
  destruct fuel as [|[|f]]; [lia|lia|]. unfold createMeasLogList. cbn [ml_loop].
  rewrite (logf_spec o Hok). destruct (Rlt_dec _ _) as [_|N]; [|contradiction].
  unfold ml_next. rewrite Hd. cbn [Nat.eqb ml_loop].
  destruct (Req_EM_T _ _) as [E|E]; [lra|reflexivity].
Qed.
Example measlist_zero_dump_case : ml_ok (ml_case None 0 4) /\ ml_dump (ml_case None 0 4) = 0%nat.
Proof. unfold ml_ok, ml_case; cbn. split; [lra|reflexivity]. Qed.

(** C134, refuted: the list of a run that ends before the first logarithm holds its end. For all options of the kind the generator decides on a variable that was never set. *)
Theorem measlist_unset_refuted :
  (forall o fuel, ml_ok o -> (1 <= fuel)%nat ->
     stringlog (ml_fixed o) (ml_msa o) (ml_delta o) (ml_zFinl o) <= firstlog o ->
     createMeasLogList fuel o false = Some MlUnset) /\
  exists o, ml_ok o /\ stringlog (ml_fixed o) (ml_msa o) (ml_delta o) (ml_zFinl o) <= firstlog o.
Proof.
  split.
  - intros o fuel Hok Hf H. change (firstlog o) with (ml_z0 o) in H. destruct fuel as [|f]; [lia|]. unfold createMeasLogList. cbn [ml_loop].
    rewrite (logf_spec o Hok). destruct (Rlt_dec _ _) as [L|_]; [lra|reflexivity].
  - exists (ml_case None 1 (1/64)). split; [unfold ml_ok, ml_case; cbn; lra|].
    rewrite case_log. cbn. replace (64 * (1/64)) with 1 by lra. rewrite ln_1. lra.
Qed.

(** C134, refuted: --dump is the number of measurements in a factor of ten of the time, as the program prints. With one, three measurements fall before ten times the first. *)
Theorem measlist_decade_refuted :
  exists o l, ml_ok o /\ ml_dump o = 1%nat /\ ml_fixed o = false /\
    (exists f0, forall fuel, (f0 <= fuel)%nat -> createMeasLogList fuel o false = Some (MlWrote l)) /\
    (2 < length l)%nat /\ nth 0 l 0 < nth 1 l 0 < nth 2 l 0 /\ nth 2 l 0 < 10 * nth 0 l 0.
Proof.
  assert (Hok : ml_ok (ml_case None 1 4)) by (unfold ml_ok, ml_case; cbn; lra).
  assert (L2 : 2 < ln (64 * 4)).
  { rewrite <- (ln_exp 2) at 1. apply ln_increasing; [apply exp_pos|]. pose proof exp2_lt_10. lra. }
  destruct (measlist_partial (ml_case None 1 4) Hok) as (l & W & _ & HT & HC & HS).
  - cbn. lia.
  - rewrite case_log. cbn. lra.
  - exists (ml_case None 1 4), (l ++ [4]). split; [exact Hok|]. split; [reflexivity|]. split; [reflexivity|]. split; [exact W|].
    assert (N2 : (2 < length l)%nat).
    { apply HC. rewrite case_log. cbn. lra. }
    change (ml_zFinl (ml_case None 1 4)) with 4 in HS. rewrite app_length in HS |- *. cbn [length] in HS |- *.
    split; [lia|]. split; [split; apply HS; lia|].
    rewrite !app_nth1 by lia.
    destruct (HT 0%nat ltac:(lia)) as [P0 E0]. destruct (HT 2%nat N2) as [P2 E2].
    rewrite case_log in E0, E2. unfold firstlog, ml_case in E0, E2. cbn [ml_zi ml_dump INR] in E0, E2.
    assert (X0 : 64 * nth 0 l 0 = exp 0) by (apply eq_trans with (exp (ln (64 * nth 0 l 0))); [symmetry; apply exp_ln; lra|f_equal; lra]).
    assert (X2 : 64 * nth 2 l 0 = exp 2) by (apply eq_trans with (exp (ln (64 * nth 2 l 0))); [symmetry; apply exp_ln; lra|f_equal; lra]).
    rewrite exp_0 in X0. pose proof exp2_lt_10. lra.
Qed.

Print Assumptions measlist_partial.
Print Assumptions measlist_keeps.
Print Assumptions measlist_zero_dump.
Print Assumptions measlist_unset_refuted.
Print Assumptions measlist_decade_refuted.
