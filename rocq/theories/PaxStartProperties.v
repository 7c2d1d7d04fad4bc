(** Theorems about the change of variables that starts the nonrelativistic field. *)
From Coq Require Import Lqa Lra Reals List Arith Lia.
From Verif Require Import KernelModel LaneModel LaplModel CosmoModel CosmoSpec CosmoProofs CosmoProperties ConserveSpec ConserveProofs ConserveBoxProofs EnergyProofs PaxModel PaxSpec PaxProofs.
Import ListNotations.
Open Scope R_scope.
Ltac Zify.zify_post_hook ::= idtac.

(** ** One site *)

Lemma roots M : 0 < M -> exists q, 0 < q /\ M = 2 * (q * q) /\ sqrt (0.5 * M) = q /\ sqrt (2 * M) = 2 * q /\ sqrt (2 / M) = / q.
Proof.
  intros H. exists (sqrt (M / 2)). assert (P : 0 < M / 2) by lra. pose proof (sqrt_lt_R0 _ P) as Q. pose proof (sqrt_sqrt (M / 2) ltac:(lra)) as E. set (q := sqrt (M / 2)) in *.
  repeat split; [exact Q|lra| | |].
  - unfold q. f_equal. lra.
  - replace (2 * M) with ((2 * q) * (2 * q)) by lra. apply sqrt_square. lra.
  - replace (2 / M) with (/ q * / q); [apply sqrt_square; left; apply Rinv_0_lt_compat, Q|]. rewrite <- Rinv_mult, E. field. lra.
Qed.
Lemma mass_rate c t : 0 < t -> indi3 c <> 0 -> DlogMARDlogct c t / t = DAxionMass2Dct c t / (2 * AxionMass2 c t) + frw c / t.
Proof.
  intros T I. pose proof (mass_pos c t T I) as MC. unfold DlogMARDlogct, DAxionMass2Dct. cbv zeta. set (m := AxionMass2 c t) in *. clearbody m.
  repeat match goal with |- context [if ?d then _ else _] => destruct d end; field; lra.
Qed.
Lemma oscillation_deriv c t S m v : plain c -> 0 < t -> 0 < zThRes c -> 0 < zRestore c -> indi3 c <> 0 -> insideEra c t ->
  S t = 0 -> derivable_pt_lim S t (confMass c t) ->
  derivable_pt_lim (oscillation (confMass c) S m v) t (sqrt (2 / confMass c t) * (v * confMass c t - / 2 * (DlogMARDlogct c t / t) * m)).
Proof.
  intros P T TH RE I [E1 E2] S0 DS. pose proof (conformal_mass_rate_partial c t P T TH RE I E1 E2) as DL.
  assert (MP : forall u, 0 < u -> 0 < confMass c u) by (intros u U; apply Rmult_lt_0_compat; [apply axionMass_pos; assumption|apply scale_pos, U]).
  assert (D1 : derivable_pt_lim (fun u => sqrt (2 / confMass c u)) t (sqrt (2 / confMass c t) * (- / 2 * (DlogMARDlogct c t / t)))).
  { assert (EX : forall u, 0 < u -> sqrt (2 / confMass c u) = exp (/ 2 * ln 2 + - / 2 * ln (confMass c u))).
    { intros u U. pose proof (MP u U) as MU. assert (Q : 0 < 2 / confMass c u) by (apply Rdiv_lt_0_compat; lra).
      rewrite <- (exp_ln (sqrt (2 / confMass c u))) by (apply sqrt_lt_R0, Q). f_equal.
      rewrite <- Rpower_sqrt by exact Q. rewrite ln_Rpower. unfold Rdiv. rewrite ln_mult, ln_Rinv by (try apply Rinv_0_lt_compat; lra). field. }
    rewrite (EX t T). apply (dl_near (fun u => exp (/ 2 * ln 2 + - / 2 * ln (confMass c u))) _ t _ t T).
    - intros u U. apply Rabs_def2 in U. symmetry. apply EX. lra.
    - eapply dl_eq.
      + apply (derivable_pt_lim_comp (fun u => / 2 * ln 2 + - / 2 * ln (confMass c u)) exp); [|apply derivable_pt_lim_exp].
        apply (derivable_pt_lim_plus (fun _ => / 2 * ln 2) (fun u => - / 2 * ln (confMass c u))); [apply derivable_pt_lim_const|].
        apply (derivable_pt_lim_scal (fun u => ln (confMass c u))). exact DL.
      + ring. }
  eapply dl_eq.
  - apply (derivable_pt_lim_mult (fun u => sqrt (2 / confMass c u)) (fun u => m * cos (S u) + v * sin (S u))); [exact D1|].
    apply (derivable_pt_lim_plus (fun u => m * cos (S u)) (fun u => v * sin (S u))).
    + apply (derivable_pt_lim_scal (fun u => cos (S u))). apply (derivable_pt_lim_comp S cos); [exact DS|apply derivable_pt_lim_cos].
    + apply (derivable_pt_lim_scal (fun u => sin (S u))). apply (derivable_pt_lim_comp S sin); [exact DS|apply derivable_pt_lim_sin].
  - rewrite S0, cos_0, sin_0. ring.
Qed.
(** The field that the new variables stand for is always the one given; its velocity is off by [th] times a rate *)
Definition startError (c : cosmo) (t : R) : R :=
  ((scale c t - 1) * DAxionMass2Dct c t + (scale c t ^ 3 - 1) * (2 * frw c * AxionMass2 c t / t)) / (4 * AxionMass2 c t).
Lemma toPax_stands c t th dth S : plain c -> 0 < t -> 0 < zThRes c -> 0 < zRestore c -> indi3 c <> 0 -> insideEra c t ->
  S t = 0 -> derivable_pt_lim S t (confMass c t) ->
  exists m v, toPax c t th dth = Some (m, v) /\ oscillation (confMass c) S m v t = th /\
    derivable_pt_lim (oscillation (confMass c) S m v) t (dth + th * startError c t).
Proof.
  intros P T TH RE I IE S0 DS. pose proof (axionMass_pos c t T I) as M0. pose proof (scale_pos c t T) as R0. pose proof (mass_pos c t T I) as M2.
  assert (CM : 0 < confMass c t) by (apply Rmult_lt_0_compat; assumption). destruct (roots _ CM) as (q & Q0 & Q1 & Q2 & Q3 & Q4).
  unfold toPax. cbv zeta. fold (axionMass c t). fold (confMass c t). destruct (Rlt_dec 0 (confMass c t)); [|contradiction]. destruct (Req_EM_T t 0); [lra|].
  rewrite !Rmult_assoc. fold (confMass c t). rewrite Q2, Q3. eexists. eexists. split; [reflexivity|]. split.
  - unfold oscillation. rewrite S0, cos_0, sin_0, Q4. field. lra.
  - eapply dl_eq; [apply oscillation_deriv; assumption|]. rewrite Q4, mass_rate by assumption. unfold startError.
    assert (A2 : axionMass c t * axionMass c t = AxionMass2 c t) by (apply sqrt_sqrt; lra).
    assert (QR : scale c t = 2 * (q * q) / axionMass c t) by (unfold confMass in Q1; rewrite <- Q1; field; lra).
    rewrite Q1. rewrite <- A2. rewrite QR. set (D := DAxionMass2Dct c t). set (A := axionMass c t) in *. field. lra.
Qed.
(** When the scale factor is 1 the change of variables is exact: field and velocity are those of the oscillation with frequency mA R
    and the slowly varying amplitude psi *)
Theorem change_of_variables_partial c t th dth S : plain c -> 0 < t -> 0 < zThRes c -> 0 < zRestore c -> indi3 c <> 0 -> insideEra c t -> scale c t = 1 ->
  S t = 0 -> derivable_pt_lim S t (confMass c t) ->
  exists m v, toPax c t th dth = Some (m, v) /\ oscillation (confMass c) S m v t = th /\ derivable_pt_lim (oscillation (confMass c) S m v) t dth.
Proof.
  intros P T TH RE I IE R1 S0 DS. destruct (toPax_stands c t th dth S P T TH RE I IE S0 DS) as (m & v & A & B & C). exists m, v. split; [exact A|]. split; [exact B|].
  eapply dl_eq; [exact C|]. unfold startError. rewrite R1. unfold Rdiv. ring.
Qed.
(** In an expanding universe where the mass does not fall it is not when the scale factor is anything else *)
Theorem change_of_variables_refuted c t th dth S : plain c -> 0 < t -> 0 < zThRes c -> 0 < zRestore c -> indi3 c <> 0 -> insideEra c t ->
  S t = 0 -> derivable_pt_lim S t (confMass c t) -> 0 < frw c -> 0 <= nQcd c -> 0 <= nQcdr c -> scale c t <> 1 -> th <> 0 ->
  exists m v, toPax c t th dth = Some (m, v) /\ oscillation (confMass c) S m v t = th /\ ~ derivable_pt_lim (oscillation (confMass c) S m v) t dth.
Proof.
  intros P T TH RE I IE S0 DS F N1 N2 R1 H. destruct (toPax_stands c t th dth S P T TH RE I IE S0 DS) as (m & v & A & B & C). exists m, v. split; [exact A|]. split; [exact B|].
  intros C'. pose proof (uniqueness_limite _ _ _ _ C C') as U. assert (Z : th * startError c t = 0) by lra. apply Rmult_integral in Z. destruct Z as [Z|Z]; [contradiction|].
  pose proof (scale_pos c t T) as R0. pose proof (mass_pos c t T I) as M2. unfold startError in Z.
  assert (D0 : 0 <= DAxionMass2Dct c t).
  { unfold DAxionMass2Dct. cbv zeta. repeat match goal with |- context [if ?d then _ else _] => destruct d end; try lra;
      unfold Rdiv; repeat apply Rmult_le_pos; try lra; left; apply Rinv_0_lt_compat, T. }
  assert (E0 : 0 < 2 * frw c * AxionMass2 c t / t) by (apply Rdiv_lt_0_compat; [repeat apply Rmult_lt_0_compat; lra|exact T]).
  set (E := 2 * frw c * AxionMass2 c t / t) in *. set (D := DAxionMass2Dct c t) in *. set (rr := scale c t) in *. clearbody rr D E.
  assert (NZ : (rr - 1) * D + (rr ^ 3 - 1) * E <> 0).
  { replace (rr ^ 3 - 1) with ((rr - 1) * (rr * rr + rr + 1)) by ring. replace (_ + _) with ((rr - 1) * (D + (rr * rr + rr + 1) * E)) by ring.
    apply Rmult_integral_contrapositive_currified; [lra|]. assert (0 < (rr * rr + rr + 1) * E) by (apply Rmult_lt_0_compat; [|exact E0]; pose proof (Rmult_lt_0_compat _ _ R0 R0); lra). lra. }
  apply NZ. apply (Rmult_eq_reg_r (/ (4 * AxionMass2 c t))); [|apply Rinv_neq_0_compat; lra]. rewrite Rmult_0_l. exact Z.
Qed.

(** ** The arrays *)
Lemma mapM_ok f l : (forall a b, f a b <> None) -> exists q, mapM f l = Some q /\ length q = length l /\
  forall i a b, nth_error l i = Some (a, b) -> exists p, f a b = Some p /\ nth_error q i = Some p.
Proof.
  intros H. induction l as [|[a b] l (q & Q1 & Q2 & Q3)].
  - exists []. split; [reflexivity|]. split; [reflexivity|]. intros [|i] a b E; discriminate E.
  - cbn [mapM]. destruct (f a b) as [p|] eqn:F; [|destruct (H a b F)]. rewrite Q1. exists (p :: q). split; [reflexivity|]. split; [cbn; lia|].
    intros [|i] a' b' E; cbn [nth_error] in *; [injection E as <- <-; exists p; split; [exact F|reflexivity]|]. apply Q3, E.
Qed.
Lemma toPax_some c t th dth : 0 < t -> indi3 c <> 0 -> toPax c t th dth <> None.
Proof.
  intros T I. pose proof (axionMass_pos c t T I) as M0. pose proof (scale_pos c t T) as R0. unfold toPax. cbv zeta. fold (axionMass c t).
  destruct (Rlt_dec _ _) as [Q|Q]; [|exfalso; apply Q, Rmult_lt_0_compat; assumption]. destruct (Req_EM_T t 0); [lra|]. discriminate.
Qed.
Lemma nth_firstn_lt {A} n (l : list A) i d : (i < n)%nat -> nth i (firstn n l) d = nth i l d.
Proof. revert l i. induction n as [|n IH]; intros [|a l] [|i] H; try lia; cbn; try reflexivity. apply IH. lia. Qed.
Lemma nth_skip {A} n (l : list A) i d : nth i (skipn n l) d = nth (n + i) l d.
Proof. revert l. induction n as [|n IH]; intros [|a l]; cbn; try reflexivity; [destruct i; reflexivity|apply IH]. Qed.
(** If v has room for NG slices more than its sites, every site of the two arrays gets its new value, in the place where the
    nonrelativistic field has it; the slices before and after m do not change *)
Theorem conversion_sites c t NG S V mbuf vbuf : 0 < t -> indi3 c <> 0 -> (NG * S + V <= length mbuf)%nat -> (NG * S + V <= length vbuf)%nat ->
  exists m v, th2Pax c t NG S V mbuf vbuf = Some (m, v) /\ length m = length mbuf /\ length v = length vbuf /\
    (forall i, (i < V)%nat -> toPax c t (nth (NG * S + i) mbuf 0) (nth i vbuf 0) = Some (nth (NG * S + i) m 0, nth (NG * S + i) v 0)) /\
    (forall i, (i < NG * S \/ NG * S + V <= i)%nat -> nth i m 0 = nth i mbuf 0).
Proof.
  intros T I LM LV. unfold th2Pax. set (G := (NG * S)%nat) in *. set (cm := combine _ _).
  assert (LC : length cm = V). { unfold cm. rewrite combine_length, !firstn_length, skipn_length. lia. }
  destruct (mapM_ok (toPax c t) cm (fun a b => toPax_some c t a b T I)) as (q & Q1 & Q2 & Q3). rewrite Q1. cbv zeta.
  assert (LQ : length q = V) by lia.
  assert (LF : length (firstn G mbuf) = G) by (rewrite firstn_length; lia).
  assert (LV' : length (map snd q ++ skipn V vbuf) = length vbuf) by (rewrite app_length, map_length, skipn_length; lia). rewrite LV'.
  destruct (Nat.leb_spec (G + V) (length vbuf)); [|lia]. eexists. eexists. split; [reflexivity|].
  assert (LG : length (firstn G (map snd q ++ skipn V vbuf)) = G) by (rewrite firstn_length; lia).
  split; [rewrite !app_length, map_length, skipn_length; lia|]. split; [rewrite !app_length, !firstn_length, skipn_length; lia|]. split.
  - intros i L. rewrite (app_nth2 (firstn G mbuf)) by lia. rewrite (app_nth2 (firstn G (map snd q ++ skipn V vbuf))) by lia. rewrite LF, LG. replace (G + i - G)%nat with i by lia.
    rewrite (app_nth1 (map fst q)) by (rewrite map_length; lia). rewrite (app_nth1 (firstn V _)) by (rewrite firstn_length; lia).
    rewrite nth_firstn_lt by exact L. rewrite app_nth1 by (rewrite map_length; lia).
    assert (E : nth_error cm i = Some (nth (G + i) mbuf 0, nth i vbuf 0)).
    { rewrite (nth_error_nth' cm (0, 0)) by lia. f_equal. unfold cm. rewrite combine_nth by (rewrite !firstn_length, skipn_length; lia).
      rewrite !nth_firstn_lt by exact L. rewrite nth_skip. reflexivity. }
    destruct (Q3 i _ _ E) as (p & P1 & P2). rewrite P1. f_equal.
    rewrite (nth_indep (map fst q) 0 (fst (0, 0))) by (rewrite map_length; lia). rewrite (nth_indep (map snd q) 0 (snd (0, 0))) by (rewrite map_length; lia).
    rewrite !map_nth. rewrite (nth_error_nth q i (0, 0) P2). destruct p; reflexivity.
  - intros i [L|L].
    + rewrite app_nth1 by lia. apply nth_firstn_lt, L.
    + rewrite !app_nth2 by (rewrite ?map_length; lia). rewrite LF, map_length, LQ, nth_skip. f_equal. lia.
Qed.
(** A field made as a saxion has the room, and the exchange of ghosts of v stays inside its block, if its depth and four are no
    less than twice the ghosts *)
Theorem room_from_saxion_partial NG S nLz : (2 * NG <= nLz + 4)%nat -> (NG * S + S * nLz + NG * S <= saxionV S nLz)%nat /\ (NG * S + S * nLz <= saxionM NG S nLz)%nat.
Proof. intros L. unfold saxionV, saxionM. nia. Qed.
(** Otherwise, as with five slices of which all are ghosts of a neighbour, the exchange passes the end *)
Theorem room_from_saxion_refuted NG S nLz : (0 < S)%nat -> (nLz + 4 < 2 * NG)%nat -> (saxionV S nLz < NG * S + S * nLz + NG * S)%nat.
Proof. intros S0 L. unfold saxionV. nia. Qed.
(** A field made as an axion has it with one slice of ghosts *)
Theorem room_from_axion_partial NG S nLz : (NG <= 1)%nat -> (NG * S + S * nLz + NG * S <= axionV S nLz)%nat /\ (NG * S + S * nLz <= axionM NG S nLz)%nat.
Proof. intros L. unfold axionV, axionM. nia. Qed.
(** With two the exchange of ghosts of v passes the end of its block; with more the change of variables itself does *)
Theorem room_from_axion_refuted c t NG S nLz mbuf vbuf : 0 < t -> indi3 c <> 0 -> (0 < S)%nat -> (2 <= NG)%nat -> length mbuf = axionM NG S nLz -> length vbuf = axionV S nLz ->
  (length vbuf < NG * S + S * nLz + NG * S)%nat /\ ((3 <= NG)%nat -> th2Pax c t NG S (S * nLz) mbuf vbuf = None).
Proof.
  intros T I S0 N LM LV. unfold axionM, axionV in *. split; [nia|]. intros N3. unfold th2Pax. destruct (mapM_ok (toPax c t) (combine (firstn (S * nLz) (skipn (NG * S) mbuf)) (firstn (S * nLz) vbuf)) (fun a b => toPax_some c t a b T I)) as (q & Q1 & Q2 & _).
  rewrite Q1. cbv zeta. rewrite app_length, map_length, skipn_length, Q2, combine_length, !firstn_length, skipn_length.
  destruct (Nat.leb_spec (NG * S + S * nLz) (Init.Nat.min (Init.Nat.min (S * nLz) (length mbuf - NG * S)) (Init.Nat.min (S * nLz) (length vbuf)) + (length vbuf - S * nLz))) as [Q|Q]; [|reflexivity].
  exfalso. rewrite LV in Q. nia.
Qed.

(** ** Cases *)
Definition flatC : cosmo := Cosmo 0 0 1 0 0 2 5 1 0.
Definition phaseOf (c : cosmo) (t u : R) : R := confMass c t * (u - t).
Lemma phaseOf_ok c t : phaseOf c t t = 0 /\ derivable_pt_lim (phaseOf c t) t (confMass c t).
Proof.
  unfold phaseOf. split; [ring|]. set (k := confMass c t). pose proof (derivable_pt_lim_scal (fun u => u - t) k t (1 - 0) (derivable_pt_lim_minus (fun u => u) (fun _ => t) t 1 0 (derivable_pt_lim_id t) (derivable_pt_lim_const t t))) as D.
  replace (k * (1 - 0)) with k in D by ring. exact D.
Qed.
Example change_of_variables_case : plain flatC /\ 0 < zThRes flatC /\ 0 < zRestore flatC /\ indi3 flatC <> 0 /\ insideEra flatC 3 /\ scale flatC 3 = 1 /\
  phaseOf flatC 3 3 = 0 /\ derivable_pt_lim (phaseOf flatC 3) 3 (confMass flatC 3).
Proof.
  assert (E : scale flatC 3 = 1) by (apply still_scale; [reflexivity|lra]). split; [left; cbn; lra|]. split; [cbn; lra|]. split; [cbn; lra|]. split; [cbn; lra|].
  split; [unfold insideEra; rewrite E; cbn; lra|]. split; [exact E|]. apply phaseOf_ok.
Qed.
Example change_of_variables_refuted_case : plain exC /\ insideEra exC 2 /\ scale exC 2 = 2 /\ 0 < frw exC /\ 0 <= nQcd exC /\ 0 <= nQcdr exC /\
  phaseOf exC 2 2 = 0 /\ derivable_pt_lim (phaseOf exC 2) 2 (confMass exC 2).
Proof.
  assert (E : scale exC 2 = 2) by (rewrite scale_plain by exact ex_plain; cbn; apply Rpower_1; lra). split; [exact ex_plain|]. split; [unfold insideEra; rewrite E; cbn; lra|].
  split; [exact E|]. split; [cbn; lra|]. split; [cbn; lra|]. split; [cbn; lra|]. apply phaseOf_ok.
Qed.
Example conversion_sites_case : exists m v, th2Pax exC 2 1 1 2 [9; 1; 2; 8] [3; 4; 0; 0] = Some (m, v) /\ toPax exC 2 2 4 = Some (nth 2 m 0, nth 2 v 0) /\ nth 0 m 0 = 9 /\ nth 3 m 0 = 8.
Proof.
  destruct (conversion_sites exC 2 1 1 2 [9; 1; 2; 8] [3; 4; 0; 0]) as (m & v & A & _ & _ & B & C); try lra; try (cbn; lia); try (cbn; lra).
  exists m, v. split; [exact A|]. split; [exact (B 1%nat ltac:(lia))|]. split; [exact (C 0%nat ltac:(lia))|exact (C 3%nat ltac:(lia))].
Qed.
Example room_case : (1 * 4 + 4 * 3 + 1 * 4 <= saxionV 4 3)%nat /\ (axionV 4 3 < 2 * 4 + 4 * 3 + 2 * 4)%nat.
Proof. split; [apply room_from_saxion_partial; lia|cbn; lia]. Qed.

Print Assumptions change_of_variables_partial.
Print Assumptions change_of_variables_refuted.
Print Assumptions conversion_sites.
Print Assumptions room_from_saxion_partial.
Print Assumptions room_from_saxion_refuted.
Print Assumptions room_from_axion_partial.
Print Assumptions room_from_axion_refuted.
