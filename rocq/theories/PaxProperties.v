(** Theorems about the nonrelativistic field: its update and the change of variables that starts it. *)
From Coq Require Import Lqa Lra Reals List Arith Lia.
From Verif Require Import KernelModel LaneModel LaplModel ForceModel EnergyModel EnergySpec CosmoModel CosmoSpec CosmoProofs CosmoProperties ConserveSpec ConserveProofs ConserveBoxProofs EnergyProofs SchemeModel PaxModel PaxSpec PaxProofs PaxModeProofs.
Import ListNotations.
Open Scope R_scope.
Ltac Zify.zify_post_hook ::= idtac.

(** ** The weights of a step in an expanding universe *)
(** The phase is the integral of beta / (8 R^2) over the interval, for any step, unless R grows as the root of the time *)
Theorem phase_weight_partial r t : plain (rC r) -> frw (rC r) <> 1 / 2 -> 0 < t ->
  exists g, (forall h, 0 < t + h -> phaseW (loadP r 1 t) h = Some (g h)) /\
    integralOf g (fun h => rBeta r / (8 * scale (rC r) (t + h) ^ 2)) (fun h => 0 < t + h).
Proof.
  intros P F T. pose proof (scale_pos (rC r) t T) as S0. set (u := 2 * frw (rC r) - 1).
  exists (fun h => rBeta r / (8 * scale (rC r) t ^ 2) * pw u t h). split; [intros h H; apply phase_pw; assumption|]. split.
  - rewrite pw_0. ring.
  - intros h H. pose proof (grown_pos t h T H) as G. eapply dl_eq.
    + apply (derivable_pt_lim_ext (fun h => pw u t h * (rBeta r / (8 * scale (rC r) t ^ 2)))); [intros; ring|].
      apply (dl_scal (pw u t)). apply dl_pw; [unfold u; lra|exact T|exact H].
    + assert (SC : scale (rC r) (t + h) = scale (rC r) t * Rpower (1 + h / t) (frw (rC r))).
      { rewrite !(scale_plain (rC r)) by assumption. apply Rpower_grown; assumption. }
      rewrite SC. set (f := frw (rC r)) in *. replace (- u - 1) with (- (f + f)) by (unfold u, f; ring). rewrite Rpower_Ropp, Rpower_plus.
      pose proof (Rpower_pos (1 + h / t) f). field. lra.
Qed.
(** There the step gives no number *)
Theorem phase_weight_refuted r t h : frw (rC r) = 1 / 2 -> 0 < t -> 0 < t + h -> phaseW (loadP r 1 t) h = None.
Proof.
  intros F T H. unfold phaseW, loadP. cbn [qCt qR qFrw qBeta qSign]. cbv zeta. rewrite F.
  destruct (Rlt_dec 0 t); [|reflexivity]. destruct (Rlt_dec 0 (t + h)); [|reflexivity]. destruct (Req_EM_T _ 0) as [Z|Z]; [reflexivity|].
  exfalso. apply Z. replace (2 * (1 / 2) - 1) with 0 by field. ring.
Qed.
(** The weight of the Laplacian is the integral of 1 / (2 mA R) while the law of the mass stays the same, unless mA R grows
    almost as the time *)
Theorem drift_weight_partial r t sg : plain (rC r) -> 0 < zRestore (rC r) -> indi3 (rC r) <> 0 -> 0 < t ->
  let n := DlogMARDlogct (rC r) t in n = 1 \/ 0.01 <= Rabs (n - 1) ->
  exists g, (forall h, 0 < t + h -> driftW (loadP r sg t) h = Some (g h)) /\
    integralOf g (fun h => sg * rOod2 r / (2 * axionMass (rC r) (t + h) * scale (rC r) (t + h))) (fun h => 0 < t + h /\ sameEra (rC r) t (t + h)).
Proof.
  intros P RE I T n N. pose proof (scale_pos (rC r) t T) as S0. pose proof (axionMass_pos (rC r) t T I) as M0.
  exists (fun h => sg * dtime n t h * rOod2 r / (2 * axionMass (rC r) t * scale (rC r) t)).
  split; [intros h H; apply drift_dtime; assumption|]. split.
  - rewrite dtime_0 by exact T. unfold Rdiv. ring.
  - intros h [H E]. pose proof (grown_pos t h T H) as G. pose proof (era_power (rC r) t h P RE T H E) as EP. fold n in EP. eapply dl_eq.
    + apply (derivable_pt_lim_ext (fun h => dtime n t h * (sg * rOod2 r / (2 * axionMass (rC r) t * scale (rC r) t)))); [intros; unfold Rdiv; ring|].
      apply (dl_scal (dtime n t)). apply dl_dtime; assumption.
    + rewrite (Rmult_assoc 2 (axionMass (rC r) (t + h))), EP. pose proof (Rpower_pos (1 + h / t) n). field. lra.
Qed.
(** When it grows almost as the time the weight is that of exactly as the time *)
Theorem drift_weight_refuted r t h : plain (rC r) -> 0 < zRestore (rC r) -> indi3 (rC r) <> 0 -> rOod2 r <> 0 -> 0 < t -> 0 < h -> sameEra (rC r) t (t + h) ->
  let n := DlogMARDlogct (rC r) t in 0 < Rabs (n - 1) < 0.01 ->
  forall g, (forall h, 0 < t + h -> driftW (loadP r 1 t) h = Some (g h)) ->
  ~ derivable_pt_lim g h (rOod2 r / (2 * axionMass (rC r) (t + h) * scale (rC r) (t + h))).
Proof.
  intros P RE I O T HP E n [N1 N2] g HG D. assert (H : 0 < t + h) by lra. pose proof (scale_pos (rC r) t T) as S0. pose proof (axionMass_pos (rC r) t T I) as M0.
  pose proof (grown_pos t h T H) as G. pose proof (era_power (rC r) t h P RE T H E) as EP. fold n in EP.
  assert (D2 : derivable_pt_lim g h (/ (1 + h / t) * (rOod2 r / (2 * axionMass (rC r) t * scale (rC r) t)))).
  { apply (dl_near (fun h => t * ln (1 + h / t) * (rOod2 r / (2 * axionMass (rC r) t * scale (rC r) t))) g h _ (t + h) H).
    - intros z Z. apply Rabs_def2 in Z. assert (HZ : 0 < t + z) by lra. pose proof (HG z HZ) as Q. rewrite (drift_dtime r 1 t z I T HZ) in Q. injection Q as <-.
      fold n. unfold dtime. destruct (Rlt_dec _ _); [|lra]. unfold Rdiv. ring.
    - apply (dl_scal (fun h => t * ln (1 + h / t))). apply dl_lg; assumption. }
  pose proof (uniqueness_limite _ _ _ _ D D2) as U. rewrite (Rmult_assoc 2 (axionMass (rC r) (t + h))), EP in U.
  pose proof (Rpower_pos (1 + h / t) n) as RP.
  set (X := rOod2 r / (2 * axionMass (rC r) t * scale (rC r) t)) in *.
  assert (X0 : X <> 0) by (unfold X, Rdiv; apply Rmult_integral_contrapositive_currified; [exact O|apply Rinv_neq_0_compat; nra]).
  assert (UX : X * / Rpower (1 + h / t) n = X * / (1 + h / t)).
  { rewrite (Rmult_comm X (/ (1 + h / t))), <- U. unfold X. field. lra. }
  apply Rmult_eq_reg_l in UX; [|exact X0].
  assert (V : Rpower (1 + h / t) n = 1 + h / t) by (rewrite <- (Rinv_inv (Rpower (1 + h / t) n)), UX; apply Rinv_inv).
  assert (L : 1 < 1 + h / t) by (assert (0 < h / t) by (apply Rdiv_lt_0_compat; assumption); lra).
  rewrite <- (Rpower_1 (1 + h / t)) in V at 2 by exact G.
  assert (NE : n <> 1) by (intros Z; rewrite Z in N1; replace (1 - 1) with 0 in N1 by ring; rewrite Rabs_R0 in N1; lra).
  destruct (Rdichotomy _ _ NE) as [Q|Q]; pose proof (Rpower_lt _ _ _ L Q); lra.
Qed.

(** ** One step *)
(** The potential turns psi at every site and keeps its modulus, with or without gravity *)
Theorem potential_keeps_density r h s s' x : potSub r h s = Some s' ->
  tMf s' x * tMf s' x + tVf s' x * tVf s' x = tMf s x * tMf s x + tVf s x * tVf s x.
Proof.
  unfold potSub. cbv zeta. destruct (phaseW _ _) as [kk|]; [|discriminate]. set (gr := gravW _ _). set (ph := match rPhi r with None => None | Some f => _ end).
  unfold potTurn, turn. intros H. injection H as <-. cbn [tMf tVf fst snd]. set (a := potPhase _ _ _ _ _ x). clearbody a.
  pose proof (sin2_cos2 a) as Q. unfold Rsqr in Q.
  replace (_ + _) with ((sin a * sin a + cos a * cos a) * (tMf s x * tMf s x + tVf s x * tVf s x)) by ring. rewrite Q. ring.
Qed.
(** For small steps the field follows the Schroedinger equation: the rate of change with the step is its right hand side.
    Any scheme whose weights sum to one *)
Theorem step_follows_equation_partial r cd last t m v phi : fineAt r t -> insideEra (rC r) t -> fixedPhi r phi ->
  sumOver snd cd = 1 -> sumOver fst cd + match last with None => 0 | Some c => c end = 1 ->
  exists e (M V : R -> fld), 0 < e /\ (forall h, Rabs h < e -> pStep r cd last h (PSt t m v) = Some (PSt (t + h) (M h) (V h))) /\
    forall x, M 0 x = m x /\ V 0 x = v x /\
      derivable_pt_lim (fun h => M h x) 0 (rateM r phi t m v x) /\ derivable_pt_lim (fun h => V h x) 0 (rateV r phi t m v x).
Proof.
  intros F IE G SD SC. pose proof F as (_ & _ & T & _ & _ & I & O). pose proof (scale_pos (rC r) t T) as S0. pose proof (axionMass_pos (rC r) t T I) as M0.
  destruct (curve_step r cd last t m v phi F IE G) as (e & M & V & E & H & C). rewrite SD, SC in *. exists e, M, V. split; [exact E|]. split.
  - intros h L. rewrite (H h L), Rmult_1_l. reflexivity.
  - intros x. destruct (C x) as (C1 & C2 & C3 & C4). split; [exact C1|]. split; [exact C2|]. unfold rateM, rateV. rewrite boxLap_at by exact O. cbn [fst snd]. split.
    + eapply dl_eq; [exact C3|]. unfold kap. field. lra.
    + eapply dl_eq; [exact C4|]. unfold kap. field. lra.
Qed.
Corollary rkn4_follows_equation_partial r t m v phi : fineAt r t -> insideEra (rC r) t -> fixedPhi r phi ->
  exists e (M V : R -> fld), 0 < e /\ (forall h, Rabs h < e -> pStep r rkn4Pairs None h (PSt t m v) = Some (PSt (t + h) (M h) (V h))) /\
    forall x, M 0 x = m x /\ V 0 x = v x /\
      derivable_pt_lim (fun h => M h x) 0 (rateM r phi t m v x) /\ derivable_pt_lim (fun h => V h x) 0 (rateV r phi t m v x).
Proof. intros F IE G. destruct rkn4_sums as [A B]. apply step_follows_equation_partial; try assumption. rewrite A. ring. Qed.

(** A uniform field *)
Lemma uniform_mode r : mode r (fun _ => 1) 0.
Proof.
  intros x _. unfold boxLap. cbn [fst snd]. rewrite lap_sum. unfold lapSum.
  rewrite (sumOver_ext _ _ (fun _ => 1 * 0)); [rewrite sumOver_scale; ring|]. intros; unfold shell. ring.
Qed.
(** In a box that does not expand it turns by exactly beta |psi|^2 dz / 8 in any step *)
Theorem uniform_flat r t m v a b dz : frw (rC r) = 0 -> indi3 (rC r) <> 0 -> rPhi r = None -> 0 < t -> 0 < dz ->
  (forall x, In x (box (rn r) (rnz r)) -> m x = a /\ v x = b) ->
  exists s, pStep r rkn4Pairs None dz (PSt t m v) = Some s /\ tT s = t + dz /\
    forall x, In x (box (rn r) (rnz r)) -> turned (rBeta r * (a * a + b * b) * dz / 8) (a, b) (tMf s x, tVf s x).
Proof.
  intros F I P T D U. unfold pStep, potSub. cbn [tT tMf tVf]. cbv zeta. rewrite still_phase by (try assumption; lra). rewrite P. unfold potTurn.
  set (k := rBeta r * (0.5 * dz) / 8). set (m1 := fun x => fst (turn (potPhase k (gravW (loadP r 1 t) (0.5 * dz)) None m v x) (m x, v x))). set (v1 := fun x => snd (turn (potPhase k (gravW (loadP r 1 t) (0.5 * dz)) None m v x) (m x, v x))).
  set (al := k * (a * a + b * b)).
  assert (ON : onMode r (fun _ => 1) (fst (turn al (a, b))) (snd (turn al (a, b))) m1 v1).
  { intros x X. destruct (U x X) as [A B]. unfold m1, v1, potPhase. rewrite A, B. replace (k * (b * b + a * a)) with al by (unfold al; ring). split; ring. }
  destruct (stages_mode r (fun _ => 1) 0 t dz F I T (uniform_mode r) rkn4Pairs t m1 v1 _ _ (rkn4_timesOk t dz T D) ON) as (s & S1 & S2 & S3). rewrite S1.
  set (q := turn al (a, b)) in *.
  match type of S3 with (let p := ?X in _) => assert (Z : X = q) end.
  { replace (dz * 0 / (2 * axionMass (rC r) t)) with 0 by (unfold Rdiv; ring). destruct q as [q1 q2]. cbn [fst snd]. generalize rkn4Pairs as l. intros l.
    induction l as [|[c d] l IH]; [reflexivity|]. cbn [fold_left fst snd]. match goal with |- fold_left _ l ?p = _ => replace p with (q1, q2) by (f_equal; ring) end. exact IH. }
  rewrite Z in S3. cbv zeta in S3. destruct s as [T' m2 v2]. cbn [tT tMf tVf] in *. rewrite (proj2 rkn4_sums), Rmult_1_r in S2. subst T'.
  rewrite still_phase by (try assumption; lra). fold k. eexists. split; [reflexivity|]. cbn [tT tMf tVf]. split; [reflexivity|].
  intros x X. destruct (S3 x X) as [A B]. rewrite Rmult_1_r in A, B. unfold potPhase. rewrite A, B.
  assert (Q : snd q * snd q + fst q * fst q = a * a + b * b).
  { unfold q, turn. cbn [fst snd]. pose proof (sin2_cos2 al) as SC. unfold Rsqr in SC.
    replace (_ + _) with ((sin al * sin al + cos al * cos al) * (a * a + b * b)) by ring. rewrite SC. ring. }
  rewrite Q. fold al. unfold q, turn, turned. cbn [fst snd].
  replace (rBeta r * (a * a + b * b) * dz / 8) with (al + al) by (unfold al, k; replace 0.5 with (1 / 2) by lra; field).
  rewrite sin_plus, cos_plus. split; ring.
Qed.
(** In an expanding universe both halves of the phase start from the present time, so the second is that of the step after:
    the phase is less than beta |psi|^2 / 8 times the integral of 1/R^2 over the step *)
Lemma stages_uniform r h a b : indi3 (rC r) <> 0 -> forall cd T m v, timesOk T h cd -> (forall x, m x = a /\ v x = b) ->
  exists s, stages r h cd (PSt T m v) = Some s /\ tT s = T + h * sumOver snd cd /\ forall x, tMf s x = a /\ tVf s x = b.
Proof.
  intros I. assert (L0 : forall f k x, (forall y, f y = k) -> lapAt r f x = 0).
  { intros f k x H. unfold lapAt, lapSum. rewrite (sumOver_ext _ _ (fun _ => 1 * 0)); [rewrite sumOver_scale; ring|]. intros; unfold shell. rewrite !H. ring. }
  induction cd as [|[c d] cd IH]; intros T m v OK U.
  - exists (PSt T m v). split; [reflexivity|]. split; [unfold sumOver; cbn; ring|exact U].
  - destruct OK as (O1 & O2 & O3 & O4). cbn [stages]. unfold kickSub. cbn [tT tMf tVf]. rewrite drift_dtime by assumption.
    unfold driftSub. cbn [tT tMf tVf]. rewrite drift_dtime by assumption.
    match goal with |- context [stages r h cd (PSt _ ?m2 ?v2)] => destruct (IH (T + h * d) m2 v2 O4) as (s & S1 & S2 & S3) end.
    + intros x. rewrite !kick_at. rewrite (L0 m a) by (intros y; apply U).
      rewrite (L0 (lapKick _ _ _ _ m v) b); [split; [rewrite (proj1 (U x)); ring|rewrite (proj2 (U x)); ring]|].
      intros y. rewrite kick_at, (L0 m a) by (intros z; apply U). rewrite (proj2 (U y)). ring.
    + exists s. split; [exact S1|]. split; [|exact S3]. rewrite S2. unfold sumOver. cbn [fold_right snd]. ring.
Qed.
Theorem uniform_expanding_refuted r t a b dz : frw (rC r) = 1 -> grav (rC r) <= 0 -> indi3 (rC r) <> 0 -> rPhi r = None -> 0 < t -> 0 < dz ->
  exists s f, pStep r rkn4Pairs None dz (PSt t (fun _ => a) (fun _ => b)) = Some s /\ tT s = t + dz /\
    (forall x, turned (rBeta r * (a * a + b * b) / 8 * f) (a, b) (tMf s x, tVf s x)) /\ f < / t - / (t + dz).
Proof.
  intros F G I P T D. assert (PL : plain (rC r)) by (right; exact G).
  assert (PH : forall u h, 0 < u -> 0 < u + h -> phaseW (loadP r 1 u) h = Some (rBeta r / 8 * (/ u - / (u + h)))).
  { intros u h U H. rewrite phase_pw by (try assumption; lra). rewrite scale_plain by exact PL. rewrite F, Rpower_1 by exact U. f_equal. unfold pw.
    replace (2 * 1 - 1) with 1 by ring. rewrite Rpower_Ropp, Rpower_1 by (apply grown_pos; assumption). field. repeat split; try lra. }
  unfold pStep, potSub. cbn [tT tMf tVf]. cbv zeta. rewrite PH by lra. rewrite P. unfold potTurn.
  set (k := rBeta r / 8 * (/ t - / (t + 0.5 * dz))). set (al := k * (b * b + a * a)).
  match goal with |- context [stages r dz rkn4Pairs (PSt t ?m1 ?v1)] => destruct (stages_uniform r dz (fst (turn al (a, b))) (snd (turn al (a, b))) I rkn4Pairs t m1 v1 (rkn4_timesOk t dz T D)) as (s & S1 & S2 & S3) end.
  { intros x. unfold potPhase. fold al. split; reflexivity. }
  rewrite S1. destruct s as [T' m2 v2]. cbn [tT tMf tVf] in *. rewrite (proj2 rkn4_sums), Rmult_1_r in S2. subst T'. rewrite PH by lra.
  eexists. exists ((/ t - / (t + 0.5 * dz)) + (/ (t + dz) - / (t + dz + 0.5 * dz))). split; [reflexivity|]. cbn [tT tMf tVf]. split; [reflexivity|]. split.
  - intros x. destruct (S3 x) as [A B]. unfold potPhase. rewrite A, B. set (q := turn al (a, b)).
    assert (Q : snd q * snd q + fst q * fst q = a * a + b * b).
    { unfold q, turn. cbn [fst snd]. pose proof (sin2_cos2 al) as SC. unfold Rsqr in SC.
      replace (_ + _) with ((sin al * sin al + cos al * cos al) * (a * a + b * b)) by ring. rewrite SC. ring. }
    rewrite Q. set (k2 := rBeta r / 8 * (/ (t + dz) - / (t + dz + 0.5 * dz))). unfold q, turn, turned. cbn [fst snd].
    replace (rBeta r * (a * a + b * b) / 8 * (/ t - / (t + 0.5 * dz) + (/ (t + dz) - / (t + dz + 0.5 * dz)))) with (al + k2 * (a * a + b * b)) by (unfold al, k, k2, Rdiv; ring).
    rewrite sin_plus, cos_plus. split; ring.
  - assert (E1 : / (t + dz) - / (t + dz + 0.5 * dz) < / (t + 0.5 * dz) - / (t + dz)).
    { replace (/ (t + dz) - / (t + dz + 0.5 * dz)) with (0.5 * dz / ((t + dz) * (t + dz + 0.5 * dz))) by (field; lra).
      replace (/ (t + 0.5 * dz) - / (t + dz)) with (0.5 * dz / ((t + 0.5 * dz) * (t + dz))).
      2:{ replace 0.5 with (1 / 2) by lra. field. split; lra. }
      unfold Rdiv. apply Rmult_lt_compat_l; [lra|]. apply Rinv_lt_contravar.
      - repeat apply Rmult_lt_0_compat; lra.
      - rewrite (Rmult_comm (t + 0.5 * dz)). apply Rmult_lt_compat_l; lra. }
    lra.
Qed.

(** ** Cases *)
(** Radiation, with a mass that grows; and one whose conformal mass grows as the power 1.005 *)
Definition expRun : prun := PRun exC 1 2 2 1 3 1 None.
Definition slowRun : prun := PRun (Cosmo 1 0 2 0.01 7 3 5 1 0) 1 2 2 1 3 1 None.
Lemma exp_scale c t : frw c = 1 -> grav c <= 0 -> 0 < t -> scale c t = t.
Proof. intros F G T. rewrite scale_plain by (right; exact G). rewrite F. apply Rpower_1, T. Qed.
Example phase_weight_case : exists g, (forall h, 0 < 2 + h -> phaseW (loadP expRun 1 2) h = Some (g h)) /\
  integralOf g (fun h => rBeta expRun / (8 * scale (rC expRun) (2 + h) ^ 2)) (fun h => 0 < 2 + h).
Proof. apply phase_weight_partial; [exact ex_plain|cbn; lra|lra]. Qed.
Example phase_weight_refuted_case : phaseW (loadP (PRun (Cosmo (1 / 2) 0 2 7 7 3 5 1 0) 1 2 2 1 3 1 None) 1 2) 1 = None.
Proof. apply phase_weight_refuted; [reflexivity|lra|lra]. Qed.
Example drift_weight_case : plain (rC expRun) /\ 0 < zRestore (rC expRun) /\ indi3 (rC expRun) <> 0 /\ 0.01 <= Rabs (DlogMARDlogct (rC expRun) 2 - 1) /\ sameEra (rC expRun) 2 (2 + 0.5).
Proof.
  split; [exact ex_plain|]. split; [cbn; lra|]. split; [cbn; lra|]. unfold DlogMARDlogct, sameEra. rewrite !exp_scale by (try (cbn; lra); reflexivity). split.
  - cbn [rC expRun exC zThRes zRestore frw nQcd]. destruct (Rle_dec 3 5); [|lra]. destruct (Rlt_dec 2 3); [|lra]. rewrite Rabs_pos_eq; lra.
  - left. cbn. lra.
Qed.
Example drift_weight_refuted_case : plain (rC slowRun) /\ 0 < Rabs (DlogMARDlogct (rC slowRun) 2 - 1) < 0.01 /\ sameEra (rC slowRun) 2 (2 + 0.5) /\ rOod2 slowRun <> 0.
Proof.
  split; [right; cbn; lra|]. unfold DlogMARDlogct, sameEra. rewrite !exp_scale by (try (cbn; lra); reflexivity). split; [|split; [left; cbn; lra|cbn; lra]].
  cbn [rC slowRun zThRes zRestore frw nQcd]. destruct (Rle_dec 3 5); [|lra]. destruct (Rlt_dec 2 3); [|lra]. rewrite Rabs_pos_eq; lra.
Qed.
Example step_follows_equation_case : fineAt expRun 2 /\ insideEra (rC expRun) 2 /\ fixedPhi expRun (fun _ => 0) /\ sumOver snd rkn4Pairs = 1 /\ sumOver fst rkn4Pairs + 0 = 1.
Proof.
  split; [|split; [|split]].
  - unfold fineAt. split; [exact ex_plain|]. cbn; repeat split; lra.
  - unfold insideEra. rewrite exp_scale by (try (cbn; lra); reflexivity). cbn. lra.
  - left. split; reflexivity.
  - unfold sumOver, rkn4Pairs, rkn4. cbn. split; lra.
Qed.
Example potential_case : exists s, potSub expRun 1 (PSt 2 (fun _ => 1) (fun _ => 2)) = Some s /\ tMf s (0, 0, 0)%nat * tMf s (0, 0, 0)%nat + tVf s (0, 0, 0)%nat * tVf s (0, 0, 0)%nat = 5.
Proof.
  destruct (potSub expRun 1 (PSt 2 (fun _ => 1) (fun _ => 2))) as [s|] eqn:E.
  - exists s. split; [reflexivity|]. rewrite (potential_keeps_density _ _ _ _ (0, 0, 0)%nat E). cbn [tMf tVf]. lra.
  - exfalso. unfold potSub in E. cbv zeta in E. destruct phase_weight_case as (g & H & _). cbn [tT] in E. rewrite H in E by lra. cbn in E. discriminate E.
Qed.
Example uniform_flat_case : exists s, pStep (PRun (Cosmo 0 0 1 0 0 2 5 1 0) 2 4 4 1 3 1 None) rkn4Pairs None 0.5 (PSt 1 (fun _ => 1) (fun _ => 2)) = Some s /\
  forall x, In x (box 4 4) -> turned (3 * (1 * 1 + 2 * 2) * 0.5 / 8) (1, 2) (tMf s x, tVf s x).
Proof.
  destruct (uniform_flat (PRun (Cosmo 0 0 1 0 0 2 5 1 0) 2 4 4 1 3 1 None) 1 (fun _ => 1) (fun _ => 2) 1 2 0.5) as (s & A & _ & B); try reflexivity; try (cbn; lra); try (intros; split; reflexivity).
  exists s. split; [exact A|exact B].
Qed.
Example uniform_expanding_case : frw (rC expRun) = 1 /\ grav (rC expRun) <= 0 /\ indi3 (rC expRun) <> 0 /\ rPhi expRun = None.
Proof. cbn. repeat split; lra. Qed.

Print Assumptions phase_weight_partial.
Print Assumptions phase_weight_refuted.
Print Assumptions drift_weight_partial.
Print Assumptions drift_weight_refuted.
Print Assumptions potential_keeps_density.
Print Assumptions step_follows_equation_partial.
Print Assumptions rkn4_follows_equation_partial.
Print Assumptions uniform_flat.
Print Assumptions uniform_expanding_refuted.
