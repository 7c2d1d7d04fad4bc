(** The WKB transport with two fields: its velocity. *)
From Coq Require Import Reals List Arith Lia Lqa Lra.
From Verif Require Import CosmoModel CosmoSpec ConserveProofs PaxProofs WkbModel WkbSpec WkbProofs WkbPhaseProofs WkbProperties WkbPhaseProperties.
Import ListNotations.
Local Open Scope R_scope.

Lemma two_near F c i n zI zE k2 still M D : radiation c -> inEra c i n zI -> inEra c i n zE -> (zThRes c < zI <-> zThRes c < zE) -> 0 <= k2 -> i <> 0 ->
  exists e, 0 < e /\ forall t, Rabs (t - zE) < e ->
    modeTwo F c zI t still k2 M D =
    (let w := omega i n k2 zI in
     let a := sqrt (w / omega i n k2 t) in
     let z1 := / 4 * (n + 2) * (AxionMass2 c zI * zI * zI / zI) / (w * w * w) in
     let p := phiTwo F c still k2 zI t in
     let m := (along a z1 (sin p) (cos p) w (fst M) (fst D), along a z1 (sin p) (cos p) w (snd M) (snd D)) in
     let q := (across a z1 (sin p) (cos p) w (fst M) (fst D), across a z1 (sin p) (cos p) w (snd M) (snd D)) in
     (m, (omega i n k2 t * fst q - lograte i n k2 t * fst m, omega i n k2 t * snd q - lograte i n k2 t * snd m))).
Proof.
  intros Ra HI HE S K I. destruct (era_side c i n zE HE) as [e [E0 Op]]. exists e. split; [exact E0|]. intros t T. destruct (Op t T) as [Ot St].
  pose proof (era_pos _ _ _ _ Ot) as Tp. pose proof (era_pos _ _ _ _ HI) as Zp. pose proof (omega_pos _ _ _ _ (mass_nonzero i n k2 t I Tp K)) as OT. pose proof (omega_pos _ _ _ _ (mass_nonzero i n k2 zI I Zp K)) as OI.
  unfold modeTwo. cbv zeta. rewrite (era_two c i n zI t HI Ot) by tauto. rewrite (two_freq c i n t _ Ra Ot), (two_freq c i n zI _ Ra HI). unfold cis. rewrite modeStep_parts by lra. cbv zeta. cbn [fst snd].
  assert (A2 : AxionMass2 c t * t * t = mz i n t * mz i n t) by (rewrite (era_mass2 c i n t Ra Ot); unfold mz; ring).
  rewrite A2. unfold lograte. f_equal. f_equal; field; split; lra.
Qed.
(** Within one law of the mass, the velocity given by the version with two fields is the rate of the field it gives *)
Theorem velocity_is_rate_two_partial : forall F c i n zI zE k M D, gaussFunction F -> radiation c -> 0 < indi3 c -> -2 < n -> inEra c i n zI -> inEra c i n zE -> (zThRes c < zI <-> zThRes c < zE) ->
  (k <> 0 -> derivC (fun t => fst (modeTwo F c zI t false (k * k) M D)) zE (snd (modeTwo F c zI zE false (k * k) M D))) /\
  derivC (fun t => fst (modeTwo F c zI t true 0 M D)) zE (snd (modeTwo F c zI zE true 0 M D)).
Proof.
  intros F c i n zI zE k M D G Ra I0 N HI HE S.
  assert (I : 0 < i) by (destruct HI as [[_ [-> _]]|[_ [_ [-> _]]]]; [exact I0|apply Rmult_lt_0_compat; [exact I0|apply exp_pos]]).
  destruct (turn_two_partial F c i n zI zE k G Ra I0 N HI HE S) as [T1 [_ T2]].
  assert (X : forall still k2, 0 <= k2 -> derivable_pt_lim (fun t => phiTwo F c still k2 zI t) zE (omega i n k2 zE) -> derivC (fun t => fst (modeTwo F c zI t still k2 M D)) zE (snd (modeTwo F c zI zE still k2 M D))).
  { intros still k2 K Dp. pose proof (era_pos _ _ _ _ HE) as Z. pose proof (era_pos _ _ _ _ HI) as Zp. pose proof (mass_nonzero i n k2 zE ltac:(lra) Z K) as MN. pose proof (omega_pos _ _ _ _ MN) as OP. pose proof (omega_pos _ _ _ _ (mass_nonzero i n k2 zI ltac:(lra) Zp K)) as OI.
    destruct (two_near F c i n zI zE k2 still M D Ra HI HE S K ltac:(lra)) as [e [E0 NR]]. rewrite (NR zE) by (rewrite Rminus_diag_eq, Rabs_R0 by reflexivity; exact E0). cbv zeta. cbn [fst snd].
    refine (near_both _ _ _ _ e E0 _ _); [intros t T; rewrite (NR t T); reflexivity|]. cbv zeta. cbn [fst snd]. pose proof (dl_omega i n k2 zE Z MN) as DW.
    split; cbn [fst snd]; exact (proj1 (dl_along (omega i n k2) _ (lograte i n k2 zE) zE _ _ _ _ OI OP DW Dp)). }
  split; [intros K; apply X; [nra|apply T1, K]|]. apply X; [lra|exact T2].
Qed.
Example two_at_work : let c := Cosmo 1 0 1 4 0 10 0 1 0 in
  derivC (fun t => fst (modeTwo someGauss c 1 t false (3 * 3) (1, 0) (0, 1))) 2 (snd (modeTwo someGauss c 1 2 false (3 * 3) (1, 0) (0, 1))).
Proof.
  intros c. refine (proj1 (velocity_is_rate_two_partial someGauss c 1 4 1 2 3 (1, 0) (0, 1) someGauss_is _ _ _ _ _ _) _); cbn; try lra; try (split; cbn; lra); left; cbn; repeat split; lra.
Qed.

Print Assumptions velocity_is_rate_two_partial.
