(** Theorems about the background (C39, C59). *)
From Coq Require Import Reals Lra Psatz ZArith.
From Verif Require Import CosmoModel CosmoSpec CosmoProofs.
Local Open Scope R_scope.

(** ** The law of the mass *)
Theorem mass_law c ct : 0 < ct -> 0 < zThRes c -> 0 < zRestore c ->
  AxionMass2 c ct = massLaw (indi3 c) (nQcd c) (nQcdr c) (zThRes c) (zRestore c) (scale c ct).
Proof. exact (law c ct). Qed.
Theorem mass_nonneg c ct : 0 <= AxionMass2 c ct.
Proof.
  assert (I : 0 <= indi3 c * indi3 c) by nra. unfold AxionMass2. cbv zeta. set (i2 := indi3 c * indi3 c) in *. clearbody i2.
  repeat match goal with |- context [if ?d then _ else _] => destruct d end;
    repeat apply Rmult_le_pos; try assumption; left; apply Rpower_pos.
Qed.
Theorem mass_monotone c a b : 0 <= nQcd c -> 0 <= nQcdr c -> 0 <= frw c -> 0 < zThRes c -> 0 < zRestore c -> 0 < a <= b ->
  AxionMass2 c a <= AxionMass2 c b.
Proof.
  intros N NR F TH RE AB. rewrite !law by lra. apply massLaw_mono; auto.
  split; [apply scale_pos; lra|apply scale_mono; assumption].
Qed.
Theorem mass_constant c a b : zThRes c <= scale c a -> zThRes c <= scale c b ->
  (zThRes c <= zRestore c -> scale c a <= zRestore c /\ scale c b <= zRestore c) -> AxionMass2 c a = AxionMass2 c b.
Proof.
  intros A B C. unfold AxionMass2. cbv zeta. destruct (Rle_dec (zThRes c) (zRestore c)) as [L|L].
  - destruct (C L). repeat match goal with |- context [if ?d then _ else _] => destruct d end; try lra; reflexivity.
  - repeat match goal with |- context [if ?d then _ else _] => destruct d end; try lra; reflexivity.
Qed.
Theorem mass_continuous c ct : 0 < ct -> 0 < zThRes c -> 0 < zRestore c -> continuity_pt (AxionMass2 c) ct.
Proof.
  intros T TH RE.
  apply (continuity_pt_locally_ext (fun y => massLaw (indi3 c) (nQcd c) (nQcdr c) (zThRes c) (zRestore c) (scale c y)) _ ct ct T).
  - intros y Y. symmetry. apply law; auto. unfold R_dist in Y. apply Rabs_def2 in Y. lra.
  - apply (cont_comp (scale c)); [apply cont_scale; assumption|]. apply cont_law; auto. apply scale_pos. assumption.
Qed.

(** ** Rates of change *)
Theorem mass_derivative_partial c ct : plain c -> 0 < ct -> 0 < zThRes c -> 0 < zRestore c -> scale c ct <> zThRes c ->
  (zThRes c <= zRestore c -> scale c ct <> zRestore c) ->
  deriv (AxionMass2 c) at ct is (DAxionMass2Dct c ct).
Proof. exact (mass_der c ct). Qed.

Lemma der_grav g ct : derivable_pt_lim (fun t => t * (1 + / 4 * t * g)) ct (1 + / 2 * ct * g).
Proof.
  apply (derivable_pt_lim_ext (fun t => t + / 4 * g * (t * t))); [intros; ring|].
  replace (1 + / 2 * ct * g) with (1 + / 4 * g * (1 * ct + ct * 1)) by field.
  apply (derivable_pt_lim_plus (fun t => t) (fun t => / 4 * g * (t * t))); [apply derivable_pt_lim_id|].
  apply der_scal. apply (derivable_pt_lim_mult (fun t => t) (fun t => t)); apply derivable_pt_lim_id.
Qed.
(** With the matter term (grav) the rate is wrong, always *)
Theorem mass_derivative_refuted c ct : frw c = 1 -> 0 < grav c -> 0 < ct -> 0 < nQcd c -> indi3 c <> 0 -> scale c ct < zThRes c ->
  exists l, deriv (AxionMass2 c) at ct is l /\ l <> DAxionMass2Dct c ct.
Proof.
  intros F G T N I L. pose proof (cont_scale c ct T) as C. pose proof (scale_pos c ct T) as S.
  destruct (stay_below _ _ _ C L) as (d & D & K).
  assert (E : forall y, scale c y < zThRes c -> AxionMass2 c y = indi3 c * indi3 c * Rpower (scale c y) (nQcd c)).
  { intros y Y. unfold AxionMass2. cbv zeta. destruct (Rlt_dec (scale c y) (zThRes c)); [|contradiction]. destruct (Rle_dec _ _); reflexivity. }
  exists (indi3 c * indi3 c * (nQcd c * Rpower (scale c ct) (nQcd c - 1) * (1 + / 2 * ct * grav c))). split.
  - local d.
    2:{ apply (der_scal (indi3 c * indi3 c) (fun y => Rpower (scale c y) (nQcd c))).
        apply (derivable_pt_lim_comp (scale c) (fun y => Rpower y (nQcd c))).
        - apply (derivable_pt_lim_ext (fun t => t * (1 + / 4 * t * grav c))); [intros; symmetry; apply scale_grav; assumption|apply der_grav].
        - apply derivable_pt_lim_power. exact S. }
    intros y Y. apply in_local in Y. destruct Y as [Y _]. cbv beta. symmetry. apply E. apply K. exact Y.
  - unfold DAxionMass2Dct. cbv zeta. destruct (Rlt_dec (scale c ct) (zThRes c)); [|contradiction]. rewrite (E ct L), F.
    rewrite Rpower_less by assumption. rewrite (scale_grav c ct F G) in *. pose proof (Rpower_pos (ct * (1 + / 4 * ct * grav c)) (nQcd c)) as P.
    set (p := Rpower _ _) in *. clearbody p.
    assert (Q : 0 < ct * grav c) by (apply Rmult_lt_0_compat; assumption).
    assert (I2 : 0 < indi3 c * indi3 c) by nra.
    assert (X : indi3 c * indi3 c * (nQcd c * (p / (ct * (1 + / 4 * ct * grav c))) * (1 + / 2 * ct * grav c)) -
                nQcd c * 1 * (indi3 c * indi3 c * p) / ct =
                (indi3 c * indi3 c) * nQcd c * p * (/ 4 * (ct * grav c)) / (ct * (1 + / 4 * (ct * grav c)))).
    { field. split; lra. }
    assert (Y : 0 < (indi3 c * indi3 c) * nQcd c * p * (/ 4 * (ct * grav c)) / (ct * (1 + / 4 * (ct * grav c)))).
    { apply Rdiv_lt_0_compat; [|apply Rmult_lt_0_compat; lra].
      set (i2 := indi3 c * indi3 c) in *. set (cg := ct * grav c) in *. clearbody i2 cg. repeat apply Rmult_lt_0_compat; try assumption; lra. }
    destruct (Rle_dec (zThRes c) (zRestore c)); lra.
Qed.

(** The expansion: R'/R and R''/R *)
Theorem expansion_rate_partial c ct : plain c -> 0 < ct ->
  (deriv (scale c) at ct is (Rp c ct * scale c ct)) /\ (deriv (fun t => Rp c t * scale c t) at ct is (Rpp c ct * scale c ct)).
Proof.
  intros P T. unfold Rp, Rpp. split.
  - apply (derivable_pt_lim_ext (fun t => Rpower t (frw c))); [intros; symmetry; apply scale_plain; assumption|].
    rewrite scale_plain by assumption. replace (frw c / ct * Rpower ct (frw c)) with (frw c * Rpower ct (frw c - 1)).
    + apply derivable_pt_lim_power. exact T.
    + rewrite Rpower_less by assumption. field. lra.
  - eapply (derivable_pt_lim_locally_ext (fun t => frw c * Rpower t (frw c - 1)) _ ct 0 (ct + 1)); [lra| |].
    + intros y Y. rewrite scale_plain, Rpower_less by (assumption || lra). field. lra.
    + rewrite scale_plain by assumption.
      replace (frw c * (frw c - 1) / (ct * ct) * Rpower ct (frw c)) with (frw c * ((frw c - 1) * Rpower ct (frw c - 1 - 1))).
      * apply der_scal. apply derivable_pt_lim_power. exact T.
      * rewrite (Rpower_less ct (frw c - 1)), Rpower_less by assumption. field. lra.
Qed.
Theorem expansion_rate_refuted c ct : frw c = 1 -> 0 < grav c -> 0 < ct ->
  exists l, (deriv (scale c) at ct is l) /\ l <> Rp c ct * scale c ct.
Proof.
  intros F G T. exists (1 + / 2 * ct * grav c). split.
  - apply (derivable_pt_lim_ext (fun t => t * (1 + / 4 * t * grav c))); [intros; symmetry; apply scale_grav; assumption|apply der_grav].
  - unfold Rp. rewrite (scale_grav c ct F G), F. assert (0 < ct * grav c) by (apply Rmult_lt_0_compat; assumption).
    replace (1 / ct * (ct * (1 + / 4 * ct * grav c))) with (1 + / 4 * ct * grav c) by (field; lra). lra.
Qed.
(** The other function for R'/R agrees with it, except that it is 0 whenever the exponent has the integer part 0 or 1:
    in the radiation era, too *)
Theorem hubble_partial c whole ct : plain c -> 0 < ct -> whole (frw c) <> 0%Z -> whole (frw c) <> 1%Z ->
  deriv (scale c) at ct is (HubbleConformal c whole ct * scale c ct).
Proof.
  intros P T A B. unfold HubbleConformal. apply Z.eqb_neq in A, B. rewrite A, B. exact (proj1 (expansion_rate_partial c ct P T)).
Qed.
Theorem hubble_refuted c whole ct : plain c -> 0 < ct -> whole (frw c) = 1%Z -> 1 <= frw c ->
  exists l, (deriv (scale c) at ct is l) /\ l <> HubbleConformal c whole ct * scale c ct.
Proof.
  intros P T A B. exists (Rp c ct * scale c ct). split; [exact (proj1 (expansion_rate_partial c ct P T))|].
  unfold HubbleConformal, Rp. rewrite A. pose proof (scale_pos c ct T) as S. cbn [Z.eqb Pos.eqb orb].
  assert (0 < frw c / ct) by (apply Rdiv_lt_0_compat; lra). assert (0 < frw c / ct * scale c ct) by (apply Rmult_lt_0_compat; lra). lra.
Qed.

(** The logarithmic rate of the conformal mass *)
Theorem conformal_mass_rate_partial c ct : plain c -> 0 < ct -> 0 < zThRes c -> 0 < zRestore c -> indi3 c <> 0 -> scale c ct <> zThRes c ->
  (zThRes c <= zRestore c -> scale c ct <> zRestore c) ->
  deriv (fun t => ln (sqrt (AxionMass2 c t) * scale c t)) at ct is (DlogMARDlogct c ct / ct).
Proof.
  intros P T TH RE I N1 N2.
  assert (I2 : 0 < indi3 c * indi3 c) by nra.
  assert (M : forall t, 0 < AxionMass2 c t).
  { intros t. unfold AxionMass2. cbv zeta. set (i2 := indi3 c * indi3 c) in *. clearbody i2. repeat match goal with |- context [if ?d then _ else _] => destruct d end;
    repeat apply Rmult_lt_0_compat; try assumption; apply Rpower_pos. }
  assert (H : derivable_pt_lim (fun t => / 2 * ln (AxionMass2 c t) + ln (scale c t)) ct
                (/ 2 * (/ AxionMass2 c ct * DAxionMass2Dct c ct) + / scale c ct * (Rp c ct * scale c ct))).
  { apply (derivable_pt_lim_plus (fun t => / 2 * ln (AxionMass2 c t)) (fun t => ln (scale c t))).
    - apply der_scal. apply (derivable_pt_lim_comp (AxionMass2 c) ln); [apply mass_der; assumption|apply derivable_pt_lim_ln, M].
    - apply (derivable_pt_lim_comp (scale c) ln); [apply (expansion_rate_partial c ct P T)|apply derivable_pt_lim_ln, scale_pos; exact T]. }
  replace (DlogMARDlogct c ct / ct) with (/ 2 * (/ AxionMass2 c ct * DAxionMass2Dct c ct) + / scale c ct * (Rp c ct * scale c ct)).
  - apply (derivable_pt_lim_locally_ext (fun t => / 2 * ln (AxionMass2 c t) + ln (scale c t)) _ ct 0 (ct + 1)); [lra| |exact H].
    intros y Y. rewrite ln_mult; [|apply sqrt_lt_R0, M|apply scale_pos; lra]. f_equal.
    rewrite <- Rpower_sqrt by apply M. rewrite ln_Rpower. reflexivity.
  - pose proof (M ct) as MC. pose proof (scale_pos c ct T) as SC.
    replace (/ scale c ct * (Rp c ct * scale c ct)) with (Rp c ct) by (field; lra).
    unfold DlogMARDlogct, DAxionMass2Dct, Rp. cbv zeta. set (m := AxionMass2 c ct) in *. clearbody m.
    repeat match goal with |- context [if ?d then _ else _] => destruct d end; field; lra.
Qed.
(** With tables: a constant mass and scale factor have rate 0, the code's formula is large unless the time is 1 *)
Theorem conformal_mass_rate_refuted m r ct : 0 < m -> 0 < r ->
  DlogMARtable (fun _ => m) (fun _ => r) ct = 500000 * (ct - 1).
Proof.
  intros M R0. unfold DlogMARtable. cbv zeta. pose proof (sqrt_lt_R0 m M) as S. field. lra.
Qed.

(** Fat strings: their width, in sites, does not change; physical strings: the mass of the saxion does not change *)
Theorem string_width c delta a b : 0 < a -> 0 < b -> lz2e c = 2 -> Msa c delta a = Msa c delta b.
Proof.
  intros A B E. assert (W : forall t, 0 < t -> sqrt (2 * LambdaP c t) * scale c t = sqrt (2 * lambda c)).
  { intros t T. pose proof (scale_pos c t T) as S. unfold LambdaP. rewrite E. replace 2 with (INR 2) at 2 by (cbn; lra). rewrite Rpower_pow by exact S.
    rewrite <- (sqrt_square (scale c t)) at 2 by lra.
    destruct (Rle_dec 0 (lambda c)) as [L|L].
    - rewrite <- sqrt_mult_alt; [f_equal; cbn [pow]; field; lra|].
      apply Rmult_le_pos; [lra|]. apply Rmult_le_pos; [exact L|]. left. apply Rinv_0_lt_compat. cbn [pow]. nra.
    - rewrite (sqrt_neg_0 (2 * lambda c)) by lra. rewrite sqrt_neg_0; [ring|].
      assert (I : 0 < / scale c t ^ 2) by (apply Rinv_0_lt_compat; cbn [pow]; nra). unfold Rdiv. nra. }
  unfold Msa. rewrite !W by assumption. reflexivity.
Qed.
Theorem saxion_mass_fixed c pq a b : 0 < a -> 0 < b -> lz2e c = 0 -> SaxionMass2 c pq a = SaxionMass2 c pq b.
Proof.
  intros A B E. assert (W : forall t, 0 < t -> LambdaP c t = lambda c).
  { intros t T. unfold LambdaP. rewrite E, Rpower_O by (apply scale_pos; exact T). field. }
  unfold SaxionMass2. rewrite !W by assumption. reflexivity.
Qed.

(** ** Cases *)
Example ex_fat : Msa (Cosmo 1 0 2 7 7 3 5 1 2) 1 1 = Msa (Cosmo 1 0 2 7 7 3 5 1 2) 1 9.
Proof. apply string_width; cbn; lra. Qed.
Definition exC : cosmo := Cosmo 1 0 2 7 7 3 5 1 0.
Example ex_plain : plain exC. Proof. right. cbn. lra. Qed.
Example ex_below : scale exC 2 < zThRes exC.
Proof. rewrite scale_plain by exact ex_plain. cbn. rewrite Rpower_1; lra. Qed.
Example ex_above : zRestore exC < scale exC 6 /\ zThRes exC <= zRestore exC.
Proof. rewrite scale_plain by exact ex_plain. cbn. rewrite Rpower_1; lra. Qed.
Example ex_grav : let c := Cosmo 1 4 2 7 7 3 5 1 0 in frw c = 1 /\ 0 < grav c /\ scale c 1 < zThRes c.
Proof. cbn -[scale]. rewrite scale_grav; cbn; lra. Qed.

Print Assumptions mass_law. Print Assumptions mass_nonneg. Print Assumptions mass_monotone. Print Assumptions mass_constant.
Print Assumptions mass_continuous. Print Assumptions mass_derivative_partial. Print Assumptions mass_derivative_refuted.
Print Assumptions expansion_rate_partial. Print Assumptions expansion_rate_refuted. Print Assumptions hubble_partial.
Print Assumptions hubble_refuted. Print Assumptions conformal_mass_rate_partial. Print Assumptions conformal_mass_rate_refuted.
Print Assumptions string_width. Print Assumptions saxion_mass_fixed.
