(** Lemmas for PaxProperties. *)
From Coq Require Import Lqa Lra Reals List Arith Lia FunctionalExtensionality.
From Verif Require Import KernelModel LaneModel LaplModel ForceModel EnergyModel EnergySpec CosmoModel CosmoSpec CosmoProofs CosmoProperties ConserveSpec ConserveProofs ConserveBoxProofs EnergyProofs SchemeModel PaxModel PaxSpec.
Import ListNotations.
Open Scope R_scope.
Ltac Zify.zify_post_hook ::= idtac.

(** ** Powers *)
Lemma sqrt_Rpower x n : sqrt (Rpower x n) = Rpower x (n / 2).
Proof.
  apply sqrt_lem_1; try (left; apply Rpower_pos). rewrite <- Rpower_plus. f_equal. field.
Qed.
Lemma sqrt_scaled i x : 0 <= x -> sqrt (i * i * x) = Rabs i * sqrt x.
Proof. intros X. rewrite sqrt_mult by (try exact X; nra). f_equal. apply sqrt_Rsqr_abs. Qed.
Lemma scaled_time t h : 0 < t -> 0 < t + h -> t + h = t * (1 + h / t).
Proof. intros; field; lra. Qed.
Lemma grown_pos t h : 0 < t -> 0 < t + h -> 0 < 1 + h / t.
Proof. intros T H. replace (1 + h / t) with ((t + h) / t) by (field; lra). apply Rdiv_lt_0_compat; assumption. Qed.
Lemma Rpower_grown t h a : 0 < t -> 0 < t + h -> Rpower (t + h) a = Rpower t a * Rpower (1 + h / t) a.
Proof. intros T H. rewrite (scaled_time t h T H) at 1. symmetry. apply Rpower_mult_distr; [exact T|apply grown_pos; assumption]. Qed.

Lemma mass_pos c t : 0 < t -> indi3 c <> 0 -> 0 < AxionMass2 c t.
Proof.
  intros T I. assert (I2 : 0 < indi3 c * indi3 c) by (destruct (Rdichotomy _ _ I); nra).
  unfold AxionMass2. cbv zeta. set (i2 := indi3 c * indi3 c) in *. clearbody i2.
  repeat match goal with |- context [if ?d then _ else _] => destruct d end;
    repeat apply Rmult_lt_0_compat; try assumption; apply Rpower_pos.
Qed.
Lemma axionMass_pos c t : 0 < t -> indi3 c <> 0 -> 0 < axionMass c t.
Proof. intros T I. apply sqrt_lt_R0, mass_pos; assumption. Qed.

(** In one era the conformal mass is a power of the time. *)
Lemma era_power c t h : plain c -> 0 < zRestore c -> 0 < t -> 0 < t + h -> sameEra c t (t + h) ->
  axionMass c (t + h) * scale c (t + h) = axionMass c t * scale c t * Rpower (1 + h / t) (DlogMARDlogct c t).
Proof.
  intros P RE T H E. pose proof (grown_pos t h T H) as G.
  assert (SC : scale c (t + h) = scale c t * Rpower (1 + h / t) (frw c)).
  { rewrite !(scale_plain c) by assumption. apply Rpower_grown; assumption. }
  assert (S0 : 0 < scale c t) by (apply scale_pos; assumption).
  assert (S1 : 0 < scale c (t + h)) by (apply scale_pos; assumption).
  assert (SP : forall k, Rpower (scale c (t + h)) k = Rpower (scale c t) k * Rpower (1 + h / t) (frw c * k)).
  { intros k. rewrite SC, <- Rpower_mult_distr by (try exact S0; apply Rpower_pos). rewrite Rpower_mult. reflexivity. }
  assert (GR : forall k, axionMass c (t + h) = axionMass c t * Rpower (1 + h / t) (frw c * (k / 2)) -> DlogMARDlogct c t = frw c * (k / 2 + 1) ->
    axionMass c (t + h) * scale c (t + h) = axionMass c t * scale c t * Rpower (1 + h / t) (DlogMARDlogct c t)).
  { intros k A ->. rewrite A, SC. replace (frw c * (k / 2 + 1)) with (frw c * (k / 2) + frw c) by ring. rewrite Rpower_plus. ring. }
  unfold axionMass in *.
  destruct E as [[A B]|[[A [B C]]|[A [B C]]]].
  - apply (GR (nQcd c)).
    + unfold AxionMass2. cbv zeta. destruct (Rlt_dec (scale c t) _); [|lra]. destruct (Rlt_dec (scale c (t + h)) _); [|lra].
      assert (Q : sqrt (indi3 c * indi3 c * Rpower (scale c (t + h)) (nQcd c)) = sqrt (indi3 c * indi3 c * Rpower (scale c t) (nQcd c)) * Rpower (1 + h / t) (frw c * (nQcd c / 2))).
      { rewrite !sqrt_scaled by (left; apply Rpower_pos). rewrite !sqrt_Rpower, SP. ring. }
      destruct (Rle_dec (zThRes c) (zRestore c)); exact Q.
    + unfold DlogMARDlogct. cbv zeta. destruct (Rlt_dec (scale c t) _); [|lra]. destruct (Rle_dec (zThRes c) (zRestore c)); reflexivity.
  - apply (GR 0).
    + rewrite (mass_constant c (t + h) t B A) by (intros Z; destruct (C Z); split; assumption).
      replace (frw c * (0 / 2)) with 0 by field. rewrite Rpower_O by exact G. ring.
    + unfold DlogMARDlogct. cbv zeta. destruct (Rlt_dec (scale c t) _); [lra|].
      destruct (Rle_dec (zThRes c) (zRestore c)) as [Z|Z].
      * destruct (C Z). destruct (Rle_dec (scale c t) (zRestore c)); [field|lra].
      * field.
  - apply (GR (nQcdr c)).
    + unfold AxionMass2. cbv zeta. destruct (Rle_dec (zThRes c) (zRestore c)); [|lra]. destruct (Rlt_dec (scale c t) _); [lra|].
      destruct (Rlt_dec (scale c (t + h)) _); [lra|]. destruct (Rle_dec (scale c t) _); [lra|]. destruct (Rle_dec (scale c (t + h)) _); [lra|].
      set (k := Rpower (zThRes c) (nQcd c)). assert (K : 0 < k) by apply Rpower_pos.
      replace (indi3 c * indi3 c * k * Rpower (scale c (t + h) / zRestore c) (nQcdr c)) with (indi3 c * indi3 c * (k * Rpower (scale c (t + h) / zRestore c) (nQcdr c))) by ring.
      replace (indi3 c * indi3 c * k * Rpower (scale c t / zRestore c) (nQcdr c)) with (indi3 c * indi3 c * (k * Rpower (scale c t / zRestore c) (nQcdr c))) by ring.
      rewrite !sqrt_scaled by (apply Rmult_le_pos; left; [exact K|apply Rpower_pos]).
      rewrite !(sqrt_mult k) by (left; try exact K; apply Rpower_pos).
      rewrite !sqrt_Rpower.
      rewrite !Rpower_quot by assumption. rewrite SP. ring.
    + unfold DlogMARDlogct. cbv zeta. destruct (Rle_dec (zThRes c) (zRestore c)); [|lra]. destruct (Rlt_dec (scale c t) _); [lra|].
      destruct (Rle_dec (scale c t) _); [lra|reflexivity].
Qed.

(** ** Derivatives *)
Lemma dl_near f g x l e : 0 < e -> (forall z, Rabs (z - x) < e -> f z = g z) -> derivable_pt_lim f x l -> derivable_pt_lim g x l.
Proof.
  intros E H. apply (derivable_pt_lim_locally_ext f g x (x - e) (x + e) l); [lra|].
  intros z Z. apply H. apply Rabs_def1; lra.
Qed.
Lemma dl_idv x : derivable_pt_lim (fun u => u) x 1.
Proof. apply derivable_pt_lim_id. Qed.
Lemma dl_ln f x a : derivable_pt_lim f x a -> 0 < f x -> derivable_pt_lim (fun u => ln (f u)) x (a / f x).
Proof.
  intros H P. eapply dl_eq; [apply (derivable_pt_lim_comp f ln); [exact H|apply derivable_pt_lim_ln; exact P]|]. field. lra.
Qed.
Lemma dl_pow f n x a : derivable_pt_lim f x a -> 0 < f x -> derivable_pt_lim (fun u => Rpower (f u) n) x (a * (n * Rpower (f x) (n - 1))).
Proof.
  intros H P. eapply dl_eq; [apply (derivable_pt_lim_comp f (fun y => Rpower y n)); [exact H|apply derivable_pt_lim_power; exact P]|]. ring.
Qed.
Lemma dl_grown t h : t <> 0 -> derivable_pt_lim (fun u => 1 + u / t) h (/ t).
Proof.
  intros T. eapply dl_eq.
  - apply (dl_plus (fun _ => 1) (fun u => u / t)); [apply dl_const|]. apply (dl_scal (fun u => u) h 1 (/ t)), dl_idv.
  - ring.
Qed.
(** Only continuity of the factor of something that vanishes. *)
Lemma dl_zero f g a : derivable_pt_lim f 0 a -> f 0 = 0 -> continuity_pt g 0 -> derivable_pt_lim (fun u => f u * g u) 0 (a * g 0).
Proof.
  intros F F0 G eps E.
  assert (K : 0 < eps / (2 * (Rabs (g 0) + 1))) by (apply Rdiv_lt_0_compat; [lra|pose proof (Rabs_pos (g 0)); lra]).
  destruct (F _ K) as [d1 D1].
  assert (L : 0 < Rmin 1 (eps / (2 * (Rabs a + 1)))).
  { apply Rmin_pos; [lra|]. apply Rdiv_lt_0_compat; [lra|pose proof (Rabs_pos a); lra]. }
  destruct (G _ L) as [d2 [P2 D2]].
  assert (PD : 0 < Rmin d1 d2) by (apply Rmin_pos; [apply cond_pos|exact P2]).
  exists (mkposreal _ PD). intros h H0 H. cbn [pos] in H. rewrite F0, Rplus_0_l, Rmult_0_l, Rminus_0_r.
  specialize (D1 h H0 (Rlt_le_trans _ _ _ H (Rmin_l _ _))). rewrite F0, Rplus_0_l, Rminus_0_r in D1.
  assert (D : Rabs (g h - g 0) < Rmin 1 (eps / (2 * (Rabs a + 1)))).
  { apply (D2 h). split; [split; [exact I|exact (not_eq_sym H0)]|]. unfold dist. cbn. unfold R_dist. rewrite Rminus_0_r. exact (Rlt_le_trans _ _ _ H (Rmin_r _ _)). }
  replace (f h * g h / h - a * g 0) with ((f h / h - a) * g h + a * (g h - g 0)) by (field; exact H0).
  set (q := f h / h - a) in *. set (w := g h - g 0) in *.
  assert (GW : Rabs (g h) <= Rabs (g 0) + 1).
  { replace (g h) with (w + g 0) by (unfold w; ring). eapply Rle_trans; [apply Rabs_triang|]. pose proof (Rmin_l 1 (eps / (2 * (Rabs a + 1)))). lra. }
  assert (W2 : Rabs w < eps / (2 * (Rabs a + 1))) by (eapply Rlt_le_trans; [exact D|apply Rmin_r]).
  eapply Rle_lt_trans; [apply Rabs_triang|]. rewrite !Rabs_mult.
  assert (A1 : Rabs q * Rabs (g h) < eps / 2).
  { apply Rle_lt_trans with (Rabs q * (Rabs (g 0) + 1)); [apply Rmult_le_compat_l; [apply Rabs_pos|exact GW]|].
    replace (eps / 2) with (eps / (2 * (Rabs (g 0) + 1)) * (Rabs (g 0) + 1)) by (field; pose proof (Rabs_pos (g 0)); lra).
    apply Rmult_lt_compat_r; [pose proof (Rabs_pos (g 0)); lra|exact D1]. }
  assert (A2 : Rabs a * Rabs w <= eps / 2).
  { apply Rle_trans with ((Rabs a + 1) * Rabs w); [apply Rmult_le_compat_r; [apply Rabs_pos|lra]|].
    replace (eps / 2) with ((Rabs a + 1) * (eps / (2 * (Rabs a + 1)))) by (field; pose proof (Rabs_pos a); lra).
    apply Rmult_le_compat_l; [pose proof (Rabs_pos a); lra|lra]. }
  lra.
Qed.
Lemma dl_cont f x a : derivable_pt_lim f x a -> continuity_pt f x.
Proof. intros H. apply derivable_continuous_pt. exists a. exact H. Qed.

(** ** The integral of a power: both weights have this form *)
Definition pw (a t h : R) : R := t / a * (1 - Rpower (1 + h / t) (- a)).
Lemma pw_0 a t : pw a t 0 = 0.
Proof. unfold pw. replace (1 + 0 / t) with 1 by (unfold Rdiv; ring). rewrite Rpower_one. ring. Qed.
Lemma dl_pw a t h : a <> 0 -> 0 < t -> 0 < t + h -> derivable_pt_lim (pw a t) h (Rpower (1 + h / t) (- a - 1)).
Proof.
  intros A T H. pose proof (grown_pos t h T H) as G. unfold pw. eapply dl_eq.
  - apply (derivable_pt_lim_ext (fun u => (1 - Rpower (1 + u / t) (- a)) * (t / a))); [intros; ring|].
    apply (dl_scal (fun u => 1 - Rpower (1 + u / t) (- a))).
    apply (dl_minus (fun _ => 1) (fun u => Rpower (1 + u / t) (- a))); [apply dl_const|].
    apply (dl_pow (fun u => 1 + u / t) (- a) h (/ t)); [apply dl_grown; lra|exact G].
  - cbv beta. field. lra.
Qed.
Lemma dl_lg t h : 0 < t -> 0 < t + h -> derivable_pt_lim (fun u => t * ln (1 + u / t)) h (/ (1 + h / t)).
Proof.
  intros T H. pose proof (grown_pos t h T H) as G. eapply dl_eq.
  - apply (derivable_pt_lim_ext (fun u => ln (1 + u / t) * t)); [intros; ring|].
    apply (dl_scal (fun u => ln (1 + u / t))). apply (dl_ln (fun u => 1 + u / t) h (/ t)); [apply dl_grown; lra|exact G].
  - field. split; [|lra]. intros Z. assert (t + h = 0) by (replace (t + h) with (t + h) by ring; lra). lra.
Qed.
Lemma phase_pw r t h : plain (rC r) -> frw (rC r) <> 1 / 2 -> 0 < t -> 0 < t + h ->
  phaseW (loadP r 1 t) h = Some (rBeta r / (8 * scale (rC r) t ^ 2) * pw (2 * frw (rC r) - 1) t h).
Proof.
  intros P F T H. unfold phaseW, loadP. cbn [qCt qR qFrw qBeta qSign]. cbv zeta.
  destruct (Rlt_dec 0 t); [|lra]. destruct (Rlt_dec 0 (t + h)); [|lra].
  pose proof (scale_pos (rC r) t T) as S0. set (u := 2 * frw (rC r) - 1) in *. assert (U : u <> 0) by (unfold u; lra).
  pose proof (Rpower_pos (t + h) u) as P1. pose proof (Rpower_pos t u) as P0.
  destruct (Req_EM_T _ 0) as [Z|Z].
  - exfalso. apply Rmult_integral in Z. destruct Z as [Z|Z]; [|lra]. apply Rmult_integral in Z. destruct Z as [Z|Z]; [|lra]. nra.
  - f_equal. unfold pw. rewrite (Ropp_mult_distr_r_reverse 1 u) || idtac. rewrite Rpower_Ropp.
    rewrite (Rpower_grown t h u T H). pose proof (Rpower_pos (1 + h / t) u) as P2. pose proof (grown_pos t h T H) as G.
    set (A := Rpower (1 + h / t) u) in *. set (B := Rpower t u) in *. set (sc := scale (rC r) t) in *. clearbody A B sc.
    field. repeat split; try lra; intros W; nra.
Qed.

(** ** The weights *)
Definition dtime (n t h : R) : R :=
  if Rlt_dec (Rabs (n - 1)) 0.01 then t * ln (1 + h / t) else pw (n - 1) t h.
Lemma drift_dtime r sg t h : indi3 (rC r) <> 0 -> 0 < t -> 0 < t + h ->
  driftW (loadP r sg t) h = Some (sg * dtime (DlogMARDlogct (rC r) t) t h * rOod2 r / (2 * axionMass (rC r) t * scale (rC r) t)).
Proof.
  intros I T H. pose proof (scale_pos (rC r) t T) as S0. pose proof (axionMass_pos (rC r) t T I) as M0.
  unfold driftW, loadP, driftTime. cbn [qCt qR qMa qN qSign qOod2]. cbv zeta. fold (axionMass (rC r) t).
  destruct (Rlt_dec 0 t); [|lra]. destruct (Rlt_dec 0 (t + h)); [|lra].
  destruct (Req_EM_T _ 0) as [Z|Z]; [exfalso; nra|reflexivity].
Qed.
Lemma dtime_0 n t : 0 < t -> dtime n t 0 = 0.
Proof.
  intros T. unfold dtime. destruct (Rlt_dec _ _); [|apply pw_0]. replace (1 + 0 / t) with 1 by (unfold Rdiv; ring). rewrite ln_1. ring.
Qed.
Lemma dl_dtime n t h : n = 1 \/ 0.01 <= Rabs (n - 1) -> 0 < t -> 0 < t + h -> derivable_pt_lim (dtime n t) h (/ Rpower (1 + h / t) n).
Proof.
  intros N T H. pose proof (grown_pos t h T H) as G. unfold dtime. destruct (Rlt_dec _ _) as [L|L].
  - destruct N as [->|N]; [|lra]. rewrite Rpower_1 by exact G. apply dl_lg; assumption.
  - assert (A : n - 1 <> 0) by (intros A; rewrite A, Rabs_R0 in L; lra).
    rewrite <- Rpower_Ropp. replace (- n) with (- (n - 1) - 1) by ring. apply dl_pw; assumption.
Qed.

(** Quotient of a small number by a time that moves. *)
Lemma dl_share t c D : 0 < t -> derivable_pt_lim (fun h => 1 + h * c / (t + D * h)) 0 (c / t).
Proof.
  intros T. eapply dl_eq.
  - apply (dl_plus (fun _ => 1) (fun h => h * c / (t + D * h))); [apply dl_const|].
    apply (dl_zero (fun h => h * c) (fun h => / (t + D * h)) c).
    + eapply dl_eq; [apply (dl_scal (fun h => h)), dl_idv|ring].
    + ring.
    + apply (dl_cont _ _ (- D / ((t + D * 0) * (t + D * 0)))).
      apply (dl_inv (fun h => t + D * h)); [|rewrite Rmult_0_r; lra].
      eapply dl_eq; [apply (dl_plus (fun _ => t) (fun h => D * h)); [apply dl_const|]|].
      * apply (derivable_pt_lim_ext (fun h => h * D)); [intros; ring|]. apply (dl_scal (fun h => h)), dl_idv.
      * ring.
  - rewrite Rmult_0_r, Rplus_0_r, Rplus_0_l. reflexivity.
Qed.
Lemma share_0 t c D : 1 + 0 * c / (t + D * 0) = 1.
Proof. unfold Rdiv. ring. Qed.
Lemma cont_time t D x : continuity_pt (fun h => t + D * h) x.
Proof.
  apply (dl_cont _ _ (0 + 1 * D)). apply (dl_plus (fun _ => t) (fun h => D * h)); [apply dl_const|].
  apply (derivable_pt_lim_ext (fun h => h * D)); [intros; ring|]. apply (dl_scal (fun h => h)), dl_idv.
Qed.
Lemma cont_scaled f k x : continuity_pt f x -> continuity_pt (fun h => f h * k) x.
Proof. intros H. apply (continuity_pt_mult f (fun _ => k)); [exact H|apply continuity_pt_const; intros a b; reflexivity]. Qed.
Lemma dl_pw_moving a t c D : a <> 0 -> 0 < t -> derivable_pt_lim (fun h => pw a (t + D * h) (h * c)) 0 c.
Proof.
  intros A T. unfold pw. eapply dl_eq.
  - apply (derivable_pt_lim_ext (fun h => (1 - Rpower (1 + h * c / (t + D * h)) (- a)) * ((t + D * h) * / a))); [intros; unfold Rdiv; ring|].
    apply (dl_zero (fun h => 1 - Rpower (1 + h * c / (t + D * h)) (- a)) (fun h => (t + D * h) * / a)).
    + apply (dl_minus (fun _ => 1) (fun h => Rpower (1 + h * c / (t + D * h)) (- a))); [apply dl_const|].
      apply (dl_pow (fun h => 1 + h * c / (t + D * h))); [apply dl_share; exact T|rewrite share_0; lra].
    + rewrite share_0, Rpower_one. ring.
    + apply cont_scaled, cont_time.
  - cbv beta. rewrite share_0, Rpower_one. field. lra.
Qed.
Lemma dl_lg_moving t c D : 0 < t -> derivable_pt_lim (fun h => (t + D * h) * ln (1 + h * c / (t + D * h))) 0 c.
Proof.
  intros T. eapply dl_eq.
  - apply (derivable_pt_lim_ext (fun h => ln (1 + h * c / (t + D * h)) * (t + D * h))); [intros; ring|].
    apply (dl_zero (fun h => ln (1 + h * c / (t + D * h))) (fun h => t + D * h)).
    + apply (dl_ln (fun h => 1 + h * c / (t + D * h))); [apply dl_share; exact T|rewrite share_0; lra].
    + rewrite share_0. apply ln_1.
    + apply cont_time.
  - cbv beta. rewrite share_0. field. lra.
Qed.
Lemma dl_dtime_moving n t c D : 0 < t -> derivable_pt_lim (fun h => dtime n (t + D * h) (h * c)) 0 c.
Proof.
  intros T. unfold dtime. destruct (Rlt_dec _ _) as [L|L]; [apply dl_lg_moving, T|].
  apply dl_pw_moving; [|exact T]. intros A. rewrite A, Rabs_R0 in L. lra.
Qed.

(** The power of the conformal mass does not change near a time inside an era. *)
Lemma era_stays c t : 0 < t -> insideEra c t -> exists e, 0 < e /\ forall y, Rabs (y - t) < e -> DlogMARDlogct c y = DlogMARDlogct c t.
Proof.
  intros T [N1 N2]. pose proof (cont_scale c t T) as C.
  assert (A : exists e, 0 < e /\ forall y, t - e < y < t + e -> (scale c y < zThRes c <-> scale c t < zThRes c)).
  { destruct (Rdichotomy _ _ N1) as [L|L].
    - destruct (stay_below _ _ _ C L) as (e & E & K). exists e. split; [exact E|]. intros y Y. specialize (K y Y). tauto.
    - destruct (stay_above _ _ _ C L) as (e & E & K). exists e. split; [exact E|]. intros y Y. specialize (K y Y). split; intros; lra. }
  assert (B : zThRes c <= zRestore c -> exists e, 0 < e /\ forall y, t - e < y < t + e -> (scale c y <= zRestore c <-> scale c t <= zRestore c)).
  { intros Z. destruct (Rdichotomy _ _ (N2 Z)) as [L|L].
    - destruct (stay_below _ _ _ C L) as (e & E & K). exists e. split; [exact E|]. intros y Y. specialize (K y Y). split; intros; lra.
    - destruct (stay_above _ _ _ C L) as (e & E & K). exists e. split; [exact E|]. intros y Y. specialize (K y Y). split; intros; lra. }
  destruct A as (e1 & E1 & K1).
  destruct (Rle_dec (zThRes c) (zRestore c)) as [Z|Z].
  - destruct (B Z) as (e2 & E2 & K2). exists (Rmin e1 e2). split; [apply Rmin_pos; assumption|]. intros y Y. apply Rabs_def2 in Y.
    pose proof (Rmin_l e1 e2). pose proof (Rmin_r e1 e2). specialize (K1 y ltac:(lra)). specialize (K2 y ltac:(lra)).
    unfold DlogMARDlogct. cbv zeta. destruct (Rle_dec (zThRes c) (zRestore c)); [|contradiction].
    destruct (Rlt_dec (scale c y) _), (Rlt_dec (scale c t) _); try tauto; try reflexivity.
    destruct (Rle_dec (scale c y) _), (Rle_dec (scale c t) _); try tauto; reflexivity.
  - exists e1. split; [exact E1|]. intros y Y. apply Rabs_def2 in Y. specialize (K1 y ltac:(lra)).
    unfold DlogMARDlogct. cbv zeta. destruct (Rle_dec (zThRes c) (zRestore c)); [contradiction|].
    destruct (Rlt_dec (scale c y) _), (Rlt_dec (scale c t) _); try tauto; reflexivity.
Qed.
Lemma small_moves t c D e : 0 < t -> 0 < e -> exists d, 0 < d /\ forall h, Rabs h < d ->
  0 < t + D * h /\ 0 < t + D * h + h * c /\ Rabs (t + D * h - t) < e.
Proof.
  intros T E. pose proof (Rabs_pos D) as PD. pose proof (Rabs_pos c) as PC.
  set (k := Rabs D + Rabs c + 1). assert (K : 0 < k) by (unfold k; lra).
  assert (M : 0 < Rmin t e) by (apply Rmin_pos; assumption).
  exists (Rmin t e / k). split; [apply Rdiv_lt_0_compat; assumption|]. intros h H.
  assert (HK : k * Rabs h < Rmin t e).
  { apply Rmult_lt_compat_l with (r := k) in H; [|exact K]. replace (k * (Rmin t e / k)) with (Rmin t e) in H by (field; lra). exact H. }
  pose proof (Rabs_pos h) as PH. pose proof (Rmin_l t e). pose proof (Rmin_r t e).
  assert (B1 : Rabs (D * h) <= Rabs D * Rabs h) by (rewrite Rabs_mult; lra).
  assert (B2 : Rabs (D * h + h * c) <= (Rabs D + Rabs c) * Rabs h).
  { eapply Rle_trans; [apply Rabs_triang|]. rewrite !Rabs_mult. lra. }
  assert (X1 : 0 <= Rabs D * Rabs h) by (apply Rmult_le_pos; lra). assert (X2 : 0 <= Rabs c * Rabs h) by (apply Rmult_le_pos; lra).
  assert (X3 : k * Rabs h = Rabs D * Rabs h + Rabs c * Rabs h + Rabs h) by (unfold k; ring).
  assert (Y1 : Rabs (D * h) < Rmin t e) by lra. assert (Y2 : Rabs (D * h + h * c) < Rmin t e) by lra.
  pose proof (Rabs_def2 _ _ Y1) as [Z1 Z2]. pose proof (Rabs_def2 _ _ Y2) as [Z3 Z4].
  split; [lra|]. split; [lra|]. replace (t + D * h - t) with (D * h) by ring. lra.
Qed.
Lemma cont_at f t D : continuity_pt f t -> continuity_pt (fun h => f (t + D * h)) 0.
Proof.
  intros H. apply (cont_comp (fun h => t + D * h) f); [apply cont_time|]. rewrite Rmult_0_r, Rplus_0_r. exact H.
Qed.
Lemma cont_inverse f x : continuity_pt f x -> f x <> 0 -> continuity_pt (fun h => / f h) x.
Proof. intros H N. apply (continuity_pt_inv f); assumption. Qed.
Lemma cont_prod f g x : continuity_pt f x -> continuity_pt g x -> continuity_pt (fun h => f h * g h) x.
Proof. intros F G. apply (continuity_pt_mult f g); assumption. Qed.
Lemma cont_sum2 f g x : continuity_pt f x -> continuity_pt g x -> continuity_pt (fun h => f h + g h) x.
Proof. intros F G. apply (continuity_pt_plus f g); assumption. Qed.
Lemma cont_const k x : continuity_pt (fun _ : R => k) x.
Proof. apply continuity_pt_const. intros a b; reflexivity. Qed.
Lemma cont_axionMass c t : 0 < t -> 0 < zThRes c -> 0 < zRestore c -> indi3 c <> 0 -> continuity_pt (axionMass c) t.
Proof.
  intros T TH RE I. apply (cont_comp (AxionMass2 c) sqrt); [apply mass_continuous; assumption|].
  apply continuity_pt_sqrt. left. apply mass_pos; assumption.
Qed.
Lemma drift_moving r sg t c D : fineAt r t -> insideEra (rC r) t ->
  exists e w, 0 < e /\ (forall h, Rabs h < e -> driftW (loadP r sg (t + D * h)) (h * c) = Some (w h)) /\ w 0 = 0 /\
    derivable_pt_lim w 0 (sg * c * rOod2 r / (2 * axionMass (rC r) t * scale (rC r) t)).
Proof.
  intros (P & F & T & TH & RE & I & O) IE.
  destruct (era_stays (rC r) t T IE) as (e1 & E1 & K1). destruct (small_moves t c D e1 T E1) as (e & E & K).
  set (n := DlogMARDlogct (rC r) t) in *.
  pose proof (scale_pos (rC r) t T) as S0. pose proof (axionMass_pos (rC r) t T I) as M0.
  exists e, (fun h => dtime n (t + D * h) (h * c) * (sg * rOod2 r * / (2 * (axionMass (rC r) (t + D * h) * scale (rC r) (t + D * h))))).
  split; [exact E|]. split; [|split].
  - intros h H. destruct (K h H) as (A & B & C). rewrite drift_dtime by assumption. rewrite (K1 _ C). f_equal.
    pose proof (scale_pos (rC r) _ A). pose proof (axionMass_pos (rC r) _ A I). unfold Rdiv. rewrite !Rmult_assoc. ring.
  - rewrite Rmult_0_r, Rplus_0_r, Rmult_0_l, dtime_0 by exact T. ring.
  - eapply dl_eq.
    + apply (dl_zero (fun h => dtime n (t + D * h) (h * c)) (fun h => sg * rOod2 r * / (2 * (axionMass (rC r) (t + D * h) * scale (rC r) (t + D * h))))).
      * apply dl_dtime_moving, T.
      * rewrite Rmult_0_r, Rplus_0_r, Rmult_0_l. apply dtime_0, T.
      * apply cont_prod; [apply cont_const|]. apply (cont_inverse (fun h => 2 * (axionMass (rC r) (t + D * h) * scale (rC r) (t + D * h)))).
        -- apply cont_prod; [apply cont_const|]. apply cont_prod; apply cont_at; [apply cont_axionMass; assumption|apply cont_scale; exact T].
        -- rewrite Rmult_0_r, Rplus_0_r. nra.
    + cbv beta. rewrite Rmult_0_r, Rplus_0_r. field. lra.
Qed.
Lemma phase_moving r t c D : fineAt r t ->
  exists e w, 0 < e /\ (forall h, Rabs h < e -> phaseW (loadP r 1 (t + D * h)) (h * c) = Some (w h)) /\ w 0 = 0 /\
    derivable_pt_lim w 0 (c * rBeta r / (8 * scale (rC r) t ^ 2)).
Proof.
  intros (P & F & T & TH & RE & I & O).
  destruct (small_moves t c D 1 T ltac:(lra)) as (e & E & K). pose proof (scale_pos (rC r) t T) as S0.
  exists e, (fun h => pw (2 * frw (rC r) - 1) (t + D * h) (h * c) * (rBeta r * / (8 * (scale (rC r) (t + D * h) * scale (rC r) (t + D * h))))).
  split; [exact E|]. split; [|split].
  - intros h H. destruct (K h H) as (A & B & _). rewrite phase_pw by assumption. f_equal. pose proof (scale_pos (rC r) _ A). field. lra.
  - rewrite Rmult_0_l, pw_0. ring.
  - eapply dl_eq.
    + apply (dl_zero (fun h => pw (2 * frw (rC r) - 1) (t + D * h) (h * c)) (fun h => rBeta r * / (8 * (scale (rC r) (t + D * h) * scale (rC r) (t + D * h))))).
      * apply dl_pw_moving; [lra|exact T].
      * rewrite Rmult_0_l. apply pw_0.
      * apply cont_prod; [apply cont_const|]. apply (cont_inverse (fun h => 8 * (scale (rC r) (t + D * h) * scale (rC r) (t + D * h)))).
        -- apply cont_prod; [apply cont_const|]. apply cont_prod; apply cont_at; apply cont_scale; exact T.
        -- rewrite Rmult_0_r, Rplus_0_r. nra.
    + cbv beta. rewrite Rmult_0_r, Rplus_0_r. field. lra.
Qed.

(** ** The Laplacian *)
Definition lapSum (PC : list R) (NN : nat) (mel : R) (nb : nat -> dir -> R) : R := sumOver (fun nv => shell mel (nb nv) * nth (nv - 1) PC 0) (seq 1 NN).
Lemma fold_sum {A} (f : A -> R) l a : fold_left (fun s x => s + f x) l a = a + sumOver f l.
Proof. revert a. unfold sumOver. induction l as [|x l IH]; intros a; cbn [fold_left fold_right]; [ring|]. rewrite IH. ring. Qed.
Lemma lap_sum PC NN w mel nb : lap PC NN w mel nb = w * lapSum PC NN mel nb.
Proof.
  unfold lap, lapSum. rewrite (fold_sum (fun nv => shell mel (nb nv) * (nth (nv - 1) PC 0 * w))). rewrite Rplus_0_l, Rmult_comm, <- sumOver_scale.
  apply sumOver_ext. intros; ring.
Qed.

Lemma lapSum_ext PC NN a b f g : a = b -> (forall nv d, f nv d = g nv d) -> lapSum PC NN a f = lapSum PC NN b g.
Proof. intros -> H. apply sumOver_ext. intros nv _. unfold shell. rewrite !H. reflexivity. Qed.
Lemma cont_sumOver {A} (f : A -> R -> R) l x : (forall y, In y l -> continuity_pt (f y) x) -> continuity_pt (fun h => sumOver (fun y => f y h) l) x.
Proof.
  unfold sumOver. induction l as [|y l IH]; intros H; cbn [fold_right]; [apply cont_const|].
  apply cont_sum2; [apply H; left; reflexivity|]. apply IH. intros z Z. apply H. right; exact Z.
Qed.
Lemma cont_lapSum PC NN (a : R -> R) (f : nat -> dir -> R -> R) x : continuity_pt a x -> (forall nv d, continuity_pt (f nv d) x) ->
  continuity_pt (fun h => lapSum PC NN (a h) (fun nv d => f nv d h)) x.
Proof.
  intros A F. unfold lapSum. apply (cont_sumOver (fun nv h => shell (a h) (fun d => f nv d h) * nth (nv - 1) PC 0)). intros nv _.
  apply cont_scaled. unfold shell. repeat apply cont_sum2; try apply F. apply cont_scaled, A.
Qed.

(** ** Curves of states *)
Definition curve (P : R -> option pst) (t D : R) (m v m' v' : fld) : Prop :=
  exists e (M V : R -> fld), 0 < e /\ (forall h, Rabs h < e -> P h = Some (PSt (t + D * h) (M h) (V h))) /\
    forall x, M 0 x = m x /\ V 0 x = v x /\ derivable_pt_lim (fun h => M h x) 0 (m' x) /\ derivable_pt_lim (fun h => V h x) 0 (v' x).
Definition andThen (P : R -> option pst) (f : R -> pst -> option pst) : R -> option pst :=
  fun h => match P h with None => None | Some s => f h s end.
(** Laplacian without its factor. *)
Definition lapAt (r : prun) (f : fld) (x : cell) : R :=
  lapSum (setCO (rNN r)) (rNN r) (f x) (fun nv d => f (stepTo (rn r) (rnz r) nv d x)).
Lemma kick_at r w src dst x : lapKick (rNN r) (rn r) (rnz r) w src dst x = dst x + w * lapAt r src x.
Proof. unfold lapKick, lapAt. rewrite lap_sum. reflexivity. Qed.
Lemma lapAt_ext r f g x : (forall y, f y = g y) -> lapAt r f x = lapAt r g x.
Proof. intros H. apply lapSum_ext; intros; apply H. Qed.
Lemma cont_lapAt r (M : R -> fld) x : (forall y, continuity_pt (fun h => M h y) 0) -> continuity_pt (fun h => lapAt r (M h) x) 0.
Proof. intros H. apply (cont_lapSum _ _ (fun h => M h x) (fun nv d h => M h (stepTo (rn r) (rnz r) nv d x))); intros; apply H. Qed.
Definition kap (r : prun) (t : R) : R := rOod2 r / (2 * axionMass (rC r) t * scale (rC r) t).
Lemma curve_kick r P t c D m v m' v' : fineAt r t -> insideEra (rC r) t -> curve P t D m v m' v' ->
  curve (andThen P (fun h => kickSub r (h * c))) t D m v m' (fun x => v' x + c * kap r t * lapAt r m x).
Proof.
  intros F IE (e1 & M & V & E1 & H & C). destruct (drift_moving r 1 t c D F IE) as (e2 & w & E2 & HW & W0 & DW).
  exists (Rmin e1 e2), M, (fun h => lapKick (rNN r) (rn r) (rnz r) (w h) (M h) (V h)).
  split; [apply Rmin_pos; assumption|]. split.
  - intros h Hh. pose proof (Rmin_l e1 e2). pose proof (Rmin_r e1 e2). unfold andThen. rewrite H by lra. unfold kickSub. cbn [tT tMf tVf].
    rewrite HW by lra. reflexivity.
  - intros x. destruct (C x) as (C1 & C2 & C3 & C4). split; [exact C1|]. split; [|split; [exact C3|]].
    + rewrite kick_at, W0, C2. ring.
    + apply (derivable_pt_lim_ext (fun h => V h x + w h * lapAt r (M h) x)); [intros; rewrite kick_at; reflexivity|]. eapply dl_eq.
      * apply (dl_plus (fun h => V h x) (fun h => w h * lapAt r (M h) x)); [exact C4|].
        apply (dl_zero w (fun h => lapAt r (M h) x)); [exact DW|exact W0|]. apply cont_lapAt. intros y. apply (dl_cont _ _ _ (proj1 (proj2 (proj2 (C y))))).
      * cbv beta. rewrite (lapAt_ext r (M 0) m x) by (intros y; apply (C y)). unfold kap, Rdiv. ring.
Qed.
Lemma curve_drift r P t d D m v m' v' : fineAt r t -> insideEra (rC r) t -> curve P t D m v m' v' ->
  curve (andThen P (fun h => driftSub r (h * d))) t (D + d) m v (fun x => m' x - d * kap r t * lapAt r v x) v'.
Proof.
  intros F IE (e1 & M & V & E1 & H & C). destruct (drift_moving r (-1) t d D F IE) as (e2 & w & E2 & HW & W0 & DW).
  exists (Rmin e1 e2), (fun h => lapKick (rNN r) (rn r) (rnz r) (w h) (V h) (M h)), V.
  split; [apply Rmin_pos; assumption|]. split.
  - intros h Hh. pose proof (Rmin_l e1 e2). pose proof (Rmin_r e1 e2). unfold andThen. rewrite H by lra. unfold driftSub. cbn [tT tMf tVf].
    rewrite HW by lra. f_equal. f_equal. ring.
  - intros x. destruct (C x) as (C1 & C2 & C3 & C4). split; [|split; [exact C2|split; [|exact C4]]].
    + rewrite kick_at, W0, C1. ring.
    + apply (derivable_pt_lim_ext (fun h => M h x + w h * lapAt r (V h) x)); [intros; rewrite kick_at; reflexivity|]. eapply dl_eq.
      * apply (dl_plus (fun h => M h x) (fun h => w h * lapAt r (V h) x)); [exact C3|].
        apply (dl_zero w (fun h => lapAt r (V h) x)); [exact DW|exact W0|]. apply cont_lapAt. intros y. apply (dl_cont _ _ _ (proj2 (proj2 (proj2 (C y))))).
      * cbv beta. rewrite (lapAt_ext r (V 0) v x) by (intros y; apply (C y)). unfold kap, Rdiv. ring.
Qed.
Lemma dl_cos f x a : derivable_pt_lim f x a -> derivable_pt_lim (fun u => cos (f u)) x (- sin (f x) * a).
Proof. intros H. apply (derivable_pt_lim_comp f cos); [exact H|apply derivable_pt_lim_cos]. Qed.
Lemma dl_sin f x a : derivable_pt_lim f x a -> derivable_pt_lim (fun u => sin (f u)) x (cos (f x) * a).
Proof. intros H. apply (derivable_pt_lim_comp f sin); [exact H|apply derivable_pt_lim_sin]. Qed.
(** Half a phase. *)
Lemma curve_pot r P t D phi m v m' v' : fineAt r t -> fixedPhi r phi -> curve P t D m v m' v' ->
  curve (andThen P (fun h => potSub r h)) t D m v (fun x => m' x - 0.5 * selfPhase r phi t m v x * v x) (fun x => v' x + 0.5 * selfPhase r phi t m v x * m x).
Proof.
  intros F G (e1 & M & V & E1 & H & C). destruct (phase_moving r t 0.5 D F) as (e2 & w & E2 & HW & W0 & DW).
  pose proof F as (P0 & F0 & T & TH & RE & I & O).
  set (g := fun h => - axionMass (rC r) (t + D * h) * rGrav r * (0.5 * h)).
  set (a := fun h x => w h * (V h x * V h x + M h x * M h x) + g h * phi x).
  assert (A0 : forall x, a 0 x = 0) by (intros x; unfold a, g; rewrite W0; ring).
  assert (DA : forall x, derivable_pt_lim (fun h => a h x) 0 (0.5 * selfPhase r phi t m v x)).
  { intros x. destruct (C x) as (C1 & C2 & C3 & C4). unfold a, g. eapply dl_eq.
    - apply (dl_plus (fun h => w h * (V h x * V h x + M h x * M h x)) (fun h => - axionMass (rC r) (t + D * h) * rGrav r * (0.5 * h) * phi x)).
      + apply (dl_zero w (fun h => V h x * V h x + M h x * M h x)); [exact DW|exact W0|].
        apply cont_sum2; apply cont_prod; first [exact (dl_cont _ _ _ C3)|exact (dl_cont _ _ _ C4)].
      + apply (dl_scal (fun h => - axionMass (rC r) (t + D * h) * rGrav r * (0.5 * h)) 0).
        apply (derivable_pt_lim_ext (fun h => (0.5 * h) * (axionMass (rC r) (t + D * h) * (- rGrav r)))); [intros; ring|].
        apply (dl_zero (fun h => 0.5 * h) (fun h => axionMass (rC r) (t + D * h) * (- rGrav r)) 0.5); [|ring|].
        * eapply dl_eq; [apply (dl_ext (fun h => h * 0.5)); [intros; ring|apply (dl_scal (fun h => h)), dl_idv]|ring].
        * apply cont_scaled, cont_at, cont_axionMass; assumption.
    - cbv beta. rewrite C1, C2, Rmult_0_r, Rplus_0_r. unfold selfPhase, Rdiv. ring. }
  exists (Rmin e1 e2), (fun h x => cos (a h x) * M h x - sin (a h x) * V h x), (fun h x => cos (a h x) * V h x + sin (a h x) * M h x).
  split; [apply Rmin_pos; assumption|]. split.
  - intros h Hh. pose proof (Rmin_l e1 e2). pose proof (Rmin_r e1 e2). unfold andThen. rewrite H by lra. unfold potSub. cbn [tT tMf tVf]. cbv zeta.
    replace (0.5 * h) with (h * 0.5) by ring. rewrite HW by lra. unfold potTurn, turn. cbn [fst snd]. f_equal.
    assert (GW : forall x, potPhase (w h) (gravW (loadP r 1 (t + D * h)) (h * 0.5)) (match rPhi r with None => None | Some f => Some (f (M h) (V h)) end) (M h) (V h) x = a h x).
    { intros x. unfold potPhase, gravW, loadP, a, g. cbn [qMa qGrav]. fold (axionMass (rC r) (t + D * h)).
      destruct G as [[-> ->] | -> ]; ring. }
    f_equal; apply functional_extensionality; intros x; rewrite GW; reflexivity.
  - intros x. destruct (C x) as (C1 & C2 & C3 & C4). rewrite A0, cos_0, sin_0. split; [rewrite C1; ring|]. split; [rewrite C2; ring|]. split.
    + eapply dl_eq.
      * apply (dl_minus (fun h => cos (a h x) * M h x) (fun h => sin (a h x) * V h x)).
        -- apply (dl_mult (fun h => cos (a h x)) (fun h => M h x)); [apply (dl_cos (fun h => a h x)), DA|exact C3].
        -- apply (dl_mult (fun h => sin (a h x)) (fun h => V h x)); [apply (dl_sin (fun h => a h x)), DA|exact C4].
      * cbv beta. rewrite A0, cos_0, sin_0, C1, C2. ring.
    + eapply dl_eq.
      * apply (dl_plus (fun h => cos (a h x) * V h x) (fun h => sin (a h x) * M h x)).
        -- apply (dl_mult (fun h => cos (a h x)) (fun h => V h x)); [apply (dl_cos (fun h => a h x)), DA|exact C4].
        -- apply (dl_mult (fun h => sin (a h x)) (fun h => M h x)); [apply (dl_sin (fun h => a h x)), DA|exact C3].
      * cbv beta. rewrite A0, cos_0, sin_0, C1, C2. ring.
Qed.

(** ** A whole step *)
Lemma curve_ext P Q t D m v m' v' : (forall h, P h = Q h) -> curve P t D m v m' v' -> curve Q t D m v m' v'.
Proof. intros E (e & M & V & H0 & H & C). exists e, M, V. split; [exact H0|]. split; [|exact C]. intros h L. rewrite <- E. apply H, L. Qed.
Lemma curve_rates P t D D' m v m' v' m2 v2 : D = D' -> (forall x, m' x = m2 x) -> (forall x, v' x = v2 x) -> curve P t D m v m' v' -> curve P t D' m v m2 v2.
Proof.
  intros <- A B (e & M & V & H0 & H & C). exists e, M, V. split; [exact H0|]. split; [exact H|]. intros x. rewrite <- A, <- B. apply C.
Qed.
Lemma curve_stages r t m v : fineAt r t -> insideEra (rC r) t -> forall cd P D m' v', curve P t D m v m' v' ->
  curve (andThen P (fun h => stages r h cd)) t (D + sumOver snd cd) m v
    (fun x => m' x - sumOver snd cd * kap r t * lapAt r v x) (fun x => v' x + sumOver fst cd * kap r t * lapAt r m x).
Proof.
  intros F IE. unfold sumOver. induction cd as [|[c d] cd IH]; intros P D m' v' C.
  - cbn [fold_right]. apply (curve_ext P).
    + intros h. unfold andThen. cbn [stages]. destruct (P h); reflexivity.
    + eapply curve_rates; [| | |exact C]; intros; ring.
  - cbn [fold_right fst snd]. pose proof (curve_kick r P t c D m v m' v' F IE C) as C1. pose proof (curve_drift r _ t d D m v _ _ F IE C1) as C2.
    pose proof (IH _ _ _ _ C2) as C3. cbv beta in C3.
    eapply curve_ext; [|eapply curve_rates; [| | |exact C3]].
    + intros h. unfold andThen. destruct (P h) as [s|]; [|reflexivity]. cbn [stages]. destruct (kickSub r (h * c) s); reflexivity.
    + ring.
    + intros x. cbv beta. ring.
    + intros x. cbv beta. ring.
Qed.
Lemma curve_step r cd last t m v phi : fineAt r t -> insideEra (rC r) t -> fixedPhi r phi ->
  curve (fun h => pStep r cd last h (PSt t m v)) t (sumOver snd cd) m v
    (fun x => - (sumOver snd cd * kap r t * lapAt r v x) - selfPhase r phi t m v x * v x)
    (fun x => (sumOver fst cd + match last with None => 0 | Some c => c end) * kap r t * lapAt r m x + selfPhase r phi t m v x * m x).
Proof.
  intros F IE G.
  assert (C0 : curve (fun _ => Some (PSt t m v)) t 0 m v (fun _ => 0) (fun _ => 0)).
  { exists 1, (fun _ => m), (fun _ => v). split; [lra|]. split.
    - intros h _. rewrite Rmult_0_l, Rplus_0_r. reflexivity.
    - intros x. repeat split; apply dl_const. }
  pose proof (curve_pot r _ t 0 phi m v _ _ F G C0) as C1. pose proof (curve_stages r t m v F IE cd _ _ _ _ C1) as C2.
  assert (C3 : curve (andThen (andThen (andThen (fun _ => Some (PSt t m v)) (fun h => potSub r h)) (fun h => stages r h cd))
      (fun h s => match last with None => Some s | Some c => kickSub r (h * c) s end)) t (0 + sumOver snd cd) m v
      (fun x => 0 - 0.5 * selfPhase r phi t m v x * v x - sumOver snd cd * kap r t * lapAt r v x)
      (fun x => 0 + 0.5 * selfPhase r phi t m v x * m x + sumOver fst cd * kap r t * lapAt r m x + match last with None => 0 | Some c => c end * kap r t * lapAt r m x)).
  { destruct last as [c|].
    - exact (curve_kick r _ t c _ m v _ _ F IE C2).
    - eapply curve_ext; [|eapply curve_rates; [| | |exact C2]].
      + intros h. unfold andThen. destruct (potSub r h _); [|reflexivity]. destruct (stages r h cd _); reflexivity.
      + reflexivity.
      + intros x. reflexivity.
      + intros x. cbv beta. ring. }
  pose proof (curve_pot r _ t _ phi m v _ _ F G C3) as C4.
  eapply curve_ext; [|eapply curve_rates; [| | |exact C4]].
  - intros h. unfold andThen, pStep. destruct (potSub r h _); [|reflexivity]. destruct (stages r h cd _) as [s|]; [|reflexivity].
    destruct last as [c|]; [destruct (kickSub r (h * c) s)|]; reflexivity.
  - ring.
  - intros x. cbv beta. replace 0.5 with (1 / 2) by lra. field.
  - intros x. cbv beta. replace 0.5 with (1 / 2) by lra. field.
Qed.
Lemma boxLap_at r m v x : rOod2 r <> 0 -> lapOf r m v x = (rOod2 r * lapAt r m x, rOod2 r * lapAt r v x).
Proof. intros O. unfold lapOf, boxLap. cbn [fst snd]. rewrite !lap_sum, Rinv_inv. reflexivity. Qed.

(** ** A box that does not expand *)
Lemma still_scale c t : frw c = 0 -> 0 < t -> scale c t = 1.
Proof. intros F T. rewrite scale_plain by (left; lra). rewrite F. apply Rpower_O, T. Qed.
Lemma still_mass c s t : frw c = 0 -> 0 < s -> 0 < t -> axionMass c s = axionMass c t.
Proof. intros F S0 T. unfold axionMass, AxionMass2. rewrite !still_scale by assumption. reflexivity. Qed.
Lemma still_power c t : frw c = 0 -> DlogMARDlogct c t = 0.
Proof. intros F. unfold DlogMARDlogct. cbv zeta. rewrite F. repeat match goal with |- context [if ?d then _ else _] => destruct d end; ring. Qed.
Lemma pw_neg1 t h : 0 < t -> 0 < t + h -> pw (-1) t h = h.
Proof.
  intros T H. unfold pw. replace (- (-1)) with 1 by ring. rewrite Rpower_1 by (apply grown_pos; assumption). field. lra.
Qed.
Lemma still_drift r sg t h : frw (rC r) = 0 -> indi3 (rC r) <> 0 -> 0 < t -> 0 < t + h ->
  driftW (loadP r sg t) h = Some (sg * h * (rOod2 r / (2 * axionMass (rC r) t))).
Proof.
  intros F I T H. rewrite drift_dtime by assumption. rewrite still_power by exact F. unfold dtime.
  destruct (Rlt_dec _ _) as [L|L]; [exfalso; rewrite Rabs_left in L by lra; lra|].
  replace (0 - 1) with (-1) by ring. rewrite pw_neg1 by assumption. rewrite still_scale by assumption.
  pose proof (axionMass_pos (rC r) t T I). f_equal. field. lra.
Qed.
Lemma still_phase r t h : frw (rC r) = 0 -> 0 < t -> 0 < t + h -> phaseW (loadP r 1 t) h = Some (rBeta r * h / 8).
Proof.
  intros F T H. rewrite phase_pw; try assumption; [|left; lra|lra]. rewrite F, still_scale by assumption.
  replace (2 * 0 - 1) with (-1) by ring. rewrite pw_neg1 by assumption. f_equal. field.
Qed.
(** The times of the scheme are positive. *)
Lemma rkn4_times t h : 0 < t -> 0 < h -> let d1 := 0.5153528374311229364 in let d2 := - 0.085782019412973646 in let d3 := 0.4415830236164665242 in let d4 := 0.1288461583653841854 in
  0 < t + h * d1 /\ 0 < t + h * d1 + h * d2 /\ 0 < t + h * d1 + h * d2 + h * d3 /\ t + h * d1 + h * d2 + h * d3 + h * d4 = t + h.
Proof. intros T H. cbv zeta. repeat split; lra. Qed.

Fixpoint timesOk (T h : R) (cd : list (R * R)) : Prop :=
  match cd with [] => True | (c, d) :: l => 0 < T /\ 0 < T + h * c /\ 0 < T + h * d /\ timesOk (T + h * d) h l end.
Lemma rkn4_timesOk t h : 0 < t -> 0 < h -> timesOk t h rkn4Pairs.
Proof. intros T H. cbn -[IZR]. repeat split; lra. Qed.
Lemma rkn4_sums : sumOver fst rkn4Pairs = 1 /\ sumOver snd rkn4Pairs = 1.
Proof. unfold sumOver. cbn -[IZR]. split; lra. Qed.
Lemma lapAt_mode r e a m x : (forall y, In y (box (rn r) (rnz r)) -> m y = a * e y) -> In x (box (rn r) (rnz r)) -> lapAt r m x = a * lapAt r e x.
Proof.
  intros H X. unfold lapAt, lapSum. rewrite Rmult_comm, <- sumOver_scale. apply sumOver_ext. intros nv _. unfold shell.
  rewrite !H by (try apply step_in; exact X). ring.
Qed.
Lemma mode_lapAt r e lam x : mode r e lam -> In x (box (rn r) (rnz r)) -> rOod2 r * lapAt r e x = - lam * e x.
Proof.
  intros H X. rewrite <- (H x X). unfold boxLap. cbn [fst snd]. rewrite lap_sum, Rinv_inv. reflexivity.
Qed.
Lemma stages_mode r e lam t0 h : frw (rC r) = 0 -> indi3 (rC r) <> 0 -> 0 < t0 -> mode r e lam ->
  forall cd T m v a b, timesOk T h cd -> onMode r e a b m v ->
  exists s, stages r h cd (PSt T m v) = Some s /\ tT s = T + h * sumOver snd cd /\
    let p := fold_left (fun p (q : R * R) => let b := snd p - fst q * (h * lam / (2 * axionMass (rC r) t0)) * fst p in (fst p + snd q * (h * lam / (2 * axionMass (rC r) t0)) * b, b)) cd (a, b) in
    onMode r e (fst p) (snd p) (tMf s) (tVf s).
Proof.
  intros F I T0 MO. pose proof (axionMass_pos (rC r) t0 T0 I) as M0. set (th := h * lam / (2 * axionMass (rC r) t0)).
  induction cd as [|[c d] cd IH]; intros T m v a b OK ON.
  - exists (PSt T m v). split; [reflexivity|]. split; [unfold sumOver; cbn; ring|]. exact ON.
  - destruct OK as (O1 & O2 & O3 & O4). cbn [stages]. unfold kickSub. cbn [tT tMf tVf].
    rewrite still_drift by assumption. unfold driftSub. cbn [tT tMf tVf]. rewrite still_drift by assumption.
    rewrite (still_mass (rC r) T t0 F O1 T0). set (k0 := rOod2 r / (2 * axionMass (rC r) t0)).
    assert (ON1 : onMode r e a (b - c * th * a) m (lapKick (rNN r) (rn r) (rnz r) (1 * (h * c) * k0) m v)).
    { intros x X. destruct (ON x X) as [A B]. split; [exact A|]. rewrite kick_at, B.
      rewrite (lapAt_mode r e a m x) by (try exact X; intros y Y; apply (ON y Y)). unfold k0, th.
      replace (1 * (h * c) * (rOod2 r / (2 * axionMass (rC r) t0)) * (a * lapAt r e x)) with (h * c / (2 * axionMass (rC r) t0) * a * (rOod2 r * lapAt r e x)) by (field; lra).
      rewrite (mode_lapAt r e lam x MO X). field. lra. }
    set (v1 := lapKick (rNN r) (rn r) (rnz r) (1 * (h * c) * k0) m v) in *. clearbody v1.
    assert (ON2 : onMode r e (a + d * th * (b - c * th * a)) (b - c * th * a) (lapKick (rNN r) (rn r) (rnz r) (-1 * (h * d) * k0) v1 m) v1).
    { intros x X. destruct (ON1 x X) as [A B]. split; [|exact B]. rewrite kick_at, A.
      rewrite (lapAt_mode r e (b - c * th * a) v1 x) by (try exact X; intros y Y; apply (ON1 y Y)). unfold k0.
      set (b1 := b - c * th * a). unfold th.
      replace (-1 * (h * d) * (rOod2 r / (2 * axionMass (rC r) t0)) * (b1 * lapAt r e x)) with (- (h * d / (2 * axionMass (rC r) t0)) * b1 * (rOod2 r * lapAt r e x)) by (field; lra).
      rewrite (mode_lapAt r e lam x MO X). field. lra. }
    destruct (IH _ _ _ _ _ O4 ON2) as (s & S1 & S2 & S3). exists s. split; [exact S1|]. split.
    + rewrite S2. unfold sumOver. cbn [fold_right snd]. ring.
    + cbn [fold_left fst snd]. exact S3.
Qed.

(** ** Sums over the box *)
Lemma lapAt_total r f : (0 < rn r)%nat -> (0 < rnz r)%nat -> sumOver (lapAt r f) (box (rn r) (rnz r)) = 0.
Proof.
  intros N Z. unfold lapAt, lapSum.
  assert (SW : forall (F : cell -> nat -> R) l, sumOver (fun x => sumOver (F x) l) (box (rn r) (rnz r)) = sumOver (fun k => sumOver (fun x => F x k) (box (rn r) (rnz r))) l).
  { intros F l. induction l as [|k l IH].
    - unfold sumOver at 2 3. cbn [fold_right]. rewrite (sumOver_ext _ _ (fun _ => 1 * 0)) by (intros; unfold sumOver; cbn; ring). rewrite sumOver_scale. ring.
    - unfold sumOver at 3. cbn [fold_right]. fold (sumOver (fun k => sumOver (fun x => F x k) (box (rn r) (rnz r))) l). rewrite <- IH, <- sumOver_plus. reflexivity. }
  rewrite SW. rewrite (sumOver_ext _ _ (fun _ => 1 * 0)); [rewrite sumOver_scale; ring|]. intros nv _.
  rewrite sumOver_scale. unfold shell. rewrite !sumOver_plus, sumOver_scale. rewrite !(step_sum (rn r) (rnz r) nv _ f N Z). ring.
Qed.
Lemma kick_total r w src dst : (0 < rn r)%nat -> (0 < rnz r)%nat -> total r (lapKick (rNN r) (rn r) (rnz r) w src dst) = total r dst.
Proof.
  intros N Z. unfold total. rewrite (sumOver_ext _ _ (fun x => dst x + lapAt r src x * w)) by (intros x _; rewrite kick_at; ring).
  rewrite sumOver_plus, sumOver_scale, lapAt_total by assumption. ring.
Qed.
Lemma turn_0 p : turn 0 p = p.
Proof. destruct p as [a b]. unfold turn. cbn [fst snd]. rewrite cos_0, sin_0. f_equal; ring. Qed.
Lemma free_pot r h s s' : rBeta r = 0 -> rPhi r = None -> potSub r h s = Some s' -> tT s' = tT s /\ (forall x, tMf s' x = tMf s x /\ tVf s' x = tVf s x).
Proof.
  intros B P. unfold potSub. cbv zeta. destruct (phaseW _ _) as [kk|] eqn:K; [|discriminate]. rewrite P.
  assert (K0 : kk = 0).
  { unfold phaseW, loadP in K. cbn [qCt qR qFrw qBeta qSign] in K. cbv zeta in K.
    repeat match type of K with context [if ?d then _ else _] => destruct d end; try discriminate. injection K as <-. rewrite B. unfold Rdiv. ring. }
  unfold potTurn, potPhase. intros H. injection H as <-. cbn [tT tMf tVf]. split; [reflexivity|]. intros x. cbv beta iota. rewrite K0, Rmult_0_l. rewrite cos_0, sin_0. split; ring.
Qed.
Lemma stages_total r h : (0 < rn r)%nat -> (0 < rnz r)%nat -> forall cd s s', stages r h cd s = Some s' ->
  total r (tMf s') = total r (tMf s) /\ total r (tVf s') = total r (tVf s).
Proof.
  intros N Z. induction cd as [|[c d] cd IH]; intros s s' H.
  - injection H as <-. split; reflexivity.
  - cbn [stages] in H. unfold kickSub in H. destruct (driftW _ (h * c)) as [w|]; [|discriminate]. unfold driftSub in H. cbn [tT tMf tVf] in H.
    destruct (driftW _ (h * d)) as [w'|]; [|discriminate]. apply IH in H. cbn [tMf tVf] in H. destruct H as [-> ->].
    split; apply kick_total; assumption.
Qed.
