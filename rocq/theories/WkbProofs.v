(** Lemmas on the WKB transport. *)
From Coq Require Import Lqa Lra Reals List Arith ZArith Lia Bool.
From Verif Require Import CosmoModel CosmoSpec CosmoProofs ConserveProofs PaxProofs SplineModel SplineSpec WkbModel WkbSpec.
Import ListNotations.
Open Scope R_scope.
Ltac Zify.zify_post_hook ::= idtac.

(** ** One mode *)
(** The transport with real coefficients *)
Definition along (a z1 s c w1 m d : R) : R := a * ((c + z1 * s) * m + s / w1 * d).
Definition across (a z1 s c w1 m d : R) : R := a * ((z1 * c - s) * m + c / w1 * d).
Lemma modeStep_parts w1 w2 z1 z2 c s M D : w1 <> 0 ->
  modeStep w1 w2 z1 z2 (c, s) M D =
  let a := sqrt (w1 / w2) in
  let m := (along a z1 s c w1 (fst M) (fst D), along a z1 s c w1 (snd M) (snd D)) in
  let q := (across a z1 s c w1 (fst M) (fst D), across a z1 s c w1 (snd M) (snd D)) in
  (m, (w2 * (fst q - z2 * fst m), w2 * (snd q - z2 * snd m))).
Proof.
  intros W. destruct M as [mr mi], D as [dr di]. unfold modeStep, along, across, cmul, cadd, csub, cdiv, cbar, cr, im. cbn [fst snd].
  set (a := sqrt (w1 / w2)). f_equal; f_equal; field; assumption.
Qed.
Lemma cmul_cis a b : cmul (cis a) (cis b) = cis (a + b).
Proof. unfold cmul, cis. cbn [fst snd]. rewrite cos_plus, sin_plus. f_equal; ring. Qed.

(** General rates: [w] the frequency, [u] its logarithmic rate over 2, [phi] the phase *)
Lemma dl_along w phi u z w1 z1 m d : 0 < w1 -> 0 < w z -> derivable_pt_lim w z (2 * u * w z) -> derivable_pt_lim phi z (w z) ->
  derivable_pt_lim (fun t => along (sqrt (w1 / w t)) z1 (sin (phi t)) (cos (phi t)) w1 m d) z
    (w z * across (sqrt (w1 / w z)) z1 (sin (phi z)) (cos (phi z)) w1 m d - u * along (sqrt (w1 / w z)) z1 (sin (phi z)) (cos (phi z)) w1 m d) /\
  derivable_pt_lim (fun t => across (sqrt (w1 / w t)) z1 (sin (phi t)) (cos (phi t)) w1 m d) z
    (- w z * along (sqrt (w1 / w z)) z1 (sin (phi z)) (cos (phi z)) w1 m d - u * across (sqrt (w1 / w z)) z1 (sin (phi z)) (cos (phi z)) w1 m d).
Proof.
  intros W1 W Dw Dp.
  assert (P : 0 < w1 / w z) by (apply Rdiv_lt_0_compat; assumption). pose proof (sqrt_lt_R0 _ P) as SP.
  assert (A : derivable_pt_lim (fun t => sqrt (w1 / w t)) z (- u * sqrt (w1 / w z))).
  { eapply dl_eq; [apply dl_sqrt; [apply dl_mult; [apply dl_const|apply dl_inv; [exact Dw|lra]]|exact P]|].
    assert (Q : sqrt (w1 / w z) * sqrt (w1 / w z) = w1 / w z) by (apply sqrt_sqrt; lra).
    change (w1 * / w z) with (w1 / w z). set (q := sqrt (w1 / w z)) in *.
    apply Rmult_eq_reg_r with (2 * q); [|lra]. unfold Rdiv at 1. rewrite Rmult_assoc, Rinv_l, Rmult_1_r by lra.
    replace (- u * q * (2 * q)) with (- u * 2 * (q * q)) by ring. rewrite Q. field. lra. }
  pose proof (dl_sin _ _ _ Dp) as S. pose proof (dl_cos _ _ _ Dp) as C.
  split; unfold along, across.
  - eapply dl_eq; [apply dl_mult; [exact A|apply dl_plus; apply dl_mult]|].
    + apply dl_plus; [exact C|apply dl_mult; [apply dl_const|exact S]].
    + apply dl_const.
    + apply dl_mult; [exact S|apply dl_const].
    + apply dl_const.
    + cbv beta. unfold Rdiv. ring.
  - eapply dl_eq; [apply dl_mult; [exact A|apply dl_plus; apply dl_mult]|].
    + apply dl_minus; [apply dl_mult; [apply dl_const|exact C]|exact S].
    + apply dl_const.
    + apply dl_mult; [exact C|apply dl_const].
    + apply dl_const.
    + cbv beta. unfold Rdiv. ring.
Qed.

(** ** The mass *)
Lemma scale_radiation c z : radiation c -> 0 < z -> scale c z = z.
Proof.
  intros [Fr Gr] Z. unfold scale. destruct (Req_EM_T (frw c) 1); [|contradiction]. destruct (Rlt_dec 0 (grav c)); [lra|]. rewrite Fr. apply Rpower_1, Z.
Qed.
Lemma half_power i r n : 0 < r -> i * i * Rpower r n = (i * Rpower r (n / 2)) * (i * Rpower r (n / 2)).
Proof. intros P. replace (Rpower r n) with (Rpower r (n / 2) * Rpower r (n / 2)) by (rewrite <- Rpower_plus; f_equal; lra). ring. Qed.
Lemma era_mass2 c i n z : radiation c -> inEra c i n z -> AxionMass2 c z = (i * Rpower z (n / 2)) * (i * Rpower z (n / 2)).
Proof.
  intros Ra H. destruct H as [[Z [-> ->]]|[Z [Re [-> ->]]]]; unfold AxionMass2; rewrite (scale_radiation c z Ra) by lra.
  - destruct (Rlt_dec z (zThRes c)); [|lra]. rewrite half_power by lra. destruct (Rle_dec (zThRes c) (zRestore c)); reflexivity.
  - replace (0 / 2) with 0 by lra. rewrite Rpower_O by lra. rewrite Rmult_1_r. destruct (Rlt_dec z (zThRes c)); [lra|].
    destruct (Rle_dec (zThRes c) (zRestore c)) as [L|L]; [destruct (Rle_dec z (zRestore c)) as [E|E]; [|specialize (Re L); lra]|]; apply half_power; lra.
Qed.
Lemma sqrt_sq_abs x : sqrt (x * x) * sqrt (x * x) = x * x.
Proof. apply sqrt_sqrt. apply Rle_0_sqr. Qed.
Lemma era_freq c i n z k2 : radiation c -> inEra c i n z -> freq c k2 z = omega i n k2 z.
Proof.
  intros Ra H. unfold freq, omega, mass. rewrite (era_mass2 c i n z Ra H). set (m := i * Rpower z (n / 2)).
  f_equal. f_equal. transitivity (sqrt (m * m) * sqrt (m * m) * z * z); [ring|]. rewrite sqrt_sq_abs. ring.
Qed.
Lemma era_pos c i n z : inEra c i n z -> 0 < z.
Proof. intros [[H _]|[H _]]; lra. Qed.
(** An era is open *)
Lemma era_open c i n z : inEra c i n z -> exists e, 0 < e /\ forall t, Rabs (t - z) < e -> inEra c i n t.
Proof.
  intros H. assert (AB : forall t e, Rabs (t - z) < e -> z - e < t < z + e).
  { intros t e A. apply Rabs_def2 in A. lra. }
  destruct H as [[Z [Ei En]]|[Z [Re [Ei En]]]].
  - exists (Rmin z (zThRes c - z)). split; [apply Rmin_pos; lra|]. intros t A. apply AB in A.
    pose proof (Rmin_l z (zThRes c - z)). pose proof (Rmin_r z (zThRes c - z)). left. repeat split; try assumption; lra.
  - destruct (Rle_dec (zThRes c) (zRestore c)) as [L|L].
    + specialize (Re L). exists (Rmin (zRestore c - z) (z - zThRes c)). split; [apply Rmin_pos; lra|]. intros t A. apply AB in A.
      pose proof (Rmin_l (zRestore c - z) (z - zThRes c)). pose proof (Rmin_r (zRestore c - z) (z - zThRes c)). right. repeat split; try assumption; try lra.
    + exists (z - zThRes c). split; [lra|]. intros t A. apply AB in A. right. repeat split; try assumption; try lra.
Qed.
(** The mass times the time, and its rate *)
Definition mz (i n z : R) : R := i * Rpower z (n / 2) * z.
Lemma mz_power i n z : 0 < z -> mz i n z = i * Rpower z (n / 2 + 1).
Proof. intros Z. unfold mz. rewrite Rpower_plus, Rpower_1 by exact Z. ring. Qed.
Lemma dl_mz i n z : 0 < z -> derivable_pt_lim (mz i n) z ((n / 2 + 1) * mz i n z / z).
Proof.
  intros Z. unfold mz. eapply dl_eq; [apply dl_mult; [apply dl_mult; [apply dl_const|apply dl_pow; [apply dl_idv|exact Z]]|apply dl_idv]|].
  cbv beta. replace (n / 2 - 1) with (n / 2 + - (1)) by ring. rewrite Rpower_plus, Rpower_Ropp, Rpower_1 by exact Z. field. lra.
Qed.
Lemma omega_mz i n k2 z : omega i n k2 z = sqrt (k2 + mz i n z * mz i n z).
Proof. unfold omega, mz. f_equal. ring. Qed.
Lemma omega_sq i n k2 z : 0 <= k2 -> omega i n k2 z * omega i n k2 z = k2 + mz i n z * mz i n z.
Proof. intros K. rewrite omega_mz. apply sqrt_sqrt. pose proof (Rle_0_sqr (mz i n z)) as Q. unfold Rsqr in Q. lra. Qed.
Lemma omega_pos i n k2 z : 0 < k2 + mz i n z * mz i n z -> 0 < omega i n k2 z.
Proof. intros H. rewrite omega_mz. apply sqrt_lt_R0, H. Qed.
(** The logarithmic rate of the frequency, over 2 *)
Definition lograte (i n k2 z : R) : R := (n / 2 + 1) * (mz i n z * mz i n z) / (2 * z * (omega i n k2 z * omega i n k2 z)).
Lemma dl_omega i n k2 z : 0 < z -> 0 < k2 + mz i n z * mz i n z -> derivable_pt_lim (omega i n k2) z (2 * lograte i n k2 z * omega i n k2 z).
Proof.
  intros Z P. pose proof (omega_pos _ _ _ _ P) as W. apply dl_ext with (f := fun t => sqrt (k2 + mz i n t * mz i n t)); [intros u; symmetry; apply omega_mz|].
  eapply dl_eq; [apply dl_sqrt; [apply dl_plus; [apply dl_const|apply dl_mult; apply (dl_mz i n z Z)]|exact P]|].
  cbv beta. rewrite <- omega_mz. unfold lograte. field. split; lra.
Qed.
Lemma era_zeta c i n z k2 : radiation c -> inEra c i n z -> 0 < omega i n k2 z ->
  zeta c n k2 z = lograte i n k2 z / omega i n k2 z.
Proof.
  intros Ra H W. unfold zeta. rewrite (era_freq c i n z k2 Ra H). pose proof (era_pos _ _ _ _ H) as Z.
  assert (E : mass c z * z * (mass c z * z) = mz i n z * mz i n z).
  { unfold mass. rewrite (era_mass2 c i n z Ra H). set (m := i * Rpower z (n / 2)). transitivity (sqrt (m * m) * sqrt (m * m) * z * z); [ring|]. rewrite sqrt_sq_abs. unfold mz. fold m. ring. }
  rewrite E. unfold lograte. field. split; lra.
Qed.
Lemma era_nEnd c i n z : inEra c i n z -> nEnd c z = n.
Proof. unfold nEnd. intros [[Z [_ ->]]|[Z [_ [_ ->]]]]; destruct (Rlt_dec (zThRes c) z); (reflexivity || lra). Qed.
Lemma era_nIni c i n z : inEra c i n z -> nIni c z = n.
Proof. unfold nIni. intros [[Z [_ ->]]|[Z [_ [_ ->]]]]; destruct (Rle_dec (zThRes c) z); (reflexivity || lra). Qed.
Lemma dl_lograte i n k2 z : 0 < z -> 0 <= k2 -> 0 < k2 + mz i n z * mz i n z ->
  derivable_pt_lim (lograte i n k2) z (extra i n k2 z + lograte i n k2 z * lograte i n k2 z).
Proof.
  intros Z K P. pose proof (omega_pos _ _ _ _ P) as W. pose proof (omega_sq i n k2 z K) as SQ.
  unfold lograte at 1. eapply dl_eq.
  - apply dl_mult; [apply dl_mult; [apply dl_const|apply dl_mult; apply (dl_mz i n z Z)]|].
    apply dl_inv; [apply dl_mult; [apply dl_mult; [apply dl_const|apply dl_idv]|apply dl_mult; apply (dl_omega i n k2 z Z P)]|].
    cbv beta. apply Rgt_not_eq. apply Rmult_lt_0_compat; [lra|apply Rmult_lt_0_compat; assumption].
  - cbv beta. unfold extra, lograte. fold (mz i n z). set (p := n / 2 + 1). set (m := mz i n z) in *. set (w := omega i n k2 z) in *. field. split; lra.
Qed.
