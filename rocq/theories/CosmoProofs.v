(** Lemmas about the background. *)
From Coq Require Import Reals Lra Psatz ZArith.
From Verif Require Import CosmoModel CosmoSpec.
Local Open Scope R_scope.

Lemma Rpower_pos x y : 0 < Rpower x y. Proof. apply exp_pos. Qed.
Lemma Rpower_one y : Rpower 1 y = 1. Proof. unfold Rpower. rewrite ln_1, Rmult_0_r. apply exp_0. Qed.

Lemma scale_plain c ct : plain c -> scale c ct = Rpower ct (frw c).
Proof.
  intros P. unfold scale. destruct (Req_EM_T (frw c) 1) as [E|]; [|reflexivity].
  destruct (Rlt_dec 0 (grav c)) as [L|]; [|reflexivity]. destruct P as [P|P]; [contradiction|lra].
Qed.
Lemma scale_grav c ct : frw c = 1 -> 0 < grav c -> scale c ct = ct * (1 + / 4 * ct * grav c).
Proof.
  intros E L. unfold scale. destruct (Req_EM_T (frw c) 1); [|contradiction]. destruct (Rlt_dec 0 (grav c)); [reflexivity|contradiction].
Qed.
Lemma plain_dec c : plain c \/ (frw c = 1 /\ 0 < grav c).
Proof. unfold plain. destruct (Req_EM_T (frw c) 1); [|auto]. destruct (Rlt_dec 0 (grav c)); [auto|]. left. right. lra. Qed.
Lemma scale_pos c ct : 0 < ct -> 0 < scale c ct.
Proof.
  intros T. destruct (plain_dec c) as [P|[E G]].
  - rewrite scale_plain by assumption. apply Rpower_pos.
  - rewrite scale_grav by assumption. apply Rmult_lt_0_compat; [assumption|]. assert (0 < ct * grav c) by (apply Rmult_lt_0_compat; assumption). lra.
Qed.
Lemma scale_mono c a b : 0 <= frw c -> 0 < a <= b -> scale c a <= scale c b.
Proof.
  intros F [A B]. destruct (plain_dec c) as [P|[E G]].
  - rewrite !scale_plain by assumption. apply Rle_Rpower_l; lra.
  - rewrite !scale_grav by assumption. assert (a * a <= b * b) by nra. nra.
Qed.

Lemma law c ct : 0 < ct -> 0 < zThRes c -> 0 < zRestore c ->
  AxionMass2 c ct = massLaw (indi3 c) (nQcd c) (nQcdr c) (zThRes c) (zRestore c) (scale c ct).
Proof.
  intros T TH RE. pose proof (scale_pos c ct T) as S. unfold AxionMass2, massLaw. cbv zeta.
  set (r := scale c ct) in *. clearbody r.
  destruct (Rle_dec (zThRes c) (zRestore c)) as [L|L].
  - destruct (Rlt_dec r (zThRes c)) as [A|A].
    + rewrite Rmin_left by lra. rewrite Rmax_left; [rewrite Rpower_one; ring|].
      apply Rmult_le_reg_r with (zRestore c); [assumption|]. field_simplify; lra.
    + destruct (Rle_dec r (zRestore c)) as [B|B].
      * rewrite Rmin_right by lra. rewrite Rmax_left; [rewrite Rpower_one; ring|].
        apply Rmult_le_reg_r with (zRestore c); [assumption|]. field_simplify; lra.
      * rewrite Rmin_right by lra. rewrite Rmax_right; [ring|].
        apply Rmult_le_reg_r with (zRestore c); [assumption|]. field_simplify; lra.
  - destruct (Rlt_dec r (zThRes c)) as [A|A]; [rewrite Rmin_left by lra|rewrite Rmin_right by lra]; ring.
Qed.

Lemma massLaw_mono i n nr th re a b : 0 <= n -> 0 <= nr -> 0 < th -> 0 < re -> 0 < a <= b ->
  massLaw i n nr th re a <= massLaw i n nr th re b.
Proof.
  intros N NR TH RE [A B]. unfold massLaw.
  assert (M : Rpower (Rmin a th) n <= Rpower (Rmin b th) n).
  { apply Rle_Rpower_l; [assumption|]. split; [apply Rmin_glb_lt; lra|].
    apply Rmin_glb; [apply Rle_trans with a; [apply Rmin_l|lra]|apply Rmin_r]. }
  assert (I : 0 <= i * i) by nra.
  pose proof (Rpower_pos (Rmin a th) n) as P1.
  destruct (Rle_dec th re).
  - assert (K : Rpower (Rmax 1 (a / re)) nr <= Rpower (Rmax 1 (b / re)) nr).
    { apply Rle_Rpower_l; [assumption|]. split; [apply Rlt_le_trans with 1; [lra|apply Rmax_l]|].
      apply Rmax_lub; [apply Rmax_l|]. apply Rle_trans with (b / re); [|apply Rmax_r].
      unfold Rdiv. apply Rmult_le_compat_r; [left; apply Rinv_0_lt_compat; assumption|assumption]. }
    pose proof (Rpower_pos (Rmax 1 (a / re)) nr) as P2.
    apply Rmult_le_compat; [apply Rmult_le_pos; [assumption|lra]|lra|apply Rmult_le_compat_l; assumption|assumption].
  - apply Rmult_le_compat_r; [lra|]. apply Rmult_le_compat_l; assumption.
Qed.

(** *** Continuity *)
Lemma continuity_pt_ext (f g : R -> R) x : (forall y, f y = g y) -> continuity_pt f x -> continuity_pt g x.
Proof. intros E. apply (continuity_pt_locally_ext f g 1 x); [lra|]. intros y _. apply E. Qed.
Lemma cont_Rpower n x : 0 < x -> continuity_pt (fun y => Rpower y n) x.
Proof. intros H. apply derivable_continuous_pt. exists (n * Rpower x (n - 1)). apply derivable_pt_lim_power. exact H. Qed.
Lemma cont_comp (f g : R -> R) x : continuity_pt f x -> continuity_pt g (f x) -> continuity_pt (fun y => g (f y)) x.
Proof. intros. apply (continuity_pt_comp f g); assumption. Qed.
Lemma cont_Rmin k x : continuity_pt (fun y => Rmin y k) x.
Proof.
  apply (continuity_pt_ext (fun y => (y + k - Rabs (y - k)) * / 2)).
  - intros y. unfold Rmin, Rabs. destruct (Rle_dec y k), (Rcase_abs (y - k)); lra.
  - apply continuity_pt_mult; [|apply continuity_pt_const; intros ? ?; reflexivity].
    apply continuity_pt_minus.
    + apply continuity_pt_plus; [apply derivable_continuous_pt, derivable_pt_id|apply continuity_pt_const; intros ? ?; reflexivity].
    + apply (cont_comp (fun y => y - k) Rabs); [|apply Rcontinuity_abs].
      apply continuity_pt_minus; [apply derivable_continuous_pt, derivable_pt_id|apply continuity_pt_const; intros ? ?; reflexivity].
Qed.
Lemma cont_Rmax k x : continuity_pt (fun y => Rmax k y) x.
Proof.
  apply (continuity_pt_ext (fun y => k + y - Rmin y k)).
  - intros y. unfold Rmin, Rmax. destruct (Rle_dec y k), (Rle_dec k y); lra.
  - apply continuity_pt_minus; [|apply cont_Rmin].
    apply continuity_pt_plus; [apply continuity_pt_const; intros ? ?; reflexivity|apply derivable_continuous_pt, derivable_pt_id].
Qed.
Lemma cont_scale c ct : 0 < ct -> continuity_pt (scale c) ct.
Proof.
  intros T. destruct (plain_dec c) as [P|[E G]].
  - apply (continuity_pt_ext (fun y => Rpower y (frw c))); [intros; symmetry; apply scale_plain; assumption|apply cont_Rpower; assumption].
  - apply (continuity_pt_ext (fun y => y * (1 + / 4 * y * grav c))); [intros; symmetry; apply scale_grav; assumption|].
    apply derivable_continuous_pt. reg.
Qed.
Lemma cont_law i n nr th re r : 0 < r -> 0 < th -> 0 < re -> continuity_pt (massLaw i n nr th re) r.
Proof.
  intros R0 TH RE. unfold massLaw. apply continuity_pt_mult.
  - apply continuity_pt_mult; [apply continuity_pt_const; intros ? ?; reflexivity|].
    apply (cont_comp (fun y => Rmin y th) (fun y => Rpower y n)); [apply cont_Rmin|]. apply cont_Rpower. apply Rmin_glb_lt; assumption.
  - destruct (Rle_dec th re); [|apply continuity_pt_const; intros ? ?; reflexivity].
    apply (cont_comp (fun y => Rmax 1 (y / re)) (fun y => Rpower y nr)).
    + apply (cont_comp (fun y => y / re) (fun y => Rmax 1 y)); [|apply cont_Rmax].
      apply derivable_continuous_pt. unfold Rdiv. reg.
    + apply cont_Rpower. apply Rlt_le_trans with 1; [lra|apply Rmax_l].
Qed.

(** near a point a continuous function stays on its side of a value *)
Lemma stay_below (f : R -> R) x k : continuity_pt f x -> f x < k -> exists d, 0 < d /\ forall y, x - d < y < x + d -> f y < k.
Proof.
  intros C H. destruct (C (k - f x) ltac:(lra)) as (d & D & K). exists d. split; [exact D|]. intros y Y.
  destruct (Req_dec y x) as [->|N]; [exact H|].
  assert (Q : R_dist (f y) (f x) < k - f x).
  { apply K. split; [split; [exact I|apply not_eq_sym; exact N]|]. unfold R_dist. apply Rabs_def1; lra. }
  unfold R_dist in Q. apply Rabs_def2 in Q. lra.
Qed.
Lemma stay_above (f : R -> R) x k : continuity_pt f x -> k < f x -> exists d, 0 < d /\ forall y, x - d < y < x + d -> k < f y.
Proof.
  intros C H. destruct (stay_below (fun y => - f y) x (- k)) as (d & D & K); [apply continuity_pt_opp; exact C|lra|].
  exists d. split; [exact D|]. intros y Y. specialize (K y Y). lra.
Qed.

(** *** Derivatives *)
Lemma der_const k x : derivable_pt_lim (fun _ => k) x 0. Proof. apply (derivable_pt_lim_const k). Qed.
Lemma der_scal k f x l : derivable_pt_lim f x l -> derivable_pt_lim (fun y => k * f y) x (k * l).
Proof. intros H. apply (derivable_pt_lim_scal f k x l H). Qed.
Lemma Rpower_less x n : 0 < x -> Rpower x (n - 1) = Rpower x n / x.
Proof. intros H. unfold Rminus. rewrite Rpower_plus, Rpower_Ropp, Rpower_1 by assumption. reflexivity. Qed.
Lemma der_pow2 k f n x : 0 < x -> derivable_pt_lim (fun y => k * Rpower (Rpower y f) n) x (n * f * (k * Rpower (Rpower x f) n) / x).
Proof.
  intros H.
  replace (n * f * (k * Rpower (Rpower x f) n) / x) with (k * (f * n * Rpower x (f * n - 1))).
  2:{ rewrite Rpower_less, Rpower_mult by assumption. field. lra. }
  apply der_scal. apply (derivable_pt_lim_ext (fun y => Rpower y (f * n))); [intros; symmetry; apply Rpower_mult|].
  apply derivable_pt_lim_power. exact H.
Qed.
Lemma Rpower_quot a b n : 0 < a -> 0 < b -> Rpower (a / b) n = Rpower a n * / Rpower b n.
Proof.
  intros A B. unfold Rdiv. rewrite <- Rpower_mult_distr by (auto using Rinv_0_lt_compat). f_equal.
  rewrite <- Rpower_Ropp. unfold Rpower. rewrite ln_Rinv by assumption. f_equal. ring.
Qed.

Ltac local d :=
  match goal with |- derivable_pt_lim _ ?x _ =>
    eapply (derivable_pt_lim_locally_ext _ _ x (x - Rmin d x) (x + Rmin d x));
    [split; [assert (0 < Rmin d x) by (apply Rmin_glb_lt; assumption); lra|assert (0 < Rmin d x) by (apply Rmin_glb_lt; assumption); lra]| |] end.
Lemma in_local d x y : x - Rmin d x < y < x + Rmin d x -> x - d < y < x + d /\ 0 < y.
Proof. intros H. pose proof (Rmin_l d x). pose proof (Rmin_r d x). lra. Qed.

Lemma mass_der c ct : plain c -> 0 < ct -> 0 < zThRes c -> 0 < zRestore c -> scale c ct <> zThRes c ->
  (zThRes c <= zRestore c -> scale c ct <> zRestore c) ->
  derivable_pt_lim (AxionMass2 c) ct (DAxionMass2Dct c ct).
Proof.
  intros P T TH RE N1 N2. pose proof (cont_scale c ct T) as C. unfold DAxionMass2Dct. cbv zeta.
  assert (BELOW : scale c ct < zThRes c -> derivable_pt_lim (AxionMass2 c) ct (nQcd c * frw c * AxionMass2 c ct / ct)).
  { intros L. destruct (stay_below _ _ _ C L) as (d & D & K).
    replace (AxionMass2 c ct) with (indi3 c * indi3 c * Rpower (Rpower ct (frw c)) (nQcd c)).
    2:{ unfold AxionMass2. cbv zeta. rewrite <- (scale_plain c ct P). destruct (Rlt_dec (scale c ct) (zThRes c)); [|contradiction]. destruct (Rle_dec _ _); reflexivity. }
    local d; [|apply (der_pow2 (indi3 c * indi3 c) (frw c) (nQcd c) ct T)].
    intros y Y. apply in_local in Y. destruct Y as [Y Y0]. specialize (K y Y). cbv beta.
    unfold AxionMass2. cbv zeta. rewrite <- (scale_plain c y P). destruct (Rlt_dec (scale c y) (zThRes c)); [|contradiction]. destruct (Rle_dec _ _); reflexivity. }
  assert (FLAT : zThRes c < scale c ct -> (zThRes c <= zRestore c -> scale c ct < zRestore c) -> derivable_pt_lim (AxionMass2 c) ct 0).
  { intros L M. destruct (stay_above _ _ _ C L) as (d & D & K).
    destruct (Rle_dec (zThRes c) (zRestore c)) as [Q|Q].
    - destruct (stay_below _ _ _ C (M Q)) as (d2 & D2 & K2).
      assert (D3 : 0 < Rmin d d2) by (apply Rmin_glb_lt; assumption).
      local (Rmin d d2); [|apply (der_const (indi3 c * indi3 c * Rpower (zThRes c) (nQcd c)))].
      intros y Y. apply in_local in Y. destruct Y as [Y _]. pose proof (Rmin_l d d2). pose proof (Rmin_r d d2).
      specialize (K y ltac:(lra)). specialize (K2 y ltac:(lra)). unfold AxionMass2. cbv zeta.
      destruct (Rle_dec (zThRes c) (zRestore c)); [|contradiction]. destruct (Rlt_dec _ _); [lra|]. destruct (Rle_dec _ _); [reflexivity|lra].
    - local d; [|apply (der_const (indi3 c * indi3 c * Rpower (zThRes c) (nQcd c)))].
      intros y Y. apply in_local in Y. destruct Y as [Y _]. specialize (K y Y). unfold AxionMass2. cbv zeta.
      destruct (Rle_dec (zThRes c) (zRestore c)); [contradiction|]. destruct (Rlt_dec _ _); [lra|reflexivity]. }
  destruct (Rle_dec (zThRes c) (zRestore c)) as [Q|Q].
  - destruct (Rlt_dec (scale c ct) (zThRes c)) as [L|L]; [apply BELOW; exact L|].
    destruct (Rle_dec (scale c ct) (zRestore c)) as [M|M].
    + apply FLAT; [lra|]. intros _. specialize (N2 Q). lra.
    + destruct (stay_above _ _ _ C (Rnot_le_lt _ _ M)) as (d & D & K).
      set (k := indi3 c * indi3 c * Rpower (zThRes c) (nQcd c) * / Rpower (zRestore c) (nQcdr c)).
      assert (E : forall y, zRestore c < scale c y -> AxionMass2 c y = k * Rpower (Rpower y (frw c)) (nQcdr c)).
      { intros y Y. unfold AxionMass2. cbv zeta. destruct (Rle_dec (zThRes c) (zRestore c)); [|contradiction].
        destruct (Rlt_dec _ _); [lra|]. destruct (Rle_dec _ _); [lra|].
        rewrite Rpower_quot by (try assumption; lra). rewrite (scale_plain c y P). unfold k. ring. }
      rewrite E by lra. local d; [|apply (der_pow2 k (frw c) (nQcdr c) ct T)].
      intros y Y. apply in_local in Y. destruct Y as [Y _]. cbv beta. symmetry. apply E. apply K. exact Y.
  - destruct (Rlt_dec (scale c ct) (zThRes c)) as [L|L]; [apply BELOW; exact L|].
    apply FLAT; [lra|]. intros Q'. contradiction.
Qed.
