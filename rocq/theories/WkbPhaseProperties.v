(** Theorems about the phase of the WKB transport. *)
From Coq Require Import Lqa Lra Reals List Arith ZArith Lia Bool.
From Verif Require Import CosmoModel CosmoSpec CosmoProofs ConserveProofs PaxProofs SplineModel SplineSpec WkbModel WkbSpec WkbProofs WkbProperties WkbPhaseProofs.
Import ListNotations.
Open Scope R_scope.
Ltac Zify.zify_post_hook ::= idtac.

(** ** C99 *)
(** The momentum of entry ik of the table *)
Definition knot (L : R) (ik : nat) : R := 2 * PI / L * INR ik.
(** The whole phase of that mode after a transport from zI to z *)
Definition turnOf (F : R -> R -> R -> R -> R) (c : cosmo) (L zI z : R) (ik : nat) : R := phaseEntry F c L zI z ik + massPhase c zI z.

Lemma knot_nz L ik : 0 < L -> ik <> 0%nat -> 0 < knot L ik.
Proof. intros HL H. unfold knot. apply Rmult_lt_0_compat; [apply Rdiv_lt_0_compat; [pose proof PI_RGT_0; lra|exact HL]|]. apply lt_0_INR. lia. Qed.
Lemma era_mass c i n z : radiation c -> inEra c i n z -> 0 < i -> mass c z * z = mz i n z.
Proof.
  intros Ra H I. unfold mass. rewrite (era_mass2 c i n z Ra H). rewrite sqrt_square; [reflexivity|]. apply Rlt_le, Rmult_lt_0_compat; [exact I|apply exp_pos].
Qed.
Lemma era_side c i n z : inEra c i n z -> exists e, 0 < e /\ forall t, Rabs (t - z) < e -> inEra c i n t /\ (zThRes c < t <-> zThRes c < z).
Proof.
  intros H. destruct (era_open c i n z H) as [e [E0 Op]]. assert (N : 0 < Rabs (z - zThRes c)) by (apply Rabs_pos_lt; destruct H as [[A _]|[A _]]; lra).
  exists (Rmin e (Rabs (z - zThRes c))). split; [apply Rmin_pos; assumption|]. intros t T. pose proof (Rmin_l e (Rabs (z - zThRes c))). pose proof (Rmin_r e (Rabs (z - zThRes c))).
  split; [apply Op; lra|]. assert (T' : Rabs (t - z) < Rabs (z - zThRes c)) by lra. clear - T'. apply Rabs_def2 in T'. unfold Rabs in T'. destruct (Rcase_abs (z - zThRes c)); lra.
Qed.
(** The common phase grows as the mass *)
Lemma dl_massPhase c i n zI zE : radiation c -> inEra c i n zE -> 0 < i -> -2 < n -> derivable_pt_lim (massPhase c zI) zE (mz i n zE).
Proof.
  intros Ra H I N. destruct (era_side c i n zE H) as [e [E0 Op]]. pose proof (era_pos _ _ _ _ H) as Z.
  set (tail := - 2 * zI / (4 + nIni c zI) * mass c zI * zI + (if Rlt_dec zI (zThRes c) then if Rlt_dec (zThRes c) zE then - 2 * zThRes c / (4 + nEnd c zE) * mass c (zThRes c) * zThRes c + 2 * zThRes c / (4 + nIni c zI) * mass c (zThRes c) * zThRes c else 0 else 0)).
  apply (dl_near (fun t => 2 / (4 + n) * (t * mz i n t) + tail) _ _ _ e E0).
  - intros t T. destruct (Op t T) as [Ot S]. unfold massPhase, tail. rewrite (era_nEnd c i n t Ot), (era_nEnd c i n zE H).
    replace (2 * t / (4 + n) * mass c t * t) with (2 / (4 + n) * (t * (mass c t * t))) by (unfold Rdiv; ring). rewrite (era_mass c i n t Ra Ot I).
    rewrite Rplus_assoc. f_equal. f_equal. destruct (Rlt_dec zI (zThRes c)); [|reflexivity].
    destruct (Rlt_dec (zThRes c) t) as [Q|Q], (Rlt_dec (zThRes c) zE) as [W|W]; (reflexivity || (exfalso; tauto)).
  - eapply dl_eq; [apply dl_plus; [apply dl_mult; [apply dl_const|apply dl_mult; [apply dl_idv|apply (dl_mz i n zE Z)]]|apply dl_const]|]. cbv beta. field. lra.
Qed.

Lemma entry_S F c L zI z m : phaseEntry F c L zI z (S m) =
  let k := knot L (S m) in let aux := indi3 c * Rpower (zThRes c) (nQcd c / 2) in
  if Rle_dec zI (zThRes c) then
    if Rlt_dec (zThRes c) z then calculatePhi F zI (zThRes c) k (nQcd c) (indi3 c) + calculatePhi F (zThRes c) z k 0 aux
    else if Rle_dec (zThRes c) zI then calculatePhi F zI z k 0 aux else calculatePhi F zI z k (nQcd c) (indi3 c)
  else calculatePhi F zI z k 0 aux.
Proof. reflexivity. Qed.
Lemma calc_still F z k n i : calculatePhi F z z k n i = 0 \/ (k <> 0 /\ i <> 0 /\ n = 0).
Proof.
  unfold calculatePhi. destruct (Req_EM_T k 0); [left; reflexivity|]. destruct (Req_EM_T i 0); [left; ring|]. destruct (Req_EM_T n 0); [right; auto|]. left. cbv zeta. ring.
Qed.
Lemma calc_still0 F z k n i : 0 < z -> calculatePhi F z z k n i = 0.
Proof. intros Z. destruct (calc_still F z k n i) as [E|[K [I ->]]]; [exact E|]. rewrite calc_flat by assumption. ring. Qed.
(** No time, no phase *)
Theorem no_turn_at_once : forall F c L z ik, 0 < z -> phaseEntry F c L z z ik = 0.
Proof.
  intros F c L z [|m] Z; [reflexivity|]. rewrite entry_S. cbv zeta. destruct (Rle_dec z (zThRes c)); [destruct (Rlt_dec (zThRes c) z); [lra|]; destruct (Rle_dec (zThRes c) z)|]; apply calc_still0, Z.
Qed.
(** While the mass grows, the phase of every tabulated mode grows as its frequency *)
Theorem turn_growing_partial : forall F c L zI zE ik, gaussFunction F -> radiation c -> 0 < indi3 c -> -2 < nQcd c -> nQcd c <> 0 -> 0 < L -> 0 < zI < zThRes c -> 0 < zE < zThRes c ->
  derivable_pt_lim (fun t => turnOf F c L zI t ik) zE (omega (indi3 c) (nQcd c) (knot L ik * knot L ik) zE).
Proof.
  intros F c L zI zE ik G Ra I N N0 HL ZI ZE. unfold turnOf.
  assert (H : inEra c (indi3 c) (nQcd c) zE) by (left; repeat split; lra).
  pose proof (dl_massPhase c _ _ zI zE Ra H I N) as DM. destruct ik as [|m].
  - eapply dl_eq; [apply dl_plus; [apply (dl_const 0)|exact DM]|]. unfold knot. cbn [INR]. rewrite !Rmult_0_r, omega_mz, Rplus_0_l, Rplus_0_l, sqrt_square; [reflexivity|]. apply Rlt_le, mz_pos; lra.
  - pose proof (knot_nz L (S m) HL ltac:(discriminate)) as K. set (k := knot L (S m)) in *.
    destruct (era_side c _ _ zE H) as [e [E0 Op]].
    eapply dl_eq; [apply dl_plus; [|exact DM]|].
    + apply (dl_near (fun t => (acc F (indi3 c) (nQcd c) k t - 2 / (4 + nQcd c) * (t * mz (indi3 c) (nQcd c) t)) - (acc F (indi3 c) (nQcd c) k zI - 2 * zI / (4 + nQcd c) * mz (indi3 c) (nQcd c) zI)) _ _ _ e E0).
      * intros t T. destruct (Op t T) as [Ot S]. pose proof (era_pos _ _ _ _ Ot) as Tp. rewrite entry_S. cbv zeta. fold k.
        destruct (Rle_dec zI (zThRes c)); [|lra]. destruct (Rlt_dec (zThRes c) t) as [Q|Q]; [apply S in Q; lra|]. destruct (Rle_dec (zThRes c) zI); [lra|].
        rewrite calc_general by lra. unfold Rdiv. ring.
      * eapply dl_eq; [apply dl_minus; [|apply dl_const]; apply dl_minus; [apply dl_acc; (assumption || lra)|apply dl_mult; [apply dl_const|apply dl_mult; [apply dl_idv|apply dl_mz; lra]]]|]. cbv beta. reflexivity.
    + cbv beta. field. lra.
Qed.
(** Once it is frozen, the part of the phase beyond that of the mass is divided by the momentum *)
Lemma entry_frozen F c L zI zE m : inEra c (indi3 c * Rpower (zThRes c) (nQcd c / 2)) 0 zE -> zThRes c < zE -> 0 < indi3 c -> 0 < L -> 0 < zI ->
  derivable_pt_lim (fun t => phaseEntry F c L zI t (S m)) zE
    ((omega (indi3 c * Rpower (zThRes c) (nQcd c / 2)) 0 (knot L (S m) * knot L (S m)) zE - mz (indi3 c * Rpower (zThRes c) (nQcd c / 2)) 0 zE) / knot L (S m)).
Proof.
  intros H ZC I HL ZI. pose proof (knot_nz L (S m) HL ltac:(discriminate)) as K. set (k := knot L (S m)) in *. set (i := indi3 c * Rpower (zThRes c) (nQcd c / 2)) in *.
  assert (I' : 0 < i) by (apply Rmult_lt_0_compat; [exact I|apply exp_pos]). pose proof (era_pos _ _ _ _ H) as Z.
  destruct (era_side c _ _ zE H) as [e [E0 Op]].
  set (base := if Rle_dec zI (zThRes c) then calculatePhi F zI (zThRes c) k (nQcd c) (indi3 c) - flat i k (zThRes c) else - flat i k zI).
  apply (dl_near (fun t => flat i k t + base) _ _ _ e E0).
  - intros t T. destruct (Op t T) as [Ot S]. pose proof (era_pos _ _ _ _ Ot) as Tp. rewrite entry_S. cbv zeta. fold k. fold i. unfold base.
    destruct (Rle_dec zI (zThRes c)).
    + destruct (Rlt_dec (zThRes c) t) as [Q|Q]; [|exfalso; apply Q, S, ZC]. rewrite (calc_flat F (zThRes c)) by lra. ring.
    + rewrite calc_flat by lra. ring.
  - eapply dl_eq; [apply dl_plus; [apply dl_flat; lra|apply dl_const]|]. ring.
Qed.
Theorem turn_frozen_partial : forall F c L zI zE ik, radiation c -> 0 < indi3 c -> 0 < L -> 0 < zI -> 0 < zThRes c < zE -> (zThRes c <= zRestore c -> zE < zRestore c) -> ik <> 0%nat ->
  let i := indi3 c * Rpower (zThRes c) (nQcd c / 2) in let k := knot L ik in
  derivable_pt_lim (fun t => turnOf F c L zI t ik) zE (mz i 0 zE + (omega i 0 (k * k) zE - mz i 0 zE) / k).
Proof.
  intros F c L zI zE ik Ra I HL ZI ZC Re NK i k. assert (H : inEra c i 0 zE) by (right; repeat split; (assumption || lra || reflexivity)).
  assert (I' : 0 < i) by (apply Rmult_lt_0_compat; [exact I|apply exp_pos]).
  destruct ik as [|m]; [contradiction|]. unfold turnOf. rewrite Rplus_comm. apply dl_plus; [apply entry_frozen; (assumption || lra)|apply (dl_massPhase c i 0); (assumption || lra)].
Qed.
(** So the phase of a mode of momentum other than 1 does not grow as its frequency *)
Theorem turn_frozen_refuted : forall F c L zI zE ik, radiation c -> 0 < indi3 c -> 0 < L -> 0 < zI -> 0 < zThRes c < zE -> (zThRes c <= zRestore c -> zE < zRestore c) -> ik <> 0%nat ->
  let i := indi3 c * Rpower (zThRes c) (nQcd c / 2) in let k := knot L ik in
  k <> 1 -> ~ derivable_pt_lim (fun t => turnOf F c L zI t ik) zE (omega i 0 (k * k) zE).
Proof.
  intros F c L zI zE ik Ra I HL ZI ZC Re NK i k K1 D. pose proof (turn_frozen_partial F c L zI zE ik Ra I HL ZI ZC Re NK) as D'. fold i k in D'. cbv zeta in D'. fold i k in D'.
  pose proof (uniqueness_limite _ _ _ _ D D') as E. pose proof (knot_nz L ik HL NK) as K. fold k in K.
  pose proof (k_positive i 0 k zE ltac:(lra)) as P. pose proof (omega_pos _ _ _ _ P) as W. pose proof (omega_sq i 0 (k * k) zE ltac:(apply Rlt_le, sq_pos; lra)) as SQ.
  assert (I' : 0 < i) by (apply Rmult_lt_0_compat; [exact I|apply exp_pos]). pose proof (mz_pos i 0 zE I' ltac:(lra)) as M.
  set (w := omega i 0 (k * k) zE) in *. set (m := mz i 0 zE) in *. clearbody w m.
  assert (Q : (w - m) * (k - 1) = 0).
  { apply Rmult_eq_reg_r with (/ k); [|apply Rinv_neq_0_compat; lra]. rewrite Rmult_0_l. transitivity ((w - m) - (w - m) / k); [field; lra|]. unfold Rdiv in *. lra. }
  apply Rmult_integral in Q. destruct Q as [Q|Q]; [|lra]. assert (E2 : w = m) by lra. subst w. pose proof (sq_pos k ltac:(lra)). lra.
Qed.
(** The phases of two transports in a row add up *)
Lemma calc_adds F a b z k n i : -2 < n -> 0 < a -> 0 < b -> 0 < z -> calculatePhi F a b k n i + calculatePhi F b z k n i = calculatePhi F a z k n i.
Proof.
  intros N A B Z. destruct (Req_EM_T k 0) as [K|K]; [unfold calculatePhi; destruct (Req_EM_T k 0); [ring|contradiction]|].
  destruct (Req_EM_T i 0) as [I|I]; [unfold calculatePhi; destruct (Req_EM_T k 0), (Req_EM_T i 0); try contradiction; ring|].
  destruct (Req_EM_T n 0) as [->|N0]; [rewrite !calc_flat by assumption; ring|rewrite !calc_general by assumption; ring].
Qed.
Theorem turns_add : forall F c L zI zM zE ik, -2 < nQcd c -> 0 < zI <= zM -> zM <= zE -> 0 < zThRes c -> phaseEntry F c L zI zM ik + phaseEntry F c L zM zE ik = phaseEntry F c L zI zE ik.
Proof.
  intros F c L zI zM zE [|m] N A B ZC; [cbn [phaseEntry]; ring|]. rewrite !entry_S. cbv zeta. set (k := knot L (S m)).
  destruct (Rle_dec zI (zThRes c)), (Rlt_dec (zThRes c) zM), (Rle_dec zM (zThRes c)), (Rlt_dec (zThRes c) zE), (Rle_dec (zThRes c) zI), (Rle_dec (zThRes c) zM); try (exfalso; lra);
    try (assert (zI = zThRes c) by lra); try (assert (zM = zThRes c) by lra); try subst zI; try subst zM;
    repeat match goal with |- context [calculatePhi F (zThRes c) (zThRes c) k ?n ?i] => rewrite (calc_still0 F (zThRes c) k n i ZC) end; rewrite ?Rplus_0_l, ?Rplus_0_r; try reflexivity; try (apply calc_adds; lra);
    try first [rewrite Rplus_assoc, calc_adds by lra; reflexivity|rewrite <- Rplus_assoc, calc_adds by lra; reflexivity].
  assert (zE = zThRes c) by lra. subst zE. rewrite (calc_still0 F (zThRes c)) by exact ZC. ring.
Qed.

(** ** The version with two fields *)
Lemma era_two c i n zI zE : inEra c i n zI -> inEra c i n zE -> (zThRes c < zI <-> zThRes c < zE) -> nTwo c zI zE = n.
Proof.
  intros A B S. unfold nTwo. destruct A as [[A [_ EA]]|[A [_ [_ EA]]]]; destruct (Rlt_dec (zThRes c) zE) as [Q|Q], (Rlt_dec (zThRes c) zI) as [W|W]; (congruence || lra || tauto || (exfalso; tauto)).
Qed.
Lemma two_freq c i n z k2 : radiation c -> inEra c i n z -> sqrt (k2 + AxionMass2 c z * z * z) = omega i n k2 z.
Proof. intros Ra H. rewrite (era_mass2 c i n z Ra H), omega_mz. unfold mz. f_equal. ring. Qed.
Lemma two_end F i n k z : -2 < n -> k <> 0 -> i <> 0 -> 0 < z ->
  2 * z / (4 + n) * omega i n (k * k) z * (1 + (1 + n / 2) * v2h2F1 F (1 / 2) 1 (1 / (2 + n) + 1) (k * k / (omega i n (k * k) z * omega i n (k * k) z))) = acc F i n k z.
Proof.
  intros N K I Z. pose proof (k_positive i n k z K) as P. pose proof (omega_pos _ _ _ _ P) as W. pose proof (sq_pos k K) as KK. pose proof (omega_sq i n (k * k) z ltac:(lra)) as SQ.
  pose proof (xOf_range i n k z K I Z) as X. assert (E : k * k / (omega i n (k * k) z * omega i n (k * k) z) = 1 - xOf i n k z) by (unfold xOf; rewrite SQ; field; lra).
  unfold v2h2F1. rewrite E, Rabs_right by lra. destruct (Rlt_dec (1 - xOf i n k z) 1); [|lra]. replace (1 - (1 - xOf i n k z)) with (xOf i n k z) by ring.
  unfold acc. set (f := F _ _ _ _). rewrite <- E. set (w := omega i n (k * k) z) in *. clearbody w f. field. split; lra.
Qed.
(** Within one law of the mass the phase of every mode starts at 0 and grows as its frequency *)
Theorem turn_two_partial : forall F c i n zI zE k, gaussFunction F -> radiation c -> 0 < indi3 c -> -2 < n -> inEra c i n zI -> inEra c i n zE -> (zThRes c < zI <-> zThRes c < zE) ->
  (k <> 0 -> phiTwo F c false (k * k) zI zI = 0 /\ derivable_pt_lim (fun t => phiTwo F c false (k * k) zI t) zE (omega i n (k * k) zE)) /\
  phiTwo F c true 0 zI zI = 0 /\ derivable_pt_lim (fun t => phiTwo F c true 0 zI t) zE (omega i n 0 zE).
Proof.
  intros F c i n zI zE k G Ra I0 N HI HE S. pose proof (era_pos _ _ _ _ HI) as ZI. pose proof (era_pos _ _ _ _ HE) as ZE.
  assert (I : 0 < i) by (destruct HI as [[_ [-> _]]|[_ [_ [-> _]]]]; [exact I0|apply Rmult_lt_0_compat; [exact I0|apply exp_pos]]).
  destruct (era_side c i n zE HE) as [e [E0 Op]]. split; [|split].
  - intros K. split; [unfold phiTwo; cbv zeta; ring|].
    apply (dl_near (fun t => acc F i n k t - acc F i n k zI) _ _ _ e E0).
    + intros t T. destruct (Op t T) as [Ot St]. pose proof (era_pos _ _ _ _ Ot) as Tp. unfold phiTwo. cbv zeta. rewrite (era_two c i n zI t HI Ot) by tauto. rewrite (two_freq c i n t _ Ra Ot), (two_freq c i n zI _ Ra HI).
      rewrite two_end, two_end by (assumption || lra). reflexivity.
    + eapply dl_eq; [apply dl_minus; [apply dl_acc; (assumption || lra)|apply dl_const]|]. ring.
  - unfold phiTwo. cbv zeta. ring.
  - apply (dl_near (fun t => 2 / (4 + n) * (t * mz i n t) - 2 * zI / (4 + n) * omega i n 0 zI) _ _ _ e E0).
    + intros t T. destruct (Op t T) as [Ot St]. pose proof (era_pos _ _ _ _ Ot) as Tp. unfold phiTwo. cbv zeta. rewrite (era_two c i n zI t HI Ot) by tauto. rewrite (two_freq c i n t _ Ra Ot), (two_freq c i n zI _ Ra HI).
      rewrite (omega_mz i n 0 t), Rplus_0_l, sqrt_square by (apply Rlt_le, mz_pos; assumption). unfold Rdiv. ring.
    + eapply dl_eq; [apply dl_minus; [apply dl_mult; [apply dl_const|apply dl_mult; [apply dl_idv|apply (dl_mz i n zE ZE)]]|apply dl_const]|].
      cbv beta. rewrite omega_mz, Rplus_0_l, sqrt_square by (apply Rlt_le, mz_pos; assumption). field. lra.
Qed.
(** If the mass freezes on the way, the phase grows at a wrong rate afterwards: that of the zero mode by 4/(4+n) *)
Theorem turn_two_crossing_refuted : forall F c zI zE, radiation c -> 0 < indi3 c -> -2 < nQcd c -> nQcd c <> 0 -> 0 < zI <= zThRes c -> zThRes c < zE -> (zThRes c <= zRestore c -> zE < zRestore c) ->
  let i := indi3 c * Rpower (zThRes c) (nQcd c / 2) in
  derivable_pt_lim (fun t => phiTwo F c true 0 zI t) zE (4 / (4 + nQcd c) * omega i 0 0 zE) /\ ~ derivable_pt_lim (fun t => phiTwo F c true 0 zI t) zE (omega i 0 0 zE).
Proof.
  intros F c zI zE Ra I0 N N0 ZI ZC Re i. assert (H : inEra c i 0 zE) by (right; repeat split; (assumption || lra || reflexivity)).
  assert (I : 0 < i) by (apply Rmult_lt_0_compat; [exact I0|apply exp_pos]). destruct (era_side c i 0 zE H) as [e [E0 Op]].
  assert (OM : omega i 0 0 zE = mz i 0 zE) by (rewrite omega_mz, Rplus_0_l, sqrt_square by (apply Rlt_le, mz_pos; lra); reflexivity). pose proof (mz_pos i 0 zE I ltac:(lra)) as MP.
  assert (D : derivable_pt_lim (fun t => phiTwo F c true 0 zI t) zE (4 / (4 + nQcd c) * omega i 0 0 zE)).
  { apply (dl_near (fun t => 2 / (4 + nQcd c) * (t * mz i 0 t) - 2 * zI / (4 + nQcd c) * sqrt (0 + AxionMass2 c zI * zI * zI)) _ _ _ e E0).
    - intros t T. destruct (Op t T) as [Ot St]. pose proof (era_pos _ _ _ _ Ot) as Tp. unfold phiTwo, nTwo. destruct (Rlt_dec (zThRes c) t) as [Q|Q]; [|exfalso; apply Q, St, ZC]. destruct (Rlt_dec (zThRes c) zI); [lra|].
      cbv zeta. rewrite (two_freq c i 0 t _ Ra Ot). replace (omega i 0 0 t) with (mz i 0 t) by (rewrite (omega_mz i 0 0 t), Rplus_0_l, sqrt_square by (apply Rlt_le, mz_pos; assumption); reflexivity). unfold Rdiv. ring.
    - eapply dl_eq; [apply dl_minus; [apply dl_mult; [apply dl_const|apply dl_mult; [apply dl_idv|apply (dl_mz i 0 zE); lra]]|apply dl_const]|]. cbv beta. rewrite OM. field. lra. }
  split; [exact D|]. intros D'. pose proof (uniqueness_limite _ _ _ _ D D') as E. rewrite OM in E.
  assert (Q : 4 / (4 + nQcd c) = 1) by (apply Rmult_eq_reg_r with (mz i 0 zE); lra). apply (f_equal (fun u => u * (4 + nQcd c))) in Q. unfold Rdiv in Q. rewrite Rmult_assoc, Rinv_l in Q by lra. lra.
Qed.
(** Without a mass, the phase is 2/(4+n) of the right one *)
Theorem turn_two_massless_refuted : forall F c zI zE k, indi3 c = 0 -> 0 < k -> nQcd c <> -4 ->
  zE <= zThRes c -> phiTwo F c false (k * k) zI zE = 2 / (4 + nQcd c) * (k * (zE - zI)).
Proof.
  intros F c zI zE k I K N Z.
  assert (M : forall z, AxionMass2 c z = 0) by (intros z; unfold AxionMass2; rewrite I; repeat match goal with |- context [if ?d then _ else _] => destruct d end; ring).
  unfold phiTwo, nTwo. rewrite !M. destruct (Rlt_dec (zThRes c) zE); [lra|]. cbv zeta. replace (k * k + 0 * zE * zE) with (k * k) by ring. replace (k * k + 0 * zI * zI) with (k * k) by ring.
  rewrite sqrt_square by lra. replace (k * k / (k * k)) with 1 by (field; lra). unfold v2h2F1. rewrite Rabs_R1. destruct (Rlt_dec 1 1); [lra|]. field. lra.
Qed.
(** The other version has it right *)
Theorem turn_massless : forall F zI zE k n, k <> 0 -> calculatePhi F zI zE k n 0 = k * (zE - zI).
Proof. intros F zI zE k n K. unfold calculatePhi. destruct (Req_EM_T k 0); [contradiction|]. destruct (Req_EM_T 0 0); [reflexivity|contradiction]. Qed.

(** A mass growing as z^2 in a box of side 1: the conditions are met *)
Example turns_at_work : let c := Cosmo 1 0 1 4 0 10 0 1 0 in exists F, gaussFunction F /\
  derivable_pt_lim (fun t => turnOf F c 1 1 t 3) 2 (omega 1 4 (knot 1 3 * knot 1 3) 2).
Proof.
  intros c. exists someGauss. split; [exact someGauss_is|]. apply (turn_growing_partial someGauss c 1 1 2 3 someGauss_is); cbn; try lra. split; cbn; lra.
Qed.
Example frozen_at_work : let c := Cosmo 1 0 1 4 0 1 0 1 0 in forall F, ~ derivable_pt_lim (fun t => turnOf F c 1 2 t 1) 3 (omega (1 * Rpower 1 (4 / 2)) 0 (knot 1 1 * knot 1 1) 3).
Proof.
  intros c F. apply (turn_frozen_refuted F c 1 2 3 1); cbn; try lra; try discriminate; [split; cbn; lra|].
  intros E. unfold knot in E. cbn [INR] in E. pose proof PI2_3_2. lra.
Qed.

Print Assumptions no_turn_at_once.
Print Assumptions turn_growing_partial.
Print Assumptions turn_frozen_partial.
Print Assumptions turn_frozen_refuted.
Print Assumptions turns_add.
Print Assumptions turn_two_partial.
Print Assumptions turn_two_crossing_refuted.
Print Assumptions turn_two_massless_refuted.
Print Assumptions turn_massless.
