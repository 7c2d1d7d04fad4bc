(** Proofs about FourModel. *)
From Coq Require Import Reals List Arith ZArith Bool Lia Lra.
From Verif Require Import GravModel GravProofs FourModel FourSpec.
Import ListNotations.
Local Open Scope R_scope.
Ltac Zify.zify_post_hook ::= idtac.

(** Memory *)
Lemma putR_in M a o n f r i : (i < n)%nat -> putR M (a, o) n f a r (o + i)%nat = f r i.
Proof.
  intros H. unfold putR. cbn [fst snd]. destruct (arr_eq a a) as [_|E]; [|exfalso; auto].
  rewrite (proj2 (Nat.leb_le o (o + i)) ltac:(lia)), (proj2 (Nat.ltb_lt (o + i) (o + n)) ltac:(lia)). cbn [andb].
  f_equal. lia.
Qed.
Lemma putR_out M p n f a r i : (a <> fst p \/ i < snd p \/ snd p + n <= i)%nat -> putR M p n f a r i = M a r i.
Proof.
  intros H. unfold putR. destruct (arr_eq a (fst p)) as [E|E]; [|reflexivity].
  destruct (Nat.leb_spec (snd p) i); cbn [andb]; [|reflexivity].
  destruct (Nat.ltb_spec i (snd p + n)); [|reflexivity]. exfalso. destruct H as [H|H]; [auto|lia].
Qed.
Lemma even2 i : Nat.even (2 * i) = true. Proof. apply Nat.even_spec. exists i. reflexivity. Qed.
Lemma even21 i : Nat.even (2 * i + 1) = false.
Proof. rewrite Nat.add_1_r, Nat.even_succ, <- Nat.negb_even, even2. reflexivity. Qed.
Lemma half2 i : (2 * i / 2 = i)%nat. Proof. rewrite Nat.mul_comm. apply Nat.div_mul. lia. Qed.
Lemma half21 i : ((2 * i + 1) / 2 = i)%nat.
Proof. rewrite (Nat.mul_comm 2 i), Nat.div_add_l by lia. rewrite (Nat.div_small 1 2) by lia. lia. Qed.
Lemma pair_eta {A B} (x : A * B) : (fst x, snd x) = x. Proof. destruct x; reflexivity. Qed.
Lemma getC_put M a o n F r i : (i < n)%nat -> getC (putC M (a, o) n F) (a, o) r i = F r i.
Proof.
  intros H. unfold getC, putC. cbn [fst snd].
  rewrite (putR_in M a o (2 * n) _ r (2 * i) ltac:(lia)).
  replace (o + 2 * i + 1)%nat with (o + (2 * i + 1))%nat by lia.
  rewrite (putR_in M a o (2 * n) _ r (2 * i + 1) ltac:(lia)).
  rewrite even2, even21, half2, half21. apply pair_eta.
Qed.
Lemma getC_other M p n F q r i : fst q <> fst p -> getC (putC M p n F) q r i = getC M q r i.
Proof. intros H. unfold getC, putC. rewrite !putR_out by (left; exact H). reflexivity. Qed.
Lemma scale_some k g p c M : (snd p + 2 * eSz g <= room k g (fst p))%nat ->
  scale k g p c M = Some (putR M p (2 * eSz g) (fun r j => c * M (fst p) r (snd p + j)%nat)).
Proof. intros H. unfold scale. rewrite (proj2 (Nat.leb_le _ _) H). reflexivity. Qed.
Lemma getC_scale M a o n c r i : (2 * o + 2 * i + 1 < n)%nat ->
  getC (putR M (a, 0%nat) n (fun r j => c * M a r (0 + j)%nat)) (a, (2 * o)%nat) r i = times c (getC M (a, (2 * o)%nat) r i).
Proof.
  intros H.
  pose proof (putR_in M a 0 n (fun r j => c * M a r (0 + j)%nat) r (2 * o + 2 * i) ltac:(lia)) as A.
  pose proof (putR_in M a 0 n (fun r j => c * M a r (0 + j)%nat) r (2 * o + 2 * i + 1) ltac:(lia)) as B.
  exact (f_equal2 pair A B).
Qed.
Lemma getC_scale_other M a n f q r i : fst q <> a -> getC (putR M (a, 0%nat) n f) q r i = getC M q r i.
Proof. intros H. unfold getC. rewrite !putR_out by (left; exact H). reflexivity. Qed.

(** Numbers *)
Lemma times_times a b x : times a (times b x) = times (a * b) x.
Proof. unfold times; cbn [fst snd]; f_equal; ring. Qed.
Lemma times_1 a x : a = 1 -> times a x = x.
Proof. intros ->. unfold times. destruct x as [u v]; cbn [fst snd]. f_equal; ring. Qed.
Lemma sites_pos g : even g -> 0 < sites g.
Proof. intros [A [B [C _]]]. unfold sites. apply lt_0_INR. repeat apply Nat.mul_pos_pos; assumption. Qed.
Lemma nTot_sites g : INR (nTot g) = sites g. Proof. reflexivity. Qed.

Lemma phi_get g s r i : phi g s r i = getC (mm s) (AM, (2 * (gNg g * surf g))%nat) r i.
Proof. unfold phi, getC, surf. cbn [fst snd]. f_equal; f_equal; lia. Qed.
Lemma vel_get s r i : vel s r i = getC (mm s) (AV, 0%nat) r i. Proof. reflexivity. Qed.
Lemma eSz_vol g : (eSz g = vol g + 2 * (gNg g * surf g))%nat. Proof. unfold eSz, vol. lia. Qed.
Lemma room_m g : (0 + 2 * eSz g <= room Saxion g AM)%nat. Proof. unfold room. lia. Qed.
Lemma room_m2 g : (0 + 2 * eSz g <= room Saxion g AM2)%nat. Proof. unfold room. lia. Qed.
Lemma room_v g : gNg g = 1%nat -> (0 + 2 * eSz g <= room Saxion g AV)%nat. Proof. intros E. unfold room, eSz. rewrite E. lia. Qed.
(* the two arrays of the field are transformed and scaled *)
Lemma ft_one (T : fft) g a o c M r i : (i < vol g)%nat -> (o + vol g <= eSz g)%nat ->
  getC (putR (putC M (a, (2 * o)%nat) (vol g) (fC T (getC M (a, (2 * o)%nat)))) (a, 0%nat) (2 * eSz g)
     (fun r j => c * putC M (a, (2 * o)%nat) (vol g) (fC T (getC M (a, (2 * o)%nat))) a r (0 + j)%nat)) (a, (2 * o)%nat) r i
  = times c (fC T (getC M (a, (2 * o)%nat)) r i).
Proof. intros H K. rewrite getC_scale by lia. rewrite getC_put by exact H. reflexivity. Qed.

Definition plain (unf : mem -> mem) (s : st) : mem := if sF s then unf (mm s) else mm s.
Lemma forward_mv T unf g s : gNg g = 1%nat -> sM s = false -> sV s = false ->
  exists s1, ftField T unf Saxion g theMV s = Some s1 /\ sM s1 = true /\ sV s1 = true /\ sF s1 = false /\
    (forall r i, (i < vol g)%nat -> getC (mm s1) (AM, (2 * (gNg g * surf g))%nat) r i = times (1 / sites g) (fC T (getC (plain unf s) (AM, (2 * (gNg g * surf g))%nat)) r i)) /\
    (forall r i, (i < vol g)%nat -> getC (mm s1) (AV, 0%nat) r i = times (1 / sites g) (fC T (getC (plain unf s) (AV, 0%nat)) r i)).
Proof.
  intros N1 HM HV. unfold ftField, theMV. cbn [wM wV wM2 wMto2]. cbv zeta.
  assert (E : (if sF s then St (unf (mm s)) (sM s) (sV s) false else s) = St (plain unf s) false false false).
  { unfold plain. destruct s as [M a b c]. cbn [sF mm sM sV] in *. subst. destruct c; reflexivity. }
  rewrite E. cbn [sM sV sF mm]. generalize (plain unf s); intro M.
  rewrite (scale_some Saxion g mCpu) by apply room_m. unfold onMem. cbn [sM sV sF mm].
  rewrite (scale_some Saxion g (vCpu Saxion g)) by (apply room_v; exact N1). cbn [sM sV sF mm].
  eexists. split; [reflexivity|]. cbn [sM sV sF mm]. do 3 (split; [reflexivity|]).
  rewrite (nTot_sites g). unfold mCpu, vCpu, mStart, nums. cbn [fst snd].
  split; intros r i Hi.
  - rewrite getC_scale_other by (cbn [fst]; discriminate). rewrite getC_other by (cbn [fst]; discriminate).
    apply ft_one; [exact Hi|]. rewrite eSz_vol. lia.
  - match goal with |- context [putR ?A (AM, 0%nat) ?n ?f] => set (M1 := putR A (AM, 0%nat) n f) end.
    assert (Q : forall r i, getC M1 (AV, 0%nat) r i = getC M (AV, 0%nat) r i).
    { intros r0 i0. unfold M1. rewrite getC_scale_other by (cbn [fst]; discriminate). apply getC_other. cbn [fst]. discriminate. }
    change 0%nat with (2 * 0)%nat at 1. 
    pose proof (ft_one T g AV 0 (1 / sites g) M1 r i Hi ltac:(rewrite eSz_vol; lia)) as F.
    change (2 * 0)%nat with 0%nat in *. etransitivity; [exact F|]. reflexivity.
Qed.

Lemma backward_mv T g s : sM s = true -> sV s = true ->
  exists s1, iftField T Saxion g theMV s = Some s1 /\ sM s1 = false /\ sV s1 = false /\ sF s1 = false /\
    (forall r i, (i < vol g)%nat -> getC (mm s1) (AM, (2 * (gNg g * surf g))%nat) r i = bC T (getC (mm s) (AM, (2 * (gNg g * surf g))%nat)) r i) /\
    (forall r i, (i < vol g)%nat -> getC (mm s1) (AV, 0%nat) r i = bC T (getC (mm s) (AV, 0%nat)) r i).
Proof.
  intros HM HV. unfold iftField, theMV. cbn [wM wV wM2 wMto2]. cbv zeta. rewrite HM. cbn [negb sM sV sF mm]. rewrite HV. cbn [negb sM sV sF mm].
  eexists. split; [reflexivity|]. cbn [sM sV sF mm]. do 3 (split; [reflexivity|]).
  unfold vCpu, mStart, nums. split; intros r i Hi.
  - rewrite getC_other by (cbn [fst]; discriminate). apply getC_put. exact Hi.
  - rewrite getC_put by exact Hi. reflexivity.
Qed.

(** Momenta *)
Lemma kFold_sq n k : (k < n)%nat -> (kFold n k * kFold n k)%Z = Z.of_nat (distance0 n k ^ 2).
Proof. intros H. unfold kFold. exact (dist_sq n k H). Qed.
Lemma kx_sq w L x : (0 < w)%nat -> ((L / 2) mod w = 0)%nat -> (L mod 2 = 0)%nat -> (x < L)%nat ->
  (kxOf w L x * kxOf w L x)%Z = Z.of_nat (distance0 L x ^ 2).
Proof.
  intros W D E H. unfold kxOf. cbv zeta.
  pose proof (Nat.div_mod x w ltac:(lia)) as X. pose proof (Nat.mod_upper_bound x w ltac:(lia)) as XB.
  pose proof (Nat.div_mod L 2 ltac:(lia)) as P. rewrite E in P.
  pose proof (Nat.div_mod (L / 2) w ltac:(lia)) as Q. rewrite D in Q.
  set (h := (L / 2)%nat) in *. set (q := (h / w)%nat) in *. set (b := (x / w)%nat) in *. set (m := (x mod w)%nat) in *.
  assert (C : (h <= w * b <-> h <= x)%nat).
  { split; [lia|]. intros F. assert (q <= b)%nat; [|nia]. destruct (Nat.le_gt_cases q b) as [G|G]; [exact G|]. exfalso.
    assert (w * (b + 1) <= w * q)%nat by (apply Nat.mul_le_mono_l; lia). lia. }
  assert (S : forall y : Z, (y * y)%Z = (Z.abs y * Z.abs y)%Z) by (intro y; rewrite <- Z.abs_mul; symmetry; apply Z.abs_eq; apply Z.square_nonneg).
  rewrite S. rewrite Nat.pow_2_r, (Nat2Z.inj_mul (distance0 L x)).
  assert (A : Z.abs ((if (h <=? w * b)%nat then Z.of_nat (w * b) - Z.of_nat L else Z.of_nat (w * b)) + Z.of_nat (x - w * b)) = Z.of_nat (distance0 L x)).
  { unfold distance0. destruct (Nat.leb_spec h (w * b)) as [F|F].
    - assert (h <= x)%nat by (apply C; exact F). rewrite Nat.min_r by lia. lia.
    - assert (x < h)%nat by lia. rewrite Nat.min_l by lia. lia. }
  rewrite A. reflexivity.
Qed.
Lemma momS_place w g r yl z x : even g -> (0 < w)%nat -> ((gL g / 2) mod w = 0)%nat -> (gL g mod 2 = 0)%nat -> modeAt g r yl z x ->
  momS w g r (modePlace g yl z x) = Z.of_nat (momentum2 g r yl z x).
Proof.
  intros [L0 [Z0 [K0 D]]] W Dw E [Hr [Hy [Hz Hx]]]. unfold momS, modePlace. cbv zeta. fold (depth g) in *.
  change (gLz g * gK g)%nat with (depth g) in *.
  assert (A : (((yl * depth g + z) * gL g + x) / gL g = yl * depth g + z)%nat) by (rewrite Nat.div_add_l by lia; rewrite (Nat.div_small x) by lia; lia).
  assert (B : (((yl * depth g + z) * gL g + x) mod gL g = x)%nat) by (rewrite Nat.add_comm, Nat.mod_add by lia; apply Nat.mod_small; lia).
  assert (C : ((yl * depth g + z) mod depth g = z)%nat) by (rewrite Nat.add_comm, Nat.mod_add by lia; apply Nat.mod_small; lia).
  assert (F : (((yl * depth g + z) * gL g + x) / (gL g * depth g) = yl)%nat).
  { rewrite <- Nat.div_div by lia. rewrite A, Nat.div_add_l by lia. rewrite (Nat.div_small z) by lia. lia. }
  rewrite A, B, C, F. unfold momSq, momentum2. change (gLz g * gK g)%nat with (depth g).
  pose proof (Nat.div_mod (gL g) (gK g) ltac:(lia)) as Q. rewrite D, Nat.add_0_r in Q. set (q := (gL g / gK g)%nat) in *.
  assert (Y : (yl + q * r < gL g)%nat).
  { rewrite Q. assert (q * (r + 1) <= q * gK g)%nat by (apply Nat.mul_le_mono_l; lia). lia. }
  rewrite (kx_sq w (gL g) x W Dw E Hx), (kFold_sq (gL g) _ Y), (kFold_sq (depth g) z Hz).
  replace (r * q + yl)%nat with (yl + q * r)%nat by lia. rewrite !Nat2Z.inj_add. reflexivity.
Qed.
Lemma place_bound g yl z x : even g -> (yl < gL g / gK g)%nat -> (z < gLz g * gK g)%nat -> (x < gL g)%nat ->
  (modePlace g yl z x < gL g * depth g * (gL g / gK g) /\ gL g * depth g * (gL g / gK g) = vol g)%nat.
Proof.
  intros [L0 [Z0 [K0 D]]] Hy Hz Hx. unfold modePlace. change (gLz g * gK g)%nat with (depth g) in *.
  pose proof (Nat.div_mod (gL g) (gK g) ltac:(lia)) as Q. rewrite D, Nat.add_0_r in Q. split.
  - assert (((yl * depth g + z) + 1) * gL g <= (gL g / gK g * depth g) * gL g)%nat; [|lia].
    apply Nat.mul_le_mono_r. assert ((yl + 1) * depth g <= gL g / gK g * depth g)%nat by (apply Nat.mul_le_mono_r; lia). lia.
  - unfold vol, surf, depth. set (q := (gL g / gK g)%nat) in *. rewrite Q at 3. lia.
Qed.
Lemma place_zero g r yl z x : even g -> modeAt g r yl z x -> (momentum2 g r yl z x = 0 <-> r = 0 /\ modePlace g yl z x = 0)%nat.
Proof.
  intros [L0 [Z0 [K0 D]]] [Hr [Hy [Hz Hx]]]. unfold momentum2, modePlace.
  pose proof (Nat.div_mod (gL g) (gK g) ltac:(lia)) as Q. rewrite D, Nat.add_0_r in Q. set (q := (gL g / gK g)%nat) in *.
  assert (Y : (r * q + yl < gL g)%nat).
  { rewrite Q. assert (q * (r + 1) <= q * gK g)%nat by (apply Nat.mul_le_mono_l; lia). lia. }
  rewrite !Nat.pow_2_r.
  assert (P : forall n y, (y < n)%nat -> (distance0 n y = 0 <-> y = 0)%nat) by (intros n y; unfold distance0; lia).
  assert (S : forall y : nat, (y * y = 0 <-> y = 0)%nat) by (intro y; rewrite Nat.mul_eq_0; lia).
  split.
  - intros A. assert (A1 : (distance0 (gL g) x * distance0 (gL g) x = 0)%nat) by lia.
    assert (A2 : (distance0 (gL g) (r * q + yl) * distance0 (gL g) (r * q + yl) = 0)%nat) by lia.
    assert (A3 : (distance0 (gLz g * gK g) z * distance0 (gLz g * gK g) z = 0)%nat) by lia.
    apply (proj1 (S _)) in A1, A2, A3. apply (proj1 (P _ _ Hx)) in A1. apply (proj1 (P _ _ Y)) in A2. apply (proj1 (P _ _ Hz)) in A3.
    assert (yl = 0)%nat by lia. assert (r * q = 0)%nat by lia. apply Nat.mul_eq_0 in H0. split; [|subst; reflexivity].
    destruct H0 as [H0|H0]; [exact H0|lia].
  - intros [R0 P0]. apply Nat.eq_add_0 in P0. destruct P0 as [P0 X0]. apply Nat.mul_eq_0 in P0. destruct P0 as [P0|P0]; [|lia].
    apply Nat.eq_add_0 in P0. destruct P0 as [P0 Q0]. apply Nat.mul_eq_0 in P0.
    assert (yl = 0)%nat by (destruct P0 as [P0|P0]; [exact P0|]; apply Nat.mul_eq_0 in P0; lia).
    subst. rewrite Nat.mul_0_l, Nat.add_0_l. unfold distance0. rewrite !Nat.min_0_l. reflexivity.
Qed.
Lemma place_of g r i : even g -> here g r i -> exists yl z x, modeAt g r yl z x /\ i = modePlace g yl z x.
Proof.
  intros [L0 [Z0 [K0 D]]] [Hr Hi].
  pose proof (Nat.div_mod (gL g) (gK g) ltac:(lia)) as Q. rewrite D, Nat.add_0_r in Q. set (q := (gL g / gK g)%nat) in *.
  assert (T0 : (0 < gLz g * gK g)%nat) by (apply Nat.mul_pos_pos; assumption).
  set (T := (gLz g * gK g)%nat) in *.
  exists (i / gL g / T)%nat, (i / gL g mod T)%nat, (i mod gL g)%nat. unfold modeAt, modePlace. fold q. fold T. split.
  - split; [exact Hr|]. split; [|split; apply Nat.mod_upper_bound; lia].
    rewrite Nat.div_div by lia. apply Nat.div_lt_upper_bound; [lia|].
    assert (gL g * gL g * gLz g = gL g * T * q)%nat by (unfold T; rewrite Q at 2; lia). lia.
  - pose proof (Nat.div_mod i (gL g) ltac:(lia)) as A. pose proof (Nat.div_mod (i / gL g) T ltac:(lia)) as B.
    rewrite (Nat.mul_comm (i / gL g / T) T), <- B. lia.
Qed.

(** Drifts *)
Lemma drift_0 t m v : drift 0 t m v = (m + v * t, v).
Proof. unfold drift. destruct (Req_EM_T 0 0) as [_|N]; [reflexivity|exfalso; auto]. Qed.
Lemma drift_n p t m v : p <> 0 -> drift p t m v = (m * cos (p * t) + v / p * sin (p * t), v * cos (p * t) - p * m * sin (p * t)).
Proof. intros N. unfold drift. destruct (Req_EM_T p 0) as [E|_]; [exfalso; auto|reflexivity]. Qed.
Lemma turn_drift p t a m v : p <> 0 -> turn p t a m v = drift p t m (v + a).
Proof. intros N. rewrite drift_n by exact N. unfold turn. f_equal. field. exact N. Qed.
Lemma turnC_drift p t a m v : p <> 0 -> turnC p t a m v = driftC p t m (plus v a).
Proof. intros N. unfold turnC, driftC, plus. rewrite !turn_drift by exact N. reflexivity. Qed.
Lemma drift_add p t u m v : drift p u (fst (drift p t m v)) (snd (drift p t m v)) = drift p (t + u) m v.
Proof.
  destruct (Req_dec p 0) as [->|N].
  - rewrite !drift_0. cbn [fst snd]. f_equal. ring.
  - rewrite !(drift_n p) by exact N. cbn [fst snd]. rewrite (Rmult_plus_distr_l p t u), cos_plus, sin_plus. f_equal; field; exact N.
Qed.
Lemma driftC_add p t u m v : driftC p u (fst (driftC p t m v)) (snd (driftC p t m v)) = driftC p (t + u) m v.
Proof. unfold driftC. cbn [fst snd]. rewrite !drift_add. reflexivity. Qed.
Lemma drift_here p m v : drift p 0 m v = (m, v).
Proof.
  destruct (Req_dec p 0) as [->|N].
  - rewrite drift_0. f_equal. ring.
  - rewrite drift_n by exact N. rewrite Rmult_0_r, cos_0, sin_0. f_equal; field; exact N.
Qed.
Lemma driftC_here p m v : driftC p 0 m v = (m, v).
Proof. unfold driftC. rewrite !drift_here. cbn [fst snd]. rewrite !pair_eta. reflexivity. Qed.

(** A stage *)
Definition pull (p : pot) (lam Rr : R) (x : cpx) : cpx := force p lam Rr (0, 0) x.
Lemma force_pull p lam Rr junk x : p <> QCDV -> force p lam Rr junk x = pull p lam Rr x.
Proof. intros N. destruct p; try reflexivity. exfalso; auto. Qed.
Lemma getC_scale0 M a n c r i : (2 * i + 1 < n)%nat ->
  getC (putR M (a, 0%nat) n (fun r j => c * M a r (0 + j)%nat)) (a, 0%nat) r i = times c (getC M (a, 0%nat) r i).
Proof. intros H. exact (getC_scale M a 0 n c r i ltac:(lia)). Qed.

Lemma stage_mem T unf w p junk b g f1 dz c d z s : even g -> sM s = true ->
  exists M, sFStage T unf true w p junk b g f1 dz (c, d) (z, s) =
      Some (z + dz * d, St (fsProp true w g f1 dz c d (i3 b z (z + dz * d)) (ii3 b z (z + dz * d)) M) true (sV s) false) /\
    (forall a r i, a <> AM2 -> M a r i = mm s a r i) /\
    (exists A, (forall r i, (i < vol g)%nat -> A r i = force p (lamP b z) (Rof b z) (junk r i) (bC T (getC (mm s) (AM, (2 * (gNg g * surf g))%nat)) r i)) /\
      forall r i, (i < vol g)%nat -> getC M m2Cpu r i = times (1 / sites g) (fC T A r i)).
Proof.
  intros EV HM. unfold sFStage, iftField, mToM2. cbn [wM wV wM2 wMto2]. cbv zeta. rewrite HM. cbn [negb mm sM sV sF].
  unfold ftField, theM2. cbn [wM wV wM2 wMto2 mm sM sV sF]. cbv zeta. cbn [mm sM sV sF].
  unfold m2Cpu. rewrite scale_some by apply room_m2. cbn [onMem fst snd mm sM sV sF].
  eexists. split; [reflexivity|]. split.
  - intros a r i Ha. unfold putC. rewrite !putR_out by (left; exact Ha). reflexivity.
  - pose proof (eSz_vol g) as EZ. eexists. split; cycle 1.
    + intros r i Hi. rewrite getC_scale0 by lia. rewrite getC_put by exact Hi. reflexivity.
    + intros r i Hi. rewrite getC_put by exact Hi. rewrite getC_put by exact Hi. reflexivity.
Qed.

Lemma getC_put_far M p n F q r i : (fst q <> fst p \/ snd q + 2 * i + 1 < snd p \/ snd p + 2 * n <= snd q + 2 * i)%nat ->
  getC (putC M p n F) q r i = getC M q r i.
Proof. intros H. unfold getC, putC. rewrite !putR_out by (destruct H as [H|H]; [left; exact H|right; lia]). reflexivity. Qed.

Lemma fsProp_mode w g f1 dz c d im iim M r yl z x : even g -> gNg g = 1%nat -> (0 < w)%nat -> ((gL g / 2) mod w = 0)%nat ->
  (gL g mod 2 = 0)%nat -> f1 <> 0 -> modeAt g r yl z x ->
  let i := modePlace g yl z x in
  let s' := St (fsProp true w g f1 dz c d im iim M) true true false in
  let D := driftC (wave f1 g r yl z x) (dz * d) (getC M (AM, (2 * (gNg g * surf g))%nat) r i)
             (plus (getC M (AV, 0%nat) r i) (times (dz * c) (getC M m2Cpu r i))) in
  phi g s' r i = plus (fst D) (extra r yl z x iim) /\ vel s' r i = plus (snd D) (extra r yl z x im).
Proof.
  intros EV NG W DW E2 F1 AT i s' D. pose proof AT as [Hr [Hy [Hz Hx]]].
  destruct (place_bound g yl z x EV Hy Hz Hx) as [PB VB]. fold i in PB.
  rewrite phi_get, vel_get. unfold s'. cbn [mm]. unfold fsProp. cbn [negb]. cbv zeta. rewrite NG, Nat.mul_1_l in *.
  set (n := (gL g * depth g * (gL g / gK g))%nat) in *.
  rewrite getC_other by (cbn [fst]; discriminate). rewrite !getC_put by exact PB. clear s'.
  assert (Z : (((r =? 0) && (i =? 0))%nat = true /\ momentum2 g r yl z x = 0%nat /\ (r = 0 /\ yl = 0 /\ z = 0 /\ x = 0)%nat) \/
              (((r =? 0) && (i =? 0))%nat = false /\ momentum2 g r yl z x <> 0%nat)).
  { pose proof (place_zero g r yl z x EV AT) as P. fold i in P.
    destruct (Nat.eq_dec (momentum2 g r yl z x) 0) as [e|ne].
    - left. destruct (proj1 P e) as [R0 I0]. split; [rewrite R0, I0; reflexivity|]. split; [exact e|]. split; [exact R0|].
      unfold i, modePlace in I0. destruct EV as [L0 [Z0 [K0 _]]]. apply Nat.eq_add_0 in I0. destruct I0 as [I0 X0]. apply Nat.mul_eq_0 in I0.
      destruct I0 as [I0|I0]; [|lia]. apply Nat.eq_add_0 in I0. destruct I0 as [I0 Q0]. apply Nat.mul_eq_0 in I0.
      assert (0 < gLz g * gK g)%nat by (apply Nat.mul_pos_pos; assumption). lia.
    - right. split; [|exact ne]. apply Bool.not_true_is_false. intros e. apply andb_prop in e. destruct e as [e1 e2].
      apply Nat.eqb_eq in e1, e2. apply ne. apply P. split; assumption. }
  unfold D, wave, extra. clear D. replace (2 * (gNg g * surf g))%nat with (2 * surf g)%nat by (rewrite NG; lia).
  set (mm0 := getC M (AM, (2 * surf g)%nat) r i). set (vv := getC M (AV, 0%nat) r i). set (aa := getC M m2Cpu r i).
  destruct Z as [[Z1 [Z2 [-> [-> [-> ->]]]]]|[Z1 Z2]].
  - rewrite Z1, Z2. cbn [Nat.eqb andb]. cbn [INR]. rewrite sqrt_0, Rmult_0_r. unfold driftC, plus, times. rewrite !drift_0. cbn [fst snd].
    split; f_equal; ring.
  - rewrite Z1. replace (momS w g r i) with (Z.of_nat (momentum2 g r yl z x)) by (symmetry; exact (momS_place w g r yl z x EV W DW E2 AT)). rewrite <- INR_IZR_INZ.
    assert (X : ((r =? 0) && (yl =? 0) && (z =? 0) && (x =? 0))%nat = false).
    { apply Bool.not_true_is_false. intros e. rewrite !andb_true_iff, !Nat.eqb_eq in e. destruct e as [[[e1 e2] e3] e4]. apply Z2.
      apply (place_zero g r yl z x EV AT). subst. split; reflexivity. }
    rewrite X.
    assert (P0 : f1 * sqrt (INR (momentum2 g r yl z x)) <> 0).
    { apply Rmult_integral_contrapositive_currified; [exact F1|]. apply Rgt_not_eq, sqrt_lt_R0. apply lt_0_INR. lia. }
    rewrite turnC_drift by exact P0. unfold times. rewrite (Rmult_comm (dz * c) (fst aa)), (Rmult_comm (dz * c) (snd aa)).
    assert (P0' : forall y : cpx, plus y (0, 0) = y) by (intros [y1 y2]; unfold plus; cbn [fst snd]; f_equal; ring).
    rewrite !P0'. split; reflexivity.
Qed.
