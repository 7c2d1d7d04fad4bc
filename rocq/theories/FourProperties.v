(** C108: a field goes to momentum space and back unchanged; C109: a full spectral step kicks and then moves every mode
    exactly. What holds and what does not. *)
From Coq Require Import Reals List Arith ZArith Bool Lia Lra.
From Verif Require Import GravModel GravProofs GravSpec FourModel FourSpec FourProofs.
Import ListNotations.
Local Open Scope R_scope.
Ltac Zify.zify_post_hook ::= idtac.

Lemma here_vol g r i : here g r i -> (i < vol g)%nat. Proof. intros [_ H]. exact H. Qed.
Lemma inv_sites g x : even g -> times (1 / sites g) (times (sites g) x) = x.
Proof. intros E. rewrite times_times. apply times_1. field. apply Rgt_not_eq. apply sites_pos. exact E. Qed.

(** ** The complex field *)

(** C108. To momentum space and back: both calls end, in between the modes are those of the field over the number of
    sites, and at the end field, velocity and flags are as they were (a folded field unfolded). For one ghost slice. *)
Theorem there_and_back_partial T unf g s : complexPair T g -> even g -> gNg g = 1%nat -> sM s = false -> sV s = false ->
  let s0 := if sF s then St (unf (mm s)) false false false else s in
  exists s1 s2, ftField T unf Saxion g theMV s = Some s1 /\ iftField T Saxion g theMV s1 = Some s2 /\
    sM s1 = true /\ sV s1 = true /\
    agree g (phi g s1) (fun r i => times (1 / sites g) (fC T (phi g s0) r i)) /\
    agree g (vel s1) (fun r i => times (1 / sites g) (fC T (vel s0) r i)) /\
    sM s2 = false /\ sV s2 = false /\ sF s2 = false /\
    agree g (phi g s2) (phi g s0) /\ agree g (vel s2) (vel s0).
Proof.
  intros CP EV NG HM HV s0.
  destruct (forward_mv T unf g s NG HM HV) as [s1 [A [B [C [D [P V]]]]]].
  destruct (backward_mv T g s1 B C) as [s2 [A' [B' [C' [D' [P' V']]]]]].
  assert (E0 : mm s0 = plain unf s) by (unfold s0, plain; destruct (sF s); reflexivity).
  assert (P1 : agree g (phi g s1) (fun r i => times (1 / sites g) (fC T (phi g s0) r i))).
  { intros r i H. rewrite phi_get, P by (apply here_vol in H; exact H). f_equal.
    apply (fC_local T g CP); [|exact H]. intros r' i' _. rewrite phi_get, E0. reflexivity. }
  assert (V1 : agree g (vel s1) (fun r i => times (1 / sites g) (fC T (vel s0) r i))).
  { intros r i H. rewrite vel_get, V by (apply here_vol in H; exact H). f_equal.
    apply (fC_local T g CP); [|exact H]. intros r' i' _. rewrite vel_get, E0. reflexivity. }
  assert (BK : forall F, agree g (bC T (fun r i => times (1 / sites g) (fC T F r i))) F).
  { intros F r i H. rewrite (bC_linear T g CP (1 / sites g) (fC T F) r i H). rewrite (forth_back T g CP F r i H). apply inv_sites. exact EV. }
  exists s1, s2. repeat (split; [assumption|]). split.
  - intros r i H. rewrite phi_get, P' by (apply here_vol in H; exact H).
    rewrite <- (BK (phi g s0) r i H). apply (bC_local T g CP); [|exact H]. intros r' i' H'. rewrite <- phi_get. apply P1. exact H'.
  - intros r i H. rewrite vel_get, V' by (apply here_vol in H; exact H).
    rewrite <- (BK (vel s0) r i H). apply (bC_local T g CP); [|exact H]. intros r' i' H'. rewrite <- vel_get. apply V1. exact H'.
Qed.

(** C108. A field that is in momentum space is not transformed again, and one that is not is not transformed back. *)
Theorem not_twice T unf g s : sF s = false ->
  (sM s = true -> ftField T unf Saxion g theMV s = Some s) /\
  (sM s = false -> iftField T Saxion g theMV s = Some s).
Proof.
  intros F. split; intros H.
  - unfold ftField, theMV. cbn [wM]. cbv zeta. rewrite F, H. reflexivity.
  - unfold iftField, theMV. cbn [wM]. cbv zeta. rewrite H. reflexivity.
Qed.

(** C108 fails: with m alone in momentum space, asking for both leaves the velocity where it was (for every field). *)
Theorem half_way_refuted T unf k g s : sF s = false -> sM s = true -> sV s = false ->
  ftField T unf k g theMV s = Some s /\ sV s = false.
Proof. intros F H V. unfold ftField, theMV. cbn [wM]. cbv zeta. rewrite F, H. split; [reflexivity|exact V]. Qed.

(** C108 fails: with two ghost slices or more the scaling of the velocity writes beyond its room, on every grid. *)
Theorem ghost_slices_refuted T unf g s : (0 < gL g)%nat -> (2 <= gNg g)%nat -> sM s = false -> sV s = false ->
  ftField T unf Saxion g theMV s = None.
Proof.
  intros L N HM HV. unfold ftField, theMV. cbn [wM wV wM2 wMto2]. cbv zeta.
  set (s0 := if sF s then _ else s). assert (M0 : sM s0 = false) by (unfold s0; destruct (sF s); cbn; assumption).
  assert (V0 : sV s0 = false) by (unfold s0; destruct (sF s); cbn; assumption). rewrite M0.
  rewrite scale_some by apply room_m. cbn [onMem sV]. rewrite V0. unfold scale at 1.
  assert (R0 : (snd (vCpu Saxion g) + 2 * eSz g <=? room Saxion g (fst (vCpu Saxion g)))%nat = false).
  { apply Nat.leb_gt. cbn [vCpu fst snd room]. unfold eSz. rewrite Nat.add_0_l.
    apply Nat.mul_lt_mono_pos_l; [lia|]. apply Nat.mul_lt_mono_pos_l; [unfold surf; apply Nat.mul_pos_pos; exact L|]. lia. }
  rewrite R0. reflexivity.
Qed.

(** ** The axion *)

(** C108, C109 fail: on every grid with a ghost slice the full spectral step of an axion starts by writing outside the
    field, as the velocity is scaled as if it were complex. *)
Theorem axion_overrun_refuted T unf g s : (0 < gL g)%nat -> (1 <= gNg g)%nat -> (1 <= gLz g)%nat -> sM s = false -> sV s = false ->
  tFpecStart T unf g s = None.
Proof.
  intros L N Z HM HV. unfold tFpecStart.
  set (s0 := if sF s then _ else s). assert (M0 : sM s0 = false) by (unfold s0; destruct (sF s); cbn; assumption).
  assert (V0 : sV s0 = false) by (unfold s0; destruct (sF s); cbn; assumption).
  assert (F0 : sF s0 = false) by (unfold s0; destruct (sF s) eqn:E; cbn; [reflexivity|exact E]).
  rewrite M0. cbn [negb orb]. unfold ftField, theMV. cbn [wM wV wM2 wMto2]. cbv zeta. rewrite F0, M0.
  assert (SP : (0 < surf g)%nat) by (unfold surf; apply Nat.mul_pos_pos; exact L).
  unfold scale at 1. destruct (Nat.leb _ _); [|reflexivity]. cbn [onMem sV]. rewrite V0. unfold scale at 1.
  assert (R0 : (snd (vCpu Axion g) + 2 * eSz g <=? room Axion g (fst (vCpu Axion g)))%nat = false).
  { apply Nat.leb_gt. cbn [vCpu fst snd room]. unfold eSz.
    apply Nat.add_lt_mono_l. replace (2 * (surf g * (gLz g + 2 * gNg g)))%nat with (surf g * (2 * (gLz g + 2 * gNg g)))%nat by lia.
    apply Nat.mul_lt_mono_pos_l; [exact SP|]. lia. }
  rewrite R0. reflexivity.
Qed.
(** The same of m alone, if there are two ghost slices or more. *)
Theorem axion_ghosts_refuted T unf g s : (0 < gL g)%nat -> (2 <= gNg g)%nat -> sM s = false -> ftField T unf Axion g theM s = None.
Proof.
  intros L N HM. unfold ftField, theM. cbn [wM wV wM2 wMto2]. cbv zeta.
  set (s0 := if sF s then _ else s). assert (M0 : sM s0 = false) by (unfold s0; destruct (sF s); cbn; assumption). rewrite M0.
  assert (SP : (0 < surf g)%nat) by (unfold surf; apply Nat.mul_pos_pos; exact L).
  unfold scale at 1. assert (R0 : (snd mCpu + 2 * eSz g <=? room Axion g (fst mCpu))%nat = false).
  { apply Nat.leb_gt. cbn [mCpu fst snd room]. unfold eSz.
    replace (surf g * (gLz g + 2 * gNg g) + surf g * (gLz g + 2))%nat with (surf g * (2 * gLz g + 2 * gNg g + 2))%nat by lia.
    replace (0 + 2 * (surf g * (gLz g + 2 * gNg g)))%nat with (surf g * (2 * gLz g + 4 * gNg g))%nat by lia.
    apply Nat.mul_lt_mono_pos_l; [exact SP|]. lia. }
  rewrite R0. reflexivity.
Qed.

(** C108. With one ghost slice, an even length and ranks no deeper than the length, the axion alone goes to momentum space
    and comes back. But its velocity, which was not to be touched, is divided by the number of sites. *)
Lemma axion_fits g : even g -> gNg g = 1%nat -> (gL g mod 2 = 0)%nat -> (gLz g <= gL g)%nat -> (2 * modes g <= eSz g)%nat.
Proof.
  intros [L0 [Z0 [K0 D]]] NG E H. unfold modes, eSz, surf, depth. rewrite NG.
  pose proof (Nat.div_mod (gL g) (gK g) ltac:(lia)) as Q. rewrite D, Nat.add_0_r in Q.
  pose proof (Nat.div_mod (gL g) 2 ltac:(lia)) as P. rewrite E, Nat.add_0_r in P.
  replace (2 * ((gL g / 2 + 1) * (gLz g * gK g) * (gL g / gK g)))%nat with ((2 * (gL g / 2) + 2) * (gLz g * (gK g * (gL g / gK g))))%nat by lia.
  rewrite <- Q, <- P. replace ((gL g + 2) * (gLz g * gL g))%nat with (gL g * gL g * gLz g + 2 * (gL g * gLz g))%nat by lia.
  replace (gL g * gL g * (gLz g + 2 * 1))%nat with (gL g * gL g * gLz g + 2 * (gL g * gL g))%nat by lia.
  apply Nat.add_le_mono_l, Nat.mul_le_mono_l, Nat.mul_le_mono_l. exact H.
Qed.
Lemma padded_back g j : (0 < gL g)%nat -> (j < vol g)%nat ->
  (padded g j / (gL g + 2) = j / gL g /\ padded g j mod (gL g + 2) = j mod gL g /\ j / gL g < gL g * gLz g)%nat.
Proof.
  intros L0 H. unfold padded. pose proof (Nat.mod_upper_bound j (gL g) ltac:(lia)) as B. split; [|split].
  - rewrite Nat.div_add_l by lia. rewrite (Nat.div_small (j mod gL g)) by lia. lia.
  - rewrite Nat.add_comm, Nat.mod_add by lia. apply Nat.mod_small. lia.
  - apply Nat.div_lt_upper_bound; [lia|]. unfold vol, surf in H. lia.
Qed.
Lemma mod_back L j : (0 < L)%nat -> (j / L * L + j mod L = j)%nat.
Proof. intros H. pose proof (Nat.div_mod j L ltac:(lia)). lia. Qed.
Lemma padtom2_padded g p M r j : (0 < gL g)%nat -> (j < vol g)%nat -> padtom2 g p M AM2 r (padded g j) = M (fst p) r (snd p + j)%nat.
Proof.
  intros L0 H. destruct (padded_back g j L0 H) as [A [B C]]. unfold padtom2. cbn [arr_eq arr_rec arr_rect]. cbv zeta.
  rewrite A, B, (proj2 (Nat.ltb_lt _ _) C), (proj2 (Nat.ltb_lt _ _) (Nat.mod_upper_bound j (gL g) ltac:(lia))). cbn [andb].
  rewrite mod_back by exact L0. reflexivity.
Qed.
Lemma toRows_padded T g p M r j : (0 < gL g)%nat -> (j < vol g)%nat -> toRows T g p M AM2 r (padded g j) = bR T (getC M p) r j.
Proof.
  intros L0 H. destruct (padded_back g j L0 H) as [A [B C]]. unfold toRows. cbn [arr_eq arr_rec arr_rect]. cbv zeta.
  rewrite A, B, (proj2 (Nat.ltb_lt _ _) C), (proj2 (Nat.ltb_lt _ _) (Nat.mod_upper_bound j (gL g) ltac:(lia))). cbn [andb].
  rewrite mod_back by exact L0. reflexivity.
Qed.
Theorem axion_alone_partial T unf g s : realPair T g (modes g) -> (forall f h, (forall r i, here g r i -> f r i = h r i) ->
      forall r i, (r < gK g)%nat -> (i < modes g)%nat -> fR T f r i = fR T h r i) ->
  even g -> gNg g = 1%nat -> (gL g mod 2 = 0)%nat -> (gLz g <= gL g)%nat -> sM s = false -> sF s = false ->
  exists s1 s2, ftField T unf Axion g theM s = Some s1 /\ iftField T Axion g theM s1 = Some s2 /\
    sM s1 = true /\ sM s2 = false /\ sV s2 = sV s /\
    (forall r i, here g r i -> theta g s2 r i = theta g s r i) /\
    (forall r i, here g r i -> thetaV g s2 r i = thetaV g s r i / sites g).
Proof.
  intros RP FL EV NG E2 H HM HF. pose proof (axion_fits g EV NG E2 H) as FIT. pose proof EV as [L0 [Z0 [K0 DD]]].
  pose proof (eSz_vol g) as EZ. rewrite NG in EZ.
  unfold ftField, theM. cbn [wM wV wM2 wMto2]. cbv zeta. rewrite HF, HM.
  assert (RM : (0 + 2 * eSz g <= room Axion g AM)%nat) by (unfold room, eSz; rewrite NG; lia).
  rewrite (scale_some Axion g mCpu _ _ RM). cbn [onMem mCpu fst snd]. unfold mCpu.
  set (M0 := padtom2 g (mStart Axion g) (mm s)). set (M1 := toModes T g (AM, 0%nat) M0).
  eexists. eexists. split; [reflexivity|]. unfold iftField. cbn [wM wV wM2 wMto2 mm sM sV sF]. cbv zeta. cbn [negb sM sV sF mm].
  split; [reflexivity|]. cbn [sM sV]. do 3 (split; [reflexivity|]).
  set (c := 1 / INR (nTot g)). set (M2 := putR M1 (AM, 0%nat) (2 * eSz g) _).
  assert (A2 : forall r i, (i < modes g)%nat -> getC M2 (AM, 0%nat) r i = times c (fR T (fun r j => M0 AM2 r (padded g j)) r i)).
  { intros r i Hi. unfold M2. rewrite getC_scale0 by lia. f_equal. unfold M1, toModes. apply getC_put. exact Hi. }
  split.
  - intros r i Hi. pose proof (here_vol g r i Hi) as Vi. unfold theta. cbn [mm]. unfold unpadfromm2, mStart, nums. rewrite Nat.mul_1_l. unfold surf at 1.
    rewrite putR_in by exact Vi. rewrite toRows_padded by assumption.
    rewrite (RP (fun r j => theta g s r j) (getC M2 mCpu) c); [|intros r' i' Hr' Hi'; unfold mCpu; rewrite A2 by exact Hi'; f_equal|exact Hi].
    + unfold c. rewrite nTot_sites. unfold theta. field. apply Rgt_not_eq, sites_pos. exact EV.
    + apply FL; [|exact Hr'|exact Hi']. intros r'' i'' H''. unfold M0. rewrite padtom2_padded by (try exact L0; apply (here_vol g r'' i'' H'')).
      unfold mStart, nums, theta. cbn [fst snd]. unfold surf. f_equal. lia.
  - intros r i Hi. pose proof (here_vol g r i Hi) as Vi. unfold thetaV. cbn [mm].
    assert (ES : (gL g * gL g * (gLz g + 2 * gNg g) = eSz g)%nat) by reflexivity. rewrite ES.
    unfold unpadfromm2. rewrite putR_out by (right; right; unfold mStart, nums; cbn [snd]; rewrite NG; lia).
    unfold toRows, mCpu. cbn [arr_eq arr_rec arr_rect]. cbv zeta. unfold putC at 1. rewrite putR_out by (right; right; cbn [snd]; lia).
    unfold M2.
    pose proof (putR_in M1 AM 0 (2 * eSz g) (fun r j => c * M1 AM r (0 + j)%nat) r (eSz g + i) ltac:(lia)) as Q. etransitivity; [exact Q|]. clear Q. cbv beta. rewrite Nat.add_0_l.
    unfold M1, toModes, putC. rewrite putR_out by (right; right; cbn [snd]; lia).
    unfold M0, padtom2. cbn [arr_eq arr_rec arr_rect]. unfold c. rewrite nTot_sites. unfold Rdiv. ring.
Qed.
