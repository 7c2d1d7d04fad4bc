(** Theorems about the energies of the nonrelativistic field. *)
From Coq Require Import Lqa Lra Reals List Arith NArith Bool Lia Permutation.
From Verif Require Import KernelModel LaneModel LaplModel ForceModel EnergyModel EnergySpec EnergyProofs ConserveSpec ConserveProofs ConserveBoxProofs CosmoModel CosmoSpec CosmoProofs AxionModel AxionProofs PaxModel PaxSpec PaxProofs PaxEnergyModel PaxEnergySpec PaxEnergyProofs.
Import ListNotations.
Open Scope R_scope.
Ltac Zify.zify_post_hook ::= idtac.

(** ** The averages *)
(** Number and self-interaction are always the averages over all sites, however the sites are split over ranks and threads *)
Theorem pax_number_and_self P I hs n nz Ng junk b e rs E : replies (pEnergy P I hs n nz Ng junk b e rs) E -> 0 < kR b ->
  E 3%nat = Some (mean (fun x => abs2 (qPsi x)) (psites rs)) /\ E 4%nat = Some (mean (selfPsi b) (psites rs)) /\ (forall i, (5 <= i)%nat -> E i = None).
Proof.
  intros H R0. pose proof (pEnergy_mean _ _ _ _ _ _ _ _ _ _ _ H) as M. rewrite (M 3%nat), (M 4%nat) by lia. split; [|split].
  - f_equal. apply mean_ext. intros x _. cbn [pQuantity pFactor]. unfold abs2. ring.
  - f_equal. apply mean_ext. intros x _. cbn [pQuantity pFactor]. unfold selfPsi, kBeta, abs2. field. lra.
  - intros i L. unfold pEnergy in H. destruct (hasMask e && negb hs); [destruct H as [[m2 H]|H]; discriminate|].
    destruct (hasMap e); destruct H as [[m2 H]|H]; try discriminate; injection H; intros; subst E; replace (i <? 5)%nat with false by (symmetry; apply Nat.ltb_ge, L); reflexivity.
Qed.
(** The gradients are the documented averages when the scale factor is 1, in y only with registers that read the neighbours right *)
Theorem pax_gradients_partial P I hs n nz Ng junk b e rs E : replies (pEnergy P I hs n nz Ng junk b e rs) E -> kR b = 1 -> 0 < kMa b -> 0 < kDelta b ->
  E 0%nat = Some (mean (fun x => gradPsi b x Xp Xm) (psites rs)) /\
  (goodLanes P I -> E 1%nat = Some (mean (fun x => gradPsi b x Yp Ym) (psites rs))) /\
  E 2%nat = Some (mean (fun x => gradPsi b x Zp Zm) (psites rs)).
Proof.
  intros H R1 M0 D0. pose proof (pEnergy_mean _ _ _ _ _ _ _ _ _ _ _ H) as M. rewrite (M 0%nat), (M 1%nat), (M 2%nat) by lia.
  assert (G : forall x d d', (pSq (qNb x d) (qPsi x) + pSq (qNb x d') (qPsi x)) * kO2 b = gradPsi b x d d').
  { intros x d d'. rewrite grad_scaled by lra. rewrite R1. field. }
  split; [|split].
  - f_equal. apply mean_ext. intros x _. cbn [pQuantity pFactor]. apply G.
  - intros L. f_equal. apply mean_ext. intros x _. cbn [pQuantity pFactor]. rewrite pYs_good by exact L. apply G.
  - f_equal. apply mean_ext. intros x _. cbn [pQuantity pFactor]. apply G.
Qed.
(** Otherwise they are the documented ones divided by the square of the scale factor *)
Theorem pax_gradients_refuted P I hs n nz Ng junk b e rs E : replies (pEnergy P I hs n nz Ng junk b e rs) E -> 0 < kR b -> kR b <> 1 -> 0 < kMa b -> 0 < kDelta b ->
  mean (fun x => gradPsi b x Xp Xm) (psites rs) <> 0 ->
  E 0%nat = Some (mean (fun x => gradPsi b x Xp Xm) (psites rs) / kR b ^ 2) /\ E 0%nat <> Some (mean (fun x => gradPsi b x Xp Xm) (psites rs)).
Proof.
  intros H R0 R1 M0 D0 N. pose proof (pEnergy_mean _ _ _ _ _ _ _ _ _ _ _ H) as M.
  assert (Q : E 0%nat = Some (mean (fun x => gradPsi b x Xp Xm) (psites rs) / kR b ^ 2)).
  { rewrite (M 0%nat) by lia. f_equal. unfold Rdiv. rewrite mean_scale. apply mean_ext. intros x _. cbn [pQuantity pFactor]. rewrite grad_scaled by assumption. reflexivity. }
  split; [exact Q|]. rewrite Q. intros Z. injection Z as Z. set (g := mean _ _) in *. clearbody g.
  assert (P2 : 0 < kR b ^ 2) by (apply pow_lt, R0). apply (Rmult_eq_compat_r (kR b ^ 2)) in Z. unfold Rdiv in Z. rewrite Rmult_assoc, Rinv_l, Rmult_1_r in Z by lra.
  assert (Y : g * (kR b ^ 2 - 1) = 0) by lra. apply Rmult_integral in Y. destruct Y as [Y|Y]; [contradiction|].
  replace (kR b ^ 2 - 1) with ((kR b - 1) * (kR b + 1)) in Y by ring. apply Rmult_integral in Y. destruct Y; lra.
Qed.
(** Double precision with AVX-512: a field that is the same everywhere has gradient energy in y *)
Theorem uniform_double_refuted hs nz Ng junk b e z a c rs E : 0 < kR b -> 0 < kMa b -> 0 < kDelta b -> a <> 0 -> (0 < z)%nat ->
  Permutation (psites rs) (map (psiteAt 8 z (fun _ => a) (fun _ => c)) (box 8 z)) -> replies (pEnergy Double AVX512 hs 8 nz Ng junk b e rs) E ->
  exists g, E 1%nat = Some g /\ 0 < g.
Proof.
  intros R0 M0 D0 A Z P H. rewrite (pEnergy_mean _ _ _ _ _ _ _ _ _ _ _ H 1%nat) by lia. eexists. split; [reflexivity|]. rewrite (mean_perm _ _ _ _ P), mean_map.
  pose proof (kO2_pos b R0 M0 D0) as K.
  pose proof (Rsqr_pos_lt _ A) as SA. unfold Rsqr in SA.
  rewrite (mean_ext _ _ (fun _ => 1 * (2 * (a * a) * kO2 b))).
  - rewrite <- mean_scale. unfold mean. rewrite sumOver_one, box_length. unfold Rdiv. rewrite Rinv_r by (apply not_0_INR; lia). rewrite Rmult_1_l. apply Rmult_lt_0_compat; lra.
  - intros [[i j] k] _. unfold pQuantity, pYs, pFactor, psiteAt. cbn [qAt qPsi qNb fst snd]. change (8 / 8)%nat with 1%nat. rewrite Nat.mod_1_r. cbn [Nat.eqb fst snd]. unfold pSq. cbn [fst snd]. ring.
Qed.
(** Single precision with AVX-512: the energy in y depends on what a register happened to hold *)
Theorem unset_register_refuted hs nz Ng b e z m v rs E : 0 < kR b -> 0 < kMa b -> 0 < kDelta b -> (0 < z)%nat ->
  Permutation (psites rs) (map (psiteAt 16 z m v) (box 16 z)) -> replies (pEnergy Single AVX512 hs 16 nz Ng v b e rs) E ->
  exists E', replies (pEnergy Single AVX512 hs 16 nz Ng (fun x => v x + 1) b e rs) E' /\ E' 1%nat <> E 1%nat.
Proof.
  intros R0 M0 D0 Z P H.
  assert (H2 : exists E', replies (pEnergy Single AVX512 hs 16 nz Ng (fun x => v x + 1) b e rs) E').
  { unfold pEnergy in *. destruct (hasMask e && negb hs); [destruct H as [[? H]|H]; discriminate|]. destruct (hasMap e); eexists; [left; eexists; reflexivity|right; reflexivity]. }
  destruct H2 as [E' H2]. exists E'. split; [exact H2|].
  rewrite (pEnergy_mean _ _ _ _ _ _ _ _ _ _ _ H 1%nat), (pEnergy_mean _ _ _ _ _ _ _ _ _ _ _ H2 1%nat) by lia. rewrite !(mean_perm _ _ _ _ P), !mean_map.
  pose proof (kO2_pos b R0 M0 D0) as K.
  intros Q. apply some_inj in Q.
  assert (D : mean (fun x => pQuantity Single AVX512 16 (fun x => v x + 1) 1 (psiteAt 16 z m v x) * pFactor b 1) (box 16 z)
    = mean (fun x => pQuantity Single AVX512 16 v 1 (psiteAt 16 z m v x) * pFactor b 1) (box 16 z) + kO2 b).
  { replace (kO2 b) with (mean (fun _ : cell => 1 * kO2 b) (box 16 z)).
    - rewrite mean_plus. apply mean_ext. intros [[i j] k] _. unfold pQuantity, pYs, pFactor, psiteAt. cbn [qAt qPsi qNb fst snd]. change (16 / 16)%nat with 1%nat. rewrite Nat.mod_1_r. cbn [Nat.eqb fst snd].
      unfold pSq. cbn [fst snd]. ring.
    - rewrite <- mean_scale. unfold mean. rewrite sumOver_one, box_length. unfold Rdiv. rewrite Rinv_r by (apply not_0_INR; lia). ring. }
  cbv beta in Q. rewrite D in Q. lra.
Qed.
(** Single precision with AVX but not AVX2: v that is different in one row only *)
Theorem wrong_lanes_refuted : exists m v b rs E, kR b = 1 /\ 0 < kMa b /\ 0 < kDelta b /\ Permutation (psites rs) (map (psiteAt 8 1 m v) (box 8 1)) /\
  replies (pEnergy Single AVX false 8 1 1 (fun _ => 0) b 1 rs) E /\ E 1%nat <> Some (mean (fun x => gradPsi b x Yp Ym) (psites rs)).
Proof.
  set (m := fun _ : cell => 0). set (v := fun x : cell => let '(i, j, k) := x in if (j =? 0)%nat then 1 else 0). set (b := PBack 1 1 1).
  set (rs := [[map (psiteAt 8 1 m v) (box 8 1)]]).
  assert (H : exists E, replies (pEnergy Single AVX false 8 1 1 (fun _ => 0) b 1 rs) E) by (eexists; left; eexists; reflexivity). destruct H as [E H].
  exists m, v, b, rs, E. split; [reflexivity|]. split; [cbn; lra|]. split; [cbn; lra|].
  assert (Q : psites rs = map (psiteAt 8 1 m v) (box 8 1)) by (exact (app_nil_r _)).
  split; [rewrite Q; apply Permutation_refl|]. split; [exact H|].
  rewrite (pEnergy_mean _ _ _ _ _ _ _ _ _ _ _ H 1%nat) by lia. rewrite Q, !mean_map. intros Z. apply some_inj in Z.
  rewrite (mean_ext _ _ (fun x : cell => (match snd (fst x) with 0%nat => 2 | 2%nat | 3%nat | 7%nat => 1 | _ => 0 end) * 0.25)) in Z.
  2:{ intros [[i j] k] X. apply in_box in X. destruct X as (_ & X & _). unfold pQuantity, pYs, pFactor, psiteAt, kO2. cbn [qAt qPsi qNb qCol fst snd b kR kMa kDelta]. change (8 / 8)%nat with 1%nat. rewrite Nat.mod_1_r. cbn [Nat.eqb fst snd].
      rewrite Nat.div_1_r. unfold pSq, m, v. cbn [fst snd stepTo].
      do 8 (destruct j as [|j]; [cbn -[IZR Rmult Rplus Rminus Rdiv Rinv pow]; try (replace 0.25 with (1 / 4) by lra; field)|]). lia. }
  rewrite (mean_ext _ (fun x => gradPsi _ _ _ _) (fun x : cell => (match snd (fst x) with 0%nat => 2 | 1%nat | 7%nat => 1 | _ => 0 end) * 0.25)) in Z.
  2:{ intros [[i j] k] X. apply in_box in X. destruct X as (_ & X & _). unfold gradPsi, psiteAt, abs2, minus. cbn [qAt qPsi qNb fst snd b kR kMa kDelta]. unfold m, v. cbn [fst snd stepTo].
      do 8 (destruct j as [|j]; [cbn -[IZR Rmult Rplus Rminus Rdiv Rinv pow]; try (replace 0.25 with (1 / 4) by lra; field)|]). lia. }
  unfold mean in Z. apply (Rmult_eq_compat_r (INR (length (box 8 1)))) in Z. assert (L : INR (length (box 8 1)) <> 0) by (rewrite box_length; apply not_0_INR; lia).
  unfold Rdiv in Z. rewrite !Rmult_assoc, !Rinv_l, !Rmult_1_r in Z by exact L. rewrite !sumOver_scale, !box_sum in Z. unfold sumOver in Z. cbn -[IZR Rmult Rplus] in Z. lra.
Qed.
(** Nothing is computed exactly when a mask is asked for and there is none *)
Theorem pax_energy_refused P I hs n nz Ng junk b e rs : pEnergy P I hs n nz Ng junk b e rs = PRefused <-> hasMask e = true /\ hs = false.
Proof. unfold pEnergy. destruct (hasMask e), hs, (hasMap e); cbn; split; try tauto; try discriminate; intros [A B]; discriminate. Qed.

(** ** The map *)
(** With one slice of ghosts every site of a rank finds its number at its place and its energy at the same place of the second half *)
Theorem pax_map_partial P I n nz junk b x : goodLanes P I -> kR b = 1 -> 0 < kMa b -> 0 < kDelta b ->
  pMap P I n nz 1 junk b x = [(placeOf n (qAt x), abs2 (qPsi x)); ((m2Half n nz 1 + placeOf n (qAt x))%nat, gradPsi b x Xp Xm + gradPsi b x Yp Ym + gradPsi b x Zp Zm + selfPsi b x)].
Proof.
  intros G R1 M0 D0. unfold pMap. destruct (qAt x) as [[i j] k] eqn:Q. unfold pQuantity. rewrite pYs_good by exact G. cbn [fst snd].
  assert (E : forall d d', gradPsi b x d d' = (pSq (qNb x d) (qPsi x) + pSq (qNb x d') (qPsi x)) * kO2 b).
  { intros d d'. rewrite grad_scaled by lra. rewrite R1. field. }
  rewrite !E. replace (match P with Double => (k + 1 - 1)%nat | Single => k end) with k by (destruct P; lia). f_equal; [|f_equal].
  - f_equal; [unfold placeOf; ring|unfold abs2; ring].
  - f_equal; [unfold placeOf, m2Half; ring|]. unfold selfPsi, kBeta, abs2. rewrite R1. field.
Qed.
(** With more the energies are not where the second half starts, and in double precision the numbers are shifted by Ng - 1 slices *)
Theorem pax_map_refuted P I n nz Ng junk b x : (0 < n)%nat -> (2 <= Ng)%nat ->
  exists p q h e, pMap P I n nz Ng junk b x = [(p, h); (q, e)] /\ q <> (m2Half n nz Ng + placeOf n (qAt x))%nat /\
    p = (placeOf n (qAt x) + match P with Double => (Ng - 1) * (n * n) | Single => 0 end)%nat.
Proof.
  intros N L. unfold pMap. destruct (qAt x) as [[i j] k]. eexists _, _, _, _. split; [reflexivity|]. unfold placeOf, m2Half.
  assert (S2 : (0 < n * n)%nat) by nia. split.
  - set (s := (n * n)%nat) in *. replace (n * (j + n * k))%nat with (j * n + k * s)%nat by (unfold s; ring). clearbody s.
    destruct P; [|]; destruct Ng as [|[|g]]; try lia; cbn [Nat.sub]; try replace (k + S (S g) - 1)%nat with (k + S g)%nat by lia; nia.
  - set (s := (n * n)%nat) in *. replace (n * (j + n * k))%nat with (j * n + k * s)%nat by (unfold s; ring). clearbody s.
    destruct P; [|]; destruct Ng as [|[|g]]; try lia; cbn [Nat.sub]; try replace (k + S (S g) - 1)%nat with (k + S g)%nat by lia; nia.
Qed.
(** Up to three slices of ghosts (two in double precision) every write is inside m2 *)
Theorem pax_map_room_partial P I n nz Ng junk b x p : In (qAt x) (box n nz) -> (1 <= Ng)%nat -> match P with Double => (Ng <= 2)%nat | Single => (Ng <= 3)%nat end ->
  In p (map fst (pMap P I n nz Ng junk b x)) -> (p < m2Room n nz Ng)%nat.
Proof.
  intros X L U H. unfold pMap in H. destruct (qAt x) as [[i j] k]. apply in_box in X. destruct X as (A & B & C). cbn [map fst In] in H. unfold m2Room.
  assert (IJ : (i + j * n < n * n)%nat) by nia. set (s := (n * n)%nat) in *. set (ij := (i + j * n)%nat) in *. clearbody s ij.
  assert (K : (s * (k + 1) <= s * nz)%nat) by nia.
  destruct P; (destruct Ng as [|[|[|[|g]]]]; try lia); destruct H as [<-|[<-|[]]]; nia.
Qed.
(** With more the last site of a rank is written past its end *)
Theorem pax_map_room_refuted P I n nz Ng junk b x : (0 < n)%nat -> (0 < nz)%nat -> qAt x = (n - 1, n - 1, nz - 1)%nat ->
  match P with Double => (3 <= Ng)%nat | Single => (4 <= Ng)%nat end -> exists p, In p (map fst (pMap P I n nz Ng junk b x)) /\ (m2Room n nz Ng <= p)%nat.
Proof.
  intros N Z Q L. unfold pMap. rewrite Q. eexists. split; [right; left; reflexivity|]. cbn [fst]. unfold m2Room.
  assert (E : (n - 1 + (n - 1) * n + 1 = n * n)%nat) by nia. set (ij := (n - 1 + (n - 1) * n)%nat) in *. set (s := (n * n)%nat) in *. clearbody ij s.
  destruct nz as [|z]; [lia|]. replace (S z - 1)%nat with z by lia. destruct P.
  - destruct Ng as [|[|[|[|g]]]]; lia || nia.
  - destruct Ng as [|[|[|g]]]; lia || nia.
Qed.

(** ** Conservation *)
(** A field that moves by its equation keeps the number that is reported: any expansion, self-interaction, gravitational potential and number of neighbours *)
Theorem number_conserved r phi m v t P I b T : (0 < rn r)%nat -> (0 < rnz r)%nat -> rOod2 r <> 0 -> indi3 (rC r) <> 0 -> 0 < t -> pObeys r phi m v t ->
  (forall u, reportedNumber P I b (rn r) (rnz r) (m u) (v u) (T u)) -> derivable_pt_lim T t 0.
Proof.
  intros N Z O I3 T0 H Q. pose proof (axionMass_pos (rC r) t T0 I3). pose proof (scale_pos (rC r) t T0).
  apply (derivable_pt_lim_ext (fun u => mean (fun x => m u x * m u x + v u x * v u x) (box (rn r) (rnz r)))).
  - intros u. symmetry. apply (reportedNumber_is _ _ _ _ _ _ _ _ (Q u)).
  - apply (number_rate r phi); try assumption; lra.
Qed.
(** Without expansion and gravity, with a coupling of 1 and one neighbour, it keeps the energy that is reported *)
Theorem pax_energy_conserved_partial r m v t P I b T : goodLanes P I -> (0 < rn r)%nat -> (0 < rnz r)%nat -> rNN r = 1%nat -> rBeta r = 1 -> frw (rC r) = 0 -> indi3 (rC r) <> 0 -> 0 < t ->
  kR b = scale (rC r) t -> kMa b = axionMass (rC r) t -> 0 < kDelta b -> rOod2 r = / kDelta b ^ 2 -> pObeys r (fun _ => 0) m v t ->
  (forall u, reportedEnergy P I b (rn r) (rnz r) (m u) (v u) (T u)) -> derivable_pt_lim T t 0.
Proof.
  intros G N Z NN B F I3 T0 R1 MA D0 O H Q. pose proof (axionMass_pos (rC r) t T0 I3) as M0. rewrite still_scale in R1 by assumption.
  apply (derivable_pt_lim_ext (fun u => mean (energyAt b (rn r) (rnz r) (m u) (v u)) (box (rn r) (rnz r)))).
  - intros u. symmetry. apply (reportedEnergy_is _ _ _ _ _ _ _ _ G (Q u)).
  - pose proof (energy_rate r b m v t N Z NN R1 MA ltac:(lra) D0 O ltac:(apply still_scale; assumption) H) as E. rewrite B in E.
    replace 0 with (mean (fun x => (m t x * m t x + v t x * v t x) * (m t x * lapAt r (v t) x - v t x * lapAt r (m t) x)) (box (rn r) (rnz r)) * ((1 - 1) * rOod2 r / (8 * kMa b))); [exact E|]. unfold Rdiv. ring.
Qed.
(** Two sites *)
Definition two (a b : R) : fld := fun x => match snd x with 0%nat => a | _ => b end.
Definition flatRun (beta : R) (phi : option (fld -> fld -> fld)) : prun := PRun (Cosmo 0 0 1 0 0 2 5 1 0) 1 1 2 1 beta 1 phi.
Definition flatBack (c : cosmo) : pback := PBack 1 (axionMass c 1) 1.
Lemma some_motion r phi (a b c d : R) t : exists m v : R -> fld, m t = two a b /\ v t = two c d /\ (rn r = 1%nat -> rnz r = 2%nat -> pObeys r phi m v t).
Proof.
  set (p := rateM r phi t (two a b) (two c d)). set (q := rateV r phi t (two a b) (two c d)).
  assert (LIN : forall k s, derivable_pt_lim (fun u => k + (u - t) * s) t s).
  { intros k s. pose proof (derivable_pt_lim_plus (fun _ => k) (fun u => s * u) t 0 (s * 1) (derivable_pt_lim_const k t) (derivable_pt_lim_scal (fun u => u) s t 1 (derivable_pt_lim_id t))) as D.
    pose proof (derivable_pt_lim_plus (fun u => k + s * u) (fun _ => - t * s) t _ 0 D (derivable_pt_lim_const _ t)) as D2. replace (0 + s * 1 + 0) with s in D2 by ring.
    eapply derivable_pt_lim_ext; [|exact D2]. intros u. unfold plus_fct. ring. }
  set (m := fun u => two (a + (u - t) * p (0, 0, 0)%nat) (b + (u - t) * p (0, 0, 1)%nat)). set (v := fun u => two (c + (u - t) * q (0, 0, 0)%nat) (d + (u - t) * q (0, 0, 1)%nat)).
  assert (E1 : m t = two a b) by (unfold m; f_equal; ring). assert (E2 : v t = two c d) by (unfold v; f_equal; ring).
  exists m, v. split; [exact E1|]. split; [exact E2|]. intros N Z x X. rewrite E1, E2. fold p q. rewrite N, Z in X. destruct x as [[i j] k]. apply in_box in X. destruct X as (I0 & J0 & K0).
  destruct i; [|lia]. destruct j; [|lia]. destruct k as [|[|k]]; [| |lia]; unfold m, v, two; cbn [snd]; split; apply LIN.
Qed.
(** With any other coupling it does not: the reported energy never has the coupling in it *)
Theorem pax_energy_conserved_refuted P I beta : goodLanes P I -> beta <> 1 -> exists r b m v t T d, rBeta r = beta /\ rNN r = 1%nat /\ frw (rC r) = 0 /\ indi3 (rC r) <> 0 /\ 0 < t /\
  kR b = scale (rC r) t /\ kMa b = axionMass (rC r) t /\ 0 < kDelta b /\ rOod2 r = / kDelta b ^ 2 /\ pObeys r (fun _ => 0) m v t /\
  (forall u, reportedEnergy P I b (rn r) (rnz r) (m u) (v u) (T u)) /\ derivable_pt_lim T t d /\ d <> 0.
Proof.
  intros G B. set (r := flatRun beta None). destruct (some_motion r (fun _ => 0) 1 0 0 2 1) as (m & v & E1 & E2 & H). specialize (H eq_refl eq_refl).
  assert (I3 : indi3 (rC r) <> 0) by (cbn; lra). pose proof (axionMass_pos (rC r) 1 ltac:(lra) I3) as M0.
  assert (S1 : scale (rC r) 1 = 1) by (apply still_scale; [reflexivity|lra]).
  exists r, (flatBack (rC r)), m, v, 1, (fun u => mean (energyAt (flatBack (rC r)) 1 2 (m u) (v u)) (box 1 2)).
  eexists. split; [reflexivity|]. split; [reflexivity|]. split; [reflexivity|]. split; [exact I3|]. split; [lra|]. split; [cbn [flatBack kR]; symmetry; exact S1|]. split; [reflexivity|].
  split; [cbn; lra|]. split; [cbn; field|]. split; [exact H|]. split; [intros u; apply (reportedEnergy_exists P I _ 1 2 (m u) (v u) G)|].
  split; [apply (energy_rate r (flatBack (rC r)) m v 1); try reflexivity; try (cbn; lia); try exact M0; try exact S1; try exact H; cbn; try lra; field|].
  rewrite E1, E2. intros Q. apply Rmult_integral in Q. destruct Q as [Q|Q].
  - unfold mean in Q. change (rn r) with 1%nat in Q. change (rnz r) with 2%nat in Q. apply Rmult_integral in Q. destruct Q as [Q|Q]; [|revert Q; apply Rinv_neq_0_compat; rewrite box_length; cbn; lra].
    rewrite box_sum in Q. unfold sumOver in Q. cbn [fold_right seq] in Q. rewrite !(second_diff r) in Q by reflexivity. cbv zeta in Q. change (rn r) with 1%nat in Q. change (rnz r) with 2%nat in Q.
    unfold two in Q. cbn [snd stepTo] in Q. cbn -[IZR Rmult Rplus Rminus Ropp] in Q. lra.
  - cbn [flatBack kMa] in Q. unfold Rdiv in Q. apply Rmult_integral in Q. destruct Q as [Q|Q]; [|revert Q; apply Rinv_neq_0_compat; lra]. cbn in Q. lra.
Qed.

(** ** Cases *)
Lemma one_rank P I b n z m v e : hasMask e = false -> exists E, replies (pEnergy P I false n z 1 (fun _ => 0) b e [[map (psiteAt n z m v) (box n z)]]) E.
Proof. intros M. unfold pEnergy. rewrite M. cbn [andb]. destruct (hasMap e); eexists; [left; eexists; reflexivity|right; reflexivity]. Qed.
Example pax_energies_case : exists E, let b := PBack 2 3 1 in replies (pEnergy Single AVX2 false 1 2 1 (fun _ => 0) b 1 [[map (psiteAt 1 2 (two 1 0) (two 0 2)) (box 1 2)]]) E /\
  E 3%nat = Some (5 / 2) /\ E 2%nat = Some (5 / 192 / 4).
Proof.
  destruct (one_rank Single AVX2 (PBack 2 3 1) 1 2 (two 1 0) (two 0 2) 1 eq_refl) as [E H]. exists E. cbv zeta. split; [exact H|].
  rewrite !(pEnergy_mean _ _ _ _ _ _ _ _ _ _ _ H) by lia. unfold psites. cbn -[IZR Rmult Rplus Rminus Rdiv Rinv pow kO2]. unfold mean, sumOver, kO2, pSq, two. cbn -[IZR Rmult Rplus Rminus Rdiv Rinv pow]. split; f_equal; replace 0.25 with (1 / 4) by lra; field.
Qed.
Example pax_gradients_case : let b := PBack 2 3 1 in mean (fun x => gradPsi b x Xp Xm) (map (psiteAt 2 1 (fun x => INR (fst (fst x))) (fun _ => 0)) (box 2 1)) <> 0.
Proof.
  cbv zeta. rewrite mean_map. unfold mean. rewrite box_sum. unfold sumOver, gradPsi, psiteAt, abs2, minus. cbn -[IZR Rmult Rplus Rminus Rdiv Rinv pow]. intros H.
  match type of H with ?a = 0 => assert (E : a = 1 / 192) by field end. rewrite E in H. lra.
Qed.
Example uniform_double_case : exists E, replies (pEnergy Double AVX512 false 8 1 1 (fun _ => 0) (PBack 2 3 1) 1 [[map (psiteAt 8 1 (fun _ => 5) (fun _ => 6)) (box 8 1)]]) E /\ exists g, E 1%nat = Some g /\ 0 < g.
Proof.
  destruct (one_rank Double AVX512 (PBack 2 3 1) 8 1 (fun _ => 5) (fun _ => 6) 1 eq_refl) as [E H]. exists E. split; [exact H|].
  apply (uniform_double_refuted false 1 1 (fun _ => 0) (PBack 2 3 1) 1 1 5 6 [[map (psiteAt 8 1 (fun _ => 5) (fun _ => 6)) (box 8 1)]] E); try (cbn; lra); try lia; try exact H.
  unfold psites. rewrite (concat_one_one (map (psiteAt 8 1 (fun _ => 5) (fun _ => 6)) (box 8 1))). apply Permutation_refl.
Qed.
Example number_conserved_case : exists m v T, let r := flatRun 3 None in pObeys r (fun _ => 0) m v 1 /\ (forall u, reportedNumber Single AVX512 (flatBack (rC r)) 1 2 (m u) (v u) (T u)) /\ derivable_pt_lim T 1 0 /\ T 1 = 5 / 2.
Proof.
  destruct (some_motion (flatRun 3 None) (fun _ => 0) 1 0 0 2 1) as (m & v & E1 & E2 & H). specialize (H eq_refl eq_refl).
  exists m, v, (fun u => mean (fun x => m u x * m u x + v u x * v u x) (box 1 2)). cbv zeta.
  assert (Q : forall u, reportedNumber Single AVX512 (flatBack (rC (flatRun 3 None))) 1 2 (m u) (v u) (mean (fun x => m u x * m u x + v u x * v u x) (box 1 2))).
  { intros u. destruct (one_rank Single AVX512 (flatBack (rC (flatRun 3 None))) 1 2 (m u) (v u) 1 eq_refl) as [E HE]. exists false, 2%nat, 1%nat, (fun _ => 0), [[map (psiteAt 1 2 (m u) (v u)) (box 1 2)]], E.
    assert (PS : psites [[map (psiteAt 1 2 (m u) (v u)) (box 1 2)]] = map (psiteAt 1 2 (m u) (v u)) (box 1 2)) by apply concat_one_one.
    split; [rewrite PS; apply Permutation_refl|]. split; [exact HE|]. rewrite (pEnergy_mean _ _ _ _ _ _ _ _ _ _ _ HE 3%nat) by lia. f_equal. rewrite PS, mean_map. apply mean_ext. intros [[i j] k] _. cbn. ring. }
  split; [exact H|]. split; [exact Q|]. split.
  - apply (number_conserved (flatRun 3 None) (fun _ => 0) m v 1 Single AVX512 (flatBack (rC (flatRun 3 None)))); try exact H; try exact Q; cbn; try lia; lra.
  - rewrite E1, E2. unfold mean. rewrite box_sum. unfold sumOver, two. cbn -[IZR Rmult Rplus Rdiv]. field.
Qed.
Example energy_conserved_case : exists m v T, let r := flatRun 1 None in pObeys r (fun _ => 0) m v 1 /\ (forall u, reportedEnergy Single AVX2 (flatBack (rC r)) 1 2 (m u) (v u) (T u)) /\ derivable_pt_lim T 1 0 /\ m 1 = two 1 0 /\ v 1 = two 0 2.
Proof.
  destruct (some_motion (flatRun 1 None) (fun _ => 0) 1 0 0 2 1) as (m & v & E1 & E2 & H). specialize (H eq_refl eq_refl).
  exists m, v, (fun u => mean (energyAt (flatBack (rC (flatRun 1 None))) 1 2 (m u) (v u)) (box 1 2)). cbv zeta.
  assert (G : goodLanes Single AVX2) by (left; reflexivity).
  assert (Q : forall u, reportedEnergy Single AVX2 (flatBack (rC (flatRun 1 None))) 1 2 (m u) (v u) (mean (energyAt (flatBack (rC (flatRun 1 None))) 1 2 (m u) (v u)) (box 1 2))) by (intros u; apply reportedEnergy_exists, G).
  split; [exact H|]. split; [exact Q|]. split; [|split; assumption].
  apply (pax_energy_conserved_partial (flatRun 1 None) m v 1 Single AVX2 (flatBack (rC (flatRun 1 None)))); try exact G; try exact H; try exact Q; try reflexivity; try (cbn; lia); try (cbn; lra).
  cbn [kR flatBack]. symmetry. apply still_scale; [reflexivity|lra].
Qed.
Example pax_map_case : exists p q h e, pMap Double AVX2 4 2 2 (fun _ => 0) (PBack 1 1 1) (psiteAt 4 2 (fun _ => 1) (fun _ => 2) (1, 2, 1)%nat) = [(p, h); (q, e)] /\ p = 41%nat /\ placeOf 4 (1, 2, 1)%nat = 25%nat.
Proof. eexists _, _, _, _. split; [reflexivity|]. split; reflexivity. Qed.

Print Assumptions pax_number_and_self.
Print Assumptions pax_gradients_partial.
Print Assumptions pax_gradients_refuted.
Print Assumptions uniform_double_refuted.
Print Assumptions unset_register_refuted.
Print Assumptions wrong_lanes_refuted.
Print Assumptions pax_energy_refused.
Print Assumptions pax_map_partial.
Print Assumptions pax_map_refuted.
Print Assumptions pax_map_room_partial.
Print Assumptions pax_map_room_refuted.
Print Assumptions number_conserved.
Print Assumptions pax_energy_conserved_partial.
Print Assumptions pax_energy_conserved_refuted.
