(** Theorems about the void mapping of the Gadget writer. *)
From Coq Require Import Lqa Lra Reals List Arith ZArith Bool Lia.
From Verif Require Import GadModel GadSpec GadProofs.
Import ListNotations.
Open Scope R_scope.
Ltac Zify.zify_post_hook ::= idtac.

(** ** Shape of a run *)
Lemma fair_depth v : fairVoid v -> vN v = (vRanks v * vLz v)%nat /\ (0 < vLz v)%nat.
Proof.
  intros (K & N & _ & D & _). unfold vLz. pose proof (Nat.div_mod (vN v) (vRanks v) ltac:(lia)) as E. rewrite D, Nat.add_0_r in E. split; [exact E|].
  destruct (vN v / vRanks v)%nat eqn:Q; [|lia]. rewrite Nat.mul_0_r in E. lia.
Qed.
Lemma fair_off v : fairVoid v -> Nat.Even (vOff v) /\ (0 < vOff v)%nat /\ (vRanks v * vOff v = vN v * vN v * vN v)%nat.
Proof.
  intros F. destruct (fair_depth v F) as [E L]. destruct F as (K & N & [h H] & _). unfold vOff. split; [|split].
  - exists (h * vN v * vLz v)%nat. rewrite H at 1. ring.
  - apply Nat.mul_pos_pos; [apply Nat.mul_pos_pos|]; assumption.
  - rewrite E at 5. ring.
Qed.
Lemma cells_small n : smallCube n -> IZR (cells32 n) = INR (n * n * n).
Proof. intros S. unfold cells32. rewrite Z.mod_small by (split; [lia|exact S]). rewrite INR_IZR_INZ. f_equal. lia. Qed.
(** All densities once, rank by rank *)
Lemma all_sites v : fairVoid v -> flat_map (fun r => map (fun i => lift (vN v) (vLz v) r (coordOf (vN v) i)) (seq 0 (vOff v))) (seq 0 (vRanks v)) = cubeSites (vN v).
Proof.
  intros F. destruct (fair_off v F) as (_ & _ & Q). rewrite cubeSites_seq, <- Q, seq_blocks, map_flat. apply flat_map_same. intros r _. rewrite map_map. apply map_ext. intros i.
  apply lift_at. apply F.
Qed.
Lemma all_den v : fairVoid v -> sumL (fun r => sumL (vLoc v r) (seq 0 (vOff v))) (seq 0 (vRanks v)) = sumL (vDen v) (cubeSites (vN v)).
Proof.
  intros F. rewrite <- (all_sites v F). rewrite sumL_flat. apply sumL_ext. intros r _. rewrite sumL_map. reflexivity.
Qed.
Lemma newMean_fair v : fairVoid v ->
  newMean (vN v) (vRanks v) (vOff v) (vParts v) (vLoc v) = sumL (vDen v) (cubeSites (vN v)) / INR (vN v * vN v * vN v) * IZR (cells32 (vN v)) / INR (vParts v).
Proof.
  intros F. destruct (fair_off v F) as (E & O & Q). unfold newMean. rewrite globalMean_all by (try assumption; apply F). rewrite all_den by exact F. rewrite <- Q, mult_INR. reflexivity.
Qed.
(** The mass of a site, whatever the 32-bit product says *)
Lemma site_mass v r i : fairVoid v -> IZR (cells32 (vN v)) <> 0 -> (0 < vParts v)%nat ->
  vSiteMass v r i = vMass v * vLoc v r i / sumL (vDen v) (cubeSites (vN v)) * (INR (vN v * vN v * vN v) / IZR (cells32 (vN v))).
Proof.
  intros F C P. unfold vSiteMass. rewrite newMean_fair by exact F. pose proof (fair_off v F) as (_ & O & Q). destruct F as (K & N & _ & _ & _ & S).
  assert (INR (vParts v) <> 0) by (apply not_0_INR; lia). assert (INR (vN v * vN v * vN v) <> 0).
  { apply not_0_INR. rewrite <- Q. intros Z. apply Nat.eq_mul_0 in Z. lia. }
  field. repeat split; assumption.
Qed.
Definition entryOf (v : vrun) (s : nat * nat * nat) : gpart :=
  let '(x, y, z) := s in
  {| gX := INR x * vBox v / INR (vN v); gY := INR y * vBox v / INR (vN v); gZ := INR z * vBox v / INR (vN v);
     gM := vMass v * vDen v s / sumL (vDen v) (cubeSites (vN v)) * (INR (vN v * vN v * vN v) / IZR (cells32 (vN v))) |}.
Lemma part_entry v r i : fairVoid v -> IZR (cells32 (vN v)) <> 0 -> (0 < vParts v)%nat -> (r < vRanks v)%nat -> (i < vOff v)%nat ->
  vPart v r (i, coordOf (vN v) i) = entryOf v (lift (vN v) (vLz v) r (coordOf (vN v) i)).
Proof.
  intros F C P R I. unfold vPart, entryOf. rewrite site_mass by assumption. unfold vLoc.
  pose proof F as (K & N & _ & _ & L & _). destruct (fair_depth v F) as [E L0].
  destruct (coord_split (vN v) i N) as (x & y & z & X & Y & EI). rewrite EI in *. rewrite coordOf_at by assumption. cbn [lift].
  assert (Z : (z < vLz v)%nat).
  { destruct (Nat.lt_ge_cases z (vLz v)) as [H|H]; [exact H|exfalso]. unfold vOff in I.
    assert (G : (vN v * vN v * vLz v <= vN v * vN v * z)%nat) by (apply Nat.mul_le_mono_l; exact H). 
    replace (vN v * (y + vN v * z))%nat with (vN v * y + vN v * vN v * z)%nat in I by ring. lia. }
  assert (Z' : (z + r * vLz v < vN v)%nat).
  { rewrite E. assert (G : (S r * vLz v <= vRanks v * vLz v)%nat) by (apply Nat.mul_le_mono_r; lia). cbn [Nat.mul] in G. lia. }
  rewrite !place1_site by assumption. reflexivity.
Qed.
(** k particles per site *)
Lemma void_file_k v k : fairVoid v -> (0 < k)%nat -> (Z.of_nat (vParts v) / cells32 (vN v) = Z.of_nat k)%Z -> (0 < cells32 (vN v))%Z -> vParts v = (k * (vN v * vN v * vN v))%nat ->
  (vN v * vN v mod k = 0)%nat ->
  voidFile v = Some (map Some (flat_map (fun s => repeat (entryOf v s) k) (cubeSites (vN v)))).
Proof.
  intros F K PP C0 EP KD. pose proof F as (R0 & N & _ & _ & _ & _). destruct (fair_depth v F) as [E L0]. destruct (fair_off v F) as (_ & O & Q).
  assert (NN : (0 < vN v * vN v)%nat) by (apply Nat.mul_pos_pos; exact N).
  assert (CN : IZR (cells32 (vN v)) <> 0) by (apply not_0_IZR; lia).
  assert (P0 : (0 < vParts v)%nat) by (rewrite EP; repeat apply Nat.mul_pos_pos; assumption).
  unfold voidFile, ppGrid. replace (cells32 (vN v) =? 0)%Z with false by (symmetry; apply Z.eqb_neq; lia). rewrite PP, Nat2Z.id.
  assert (EK : nSlabs (vParts v) (vSlab v) (vRanks v) = (k * vLz v)%nat).
  { unfold nSlabs, vSlab. rewrite EP. replace (k * (vN v * vN v * vN v))%nat with (k * vN v * (vN v * vN v))%nat by ring. rewrite Nat.div_mul by lia. rewrite E.
    replace (k * (vRanks v * vLz v))%nat with (k * vLz v * vRanks v)%nat by ring. apply Nat.div_mul. lia. }
  rewrite EK. pose proof (Nat.div_mod (vN v * vN v) k ltac:(lia)) as DM. rewrite KD, Nat.add_0_r in DM. set (m := (vN v * vN v / k)%nat) in *.
  assert (ES : vSlab v = (m * k)%nat) by (unfold vSlab; rewrite DM; ring).
  replace (vParts v - vRanks v * (k * vLz v) * vSlab v)%nat with 0%nat.
  2:{ rewrite EP. unfold vSlab. rewrite E at 3. replace (k * (vN v * vN v * (vRanks v * vLz v)))%nat with (vRanks v * (k * vLz v) * (vN v * vN v))%nat by ring. lia. }
  cbn [repeat]. rewrite app_nil_r. f_equal. rewrite <- (all_sites v F), flat_map_flat, map_flat. apply flat_map_same. intros r IR. apply in_seq in IR.
  assert (EV : (k * vLz v * m = vOff v)%nat) by (unfold vOff; rewrite DM; ring).
  rewrite ES, voidSlabs_all by (try assumption; unfold vSlab; rewrite ?EV; unfold vOff in *; rewrite <- ?DM; lia).
  rewrite EV, map_map. cbn [option_map]. rewrite <- (map_map (vPart v r) Some). f_equal. unfold whole. rewrite map_flat, flat_map_map. apply flat_map_same. intros i II. apply in_seq in II.
  rewrite map_rep. f_equal. apply part_entry; try assumption; lia.
Qed.

(** ** One particle per site *)
(** As many particles as sites: one at every site, with the site's part of the mass *)
Theorem void_one_per_site_partial v : fairVoid v -> smallCube (vN v) -> vParts v = (vN v * vN v * vN v)%nat ->
  voidFile v = Some (map Some (map (siteParticle (vN v) (vBox v) (vMass v) (vDen v)) (cubeSites (vN v)))).
Proof.
  intros F S EP. pose proof F as (R0 & N & _). assert (CC : cells32 (vN v) = Z.of_nat (vN v * vN v * vN v)).
  { unfold cells32. rewrite Z.mod_small by (split; [lia|exact S]). lia. }
  assert (NN : (0 < vN v * vN v * vN v)%nat) by (repeat apply Nat.mul_pos_pos; assumption).
  rewrite (void_file_k v 1); try assumption; try lia.
  - f_equal. f_equal. cbn [repeat]. rewrite flat_map_one. apply map_ext. intros [[x y] z]. unfold entryOf, siteParticle. f_equal.
    rewrite cells_small by exact S. unfold Rdiv at 2. rewrite Rinv_r by (apply not_0_INR; lia). rewrite Rmult_1_r. reflexivity.
  - rewrite EP, CC. apply Z.div_same. lia.
  - apply Nat.mod_1_r.
Qed.
(** ... so the mass of the file is the mass of the box *)
Theorem void_mass_partial v : fairVoid v -> smallCube (vN v) -> vParts v = (vN v * vN v * vN v)%nat ->
  exists f, voidFile v = Some f /\ fileMass f = vMass v /\ length f = vParts v /\ Forall (fun p => p <> None) f.
Proof.
  intros F S EP. eexists. split; [apply void_one_per_site_partial; assumption|]. split; [|split].
  - unfold fileMass. rewrite !sumL_map. rewrite (sumL_ext _ (fun c => vMass v / sumL (vDen v) (cubeSites (vN v)) * vDen v c)).
    + rewrite sumL_scale. field. apply F.
    + intros [[x y] z] _. cbn [siteParticle gM]. unfold Rdiv. ring.
  - rewrite !map_length, cubeSites_seq, map_length, seq_length. symmetry. exact EP.
  - apply Forall_forall. intros p I. apply in_map_iff in I. destruct I as (q & <- & _). discriminate.
Qed.
(** k particles per site: the file weighs k times the box *)
Theorem void_mass_refuted v k : fairVoid v -> smallCube (vN v) -> (0 < k)%nat -> (vN v * vN v mod k = 0)%nat -> vParts v = (k * (vN v * vN v * vN v))%nat ->
  exists f, voidFile v = Some f /\ fileMass f = INR k * vMass v /\ (k <> 1%nat -> vMass v <> 0 -> fileMass f <> vMass v).
Proof.
  intros F S K KD EP. pose proof F as (R0 & N & _). assert (CC : cells32 (vN v) = Z.of_nat (vN v * vN v * vN v)).
  { unfold cells32. rewrite Z.mod_small by (split; [lia|exact S]). lia. }
  assert (NN : (0 < vN v * vN v * vN v)%nat) by (repeat apply Nat.mul_pos_pos; assumption).
  assert (M : fileMass (map Some (flat_map (fun s => repeat (entryOf v s) k) (cubeSites (vN v)))) = INR k * vMass v).
  { unfold fileMass. rewrite sumL_map, sumL_flat. rewrite (sumL_ext _ (fun c => INR k * vMass v / sumL (vDen v) (cubeSites (vN v)) * vDen v c)).
    - rewrite sumL_scale. field. apply F.
    - intros [[x y] z] _. rewrite sumL_repeat. cbn [entryOf gM]. rewrite cells_small by exact S. unfold Rdiv at 2. rewrite Rinv_r by (apply not_0_INR; lia). rewrite Rmult_1_r. unfold Rdiv. ring. }
  eexists. split; [apply (void_file_k v k); try assumption; try lia|].
  - rewrite EP, CC, Nat2Z.inj_mul. apply Z.div_mul. lia.
  - split; [exact M|]. intros K1 M0. rewrite M. intros Z. apply K1. apply INR_eq. cbn [INR]. apply (Rmult_eq_reg_r (vMass v)); [lra|exact M0].
Qed.
(** Fewer particles than sites: nothing is written at all, and the header still promises them *)
Theorem void_fewer_refuted v : fairVoid v -> smallCube (vN v) -> (vParts v < vN v * vN v * vN v)%nat ->
  voidFile v = Some (repeat None (vParts v)).
Proof.
  intros F S LP. pose proof F as (R0 & N & _). assert (CC : cells32 (vN v) = Z.of_nat (vN v * vN v * vN v)).
  { unfold cells32. rewrite Z.mod_small by (split; [lia|exact S]). lia. }
  unfold voidFile, ppGrid. replace (cells32 (vN v) =? 0)%Z with false by (symmetry; apply Z.eqb_neq; lia). rewrite Z.div_small by lia. cbn [Z.to_nat]. f_equal.
  rewrite voidSlabs_none. set (k := nSlabs _ _ _).
  assert (B : (vRanks v * k * vSlab v <= vParts v)%nat).
  { unfold k, nSlabs. etransitivity; [|apply (Nat.mul_div_le (vParts v) (vSlab v))].
    - rewrite (Nat.mul_comm (vSlab v)). apply Nat.mul_le_mono_r. apply Nat.mul_div_le. lia.
    - unfold vSlab. intros Z. apply Nat.eq_mul_0 in Z. lia. }
  replace (vParts v) with (vRanks v * (k * vSlab v) + (vParts v - vRanks v * k * vSlab v))%nat at 2 by (rewrite Nat.mul_assoc; lia). rewrite repeat_app. f_equal.
  rewrite (flat_map_same _ (fun _ => repeat None (k * vSlab v))) by (intros r _; apply (map_rep (option_map (vPart v r)) None)). clear. generalize (vRanks v) as r, (k * vSlab v)%nat as q. intros r q. generalize 0%nat as a. induction r as [|r IH]; intros a; [reflexivity|].
  cbn [seq flat_map Nat.mul]. rewrite IH, <- repeat_app. reflexivity.
Qed.
(** Sides that are multiples of 2048: the product of three sides is 0 in 32 bits and the
    writer divides by it *)
Theorem void_large_refuted v : (vN v mod 2048 = 0)%nat -> voidFile v = None.
Proof.
  intros M. unfold voidFile, ppGrid. replace (cells32 (vN v) =? 0)%Z with true; [reflexivity|]. symmetry. apply Z.eqb_eq. unfold cells32. apply Z.mod_divide; [lia|].
  pose proof (Nat.div_mod (vN v) 2048 ltac:(lia)) as E. rewrite M, Nat.add_0_r in E. set (q := (vN v / 2048)%nat) in E. rewrite E.
  exists (2 * Z.of_nat q * Z.of_nat q * Z.of_nat q)%Z. rewrite !Nat2Z.inj_mul. change (Z.of_nat 2048) with 2048%Z. ring.
Qed.
(** Any other side whose cube does not fit: the masses are wrong by the ratio *)
Theorem void_wrapped_refuted v r i : fairVoid v -> (0 < cells32 (vN v))%Z -> ~ smallCube (vN v) -> (0 < vParts v)%nat -> vMass v * vLoc v r i <> 0 ->
  vSiteMass v r i <> vMass v * vLoc v r i / sumL (vDen v) (cubeSites (vN v)).
Proof.
  intros F C NS P M. rewrite site_mass by (try assumption; apply not_0_IZR; lia). intros E.
  assert (S0 : sumL (vDen v) (cubeSites (vN v)) <> 0) by apply F. set (q := vMass v * vLoc v r i / _) in E.
  assert (Q : q <> 0) by (unfold q; apply Rmult_integral_contrapositive_currified; [exact M|apply Rinv_neq_0_compat, S0]).
  assert (CN : IZR (cells32 (vN v)) <> 0) by (apply not_0_IZR; lia).
  assert (R1 : INR (vN v * vN v * vN v) / IZR (cells32 (vN v)) = 1) by (apply (Rmult_eq_reg_l q); [lra|exact Q]).
  apply (Rmult_eq_compat_r (IZR (cells32 (vN v)))) in R1. unfold Rdiv in R1. rewrite Rmult_assoc, Rinv_l, Rmult_1_r, Rmult_1_l in R1 by exact CN.
  rewrite INR_IZR_INZ in R1. apply eq_IZR in R1. apply NS. unfold smallCube. replace (Z.of_nat (vN v) * Z.of_nat (vN v) * Z.of_nat (vN v))%Z with (cells32 (vN v)) by lia.
  unfold cells32. apply Z.mod_pos_bound. lia.
Qed.
(** The identifiers are 0, 1, 2, ... for all the entries that are written *)
Theorem ids_in_order np slab ranks : (0 < slab)%nat -> (0 < ranks)%nat ->
  idFile np slab ranks = map Some (seq 0 (ranks * (np / slab / ranks) * slab)) ++ repeat None (np - ranks * (np / slab / ranks) * slab) /\ length (idFile np slab ranks) = np.
Proof.
  intros S R. assert (E : idFile np slab ranks = map Some (seq 0 (ranks * (np / slab / ranks) * slab)) ++ repeat None (np - ranks * (np / slab / ranks) * slab)).
  { unfold idFile, nSlabs. set (k := (np / slab / ranks)%nat). f_equal. f_equal. rewrite <- Nat.mul_assoc, seq_blocks. apply flat_map_same. intros r _.
    rewrite seq_blocks, map_flat. apply flat_map_same. intros z _. rewrite map_map. apply map_ext. intros i. ring. }
  split; [exact E|]. rewrite E, app_length, map_length, seq_length, repeat_length.
  assert (B : (ranks * (np / slab / ranks) * slab <= np)%nat).
  { etransitivity; [|apply (Nat.mul_div_le np slab); lia]. rewrite (Nat.mul_comm slab). apply Nat.mul_le_mono_r. apply Nat.mul_div_le. lia. }
  lia.
Qed.
(** ... and some are not when the number is not a multiple of a slab per rank *)
Theorem ids_missing_refuted np slab ranks : (0 < slab)%nat -> (0 < ranks)%nat -> (np mod (slab * ranks) <> 0)%nat -> In None (idFile np slab ranks).
Proof.
  intros S R M. destruct (ids_in_order np slab ranks S R) as [E _]. rewrite E. apply in_or_app. right.
  assert (D : (ranks * (np / slab / ranks) * slab < np)%nat).
  { rewrite Nat.div_div by lia. pose proof (Nat.div_mod np (slab * ranks)) as Q. assert (NZ : (slab * ranks <> 0)%nat) by (intros Z; apply Nat.eq_mul_0 in Z; lia). specialize (Q NZ).
    set (q := (np / (slab * ranks))%nat) in *. replace (ranks * q * slab)%nat with (slab * ranks * q)%nat by ring. lia. }
  destruct (np - ranks * (np / slab / ranks) * slab)%nat eqn:Q; [lia|]. left. reflexivity.
Qed.
(** A run that satisfies the hypotheses: 4^3 sites on 2 ranks, one at twice the density *)
Example void_run : exists v, fairVoid v /\ smallCube (vN v) /\ vParts v = (vN v * vN v * vN v)%nat /\ vRanks v = 2%nat /\ vDen v (1, 2, 3)%nat = 2.
Proof.
  exists {| vN := 4; vRanks := 2; vParts := 64; vBox := 1; vMass := 5; vDen := fun c => let '(x, y, z) := c in if (x =? 1)%nat && ((y =? 2)%nat && (z =? 3)%nat) then 2 else 1 |}.
  split; [|split; [unfold smallCube; cbn; lia|repeat split]]. unfold fairVoid. cbn [vN vRanks vBox vDen]. repeat split; try lia; try lra.
  - exists 2%nat. reflexivity.
  - unfold sumL, cubeSites. cbn -[Rplus IZR]. lra.
Qed.

Print Assumptions void_one_per_site_partial.
Print Assumptions void_mass_refuted.
