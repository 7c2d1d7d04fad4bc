(** Lemmas on the propagator with a spectral Laplacian. *)
From Coq Require Import Lqa Lra Reals List Arith ZArith Bool Lia.
From Verif Require Import GravModel LaneModel ForceModel ForceSpec ForceProofs FourModel FourSpec FourProofs SlapModel SlapSpec.
Import ListNotations.
Local Open Scope R_scope.
Ltac Zify.zify_post_hook ::= idtac.

Lemma lapMom_place g hx r yl z x : even g -> (r < gK g)%nat -> (yl < gL g / gK g)%nat -> (z < gLz g * gK g)%nat -> (x < hx)%nat -> (x < gL g)%nat ->
  lapMom g hx r ((yl * (gLz g * gK g) + z) * hx + x) = Z.of_nat (momentum2 g r yl z x).
Proof.
  intros [L0 [Z0 [K0 D]]] Hr Hy Hz Hh Hx. unfold lapMom. cbv zeta.
  change (gLz g * gK g)%nat with (depth g) in *.
  assert (A : (((yl * depth g + z) * hx + x) / hx = yl * depth g + z)%nat) by (rewrite Nat.div_add_l by lia; rewrite (Nat.div_small x) by lia; lia).
  assert (B : (((yl * depth g + z) * hx + x) mod hx = x)%nat) by (rewrite Nat.add_comm, Nat.mod_add by lia; apply Nat.mod_small; lia).
  assert (C : ((yl * depth g + z) mod depth g = z)%nat) by (rewrite Nat.add_comm, Nat.mod_add by lia; apply Nat.mod_small; lia).
  assert (F : (((yl * depth g + z) * hx + x) / (hx * depth g) = yl)%nat).
  { rewrite <- Nat.div_div by lia. rewrite A, Nat.div_add_l by lia. rewrite (Nat.div_small z) by lia. lia. }
  rewrite A, B, C, F. unfold momSq, momentum2. change (gLz g * gK g)%nat with (depth g).
  pose proof (Nat.div_mod (gL g) (gK g) ltac:(lia)) as Q. rewrite D, Nat.add_0_r in Q. set (q := (gL g / gK g)%nat) in *.
  assert (Y : (yl + q * r < gL g)%nat).
  { rewrite Q. assert (q * (r + 1) <= q * gK g)%nat by (apply Nat.mul_le_mono_l; lia). lia. }
  rewrite (kFold_sq (gL g) x Hx), (kFold_sq (gL g) _ Y), (kFold_sq (depth g) z Hz).
  replace (r * q + yl)%nat with (yl + q * r)%nat by lia. rewrite !Nat2Z.inj_add. reflexivity.
Qed.

Lemma fMom_k l g k : even g -> l <> 0 -> fMom l g * (sites g * k) = - ((2 * PI / l) ^ 2 * k).
Proof.
  intros E H. unfold fMom. rewrite nTot_sites. pose proof (sites_pos g E). field. split; [exact H|lra].
Qed.
Lemma field_get g M r i : field g M r i = getC M (mStart Saxion g) r i.
Proof. unfold field, getC, mStart, surf, nums. cbn [fst snd]. f_equal; f_equal; lia. Qed.
Lemma speed_get M r i : speed M r i = getC M (FourModel.AV, 0%nat) r i. Proof. reflexivity. Qed.
Lemma here_vol g r i : here g r i -> (i < vol g)%nat. Proof. intros [_ H]. exact H. Qed.
Lemma place_here g r yl z x : even g -> modeAt g r yl z x -> here g r (modePlace g yl z x).
Proof.
  intros E [Hr [Hy [Hz Hx]]]. destruct (place_bound g yl z x E Hy Hz Hx) as [A B]. rewrite B in A. split; [exact Hr|exact A].
Qed.

(** ** The Laplacian of the complex field *)
Lemma sLap_modes T l g M : complexPair T g -> even g -> l <> 0 ->
  isLaplacian T l g (field g M) (fun r i => FourSpec.times (fMom l g) (getC (sLaplacian T g M) m2Cpu r i)).
Proof.
  intros CP E Hl r yl z x AT. pose proof (place_here g r yl z x E AT) as HI.
  set (i := modePlace g yl z x) in *.
  set (F := fC T (getC M (mStart Saxion g))).
  set (A := fun r i => let k := IZR (lapMom g (gL g) r i) in (k * fst (F r i), k * snd (F r i))).
  assert (G : agree g (fun r i => FourSpec.times (fMom l g) (getC (sLaplacian T g M) m2Cpu r i)) (fun r i => bC T (fun r i => FourSpec.times (fMom l g) (A r i)) r i)).
  { intros r' i' H'. unfold sLaplacian. fold F. fold A. unfold m2Cpu. rewrite getC_put by (apply (here_vol g r' i' H')).
    symmetry. apply (bC_linear T g CP). exact H'. }
  rewrite (fC_local T g CP _ _ G r i HI). rewrite (back_forth T g CP _ r i HI).
  unfold A. destruct AT as [Hr [Hy [Hz Hx]]].
  assert (LM : lapMom g (gL g) r i = Z.of_nat (momentum2 g r yl z x)) by (apply lapMom_place; assumption).
  rewrite LM, <- INR_IZR_INZ.
  assert (FE : fC T (field g M) r i = F r i).
  { apply (fC_local T g CP); [|exact HI]. intros r' i' _. apply field_get. }
  rewrite FE. unfold kSquared. pose proof (fMom_k l g (INR (momentum2 g r yl z x)) E Hl) as K.
  unfold FourSpec.times. cbv zeta. cbn [fst snd]. rewrite <- K. f_equal; ring.
Qed.
Lemma isLaplacian_unique T l g F G H : complexPair T g -> even g -> isLaplacian T l g F G -> isLaplacian T l g F H -> agree g G H.
Proof.
  intros CP E A B r i HI.
  assert (X : agree g (fC T G) (fC T H)).
  { intros r' i' H'. destruct (place_of g r' i' E H') as [yl [z [x [AT ->]]]]. rewrite (A r' yl z x AT), (B r' yl z x AT). reflexivity. }
  pose proof (bC_local T g CP _ _ X r i HI) as Y. rewrite (forth_back T g CP G r i HI), (forth_back T g CP H r i HI) in Y.
  pose proof (sites_pos g E) as P. unfold FourSpec.times in Y. destruct (G r i) as [a b], (H r i) as [c d]. cbn [fst snd] in Y.
  injection Y as Y1 Y2. f_equal; apply (Rmult_eq_reg_l (sites g)); lra.
Qed.
Lemma sLap_frame T g M a r j : (a <> AM2 \/ 2 * vol g <= j)%nat -> sLaplacian T g M a r j = M a r j.
Proof.
  intros H. unfold sLaplacian. cbv zeta. unfold putC. apply putR_out. unfold m2Cpu. cbn [fst snd]. destruct H as [H|H]; [left; exact H|right; right; lia].
Qed.

(** ** Registers *)
Lemma pair_reg P I M a o r i : (0 < lanesOf P I)%nat -> pairOf (i mod lanesOf P I) (regAt P I M (a, o) r i) = getC M (a, o) r i.
Proof.
  intros W. unfold pairOf, regAt, getC. cbn [fst snd].
  pose proof (Nat.mod_le i (lanesOf P I) ltac:(lia)).
  f_equal; f_equal; lia.
Qed.
Lemma lanes_pos P I : (0 < lanesOf P I)%nat. Proof. destruct P, I; cbn; lia. Qed.

(** ** As the stencils *)
Definition kOf (P : prec) : kern := match P with Double => Fused | Single => Kick end.
Lemma sVel_plain k P I s q c junk mel lap vel : s <> ForceModel.PQ3 -> (q = QCD2 -> k = kOf P) -> (q = QCDL -> P = Double) ->
  sVelocity P I (ForceSpec.plain s q) c junk mel lap vel = velocity k P I (ForceSpec.plain s q) c mel lap vel.
Proof.
  intros S A B. unfold sVelocity, velocity, project, accel, kicked, sKick, ForceSpec.plain. cbn [pEvol pDamp pQcd pPq onlyRho].
  assert (BP : basePart k (Pot s q NoDamp EvolAll) c (norm2 P I mel) mel lap = sBase (Pot s q NoDamp EvolAll) c (norm2 P I mel) mel lap junk).
  { unfold basePart, sBase. cbn [pEvol pPq]. destruct k, s; try reflexivity; exfalso; apply S; reflexivity. }
  assert (QP : qcdPart k P I (Pot s q NoDamp EvolAll) c (norm2 P I mel) mel (sBase (Pot s q NoDamp EvolAll) c (norm2 P I mel) mel lap junk)
    = sQcd P I (Pot s q NoDamp EvolAll) c (norm2 P I mel) mel (sBase (Pot s q NoDamp EvolAll) c (norm2 P I mel) mel lap junk)).
  { unfold qcdPart, sQcd. cbn [pQcd]. destruct q; try reflexivity.
    - rewrite (A eq_refl). destruct P; reflexivity.
    - rewrite (B eq_refl). reflexivity. }
  rewrite BP, QP. destruct k; reflexivity.
Qed.
Lemma sDiv_plain k P s q : q <> QCDL \/ P = Double -> sDivides (ForceSpec.plain s q) = divides k P (ForceSpec.plain s q).
Proof. intros H. unfold sDivides, divides, ForceSpec.plain. cbn [pEvol pDamp pQcd]. destruct q, k, P; try reflexivity; destruct H as [H|H]; congruence. Qed.
