(** Theorems about option and status words (C42). *)
From Coq Require Import NArith List Bool Lia.
From Verif Require Import FlagModel FlagProofs.
Import ListNotations.
Local Open Scope N_scope.

(** *** Site flags: every set of flags is read back from its word. *)
Theorem string_word_decodes : forall l f,
  on (band (strWord l) (strCode f)) = true <-> In f l.
Proof.
  intros l f. unfold strWord. rewrite on_mask_map, existsb_exists. split.
  - intros (x&Hx&E). replace f with x; [exact Hx|]. destruct x, f; try reflexivity; discriminate.
  - intros H. exists f. split; [exact H|]. destruct f; reflexivity.
Qed.

Theorem string_word_injective : forall l1 l2,
  strWord l1 = strWord l2 <-> (forall f, In f l1 <-> In f l2).
Proof.
  intros l1 l2. split.
  - intros E f. rewrite <- !string_word_decodes, E. tauto.
  - intros H. apply N.bits_inj. intros i. unfold strWord. rewrite !orAll_bit.
    apply eq_true_iff_eq. rewrite !existsb_exists. split; intros (c&Hc&B);
      apply in_map_iff in Hc; destruct Hc as (x&<-&Hx); exists (strCode x);
      (split; [apply in_map, H, Hx|exact B]).
Qed.

(** The masks: a string through a plane of either sign, any string, any string
    or wall; the exclusion mark is none of them. *)
Theorem string_masks : forall l,
  (on (band (strWord l) STRING_XY) = true <-> In XYp l \/ In XYm l) /\
  (on (band (strWord l) STRING_YZ) = true <-> In YZp l \/ In YZm l) /\
  (on (band (strWord l) STRING_ZX) = true <-> In ZXp l \/ In ZXm l) /\
  (on (band (strWord l) STRING_ONLY) = true <-> exists f, In f l /\ f <> Wall /\ f <> Mask) /\
  (on (band (strWord l) STRING_DEFECT) = true <-> exists f, In f l /\ f <> Mask).
Proof.
  intros l. unfold strWord. rewrite !on_mask_map, !existsb_exists.
  repeat split.
  - intros (x&Hx&E). destruct x; try discriminate; auto.
  - intros [H|H]; eexists; (split; [exact H|reflexivity]).
  - intros (x&Hx&E). destruct x; try discriminate; auto.
  - intros [H|H]; eexists; (split; [exact H|reflexivity]).
  - intros (x&Hx&E). destruct x; try discriminate; auto.
  - intros [H|H]; eexists; (split; [exact H|reflexivity]).
  - intros (x&Hx&E). exists x. split; auto. split; intros ->; discriminate.
  - intros (x&Hx&H1&H2). exists x. split; auto. destruct x; try reflexivity; congruence.
  - intros (x&Hx&E). exists x. split; auto. intros ->; discriminate.
  - intros (x&Hx&H1). exists x. split; auto. destruct x; try reflexivity; congruence.
Qed.

Example string_word_ex : strWord [ZXm; Wall; XYp] = 97 /\ In Wall [ZXm; Wall; XYp] /\ ~ In Mask [ZXm; Wall; XYp].
Proof. repeat split; simpl; auto. intros [H|[H|[H|[]]]]; discriminate. Qed.

(** *** Potential words: the masks give back each part, whatever the rest. *)
Theorem potential_word_decodes : forall c,
  band (potWord c) V_QCD = match qcd c with Some q => qcdCode q | None => 0 end /\
  band (potWord c) V_PQ = match pq c with Some p => pqCode p | None => 0 end /\
  on (band (potWord c) V_EVOL_THETA) = evTheta c /\
  on (band (potWord c) V_EVOL_RHO) = evRho c /\
  on (band (potWord c) V_DAMP_RHO) = dRho c /\
  on (band (potWord c) V_DAMP_ALL) = dAll c /\
  on (band (potWord c) V_EVOL) = (evTheta c || evRho c)%bool /\
  on (band (potWord c) V_DAMP) = (dRho c || dAll c)%bool /\
  band (potWord c) V_TYPE =
    bor (match qcd c with Some q => qcdCode q | None => 0 end)
        (match pq c with Some p => pqCode p | None => 0 end).
Proof.
  intros [q p [] [] [] []]; destruct q as [[]|], p as [[]|]; vm_compute; repeat split.
Qed.

Theorem potential_word_injective : forall c1 c2, potWord c1 = potWord c2 -> c1 = c2.
Proof.
  intros c1 c2 E.
  destruct (potential_word_decodes c1) as (A1&A2&A3&A4&A5&A6&_).
  destruct (potential_word_decodes c2) as (B1&B2&B3&B4&B5&B6&_).
  rewrite E in *. rewrite B1 in A1. rewrite B2 in A2. rewrite B3 in A3. rewrite B4 in A4.
  rewrite B5 in A5. rewrite B6 in A6. clear B1 B2 B3 B4 B5 B6 E.
  destruct c1 as [q1 p1 a1 b1 d1 e1], c2 as [q2 p2 a2 b2 d2 e2]; cbn [qcd pq evTheta evRho dRho dAll] in *.
  assert (q1 = q2) by (destruct q1 as [[]|], q2 as [[]|]; try reflexivity; discriminate).
  assert (p1 = p2) by (destruct p1 as [[]|], p2 as [[]|]; try reflexivity; discriminate).
  congruence.
Qed.

(** Adding any further bits outside a mask does not disturb what the mask
    selects. *)
Theorem mask_ignores_rest : forall w extra mask,
  band extra mask = 0 -> band (bor w extra) mask = band w mask.
Proof. intros w x m H. unfold band, bor in *. rewrite N.land_lor_distr_l, H, N.lor_0_r. reflexivity. Qed.

Example potential_word_ex :
  potWord (mkPot (Some QCDV) (Some PQ2) true false false true) = 32768 + 4096 + 2048 + 4 /\
  potWord (mkPot (Some QCDC) (Some PQ3) false true true false) = 24576 + 512 + 32 /\
  band 1 V_PQ = 0.
Proof. repeat split. Qed.

(** The saturated axion potential has a flag outside every mask: neither the
    mask of the axion potentials nor that of the whole type sees it. *)
Theorem saturated_potential_refuted : forall c,
  band (bor (potWord c) V_QCDS) V_QCD = band (potWord c) V_QCD /\
  band (bor (potWord c) V_QCDS) V_TYPE = band (potWord c) V_TYPE /\
  potWord c <> bor (potWord c) V_QCDS.
Proof.
  intros c. split; [now apply mask_ignores_rest|]. split; [now apply mask_ignores_rest|].
  intros E. apply (f_equal (fun w => N.testbit w 6)) in E. unfold bor in E.
  rewrite N.lor_spec in E. change (N.testbit V_QCDS 6) with true in E. rewrite orb_true_r in E.
  destruct c as [q p [] [] [] []]; destruct q as [[]|], p as [[]|]; discriminate.
Qed.

(** *** Propagator words *)
Theorem propagator_word_decodes : forall k l,
  band (propWord k l) PROP_MASK = kindCode k /\ band (propWord k l) PROP_LAPMASK = lapCode l.
Proof. intros [] []; split; reflexivity. Qed.

Theorem propagator_word_injective : forall k l k' l',
  propWord k l = propWord k' l' -> k = k' /\ l = l'.
Proof.
  intros k l k' l' E. destruct (propagator_word_decodes k l) as (A&B), (propagator_word_decodes k' l') as (A'&B').
  rewrite E in *. rewrite A in A'. rewrite B in B'.
  split; [destruct k, k'|destruct l, l']; try reflexivity; discriminate.
Qed.

(** The named values of the enumeration are these words. *)
Example propagator_names :
  map (fun k => map (propWord k) [BASE; SPEC; FSPEC; NNEIG]) [LEAP; OMELYAN2; OMELYAN4; RKN4; MLEAP]
  = [[17; 18; 20; 24]; [33; 34; 36; 40]; [65; 66; 68; 72]; [129; 130; 132; 136]; [257; 258; 260; 264]].
Proof. reflexivity. Qed.

(** *** Requested analyses *)
Lemma measBit_inj a b : measBit a = measBit b -> a = b.
Proof. destruct a, b; intros; try reflexivity; discriminate. Qed.

Theorem analyses_decode : forall l m, on (band (measWord l) (measCode m)) = true <-> In m l.
Proof.
  intros l m. unfold measWord. rewrite on_mask_map, existsb_exists. split.
  - intros (x&Hx&E). replace m with x; [exact Hx|]. apply measBit_inj.
    apply on_bit in E. destruct E as (i&E). unfold band, measCode in E.
    rewrite N.land_spec, !N.pow2_bits_eqb, andb_true_iff, !N.eqb_eq in E. destruct E; congruence.
  - intros H. exists m. split; auto. unfold band. rewrite N.land_diag. destruct m; reflexivity.
Qed.

(** Which requests make the energy be computed, and which make its map be
    kept. *)
Theorem analyses_energy : forall l,
  (on (band (measWord l) MEAS_NEEDENERGYM2) = true <->
     exists m, In m l /\ In m [BINDELTA; ENERGY3DMAP; REDENE3DMAP; PSP_A; PSP_S; MULTICON]) /\
  (on (band (measWord l) MEAS_NEEDENERGY) = true <->
     on (band (measWord l) MEAS_NEEDENERGYM2) = true \/ In ENERGY l).
Proof.
  intros l.
  assert (A : on (band (measWord l) MEAS_NEEDENERGYM2) = true <->
     exists m, In m l /\ In m [BINDELTA; ENERGY3DMAP; REDENE3DMAP; PSP_A; PSP_S; MULTICON]).
  { unfold measWord. rewrite on_mask_map, existsb_exists. split; intros (x&Hx&E); exists x; (split; [exact Hx|]).
    - destruct x; try discriminate; simpl; tauto.
    - simpl in E. decompose [or] E; subst; try reflexivity; contradiction. }
  split; [exact A|]. rewrite A. unfold measWord. rewrite on_mask_map, existsb_exists. split.
  - intros (x&Hx&E). destruct x; try discriminate; (try (left; eexists; split; [exact Hx|simpl; tauto])); now right.
  - intros [(x&Hx&E)|H]; [exists x|exists ENERGY]; (split; [assumption|]); [|reflexivity].
    simpl in E. decompose [or] E; subst; try reflexivity; contradiction.
Qed.

(** Which requests reach the block of spectra: the five kinds of spectra and,
    unlike the comment beside the mask says, the request of a string mask. *)
Theorem analyses_spectra : forall l,
  on (band (measWord l) MEAS_SPECTRUM) = true <->
  exists m, In m l /\ In m [PSP_A; PSP_S; NSP_A; NSP_S; NNSPEC; MASK].
Proof.
  intros l. unfold measWord. rewrite on_mask_map, existsb_exists.
  split; intros (x&Hx&E); exists x; (split; [exact Hx|]).
  - destruct x; try discriminate; simpl; tauto.
  - simpl in E. decompose [or] E; subst; try reflexivity; contradiction.
Qed.

Example analyses_ex : measWord [STRING; PSP_A; BINRHO] = 16418 /\
  on (band (measWord [STRING; PSP_A; BINRHO]) MEAS_NEEDENERGYM2) = true /\
  on (band (measWord [MASK]) MEAS_SPECTRUM) = true.
Proof. repeat split. Qed.

(** *** Field selectors: the selector of the second half of the auxiliary
    buffer is the union of two other selectors, so that a test for the field
    itself also accepts it. *)
Theorem field_selector_refuted :
  FIELD_M2H = bor FIELD_M FIELD_M2 /\ on (band FIELD_M2H FIELD_M) = true.
Proof. split; reflexivity. Qed.

(** The other unions are the ones their names say. *)
Theorem field_selectors : forall m v m2 : bool,
  let w := orAll [flag m FIELD_M; flag v FIELD_V; flag m2 FIELD_M2] in
  on (band w FIELD_M) = m /\ on (band w FIELD_V) = v /\ on (band w FIELD_M2) = m2 /\
  (w = FIELD_MV <-> m = true /\ v = true /\ m2 = false) /\
  (w = FIELD_M2V <-> m = false /\ v = true /\ m2 = true) /\
  (w = FIELD_ALL <-> m = true /\ v = true /\ m2 = true).
Proof. intros [] [] []; vm_compute; repeat split; intros; repeat split; try discriminate; repeat match goal with h : _ /\ _ |- _ => destruct h end; discriminate. Qed.

Print Assumptions string_word_decodes.
Print Assumptions string_word_injective.
Print Assumptions string_masks.
Print Assumptions potential_word_decodes.
Print Assumptions potential_word_injective.
Print Assumptions mask_ignores_rest.
Print Assumptions saturated_potential_refuted.
Print Assumptions propagator_word_decodes.
Print Assumptions propagator_word_injective.
Print Assumptions analyses_decode.
Print Assumptions analyses_energy.
Print Assumptions analyses_spectra.
Print Assumptions field_selector_refuted.
Print Assumptions field_selectors.
