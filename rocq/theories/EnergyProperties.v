(** Energies of the complex field: what the averages (C72) and the map and the mask (C73)
    that energy() returns mean. *)
From Coq Require Import Lqa Lra Reals List Arith NArith Bool Lia.
From Verif Require Import ForceModel EnergyModel EnergySpec EnergyProofs.
Import ListNotations.
Open Scope R_scope.

(** ** The averages over the box: C72 *)
Lemma total_averages : forall P low hasSd s q c e Vt rs old E M, energy P low hasSd s q c e Vt rs old = Reply E M ->
  asksTotals e -> averages P s q c E (sites rs).
Proof. intros P low hasSd s q c e Vt rs old E M H Ha i f Hi Hf. eapply reply_total; eassumption. Qed.
(** Partial: the kinetic energy and the mean modulus only in single precision, the saxion
    potential of the linear axion potential only PQ1, the axion potential only of the
    cosine and of the variant with both components (or massless); the field must vanish
    nowhere. *)
Theorem energies_right_partial : forall P low hasSd s q c e Vt rs old E M,
  energy P low hasSd s q c e Vt rs old = Reply E M -> asksTotals e -> 0 < eR c -> 0 < eDelta2 c -> nonzero (sites rs) ->
  gradientsRight c E (sites rs)
  /\ (P = Single -> kineticRight c E (sites rs) /\ modulusRight c E (sites rs))
  /\ (q <> QCDL \/ s = PQ1 -> saxionRight s c E (sites rs))
  /\ (q = QCDV \/ q = QCDC \/ eMa2 c = 0 -> axionRight q c E (sites rs)).
Proof.
  intros P low hasSd s q c e Vt rs old E M H Ha HR HD NZ. pose proof (total_averages _ _ _ _ _ _ _ _ _ _ _ _ H Ha) as A.
  split; [apply (gradients_right P s q); try assumption; lra|].
  split; [intros ->; split; [apply (kinetic_right Single s q); try assumption; [reflexivity | lra] | apply (modulus_right s q); assumption]|].
  split; [intros Hq; apply (saxion_right P s q); try assumption; destruct q; try reflexivity; destruct Hq as [Hq| ->]; [congruence | reflexivity]|].
  intros Hq. apply (axion_right P s q); try assumption. destruct Hq as [Hq|[Hq|Hq]]; auto.
Qed.
(** In double precision the factor 1/R^2 of the kinetic energy is held in an integer. *)
Theorem kinetic_double_exact_partial : forall low hasSd s q c e Vt rs old E M n,
  energy Double low hasSd s q c e Vt rs old = Reply E M -> asksTotals e -> 0 < eR c -> nonzero (sites rs) ->
  1 = IZR n * eR c ^ 2 -> kineticRight c E (sites rs).
Proof.
  intros low hasSd s q c e Vt rs old E M n H Ha HR NZ Hn. pose proof (total_averages _ _ _ _ _ _ _ _ _ _ _ _ H Ha) as A.
  apply (kinetic_right Double s q); try assumption; [|lra]. cbn [factor]. f_equal. unfold iR2, iz2.
  assert (X : 1 / eR c / eR c = IZR n).
  { apply Rmult_eq_reg_r with (eR c ^ 2); [|apply pow_nonzero; lra]. rewrite <- Hn. field. lra. }
  assert (Y : 1 / eR c * (1 / eR c) = IZR n) by (rewrite <- X; field; lra). rewrite Y, X. f_equal.
  destruct (base_Int_part (IZR n)) as [B1 B2]. apply le_IZR in B1.
  assert (B3 : IZR (Int_part (IZR n)) > IZR (n - 1)) by (rewrite minus_IZR; lra).
  apply Rgt_lt, lt_IZR in B3. lia.
Qed.
Lemma iR2_late : forall c, 1 < eR c -> iR2 c = 0.
Proof.
  intros c H. unfold iR2. assert (B : 0 < 1 / eR c / eR c < 1).
  { split; [unfold Rdiv; rewrite Rmult_1_l; apply Rmult_lt_0_compat; apply Rinv_0_lt_compat; lra|].
    apply Rmult_lt_reg_r with (eR c); [lra|]. unfold Rdiv. rewrite Rmult_assoc, Rinv_l, Rmult_1_r by lra.
    apply Rmult_lt_reg_r with (eR c); [lra|]. rewrite Rmult_assoc, Rinv_l, Rmult_1_r by lra. nra. }
  destruct (base_Int_part (1 / eR c / eR c)) as [B1 B2].
  assert (L : (Int_part (1 / eR c / eR c) < 1)%Z) by (apply lt_IZR; lra).
  assert (G : (-1 < Int_part (1 / eR c / eR c))%Z) by (apply lt_IZR; lra).
  replace (Int_part (1 / eR c / eR c)) with 0%Z by lia. reflexivity.
Qed.
(** It is zero as soon as R > 1, so the reported kinetic energies are zero. *)
Theorem kinetic_energy_refuted : forall low hasSd s q c e Vt rs old E M,
  energy Double low hasSd s q c e Vt rs old = Reply E M -> asksTotals e -> 1 < eR c -> nonzero (sites rs) ->
  E 3%nat = Some 0 /\ E 8%nat = Some 0 /\ (mean (kineticDensity c) (sites rs) <> 0 -> ~ kineticRight c E (sites rs)).
Proof.
  intros low hasSd s q c e Vt rs old E M H Ha HR NZ. pose proof (total_averages _ _ _ _ _ _ _ _ _ _ _ _ H Ha) as A.
  pose proof (fun x Hx => quantity_grads (fst (dispatch s q)) (snd (dispatch s q)) c x (NZ x Hx)) as Q.
  assert (E3 : E 3%nat = Some 0).
  { rewrite (A 3%nat (fun x => snd (kineticR c (sM x) (sV x)))); [|left; lia | intros x Hx; apply (Q x Hx)].
    cbn [factor]. rewrite (iR2_late c HR). f_equal. ring. }
  assert (E8 : E 8%nat = Some 0).
  { rewrite (A 8%nat (fun x => fst (kineticR c (sM x) (sV x)))); [|left; lia | intros x Hx; apply (Q x Hx)].
    cbn [factor]. rewrite (iR2_late c HR). f_equal. ring. }
  split; [exact E3|]. split; [exact E8|]. intros N [[u [v [Hu [Hv [_ [_ T]]]]]] _].
  rewrite E3 in Hu. rewrite E8 in Hv. injection Hu as <-. injection Hv as <-. lra.
Qed.
(** The mean modulus of double precision is whatever the buffer held. *)
Theorem modulus_mean_refuted : forall hasSd s q c l old y, l <> [] ->
  exists junk E M, energy Double false hasSd s q c 1 (length l) [Rank [l] [] junk] old = Reply E M /\ E 10%nat = Some y.
Proof.
  intros hasSd s q c l old y Hl. exists (fun _ => y * INR (length l)). eexists. eexists. split; [reflexivity|].
  cbn [Nat.ltb Nat.leb map osum fold_right oplus]. unfold eTmp. destruct (dispatch s q).
  cbn [Nat.ltb Nat.leb Nat.eqb andb orb rJunk oscale oplus kernelOf]. f_equal. unfold totalSize, rSites. cbn [map concat rThreads]. rewrite !app_nil_r. field.
  destruct l as [|a l]; [congruence|]. cbn [length]. rewrite S_INR. pose proof (pos_INR (length l)). lra.
Qed.
Lemma osum_none : forall l, In None l -> osum l = None.
Proof.
  intros l; induction l as [|a l IH]; intros H; [destruct H|]. cbn [osum fold_right]. fold (osum l).
  destruct H as [->|H]; [reflexivity|]. rewrite (IH H). destruct a; reflexivity.
Qed.
(** Where the field vanishes at one site of the box no gradient or kinetic energy is a number. *)
Theorem energies_zero_refuted : forall P low hasSd s q c e Vt rs old E M x,
  energy P low hasSd s q c e Vt rs old = Reply E M -> asksTotals e -> In x (sites rs) -> sM x = (0, 0) ->
  forall i, In i [0; 1; 2; 3; 5; 6; 7; 8]%nat -> E i = None.
Proof.
  intros P low hasSd s q c e Vt rs old E M x H Ha Hx Z i Hi. unfold energy in H.
  assert (HM : hasMap e = true) by (destruct Ha as [<-|[<-|[<-|[<-|[]]]]]; reflexivity).
  assert (HE : hasEne e = true) by (destruct Ha as [<-|[<-|[<-|[<-|[]]]]]; reflexivity).
  rewrite HM in H. destruct low; [discriminate|]. cbn [andb] in H.
  destruct (hasMask e && negb hasSd); [discriminate|].
  assert (HK : kernelOf false e = Some e) by (destruct Ha as [<-|[<-|[<-|[<-|[]]]]]; reflexivity).
  rewrite HK in H. injection H as <- _.
  assert (N2 : n2 (sM x) = 0) by (rewrite Z; unfold n2; cbn; ring).
  assert (L : forall d, lanes (sM x) d = None) by (intros d; unfold lanes; destruct (Req_EM_T (n2 (sM x)) 0); [reflexivity | congruence]).
  assert (G : forall p n, gradient c (sM x) p n = None) by (intros; unfold gradient; rewrite L; reflexivity).
  assert (K : kinetic c (sM x) (sV x) = None) by (unfold kinetic; rewrite L; reflexivity).
  assert (Q : forall s' q', quantity s' q' c i x = None).
  { intros s' q'. unfold quantity, grads. rewrite !G, K. destruct Hi as [<-|[<-|[<-|[<-|[<-|[<-|[<-|[<-|[]]]]]]]]]; reflexivity. }
  assert (I10 : (i < 10)%nat) by (destruct Hi as [<-|[<-|[<-|[<-|[<-|[<-|[<-|[<-|[]]]]]]]]]; lia).
  replace (i <? 11)%nat with true by (symmetry; apply Nat.ltb_lt; lia).
  unfold sites in Hx. apply in_concat in Hx. destruct Hx as [l [Hl Hx]]. apply in_map_iff in Hl. destruct Hl as [r [<- Hr]].
  rewrite osum_none; [reflexivity|]. apply in_map_iff. exists r. split; [|exact Hr].
  unfold eTmp. destruct (dispatch s q) as [s' q']. replace (i <? 10)%nat with true by (symmetry; apply Nat.ltb_lt; lia). cbn [orb]. rewrite HE.
  unfold over. rewrite osum_none; [reflexivity|]. apply in_map_iff. exists x. split; [apply Q | exact Hx].
Qed.

(** What is reported for the other axion potentials. *)
Lemma axion_as : forall P low hasSd s q c e Vt rs old E M f, energy P low hasSd s q c e Vt rs old = Reply E M -> asksTotals e ->
  eR c <> 0 -> (forall x, In x (sites rs) -> axionPot (snd (dispatch s q)) c (sM x) = Some (f x)) ->
  E 4%nat = Some (mean (fun x => eMa2 c * f x) (sites rs)).
Proof.
  intros P low hasSd s q c e Vt rs old E M f H Ha HR Hf. pose proof (total_averages _ _ _ _ _ _ _ _ _ _ _ _ H Ha) as A.
  rewrite (A 4%nat f); [|left; lia | exact Hf]. cbn [factor]. rewrite eZQ_mass, mean_scale by exact HR. f_equal. apply mean_ext. intros; ring.
Qed.
(** Tilted and linear: the cosine. *)
Theorem tilted_reported : forall P low hasSd s q c e Vt rs old E M r th, energy P low hasSd s q c e Vt rs old = Reply E M -> asksTotals e ->
  0 < eR c -> q = QCD1 \/ q = QCDL -> (forall x, In x (sites rs) -> polar c x (r x) (th x)) ->
  E 4%nat = Some (mean (fun x => eMa2 c * (1 - cos (th x))) (sites rs)).
Proof.
  intros P low hasSd s q c e Vt rs old E M r th H Ha HR Hq Hp. eapply axion_as; try eassumption; [lra|].
  intros x Hx. destruct Hq as [->| ->]; apply (cosine_reported c x (r x) (th x) HR (Hp x Hx)).
Qed.
(** Two wells: a number that does not depend on the field. *)
Theorem two_well_reported : forall P low hasSd s c e Vt rs old E M r th, energy P low hasSd s QCD2 c e Vt rs old = Reply E M -> asksTotals e ->
  0 < eR c -> (forall x, In x (sites rs) -> polar c x (r x) (th x)) ->
  E 4%nat = Some (mean (fun x => eMa2 c * ((1 - 1 / eR c ^ 2) / 2)) (sites rs)).
Proof.
  intros P low hasSd s c e Vt rs old E M r th H Ha HR Hp. eapply axion_as; try eassumption; [lra|].
  intros x Hx. destruct (polar_n2 c x _ _ HR (Hp x Hx)) as [N [PP _]]. pose proof (Rmult_lt_0_compat _ _ PP PP) as P2.
  cbn [dispatch snd]. unfold axionPot. destruct (Req_EM_T (n2 (shifted c (sM x))) 0); [lra|]. f_equal. unfold iz2. replace 0.5 with (1/2) by lra. field. split; lra.
Qed.
(** No QCD potential: not zero, but what the register held. *)
Theorem no_axion_reported : forall P low hasSd s c e Vt rs old E M r th, energy P low hasSd s QCD0 c e Vt rs old = Reply E M -> asksTotals e ->
  0 < eR c -> eShift c = 0 -> (forall x, In x (sites rs) -> polar c x (r x) (th x)) ->
  E 4%nat = Some (mean (fun x => eMa2 c * (cos (th x) / (eR c * r x))) (sites rs)).
Proof.
  intros P low hasSd s c e Vt rs old E M r th H Ha HR HS Hp. eapply axion_as; try eassumption; [lra|].
  intros x Hx. destruct (polar_n2 c x _ _ HR (Hp x Hx)) as [N [PP [F1 F2]]]. pose proof (Rmult_lt_0_compat _ _ PP PP) as P2.
  assert (SH : shifted c (sM x) = sM x) by (unfold shifted; rewrite HS; destruct (sM x); cbn [fst snd]; f_equal; ring). rewrite SH in *.
  cbn [dispatch snd]. unfold axionPot. destruct (Req_EM_T (n2 (sM x)) 0); [lra|]. f_equal. rewrite N, F1. destruct (Hp x Hx). field. split; lra.
Qed.
(** A box of one site. *)
Definition lone (m v : R * R) (k : bool) : site := Site m v m m m m m m k.
Definition lonely (x : site) : list rank := [Rank [[x]] [] (fun _ => 0)].
Lemma sites_lonely : forall x, sites (lonely x) = [x].
Proof. reflexivity. Qed.
Lemma mean_one : forall (f : site -> R) x, mean f [x] = f x.
Proof. intros; unfold mean, sumOver; cbn [fold_right length INR]; field. Qed.
Definition boxC : eparms := EParms 2 1 1 1 0 0.
Lemma polar_boxC : forall r th v k, 0 < r -> - PI < th <= PI -> polar boxC (lone (2 * r * cos th, 2 * r * sin th) v k) r th.
Proof. intros r th v k H1 H2. unfold polar, boxC, lone; cbn [eShift eR sM]. split; [exact H1|]. split; [exact H2|]. f_equal; ring. Qed.
Theorem axion_energy_refuted : forall P s q, q = QCD0 \/ q = QCD1 \/ q = QCD2 \/ q = QCDL ->
  exists x E M, energy P false false s q boxC 1 1 (lonely x) [fun _ => None] = Reply E M /\ nonzero (sites (lonely x)) /\
    (exists r th, polar boxC x r th) /\ ~ axionRight q boxC E (sites (lonely x)).
Proof.
  intros P s q Hq. pose proof PI_RGT_0 as PP.
  assert (A0 : - PI < 0 <= PI) by lra. assert (AP : - PI < PI <= PI) by lra. assert (HR : 0 < eR boxC) by (cbn; lra).
  assert (At : asksTotals 1) by (left; reflexivity).
  destruct (match q with QCDL => true | _ => false end) eqn:IL.
  - destruct q; try discriminate IL. set (x := lone (2 * 1 * cos PI, 2 * 1 * sin PI) (0, 0) false).
    assert (Hp : polar boxC x 1 PI) by (apply polar_boxC; lra).
    exists x. eexists. eexists. split; [reflexivity|]. split; [|split; [exists 1, PI; exact Hp|]].
    + intros y [<-|[]] Z. apply (f_equal fst) in Z. unfold x, lone in Z. cbn [sM fst] in Z. rewrite cos_PI in Z. lra.
    + intros F. specialize (F (fun _ => 1) (fun _ => PI)). cbv beta in F.
      assert (Hpl : forall y, In y (sites (lonely x)) -> polar boxC y 1 PI) by (intros y [<-|[]]; exact Hp). specialize (F Hpl).
      rewrite (tilted_reported P false false s QCDL boxC 1 1 (lonely x) [fun _ => None] _ _ (fun _ => 1) (fun _ => PI) eq_refl At HR (or_intror eq_refl) Hpl) in F.
      rewrite sites_lonely, !mean_one in F. injection F as F. rewrite cos_PI in F. cbn [boxC eMa2] in F. pose proof PI2_3_2. nra.
  - set (x := lone (2 * (1/2) * cos 0, 2 * (1/2) * sin 0) (0, 0) false).
    assert (Hp : polar boxC x (1/2) 0) by (apply polar_boxC; lra).
    exists x. eexists. eexists. split; [reflexivity|]. split; [|split; [exists (1/2), 0; exact Hp|]].
    + intros y [<-|[]] Z. apply (f_equal fst) in Z. unfold x, lone in Z. cbn [sM fst] in Z. rewrite cos_0 in Z. lra.
    + intros F. specialize (F (fun _ => 1/2) (fun _ => 0)). cbv beta in F.
      assert (Hpl : forall y, In y (sites (lonely x)) -> polar boxC y (1/2) 0) by (intros y [<-|[]]; exact Hp). specialize (F Hpl).
      destruct Hq as [->|[->|[->| ->]]]; [| | |discriminate IL].
      * rewrite (no_axion_reported P false false s boxC 1 1 (lonely x) [fun _ => None] _ _ (fun _ => 1/2) (fun _ => 0) eq_refl At HR eq_refl Hpl) in F.
        rewrite sites_lonely, !mean_one in F. apply (f_equal (fun o => match o with Some a => a | None => 0 end)) in F. cbv beta iota in F.
        rewrite cos_0 in F. unfold axionDensity in F. cbn [boxC eMa2 eR] in F. lra.
      * rewrite (tilted_reported P false false s QCD1 boxC 1 1 (lonely x) [fun _ => None] _ _ (fun _ => 1/2) (fun _ => 0) eq_refl At HR (or_introl eq_refl) Hpl) in F.
        rewrite sites_lonely, !mean_one in F. apply (f_equal (fun o => match o with Some a => a | None => 0 end)) in F. cbv beta iota in F.
        rewrite cos_0 in F. unfold axionDensity in F. cbn [boxC eMa2 eR] in F. rewrite cos_0 in F. lra.
      * rewrite (two_well_reported P false false s boxC 1 1 (lonely x) [fun _ => None] _ _ (fun _ => 1/2) (fun _ => 0) eq_refl At HR Hpl) in F.
        rewrite sites_lonely, !mean_one in F. apply (f_equal (fun o => match o with Some a => a | None => 0 end)) in F. cbv beta iota in F.
        unfold axionDensity in F. cbn [boxC eMa2 eR] in F. rewrite sin_0 in F. lra.
Qed.
(** The linear potential reports the first saxion potential whichever was chosen. *)
Theorem linear_saxion_refuted : forall P, exists x E M, energy P false false PQ2 QCDL boxC 1 1 (lonely x) [fun _ => None] = Reply E M /\
  nonzero (sites (lonely x)) /\ (exists r th, polar boxC x r th) /\ ~ saxionRight PQ2 boxC E (sites (lonely x)).
Proof.
  intros P. pose proof PI_RGT_0 as PP. assert (A0 : - PI < 0 <= PI) by lra. assert (HR : 0 < eR boxC) by (cbn; lra).
  set (x := lone (2 * 2 * cos 0, 2 * 2 * sin 0) (0, 0) false). assert (Hp : polar boxC x 2 0) by (apply polar_boxC; lra).
  exists x. eexists. eexists. split; [reflexivity|]. split; [|split; [exists 2, 0; exact Hp|]].
  - intros y [<-|[]] Z. apply (f_equal fst) in Z. unfold x, lone in Z. cbn [sM fst] in Z. rewrite cos_0 in Z. lra.
  - intros F. specialize (F (fun _ => 2) (fun _ => 0)). cbv beta in F.
    assert (Hpl : forall y, In y (sites (lonely x)) -> polar boxC y 2 0) by (intros y [<-|[]]; exact Hp). specialize (F Hpl).
    pose proof (total_averages P false false PQ2 QCDL boxC 1 1 (lonely x) [fun _ => None] _ _ eq_refl (or_introl eq_refl)) as A.
    rewrite (A 9%nat (fun y => rhoPot PQ1 boxC (sM y))) in F; [|left; lia|intros; reflexivity].
    rewrite sites_lonely, !mean_one in F. cbn [factor] in F. rewrite (saxion_density PQ1 boxC x 2 0 HR Hp) in F.
    apply (f_equal (fun o => match o with Some a => a | None => 0 end)) in F. cbv beta iota in F. unfold saxionDensity in F. cbn [boxC eLam] in F. lra.
Qed.
(** A box of two sites on two ranks: the hypotheses hold and the kinetic energy is not
    zero (and in double precision reported as zero, since R = 2). *)
Definition duo : list rank :=
  [Rank [[Site (0, 2) (4, 0) (1, 0) (0, 1) (0, 2) (2, 0) (0, 2) (0, 2) true]] [] (fun _ => 5);
   Rank [[lone (4, 0) (0, 0) false]] [] (fun _ => 6)].
Lemma duo_nonzero : nonzero (sites duo).
Proof. intros x [<-|[<-|[]]] Z; cbn in Z; injection Z; lra. Qed.
Lemma duo_kinetic : mean (kineticDensity boxC) (sites duo) = 1/4.
Proof.
  unfold mean, sumOver, sites, duo, rSites, kineticDensity, phiDot, abs2, lone. cbn [map concat app fold_right length rThreads INR sM sV fst snd boxC eR eRprime]. field.
Qed.
Example energies_case : exists E M E' M',
  energy Single false false PQ1 QCDC boxC 1 1 duo [fun _ => None; fun _ => None] = Reply E M /\
  energy Double false false PQ1 QCDC boxC 1 1 duo [fun _ => None; fun _ => None] = Reply E' M' /\
  parts (E 3%nat) (E 8%nat) (1/4) /\ E' 3%nat = Some 0 /\ E' 8%nat = Some 0.
Proof.
  do 4 eexists. split; [reflexivity|]. split; [reflexivity|].
  destruct (energies_right_partial Single false false PQ1 QCDC boxC 1 1 duo [fun _ => None; fun _ => None] _ _ eq_refl
    (or_introl eq_refl) ltac:(cbn; lra) ltac:(cbn; lra) duo_nonzero) as [_ [K _]].
  destruct (K eq_refl) as [[K1 _] _]. rewrite duo_kinetic in K1. split; [exact K1|].
  destruct (kinetic_energy_refuted false false PQ1 QCDC boxC 1 1 duo [fun _ => None; fun _ => None] _ _ eq_refl
    (or_introl eq_refl) ltac:(cbn; lra) duo_nonzero) as [K3 [K8 _]]. split; assumption.
Qed.

(** ** The map and the mask: C73 *)
(** A map of all sites holds the density of the energy, its part of the angle first.
    Partial for the same reasons as the averages. *)
Theorem map_is_density_partial : forall P low hasSd s q c e Vt rs old E M,
  energy P low hasSd s q c e Vt rs old = Reply E M -> asksTotals e -> fits Vt rs -> length old = length rs ->
  0 < eR c -> 0 < eDelta2 c -> nonzero (sites rs) -> forall r th, (forall x, In x (sites rs) -> polar c x (r x) (th x)) ->
  q <> QCDL \/ s = PQ1 -> q = QCDV \/ q = QCDC \/ eMa2 c = 0 ->
  exists T Rh, mapHolds Vt rs M T Rh /\ (forall x, In x (sites rs) -> T x + Rh x = density s q c x (r x) (th x))
    /\ (P = Single -> exists a b d f g, E 0%nat = Some a /\ E 1%nat = Some b /\ E 2%nat = Some d /\ E 3%nat = Some f /\ E 4%nat = Some g
                      /\ mean T (sites rs) = a + b + d + f + g)
    /\ (P = Single -> exists a b d f g, E 5%nat = Some a /\ E 6%nat = Some b /\ E 7%nat = Some d /\ E 8%nat = Some f /\ E 9%nat = Some g
                      /\ mean Rh (sites rs) = a + b + d + f + g).
Proof.
  intros P low hasSd s q c e Vt rs old E M H Ha Hf Hl HR HD NZ r th Hp Hs Hq.
  pose proof (map_entries P low hasSd s q c e Vt rs old E M H Ha Hf Hl) as ME.
  pose proof (total_averages _ _ _ _ _ _ _ _ _ _ _ _ H Ha) as A.
  assert (D : fst (dispatch s q) = s) by (destruct q; try reflexivity; destruct Hs as [Hs| ->]; [congruence | reflexivity]).
  set (ap := fun x => match axionPot (snd (dispatch s q)) c (sM x) with Some y => y | None => 0 end).
  assert (Hap : forall x, In x (sites rs) -> axionPot (snd (dispatch s q)) c (sM x) = Some (ap x)).
  { intros x Hx. destruct (axionPot_some (snd (dispatch s q)) c x _ _ HR (NZ x Hx) (Hp x Hx)) as [y Hy]. unfold ap. rewrite Hy. reflexivity. }
  pose proof (fun x Hx => quantity_grads (fst (dispatch s q)) (snd (dispatch s q)) c x (NZ x Hx)) as Q.
  set (G := fun p n x => gradientR c (sM x) (p x) (n x)). set (K := fun x => kineticR c (sM x) (sV x)).
  set (T := fun x => snd (K x) * (0.5 * iz2 c) + (snd (G sXp sXm x) + (snd (G sYp sYm x) + snd (G sZp sZm x))) * o2 c + ap x * eZQ c).
  set (Rh := fun x => fst (K x) * (0.5 * iz2 c) + (fst (G sXp sXm x) + (fst (G sYp sYm x) + fst (G sZp sZm x))) * o2 c + rhoPot s c (sM x) * lZ c).
  exists T, Rh. split; [|split; [|split]].
  - unfold mapHolds. eapply Forall2_impl_in; [|exact ME]. intros k f Hk Hj j x Hx. cbv beta in Hj. destruct (Hj j x Hx) as [J1 J2].
    assert (Hin : In x (sites rs)) by (eapply in_sites; [exact Hk | eapply nth_error_In; exact Hx]).
    destruct (Q x Hin) as [Q0 [Q1 [Q2 [Q5 [Q6 [Q7 [Q3 Q8]]]]]]]. rewrite J1, J2. split.
    + erewrite mapTheta_some; [reflexivity | exact Q0 | exact Q1 | exact Q2 | exact Q3 | exact (Hap x Hin)].
    + erewrite (mapRho_some (fst (dispatch s q)) (snd (dispatch s q))); [|exact Q5 | exact Q6 | exact Q7 | exact Q8 | reflexivity]. rewrite D. reflexivity.
  - intros x Hx. assert (HR' : eR c <> 0) by lra. assert (HD' : eDelta2 c <> 0) by lra. unfold T, Rh, G, K, density.
    rewrite <- (kineticR_sum c x HR' (NZ x Hx)).
    rewrite <- (gradientR_density c x (sXp x) (sXm x) HR' HD' (NZ x Hx)), <- (gradientR_density c x (sYp x) (sYm x) HR' HD' (NZ x Hx)),
      <- (gradientR_density c x (sZp x) (sZm x) HR' HD' (NZ x Hx)).
    rewrite <- (saxion_density s c x _ _ HR (Hp x Hx)), <- (axion_density q c x _ _ HR (NZ x Hx) (Hp x Hx) Hq s _ (Hap x Hx)). ring.
  - intros ->. do 5 eexists.
    split; [apply (A 0%nat (fun x => snd (G sXp sXm x))); [left; lia | intros x Hx; apply (Q x Hx)]|].
    split; [apply (A 1%nat (fun x => snd (G sYp sYm x))); [left; lia | intros x Hx; apply (Q x Hx)]|].
    split; [apply (A 2%nat (fun x => snd (G sZp sZm x))); [left; lia | intros x Hx; apply (Q x Hx)]|].
    split; [apply (A 3%nat (fun x => snd (K x))); [left; lia | intros x Hx; apply (Q x Hx)]|].
    split; [apply (A 4%nat ap); [left; lia | exact Hap]|].
    cbn [factor]. rewrite !mean_scale, !mean_plus. apply mean_ext. intros x _. unfold T. ring.
  - intros ->. do 5 eexists.
    split; [apply (A 5%nat (fun x => fst (G sXp sXm x))); [left; lia | intros x Hx; apply (Q x Hx)]|].
    split; [apply (A 6%nat (fun x => fst (G sYp sYm x))); [left; lia | intros x Hx; apply (Q x Hx)]|].
    split; [apply (A 7%nat (fun x => fst (G sZp sZm x))); [left; lia | intros x Hx; apply (Q x Hx)]|].
    split; [apply (A 8%nat (fun x => fst (K x))); [left; lia | intros x Hx; apply (Q x Hx)]|].
    split; [apply (A 9%nat (fun x => rhoPot s c (sM x))); [left; lia | intros x Hx; unfold quantity, grads; rewrite D; reflexivity]|].
    cbn [factor]. rewrite !mean_scale, !mean_plus. apply mean_ext. intros x _. unfold Rh. ring.
Qed.
(** In double precision the map and the averages disagree, by all of the kinetic energy
    once R > 1. *)
Theorem map_mean_refuted : exists E M T Rh,
  energy Double false false PQ1 QCDC boxC 3 1 duo [fun _ => None; fun _ => None] = Reply E M /\ mapHolds 1 duo M T Rh
  /\ E 3%nat = Some 0 /\ E 8%nat = Some 0 /\ (forall x, In x (sites duo) -> exists r th, polar boxC x r th /\ T x + Rh x = density PQ1 QCDC boxC x r th)
  /\ mean (kineticDensity boxC) (sites duo) = 1/4.
Proof.
  pose proof PI_RGT_0 as PP.
  set (r := fun x : site => sqrt (n2 (sM x)) / 2). set (th := fun x : site => if Req_EM_T (fst (sM x)) 0 then PI / 2 else 0).
  assert (Hp : forall x, In x (sites duo) -> polar boxC x (r x) (th x)).
  { intros x [<-|[<-|[]]]; unfold polar, r, th, lone, n2; cbn [sM fst snd boxC eR eShift].
    - replace (0 * 0 + 2 * 2) with (2 * 2) by ring. rewrite sqrt_square by lra. destruct (Req_EM_T 0 0); [|congruence]. rewrite cos_PI2, sin_PI2.
      split; [lra|]. split; [lra|]. f_equal; field.
    - replace (4 * 4 + 0 * 0) with (4 * 4) by ring. rewrite sqrt_square by lra. destruct (Req_EM_T 4 0); [lra|]. rewrite cos_0, sin_0.
      split; [lra|]. split; [lra|]. f_equal; field. }
  assert (F1 : fits 1 duo) by (intros k [<-|[<-|[]]]; cbn; lia).
  assert (N1 : QCDC <> QCDL \/ PQ1 = PQ1) by (right; reflexivity).
  assert (N2 : QCDC = QCDV \/ QCDC = QCDC \/ eMa2 boxC = 0) by (right; left; reflexivity).
  assert (A3 : asksTotals 3) by (right; left; reflexivity).
  destruct (map_is_density_partial Double false false PQ1 QCDC boxC 3 1 duo [fun _ => None; fun _ => None] _ _ eq_refl A3
     F1 eq_refl ltac:(cbn; lra) ltac:(cbn; lra) duo_nonzero r th Hp N1 N2) as [T [Rh [H1 [H2 _]]]].
  destruct (kinetic_energy_refuted false false PQ1 QCDC boxC 3 1 duo [fun _ => None; fun _ => None] _ _ eq_refl A3 ltac:(cbn; lra) duo_nonzero) as [K3 [K8 _]].
  do 2 eexists. exists T, Rh. split; [reflexivity|]. split; [exact H1|]. split; [exact K3|]. split; [exact K8|].
  split; [|exact duo_kinetic]. intros x Hx. exists (r x), (th x). split; [apply Hp, Hx | apply H2, Hx].
Qed.
(** Only the averages over the mask: the buffer of the map is left alone; the masked map
    is zero outside the mask. *)
Theorem mask_leaves_map : forall P low hasSd s q c Vt rs old E M, energy P low hasSd s q c 4 Vt rs old = Reply E M ->
  length old = length rs -> Forall2 (fun f g => forall j, f j = g j) old M.
Proof.
  intros P low hasSd s q c Vt rs old E M H Hl. unfold energy in H. cbn [hasMap N.land negb andb N.eqb] in H.
  change (hasMap 4) with false in H. cbn [andb] in H. destruct (hasMask 4 && negb hasSd); [discriminate|].
  replace (kernelOf low 4) with (Some 4%N) in H by (destruct low; reflexivity). injection H as _ <-.
  revert rs Hl; induction old as [|o old IH]; intros [|r rs] Hl; try discriminate Hl; [constructor|].
  cbn [combine map]. constructor; [intros j; reflexivity | apply IH; cbn in Hl; lia].
Qed.
Theorem masked_map_zero : forall P low hasSd s q c Vt rs old E M, energy P low hasSd s q c 6 Vt rs old = Reply E M ->
  fits Vt rs -> length old = length rs ->
  Forall2 (fun r f => forall j x, nth_error (rSites r) j = Some x -> sMask x = false -> f j = Some 0 /\ f (Vt + j)%nat = Some 0) rs M.
Proof.
  intros P low hasSd s q c Vt rs old E M H Hf Hl. unfold energy in H. change (hasMap 6) with true in H. destruct low; [discriminate|].
  cbn [andb] in H. destruct (hasMask 6 && negb hasSd); [discriminate|]. change (kernelOf false 6) with (Some 6%N) in H. injection H as _ <-.
  revert old Hl. induction rs as [|r rs IH]; intros [|o old] Hl; try discriminate Hl; [constructor|].
  cbn [combine map]. constructor.
  - intros j x Hx Hm. cbn [fst snd]. unfold newM2, mapEntry. change (hasMap 6) with true. cbv iota. rewrite Hx. destruct (dispatch s q) as [s' q'].
    rewrite Hm. cbn [N.eqb Pos.eqb negb andb]. split; [reflexivity|].
    assert (L : (length (rSites r) <= Vt)%nat) by (apply Hf; left; reflexivity).
    replace (nth_error (rSites r) (Vt + j)) with (@None site) by (symmetry; apply nth_error_None; lia).
    replace (Vt <=? Vt + j)%nat with true by (symmetry; apply Nat.leb_le; lia).
    replace (Vt + j - Vt)%nat with j by lia. rewrite Hx, Hm. reflexivity.
  - apply IH; [intros r' Hr'; apply Hf; right; exact Hr' | cbn in Hl; lia].
Qed.
(** Asking only for averages writes the map all the same, over what the buffer held. *)
Theorem averages_leave_map_refuted : exists E M, energy Single false false PQ1 QCDC boxC 1 1 (lonely (lone (2, 0) (0, 0) false)) [fun _ => Some 7] = Reply E M
  /\ ~ Forall2 (fun f g => forall j, f j = g j) [fun _ => Some 7] M.
Proof.
  do 2 eexists. split; [reflexivity|]. intros F. inversion F as [|? ? ? ? F1 _]; subst. specialize (F1 0%nat). revert F1.
  assert (Z : (2, 0) <> (0, 0)) by (intros Q; injection Q; lra).
  destruct (quantity_grads PQ1 QCDC boxC (lone (2, 0) (0, 0) false) Z) as [Q0 [Q1 [Q2 [_ [_ [_ [Q3 _]]]]]]].
  unfold newM2. change (hasMap 1) with true. cbv iota. cbn [fst snd rSites rThreads lonely concat app nth_error]. unfold mapEntry. cbn [dispatch N.eqb Pos.eqb andb].
  assert (Q4 : quantity PQ1 QCDC boxC 4 (lone (2, 0) (0, 0) false) = Some 0).
  { unfold quantity, grads, axionPot, shifted, lone, n2. cbn [sM fst snd boxC eShift]. destruct (Req_EM_T ((2 - 0) * (2 - 0) + 0 * 0) 0); [lra|].
    f_equal. replace ((2 - 0) * (2 - 0) + 0 * 0) with (2 * 2) by ring. rewrite sqrt_square by lra. lra. }
  change (rSites {| rThreads := [[lone (2, 0) (0, 0) false]]; rSched := []; rJunk := fun _ => 0 |}) with [lone (2, 0) (0, 0) false]. cbn [nth_error].
  rewrite (mapTheta_some _ _ _ _ _ _ _ _ _ Q0 Q1 Q2 Q3 Q4).
  unfold gradientR, kineticR, lanesR, mSub, lone. cbn [sM sV sXp sXm sYp sYm sZp sZm fst snd boxC eR eRprime]. intros Q. injection Q as Q. revert Q.
  unfold n2, Rdiv; cbn [fst snd]. match goal with |- 7 = ?x -> _ => replace x with 0 by ring end. lra.
Qed.
(** With --lowmem averages over the box cannot be had at all. *)
Theorem lowmem_energies_refuted : forall P hasSd s q c e Vt rs old, asksTotals e -> energy P true hasSd s q c e Vt rs old = Refused.
Proof. intros P hasSd s q c e Vt rs old Ha. destruct Ha as [<-|[<-|[<-|[<-|[]]]]]; reflexivity. Qed.

(** Averages over the mask. Partial: single precision. *)
Lemma mask_averages : forall low hasSd s q c e Vt rs old E M, energy Single low hasSd s q c e Vt rs old = Reply E M ->
  asksMask e -> maskSites rs <> [] -> averages Single s q c (maskPart E) (maskSites rs).
Proof.
  intros low hasSd s q c e Vt rs old E M H Ha Hn i f Hi Hf. eapply reply_masked_single; try eassumption. destruct Hi as [Hi|[-> _]]; lia.
Qed.
Theorem masked_energies_partial : forall low hasSd s q c e Vt rs old E M,
  energy Single low hasSd s q c e Vt rs old = Reply E M -> asksMask e -> 0 < eR c -> 0 < eDelta2 c ->
  maskSites rs <> [] -> nonzero (maskSites rs) ->
  E 22%nat = Some (INR (length (maskSites rs)))
  /\ gradientsRight c (maskPart E) (maskSites rs)
  /\ kineticRight c (maskPart E) (maskSites rs) /\ modulusRight c (maskPart E) (maskSites rs)
  /\ (q <> QCDL \/ s = PQ1 -> saxionRight s c (maskPart E) (maskSites rs))
  /\ (q = QCDV \/ q = QCDC \/ eMa2 c = 0 -> axionRight q c (maskPart E) (maskSites rs)).
Proof.
  intros low hasSd s q c e Vt rs old E M H Ha HR HD Hn NZ. pose proof (mask_averages _ _ _ _ _ _ _ _ _ _ _ H Ha Hn) as A.
  split; [eapply reply_count; eassumption|].
  split; [apply (gradients_right Single s q); try assumption; lra|].
  split; [apply (kinetic_right Single s q); try assumption; [reflexivity | lra]|].
  split; [apply (modulus_right s q); assumption|].
  split; [intros Hq; apply (saxion_right Single s q); try assumption; destruct q; try reflexivity; destruct Hq as [Hq| ->]; [congruence | reflexivity]|].
  intros Hq. apply (axion_right Single s q); try assumption. destruct Hq as [Hq|[Hq|Hq]]; auto.
Qed.
(** Nothing masked: no numbers. *)
Theorem masked_none_refuted : forall low hasSd s q c e Vt rs old E M,
  energy Single low hasSd s q c e Vt rs old = Reply E M -> asksMask e -> maskSites rs = [] ->
  forall i, (i <= 10)%nat -> maskPart E i = None.
Proof.
  intros low hasSd s q c e Vt rs old E M H Ha Hn i Hi. unfold maskPart.
  rewrite (reply_masked _ _ _ _ _ _ _ _ _ _ _ _ H Ha i (fun _ => 0)); [|destruct (Nat.eq_dec i 10); [right; auto | left; lia] | rewrite Hn; intros x []].
  rewrite (reply_count _ _ _ _ _ _ _ _ _ _ _ H Ha), Hn. cbn [length INR]. unfold oinv. destruct (Req_EM_T 0 0); [reflexivity | congruence].
Qed.
(** The number of masked sites in double precision is counted by all threads at once: it
    is never too large, at least one per rank with masked sites, and right with one
    thread per rank; the averages are the sums over it. *)
Theorem masked_count_bounds : forall low hasSd s q c e Vt rs old E M,
  energy Double low hasSd s q c e Vt rs old = Reply E M -> asksMask e -> counted rs ->
  exists n, E 22%nat = Some n /\ 0 <= n <= INR (length (maskSites rs)) /\ (maskSites rs <> [] -> 1 <= n)
  /\ ((forall r, In r rs -> exists l, rThreads r = [l]) -> n = INR (length (maskSites rs))).
Proof.
  intros low hasSd s q c e Vt rs old E M H Ha HC. destruct (mask_accepts _ _ _ _ _ _ _ _ _ _ _ _ H Ha) as [k [HK HM]].
  unfold energy in H. destruct (hasMap e && low); [discriminate|]. destruct (hasMask e && negb hasSd); [discriminate|].
  rewrite HK in H. injection H as <- _. cbn [Nat.ltb Nat.leb].
  rewrite (osum_some _ _ (nummask Double)) by (intros r _; unfold eTmp; destruct (dispatch s q); cbn [Nat.ltb Nat.leb Nat.eqb andb orb]; rewrite HM; reflexivity).
  eexists. split; [reflexivity|]. rewrite maskSites_ranks. clear Ha HK.
  induction rs as [|r rs IH]; [cbn; split; [lra|split; [intros Q; congruence | intros _; reflexivity]]|].
  destruct (nummask_bounds r (HC r (or_introl eq_refl))) as [B1 B2].
  destruct (IH (fun r' Hr' => HC r' (or_intror Hr'))) as [I1 [I2 I3]]. cbn [map concat]. rewrite app_length, plus_INR.
  change (sumOver (nummask Double) (r :: rs)) with (nummask Double r + sumOver (nummask Double) rs).
  split; [lra|]. split.
  - intros N. destruct (filter sMask (rSites r)) eqn:F; [|assert (1 <= nummask Double r) by (apply B2; discriminate); lra].
    assert (1 <= sumOver (nummask Double) rs) by (apply I2; exact N). lra.
  - intros Hth. rewrite I3 by (intros r' Hr'; apply Hth; right; exact Hr'). destruct (Hth r (or_introl eq_refl)) as [l Hl].
    rewrite (nummask_one r l Hl (HC r (or_introl eq_refl))). reflexivity.
Qed.
(** Two threads with one masked site each can count one: averages are then doubled. *)
Definition clash : list rank := [Rank [[lone (2, 0) (0, 2) true]; [lone (2, 0) (0, 2) true]] [0; 1; 0; 1]%nat (fun _ => 0)].
Theorem masked_count_refuted : exists E M, energy Double false true PQ1 QCD0 boxC 4 2 clash [fun _ => None] = Reply E M
  /\ counted clash /\ length (maskSites clash) = 2%nat /\ E 22%nat = Some 1.
Proof.
  do 2 eexists. split; [reflexivity|]. split; [|split; [reflexivity|]].
  - intros r [<-|[]]. reflexivity.
  - cbn. unfold ups; cbn. f_equal; ring.
Qed.
Example masked_case : exists E M, energy Single false true PQ1 QCDC boxC 4 1 duo [fun _ => None; fun _ => None] = Reply E M
  /\ maskSites duo <> [] /\ E 22%nat = Some 1 /\ parts (maskPart E 3) (maskPart E 8) (1/2).
Proof.
  do 2 eexists. split; [reflexivity|].
  assert (N : maskSites duo <> []) by (cbn; discriminate). split; [exact N|].
  assert (NZ : nonzero (maskSites duo)) by (intros x Hx; apply duo_nonzero; unfold maskSites in Hx; apply filter_In in Hx; apply Hx).
  destruct (masked_energies_partial false true PQ1 QCDC boxC 4 1 duo [fun _ => None; fun _ => None] _ _ eq_refl
    (or_introl eq_refl) ltac:(cbn; lra) ltac:(cbn; lra) N NZ) as [C [_ [[K _] _]]].
  split; [exact C|].
  replace (1/2) with (mean (kineticDensity boxC) (maskSites duo)); [exact K|].
  unfold mean, sumOver, maskSites, sites, duo, rSites, kineticDensity, phiDot, abs2, lone.
  cbn [map concat app filter sMask fold_right length rThreads INR sM sV fst snd boxC eR eRprime]. field.
Qed.

Print Assumptions energies_right_partial.
Print Assumptions kinetic_double_exact_partial.
Print Assumptions kinetic_energy_refuted.
Print Assumptions modulus_mean_refuted.
Print Assumptions energies_zero_refuted.
Print Assumptions tilted_reported.
Print Assumptions two_well_reported.
Print Assumptions no_axion_reported.
Print Assumptions axion_energy_refuted.
Print Assumptions linear_saxion_refuted.
Print Assumptions map_is_density_partial.
Print Assumptions map_mean_refuted.
Print Assumptions mask_leaves_map.
Print Assumptions masked_map_zero.
Print Assumptions averages_leave_map_refuted.
Print Assumptions lowmem_energies_refuted.
Print Assumptions masked_energies_partial.
Print Assumptions masked_none_refuted.
Print Assumptions masked_count_bounds.
Print Assumptions masked_count_refuted.
