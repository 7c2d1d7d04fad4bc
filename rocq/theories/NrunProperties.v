(** C128, C129: what nRun gives to the transform. *)
From Coq Require Import Reals List Arith Bool Lia Lra.
From Verif Require Import KgvModel KgvSpec KgvProofs KgvProperties NrunModel NrunProofs.
From Verif Require ThetaModel ThetaProperties.
Import ListNotations.
Local Open Scope R_scope.
Ltac Zify.zify_post_hook ::= idtac.

(** ** C128: the complex field *)
(** After the transform of the y gradient, which leaves the second half, the z gradient is moved to the front: every site in rows two longer. *)
Theorem nrun_z_partial K p g r phi lut k order m2 after : (0 < gL g)%nat -> (1 <= gNg g <= K * gLz g)%nat -> (p < K)%nat -> rR r <> 0 -> holds K p g (rM r) phi -> allRows g order ->
  k <> Saxi -> k <> Gaus -> k <> Diff -> (gLz g <= gNg g * gL g)%nat -> (forall i, (v3 g <= i)%nat -> after i = buildYZ lut k g r order m2 i) ->
  forall x y z rho th q t, (x < gL g)%nat -> (y < gL g)%nat -> (z < gLz g)%nat ->
  let N := (K * gLz g)%nat in let Z := (p * gLz g + z)%nat in let i := plain (gL g) x y z in let a := shifted (rSh r) (phi x y Z) in
  lut = None \/ far a (alongX (gL g) phi x y Z) (alongY (gL g) phi x y Z) (alongZ N phi x y Z) ->
  turns rho th a (alongY (gL g) phi x y Z) q -> turns rho th a (alongZ N phi x y Z) t ->
  zInput k g after (padded (gL g) x y z) = weight k (rR r) rho (rS r i) (m2 (v3 g + i)%nat) * (rR r * (t / rD r / 2)).
Proof.
  intros HL HN HP HR HM HA HK HK1 HK2 HG HF x y z rho th q t Hx Hy Hz N Z i a F T U.
  destruct (gradient_yz_partial K p g r phi lut k order m2 HL HN HP HR HM HA HK HG x y z rho th q t Hx Hy Hz F T U) as [_ E].
  assert (Lt : (padded (gL g) x y z < v3 g)%nat) by (pose proof (padded_lt (gL g) (gLz g) x y z Hx Hy Hz); pose proof (room g HG); lia).
  assert (EE : zInput k g after (padded (gL g) x y z) = after (v3 g + padded (gL g) x y z)%nat).
  { unfold zInput. replace (match k with Gaus | Diff => unpad g (moved g after) | _ => moved g after end) with (moved g after) by (destruct k; try reflexivity; contradiction).
    unfold moved. apply Nat.ltb_lt in Lt. rewrite Lt. reflexivity. }
  rewrite EE, HF by lia. replace (padded (gL g) x y z) with (match k with Gaus | Diff => i | _ => padded (gL g) x y z end) by (destruct k; try reflexivity; contradiction).
  exact E.
Qed.
(** With a smooth mask: the rows are moved closer together once more, and the transform takes what lay behind them. *)
Theorem nrun_z_refuted : exists g r order m2 k, allRows g order /\ (gLz g <= gNg g * gL g)%nat /\ (k = Gaus \/ k = Diff) /\ holds 1 0 g (rM r) (fun _ _ _ => (1, 0)) /\ rSh r = 0 /\ rR r = 1 /\
  turns 1 0 (1, 0) (alongZ 1 (fun _ _ _ => (1, 0)) 0 1 0) 0 /\ zInput k g (buildYZ None k g r order m2) (padded (gL g) 0 1 0) = 7.
Proof.
  exists g1, r1, o1, (fun _ => 7), Gaus. split; [exact o1_all|]. split; [cbn; lia|]. split; [left; reflexivity|]. split; [intros ? ? ? ? ? ?; reflexivity|]. split; [reflexivity|]. split; [reflexivity|]. split.
  - replace (alongZ 1 (fun _ _ _ => (1, 0)) 0 1 0) with ((0, 0) : R * R) by (unfold alongZ, minus; cbn [fst snd]; f_equal; ring). apply r1_turns.
  - change (zInput Gaus g1 (buildYZ None Gaus g1 r1 o1 (fun _ => 7)) (padded (gL g1) 0 1 0)) with (buildYZ None Gaus g1 r1 o1 (fun _ => 7) (v3 g1 + 4)%nat).
    rewrite (gradient_yz_rest g1 r1 None Gaus o1 (fun _ => 7)); [reflexivity|exact o1_all|cbn; lia|].
    intros x y z Hx Hy Hz. cbn in Hx, Hy, Hz |- *. assert (z = 0%nat) by lia. subst. destruct x as [|[|]], y as [|[|]]; cbn; lia.
Qed.

(** The old gradients: R times 2 tan of half the turn to the next site, over the spacing, where the modulus is the same. Missing: other moduli; Ball and Saxi, refuted below; rounding. *)
Theorem old_gradient_x_partial K p g r phi k order m2 : (0 < gL g)%nat -> (1 <= gNg g <= K * gLz g)%nat -> (p < K)%nat -> rR r <> 0 -> holds K p g (rM r) phi -> allRows g order ->
  k <> Ball -> k <> Saxi -> (k = Gaus \/ k = Diff -> (gLz g <= gNg g * gL g)%nat) -> forall x y z rho al be, (x < gL g)%nat -> (y < gL g)%nat -> (z < gLz g)%nat ->
  let Z := (p * gLz g + z)%nat in let i := plain (gL g) x y z in 0 < rho -> - PI < be - al < PI ->
  shifted (rSh r) (phi x y Z) = (rho * cos al, rho * sin al) -> shifted (rSh r) (phi (next (gL g) x) y Z) = (rho * cos be, rho * sin be) ->
  buildCX k g r order m2 (padded (gL g) x y z) = weight k (rR r) rho (rS r i) (m2 (v3 g + i)%nat) * (rR r * (2 * tan ((be - al) / 2) / rD r)).
Proof.
  intros HL HN HP HR HM HA NB NS HG x y z rho al be Hx Hy Hz Z i Pr D A B. pose proof (Ok K p g r phi HL HN HP HM) as O.
  assert (A0 : at0 g r x y z = (rho * cos al, rho * sin al)) by (rewrite <- A; apply (at0_eq K p); assumption).
  rewrite <- odx_eq, cx_rows; try assumption; [|intros S; apply HG; destruct k; try discriminate; auto].
  rewrite (oldFac_eq k g r m2 x y z rho al HR Pr A0). fold i. rewrite next_mod by exact Hx. rewrite !(here K p g r phi) by (auto using next_lt).
  fold Z. rewrite (half_eq r _ _ rho al be Pr D A B). unfold Rdiv. ring.
Qed.
Theorem old_gradient_yz_partial K p g r phi k order m2 : (0 < gL g)%nat -> (1 <= gNg g <= K * gLz g)%nat -> (p < K)%nat -> rR r <> 0 -> holds K p g (rM r) phi -> allRows g order ->
  k <> Ball -> k <> Saxi -> (gLz g <= gNg g * gL g)%nat -> forall x y z rho al be ga, (x < gL g)%nat -> (y < gL g)%nat -> (z < gLz g)%nat ->
  let Z := (p * gLz g + z)%nat in let i := plain (gL g) x y z in 0 < rho -> - PI < be - al < PI -> - PI < ga - al < PI ->
  shifted (rSh r) (phi x y Z) = (rho * cos al, rho * sin al) -> shifted (rSh r) (phi x (next (gL g) y) Z) = (rho * cos be, rho * sin be) ->
  shifted (rSh r) (phi x y (next (K * gLz g) Z)) = (rho * cos ga, rho * sin ga) ->
  let w := weight k (rR r) rho (rS r i) (m2 (v3 g + i)%nat) in
  buildCYZ k g r order m2 (padded (gL g) x y z) = w * (rR r * (2 * tan ((be - al) / 2) / rD r)) /\
  buildCYZ k g r order m2 (v3 g + match k with Gaus | Diff => i | _ => padded (gL g) x y z end)%nat = w * (rR r * (2 * tan ((ga - al) / 2) / rD r)).
Proof.
  intros HL HN HP HR HM HA NB NS HG x y z rho al be ga Hx Hy Hz Z i Pr D1 D2 A B C w. pose proof (Ok K p g r phi HL HN HP HM) as O.
  assert (A0 : at0 g r x y z = (rho * cos al, rho * sin al)) by (rewrite <- A; apply (at0_eq K p); assumption).
  destruct (cyz_rows g r k order m2 NB NS HA HG x y z Hx Hy Hz) as [E1 E2].
  rewrite (oldFac_eq k g r m2 x y z rho al HR Pr A0) in E1, E2. fold i in E1, E2. fold w in E1, E2. rewrite next_mod in E1 by exact Hy.
  rewrite !(here K p g r phi) in E1 by (auto using next_lt). rewrite (here K p g r phi) in E2 by assumption. rewrite (above K p g r phi) in E2 by assumption.
  fold Z in E1, E2. rewrite (half_eq r _ _ rho al be Pr D1 A B) in E1. rewrite (half_eq r _ _ rho al ga Pr D2 A C) in E2. rewrite odx_eq in E1, E2. rewrite idx_eq in E2. fold i in E2. split.
  - rewrite E1. unfold Rdiv. ring.
  - replace (match k with Gaus | Diff => i | _ => padded (gL g) x y z end) with (if smooth k then i else padded (gL g) x y z) by (destruct k; reflexivity). rewrite E2. unfold Rdiv. ring.
Qed.
Example old_gradient_case : buildCX Flat g1 r1 o1 (fun _ => 7) 5%nat = 0.
Proof.
  change 5%nat with (padded (gL g1) 1 1 0). pose proof PI_RGT_0.
  rewrite (old_gradient_x_partial 1 0 g1 r1 (fun _ _ _ => (1, 0)) Flat o1 (fun _ => 7) ltac:(cbn; lia) ltac:(cbn; lia) ltac:(lia) ltac:(cbn; lra) ltac:(intros ? ? ? ? ? ?; reflexivity)
    o1_all ltac:(discriminate) ltac:(discriminate) ltac:(cbn; lia) 1%nat 1%nat 0%nat 1 0 0 ltac:(cbn; lia) ltac:(cbn; lia) ltac:(cbn; lia)); try lra;
    [|unfold shifted; rewrite cos_0, sin_0; cbn; f_equal; ring|unfold shifted; rewrite cos_0, sin_0; cbn; f_equal; ring].
  replace ((0 - 0) / 2) with 0 by field. rewrite tan_0. unfold Rdiv. ring.
Qed.
(** With Ball the old gradients and the old potential, with Gaus and Diff the old potential, are of what was in m2. *)
Theorem old_cases_refuted mass g r order m2 : buildCX Ball g r order m2 = m2 /\ buildCYZ Ball g r order m2 = m2 /\ buildCV mass Ball g r order m2 = m2 /\ buildCV mass Gaus g r order m2 = m2 /\ buildCV mass Diff g r order m2 = m2.
Proof. repeat split; apply rows_id; reflexivity. Qed.

(** The old potential: mass times R times the angle of the slice before, weighted by its modulus, but with the mask of this slice. Missing: it should be that of the same slice. *)
Theorem old_potential_partial K p g r phi mass k order m2 : (0 < gL g)%nat -> (1 <= gNg g <= K * gLz g)%nat -> (p < K)%nat -> rR r <> 0 -> holds K p g (rM r) phi -> allRows g order ->
  k = Flat \/ k = Redo \/ k = Vil \/ k = Vil2 -> forall x y z rho th, (x < gL g)%nat -> (y < gL g)%nat -> (z < gLz g)%nat -> 0 < rho -> - PI < th <= PI ->
  shifted (rSh r) (phi x y (prev (K * gLz g) (p * gLz g + z))) = (rho * cos th, rho * sin th) ->
  buildCV mass k g r order m2 (padded (gL g) x y z) = weight k (rR r) rho (rS r (plain (gL g) x y z)) 0 * (mass * rR r * th).
Proof.
  intros HL HN HP HR HM HA HK x y z rho th Hx Hy Hz Pr Pt A. pose proof (Ok K p g r phi HL HN HP HM) as O.
  set (F := fun x y z => siteCV mass k g r (fun _ => 0) x y z (odx g x y z)).
  destruct (rows_put g (siteCV mass k g r) F order m2 HA) as [P _].
  { intros m a b c. unfold F, siteCV. cbv zeta. destruct HK as [->|[->|[->| ->]]]; rewrite put_at; reflexivity. }
  rewrite <- odx_eq. unfold buildCV. rewrite P by assumption. unfold F, siteCV. cbv zeta. rewrite (beneath K p g r phi) by assumption.
  unfold shifted in A. rewrite A. cbn [fst snd]. rewrite norm, sqrt_square by lra. rewrite ThetaProperties.arg_polar by assumption. rewrite idx_eq.
  destruct HK as [->|[->|[->| ->]]]; rewrite put_at; cbn [weight]; try ring; try (field; exact HR).
  destruct (rS r (plain (gL g) x y z)); ring.
Qed.
(** Two sites along z, angles 0 and pi/2: at the site of angle 0 the array holds pi/2. *)
Theorem old_potential_refuted : exists phi g r order m2, holds 1 0 g (rM r) phi /\ allRows g order /\ rR r = 1 /\ rSh r = 0 /\ phi 0%nat 0%nat 0%nat = (1 * cos 0, 1 * sin 0) /\
  buildCV 1 Flat g r order m2 (padded (gL g) 0 0 0) = PI / 2.
Proof.
  set (phi := fun x y z : nat => if (z =? 0)%nat then ((1, 0) : R * R) else (0, 1)).
  set (r := Rk 1 1 0 (fun i => if (i mod 2 =? 1)%nat then (1, 0) else (0, 1)) (fun _ => (0, 0)) (fun _ => false)).
  set (g := Grid 1 2 1).
  assert (HH : holds 1 0 g (rM r) phi).
  { intros x y z Hx Hy Hz. cbn in Hx, Hy, Hz. assert (x = 0%nat) by lia. assert (y = 0%nat) by lia. subst. destruct z as [|[|[|[|]]]]; try reflexivity. lia. }
  assert (HA : allRows g [(0, 0); (0, 1)]%nat).
  { split; [repeat constructor; cbn; intuition discriminate|]. intros y z. cbn. split.
    - intros [E|[E|[]]]; injection E as <- <-; lia.
    - intros [A B]. assert (y = 0%nat) by lia. subst. destruct z as [|[|]]; [left|right; left|lia]; reflexivity. }
  exists phi, g, r, [(0, 0); (0, 1)]%nat, (fun _ => 0). split; [exact HH|]. split; [exact HA|]. split; [reflexivity|]. split; [reflexivity|]. split; [unfold phi; cbn; rewrite cos_0, sin_0; f_equal; ring|].
  pose proof PI_RGT_0.
  rewrite (old_potential_partial 1 0 g r phi 1 Flat [(0, 0); (0, 1)]%nat (fun _ => 0) ltac:(cbn; lia) ltac:(cbn; lia) ltac:(lia) ltac:(cbn; lra) HH HA (or_introl eq_refl) 0%nat 0%nat 0%nat 1 (PI / 2)
    ltac:(cbn; lia) ltac:(cbn; lia) ltac:(cbn; lia)); [cbn; ring|lra|lra|]. rewrite sin_PI2, cos_PI2. unfold shifted, phi. cbn. f_equal; ring.
Qed.

(** ** C129: the axion *)
Definition allSlices (g : grid) (l : list nat) : Prop := forall s, In s l <-> (s < gL g * gLz g)%nat.
(** The field or its velocity in rows two longer, nought where masked, nothing else written. Missing: the mask Axit, refuted below. *)
Theorem axion_input_partial g a k slices order m2 : allSlices g slices -> allRows g order -> k <> AAxit -> forall x y z, (x < gL g)%nat -> (y < gL g)%nat -> (z < gLz g)%nat ->
  let i := plain (gL g) x y z in let w := match k with AFlat => 1 | _ => if aS a i then 0 else 1 end in
  axGV k g a slices order m2 (padded (gL g) x y z) = w * aM a i /\ axK k g a slices order m2 (padded (gL g) x y z) = w * aV a i.
Proof.
  intros HS HA NK x y z Hx Hy Hz i w.
  assert (FL : k = AFlat -> forall src m, copyRows g src slices m (padded (gL g) x y z) = w * src i).
  { intros -> src m. replace (padded (gL g) x y z) with ((y + gL g * z) * (gL g + 2) + x)%nat by (unfold padded; ring).
    rewrite copyRows_at; [|exact Hx|apply HS; pose proof (below_mix (gL g) (gLz g) y z Hy Hz); lia].
    unfold w, i. replace ((y + gL g * z) * gL g + x)%nat with (plain (gL g) x y z) by (unfold plain; ring). ring. }
  assert (OT : k <> AFlat -> forall src m, rows g (siteAx k g a src) order m (padded (gL g) x y z) = w * src i).
  { intros NF src m. destruct (rows_put g (siteAx k g a src) (fun x y z => if aS a (idx g x y z) then 0 else src (idx g x y z)) order m HA) as [P _].
    - intros m0 b c d. destruct k; try reflexivity; contradiction.
    - rewrite <- odx_eq, P by assumption. rewrite idx_eq. fold i. unfold w. destruct k; try contradiction; destruct (aS a i); ring. }
  unfold axGV, axK. destruct k; split; first [apply FL; reflexivity | apply OT; discriminate | contradiction].
Qed.
Theorem axion_rest g a k slices order m2 j : allSlices g slices -> allRows g order -> (forall x y z, (x < gL g)%nat -> (y < gL g)%nat -> (z < gLz g)%nat -> j <> padded (gL g) x y z) -> k <> AAxit ->
  axGV k g a slices order m2 j = m2 j /\ axK k g a slices order m2 j = m2 j /\ axNl k g a order m2 j = m2 j.
Proof.
  intros HS HA H NK.
  assert (FL : forall src m, copyRows g src slices m j = m j).
  { intros src m. apply copyRows_other. intros sl I C. apply HS in I. assert (L0 : (gL g <> 0)%nat) by lia.
    apply (H (j - sl * (gL g + 2)) (sl mod gL g) (sl / gL g))%nat.
    - lia.
    - apply Nat.mod_upper_bound. exact L0.
    - apply Nat.div_lt_upper_bound; assumption.
    - unfold padded. pose proof (Nat.div_mod sl (gL g) L0). replace (sl mod gL g + gL g * (sl / gL g))%nat with sl by lia. lia. }
  assert (H' : forall x y z, (x < gL g)%nat -> (y < gL g)%nat -> (z < gLz g)%nat -> j <> odx g x y z) by (intros x y z; rewrite odx_eq; apply H).
  assert (OT : forall src m, rows g (siteAx k g a src) order m j = m j).
  { intros src m. destruct (rows_put g (siteAx k g a src) (fun x y z => if aS a (idx g x y z) then 0 else src (idx g x y z)) order m HA) as [_ Q]; [intros; destruct k; try reflexivity; contradiction|apply Q, H']. }
  split; [|split].
  - unfold axGV. destruct k; auto.
  - unfold axK. destruct k; auto.
  - unfold axNl. destruct (rows_put g (siteNl k g a) (fun x y z => siteNl k g a (fun _ => 0) x y z (odx g x y z)) order m2 HA) as [_ Q]; [|apply Q, H'].
    intros m b c d. unfold siteNl. cbv zeta. destruct k; try contradiction; rewrite put_at; reflexivity.
Qed.
(** The nonlinear potential: 2R sin of half the angle m/R. *)
Theorem axion_nonlinear_partial g a k order m2 : allRows g order -> k <> AAxit -> aR a <> 0 -> forall x y z, (x < gL g)%nat -> (y < gL g)%nat -> (z < gLz g)%nat ->
  let i := plain (gL g) x y z in
  axNl k g a order m2 (padded (gL g) x y z) = match k with AAxit2 => if aS a i then 0 else 1 | _ => 1 end * (2 * aR a * sin (aM a i / aR a / 2)).
Proof.
  intros HA NK HR x y z Hx Hy Hz i. unfold axNl.
  destruct (rows_put g (siteNl k g a) (fun x y z => siteNl k g a (fun _ => 0) x y z (odx g x y z)) order m2 HA) as [P _].
  { intros m b c d. unfold siteNl. cbv zeta. destruct k; try contradiction; rewrite put_at; reflexivity. }
  rewrite <- odx_eq, P by assumption. unfold siteNl. cbv zeta. rewrite idx_eq. fold i. replace (aM a i * (1 / (aR a * 2))) with (aM a i / aR a / 2) by (field; exact HR).
  destruct k; try contradiction; rewrite put_at; try ring. destruct (aS a i); ring.
Qed.
Definition a1 : ax := Ax 1 (fun i => INR i) (fun i => 10 * INR i) (fun i => (i =? 1)%nat).
Example axion_case : axK AAxit2 g1 a1 [1; 0]%nat o1 (fun _ => 7) 4%nat = 10 * 2 /\ axK AAxit2 g1 a1 [1; 0]%nat o1 (fun _ => 7) 1%nat = 0 /\ axGV AFlat g1 a1 [1; 0]%nat o1 (fun _ => 7) 5%nat = INR 3.
Proof.
  assert (HS : allSlices g1 [1; 0]%nat) by (intros s; cbn; lia).
  pose proof (axion_input_partial g1 a1 AAxit2 [1; 0]%nat o1 (fun _ => 7) HS o1_all ltac:(discriminate)) as A.
  pose proof (axion_input_partial g1 a1 AFlat [1; 0]%nat o1 (fun _ => 7) HS o1_all ltac:(discriminate)) as B.
  split; [|split].
  - destruct (A 0%nat 1%nat 0%nat ltac:(cbn; lia) ltac:(cbn; lia) ltac:(cbn; lia)) as [_ E]. etransitivity; [exact E|]. cbn. ring.
  - destruct (A 1%nat 0%nat 0%nat ltac:(cbn; lia) ltac:(cbn; lia) ltac:(cbn; lia)) as [_ E]. etransitivity; [exact E|]. cbn. ring.
  - destruct (B 1%nat 1%nat 0%nat ltac:(cbn; lia) ltac:(cbn; lia) ltac:(cbn; lia)) as [E _]. etransitivity; [exact E|]. cbn. ring.
Qed.
(** With Axit the kinetic spectrum does not depend on the velocity: it is that of the field. *)
Theorem axit_velocity_refuted g a w slices order m2 : axK AAxit g a slices order m2 = axK AAxit g (Ax (aR a) (aM a) w (aS a)) slices order m2 /\ axK AAxit g a slices order m2 = axGV AAxit g a slices order m2.
Proof. split; [|reflexivity]. apply rows_ext. reflexivity. Qed.
Lemma tanh_half : tanh (5 * (1 / 2) - 1) <> 0.
Proof.
  unfold tanh, sinh, cosh. set (x := 5 * (1 / 2) - 1). assert (A : exp (- x) < exp x) by (apply exp_increasing; unfold x; lra). pose proof (exp_pos x). pose proof (exp_pos (- x)).
  intros E. assert (F : (exp x - exp (- x)) / 2 / ((exp x + exp (- x)) / 2) * ((exp x + exp (- x)) / 2) = 0) by (rewrite E; ring).
  replace ((exp x - exp (- x)) / 2 / ((exp x + exp (- x)) / 2) * ((exp x + exp (- x)) / 2)) with ((exp x - exp (- x)) / 2) in F by (field; lra). lra.
Qed.
(** And the weights are overwritten by the result before they are used. *)
Theorem axit_weight_refuted : exists g a order m2 x y z, allRows g order /\ (x < gL g)%nat /\ (y < gL g)%nat /\ (z < gLz g)%nat /\ forall slices,
  axGV AAxit g a slices order m2 (padded (gL g) x y z) <> aM a (plain (gL g) x y z) * axWeight (m2 (plain (gL g) x y z)).
Proof.
  exists (Grid 2 2 1), (Ax 1 (fun _ => 1) (fun _ => 0) (fun _ => false)), [(0, 0); (1, 0); (0, 1); (1, 1)]%nat, (fun _ => 1 / 5), 0%nat, 0%nat, 1%nat.
  split.
  { split; [repeat constructor; cbn; intuition discriminate|]. intros y z. cbn. split.
    - intros [E|[E|[E|[E|[]]]]]; injection E as <- <-; lia.
    - intros [A B]. destruct y as [|[|]], z as [|[|]]; try lia; auto. }
  cbn [gL gLz]. do 3 (split; [lia|]). intros slices.
  assert (W : axWeight (1 / 5) = 1 / 2) by (unfold axWeight; replace (5 * (1 / 5) - 1) with 0 by field; unfold tanh; rewrite sinh_0, cosh_0; replace (0 / 1) with 0 by field; lra).
  assert (V : axGV AAxit (Grid 2 2 1) (Ax 1 (fun _ => 1) (fun _ => 0) (fun _ => false)) slices [(0, 0); (1, 0); (0, 1); (1, 1)]%nat (fun _ => 1 / 5) (padded 2 0 0 1) = 1 * axWeight (1 * axWeight (1 / 5))).
  { cbv -[Rmult Rplus Rdiv IZR axWeight]. reflexivity. }
  rewrite V. cbn [aM]. cbv beta. rewrite !W, !Rmult_1_l. unfold axWeight. intros E. apply tanh_half. lra.
Qed.

Print Assumptions nrun_z_partial.
Print Assumptions nrun_z_refuted.
Print Assumptions old_gradient_x_partial.
Print Assumptions old_gradient_yz_partial.
Print Assumptions old_cases_refuted.
Print Assumptions old_potential_partial.
Print Assumptions old_potential_refuted.
Print Assumptions axion_input_partial.
Print Assumptions axion_rest.
Print Assumptions axion_nonlinear_partial.
Print Assumptions axit_velocity_refuted.
Print Assumptions axit_weight_refuted.
