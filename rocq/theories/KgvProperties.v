(** C126, C127: what the number spectra of the complex field are taken of. *)
From Coq Require Import Reals List Arith Bool Lia Lra.
From Verif Require Import KgvModel KgvSpec KgvProofs.
From Verif Require ThetaModel ThetaProperties.
Import ListNotations.
Local Open Scope R_scope.
Ltac Zify.zify_post_hook ::= idtac.

(** ** C126: velocity and gradient *)
(** Far from a string, or with the correction off: the mask's weight times R times the rate of the angle, in rows two longer, whatever the threads do. For a smooth mask the slab must not be
    longer than Ng times its width. Missing: the mask of the saxion, rounding. *)
Theorem velocity_partial K p g r phi lut k order m2 : (0 < gL g)%nat -> (1 <= gNg g <= K * gLz g)%nat -> (p < K)%nat -> rR r <> 0 -> holds K p g (rM r) phi -> allRows g order ->
  k <> Saxi -> (k = Gaus \/ k = Diff -> (gLz g <= gNg g * gL g)%nat) -> forall x y z rho th q, (x < gL g)%nat -> (y < gL g)%nat -> (z < gLz g)%nat ->
  let N := (K * gLz g)%nat in let Z := (p * gLz g + z)%nat in let i := plain (gL g) x y z in let a := shifted (rSh r) (phi x y Z) in
  lut = None \/ far a (alongX (gL g) phi x y Z) (alongY (gL g) phi x y Z) (alongZ N phi x y Z) -> turns rho th a (rV r i) q ->
  buildK lut true k g r order m2 (padded (gL g) x y z) = weight k (rR r) rho (rS r i) (m2 (v3 g + i)%nat) * (rR r * q).
Proof.
  intros HL HN HP HR HM HA HK HG x y z rho th q Hx Hy Hz N Z i a F T.
  pose proof (Ok K p g r phi HL HN HP HM) as O.
  destruct (rows_one g (pick k) true (rR r) 1 r (fun x y z => turn lut g r x y z (rV r (idx g x y z))) order m2 HA) as [P _].
  { intros S _. apply HG. rewrite smooth_pick in S. destruct k; try discriminate; auto. }
  pose proof (P x y z Hx Hy Hz) as E. cbv zeta in E. rewrite odx_eq in E. unfold buildK. etransitivity; [exact E|].
  assert (A0 : at0 g r x y z = a) by (apply (at0_eq K p); assumption).
  rewrite (turn_eq lut g r x y z rho th _ q).
  - destruct T as (Pr & Ea & _). rewrite (fac_eq (pick k) g r (rR r) 1 m2 x y z rho th HR Pr) by (try (rewrite A0; exact Ea); ring).
    rewrite pick_pick, weight_pick, idx_eq. fold i. ring.
  - rewrite A0, (dx_eq K p g r phi), (dy_eq K p g r phi), (dz_eq K p g r phi) by assumption. exact F.
  - rewrite A0, idx_eq. exact T.
Qed.
(** Near a string, with the correction: instead of the rate, the correction for the field, a fifth of its changes along the three axes and the velocity. *)
Theorem velocity_near_partial K p g r phi c k order m2 : (0 < gL g)%nat -> (1 <= gNg g <= K * gLz g)%nat -> (p < K)%nat -> rR r <> 0 -> holds K p g (rM r) phi -> allRows g order ->
  k <> Saxi -> (k = Gaus \/ k = Diff -> (gLz g <= gNg g * gL g)%nat) -> forall x y z rho th, (x < gL g)%nat -> (y < gL g)%nat -> (z < gLz g)%nat ->
  let N := (K * gLz g)%nat in let Z := (p * gLz g + z)%nat in let i := plain (gL g) x y z in let a := shifted (rSh r) (phi x y Z) in
  ~ far a (alongX (gL g) phi x y Z) (alongY (gL g) phi x y Z) (alongZ N phi x y Z) -> a = (rho * cos th, rho * sin th) -> 0 < rho ->
  let fifth d := (0.2 * fst d, 0.2 * snd d) in
  buildK (Some c) true k g r order m2 (padded (gL g) x y z) =
  weight k (rR r) rho (rS r i) (m2 (v3 g + i)%nat) * (rR r * c a (fifth (alongX (gL g) phi x y Z)) (fifth (alongY (gL g) phi x y Z)) (fifth (alongZ N phi x y Z)) (rV r i)).
Proof.
  intros HL HN HP HR HM HA HK HG x y z rho th Hx Hy Hz N Z i a F Ea Pr fifth.
  pose proof (Ok K p g r phi HL HN HP HM) as O.
  destruct (rows_one g (pick k) true (rR r) 1 r (fun x y z => turn (Some c) g r x y z (rV r (idx g x y z))) order m2 HA) as [P _].
  { intros S _. apply HG. rewrite smooth_pick in S. destruct k; try discriminate; auto. }
  pose proof (P x y z Hx Hy Hz) as E. cbv zeta in E. rewrite odx_eq in E. unfold buildK. etransitivity; [exact E|].
  assert (A0 : at0 g r x y z = a) by (apply (at0_eq K p); assumption).
  assert (FF : ~ far (at0 g r x y z) (dx g r x y z) (dy g r x y z) (dz g r x y z)) by (rewrite A0, (dx_eq K p g r phi), (dy_eq K p g r phi), (dz_eq K p g r phi) by assumption; exact F).
  rewrite (fac_eq (pick k) g r (rR r) 1 m2 x y z rho th HR Pr) by (try (rewrite A0; exact Ea); ring).
  rewrite pick_pick, weight_pick, idx_eq. fold i. unfold turn. cbv zeta. rewrite (near_uses g r x y z FF).
  rewrite A0, (dx_eq K p g r phi), (dy_eq K p g r phi), (dz_eq K p g r phi) by assumption.
  assert (S2 : forall d : cx, scale2 pre d = fifth d) by (intros d; unfold scale2, pre, fifth; f_equal; lra). rewrite !S2. fold Z N. ring.
Qed.
(** The map of the velocity: the same in rows of the box. *)
Theorem velocity_map_partial K p g r phi lut order m2 : (0 < gL g)%nat -> (1 <= gNg g <= K * gLz g)%nat -> (p < K)%nat -> rR r <> 0 -> holds K p g (rM r) phi -> allRows g order ->
  forall x y z rho th q, (x < gL g)%nat -> (y < gL g)%nat -> (z < gLz g)%nat ->
  let N := (K * gLz g)%nat in let Z := (p * gLz g + z)%nat in let i := plain (gL g) x y z in let a := shifted (rSh r) (phi x y Z) in
  lut = None \/ far a (alongX (gL g) phi x y Z) (alongY (gL g) phi x y Z) (alongZ N phi x y Z) -> turns rho th a (rV r i) q ->
  buildK lut false Flat g r order m2 i = rR r * q.
Proof.
  intros HL HN HP HR HM HA x y z rho th q Hx Hy Hz N Z i a F T.
  pose proof (Ok K p g r phi HL HN HP HM) as O.
  destruct (rows_one g Flat false (rR r) 1 r (fun x y z => turn lut g r x y z (rV r (idx g x y z))) order m2 HA) as [P _]; [discriminate|].
  pose proof (P x y z Hx Hy Hz) as E. cbv zeta in E. unfold i. rewrite <- idx_eq. unfold buildK. etransitivity; [exact E|].
  assert (A0 : at0 g r x y z = a) by (apply (at0_eq K p); assumption).
  rewrite (turn_eq lut g r x y z rho th _ q).
  - reflexivity.
  - rewrite A0, (dx_eq K p g r phi), (dy_eq K p g r phi), (dz_eq K p g r phi) by assumption. exact F.
  - rewrite A0, idx_eq. exact T.
Qed.
(** Nothing else is written: the mask of a smooth one stays. *)
Theorem velocity_rest g r lut k order m2 j : allRows g order -> (k = Gaus \/ k = Diff -> (gLz g <= gNg g * gL g)%nat) ->
  (forall x y z, (x < gL g)%nat -> (y < gL g)%nat -> (z < gLz g)%nat -> j <> padded (gL g) x y z) -> buildK lut true k g r order m2 j = m2 j /\ buildX lut k g r order m2 j = m2 j.
Proof.
  intros HA HG H. assert (HG' : smooth (pick k) = true -> true = true -> (gLz g <= gNg g * gL g)%nat) by (intros S _; apply HG; rewrite smooth_pick in S; destruct k; try discriminate; auto).
  split.
  - destruct (rows_one g (pick k) true (rR r) 1 r (fun x y z => turn lut g r x y z (rV r (idx g x y z))) order m2 HA HG') as [_ Q].
    apply Q. intros x y z A B C. rewrite odx_eq. apply H; assumption.
  - destruct (rows_one g (pick k) true (rR r / rD r / 2) (1 / rD r / 2) r (fun x y z => turn lut g r x y z (dx g r x y z)) order m2 HA HG') as [_ Q].
    apply Q. intros x y z A B C. rewrite odx_eq. apply H; assumption.
Qed.
(** The gradient along x: R over twice the spacing times the turn from one neighbour to the other. *)
Theorem gradient_x_partial K p g r phi lut k order m2 : (0 < gL g)%nat -> (1 <= gNg g <= K * gLz g)%nat -> (p < K)%nat -> rR r <> 0 -> holds K p g (rM r) phi -> allRows g order ->
  k <> Saxi -> (k = Gaus \/ k = Diff -> (gLz g <= gNg g * gL g)%nat) -> forall x y z rho th q, (x < gL g)%nat -> (y < gL g)%nat -> (z < gLz g)%nat ->
  let N := (K * gLz g)%nat in let Z := (p * gLz g + z)%nat in let i := plain (gL g) x y z in let a := shifted (rSh r) (phi x y Z) in
  lut = None \/ far a (alongX (gL g) phi x y Z) (alongY (gL g) phi x y Z) (alongZ N phi x y Z) -> turns rho th a (alongX (gL g) phi x y Z) q ->
  buildX lut k g r order m2 (padded (gL g) x y z) = weight k (rR r) rho (rS r i) (m2 (v3 g + i)%nat) * (rR r * (q / rD r / 2)).
Proof.
  intros HL HN HP HR HM HA HK HG x y z rho th q Hx Hy Hz N Z i a F T.
  pose proof (Ok K p g r phi HL HN HP HM) as O.
  destruct (rows_one g (pick k) true (rR r / rD r / 2) (1 / rD r / 2) r (fun x y z => turn lut g r x y z (dx g r x y z)) order m2 HA) as [P _].
  { intros S _. apply HG. rewrite smooth_pick in S. destruct k; try discriminate; auto. }
  pose proof (P x y z Hx Hy Hz) as E. cbv zeta in E. rewrite odx_eq in E. unfold buildX. etransitivity; [exact E|].
  assert (A0 : at0 g r x y z = a) by (apply (at0_eq K p); assumption).
  rewrite (turn_eq lut g r x y z rho th _ q).
  - destruct T as (Pr & Ea & _). rewrite (fac_eq (pick k) g r (rR r / rD r / 2) (1 / rD r / 2) m2 x y z rho th HR Pr) by (try (rewrite A0; exact Ea); unfold Rdiv; ring).
    rewrite pick_pick, weight_pick, idx_eq. fold i. unfold Rdiv. ring.
  - rewrite A0, (dx_eq K p g r phi), (dy_eq K p g r phi), (dz_eq K p g r phi) by assumption. exact F.
  - rewrite A0, (dx_eq K p g r phi) by assumption. exact T.
Qed.
Lemma yz_rows g r lut k order m2 : allRows g order -> (gLz g <= gNg g * gL g)%nat ->
  let f m x y z := fac (pick k) g r (rR r / rD r / 2) (1 / rD r / 2) m x y z in
  let out := buildYZ lut k g r order m2 in
  let B x y z := (v3 g + if smooth (pick k) then idx g x y z else odx g x y z)%nat in
  (forall x y z, (x < gL g)%nat -> (y < gL g)%nat -> (z < gLz g)%nat ->
    out (odx g x y z) = f m2 x y z * turn lut g r x y z (dy g r x y z) /\ out (B x y z) = f m2 x y z * turn lut g r x y z (dz g r x y z)) /\
  (forall j, (forall x y z, (x < gL g)%nat -> (y < gL g)%nat -> (z < gLz g)%nat -> j <> odx g x y z /\ j <> B x y z) -> out j = m2 j).
Proof.
  intros HA HR f out B. unfold out, buildYZ.
  apply (rows_two g (pick k) (siteYZ lut (pick k) g r) (odx g) B (fun m x y z => f m x y z * turn lut g r x y z (dy g r x y z)) (fun m x y z => f m x y z * turn lut g r x y z (dz g r x y z))); try assumption; try reflexivity.
  - intros m x y z Hx Hy Hz. unfold siteYZ. cbv zeta. unfold f, B.
    rewrite (fac_at (pick k) g r (rR r / rD r / 2) (1 / rD r / 2) (put m (odx g x y z) _) m).
    + destruct (pick k); reflexivity.
    + apply put_other. pose proof (padded_lt3 g (x, y, z) (conj Hx (conj Hy Hz))) as Lt. cbn [fst snd] in Lt. pose proof (room g HR). lia.
  - intros m m' x y z H. unfold f. destruct (smooth (pick k)) eqn:S.
    + rewrite (fac_at _ _ _ _ _ m m') by (apply H; reflexivity). split; reflexivity.
    + rewrite (fac_indep _ _ _ _ _ m m') by exact S. split; reflexivity.
Qed.
(** Along y and z, the latter in the second half of m2 in rows two longer, but with a smooth mask in rows of the box. *)
Theorem gradient_yz_partial K p g r phi lut k order m2 : (0 < gL g)%nat -> (1 <= gNg g <= K * gLz g)%nat -> (p < K)%nat -> rR r <> 0 -> holds K p g (rM r) phi -> allRows g order ->
  k <> Saxi -> (gLz g <= gNg g * gL g)%nat -> forall x y z rho th q t, (x < gL g)%nat -> (y < gL g)%nat -> (z < gLz g)%nat ->
  let N := (K * gLz g)%nat in let Z := (p * gLz g + z)%nat in let i := plain (gL g) x y z in let a := shifted (rSh r) (phi x y Z) in
  lut = None \/ far a (alongX (gL g) phi x y Z) (alongY (gL g) phi x y Z) (alongZ N phi x y Z) ->
  turns rho th a (alongY (gL g) phi x y Z) q -> turns rho th a (alongZ N phi x y Z) t ->
  let out := buildYZ lut k g r order m2 in let w := weight k (rR r) rho (rS r i) (m2 (v3 g + i)%nat) in
  out (padded (gL g) x y z) = w * (rR r * (q / rD r / 2)) /\
  out (v3 g + match k with Gaus | Diff => i | _ => padded (gL g) x y z end)%nat = w * (rR r * (t / rD r / 2)).
Proof.
  intros HL HN HP HR HM HA HK HG x y z rho th q t Hx Hy Hz N Z i a F T U out w.
  pose proof (Ok K p g r phi HL HN HP HM) as O.
  destruct (yz_rows g r lut k order m2 HA HG) as [P _]. destruct (P x y z Hx Hy Hz) as [E1 E2]. cbv zeta in E1, E2.
  assert (A0 : at0 g r x y z = a) by (apply (at0_eq K p); assumption).
  assert (FF : lut = None \/ far (at0 g r x y z) (dx g r x y z) (dy g r x y z) (dz g r x y z)) by (rewrite A0, (dx_eq K p g r phi), (dy_eq K p g r phi), (dz_eq K p g r phi) by assumption; exact F).
  rewrite (turn_eq lut g r x y z rho th _ q FF) in E1 by (rewrite A0, (dy_eq K p g r phi) by assumption; exact T).
  rewrite (turn_eq lut g r x y z rho th _ t FF) in E2 by (rewrite A0, (dz_eq K p g r phi) by assumption; exact U).
  destruct T as (Pr & Ea & _). rewrite (fac_eq (pick k) g r (rR r / rD r / 2) (1 / rD r / 2) m2 x y z rho th HR Pr) in E1, E2 by (try (rewrite A0; exact Ea); unfold Rdiv; ring).
  rewrite pick_pick, weight_pick, idx_eq in E1, E2. fold i in E1, E2. fold w in E1, E2. rewrite odx_eq in E1, E2. fold out in E1, E2. split.
  - rewrite E1. unfold Rdiv. ring.
  - replace (v3 g + match k with Gaus | Diff => i | _ => padded (gL g) x y z end)%nat with (v3 g + (if smooth (pick k) then i else padded (gL g) x y z))%nat by (destruct k; reflexivity).
    rewrite E2. unfold Rdiv. ring.
Qed.
(** Nothing else is written there either. *)
Theorem gradient_yz_rest g r lut k order m2 j : allRows g order -> (gLz g <= gNg g * gL g)%nat ->
  (forall x y z, (x < gL g)%nat -> (y < gL g)%nat -> (z < gLz g)%nat -> j <> padded (gL g) x y z /\ j <> (v3 g + match k with Gaus | Diff => plain (gL g) x y z | _ => padded (gL g) x y z end)%nat) ->
  buildYZ lut k g r order m2 j = m2 j.
Proof.
  intros HA HR H. destruct (yz_rows g r lut k order m2 HA HR) as [_ Q]. apply Q. intros x y z A B C. destruct (H x y z A B C) as [N1 N2]. rewrite odx_eq, idx_eq.
  split; [exact N1|]. destruct k; exact N2.
Qed.

(** A constant field on 2 x 2 x 1 sites of one rank, one ghost slice. *)
Definition g1 : grid := Grid 2 1 1.
Definition r1 : rk := Rk 1 1 0 (fun _ => (1, 0)) (fun _ => (0, 3)) (fun _ => false).
Definition o1 : list (nat * nat) := [(0, 0); (1, 0)]%nat.
Lemma o1_all : allRows g1 o1.
Proof.
  split; [repeat constructor; cbn; intuition discriminate|]. intros y z. cbn. split.
  - intros [E|[E|[]]]; injection E as <- <-; lia.
  - intros [A B]. destruct y as [|[|]]; [left|right; left|lia]; f_equal; lia.
Qed.
Lemma r1_turns q : turns 1 0 (1, 0) (0, q) q.
Proof. split; [lra|]. rewrite cos_0, sin_0. split; [f_equal; ring|]. exists 0. f_equal; ring. Qed.
Example velocity_case : forall k, k <> Saxi -> buildK None true k g1 r1 o1 (fun _ => 7) 5%nat = match k with Gaus | Diff => 21 | _ => 3 end.
Proof.
  intros k NS.
  pose proof (velocity_partial 1 0 g1 r1 (fun _ _ _ => (1, 0)) None k o1 (fun _ => 7) ltac:(cbn; lia) ltac:(cbn; lia) ltac:(lia) ltac:(cbn; lra) ltac:(intros ? ? ? ? ? ?; reflexivity)
    o1_all NS ltac:(cbn; lia) 1%nat 1%nat 0%nat 1 0 3 ltac:(cbn; lia) ltac:(cbn; lia) ltac:(cbn; lia) (or_introl eq_refl)) as E.
  cbv zeta in E. unfold shifted in E. cbn [fst snd rSh r1] in E. replace (1 - 0) with 1 in E by ring. specialize (E (r1_turns 3)).
  change (padded (gL g1) 1 1 0) with 5%nat in E. rewrite E. destruct k; cbn; field.
Qed.
Example near_case : let phi x y z := match (x + y + z)%nat with 0%nat => (1, 1) | 1%nat => (3, 3) | _ => (0, 0) end in
  ~ far (phi 0 0 0)%nat (alongX 3 phi 0 0 0) (alongY 3 phi 0 0 0) (alongZ 3 phi 0 0 0) /\ exists rho th, 0 < rho /\ phi 0%nat 0%nat 0%nat = (rho * cos th, rho * sin th).
Proof.
  cbv zeta. split.
  - intros (d & I & H). assert (d = (3, 3)) as -> by (destruct I as [<-|[<-|[<-|[]]]]; unfold alongX, alongY, alongZ, minus; cbn; f_equal; ring).
    cbn [fst snd Nat.add] in H. rewrite !Rabs_pos_eq in H by lra. lra.
  - exists (sqrt 2), (PI / 4). pose proof (sqrt_lt_R0 2 ltac:(lra)) as P. split; [exact P|]. cbn [Nat.add]. rewrite cos_PI4, sin_PI4. f_equal; field; lra.
Qed.
(** With a smooth mask the z gradient of the padded row is not written: the transform takes what was there. *)
Theorem smooth_z_refuted : exists g r order m2 k, allRows g order /\ (gLz g <= gNg g * gL g)%nat /\ (k = Gaus \/ k = Diff) /\ holds 1 0 g (rM r) (fun _ _ _ => (1, 0)) /\ rSh r = 0 /\ rR r = 1 /\
  turns 1 0 (1, 0) (alongZ 1 (fun _ _ _ => (1, 0)) 0 1 0) 0 /\ buildYZ None k g r order m2 (v3 g + padded (gL g) 0 1 0)%nat = 7.
Proof.
  exists g1, r1, o1, (fun _ => 7), Gaus. split; [exact o1_all|]. split; [cbn; lia|]. split; [left; reflexivity|]. split; [intros ? ? ? ? ? ?; reflexivity|]. split; [reflexivity|]. split; [reflexivity|]. split.
  - replace (alongZ 1 (fun _ _ _ => (1, 0)) 0 1 0) with ((0, 0) : R * R) by (unfold alongZ, minus; cbn [fst snd]; f_equal; ring). apply r1_turns.
  - rewrite (gradient_yz_rest g1 r1 None Gaus o1 (fun _ => 7)); [reflexivity|exact o1_all|cbn; lia|].
    intros x y z Hx Hy Hz. cbn in Hx, Hy, Hz |- *. assert (z = 0%nat) by lia. subst. destruct x as [|[|]], y as [|[|]]; cbn; lia.
Qed.
(** The mask of the saxion: as no mask at all, the second half is not written. *)
Theorem saxi_refuted : (forall lut pd g r order m2, buildK lut pd Saxi g r order m2 = buildK lut pd Flat g r order m2) /\
  exists g r order m2, allRows g order /\ (gLz g <= gNg g * gL g)%nat /\ snd (rV r 0%nat) = 3 /\ buildK None true Saxi g r order m2 (v3 g) = 7.
Proof.
  split; [reflexivity|]. exists g1, r1, o1, (fun _ => 7). split; [exact o1_all|]. split; [cbn; lia|]. split; [reflexivity|].
  destruct (velocity_rest g1 r1 None Saxi o1 (fun _ => 7) (v3 g1) o1_all) as [E _]; [cbn; lia| |exact E].
  intros x y z Hx Hy Hz. cbn in Hx, Hy, Hz |- *. assert (z = 0%nat) by lia. subst. destruct x as [|[|]], y as [|[|]]; cbn; lia.
Qed.
(** A slab longer than Ng times its width: the y gradient of a site and the z gradient of another have one place, and are not both right, in any order. *)
Theorem long_refuted : exists phi r g, (gNg g * gL g < gLz g)%nat /\ holds 1 0 g (rM r) phi /\ rR r = 1 /\ rD r = 1 /\ rSh r = 0 /\
  turns 1 0 (phi 0 1 2)%nat (alongY 2 phi 0 1 2) 0 /\ turns 1 0 (phi 0 0 0)%nat (alongZ 3 phi 0 0 0) 1 /\
  forall lut order m2, ~ (buildYZ lut Flat g r order m2 (padded 2 0 1 2) = 0 /\ buildYZ lut Flat g r order m2 (v3 g + padded 2 0 0 0)%nat = 1 * (1 / 1 / 2)).
Proof.
  exists (fun x y z => if (z =? 1)%nat then (1, 1) else (1, 0)).
  exists (Rk 1 1 0 (fun i => if ((i / 4 + 2) mod 3 =? 1)%nat then (1, 1) else (1, 0)) (fun _ => (0, 0)) (fun _ => false)), (Grid 2 3 1).
  split; [cbn; lia|]. split; [|do 3 (split; [reflexivity|])].
  - intros x y z Hx Hy Hz. cbn [gL gLz gNg rM] in *. replace (x + 2 * (y + 2 * z))%nat with (x + 2 * y + z * 4)%nat by lia. rewrite Nat.div_add by lia.
    replace ((x + 2 * y) / 4)%nat with 0%nat by (symmetry; apply Nat.div_small; lia). replace (0 * 3 + z + (1 * 3 - 1))%nat with (0 + z + 2)%nat by lia. reflexivity.
  - split; [|split].
    + replace (alongY 2 _ 0 1 2) with ((0, 0) : R * R) by (unfold alongY, minus; cbn; f_equal; ring). cbn. apply r1_turns.
    + replace (alongZ 3 _ 0 0 0) with ((0, 1) : R * R) by (unfold alongZ, minus; cbn; f_equal; ring). cbn. apply r1_turns.
    + intros lut order m2 [A B]. change (v3 (Grid 2 3 1) + padded 2 0 0 0)%nat with (padded 2 0 1 2) in B. rewrite A in B. lra.
Qed.

(** ** C127: the potential *)
(** 2R sin of half the angle, with the weight of the mask. Missing: rounding, the mask of the saxion. *)
Theorem potential_partial K p g r phi k order m2 : (0 < gL g)%nat -> (1 <= gNg g <= K * gLz g)%nat -> (p < K)%nat -> rR r <> 0 -> holds K p g (rM r) phi -> allRows g order ->
  k <> Saxi -> (gLz g <= gNg g * gL g)%nat -> forall x y z rho th, (x < gL g)%nat -> (y < gL g)%nat -> (z < gLz g)%nat ->
  let i := plain (gL g) x y z in shifted (rSh r) (phi x y (p * gLz g + z)%nat) = (rho * cos th, rho * sin th) -> 0 < rho -> - PI < th <= PI ->
  buildV k g r order m2 (padded (gL g) x y z) = weight k (rR r) rho (rS r i) (m2 (v3 g + i)%nat) * (2 * rR r * sin (th / 2)).
Proof.
  intros HL HN HP HR HM HA HK HG x y z rho th Hx Hy Hz i E Pr Pt. pose proof (Ok K p g r phi HL HN HP HM) as O.
  assert (A0 : at0 g r x y z = (rho * cos th, rho * sin th)) by (rewrite <- E; apply (at0_eq K p); assumption).
  rewrite <- odx_eq. rewrite (potential_at g r k order m2 HA HG x y z Hx Hy Hz). unfold potWeight. rewrite A0. cbn [fst snd]. rewrite norm, sqrt_square by lra.
  rewrite ThetaProperties.arg_polar by assumption. replace (0.5 * th) with (th / 2) by lra. rewrite idx_eq. fold i.
  destruct k; cbn [pick weight]; try ring; try (field; exact HR).
Qed.
(** The second half: the angle is measured from the imaginary axis, backwards. For a smooth mask nothing is written. *)
Theorem linear_partial K p g r phi k order m2 : (0 < gL g)%nat -> (1 <= gNg g <= K * gLz g)%nat -> (p < K)%nat -> rR r <> 0 -> holds K p g (rM r) phi -> allRows g order ->
  k <> Saxi -> (gLz g <= gNg g * gL g)%nat -> forall x y z rho t, (x < gL g)%nat -> (y < gL g)%nat -> (z < gLz g)%nat ->
  let i := plain (gL g) x y z in shifted (rSh r) (phi x y (p * gLz g + z)%nat) = (rho * sin t, rho * cos t) -> 0 < rho -> - PI < t <= PI ->
  buildV k g r order m2 (v3 g + padded (gL g) x y z)%nat =
  match k with Gaus | Diff => m2 (v3 g + padded (gL g) x y z)%nat | _ => weight k (rR r) rho (rS r i) 1 * (rR r * t) end.
Proof.
  intros HL HN HP HR HM HA HK HG x y z rho t Hx Hy Hz i E Pr Pt. pose proof (Ok K p g r phi HL HN HP HM) as O.
  assert (A0 : at0 g r x y z = (rho * sin t, rho * cos t)) by (rewrite <- E; apply (at0_eq K p); assumption).
  rewrite <- odx_eq. rewrite (linear_at g r k order m2 HA HG x y z Hx Hy Hz). rewrite smooth_pick.
  destruct (smooth k) eqn:S; [destruct k; try discriminate; reflexivity|]. unfold potWeight. rewrite A0. cbn [fst snd].
  replace (rho * sin t * (rho * sin t) + rho * cos t * (rho * cos t)) with (rho * rho) by (rewrite <- (norm rho t) at 1; ring). rewrite sqrt_square by lra.
  rewrite ThetaProperties.arg_polar by assumption. rewrite idx_eq. fold i.
  destruct k; try discriminate; cbn [pick weight]; try ring; try (field; exact HR).
Qed.
(** Where the angle is nought the second half holds R pi/2. *)
Theorem angle_reversed_refuted : exists g r order m2, allRows g order /\ (gLz g <= gNg g * gL g)%nat /\ holds 1 0 g (rM r) (fun _ _ _ => (1 * cos 0, 1 * sin 0)) /\ rSh r = 0 /\ rR r = 1 /\
  buildV Flat g r order m2 (v3 g + padded (gL g) 0 0 0)%nat = PI / 2.
Proof.
  exists g1, r1, o1, (fun _ => 7). split; [exact o1_all|]. split; [cbn; lia|]. split; [intros ? ? ? ? ? ?; cbn [rM r1]; rewrite cos_0, sin_0; f_equal; ring|]. split; [reflexivity|]. split; [reflexivity|].
  pose proof PI_RGT_0 as PP.
  rewrite (linear_partial 1 0 g1 r1 (fun _ _ _ => (1, 0)) Flat o1 (fun _ => 7) ltac:(cbn; lia) ltac:(cbn; lia) ltac:(lia) ltac:(cbn; lra) ltac:(intros ? ? ? ? ? ?; reflexivity)
    o1_all ltac:(discriminate) ltac:(cbn; lia) 0%nat 0%nat 0%nat 1 (PI / 2) ltac:(cbn; lia) ltac:(cbn; lia) ltac:(cbn; lia)); [cbn; ring| |lra|lra].
  rewrite sin_PI2, cos_PI2. unfold shifted. cbn. f_equal; ring.
Qed.
Example potential_case : buildV Flat g1 r1 o1 (fun _ => 7) 5%nat = 0.
Proof.
  change 5%nat with (padded (gL g1) 1 1 0). pose proof PI_RGT_0 as PP.
  rewrite (potential_partial 1 0 g1 r1 (fun _ _ _ => (1, 0)) Flat o1 (fun _ => 7) ltac:(cbn; lia) ltac:(cbn; lia) ltac:(lia) ltac:(cbn; lra) ltac:(intros ? ? ? ? ? ?; reflexivity)
    o1_all ltac:(discriminate) ltac:(cbn; lia) 1%nat 1%nat 0%nat 1 0 ltac:(cbn; lia) ltac:(cbn; lia) ltac:(cbn; lia)); [|unfold shifted; rewrite cos_0, sin_0; cbn; f_equal; ring|lra|lra].
  replace (0 / 2) with 0 by field. rewrite sin_0. ring.
Qed.

Print Assumptions velocity_partial.
Print Assumptions velocity_near_partial.
Print Assumptions velocity_map_partial.
Print Assumptions velocity_rest.
Print Assumptions gradient_x_partial.
Print Assumptions gradient_yz_partial.
Print Assumptions gradient_yz_rest.
Print Assumptions smooth_z_refuted.
Print Assumptions saxi_refuted.
Print Assumptions long_refuted.
Print Assumptions potential_partial.
Print Assumptions linear_partial.
Print Assumptions angle_reversed_refuted.
