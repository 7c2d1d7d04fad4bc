(** Initial configurations of the complex field: smoothing (C85), normalisation, core
    profile and scaling (C86), and the field and velocity that a run starts with (C87). *)
From Coq Require Import Reals List Arith Bool Lia Lra Permutation.
From Verif Require Import KernelModel ForceSpec EnergyModel EnergySpec EnergyProofs ConserveSpec ConserveBoxProofs
  GhostModel GhostSpec GhostProperties InitModel InitSpec InitProofs InitBoxProofs InitFieldProofs.
Import ListNotations.
Open Scope R_scope.

(** ** There are such worlds and such deliveries *)
Definition place (g : grid) (M V : ConserveSpec.cell -> R * R) : world :=
  let at_ (F : ConserveSpec.cell -> R * R) (k : nat) (r i : nat) : num :=
    Some (F ((i mod gL g, (i / gL g) mod gL g, r * gZ g + (i / (gL g * gL g) - k))%nat)) in
  World (at_ M (gNg g)) (at_ V 0%nat) (Some (fun _ _ => Some (0, 0))).
Lemma decode : forall g x y z, (x < gL g)%nat -> (y < gL g)%nat ->
  (spot g x y z mod gL g = x /\ (spot g x y z / gL g) mod gL g = y /\ spot g x y z / (gL g * gL g) = z)%nat.
Proof.
  intros g x y z Hx Hy. assert (HL : (gL g <> 0)%nat) by lia.
  assert (E : spot g x y z = (x + (y + z * gL g) * gL g)%nat) by (unfold spot; ring).
  assert (D : (spot g x y z / gL g = y + z * gL g)%nat) by (rewrite E, Nat.div_add, Nat.div_small by lia; lia).
  split; [rewrite E, Nat.mod_add, Nat.mod_small by lia; reflexivity|]. split.
  - rewrite D, Nat.mod_add, Nat.mod_small by lia. reflexivity.
  - rewrite <- Nat.div_div by lia. rewrite D, Nat.div_add, Nat.div_small by lia. lia.
Qed.
Lemma place_holds : forall g M V, holds g M (place g M V) /\ holdsV g V (place g M V).
Proof.
  intros g M V. split; intros r x y z Hr Hx Hy Hz; unfold place; cbn [wM wV].
  - destruct (decode g x y (gNg g + z) Hx Hy) as (-> & -> & ->). do 4 f_equal. lia.
  - destruct (decode g x y z Hx Hy) as (-> & -> & ->). do 4 f_equal. lia.
Qed.
Lemma some_delivery : forall g, sane g -> exists order, delivery g order.
Proof.
  intros g (HL & HN & HZ & HR & HW).
  destruct (sendGhosts2 ((gNg g * (gL g * gL g) + 1 - 1) / 1) 1 (gRanks g) (gL g * gL g) (gNg g) (gZ g) None) as [l|] eqn:E.
  - exists l. exists ((gNg g * (gL g * gL g) + 1 - 1) / 1)%nat, 1%nat, l. split; [lia|]. split; [exact E | apply Permutation_refl].
  - exfalso. destruct (ghost_exchange2_partial (A := nat) ((gNg g * (gL g * gL g) + 1 - 1) / 1) 1 (gRanks g) (gL g * gL g) (gNg g) (gZ g) None (fun _ => 0%nat) ltac:(lia) ltac:(lia) ltac:(cbn; lia)) as [[K _] _].
    specialize (K E). cbn zeta iota in K. lia.
Qed.
Definition g2 : grid := Grid 4 2 1 2 1000.
Example g2_sane : sane g2.
Proof. unfold sane, g2; cbn; lia. Qed.

(** ** Smoothing: C85 *)
(** For every number of ranks, of iterations and every order in which the messages arrive,
    smoothing is the average over the periodic box, repeated; the ghosts are right at the
    end and the velocity is not touched. *)
Theorem smoothing_averages : forall g alpha first orders M w m2,
  sane g -> Forall (delivery g) (first :: orders) -> holds g M w -> wM2 w = Some m2 ->
  exists w', smooth g alpha first orders w = Done w' /\ holds g (Nat.iter (length orders) (averaged g alpha) M) w' /\
    ghostsHold g (Nat.iter (length orders) (averaged g alpha) M) w' /\ wV w' = wV w.
Proof.
  intros g alpha first orders M w m2 S D H E. inversion D as [|? ? D1 D2]; subst.
  destruct (refresh_holds g first M w S D1 H) as [H1 G1].
  destruct (smooth_iter g alpha orders M (World (refresh first (wM w)) (wV w) (wM2 w)) m2 S D2 H1 G1 E) as (w' & F & H2 & G2 & V & _).
  exists w'. unfold smooth. auto.
Qed.
Example smoothing_averages_meets : exists first orders w m2, length orders = 3%nat /\ Forall (delivery g2) (first :: orders) /\
  holds g2 (planeWave g2 1 1 0 1) w /\ wM2 w = Some m2.
Proof.
  destruct (some_delivery g2 g2_sane) as [o Ho]. exists o, [o; o; o], (place g2 (planeWave g2 1 1 0 1) (fun _ => (0, 0))). eexists.
  split; [reflexivity|]. split; [repeat constructor; exact Ho|]. split; [apply place_holds | reflexivity].
Qed.
(** The answer does not depend on how the box is split among ranks, nor on the deliveries. *)
Theorem smoothing_any_split : forall g g' alpha first orders first' orders' M w w' u u',
  sane g -> sane g' -> gL g = gL g' -> depth g = depth g' -> length orders = length orders' ->
  Forall (delivery g) (first :: orders) -> Forall (delivery g') (first' :: orders') -> holds g M w -> holds g' M w' ->
  smooth g alpha first orders w = Done u -> smooth g' alpha first' orders' w' = Done u' ->
  forall F F', holds g F u -> holds g' F' u' -> forall x, In x (sites g) -> F x = F' x.
Proof.
  intros g g' alpha first orders first' orders' M w w' u u' S S' EL ED EO D D' H H' E E' F F' K K' x Hx.
  destruct (smooth_done g alpha first orders M w u S D H E) as [A _]. destruct (smooth_done g' alpha first' orders' M w' u' S' D' H' E') as [A' _].
  assert (Hx' : In x (sites g')) by (unfold sites in *; rewrite <- EL, <- ED; exact Hx).
  rewrite (holds_unique g F _ u x S K A Hx), (holds_unique g' F' _ u' x S' K' A' Hx'), <- EO.
  assert (Q : forall N y, averaged g alpha N y = averaged g' alpha N y).
  { intros N y. unfold averaged, mean6, next. rewrite EL, ED. reflexivity. }
  clear - Q. revert x. induction (length orders) as [|n IH]; intros x; [reflexivity|]. rewrite !iter_S.
  rewrite Q. unfold averaged, mean6, around6. cbn [fold_right]. rewrite !IH. reflexivity.
Qed.
Print Assumptions smoothing_averages.
Print Assumptions smoothing_any_split.
(** The sum over the box is kept, for every alpha. *)
Theorem smoothing_keeps_mean : forall g alpha first orders M M' w w',
  sane g -> Forall (delivery g) (first :: orders) -> holds g M w -> smooth g alpha first orders w = Done w' -> holds g M' w' ->
  forall u, sumOver (fun x => dot u (M' x)) (sites g) = sumOver (fun x => dot u (M x)) (sites g).
Proof.
  intros g alpha first orders M M' w w' S D H E H' u. destruct (smooth_done g alpha first orders M w w' S D H E) as [A _].
  rewrite (sumOver_ext _ _ _ _ (fun x Hx => f_equal (dot u) (holds_unique g M' _ w' x S H' A Hx))).
  assert (forall n N, sumOver (fun x => dot u (Nat.iter n (averaged g alpha) N x)) (sites g) = sumOver (fun x => dot u (N x)) (sites g)) as K; [|auto].
  induction n as [|n IH]; intros N; [reflexivity|]. rewrite iter_r, IH. apply avg_mean, S.
Qed.
(** With alpha between 0 and 1 the field stays on the same side of every line. *)
Lemma iter_bound : forall g alpha u c n M, 0 <= alpha <= 1 -> (forall x, In x (sites g) -> dot u (M x) <= c) ->
  forall x, In x (sites g) -> dot u (Nat.iter n (averaged g alpha) M x) <= c.
Proof. intros g alpha u c n M Ha B. induction n as [|n IH]; [exact B|]. intros x Hx. rewrite iter_S. apply avg_bound; auto. Qed.
Theorem smoothing_stays_inside : forall g alpha first orders M M' w w' u c,
  sane g -> Forall (delivery g) (first :: orders) -> holds g M w -> smooth g alpha first orders w = Done w' -> holds g M' w' ->
  0 <= alpha <= 1 -> (forall x, In x (sites g) -> dot u (M x) <= c) -> forall x, In x (sites g) -> dot u (M' x) <= c.
Proof.
  intros g alpha first orders M M' w w' u c S D H E H' Ha B x Hx. destruct (smooth_done g alpha first orders M w w' S D H E) as [A _].
  rewrite (holds_unique g M' _ w' x S H' A Hx). apply iter_bound; assumption.
Qed.
(** With alpha between 0 and 1 neither the power nor the roughness grows. *)
Theorem smoothing_smooths : forall g alpha first orders M M' w w',
  sane g -> Forall (delivery g) (first :: orders) -> holds g M w -> smooth g alpha first orders w = Done w' -> holds g M' w' ->
  0 <= alpha <= 1 ->
  sumOver (fun x => sq (M' x)) (sites g) <= sumOver (fun x => sq (M x)) (sites g) /\ roughness g M' <= roughness g M.
Proof.
  intros g alpha first orders M M' w w' S D H E H' Ha. destruct (smooth_done g alpha first orders M w w' S D H E) as [A _].
  pose proof (fun x Hx => holds_unique g M' _ w' x S H' A Hx) as U. split.
  - rewrite (sumOver_ext _ _ _ _ (fun x Hx => f_equal sq (U x Hx))).
    assert (forall n N, sumOver (fun x => sq (Nat.iter n (averaged g alpha) N x)) (sites g) <= sumOver (fun x => sq (N x)) (sites g)) as K; [|auto].
    induction n as [|n IH]; intros N; [apply Rle_refl|]. rewrite iter_r. eapply Rle_trans; [apply IH|]. apply avg_power; assumption.
  - replace (roughness g M') with (roughness g (Nat.iter (length orders) (averaged g alpha) M)).
    2:{ unfold roughness. apply sumOver_ext. intros x Hx. apply sumOver_ext. intros d _. rewrite (U x Hx), (U _ (next_in g d x Hx)). reflexivity. }
    assert (forall n N, roughness g (Nat.iter n (averaged g alpha) N) <= roughness g N) as K; [|auto].
    induction n as [|n IH]; intros N; [apply Rle_refl|]. rewrite iter_r. eapply Rle_trans; [apply IH|]. apply avg_rough; assumption.
Qed.
(** A plane wave keeps its shape; each smoothing multiplies it with a factor that is 1 for
    the uniform field and at most 1. *)
Theorem smoothing_damps_waves : forall g alpha first orders a p q s M' w w',
  sane g -> Forall (delivery g) (first :: orders) -> holds g (planeWave g a p q s) w -> smooth g alpha first orders w = Done w' -> holds g M' w' ->
  let k := alpha + (1 - alpha) / 3 * (cos (2 * PI * INR p / INR (gL g)) + cos (2 * PI * INR q / INR (gL g)) + cos (2 * PI * INR s / INR (depth g))) in
  (forall x, In x (sites g) -> M' x = times (k ^ length orders) (planeWave g a p q s x)) /\
  (0 <= alpha <= 1 -> -1 <= k <= 1) /\ (p = 0%nat -> q = 0%nat -> s = 0%nat -> k = 1).
Proof.
  intros g alpha first orders a p q s M' w w' S D H E H' k. destruct (smooth_done g alpha first orders _ w w' S D H E) as [A _]. split; [|split].
  - intros x Hx. rewrite (holds_unique g M' _ w' x S H' A Hx). apply wave_iter; assumption.
  - apply damping_range.
  - intros -> -> ->. unfold k. cbn [INR]. rewrite !Rmult_0_r. unfold Rdiv. rewrite !Rmult_0_l, cos_0. field.
Qed.
Example smoothing_meets : exists first orders w w' M', length orders = 3%nat /\ Forall (delivery g2) (first :: orders) /\
  holds g2 (planeWave g2 1 1 0 1) w /\ smooth g2 (1 / 2) first orders w = Done w' /\ holds g2 M' w' /\ 0 <= 1 / 2 <= 1.
Proof.
  destruct smoothing_averages_meets as (f & os & w & m2 & L & D & H & E).
  destruct (smoothing_averages g2 (1 / 2) f os _ w m2 g2_sane D H E) as (w' & A & B & _).
  exists f, os, w, w'. eexists. repeat (split; [eassumption|]). lra.
Qed.
(** The lattice Nyquist wave along all axes alternates its sign if alpha < 1/2, and alpha = 1/2
    removes it. *)
Example nyquist : forall g alpha, sane g -> Nat.even (gL g) = true -> Nat.even (depth g) = true ->
  alpha + (1 - alpha) / 3 * (cos (2 * PI * INR (gL g / 2) / INR (gL g)) + cos (2 * PI * INR (gL g / 2) / INR (gL g)) + cos (2 * PI * INR (depth g / 2) / INR (depth g))) = 2 * alpha - 1.
Proof.
  intros g alpha S E1 E2. pose proof (depth_pos g S) as HD. destruct S as (HL & _).
  assert (K : forall n, (0 < n)%nat -> Nat.even n = true -> cos (2 * PI * INR (n / 2) / INR n) = -1).
  { intros n Hn E. apply Nat.even_spec in E. destruct E as [h ->]. replace (2 * h / 2)%nat with h by (symmetry; rewrite Nat.mul_comm; apply Nat.div_mul; lia).
    rewrite mult_INR. cbn [INR]. replace (2 * PI * INR h / ((1 + 1) * INR h)) with PI; [apply cos_PI|]. field. apply not_0_INR. lia. }
  rewrite !K by (auto; lia). field.
Qed.
(** With low memory there is no second array, and the first iteration fails. *)
Theorem smoothing_low_memory_refuted : ~ (forall g alpha first orders M w, sane g -> Forall (delivery g) (first :: orders) -> holds g M w ->
  exists w', smooth g alpha first orders w = Done w').
Proof.
  intros K. destruct (some_delivery g2 g2_sane) as [o Ho].
  destruct (K g2 0 o [o] (fun _ => (1, 0)) (World (wM (place g2 (fun _ => (1, 0)) (fun _ => (0, 0)))) (fun _ _ => None) None) g2_sane ltac:(repeat constructor; exact Ho) (proj1 (place_holds g2 _ (fun _ => (0, 0))))) as [w' E].
  discriminate E.
Qed.
Print Assumptions smoothing_keeps_mean.
Print Assumptions smoothing_stays_inside.
Print Assumptions smoothing_smooths.
Print Assumptions smoothing_damps_waves.
Print Assumptions smoothing_low_memory_refuted.

(** ** Normalisation, core profile, scaling: C86 *)
(** Every number that is not zero gets modulus 1 and keeps its phase; nothing else is
    written. *)
Theorem normalised_field_has_modulus_one : forall p g low M w, holds g M w -> (forall x, In x (sites g) -> M x <> (0, 0)) ->
  exists w' M', normalise p g low InM w = Done w' /\ holds g M' w' /\
    (forall x, In x (sites g) -> size (M' x) = 1 /\ samePhase (M x) (M' x)) /\
    wV w' = wV w /\ wM2 w' = wM2 w /\ forall r i, outside g i -> wM w' r i = wM w r i.
Proof.
  intros p g low M w H N. destruct (normalise_holds p g low M w H N) as (w' & A & B & C). exists w', (fun x => unitOf (M x)).
  split; [exact A|]. split; [exact B|]. split; [|exact C]. intros x Hx. split; [apply size_unit | apply unit_phase]; apply N, Hx.
Qed.
Theorem normalised_velocity_has_modulus_one : forall p g low V w, holdsV g V w -> (forall x, In x (sites g) -> V x <> (0, 0)) ->
  exists w' V', normalise p g low InV w = Done w' /\ holdsV g V' w' /\
    (forall x, In x (sites g) -> size (V' x) = 1 /\ samePhase (V x) (V' x)) /\ wM w' = wM w /\ wM2 w' = wM2 w.
Proof.
  intros p g low V w H N. eexists. exists (fun x => unitOf (V x)). split; [reflexivity|]. split; [|split; [|split; reflexivity]].
  - intros r x y z Hr Hx Hy Hz. cbn [wV]. rewrite overwrite_spot, H by assumption. apply toUnit_some, N, cell_in; assumption.
  - intros x Hx. split; [apply size_unit | apply unit_phase]; apply N, Hx.
Qed.
(** A field of modulus 1 is left as it is. *)
Theorem normalising_twice : forall p g low M w, holds g M w -> (forall x, In x (sites g) -> size (M x) = 1) ->
  exists w', normalise p g low InM w = Done w' /\ holds g M w'.
Proof.
  intros p g low M w H N. destruct (normalise_holds p g low M w H) as (w' & A & B & _).
  - intros x Hx. apply size_not0, N, Hx.
  - exists w'. split; [exact A|]. apply (holds_ext g _ _ w' B). intros x Hx. apply unit_again, N, Hx.
Qed.
Example normalise_meets : exists w, holds g2 (planeWave g2 3 1 0 1) w /\ forall x, In x (sites g2) -> planeWave g2 3 1 0 1 x <> (0, 0).
Proof.
  exists (place g2 (planeWave g2 3 1 0 1) (fun _ => (0, 0))). split; [apply place_holds|]. intros x _ E. unfold planeWave, vacuum in E.
  set (a := angle g2 1 0 1 x) in E. injection E as E1 E2. pose proof (sin2_cos2 a) as Q. unfold Rsqr in Q.
  assert (cos a = 0) by lra. assert (sin a = 0) by lra. rewrite H, H0 in Q. lra.
Qed.
(** One zero and the array contains something that is not a number. *)
Theorem normalise_zero_refuted : ~ (forall p g low M w, sane g -> holds g M w ->
  exists w' M', normalise p g low InM w = Done w' /\ holds g M' w').
Proof.
  intros K. destruct (K Double g2 false (fun _ => (0, 0)) (place g2 (fun _ => (0, 0)) (fun _ => (0, 0))) g2_sane (proj1 (place_holds _ _ _))) as (w' & M' & E & H).
  injection E as <-. specialize (H 0%nat 0%nat 0%nat 0%nat ltac:(cbn; lia) ltac:(cbn; lia) ltac:(cbn; lia) ltac:(cbn; lia)).
  assert (X : toUnit (Some (0, 0)) = Some (M' (0, 0, 0)%nat)) by exact H. rewrite toUnit_zero in X. discriminate X.
Qed.
(** In single precision an unknown field is used although it is reported. *)
Theorem normalise_unknown_field_refuted : ~ (forall p g low w, exists w', normalise p g low Other w = Done w').
Proof. intros K. destruct (K Single g2 false (place g2 (fun _ => (0, 0)) (fun _ => (0, 0)))) as [w' E]. discriminate E. Qed.
(** The core profile keeps the phase and gives every point the modulus of a string at the
    distance where the phase turns as much; the velocity is not touched; the ghosts still
    hold the field from before. *)
Theorem core_profile : forall g LL R0 delta order M w m2, sane g -> 0 < LL -> 0 < R0 -> 0 < delta -> delivery g order -> holds g M w ->
  (forall x, In x (sites g) -> M x <> (0, 0)) -> wM2 w = Some m2 ->
  exists w' M', normCore g false LL R0 delta order w = Done w' /\ holds g M' w' /\ ghostsHold g M w' /\ wV w' = wV w /\
    forall x, In x (sites g) -> samePhase (M x) (M' x) /\ size (M' x) = stringSize LL R0 delta (twist g M x) /\ 0 < size (M' x) <= 1 /\
      forall y, In y (sites g) -> twist g M x <= twist g M y -> size (M' y) <= size (M' x).
Proof.
  intros g LL R0 delta order M w m2 S HL HR HD D H N E. pose proof (Rmult_lt_0_compat _ _ HR HD) as HP.
  destruct (normCore_holds g LL R0 delta order M w m2 S ltac:(lra) D H N E) as (w' & A & B & C & V & _).
  exists w', (fun x => times (stringSize LL R0 delta (twist g M x)) (unitOf (M x))). repeat (split; [assumption|]).
  assert (SZ : forall x, In x (sites g) -> size (times (stringSize LL R0 delta (twist g M x)) (unitOf (M x))) = stringSize LL R0 delta (twist g M x)).
  { intros x Hx. destruct (stringSize_range LL R0 delta (twist g M x) HL HP). rewrite size_times by lra. rewrite size_unit by (apply N, Hx). ring. }
  intros x Hx. pose proof (stringSize_range LL R0 delta (twist g M x) HL HP) as Q. split; [|split; [apply SZ, Hx|split]].
  - pose proof (size_pos _ (N x Hx)). exists (stringSize LL R0 delta (twist g M x) * / size (M x)). split.
    + apply Rmult_lt_0_compat; [lra|]. apply Rinv_0_lt_compat. assumption.
    + unfold unitOf, times. cbn [fst snd]. f_equal; ring.
  - rewrite SZ by exact Hx. exact Q.
  - intros y Hy T. rewrite !SZ by assumption. apply stringSize_decreasing; assumption.
Qed.
(** For a field of modulus 1 the twist is the sum of the squared sines of the angles between
    neighbours. *)
Theorem twist_of_angles : forall g th x, twist g (fun y => vacuum 1 (th y)) x = sumOver (fun d => sin (th (next g d x) - th x) ^ 2) around6.
Proof.
  intros g th x. unfold twist. apply sumOver_ext. intros d _. unfold cross, sq, dot, vacuum. cbn [fst snd].
  pose proof (sin2_cos2 (th x)) as Q. unfold Rsqr in Q.
  replace (1 * cos (th x) * (1 * cos (th x)) + 1 * sin (th x) * (1 * sin (th x))) with 1 by lra. rewrite sin_minus. f_equal. field.
Qed.
(** So a uniform phase gets modulus 1. *)
Theorem core_profile_uniform : forall g LL R0 delta a, stringSize LL R0 delta (twist g (fun _ => vacuum 1 a) (0, 0, 0)%nat) = 1.
Proof.
  intros g LL R0 delta a. rewrite (twist_of_angles g (fun _ => a)). unfold sumOver, around6. cbn [fold_right].
  replace (a - a) with 0 by ring. rewrite sin_0. unfold stringSize. destruct (Rle_dec _ _) as [|Q]; [reflexivity|]. exfalso. apply Q. cbn [pow]. lra.
Qed.
Example core_profile_meets : exists order w m2, delivery g2 order /\ holds g2 (planeWave g2 3 1 0 1) w /\ wM2 w = Some m2.
Proof.
  destruct (some_delivery g2 g2_sane) as [o Ho]. exists o, (place g2 (planeWave g2 3 1 0 1) (fun _ => (0, 0))). eexists.
  split; [exact Ho|]. split; [apply place_holds | reflexivity].
Qed.
(** With low memory the velocity is lost: it becomes a copy of the field. *)
Theorem core_profile_low_memory : forall g LL R0 delta order M w, sane g -> 0 < LL -> 0 < R0 -> 0 < delta -> delivery g order -> holds g M w ->
  (forall x, In x (sites g) -> M x <> (0, 0)) ->
  exists w' M', normCore g true LL R0 delta order w = Done w' /\ holds g M' w' /\ holdsV g M' w' /\
    forall x, In x (sites g) -> M' x = times (stringSize LL R0 delta (twist g M x)) (unitOf (M x)).
Proof.
  intros g LL R0 delta order M w S HL HR HD D H N. pose proof (Rmult_lt_0_compat _ _ HR HD) as HP.
  destruct (normCore_low g LL R0 delta order M w S ltac:(lra) D H N) as (w' & A & B & C). exists w'. eexists.
  split; [exact A|]. split; [exact B|]. split; [exact C|]. reflexivity.
Qed.
Theorem core_profile_keeps_velocity_refuted : ~ (forall g low LL R0 delta order M V w, sane g -> 0 < LL -> 0 < R0 -> 0 < delta -> delivery g order ->
  holds g M w -> holdsV g V w -> (forall x, In x (sites g) -> M x <> (0, 0)) -> (low = false -> wM2 w <> None) ->
  exists w', normCore g low LL R0 delta order w = Done w' /\ holdsV g V w').
Proof.
  intros K. destruct (some_delivery g2 g2_sane) as [o Ho]. set (w := place g2 (fun _ => (1, 0)) (fun _ => (0, 0))).
  assert (N : forall x, In x (sites g2) -> (fun _ : ConserveSpec.cell => (1, 0)) x <> (0, 0)) by (intros x _ E; injection E; lra).
  destruct (place_holds g2 (fun _ => (1, 0)) (fun _ => (0, 0))) as [H V]. fold w in H, V.
  destruct (K g2 true 1 1 1 o _ _ w g2_sane ltac:(lra) ltac:(lra) ltac:(lra) Ho H V N ltac:(discriminate)) as (w' & E & V').
  destruct (core_profile_low_memory g2 1 1 1 o _ w g2_sane ltac:(lra) ltac:(lra) ltac:(lra) Ho H N) as (w2 & M' & E2 & _ & V2 & Q).
  rewrite E in E2. injection E2 as <-.
  assert (I0 : In (0, 0, 0)%nat (sites g2)) by (apply in_box; cbn; lia).
  pose proof (holdsV_unique g2 _ _ w' _ g2_sane V' V2 I0) as U. rewrite (Q _ I0) in U.
  pose proof (stringSize_range 1 1 1 (twist g2 (fun _ => (1, 0)) (0, 0, 0)%nat) ltac:(lra) ltac:(lra)) as P.
  assert (Z : size (times (stringSize 1 1 1 (twist g2 (fun _ => (1, 0)) (0, 0, 0)%nat)) (unitOf (1, 0))) = stringSize 1 1 1 (twist g2 (fun _ => (1, 0)) (0, 0, 0)%nat)).
  { rewrite size_times, size_unit by (try lra; intros X; injection X; lra). ring. }
  rewrite <- U, size_zero in Z. lra.
Qed.
(** Scaling multiplies every number of the field, and of its ghosts; that of the velocity
    only works with one ghost slice. *)
Theorem scaling_the_field : forall p g low k M w, sane g -> holds g M w -> ghostsHold g M w ->
  exists w', scale p g low InM k w = Done w' /\ holds g (fun x => times k (M x)) w' /\ ghostsHold g (fun x => times k (M x)) w' /\ wV w' = wV w /\ wM2 w' = wM2 w.
Proof. intros p g low k M w S H G. destruct (scale_holds p g low k M w H) as (w' & A & B & C & D). exists w'. auto. Qed.
Theorem scaling_the_velocity : forall p g low k V w, sane g -> holdsV g V w ->
  if (gNg g <=? 1)%nat
  then exists w', scale p g low InV k w = Done w' /\ holdsV g (fun x => times k (V x)) w' /\ wM w' = wM w /\ wM2 w' = wM2 w
  else scale p g low InV k w = Broken.
Proof.
  intros p g low k V w S H. destruct (gNg g <=? 1)%nat eqn:E.
  - apply Nat.leb_le in E. apply scale_holdsV; [exact S| |exact H]. destruct S; lia.
  - apply Nat.leb_gt in E. apply scale_broken; [exact S | lia].
Qed.
Example scaling_the_field_meets : exists w, holds g2 (planeWave g2 3 1 0 1) w /\ ghostsHold g2 (planeWave g2 3 1 0 1) w.
Proof.
  destruct (some_delivery g2 g2_sane) as [o Ho]. eexists.
  apply (refresh_holds g2 o (planeWave g2 3 1 0 1) (place g2 (planeWave g2 3 1 0 1) (fun _ => (0, 0))) g2_sane Ho). apply place_holds.
Qed.
Definition g3 : grid := Grid 4 2 2 1 1000.
Example g3_sane : sane g3.
Proof. unfold sane, g3; cbn; lia. Qed.
Theorem scaling_the_velocity_refuted : ~ (forall p g low k V w, sane g -> holdsV g V w -> exists w', scale p g low InV k w = Done w').
Proof.
  intros K. destruct (K Double g3 false 2 _ _ g3_sane (proj2 (place_holds g3 (fun _ => (0, 0)) (fun _ => (1, 0))))) as [w' E].
  rewrite scale_broken in E by (exact g3_sane || (cbn; lia)). discriminate E.
Qed.
(** Mean of the modulus. *)
Lemma fold_add : forall (f : nat -> num) a l s, (forall i, In i l -> exists c, f i = Some c /\ size c = a) ->
  fold_left (fun s x => match s, x with Some s, Some x => Some (s + cabs x) | _, _ => None end) (map f l) (Some s) = Some (s + a * INR (length l)).
Proof.
  intros f a l. induction l as [|i l IH]; intros s H; [cbn; f_equal; ring|]. cbn [map fold_left].
  destruct (H i (or_introl eq_refl)) as (c & -> & Q). rewrite cabs_size, Q, IH by (intros; apply H; right; assumption).
  cbn [length]. rewrite S_INR. f_equal. ring.
Qed.
Theorem mean_modulus : forall g junk a M w, sane g -> holds g M w -> (forall x, In x (sites g) -> size (M x) = a) ->
  anymean g junk w = Some ((sumOver junk (seq 0 (gRanks g)) + a * INR (gRanks g * vol g)) / INR (eSize g)).
Proof.
  intros g junk a M w S H U. unfold anymean. cbv zeta.
  assert (R1 : forall r, (r < gRanks g)%nat ->
    fold_left (fun s x => match s, x with Some s, Some x => Some (s + cabs x) | _, _ => None end) (map (fun i => wM w r (mStart g + i)%nat) (seq 0 (vol g))) (Some (junk r)) = Some (junk r + a * INR (vol g))).
  { intros r Hr. rewrite (fold_add (fun i => wM w r (mStart g + i)%nat) a), seq_length; [reflexivity|].
    intros i Hi. apply in_seq in Hi. destruct (owned_spot g i) as (x & y & z & Hx & Hy & Hz & ->); [destruct S; lia | lia |].
    rewrite start_spot, H by assumption. eexists. split; [reflexivity|]. apply U, cell_in; assumption. }
  assert (R2 : forall l s, (forall r, In r l -> (r < gRanks g)%nat) ->
    fold_left (fun s x => match s, x with Some s, Some x => Some (s + x) | _, _ => None end)
      (map (fun r => fold_left (fun s x => match s, x with Some s, Some x => Some (s + cabs x) | _, _ => None end) (map (fun i => wM w r (mStart g + i)%nat) (seq 0 (vol g))) (Some (junk r))) l) (Some s)
    = Some (s + (sumOver junk l + a * (INR (length l) * INR (vol g))))).
  { induction l as [|r l IH]; intros s Q; [cbn; f_equal; ring|]. cbn [map fold_left]. rewrite R1 by (apply Q; left; reflexivity).
    rewrite IH by (intros; apply Q; right; assumption). f_equal. cbn [length sumOver fold_right]. rewrite S_INR. unfold sumOver. ring. }
  rewrite R2 by (intros r Hr; apply in_seq in Hr; lia). rewrite seq_length, mult_INR. f_equal. f_equal. ring.
Qed.
Theorem mean_modulus_refuted : ~ (forall g junk a M w, sane g -> holds g M w -> (forall x, In x (sites g) -> size (M x) = a) -> anymean g junk w = Some a).
Proof.
  intros K. assert (U : forall x, In x (sites g3) -> size ((fun _ : ConserveSpec.cell => (1, 0)) x) = 1).
  { intros x _. unfold size, sq, dot. cbn [fst snd]. replace (1 * 1 + 0 * 0) with 1 by ring. apply sqrt_1. }
  pose proof (proj1 (place_holds g3 (fun _ => (1, 0)) (fun _ => (0, 0)))) as H.
  pose proof (K g3 (fun _ => 0) 1 _ _ g3_sane H U) as A. rewrite (mean_modulus g3 (fun _ => 0) 1 _ _ g3_sane H U) in A.
  injection A as A. unfold sumOver in A. cbn [gRanks g3 seq fold_right] in A. unfold vol, eSize, surf in A. cbn [gL gZ gNg g3 Nat.mul Nat.add] in A. cbn [INR] in A.
  assert (B : (0 + 0 + 1 * INR 32) / INR 96 = 1) by exact A. rewrite !INR_IZR_INZ in B. cbn in B. lra.
Qed.
Print Assumptions normalised_field_has_modulus_one.
Print Assumptions normalised_velocity_has_modulus_one.
Print Assumptions normalising_twice.
Print Assumptions normalise_zero_refuted.
Print Assumptions normalise_unknown_field_refuted.
Print Assumptions core_profile.
Print Assumptions twist_of_angles.
Print Assumptions core_profile_uniform.
Print Assumptions core_profile_low_memory.
Print Assumptions core_profile_keeps_velocity_refuted.
Print Assumptions scaling_the_field.
Print Assumptions scaling_the_velocity.
Print Assumptions scaling_the_velocity_refuted.
Print Assumptions mean_modulus.
Print Assumptions mean_modulus_refuted.

(** ** The field and the velocity that a run starts with: C87 *)
(** confsmooth without prepropagation, after the random field has been written and the
    velocity is still zero. In an expanding universe phi = m/R is the prepared field and its
    velocity is kick times R'/R times phi: it is at rest without kick. *)
Theorem start_smoothed : forall p g q R0 Rp e M w m2, sane g -> 0 < R0 -> 0 <= aDelta q ->
  Forall (delivery g) (mFirst e :: mCore e :: mEach e) -> holds g M w -> holdsV g (fun _ => (0, 0)) w -> wM2 w = Some m2 -> aNorm q = true ->
  (forall x, In x (sites g) -> Nat.iter (length (mEach e)) (averaged g (aAlpha q)) M x <> (0, 0)) ->
  aMink q = false -> (aKick q = 0 \/ gNg g = 1%nat) ->
  exists w' V, confSmooth p g false q R0 Rp e w = Done w' /\
    holds g (fun x => times R0 (prepared g q R0 (length (mEach e)) M x)) w' /\ holdsV g V w' /\
    forall x, In x (sites g) -> phiVel R0 Rp (times R0 (prepared g q R0 (length (mEach e)) M x)) (V x) = times (aKick q * Rp) (prepared g q R0 (length (mEach e)) M x).
Proof.
  intros p g q R0 Rp e M w m2 S HR HD D H HV E HN N HM HK.
  destruct (prepared_holds p g q R0 e M w m2 S ltac:(apply Rmult_le_pos; lra) D H E HN N) as (w1 & E1 & H1 & V1).
  unfold confSmooth. cbv zeta. rewrite HM, HN, E1. cbn [andThen].
  set (P := prepared g q R0 (length (mEach e)) M) in *.
  assert (HV1 : holdsV g (fun _ => (0, 0)) w1) by (intros r x y z; rewrite V1; apply HV).
  destruct (axby_holds g (Rp * R0) R0 P _ w1 H1 HV1) as [H2 HV2].
  assert (K : exists w3, kick_ p g false q (axby g (Rp * R0) R0 w1) = Done w3 /\ holds g P w3 /\
     holdsV g (fun x => times (1 + aKick q) (plus (times R0 (0, 0)) (times (Rp * R0) (P x)))) w3).
  { unfold kick_. destruct (Req_EM_T (aKick q) 0) as [e0|e0].
    - eexists. split; [reflexivity|]. split; [exact H2|]. apply (holdsV_ext g _ _ _ HV2). intros x _. rewrite e0.
      unfold times, plus. cbn [fst snd]. f_equal; ring.
    - destruct HK as [HK|HK]; [lra|].
      destruct (scale_holdsV p g false (1 + aKick q) _ _ S HK HV2) as (w3 & A & B & C & _). exists w3. split; [exact A|]. split; [|exact B].
      intros r x y z. rewrite C. apply H2. }
  destruct K as (w3 & -> & H3 & HV3). cbn [andThen].
  destruct (scale_holds p g false R0 P w3 H3) as (w4 & A & B & _ & C & _).
  exists w4, (fun x => times (1 + aKick q) (plus (times R0 (0, 0)) (times (Rp * R0) (P x)))). split; [exact A|]. split; [exact B|]. split.
  - intros r x y z. rewrite C. apply HV3.
  - intros x _. unfold phiVel, minus, times, plus. cbn [fst snd]. f_equal; field; lra.
Qed.
Definition plan (k : R) : ask := Ask true false k 1 1 (1 / 2) true.
Lemma uniform_stays : forall g alpha a n x, Nat.iter n (averaged g alpha) (fun _ => a) x = a.
Proof.
  intros g alpha a n. induction n as [|n IH]; intros x; [reflexivity|]. rewrite iter_S. unfold averaged, mean6, around6. cbn [fold_right]. rewrite !IH.
  unfold plus, times. cbn [fst snd]. destruct a as [u v]. cbn [fst snd]. f_equal; field.
Qed.
Example start_smoothed_meets : exists e w m2, Forall (delivery g2) (mFirst e :: mCore e :: mEach e) /\ length (mEach e) = 2%nat /\
  holds g2 (fun _ => (3, 4)) w /\ holdsV g2 (fun _ => (0, 0)) w /\ wM2 w = Some m2 /\
  (forall x, In x (sites g2) -> Nat.iter (length (mEach e)) (averaged g2 (aAlpha (plan 1))) (fun _ => (3, 4)) x <> (0, 0)) /\
  (aKick (plan 1) = 0 \/ gNg g2 = 1%nat).
Proof.
  destruct (some_delivery g2 g2_sane) as [o Ho]. exists (Mail o [o; o] o), (place g2 (fun _ => (3, 4)) (fun _ => (0, 0))). eexists.
  split; [repeat constructor; exact Ho|]. split; [reflexivity|]. split; [apply place_holds|]. split; [apply place_holds|]. split; [reflexivity|].
  split; [|right; reflexivity]. intros x _. rewrite uniform_stays. intros E. injection E. lra.
Qed.
(** In flat space the prepared field itself and no velocity. *)
Theorem start_smoothed_flat : forall p g q R0 Rp e M w m2, sane g -> 0 < R0 -> 0 <= aDelta q ->
  Forall (delivery g) (mFirst e :: mCore e :: mEach e) -> holds g M w -> holdsV g (fun _ => (0, 0)) w -> wM2 w = Some m2 -> aNorm q = true ->
  (forall x, In x (sites g) -> Nat.iter (length (mEach e)) (averaged g (aAlpha q)) M x <> (0, 0)) ->
  aMink q = true -> (aKick q = 0 \/ gNg g = 1%nat) ->
  exists w', confSmooth p g false q R0 Rp e w = Done w' /\
    holds g (prepared g q R0 (length (mEach e)) M) w' /\ holdsV g (fun _ => (0, 0)) w'.
Proof.
  intros p g q R0 Rp e M w m2 S HR HD D H HV E HN N HM HK.
  destruct (prepared_holds p g q R0 e M w m2 S ltac:(apply Rmult_le_pos; lra) D H E HN N) as (w1 & E1 & H1 & V1).
  unfold confSmooth. cbv zeta. rewrite HM, HN, E1. cbn [andThen].
  assert (HV1 : holdsV g (fun _ => (0, 0)) w1) by (intros r x y z; rewrite V1; apply HV).
  unfold kick_. destruct (Req_EM_T (aKick q) 0) as [e0|e0]; [exists w1; auto|].
  destruct HK as [HK|HK]; [lra|].
  destruct (scale_holdsV p g false (1 + aKick q) _ _ S HK HV1) as (w3 & A & B & C & _). exists w3. split; [exact A|]. split.
  - intros r x y z. rewrite C. apply H1.
  - apply (holdsV_ext g _ _ _ B). intros x _. unfold times. cbn [fst snd]. f_equal; ring.
Qed.
(** With a kick and two or more ghost slices the run writes outside its memory. *)
Theorem start_kick_refuted : ~ (forall p g q R0 Rp e M w m2, sane g -> 0 < R0 -> 0 <= aDelta q ->
  Forall (delivery g) (mFirst e :: mCore e :: mEach e) -> holds g M w -> holdsV g (fun _ => (0, 0)) w -> wM2 w = Some m2 -> aNorm q = true ->
  (forall x, In x (sites g) -> Nat.iter (length (mEach e)) (averaged g (aAlpha q)) M x <> (0, 0)) ->
  exists w', confSmooth p g false q R0 Rp e w = Done w').
Proof.
  intros K. destruct (some_delivery g3 g3_sane) as [o Ho].
  pose proof (place_holds g3 (fun _ => (3, 4)) (fun _ => (0, 0))) as [H V]. set (w := place g3 (fun _ => (3, 4)) (fun _ => (0, 0))) in *.
  assert (D : Forall (delivery g3) (mFirst (Mail o [o] o) :: mCore (Mail o [o] o) :: mEach (Mail o [o] o))) by (repeat constructor; exact Ho).
  assert (N : forall x, In x (sites g3) -> Nat.iter (length (mEach (Mail o [o] o))) (averaged g3 (aAlpha (plan 1))) (fun _ => (3, 4)) x <> (0, 0)).
  { intros x _. rewrite uniform_stays. intros Q. injection Q. lra. }
  destruct (K Double g3 (plan 1) 1 1 (Mail o [o] o) _ w _ g3_sane ltac:(lra) ltac:(cbn; lra) D H V eq_refl eq_refl N) as [w' E].
  destruct (prepared_holds Double g3 (plan 1) 1 (Mail o [o] o) _ w _ g3_sane ltac:(cbn; lra) D H eq_refl eq_refl N) as (w1 & E1 & _).
  unfold confSmooth in E. cbv zeta in E. cbn [aMink plan aNorm] in E. rewrite E1 in E. cbn [andThen] in E.
  unfold kick_ in E. cbn [aKick plan] in E. destruct (Req_EM_T 1 0) as [Q|Q]; [lra|].
  rewrite scale_broken in E by (exact g3_sane || (cbn; lia)). discriminate E.
Qed.
(** The configurations made from strings: the velocity is a copy of phi, whatever the
    expansion. It is at rest, as it is after confsmooth, only when R' = 1. *)
Theorem start_lola : forall p g q R0 e M w m2, sane g -> 0 < R0 -> 0 <= aDelta q -> delivery g (mCore e) ->
  holds g M w -> wM2 w = Some m2 -> (forall x, In x (sites g) -> M x <> (0, 0)) -> aMink q = false -> aKick q = 0 ->
  exists w', confLola p g false q R0 e w = Done w' /\
    holds g (fun x => times R0 (prepared g q R0 0 M x)) w' /\ holdsV g (prepared g q R0 0 M) w' /\
    forall Rp, (forall x, In x (sites g) -> prepared g q R0 0 M x <> (0, 0)) ->
      ((forall x, In x (sites g) -> phiVel R0 Rp (times R0 (prepared g q R0 0 M x)) (prepared g q R0 0 M x) = (0, 0)) <-> Rp * R0 = 1).
Proof.
  intros p g q R0 e M w m2 S HR HD D H E N HM HK.
  assert (A : exists w1, andThen (normalise p g false InM w) (core_ g false q R0 e) = Done w1 /\ holds g (prepared g q R0 0 M) w1).
  { destruct (normalise_holds p g false M w H N) as (w2 & -> & H2 & V2 & E2 & _). cbn [andThen]. unfold core_, prepared. cbn [Nat.iter nat_rect]. destruct (aCore q).
    - destruct (normCore_holds g (aLL q) R0 (aDelta q) (mCore e) _ w2 m2 S ltac:(apply Rmult_le_pos; lra) D H2) as (w3 & -> & H3 & _).
      + intros x Hx. apply unit_not0, N, Hx.
      + congruence.
      + exists w3. split; [reflexivity|]. apply (holds_ext g _ _ w3 H3). intros x Hx. rewrite (unit_again (unitOf (M x))) by (apply size_unit, N, Hx). reflexivity.
    - exists w2. auto. }
  destruct A as (w1 & E1 & H1). unfold confLola. cbv zeta. rewrite HM, E1. cbn [andThen].
  destruct (copy_holds g _ w1 H1) as [H2 V2]. unfold kick_. destruct (Req_EM_T (aKick q) 0) as [_|Q]; [|lra]. cbn [andThen].
  destruct (scale_holds p g false R0 _ _ H2) as (w4 & A & B & _ & C & _). exists w4. split; [exact A|]. split; [exact B|]. split.
  - intros r x y z. rewrite C. apply V2.
  - intros Rp NZ. split.
    + intros Q. assert (I0 : In (0, 0, 0)%nat (sites g)) by (apply in_box; pose proof (depth_pos g S); destruct S; lia).
      specialize (Q _ I0). specialize (NZ _ I0). revert Q NZ. generalize (prepared g q R0 0 M (0, 0, 0)%nat). intros [a b] Q NZ.
      unfold phiVel, minus, times in Q. cbn [fst snd] in Q. injection Q as Q1 Q2.
      assert (I : / R0 <> 0) by (apply Rinv_neq_0_compat; lra).
      apply Rmult_integral in Q1. apply Rmult_integral in Q2. destruct Q1 as [Q1|Q1]; [lra|]. destruct Q2 as [Q2|Q2]; [lra|].
      assert (P1 : a * (1 - Rp * R0) = 0) by lra. assert (P2 : b * (1 - Rp * R0) = 0) by lra.
      apply Rmult_integral in P1. apply Rmult_integral in P2. destruct P1 as [P1|P1]; [|lra]. destruct P2 as [P2|P2]; [|lra]. subst. contradiction.
    + intros Q x _. unfold phiVel, minus, times. cbn [fst snd]. generalize (prepared g q R0 0 M x). intros [a b]. cbn [fst snd].
      f_equal.
      * replace (a - Rp * (R0 * a)) with (a * (1 - Rp * R0)) by ring. rewrite Q. ring.
      * replace (b - Rp * (R0 * b)) with (b * (1 - Rp * R0)) by ring. rewrite Q. ring.
Qed.
Example start_lola_meets : exists e w m2, delivery g2 (mCore e) /\ holds g2 (fun _ => (3, 4)) w /\ wM2 w = Some m2 /\
  (forall x, In x (sites g2) -> (fun _ : ConserveSpec.cell => (3, 4)) x <> (0, 0)).
Proof.
  destruct (some_delivery g2 g2_sane) as [o Ho]. exists (Mail o [] o), (place g2 (fun _ => (3, 4)) (fun _ => (0, 0))). eexists.
  split; [exact Ho|]. split; [apply place_holds|]. split; [reflexivity|]. intros x _ E. injection E. lra.
Qed.
Theorem start_lola_at_rest_refuted : ~ (forall p g q R0 Rp e M w m2, sane g -> 0 < R0 -> 0 <= aDelta q -> delivery g (mCore e) ->
  holds g M w -> wM2 w = Some m2 -> (forall x, In x (sites g) -> M x <> (0, 0)) -> aMink q = false -> aKick q = 0 ->
  exists w' F V, confLola p g false q R0 e w = Done w' /\ holds g F w' /\ holdsV g V w' /\
    forall x, In x (sites g) -> phiVel R0 Rp (F x) (V x) = (0, 0)).
Proof.
  intros K. destruct (some_delivery g2 g2_sane) as [o Ho].
  pose proof (place_holds g2 (fun _ => (3, 4)) (fun _ => (0, 0))) as [H _]. set (w := place g2 (fun _ => (3, 4)) (fun _ => (0, 0))) in *.
  set (q := Ask false false 0 1 1 0 true).
  assert (N : forall x, In x (sites g2) -> (fun _ : ConserveSpec.cell => (3, 4)) x <> (0, 0)) by (intros x _ Q; injection Q; lra).
  destruct (K Double g2 q 1 2 (Mail o [] o) _ w _ g2_sane ltac:(lra) ltac:(cbn; lra) Ho H eq_refl N eq_refl eq_refl) as (w' & F & V & E & HF & HV & R).
  destruct (start_lola Double g2 q 1 (Mail o [] o) _ w _ g2_sane ltac:(lra) ltac:(cbn; lra) Ho H eq_refl N eq_refl eq_refl) as (w2 & E2 & H2 & V2 & I).
  rewrite E in E2. injection E2 as <-. destruct (I 2) as [I1 _].
  { intros x Hx. unfold prepared. cbn [aCore q Nat.iter nat_rect]. apply unit_not0; exact (N x Hx). }
  assert (2 * 1 = 1); [|lra]. apply I1. intros x Hx.
  rewrite <- (holds_unique g2 F _ w' x g2_sane HF H2 Hx), <- (holdsV_unique g2 V _ w' x g2_sane HV V2 Hx). apply R, Hx.
Qed.
Print Assumptions start_smoothed.
Print Assumptions start_smoothed_flat.
Print Assumptions start_kick_refuted.
Print Assumptions start_lola.
Print Assumptions start_lola_at_rest_refuted.
