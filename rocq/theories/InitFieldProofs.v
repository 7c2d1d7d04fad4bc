(** Lemmas about normalisation, core profile, scaling and assembly. *)
From Coq Require Import Reals List Arith Bool Lia Lra.
From Verif Require Import KernelModel ForceSpec EnergyModel EnergySpec EnergyProofs ConserveSpec ConserveBoxProofs GhostModel InitModel InitSpec InitProofs InitBoxProofs.
Import ListNotations.
Open Scope R_scope.

Lemma cabs_size : forall a, cabs a = size a.
Proof. reflexivity. Qed.
Lemma sq_pos : forall a, a <> (0, 0) -> 0 < sq a.
Proof. intros a H. exact (n2_not0 a H). Qed.
Lemma size_pos : forall a, a <> (0, 0) -> 0 < size a.
Proof. intros a H. apply sqrt_lt_R0, sq_pos, H. Qed.
Lemma size_zero : size (0, 0) = 0.
Proof. unfold size, sq, dot. cbn [fst snd]. replace (0 * 0 + 0 * 0) with 0 by ring. apply sqrt_0. Qed.
Lemma size_times : forall k a, 0 <= k -> size (times k a) = k * size a.
Proof.
  intros k a H. unfold size. replace (sq (times k a)) with (k * k * sq a) by (unfold sq, dot, times; cbn [fst snd]; ring).
  rewrite sqrt_mult_alt by (apply Rle_0_sqr). rewrite sqrt_square by exact H. reflexivity.
Qed.
Lemma size_unit : forall a, a <> (0, 0) -> size (unitOf a) = 1.
Proof.
  intros a H. pose proof (size_pos a H) as P. unfold unitOf. rewrite size_times by (apply Rlt_le, Rinv_0_lt_compat, P). field. lra.
Qed.
Lemma unit_phase : forall a, a <> (0, 0) -> samePhase a (unitOf a).
Proof. intros a H. exists (/ size a). split; [apply Rinv_0_lt_compat, size_pos, H | reflexivity]. Qed.
Lemma size_not0 : forall a, size a = 1 -> a <> (0, 0).
Proof. intros a H ->. rewrite size_zero in H. lra. Qed.
Lemma unit_again : forall a, size a = 1 -> unitOf a = a.
Proof. intros [x y] H. unfold unitOf, times. rewrite H, Rinv_1. cbn [fst snd]. f_equal; ring. Qed.
Lemma toUnit_some : forall a, a <> (0, 0) -> toUnit (Some a) = Some (unitOf a).
Proof.
  intros a H. pose proof (size_pos a H). unfold toUnit. rewrite cabs_size. destruct (Req_EM_T (size a) 0); [lra|].
  unfold unitOf, times. do 2 f_equal; field; lra.
Qed.
Lemma toUnit_zero : toUnit (Some (0, 0)) = None.
Proof. unfold toUnit. rewrite cabs_size, size_zero. destruct (Req_EM_T 0 0); [reflexivity | lra]. Qed.

Lemma putOwned_out : forall g src m i, outside g i -> putOwned g src m i = m i.
Proof.
  intros g src m i [H|H]; unfold putOwned.
  - destruct (mStart g <=? i)%nat eqn:E; [apply Nat.leb_le in E; lia | reflexivity].
  - destruct (i <? mStart g + vol g)%nat eqn:E; [apply Nat.ltb_lt in E; lia | rewrite andb_false_r; reflexivity].
Qed.
Lemma cell_in : forall g r x y z, (r < gRanks g)%nat -> (x < gL g)%nat -> (y < gL g)%nat -> (z < gZ g)%nat -> In (x, y, r * gZ g + z)%nat (sites g).
Proof. intros. apply in_box. pose proof (slice_in g r z ltac:(auto) ltac:(auto)). auto. Qed.
Lemma normalise_holds : forall p g low M w, holds g M w -> (forall x, In x (sites g) -> M x <> (0, 0)) ->
  exists w', normalise p g low InM w = Done w' /\ holds g (fun x => unitOf (M x)) w' /\
    wV w' = wV w /\ wM2 w' = wM2 w /\ forall r i, outside g i -> wM w' r i = wM w r i.
Proof.
  intros p g low M w H N. eexists. split; [reflexivity|]. split; [|split; [reflexivity|split; [reflexivity|]]].
  - apply (put_holds g _ (wM w) (fun r i => toUnit (wM w r (mStart g + i)%nat))). intros r x y z Hr Hx Hy Hz.
    rewrite start_spot, H by assumption. apply toUnit_some. apply N. apply cell_in; assumption.
  - intros r i Hi. cbn [wM]. unfold mapOwned. apply putOwned_out, Hi.
Qed.

(** Core profile *)
Lemma gradTot_twist : forall g M x, M x <> (0, 0) ->
  gradTot (M x) (M (next g Xp x)) (M (next g Xm x)) (M (next g Yp x)) (M (next g Ym x)) (M (next g Zp x)) (M (next g Zm x)) = twist g M x.
Proof.
  intros g M x H. pose proof (sq_pos _ H) as P. unfold gradTot, twist, sumOver, around6. cbn [fold_right].
  assert (A : forall b, imagOver b (M x) (M x) = cross (M x) b / sq (M x)).
  { intros b. unfold imagOver, cross, sq, dot in *. field. lra. }
  assert (B : forall b, imagOver (M x) b (M x) = - (cross (M x) b / sq (M x))).
  { intros b. unfold imagOver, cross, sq, dot in *. field. lra. }
  rewrite !A, !B. ring.
Qed.
Lemma den_pos : forall s, 0 <= s -> 0 < 1 + 39 / 100 * s + s ^ 2 / 5 + 9 / 250 * s ^ 4.
Proof. intros s H. pose proof (pow_le s 2 H). pose proof (pow_le s 4 H). lra. Qed.
Lemma profile_string : forall s, 0 <= s -> profile s = stringProfile s.
Proof.
  intros s H. pose proof (den_pos s H) as D. unfold profile, stringProfile.
  replace 0.39 with (39 / 100) by lra. replace 0.2 with (1 / 5) by lra. replace 0.036 with (9 / 250) by lra. replace 0.43 with (43 / 100) by lra. replace 0.164 with (41 / 250) by lra.
  replace (1 + 39 / 100 * s + 1 / 5 * (s * s) + 9 / 250 * ((s * s) * (s * s))) with (1 + 39 / 100 * s + s ^ 2 / 5 + 9 / 250 * s ^ 4) by (cbn [pow]; field).
  replace (43 / 100 * s + 41 / 250 * (s * s) + 9 / 250 * ((s * s) * (s * s))) with (43 / 100 * s + 41 / 250 * s ^ 2 + 9 / 250 * s ^ 4) by (cbn [pow]; field).
  field. lra.
Qed.
Lemma profile_range : forall s, 0 < s -> 0 < stringProfile s < 1.
Proof.
  intros s H. pose proof (den_pos s ltac:(lra)) as D. unfold stringProfile.
  set (d := 1 + 39 / 100 * s + s ^ 2 / 5 + 9 / 250 * s ^ 4) in *.
  assert (N : 0 < 1 - s / 25 + 9 / 250 * s ^ 2) by (pose proof (Rle_0_sqr (s - 1)) as Q; unfold Rsqr in Q; cbn [pow]; lra).
  assert (N2 : 1 - s / 25 + 9 / 250 * s ^ 2 < d).
  { unfold d. pose proof (pow_lt s 2 H). pose proof (pow_lt s 4 H). lra. }
  pose proof (Rdiv_lt_0_compat _ _ N D).
  assert ((1 - s / 25 + 9 / 250 * s ^ 2) / d < 1) by (apply (Rmult_lt_reg_r d); [exact D|]; unfold Rdiv; rewrite Rmult_assoc, Rinv_l by lra; lra).
  lra.
Qed.
Lemma profile_increasing : forall s t, 0 <= s -> s <= t -> stringProfile s <= stringProfile t.
Proof.
  intros s t H H'. pose proof (den_pos s H) as D1. pose proof (den_pos t ltac:(lra)) as D2. unfold stringProfile.
  set (a := 1 - s / 25 + 9 / 250 * s ^ 2). set (b := 1 - t / 25 + 9 / 250 * t ^ 2).
  set (c := 1 + 39 / 100 * s + s ^ 2 / 5 + 9 / 250 * s ^ 4) in *. set (d := 1 + 39 / 100 * t + t ^ 2 / 5 + 9 / 250 * t ^ 4) in *.
  assert (K : b * c <= a * d).
  { assert (E : a * d - b * c = (t - s) * (43 / 100 + 41 / 250 * (s + t) - 551 / 25000 * (s * t) + 9 / 250 * (t ^ 3 + t ^ 2 * s + t * s ^ 2 + s ^ 3)
       - 9 / 6250 * (s * t) * (t ^ 2 + t * s + s ^ 2) + 81 / 62500 * (s ^ 2 * t ^ 2) * (s + t))).
    { unfold a, b, c, d. field. }
    assert (P : 0 <= 43 / 100 + 41 / 250 * (s + t) - 551 / 25000 * (s * t) + 9 / 250 * (t ^ 3 + t ^ 2 * s + t * s ^ 2 + s ^ 3)
       - 9 / 6250 * (s * t) * (t ^ 2 + t * s + s ^ 2) + 81 / 62500 * (s ^ 2 * t ^ 2) * (s + t)).
    { assert (Ht : 0 <= t) by lra.
      assert (Q1 : 0 <= s * (41 / 250 - 551 / 25000 * t + 9 / 500 * (t * t))) by (apply Rmult_le_pos; [exact H|]; pose proof (Rle_0_sqr (t - 1)) as Z; pose proof (Rle_0_sqr t) as Z2; unfold Rsqr in *; lra).
      assert (Q2 : forall u v, 0 <= u -> 0 <= u ^ 3 * (9 / 500 - 27 / 12500 * v + 81 / 62500 * (v * v))).
      { intros u v Hu. apply Rmult_le_pos; [apply pow_le, Hu|]. pose proof (Rle_0_sqr (v - 1)) as Z; pose proof (Rle_0_sqr v) as Z2; unfold Rsqr in *; lra. }
      pose proof (Q2 s t H) as Q3. pose proof (Q2 t s Ht) as Q4.
      pose proof (Rmult_le_pos s t H Ht) as ST. pose proof (Rmult_le_pos _ _ ST (Rle_0_sqr (s - t))) as Q5. unfold Rsqr in Q5.
      pose proof (Rmult_le_pos _ _ ST H) as Q6. pose proof (Rmult_le_pos _ _ ST Ht) as Q7.
      pose proof (pow_le s 3 H) as Q8. pose proof (pow_le t 3 Ht) as Q9. cbn [pow] in *. lra. }
    pose proof (Rmult_le_pos (t - s) _ ltac:(lra) P). lra. }
  assert (b / d <= a / c); [|lra]. unfold Rdiv.
  apply (Rmult_le_reg_r (c * d)); [apply Rmult_lt_0_compat; assumption|].
  replace (b * / d * (c * d)) with (b * c) by (field; lra). replace (a * / c * (c * d)) with (a * d) by (field; lra). exact K.
Qed.
Lemma twist_nonneg : forall g M x, 0 <= twist g M x.
Proof. intros. unfold twist. apply sumOver_nonneg. intros d _. apply pow2_ge_0. Qed.
Lemma core_string : forall LL R0 delta t, 0 <= R0 * delta -> core LL R0 delta t = stringSize LL R0 delta t.
Proof.
  intros LL R0 delta t H. unfold core, stringSize. replace 0.0000001 with (1 / 10000000) by lra.
  destruct (Rlt_dec (1 / 10000000) t) as [A|A]; destruct (Rle_dec t (1 / 10000000)) as [B|B]; try lra.
  apply profile_string. pose proof (sqrt_pos LL). assert (0 < sqrt t) by (apply sqrt_lt_R0; lra).
  unfold Rdiv. apply Rmult_le_pos; [|apply Rlt_le, Rinv_0_lt_compat; assumption].
  rewrite Rmult_assoc. apply Rmult_le_pos; lra.
Qed.
Lemma stringSize_range : forall LL R0 delta t, 0 < LL -> 0 < R0 * delta -> 0 < stringSize LL R0 delta t <= 1.
Proof.
  intros LL R0 delta t H1 H2. unfold stringSize. destruct (Rle_dec t (1 / 10000000)); [lra|].
  destruct (profile_range (2 * sqrt LL * R0 * delta / sqrt t)); [|lra].
  assert (0 < sqrt LL) by (apply sqrt_lt_R0; lra). assert (0 < sqrt t) by (apply sqrt_lt_R0; lra).
  apply Rdiv_lt_0_compat; [|assumption]. rewrite Rmult_assoc. apply Rmult_lt_0_compat; lra.
Qed.
Lemma stringSize_decreasing : forall LL R0 delta t u, 0 < LL -> 0 < R0 * delta -> t <= u -> stringSize LL R0 delta u <= stringSize LL R0 delta t.
Proof.
  intros LL R0 delta t u H1 H2 H. unfold stringSize at 2. destruct (Rle_dec t (1 / 10000000)); [apply stringSize_range; assumption|].
  unfold stringSize. destruct (Rle_dec u (1 / 10000000)); [lra|].
  assert (0 < sqrt LL) by (apply sqrt_lt_R0; lra). assert (0 < sqrt t) by (apply sqrt_lt_R0; lra). assert (sqrt t <= sqrt u) by (apply sqrt_le_1_alt; lra).
  assert (P : 0 < 2 * sqrt LL * R0 * delta) by (rewrite Rmult_assoc; apply Rmult_lt_0_compat; lra).
  apply profile_increasing; unfold Rdiv.
  - apply Rmult_le_pos; [lra|]. apply Rlt_le, Rinv_0_lt_compat; lra.
  - apply Rmult_le_compat_l; [lra|]. apply Rinv_le_contravar; assumption.
Qed.
Lemma coreAt_spot : forall g LL R0 delta M w r x y z, sane g -> 0 <= R0 * delta -> holds g M w -> ghostsHold g M w ->
  (r < gRanks g)%nat -> (x < gL g)%nat -> (y < gL g)%nat -> (z < gZ g)%nat ->
  let c := (x, y, r * gZ g + z)%nat in
  M c <> (0, 0) ->
  coreAt g LL R0 delta (wM w r) (spot g x y z) = Some (times (stringSize LL R0 delta (twist g M c)) (unitOf (M c))).
Proof.
  intros g LL R0 delta M w r x y z S HR H G Hr Hx Hy Hz c N. pose proof (reads g M w r x y z S H G Hr Hx Hy Hz) as K.
  unfold coreAt. cbv zeta in *. destruct (around g (spot g x y z)) as [[[px mx] py] my]. fold c in K.
  destruct K as (-> & -> & -> & -> & -> & -> & ->). pose proof (size_pos _ N) as P. rewrite cabs_size.
  destruct (Req_EM_T (size (M c)) 0); [lra|]. rewrite gradTot_twist, core_string by assumption.
  unfold unitOf, times. cbn [fst snd]. do 2 f_equal; field; lra.
Qed.
Lemma normCore_holds : forall g LL R0 delta order M w m2, sane g -> 0 <= R0 * delta -> delivery g order -> holds g M w ->
  (forall x, In x (sites g) -> M x <> (0, 0)) -> wM2 w = Some m2 ->
  exists w', normCore g false LL R0 delta order w = Done w' /\
    holds g (fun x => times (stringSize LL R0 delta (twist g M x)) (unitOf (M x))) w' /\ ghostsHold g M w' /\
    wV w' = wV w /\ exists m2', wM2 w' = Some m2'.
Proof.
  intros g LL R0 delta order M w m2 S HR D H N E. pose proof S as (HL & HN & HZ & HK & HW). unfold normCore. rewrite E.
  destruct (gNg g =? 0)%nat eqn:EN; [apply Nat.eqb_eq in EN; lia|].
  destruct (refresh_holds g order M w S D H) as [H1 G1].
  eexists. split; [reflexivity|]. split; [|split; [|split; [reflexivity|eexists; reflexivity]]].
  - apply (put_holds g _ (refresh order (wM w)) (fun r => coreAt g LL R0 delta (refresh order (wM w) r))).
    intros r x y z Hr Hx Hy Hz. apply (coreAt_spot g LL R0 delta M (World (refresh order (wM w)) (wV w) (wM2 w))); auto.
    apply N, cell_in; assumption.
  - intros r x y Hr Hx Hy. destruct (G1 r x y Hr Hx Hy) as [A B]. cbn [wM] in *.
    assert (O : outside g (spot g x y (gNg g - 1)) /\ outside g (spot g x y (gNg g + gZ g))).
    { pose proof (xy_lt g x y Hx Hy) as Q. unfold outside, spot, mStart, vol, surf. split.
      - left. apply Nat.lt_le_trans with ((gNg g - 1 + 1) * (gL g * gL g))%nat; [lia|]. apply Nat.mul_le_mono_r. lia.
      - right. replace ((gNg g + gZ g) * (gL g * gL g))%nat with (gNg g * (gL g * gL g) + gL g * gL g * gZ g)%nat by ring. lia. }
    destruct O as [O1 O2]. rewrite !putOwned_out by assumption. auto.
Qed.
Lemma normCore_low : forall g LL R0 delta order M w, sane g -> 0 <= R0 * delta -> delivery g order -> holds g M w ->
  (forall x, In x (sites g) -> M x <> (0, 0)) ->
  exists w', normCore g true LL R0 delta order w = Done w' /\
    holds g (fun x => times (stringSize LL R0 delta (twist g M x)) (unitOf (M x))) w' /\
    holdsV g (fun x => times (stringSize LL R0 delta (twist g M x)) (unitOf (M x))) w'.
Proof.
  intros g LL R0 delta order M w S HR D H N. pose proof S as (HL & HN & HZ & HK & HW). unfold normCore.
  destruct (gNg g =? 0)%nat eqn:EN; [apply Nat.eqb_eq in EN; lia|].
  destruct (refresh_holds g order M w S D H) as [H1 G1].
  assert (K : forall r x y z, (r < gRanks g)%nat -> (x < gL g)%nat -> (y < gL g)%nat -> (z < gZ g)%nat ->
     coreAt g LL R0 delta (refresh order (wM w) r) (spot g x y z) = Some (times (stringSize LL R0 delta (twist g M (x, y, r * gZ g + z)%nat)) (unitOf (M (x, y, r * gZ g + z)%nat)))).
  { intros r x y z Hr Hx Hy Hz. apply (coreAt_spot g LL R0 delta M (World (refresh order (wM w)) (wV w) (wM2 w))); auto.
    apply N, cell_in; assumption. }
  eexists. split; [reflexivity|]. split.
  - apply (put_holds g _ (refresh order (wM w)) (fun r => coreAt g LL R0 delta (refresh order (wM w) r))). exact K.
  - intros r x y z Hr Hx Hy Hz. cbn [wV]. rewrite overwrite_spot by assumption. apply K; assumption.
Qed.

(** Scaling *)
Lemma vol_e : forall g, (mStart g + vol g <= eSize g)%nat.
Proof. intros g. unfold mStart, vol, eSize. replace (surf g * (gZ g + 2 * gNg g))%nat with (surf g * gZ g + 2 * (gNg g * surf g))%nat by ring. lia. Qed.
Lemma over_lt : forall n f a i, (i < n)%nat -> overwrite n f a i = f i.
Proof. intros n f a i H. unfold overwrite. apply Nat.ltb_lt in H. rewrite H. reflexivity. Qed.
Lemma scale_holds : forall p g low k M w, holds g M w ->
  exists w', scale p g low InM k w = Done w' /\ holds g (fun x => times k (M x)) w' /\
    (sane g -> ghostsHold g M w -> ghostsHold g (fun x => times k (M x)) w') /\ wV w' = wV w /\ wM2 w' = wM2 w.
Proof.
  intros p g low k M w H. eexists. split; [reflexivity|]. split; [|split; [|split; reflexivity]].
  - intros r x y z Hr Hx Hy Hz. cbn [wM]. rewrite over_lt, H by (auto; pose proof (spot_owned g x y z Hx Hy Hz); pose proof (vol_e g); lia). reflexivity.
  - intros S G r x y Hr Hx Hy. destruct (G r x y Hr Hx Hy) as [A B]. cbn [wM].
    assert (Q : (spot g x y (gNg g - 1) < eSize g)%nat /\ (spot g x y (gNg g + gZ g) < eSize g)%nat).
    { pose proof (xy_lt g x y Hx Hy) as Q. destruct S as (HL & HN & HZ & _). unfold spot, eSize, surf. split.
      - apply Nat.lt_le_trans with ((gNg g - 1 + 1) * (gL g * gL g))%nat; [lia|]. rewrite Nat.mul_comm. apply Nat.mul_le_mono_l. lia.
      - apply Nat.lt_le_trans with ((gNg g + gZ g + 1) * (gL g * gL g))%nat; [lia|]. rewrite Nat.mul_comm. apply Nat.mul_le_mono_l. lia. }
    destruct Q as [Q1 Q2]. rewrite !over_lt by assumption. rewrite A, B. auto.
Qed.
Lemma room : forall g, (0 < gL g)%nat -> ((eSize g <=? vRoom g) = (gNg g <=? 1))%nat.
Proof.
  intros g H. unfold eSize, vRoom, surf. destruct (gNg g <=? 1)%nat eqn:E.
  - apply Nat.leb_le in E. apply Nat.leb_le. apply Nat.mul_le_mono_l. lia.
  - apply Nat.leb_gt in E. apply Nat.leb_gt. apply Nat.mul_lt_mono_pos_l; [|lia]. apply Nat.mul_pos_pos; lia.
Qed.
Lemma scale_holdsV : forall p g low k V w, sane g -> gNg g = 1%nat -> holdsV g V w ->
  exists w', scale p g low InV k w = Done w' /\ holdsV g (fun x => times k (V x)) w' /\ wM w' = wM w /\ wM2 w' = wM2 w.
Proof.
  intros p g low k V w S E H. unfold scale. cbv zeta. rewrite room by (destruct S; lia). rewrite E. cbn [Nat.leb].
  eexists. split; [reflexivity|]. split; [|split; reflexivity].
  intros r x y z Hr Hx Hy Hz. cbn [wV]. pose proof (vol_e g). pose proof (spot_lt g x y z Hx Hy Hz).
  rewrite over_lt, H by (auto; lia). reflexivity.
Qed.
Lemma scale_broken : forall p g low k w, sane g -> (2 <= gNg g)%nat -> scale p g low InV k w = Broken.
Proof.
  intros p g low k w S E. unfold scale. cbv zeta. rewrite room by (destruct S; lia).
  destruct (gNg g <=? 1)%nat eqn:Q; [apply Nat.leb_le in Q; lia | reflexivity].
Qed.
Lemma axby_holds : forall g a b M V w, holds g M w -> holdsV g V w ->
  holds g M (axby g a b w) /\ holdsV g (fun x => plus (times b (V x)) (times a (M x))) (axby g a b w).
Proof.
  intros g a b M V w H HV. split; [exact H|]. intros r x y z Hr Hx Hy Hz. cbn [axby wV].
  rewrite overwrite_spot, HV, start_spot, H by assumption. reflexivity.
Qed.
Lemma copy_holds : forall g M w, holds g M w -> holds g M (copyToV g w) /\ holdsV g M (copyToV g w).
Proof.
  intros g M w H. split; [exact H|]. intros r x y z Hr Hx Hy Hz. cbn [copyToV wV].
  rewrite overwrite_spot, start_spot, H by assumption. reflexivity.
Qed.
Lemma mulmul_holds : forall g M V w, holds g M w -> holdsV g V w ->
  holds g M (mulmul g w) /\ holdsV g (fun x => (fst (V x) * fst (M x) - snd (V x) * snd (M x), fst (V x) * snd (M x) + snd (V x) * fst (M x))) (mulmul g w).
Proof.
  intros g M V w H HV. split; [exact H|]. intros r x y z Hr Hx Hy Hz. cbn [mulmul wV].
  rewrite overwrite_spot, HV, start_spot, H by assumption. reflexivity.
Qed.
Lemma unit_not0 : forall a, a <> (0, 0) -> unitOf a <> (0, 0).
Proof. intros a H. apply size_not0, size_unit, H. Qed.
Lemma twist_ext : forall g M M' x, (forall y, In y (sites g) -> M y = M' y) -> In x (sites g) -> twist g M x = twist g M' x.
Proof.
  intros g M M' x H Hx. unfold twist. apply sumOver_ext. intros d _. rewrite (H x Hx), (H _ (next_in g d x Hx)). reflexivity.
Qed.
Lemma holds_ext : forall g M M' w, holds g M w -> (forall x, In x (sites g) -> M x = M' x) -> holds g M' w.
Proof. intros g M M' w H E r x y z Hr Hx Hy Hz. rewrite H by assumption. rewrite E by (apply cell_in; assumption). reflexivity. Qed.
Lemma holdsV_ext : forall g M M' w, holdsV g M w -> (forall x, In x (sites g) -> M x = M' x) -> holdsV g M' w.
Proof. intros g M M' w H E r x y z Hr Hx Hy Hz. rewrite H by assumption. rewrite E by (apply cell_in; assumption). reflexivity. Qed.

(** Smoothing, normalisation and core together. *)
Lemma prepared_holds : forall p g q R0 e M w m2, sane g -> 0 <= R0 * aDelta q -> Forall (delivery g) (mFirst e :: mCore e :: mEach e) ->
  holds g M w -> wM2 w = Some m2 -> aNorm q = true ->
  (forall x, In x (sites g) -> Nat.iter (length (mEach e)) (averaged g (aAlpha q)) M x <> (0, 0)) ->
  exists w', andThen (andThen (match mEach e with [] => Done w | es => smooth g (aAlpha q) (mFirst e) es w end) (normalise p g false InM)) (core_ g false q R0 e) = Done w' /\
    holds g (prepared g q R0 (length (mEach e)) M) w' /\ wV w' = wV w.
Proof.
  intros p g q R0 e M w m2 S HR D H E HN N. inversion D as [|? ? D1 D']; subst. inversion D' as [|? ? D2 D3]; subst.
  set (T := Nat.iter (length (mEach e)) (averaged g (aAlpha q)) M) in *.
  assert (A : exists w1, match mEach e with [] => Done w | es => smooth g (aAlpha q) (mFirst e) es w end = Done w1 /\ holds g T w1 /\ wV w1 = wV w /\ exists m2', wM2 w1 = Some m2').
  { unfold T. destruct (mEach e) as [|o os] eqn:Eo.
    - exists w. split; [reflexivity|]. split; [exact H|]. split; [reflexivity|]. eauto.
    - destruct (refresh_holds g (mFirst e) M w S D1 H) as [H1 G1].
      destruct (smooth_iter g (aAlpha q) (o :: os) M (World (refresh (mFirst e) (wM w)) (wV w) (wM2 w)) m2 S D3 H1 G1 E) as (w1 & F & H2 & _ & V & X).
      exists w1. unfold smooth. auto. }
  destruct A as (w1 & -> & H1 & V1 & m21 & E1). cbn [andThen].
  destruct (normalise_holds p g false T w1 H1 N) as (w2 & -> & H2 & V2 & E2 & _). cbn [andThen].
  unfold core_, prepared. fold T. destruct (aCore q).
  - destruct (normCore_holds g (aLL q) R0 (aDelta q) (mCore e) _ w2 m21 S HR D2 H2) as (w3 & -> & H3 & _ & V3 & _).
    + intros x Hx. apply unit_not0, N, Hx.
    + congruence.
    + exists w3. split; [reflexivity|]. split; [|congruence].
      apply (holds_ext g _ _ w3 H3). intros x Hx. rewrite (unit_again (unitOf (T x))) by (apply size_unit, N, Hx). reflexivity.
  - exists w2. split; [reflexivity|]. split; [exact H2 | congruence].
Qed.
