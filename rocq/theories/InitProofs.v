(** Lemmas about InitModel: the ranks together hold a box. *)
From Coq Require Import Reals List Arith Bool Permutation Lia Lra.
From Verif Require Import KernelModel ForceSpec EnergySpec ConserveSpec IndexModel IndexProofs GhostModel GhostSpec GhostProperties ConserveBoxProofs InitModel InitSpec.
Import ListNotations.
Open Scope R_scope.

Lemma spot_vec : forall g x y z, spot g x y z = vec2Idx (gL g) (x, y, z).
Proof. intros. unfold spot, vec2Idx. ring. Qed.
Lemma around_neigh : forall g i, around g i = snd (idx2VecNeigh (gW g) (gL g) i).
Proof.
  intros. unfold around, idx2VecNeigh, idx2Vec, surf. cbv zeta.
  destruct (_ =? 0)%nat; destruct (_ =? _)%nat; repeat match goal with |- context [if ?b then _ else _] => destruct b end; reflexivity.
Qed.
Lemma around_spot : forall g x y z, sane g -> (x < gL g)%nat -> (y < gL g)%nat -> (z < gZ g)%nat ->
  around g (spot g x y z) =
    (spot g ((x + 1) mod gL g) y z, spot g ((x + gL g - 1) mod gL g) y z,
     spot g x ((y + 1) mod gL g) z, spot g x ((y + gL g - 1) mod gL g) z).
Proof.
  intros g x y z (HL & HN & HZ & HR & HW) Hx Hy Hz. rewrite around_neigh, !spot_vec.
  rewrite neigh_spec; auto.
  etransitivity; [|exact HW]. apply Nat.mul_le_mono_l. lia.
Qed.
Lemma spot_lt : forall g x y z, (x < gL g)%nat -> (y < gL g)%nat -> (z < gZ g)%nat -> (spot g x y z < vol g)%nat.
Proof.
  intros g x y z Hx Hy Hz. unfold spot, vol, surf.
  apply Nat.lt_le_trans with ((z + 1) * (gL g * gL g))%nat.
  - assert (y * gL g + x < gL g * gL g)%nat.
    { apply Nat.lt_le_trans with ((y + 1) * gL g)%nat; [lia|]. apply Nat.mul_le_mono_r. lia. }
    lia.
  - rewrite Nat.mul_comm. apply Nat.mul_le_mono_l. lia.
Qed.
Lemma start_spot : forall g x y z, (mStart g + spot g x y z = spot g x y (gNg g + z))%nat.
Proof. intros. unfold mStart, spot, surf. ring. Qed.
Lemma spot_up : forall g x y z, (mStart g + (spot g x y z + surf g) = spot g x y (gNg g + z + 1))%nat.
Proof. intros. unfold mStart, spot, surf. ring. Qed.
Lemma spot_down : forall g x y z, (1 <= gNg g)%nat -> (mStart g + spot g x y z - surf g = spot g x y (gNg g + z - 1))%nat.
Proof.
  intros g x y z H. unfold mStart, spot, surf. destruct (gNg g) as [|k]; [lia|].
  replace (S k + z - 1)%nat with (k + z)%nat by lia. cbn [Nat.mul].
  set (s := (gL g * gL g)%nat).
  replace (s + k * s + (z * s + y * gL g + x))%nat with ((k + z) * s + y * gL g + x + s)%nat by ring. lia.
Qed.
(** Elements of a rank that belong to it. *)
Lemma owned_spot : forall g i, (2 <= gL g)%nat -> (i < vol g)%nat ->
  exists x y z, (x < gL g /\ y < gL g /\ z < gZ g /\ i = spot g x y z)%nat.
Proof.
  intros g i HL Hi. pose proof (idx2Vec_range (gL g) i ltac:(lia)) as H.
  pose proof (vec2Idx_idx2Vec (gL g) i ltac:(lia)) as E.
  destruct (idx2Vec (gL g) i) as [[x y] z] eqn:Ei. cbn [fst snd] in H. destruct H as (Hx & Hy).
  exists x, y, z. rewrite spot_vec. split; [auto|]. split; [auto|]. split; [|congruence].
  destruct (Nat.lt_ge_cases z (gZ g)) as [|C]; [auto|]. exfalso.
  assert (vol g <= i)%nat; [|lia]. rewrite <- E. unfold vec2Idx, vol, surf.
  apply Nat.le_trans with (gL g * gL g * z)%nat; [apply Nat.mul_le_mono_l; lia|].
  replace (x + gL g * (y + gL g * z))%nat with (x + gL g * y + gL g * gL g * z)%nat by ring. lia.
Qed.

(** ** Ghosts *)
Lemma depth_pos : forall g, sane g -> (1 <= depth g)%nat.
Proof. intros g (_ & H1 & H2 & H3 & _). unfold depth. apply Nat.le_trans with (1 * 1)%nat; [lia|]. apply Nat.mul_le_mono; lia. Qed.
Lemma slice_in : forall g r z, (r < gRanks g)%nat -> (z < gZ g)%nat -> (r * gZ g + z < depth g)%nat.
Proof.
  intros. unfold depth. apply Nat.lt_le_trans with ((r + 1) * gZ g)%nat; [lia|]. apply Nat.mul_le_mono_r. lia.
Qed.
Lemma refresh_raw : forall g order m, sane g -> delivery g order ->
  ghosts_refreshed (gRanks g) (gL g * gL g) (gNg g) (gZ g) (gNg g)
    (fun l => m (fst l) (snd l)) (fun l => refresh order m (fst l) (snd l)).
Proof.
  intros g order m (HL & HN & HZ & HR & HW) (M & C & l & HC & Hs & HP).
  destruct (ghost_exchange2_partial M C (gRanks g) (gL g * gL g) (gNg g) (gZ g) None (fun l => m (fst l) (snd l)) HC ltac:(lia) ltac:(cbn; lia)) as [_ K].
  specialize (K l order Hs HP). cbn zeta in K.
  destruct K as [K1 K2]. split.
  - intros r z i Hr Hz Hi. apply (K1 r z i Hr Hz Hi).
  - intros [r i] H. cbn [fst snd]. apply (K2 (r, i) H).
Qed.
Lemma refresh_owned : forall g order m r i, sane g -> delivery g order -> (mStart g <= i < mStart g + vol g)%nat ->
  refresh order m r i = m r i.
Proof.
  intros g order m r i S D Hi. destruct (refresh_raw g order m S D) as [_ K].
  apply (K (r, i)). intros r' z j Hr Hz Hj. unfold slab. unfold mStart, vol, surf in Hi.
  set (s := (gL g * gL g)%nat) in *. split; intros E; inversion E as [[E1 E2]].
  - assert (i < gNg g * s)%nat; [|lia]. rewrite E2.
    apply Nat.lt_le_trans with ((gNg g - gNg g + z + 1) * s)%nat; [lia|]. apply Nat.mul_le_mono_r. lia.
  - assert (gNg g * s + s * gZ g <= i)%nat; [|lia]. rewrite E2.
    apply Nat.le_trans with ((gNg g + gZ g + z) * s)%nat; [|lia].
    replace (gNg g * s + s * gZ g)%nat with ((gNg g + gZ g) * s)%nat by ring. apply Nat.mul_le_mono_r. lia.
Qed.
Lemma spot_owned : forall g x y z, (x < gL g)%nat -> (y < gL g)%nat -> (z < gZ g)%nat ->
  (mStart g <= spot g x y (gNg g + z) < mStart g + vol g)%nat.
Proof. intros g x y z Hx Hy Hz. rewrite <- start_spot. pose proof (spot_lt g x y z Hx Hy Hz). lia. Qed.
Lemma xy_lt : forall g x y, (x < gL g)%nat -> (y < gL g)%nat -> (y * gL g + x < gL g * gL g)%nat.
Proof. intros. apply Nat.lt_le_trans with ((y + 1) * gL g)%nat; [lia|]. apply Nat.mul_le_mono_r. lia. Qed.
Lemma refresh_holds : forall g order M w, sane g -> delivery g order -> holds g M w ->
  holds g M (World (refresh order (wM w)) (wV w) (wM2 w)) /\ ghostsHold g M (World (refresh order (wM w)) (wV w) (wM2 w)).
Proof.
  intros g order M w S D H. split.
  - intros r x y z Hr Hx Hy Hz. cbn [wM]. rewrite (refresh_owned g); auto. apply spot_owned; auto.
  - intros r x y Hr Hx Hy. cbn [wM]. destruct (refresh_raw g order (wM w) S D) as [K _].
    pose proof (depth_pos g S) as HD.
    destruct S as (HL & HN & HZ & HR & HW).
    pose proof (xy_lt g x y Hx Hy) as Hxy.
    assert (Sp : forall z, spot g x y z = (z * (gL g * gL g) + (y * gL g + x))%nat) by (intros; unfold spot; lia).
    split.
    + destruct (K r (gNg g - 1)%nat (y * gL g + x)%nat Hr ltac:(lia) Hxy) as [E _]. unfold slab in E. cbn [fst snd] in E.
      rewrite Sp. replace (gNg g - 1)%nat with (gNg g - gNg g + (gNg g - 1))%nat at 1 by lia. rewrite E.
      replace (gNg g + gZ g - gNg g + (gNg g - 1))%nat with (gNg g + (gZ g - 1))%nat by lia. rewrite <- Sp.
      destruct (r =? 0)%nat eqn:Er.
      * apply Nat.eqb_eq in Er. subst r. rewrite H by lia. do 3 f_equal.
        rewrite Nat.mul_0_l, Nat.add_0_l, Nat.mod_small by lia. unfold depth.
        destruct (gRanks g) as [|n]; [lia|]. replace (S n - 1)%nat with n by lia. cbn [Nat.mul]. lia.
      * apply Nat.eqb_neq in Er. rewrite H by lia. do 3 f_equal.
        replace (r * gZ g + (depth g - 1))%nat with ((r * gZ g - 1) + 1 * depth g)%nat.
        2:{ assert (1 * 1 <= r * gZ g)%nat by (apply Nat.mul_le_mono; lia). lia. }
        rewrite Nat.mod_add by lia. rewrite Nat.mod_small.
        2:{ pose proof (slice_in g (r - 1) (gZ g - 1) ltac:(lia) ltac:(lia)) as Q.
            destruct r as [|r]; [lia|]. cbn [Nat.mul]. replace (S r - 1)%nat with r in Q by lia. lia. }
        destruct r as [|r]; [lia|]. replace (S r - 1)%nat with r by lia. cbn [Nat.mul]. lia.
    + destruct (K r 0%nat (y * gL g + x)%nat Hr ltac:(lia) Hxy) as [_ E]. unfold slab in E. cbn [fst snd] in E.
      rewrite Sp. replace (gNg g + gZ g)%nat with (gNg g + gZ g + 0)%nat at 1 by lia. rewrite E. rewrite <- Sp.
      destruct (r =? gRanks g - 1)%nat eqn:Er.
      * apply Nat.eqb_eq in Er. subst r. rewrite H by lia. do 3 f_equal.
        replace ((gRanks g - 1) * gZ g + gZ g)%nat with (1 * depth g)%nat; [rewrite Nat.mod_mul by lia; lia|].
        unfold depth. destruct (gRanks g) as [|n]; [lia|]. replace (S n - 1)%nat with n by lia. cbn [Nat.mul]. lia.
      * apply Nat.eqb_neq in Er. rewrite H by lia. do 3 f_equal.
        rewrite Nat.mod_small.
        -- replace ((r + 1) * gZ g)%nat with (r * gZ g + gZ g)%nat by ring. lia.
        -- pose proof (slice_in g (r + 1) 0 ltac:(lia) ltac:(lia)). lia.
Qed.
(** The values read for the six neighbours. *)
Lemma reads : forall g M w r x y z, sane g -> holds g M w -> ghostsHold g M w ->
  (r < gRanks g)%nat -> (x < gL g)%nat -> (y < gL g)%nat -> (z < gZ g)%nat ->
  let c := (x, y, r * gZ g + z)%nat in
  let at_ i := wM w r (mStart g + i)%nat in
  let '(px, mx, py, my) := around g (spot g x y z) in
  at_ (spot g x y z) = Some (M c) /\ at_ px = Some (M (next g Xp c)) /\ at_ mx = Some (M (next g Xm c)) /\
  at_ py = Some (M (next g Yp c)) /\ at_ my = Some (M (next g Ym c)) /\
  at_ (spot g x y z + surf g)%nat = Some (M (next g Zp c)) /\
  wM w r (mStart g + spot g x y z - surf g)%nat = Some (M (next g Zm c)).
Proof.
  intros g M w r x y z S H G Hr Hx Hy Hz c at_. rewrite around_spot; auto.
  pose proof S as (HL & HN & HZ & HR & HW). pose proof (depth_pos g S) as HD.
  pose proof (slice_in g r z Hr Hz) as Hk.
  assert (ML : forall a, (a mod gL g < gL g)%nat) by (intros; apply Nat.mod_upper_bound; lia).
  unfold at_, c, next, stepTo. rewrite spot_up, spot_down, !start_spot by lia.
  assert (E : forall a, (a + (gL g - 1) * 1 = a + gL g - 1)%nat) by (intros; lia). rewrite !E.
  repeat split; try (apply H; auto).
  - destruct (Nat.eq_dec (z + 1) (gZ g)) as [e|e].
    + replace (gNg g + z + 1)%nat with (gNg g + gZ g)%nat by lia. destruct (G r x y Hr Hx Hy) as [_ ->].
      do 4 f_equal. lia.
    + replace (gNg g + z + 1)%nat with (gNg g + (z + 1))%nat by lia. rewrite H by lia. do 3 f_equal.
      rewrite Nat.mod_small; [lia|]. pose proof (slice_in g r (z + 1) Hr ltac:(lia)). lia.
  - destruct (Nat.eq_dec z 0) as [e|e].
    + subst z. replace (gNg g + 0 - 1)%nat with (gNg g - 1)%nat by lia. destruct (G r x y Hr Hx Hy) as [-> _].
      do 4 f_equal. lia.
    + replace (gNg g + z - 1)%nat with (gNg g + (z - 1))%nat by lia. rewrite H by lia. do 3 f_equal.
      replace (r * gZ g + z + (depth g - 1) * 1)%nat with ((r * gZ g + (z - 1)) + 1 * depth g)%nat by lia.
      rewrite Nat.mod_add by lia. rewrite Nat.mod_small by (apply slice_in; lia). reflexivity.
Qed.

(** ** Smoothing *)
Lemma itera_averaged : forall g alpha M w r x y z, sane g -> holds g M w -> ghostsHold g M w ->
  (r < gRanks g)%nat -> (x < gL g)%nat -> (y < gL g)%nat -> (z < gZ g)%nat ->
  iteraAt g alpha (wM w r) (spot g x y z) = Some (averaged g alpha M (x, y, r * gZ g + z)%nat).
Proof.
  intros g alpha M w r x y z S H G Hr Hx Hy Hz. pose proof (reads g M w r x y z S H G Hr Hx Hy Hz) as K.
  unfold iteraAt. cbv zeta in *. destruct (around g (spot g x y z)) as [[[px mx] py] my].
  destruct K as (-> & -> & -> & -> & -> & -> & ->). cbn [cplus ctimes].
  unfold averaged, mean6, around6. cbn [fold_right]. unfold plus, times. cbn [fst snd].
  f_equal. f_equal; field.
Qed.
Lemma put_holds : forall g M w m v m2, (forall r x y z, (r < gRanks g)%nat -> (x < gL g)%nat -> (y < gL g)%nat -> (z < gZ g)%nat ->
    m r (spot g x y z) = Some (M (x, y, r * gZ g + z)%nat)) -> holds g M (World (fun r => putOwned g (m r) (w r)) v m2).
Proof.
  intros g M w m v m2 K r x y z Hr Hx Hy Hz. cbn [wM]. unfold putOwned.
  pose proof (spot_owned g x y z Hx Hy Hz) as [A B]. apply Nat.leb_le in A. apply Nat.ltb_lt in B. rewrite A, B. cbn [andb].
  rewrite <- start_spot. replace (mStart g + spot g x y z - mStart g)%nat with (spot g x y z) by lia. apply K; auto.
Qed.
Lemma overwrite_spot : forall g f a x y z, (x < gL g)%nat -> (y < gL g)%nat -> (z < gZ g)%nat -> overwrite (vol g) f a (spot g x y z) = f (spot g x y z).
Proof. intros. unfold overwrite. pose proof (spot_lt g x y z ltac:(auto) ltac:(auto) ltac:(auto)) as Q. apply Nat.ltb_lt in Q. rewrite Q. reflexivity. Qed.
Lemma once_averaged : forall g alpha order M w m2, sane g -> delivery g order -> holds g M w -> ghostsHold g M w -> wM2 w = Some m2 ->
  exists w', smoothOnce g alpha order w = Done w' /\ holds g (averaged g alpha M) w' /\ ghostsHold g (averaged g alpha M) w' /\
    wV w' = wV w /\ exists m2', wM2 w' = Some m2'.
Proof.
  intros g alpha order M w m2 S D H G E. unfold smoothOnce. rewrite E.
  pose proof S as (HL & HN & HZ & HR & HW). destruct (gNg g =? 0)%nat eqn:EN; [apply Nat.eqb_eq in EN; lia|].
  set (m2' := fun r => overwrite (vol g) (iteraAt g alpha (wM w r)) (m2 r)).
  eexists. split; [reflexivity|].
  assert (K : holds g (averaged g alpha M) (World (fun r => putOwned g (m2' r) (wM w r)) (wV w) (Some m2'))).
  { apply put_holds. intros r x y z Hr Hx Hy Hz. unfold m2'. rewrite overwrite_spot by auto. apply itera_averaged; auto. }
  destruct (refresh_holds g order _ _ S D K) as [K1 K2]. cbn [wM wV wM2] in *.
  split; [exact K1|]. split; [exact K2|]. split; [reflexivity|]. eexists. reflexivity.
Qed.
Lemma iter_r : forall (A : Type) (f : A -> A) n x, Nat.iter (S n) f x = Nat.iter n f (f x).
Proof. intros A f n x. induction n as [|n IH]; [reflexivity|]. cbn [Nat.iter nat_rect] in *. unfold Nat.iter in *. cbn [nat_rect] in *. rewrite IH. reflexivity. Qed.
Lemma smooth_iter : forall g alpha orders M w m2, sane g -> Forall (delivery g) orders -> holds g M w -> ghostsHold g M w -> wM2 w = Some m2 ->
  exists w', fold_left (fun o order => andThen o (smoothOnce g alpha order)) orders (Done w) = Done w' /\
    holds g (Nat.iter (length orders) (averaged g alpha) M) w' /\ ghostsHold g (Nat.iter (length orders) (averaged g alpha) M) w' /\
    wV w' = wV w /\ exists m2', wM2 w' = Some m2'.
Proof.
  intros g alpha. induction orders as [|o os IH]; intros M w m2 S D H G E.
  - exists w. split; [reflexivity|]. split; [exact H|]. split; [exact G|]. split; [reflexivity|]. eauto.
  - inversion D as [|? ? D1 D2]; subst. cbn [fold_left andThen].
    destruct (once_averaged g alpha o M w m2 S D1 H G E) as (w1 & -> & H1 & G1 & V1 & m21 & E1).
    destruct (IH (averaged g alpha M) w1 m21 S D2 H1 G1 E1) as (w' & F & H2 & G2 & V2 & X).
    exists w'. split; [exact F|]. cbn [length]. rewrite iter_r. rewrite V2, V1. auto.
Qed.

Lemma smooth_done : forall g alpha first orders M w w', sane g -> Forall (delivery g) (first :: orders) -> holds g M w ->
  smooth g alpha first orders w = Done w' ->
  holds g (Nat.iter (length orders) (averaged g alpha) M) w' /\ ghostsHold g (Nat.iter (length orders) (averaged g alpha) M) w' /\ wV w' = wV w.
Proof.
  intros g alpha first orders M w w' S D H E. inversion D as [|? ? D1 D2]; subst.
  destruct (refresh_holds g first M w S D1 H) as [H1 G1]. unfold smooth in E.
  destruct (wM2 w) as [m2|] eqn:E2.
  - destruct (smooth_iter g alpha orders M _ m2 S D2 H1 G1 eq_refl) as (w1 & F & H2 & G2 & V & _).
    cbn [wM wV wM2] in *. rewrite F in E. injection E as <-. auto.
  - destruct orders as [|o os]; [cbn [fold_left] in E; injection E as <-; auto|].
    exfalso. cbn [fold_left andThen] in E. assert (Q : smoothOnce g alpha o (World (refresh first (wM w)) (wV w) None) = Broken) by reflexivity. rewrite Q in E. revert E. clear.
    induction os as [|o' os IH]; cbn [fold_left andThen]; [discriminate | exact IH].
Qed.
Lemma slices : forall g k, sane g -> (k < depth g)%nat -> exists r z, (r < gRanks g /\ z < gZ g /\ k = r * gZ g + z)%nat.
Proof.
  intros g k (HL & HN & HZ & HR & HW) Hk. exists (k / gZ g)%nat, (k mod gZ g)%nat.
  split; [apply Nat.div_lt_upper_bound; [lia|]; unfold depth in Hk; lia|].
  split; [apply Nat.mod_upper_bound; lia|]. rewrite Nat.mul_comm. apply Nat.div_mod. lia.
Qed.
Lemma holds_unique : forall g M M' w x, sane g -> holds g M w -> holds g M' w -> In x (sites g) -> M x = M' x.
Proof.
  intros g M M' w [[i j] k] S H H' Hx. apply in_box in Hx. destruct Hx as (Hi & Hj & Hk).
  destruct (slices g k S Hk) as (r & z & Hr & Hz & ->).
  pose proof (H r i j z Hr Hi Hj Hz) as A. rewrite (H' r i j z Hr Hi Hj Hz) in A. injection A as A. auto.
Qed.
Lemma holdsV_unique : forall g M M' w x, sane g -> holdsV g M w -> holdsV g M' w -> In x (sites g) -> M x = M' x.
Proof.
  intros g M M' w [[i j] k] S H H' Hx. apply in_box in Hx. destruct Hx as (Hi & Hj & Hk).
  destruct (slices g k S Hk) as (r & z & Hr & Hz & ->).
  pose proof (H r i j z Hr Hi Hj Hz) as A. rewrite (H' r i j z Hr Hi Hj Hz) in A. injection A as A. auto.
Qed.
