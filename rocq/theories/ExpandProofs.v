(** Lemmas on reading into a finer grid. *)
From Coq Require Import Lqa Lra Reals List Arith Bool Lia.
From Verif Require Import ConserveProofs PaxProofs ExpandModel ExpandSpec.
Import ListNotations.
Local Open Scope R_scope.
Ltac Zify.zify_post_hook ::= idtac.

(** *** Writes *)
Lemma fold_flat {A B S : Type} (f : S -> B -> S) (g : A -> list B) : forall l s, fold_left (fun s x => fold_left f (g x) s) l s = fold_left f (flat_map g l) s.
Proof. induction l as [|x l IH]; intros s; [reflexivity|]. cbn [fold_left flat_map]. rewrite fold_left_app. apply IH. Qed.
Lemma fold_map {A B S : Type} (f : S -> B -> S) (g : A -> B) : forall l s, fold_left (fun s x => f s (g x)) l s = fold_left f (map g l) s.
Proof. induction l as [|x l IH]; intros s; [reflexivity|]. cbn [fold_left map]. apply IH. Qed.
Lemma fold_ext {A S : Type} (f g : S -> A -> S) : (forall s x, f s x = g s x) -> forall l s, fold_left f l s = fold_left g l s.
Proof. intros H. induction l as [|x l IH]; intros s; [reflexivity|]. cbn [fold_left]. rewrite H. apply IH. Qed.
Definition putw (s : array) (w : nat * R) : array := put s (fst w) (snd w).
Definition writes (nx nz Nx Nz : nat) (m : array) (c : nat * nat * nat) : list (nat * R) :=
  let '(cx, cy, cz) := c in
  flat_map (fun iz => flat_map (fun iy => map (fun ix => ((ix + Nx * (iy + Nx * iz))%nat, mix nx Nx m cx cy cz ix iy iz)) (between (lo cx nx Nx) (hi cx nx Nx Nz)))
    (between (lo cy nx Nx) (hi cy nx Nx Nx))) (between (lo cz nz Nz) (hi cz nz Nz Nz)).
Lemma cell_writes nx nz Nx Nz m s c : cell nx nz Nx Nz m s c = fold_left putw (writes nx nz Nx Nz m c) s.
Proof.
  destruct c as [[cx cy] cz]. unfold cell, writes. rewrite <- fold_flat. apply fold_ext. intros s1 iz. rewrite <- fold_flat. apply fold_ext. intros s2 iy.
  rewrite <- fold_map. reflexivity.
Qed.
Lemma expand_writes nx nz Nx Nz m s order : expand nx nz Nx Nz m s order = fold_left putw (flat_map (writes nx nz Nx Nz m) order) s.
Proof. unfold expand. rewrite <- fold_flat. apply fold_ext. intros. apply cell_writes. Qed.
Lemma putw_last (T : nat -> R) : forall (l : list (nat * R)) s j, (forall w, In w l -> fst w = j -> snd w = T j) ->
  fold_left putw l s j = s j /\ ~ In j (map fst l) \/ fold_left putw l s j = T j /\ In j (map fst l).
Proof.
  induction l as [|w l IH]; intros s j H; [left; split; [reflexivity|intros []]|]. cbn [fold_left map].
  destruct (IH (putw s w) j) as [[E N]|[E I]]; [intros; apply H; [right|]; assumption| |].
  - rewrite E. unfold putw, put. destruct (Nat.eqb_spec j (fst w)) as [Q|Q].
    + right. split; [apply H; [left; reflexivity|symmetry; exact Q]|left; symmetry; exact Q].
    + left. split; [reflexivity|]. intros [X|X]; [apply Q; symmetry; exact X|exact (N X)].
  - right. split; [exact E|right; exact I].
Qed.
Lemma in_between a b i : In i (between a b) <-> (a <= i <= b)%nat.
Proof. unfold between. rewrite in_seq. lia. Qed.

(** *** Equal factors *)
Lemma mul_mod_0 a n c : (1 <= n)%nat -> ((c * (a * n)) mod n = 0)%nat.
Proof. intros H. rewrite Nat.mul_assoc. apply Nat.mod_mul. lia. Qed.
Lemma mul_div a n c : (1 <= n)%nat -> (c * (a * n) / n = c * a)%nat.
Proof. intros H. rewrite Nat.mul_assoc. apply Nat.div_mul. lia. Qed.
Lemma lo_eq a n c : (1 <= n)%nat -> lo c n (a * n) = (c * a)%nat. Proof. apply mul_div. Qed.
Lemma hi_eq a n c : (1 <= n)%nat -> hi c n (a * n) (a * n) = ((c + 1) * a - 1)%nat.
Proof. intros H. unfold hi. rewrite mul_mod_0, Nat.eqb_refl, mul_div by exact H. reflexivity. Qed.
Lemma hi_x a n k c : (1 <= n)%nat -> (c < n)%nat -> hi c n (a * n) k = ((c + 1) * a - 1)%nat \/ hi c n (a * n) k = ((c + 1) * a)%nat /\ (c + 1 < n)%nat.
Proof.
  intros H L. unfold hi. rewrite mul_div by exact H. destruct (Nat.eqb_spec ((c + 1) * k mod n) 0) as [_|N]; [left; reflexivity|right]. split; [reflexivity|].
  destruct (Nat.eq_dec (c + 1) n) as [E|E]; [|lia]. exfalso. apply N. rewrite E, Nat.mul_comm. apply Nat.mod_mul. lia.
Qed.
Lemma div_of a c i : (1 <= a)%nat -> (c * a <= i <= (c + 1) * a - 1)%nat -> (i / a = c)%nat.
Proof. intros H L. symmetry. apply (Nat.div_unique i a c (i - c * a)); lia. Qed.
(** The value of cell (ix/a, iy/a, iz/a). *)
Definition right (a nx : nat) (m : array) (ix iy iz : nat) : R := mix nx (a * nx) m (ix / a) (iy / a) (iz / a) ix iy iz.
Lemma INR_pos n : (1 <= n)%nat -> 0 < INR n. Proof. intros H. apply lt_0_INR. lia. Qed.
Lemma ratio a nx : (1 <= a)%nat -> (1 <= nx)%nat -> INR nx / INR (a * nx) = 1 / INR a.
Proof. intros H1 H2. rewrite mult_INR. pose proof (INR_pos a H1). pose proof (INR_pos nx H2). field. lra. Qed.
Lemma mix_edge a nx m cx cy cz iy iz : (1 <= a)%nat -> (1 <= nx)%nat -> (cx + 1 < nx)%nat ->
  mix nx (a * nx) m cx cy cz ((cx + 1) * a) iy iz = mix nx (a * nx) m (cx + 1) cy cz ((cx + 1) * a) iy iz.
Proof.
  intros Ha Hn Hc. unfold mix. cbv zeta. rewrite ratio by assumption. pose proof (INR_pos a Ha) as P.
  assert (E : 1 / INR a * INR ((cx + 1) * a) = INR (cx + 1)) by (rewrite mult_INR; field; lra). rewrite E.
  rewrite (Nat.mod_small (cx + 1) nx) by lia. replace (INR (cx + 1) - INR (cx + 1)) with 0 by ring. replace (INR (cx + 1) - INR cx) with 1 by (rewrite plus_INR; cbn [INR]; ring).
  ring.
Qed.
Lemma writes_right a nx nz m c w : (1 <= a)%nat -> (1 <= nx)%nat -> (1 <= nz)%nat -> (fst (fst c) < nx)%nat -> (snd (fst c) < nx)%nat -> (snd c < nz)%nat ->
  In w (writes nx nz (a * nx) (a * nz) m c) -> exists ix iy iz, (ix < a * nx)%nat /\ (iy < a * nx)%nat /\ (iz < a * nz)%nat /\
    fst w = (ix + a * nx * (iy + a * nx * iz))%nat /\ snd w = right a nx m ix iy iz.
Proof.
  intros Ha Hx Hz. destruct c as [[cx cy] cz]. cbn [fst snd]. intros Lx Ly Lz I. unfold writes in I.
  apply in_flat_map in I. destruct I as [iz [Iz I]]. apply in_flat_map in I. destruct I as [iy [Iy I]]. apply in_map_iff in I. destruct I as [ix [E Ix]].
  rewrite in_between, lo_eq in Iz by assumption. rewrite hi_eq in Iz by assumption. rewrite in_between, lo_eq in Iy by assumption. rewrite hi_eq in Iy by assumption.
  rewrite in_between, lo_eq in Ix by assumption.
  assert (Bz : ((cz + 1) * a <= a * nz)%nat) by (rewrite (Nat.mul_comm a nz); apply Nat.mul_le_mono_r; lia).
  assert (By : ((cy + 1) * a <= a * nx)%nat) by (rewrite (Nat.mul_comm a nx); apply Nat.mul_le_mono_r; lia).
  assert (Bx : ((cx + 1) * a <= a * nx)%nat) by (rewrite (Nat.mul_comm a nx); apply Nat.mul_le_mono_r; lia).
  assert (P1 : (1 * a <= (cx + 1) * a)%nat) by (apply Nat.mul_le_mono_r; lia). assert (P2 : (1 * a <= (cy + 1) * a)%nat) by (apply Nat.mul_le_mono_r; lia).
  assert (P3 : (1 * a <= (cz + 1) * a)%nat) by (apply Nat.mul_le_mono_r; lia).
  exists ix, iy, iz. rewrite <- E. cbn [fst snd].
  assert (Dz : (iz / a = cz)%nat) by (apply div_of; lia). assert (Dy : (iy / a = cy)%nat) by (apply div_of; lia).
  destruct (hi_x a nx (a * nz) cx Hx Lx) as [H|[H L]]; rewrite H in Ix.
  - repeat split; try lia. unfold right. rewrite Dz, Dy. rewrite (div_of a cx ix) by lia. reflexivity.
  - assert (B2 : ((cx + 1 + 1) * a <= a * nx)%nat) by (rewrite (Nat.mul_comm a nx); apply Nat.mul_le_mono_r; lia).
    repeat split; try lia. unfold right. rewrite Dz, Dy. destruct (Nat.eq_dec ix ((cx + 1) * a)) as [->|N].
    + rewrite Nat.div_mul by lia. apply mix_edge; assumption.
    + rewrite (div_of a cx ix) by lia. reflexivity.
Qed.
Lemma slot_inj N ix iy iz jx jy jz : (ix < N)%nat -> (iy < N)%nat -> (jx < N)%nat -> (jy < N)%nat ->
  (ix + N * (iy + N * iz) = jx + N * (jy + N * jz))%nat -> ix = jx /\ iy = jy /\ iz = jz.
Proof.
  intros A B C D E.
  assert (X : ix = jx).
  { apply (f_equal (fun n => (n mod N)%nat)) in E. cbv beta in E. rewrite (Nat.mul_comm N (iy + _)), (Nat.mul_comm N (jy + _)), !Nat.mod_add in E by lia. rewrite !Nat.mod_small in E by assumption. exact E. }
  subst jx. assert (E2 : (iy + N * iz = jy + N * jz)%nat). { assert (Q : (N * (iy + N * iz) = N * (jy + N * jz))%nat) by lia. apply Nat.mul_cancel_l in Q; lia. }
  assert (Y : iy = jy).
  { apply (f_equal (fun n => (n mod N)%nat)) in E2. cbv beta in E2. rewrite (Nat.mul_comm N iz), (Nat.mul_comm N jz), !Nat.mod_add in E2 by lia. rewrite !Nat.mod_small in E2 by assumption. exact E2. }
  subst jy. split; [reflexivity|]. split; [reflexivity|]. assert (Q : (N * iz = N * jz)%nat) by lia. apply Nat.mul_cancel_l in Q; lia.
Qed.
Lemma expand_right a nx nz m s order ix iy iz : (1 <= a)%nat -> (1 <= nx)%nat -> (1 <= nz)%nat -> (forall x y z, In (x, y, z) order <-> (x < nx /\ y < nx /\ z < nz)%nat) ->
  (ix < a * nx)%nat -> (iy < a * nx)%nat -> (iz < a * nz)%nat ->
  expand nx nz (a * nx) (a * nz) m s order (ix + a * nx * (iy + a * nx * iz))%nat = right a nx m ix iy iz.
Proof.
  intros Ha Hx Hz HO Lx Ly Lz. rewrite expand_writes. set (l := flat_map _ order). set (j := (ix + _)%nat).
  destruct (putw_last (fun _ => right a nx m ix iy iz) l s j) as [[_ N]|[E _]]; [| |exact E].
  - intros w I E. unfold l in I. apply in_flat_map in I. destruct I as [[[cx cy] cz] [Ic I]]. apply HO in Ic.
    destruct (writes_right a nx nz m (cx, cy, cz) w Ha Hx Hz) as [jx [jy [jz [Bx [By [Bz [E1 E2]]]]]]]; cbn [fst snd]; try lia; [exact I|].
    rewrite E1 in E. unfold j in E. apply slot_inj in E; try assumption. destruct E as [-> [-> ->]]. exact E2.
  - exfalso. apply N. apply in_map_iff. exists (j, mix nx (a * nx) m (ix / a) (iy / a) (iz / a) ix iy iz). split; [reflexivity|].
    assert (Dx : (ix / a < nx)%nat) by (apply Nat.div_lt_upper_bound; lia). assert (Dy : (iy / a < nx)%nat) by (apply Nat.div_lt_upper_bound; lia).
    assert (Dz : (iz / a < nz)%nat) by (apply Nat.div_lt_upper_bound; lia).
    unfold l. apply in_flat_map. exists ((ix / a)%nat, (iy / a)%nat, (iz / a)%nat). split; [apply HO; lia|].
    assert (W : forall i, (i / a * a <= i <= (i / a + 1) * a - 1)%nat).
    { intros i. pose proof (Nat.div_mod i a ltac:(lia)) as Q. pose proof (Nat.mod_upper_bound i a ltac:(lia)) as U. rewrite Nat.mul_comm in Q. lia. }
    pose proof (W ix) as Wx. pose proof (W iy) as Wy. pose proof (W iz) as Wz.
    unfold writes. apply in_flat_map. exists iz. split; [rewrite in_between, lo_eq, hi_eq by assumption; exact Wz|].
    apply in_flat_map. exists iy. split; [rewrite in_between, lo_eq, hi_eq by assumption; exact Wy|].
    apply in_map_iff. exists ix. split; [reflexivity|]. rewrite in_between, lo_eq by assumption. destruct (hi_x a nx (a * nz) (ix / a) Hx Dx) as [H|[H _]]; rewrite H; lia.
Qed.

(** *** The memory read *)
Lemma copy_in src from dst to n i : (to <= i < to + n)%nat -> copy src from dst to n i = src (from + (i - to))%nat.
Proof. intros H. unfold copy. rewrite (proj2 (Nat.leb_le to i)), (proj2 (Nat.ltb_lt i (to + n))) by lia. reflexivity. Qed.
Lemma copy_out src from dst to n i : (i < to \/ to + n <= i)%nat -> copy src from dst to n i = dst i.
Proof. intros H. unfold copy. destruct (Nat.leb_spec to i), (Nat.ltb_spec i (to + n)); cbn [andb]; try reflexivity. lia. Qed.
Lemma fine_big a nx nz : (2 <= a)%nat -> (1 <= nx)%nat -> (1 <= nz)%nat -> (nx * nx * nz <= a * nx * (a * nx) * (a * nz - 1))%nat.
Proof.
  intros Ha Hx Hz. apply Nat.mul_le_mono.
  - apply Nat.mul_le_mono; rewrite <- (Nat.mul_1_l nx) at 1; apply Nat.mul_le_mono_r; lia.
  - assert (2 * nz <= a * nz)%nat by (apply Nat.mul_le_mono_r; exact Ha). lia.
Qed.
Lemma packed_low a nx nz s m2 p i : (2 <= a)%nat -> (1 <= nx)%nat -> (1 <= nz)%nat -> (i < nx * nx * nz)%nat -> packed nx nz (a * nx) (a * nz) s m2 p i = s p i.
Proof.
  intros Ha Hx Hz L. unfold packed. cbv zeta. pose proof (fine_big a nx nz Ha Hx Hz). rewrite copy_out by (left; lia). rewrite copy_in by lia. f_equal. lia.
Qed.
Lemma source_eq K a nx nz Ng s m2 p x y z : (2 <= a)%nat -> (1 <= nx)%nat -> (1 <= nz)%nat -> (1 <= Ng)%nat -> (x < nx)%nat -> (y < nx)%nat -> (z <= nz)%nat ->
  source K nx nz (a * nx) (a * nz) Ng s m2 p (x + nx * (y + nx * z))%nat = if (z <? nz)%nat then s p (x + nx * (y + nx * z))%nat else s ((p + 1) mod K)%nat (x + nx * y)%nat.
Proof.
  intros Ha Hx Hz Hg Lx Ly Lz. unfold source. cbv zeta.
  assert (XY : (x + nx * y < nx * nx)%nat). { assert (nx * (y + 1) <= nx * nx)%nat by (apply Nat.mul_le_mono_l; lia). lia. }
  assert (ID : (x + nx * (y + nx * z) = x + nx * y + nx * nx * z)%nat) by ring. rewrite ID.
  pose proof (fine_big a nx nz Ha Hx Hz) as B. set (S2 := (a * nx * (a * nx))%nat) in *.
  assert (S3 : (S2 * (a * nz - 1) <= S2 * (a * nz))%nat) by (apply Nat.mul_le_mono_l; lia).
  assert (S4 : (nx * nx <= S2)%nat). { unfold S2. apply Nat.mul_le_mono; rewrite <- (Nat.mul_1_l nx) at 1; apply Nat.mul_le_mono_r; lia. }
  assert (S5 : (1 * S2 <= Ng * S2)%nat) by (apply Nat.mul_le_mono_r; lia).
  destruct (Nat.ltb_spec z nz) as [L|L].
  - assert (Z1 : (nx * nx * (z + 1) <= nx * nx * nz)%nat) by (apply Nat.mul_le_mono_l; lia).
    rewrite copy_out by (left; lia). unfold ghosted. fold S2. rewrite copy_out by (left; lia). apply packed_low; lia || assumption.
  - replace z with nz by lia. rewrite copy_in by lia. unfold ghosted. fold S2. rewrite copy_in by lia. rewrite packed_low.
    + f_equal. lia.
    + exact Ha.
    + exact Hx.
    + exact Hz.
    + assert (Z1 : (nx * nx * 1 <= nx * nx * nz)%nat) by (apply Nat.mul_le_mono_l; lia). lia.
Qed.
(** *** The interpolation *)
Lemma next_slice K nz p c : (1 <= nz)%nat -> (p < K)%nat -> (c < nz)%nat ->
  ((p * nz + c) / nz = p)%nat /\ ((p * nz + c) mod nz = c)%nat /\
  (if (c + 1 <? nz)%nat then (p * nz + c + 1) mod (K * nz) = p * nz + (c + 1) else (p * nz + c + 1) mod (K * nz) = ((p + 1) mod K) * nz)%nat.
Proof.
  intros Hz Hp Hc. split; [rewrite Nat.add_comm, Nat.div_add by lia; rewrite Nat.div_small; lia|]. split; [rewrite Nat.add_comm, Nat.mod_add by lia; apply Nat.mod_small; lia|].
  assert (B : ((p + 1) * nz <= K * nz)%nat) by (apply Nat.mul_le_mono_r; lia).
  destruct (Nat.ltb_spec (c + 1) nz) as [L|L]; [rewrite Nat.mod_small; lia|].
  replace (p * nz + c + 1)%nat with ((p + 1) * nz)%nat by lia. rewrite Nat.mul_mod_distr_r by lia. reflexivity.
Qed.
Definition coarse (a : nat) (f : nat -> R) (n i : nat) : R :=
  let c := (i / a)%nat in let t := INR (i mod a) / INR a in (1 - t) * f c + t * f ((c + 1) mod n)%nat.
Lemma linear_coarse a n f i : (1 <= a)%nat -> (1 <= n)%nat -> linear n (a * n) f i = coarse a f n i.
Proof.
  intros Ha Hn. unfold linear, coarse. cbv zeta. rewrite Nat.div_mul_cancel_r, Nat.mul_mod_distr_r by lia. pose proof (INR_pos a Ha). pose proof (INR_pos n Hn).
  replace (INR (i mod a * n) / INR (a * n)) with (INR (i mod a) / INR a); [reflexivity|]. rewrite !mult_INR. field. lra.
Qed.
Lemma coarse_ext a f g n i : (forall c, f c = g c) -> coarse a f n i = coarse a g n i. Proof. intros H. unfold coarse. cbv zeta. rewrite !H. reflexivity. Qed.
Lemma trilinear_coarse a nx T G ix iy iz : (1 <= a)%nat -> (1 <= nx)%nat -> (1 <= T)%nat ->
  trilinear nx (a * nx) T (a * T) G ix iy iz = coarse a (fun z => coarse a (fun y => coarse a (fun x => G x y z) nx ix) nx iy) T iz.
Proof.
  intros Ha Hx HT. unfold trilinear. rewrite linear_coarse by assumption. apply coarse_ext. intros z. rewrite linear_coarse by assumption. apply coarse_ext. intros y.
  apply linear_coarse; assumption.
Qed.
Lemma frac a i : (1 <= a)%nat -> 1 / INR a * INR i - INR (i / a) = INR (i mod a) / INR a.
Proof.
  intros Ha. pose proof (INR_pos a Ha) as P. pose proof (Nat.div_mod i a ltac:(lia)) as Q. apply (f_equal INR) in Q. rewrite plus_INR, mult_INR in Q. rewrite Q at 1. field. lra.
Qed.
Lemma right_trilinear K a nx nz Ng s m2 p ix iy iz : (2 <= a)%nat -> (1 <= nx)%nat -> (1 <= nz)%nat -> (1 <= Ng)%nat -> (p < K)%nat ->
  (ix < a * nx)%nat -> (iy < a * nx)%nat -> (iz < a * nz)%nat ->
  right a nx (source K nx nz (a * nx) (a * nz) Ng s m2 p) ix iy iz = trilinear nx (a * nx) (K * nz) (K * (a * nz)) (fileField nx nz s) ix iy (p * (a * nz) + iz).
Proof.
  intros Ha Hx Hz Hg Hp Lx Ly Lz. replace (K * (a * nz))%nat with (a * (K * nz))%nat by ring.
  assert (T1 : (1 * 1 <= K * nz)%nat) by (apply Nat.mul_le_mono; lia). rewrite trilinear_coarse by lia. unfold right, mix, coarse. cbv zeta. rewrite ratio by lia. rewrite !frac by lia.
  assert (Dx : (ix / a < nx)%nat) by (apply Nat.div_lt_upper_bound; lia). assert (Dy : (iy / a < nx)%nat) by (apply Nat.div_lt_upper_bound; lia).
  assert (Dz : (iz / a < nz)%nat) by (apply Nat.div_lt_upper_bound; lia).
  assert (Qz : ((p * (a * nz) + iz) / a = p * nz + iz / a)%nat).
  { replace (p * (a * nz) + iz)%nat with (iz + p * nz * a)%nat by ring. rewrite Nat.div_add by lia. lia. }
  assert (Mz : ((p * (a * nz) + iz) mod a = iz mod a)%nat).
  { replace (p * (a * nz) + iz)%nat with (iz + p * nz * a)%nat by ring. rewrite Nat.mod_add by lia. reflexivity. }
  rewrite Qz, Mz. destruct (next_slice K nz p (iz / a) Hz Hp Dz) as [N1 [N2 N3]].
  pose proof (Nat.mod_upper_bound (ix / a + 1) nx ltac:(lia)) as Ux. pose proof (Nat.mod_upper_bound (iy / a + 1) nx ltac:(lia)) as Uy.
  set (px := ((ix / a + 1) mod nx)%nat) in *. set (py := ((iy / a + 1) mod nx)%nat) in *.
  set (qx := (ix / a)%nat) in *. set (qy := (iy / a)%nat) in *. set (qz := (iz / a)%nat) in *.
  set (tx := INR (ix mod a) / INR a). set (ty := INR (iy mod a) / INR a). set (tz := INR (iz mod a) / INR a).
  assert (LOW : forall x y, (x < nx)%nat -> (y < nx)%nat -> source K nx nz (a * nx) (a * nz) Ng s m2 p (x + nx * (y + nx * qz))%nat = fileField nx nz s x y (p * nz + qz)).
  { intros x y X Y. rewrite source_eq by lia. rewrite (proj2 (Nat.ltb_lt qz nz) Dz). unfold fileField. rewrite N1, N2. reflexivity. }
  assert (UP : forall x y, (x < nx)%nat -> (y < nx)%nat -> source K nx nz (a * nx) (a * nz) Ng s m2 p (x + nx * (y + nx * (qz + 1)))%nat = fileField nx nz s x y ((p * nz + qz + 1) mod (K * nz))).
  { intros x y X Y. rewrite source_eq by lia. destruct (Nat.ltb_spec (qz + 1) nz) as [L|L].
    - rewrite N3. unfold fileField. destruct (next_slice K nz p (qz + 1) Hz Hp L) as [O1 [O2 _]]. rewrite O1, O2. reflexivity.
    - rewrite N3. unfold fileField. rewrite Nat.div_mul, Nat.mod_mul by lia. rewrite Nat.mul_0_r, Nat.add_0_r. reflexivity. }
  rewrite !LOW, !UP by assumption. ring.
Qed.

Lemma expand_rest a nx nz m s order j : (1 <= a)%nat -> (1 <= nx)%nat -> (1 <= nz)%nat -> (forall x y z, In (x, y, z) order <-> (x < nx /\ y < nx /\ z < nz)%nat) ->
  (a * nx * (a * nx) * (a * nz) <= j)%nat -> expand nx nz (a * nx) (a * nz) m s order j = s j.
Proof.
  intros Ha Hx Hz HO L. rewrite expand_writes. set (l := flat_map _ order).
  assert (B : forall w, In w l -> (fst w < j)%nat).
  { intros w I. unfold l in I. apply in_flat_map in I. destruct I as [[[cx cy] cz] [Ic I]]. apply HO in Ic.
    destruct (writes_right a nx nz m (cx, cy, cz) w Ha Hx Hz) as [jx [jy [jz [Bx [By [Bz [E1 E2]]]]]]]; cbn [fst snd]; try lia; [exact I|]. rewrite E1.
    set (N := (a * nx)%nat) in *. assert (N * (jz + 1) <= N * (a * nz))%nat by (apply Nat.mul_le_mono_l; lia).
    assert (N * (jy + N * jz + 1) <= N * (N * (a * nz)))%nat by (apply Nat.mul_le_mono_l; lia). rewrite <- Nat.mul_assoc in L. lia. }
  destruct (putw_last (fun _ => 0) l s j) as [[E _]|[_ I]]; [|exact E|].
  - intros w I E. pose proof (B w I). lia.
  - exfalso. apply in_map_iff in I. destruct I as [w [E I]]. pose proof (B w I). lia.
Qed.
(** A whole box in order of the loop. *)
Lemma bySlices_in nx zs x y z : In (x, y, z) (bySlices nx zs) <-> (x < nx /\ y < nx)%nat /\ In z zs.
Proof.
  unfold bySlices. rewrite in_flat_map. split.
  - intros [z' [I J]]. apply in_flat_map in J. destruct J as [y' [Iy J]]. apply in_map_iff in J. destruct J as [x' [E Ix]]. apply in_seq in Iy. apply in_seq in Ix.
    assert (Ex : x' = x) by congruence. assert (Ey : y' = y) by congruence. assert (Ez : z' = z) by congruence. subst. split; [lia|exact I].
  - intros [[Hx Hy] I]. exists z. split; [exact I|]. apply in_flat_map. exists y. split; [apply in_seq; lia|]. apply in_map_iff. exists x. split; [reflexivity|apply in_seq; lia].
Qed.
