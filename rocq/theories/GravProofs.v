(** Lemmas about the gravitational potential. *)
From Coq Require Import Reals List Arith ZArith Bool Lia Lra Permutation.
From Verif Require Import KernelModel LaplModel GravModel GravSpec.
Import ListNotations.
Ltac Zify.zify_post_hook ::= idtac.
Local Open Scope R_scope.

(** ** Momenta *)
Lemma dist_sq n y : (y < n)%nat -> let k := if (n / 2 <? y)%nat then (Z.of_nat y - Z.of_nat n)%Z else Z.of_nat y in (k * k)%Z = Z.of_nat (distance0 n y ^ 2).
Proof.
  intros H. cbv zeta. unfold distance0. pose proof (Nat.div_mod n 2 ltac:(discriminate)) as D. pose proof (Nat.mod_upper_bound n 2 ltac:(discriminate)) as U. set (h := (n / 2)%nat) in *. set (m := (n mod 2)%nat) in *. clearbody h m.
  rewrite Nat.pow_2_r. destruct (Nat.ltb_spec h y) as [A|A].
  - replace (Nat.min y (n - y)) with (n - y)%nat by lia. rewrite Nat2Z.inj_mul, Nat2Z.inj_sub by lia. ring.
  - replace (Nat.min y (n - y)) with y by lia. rewrite Nat2Z.inj_mul. ring.
Qed.
Lemma mom_place hx T L zb yl z x : (0 < T)%nat -> (z < T)%nat -> (x < hx)%nat -> (yl + zb < L)%nat ->
  momSq (momOf hx T L zb ((yl * T + z) * hx + x)) = Z.of_nat (x ^ 2 + distance0 L (yl + zb) ^ 2 + distance0 T z ^ 2).
Proof.
  intros HT Z X Y. unfold momOf. cbv zeta.
  assert (D : (((yl * T + z) * hx + x) / hx = yl * T + z)%nat) by (rewrite Nat.div_add_l by lia; rewrite (Nat.div_small x hx) by lia; lia).
  rewrite D. replace ((yl * T + z) * hx + x - (yl * T + z) * hx)%nat with x by lia.
  assert (D2 : ((yl * T + z) / T = yl)%nat) by (rewrite Nat.div_add_l by lia; rewrite (Nat.div_small z T) by lia; lia).
  rewrite D2. replace (yl * T + z - T * yl)%nat with z by lia. unfold momSq.
  pose proof (dist_sq L (yl + zb) Y) as A. pose proof (dist_sq T z Z) as B. cbv zeta in A, B. rewrite A, B, !Nat2Z.inj_add, (Nat.pow_2_r x), (Nat2Z.inj_mul x x). reflexivity.
Qed.
Lemma shared_y g r yl : shared g -> (r < bRanks g)%nat -> (yl < bL g / bRanks g)%nat -> (yl + bL g / bRanks g * r < bL g)%nat.
Proof.
  intros [_ [_ [P [D _]]]] Hr Hy. pose proof (Nat.div_mod (bL g) (bRanks g) ltac:(lia)) as Q. rewrite D, Nat.add_0_r in Q. set (w := (bL g / bRanks g)%nat) in *. rewrite Q.
  apply Nat.lt_le_trans with (r * w + w)%nat; [lia|]. replace (r * w + w)%nat with ((r + 1) * w)%nat by ring. rewrite (Nat.mul_comm (bRanks g) w), (Nat.mul_comm _ w). apply Nat.mul_le_mono_l. lia.
Qed.
Lemma full_place g r yl z x : shared g -> modeHere g r yl z x -> fullMom g r (modePlace g yl z x) = Z.of_nat (momentum2 g r yl z x).
Proof.
  intros S [Hr [Hy [Hz Hx]]]. unfold fullMom, modePlace, zBaseOf, momentum2. cbv zeta. rewrite mom_place; [|destruct S; lia|exact Hz|lia|apply shared_y; assumption].
  rewrite (Nat.add_comm (r * _)), (Nat.mul_comm r). reflexivity.
Qed.
Lemma planes g : shared g -> (bLz g * bL g = bT g * (bL g / bRanks g))%nat.
Proof.
  intros [_ [_ [P [D E]]]]. unfold bLz. pose proof (Nat.div_mod (bL g) (bRanks g) ltac:(lia)) as Q. rewrite D, Nat.add_0_r in Q. pose proof (Nat.div_mod (bT g) (bRanks g) ltac:(lia)) as W. rewrite E, Nat.add_0_r in W.
  rewrite Q at 1. rewrite W at 2. ring.
Qed.
Lemma places_all g i : shared g -> (i < fullModes g)%nat -> exists yl z x, i = modePlace g yl z x /\ (yl < bL g / bRanks g)%nat /\ (z < bT g)%nat /\ (x <= bL g / 2)%nat.
Proof.
  intros S H. pose proof (planes g S) as PL. destruct S as [_ [T _]]. unfold modePlace. set (q := (bL g / 2 + 1)%nat) in *. exists (i / q / bT g)%nat, ((i / q) mod bT g)%nat, (i mod q)%nat.
  pose proof (Nat.div_mod i q ltac:(unfold q; lia)) as A. pose proof (Nat.div_mod (i / q) (bT g) ltac:(lia)) as B. pose proof (Nat.mod_upper_bound i q ltac:(unfold q; lia)). pose proof (Nat.mod_upper_bound (i / q) (bT g) ltac:(lia)).
  assert (Q : (q * (bT g * (i / q / bT g)) <= i)%nat).
  { rewrite A at 2. apply Nat.le_trans with (q * (i / q))%nat; [|lia]. apply Nat.mul_le_mono_l. lia. }
  split; [|split; [|split]].
  - rewrite (Nat.mul_comm _ (bT g)), <- B, Nat.mul_comm. exact A.
  - assert (H' : (i < q * (bT g * (bL g / bRanks g)))%nat).
    { rewrite <- PL. unfold fullModes in H. fold q in H. lia. }
    apply Nat.nle_gt. intros L. assert (q * (bT g * (bL g / bRanks g)) <= q * (bT g * (i / q / bT g)))%nat by (apply Nat.mul_le_mono_l, Nat.mul_le_mono_l, L). lia.
  - assumption.
  - unfold q in *. lia.
Qed.
Lemma place_inside g r yl z x : shared g -> modeHere g r yl z x -> (modePlace g yl z x < fullModes g)%nat.
Proof.
  intros S [Hr [Hy [Hz Hx]]]. pose proof (planes g S) as PL. unfold modePlace, fullModes. set (q := (bL g / 2 + 1)%nat) in *.
  assert (E : (bL g * q * bLz g = q * (bT g * (bL g / bRanks g)))%nat) by (rewrite <- PL; ring). rewrite E. set (w := (bL g / bRanks g)%nat) in *.
  apply Nat.lt_le_trans with (q * (yl * bT g + z + 1))%nat; [unfold q in *; lia|]. apply Nat.mul_le_mono_l.
  apply Nat.le_trans with (bT g * (yl + 1))%nat; [lia|]. apply Nat.mul_le_mono_l. lia.
Qed.
Lemma dist_zero n y : (y < n)%nat -> distance0 n y = 0%nat -> y = 0%nat.
Proof. unfold distance0. lia. Qed.
Lemma zero_momentum g r yl z x : shared g -> modeHere g r yl z x -> momentum2 g r yl z x = 0%nat -> r = 0%nat /\ yl = 0%nat /\ z = 0%nat /\ x = 0%nat.
Proof.
  intros S [Hr [Hy [Hz Hx]]] E. unfold momentum2 in E. cbv zeta in E. pose proof (shared_y g r yl S Hr Hy) as Y. rewrite (Nat.add_comm (r * _)), (Nat.mul_comm r) in E.
  assert (SQ : forall n, (n ^ 2 = 0 -> n = 0)%nat) by (intros n Hn; rewrite Nat.pow_2_r in Hn; apply Nat.eq_mul_0 in Hn; lia).
  assert (X0 : x = 0%nat) by (apply SQ; lia). assert (Y0 : distance0 (bL g) (yl + bL g / bRanks g * r) = 0%nat) by (apply SQ; lia). assert (Z0 : distance0 (bT g) z = 0%nat) by (apply SQ; lia).
  apply dist_zero in Y0; [|exact Y]. apply dist_zero in Z0; [|exact Hz]. apply Nat.eq_add_0 in Y0. destruct Y0 as [-> Y0]. apply Nat.eq_mul_0 in Y0. split; [destruct Y0; [lia|assumption]|auto].
Qed.
Lemma mean_mode g yl z x : (0 < bT g)%nat -> modePlace g yl z x = 0%nat -> yl = 0%nat /\ z = 0%nat /\ x = 0%nat.
Proof.
  intros T E. unfold modePlace in E. apply Nat.eq_add_0 in E. destruct E as [E X]. apply Nat.eq_mul_0 in E. destruct E as [E|E]; [|lia]. apply Nat.eq_add_0 in E. destruct E as [E Z]. apply Nat.eq_mul_0 in E. repeat split; lia.
Qed.

(** ** Sums *)
Lemma addUp_total n f : addUp n f = total n f.
Proof. induction n as [|n IH]; [reflexivity|]. cbn. rewrite IH. ring. Qed.
Lemma total_ext n f h : (forall i, (i < n)%nat -> f i = h i) -> total n f = total n h.
Proof. induction n as [|n IH]; intros H; [reflexivity|]. cbn. rewrite IH by (intros; apply H; lia). rewrite H by lia. reflexivity. Qed.
Lemma total_scal n f c : total n (fun i => f i * c) = total n f * c.
Proof. induction n as [|n IH]; cbn; [ring|]. rewrite IH. ring. Qed.
Lemma total_shift n f c : total n (fun i => f i + c) = total n f + INR n * c.
Proof. induction n as [|n IH]; [cbn; ring|]. rewrite S_INR. cbn [total]. rewrite IH. ring. Qed.
Lemma total_pos n f : (forall i, 0 <= f i) -> 0 <= total n f.
Proof. intros H. induction n as [|n IH]; cbn; [lra|]. specialize (H n). lra. Qed.

(** ** Arrays *)
Lemma put_same {A} (m : nat -> A) i a : put m i a i = a.
Proof. unfold put. rewrite Nat.eqb_refl. reflexivity. Qed.
Lemma put_other {A} (m : nat -> A) i a j : j <> i -> put m i a j = m j.
Proof. intros H. unfold put. destruct (Nat.eqb_spec j i); [contradiction|reflexivity]. Qed.
Lemma siteEq_spec a b : siteEq a b = true <-> a = b.
Proof.
  destruct a as [[x y] z], b as [[u v] w]. cbn. rewrite !andb_true_iff, !Nat.eqb_eq. split; [intros [[-> ->] ->]; reflexivity|intros E; inversion E; auto].
Qed.
Lemma gput_same f s a : gput f s a s = a.
Proof. unfold gput. rewrite (proj2 (siteEq_spec s s) eq_refl). reflexivity. Qed.
Lemma gput_other f s a t : t <> s -> gput f s a t = f t.
Proof. intros H. unfold gput. destruct (siteEq t s) eqn:E; [apply siteEq_spec in E; contradiction|reflexivity]. Qed.
Lemma nodup_prod {A B} (la : list A) (lb : list B) : NoDup la -> NoDup lb -> NoDup (list_prod la lb).
Proof.
  intros HA HB. induction HA as [|a la Ha HA IH]; [constructor|]. cbn [list_prod].
  assert (ND : NoDup (map (fun y => (a, y)) lb)) by (clear - HB; induction HB as [|b l Hb HB IH]; cbn; constructor; [intros Q; apply in_map_iff in Q; destruct Q as [b' [Q1 Q2]]; inversion Q1; subst; contradiction|exact IH]).
  revert ND. assert (DJ : forall p, In p (map (fun y => (a, y)) lb) -> ~ In p (list_prod la lb)).
  { intros p Hp Q. apply in_map_iff in Hp. destruct Hp as [b [<- _]]. apply in_prod_iff in Q. apply Ha, Q. }
  revert DJ. generalize (map (fun y => (a, y)) lb). clear - IH. intros l DJ ND. induction ND as [|p l Hp ND IH']; [exact IH|]. cbn. constructor.
  - intros Q. apply in_app_or in Q. destruct Q as [Q|Q]; [contradiction|]. exact (DJ p (or_introl eq_refl) Q).
  - apply IH'. intros q Hq. apply DJ. right. exact Hq.
Qed.
