(** Lemmas about the average of InitSpec on the periodic box. *)
From Coq Require Import Reals List Arith Bool Lia Lra.
From Verif Require Import KernelModel ForceSpec EnergyModel EnergySpec EnergyProofs ConserveSpec ConserveBoxProofs InitModel InitSpec InitProofs.
Import ListNotations.
Open Scope R_scope.

Lemma avg_dot : forall g alpha M u x, dot u (averaged g alpha M x)
  = alpha * dot u (M x) + (1 - alpha) / 6 * (dot u (M (next g Xp x)) + (dot u (M (next g Xm x)) + (dot u (M (next g Yp x)) + (dot u (M (next g Ym x)) + (dot u (M (next g Zp x)) + dot u (M (next g Zm x))))))).
Proof. intros. unfold averaged, mean6, around6, dot, plus, times. cbn [fold_right fst snd]. field. Qed.
Lemma next_sum : forall g d (f : ConserveSpec.cell -> R), sane g -> sumOver (fun x => f (next g d x)) (sites g) = sumOver f (sites g).
Proof. intros g d f S. unfold next, sites. apply step_sum; [destruct S; lia|]. pose proof (depth_pos g S). lia. Qed.
Lemma next_in : forall g d x, In x (sites g) -> In (next g d x) (sites g).
Proof. intros. apply step_in. assumption. Qed.
Lemma sumOver_const_l : forall A k (g : A -> R) l, sumOver (fun x => k * g x) l = k * sumOver g l.
Proof. intros. rewrite (sumOver_ext _ _ (fun x => g x * k)) by (intros; ring). rewrite sumOver_scale. ring. Qed.
Lemma avg_sum : forall g alpha (f : ConserveSpec.cell -> R), sane g ->
  sumOver (fun x => alpha * f x + (1 - alpha) / 6 * (f (next g Xp x) + (f (next g Xm x) + (f (next g Yp x) + (f (next g Ym x) + (f (next g Zp x) + f (next g Zm x))))))) (sites g)
  = sumOver f (sites g).
Proof.
  intros g alpha f S. rewrite sumOver_plus, !sumOver_const_l, !sumOver_plus, !(next_sum g _ f S). field.
Qed.
Lemma avg_mean : forall g alpha M u, sane g -> sumOver (fun x => dot u (averaged g alpha M x)) (sites g) = sumOver (fun x => dot u (M x)) (sites g).
Proof.
  intros g alpha M u S. rewrite (sumOver_ext _ _ _ _ (fun x _ => avg_dot g alpha M u x)). apply (avg_sum g alpha (fun x => dot u (M x)) S).
Qed.
Lemma avg_bound : forall g alpha M u c, 0 <= alpha <= 1 -> (forall x, In x (sites g) -> dot u (M x) <= c) ->
  forall x, In x (sites g) -> dot u (averaged g alpha M x) <= c.
Proof.
  intros g alpha M u c Ha H x Hx. rewrite avg_dot.
  pose proof (H x Hx) as H0. pose proof (fun d => H (next g d x) (next_in g d x Hx)) as Hn.
  pose proof (Hn Xp). pose proof (Hn Xm). pose proof (Hn Yp). pose proof (Hn Ym). pose proof (Hn Zp). pose proof (Hn Zm).
  assert (A : alpha * dot u (M x) <= alpha * c) by (apply Rmult_le_compat_l; lra).
  assert (B : (1 - alpha) / 6 * (dot u (M (next g Xp x)) + (dot u (M (next g Xm x)) + (dot u (M (next g Yp x)) + (dot u (M (next g Ym x)) + (dot u (M (next g Zp x)) + dot u (M (next g Zm x))))))) <= (1 - alpha) / 6 * (6 * c)) by (apply Rmult_le_compat_l; lra).
  lra.
Qed.
(** Jensen for seven points. *)
Lemma jensen7 : forall al a b c d e f h, 0 <= al <= 1 ->
  (al * a + (1 - al) / 6 * (b + (c + (d + (e + (f + h)))))) * (al * a + (1 - al) / 6 * (b + (c + (d + (e + (f + h))))))
  <= al * (a * a) + (1 - al) / 6 * (b * b + (c * c + (d * d + (e * e + (f * f + h * h))))).
Proof.
  intros al a b c d e f h H. set (S := b + (c + (d + (e + (f + h))))).
  assert (Q : S * S <= 6 * (b * b + (c * c + (d * d + (e * e + (f * f + h * h)))))).
  { unfold S. pose proof (Rle_0_sqr (b - c)). pose proof (Rle_0_sqr (b - d)). pose proof (Rle_0_sqr (b - e)). pose proof (Rle_0_sqr (b - f)). pose proof (Rle_0_sqr (b - h)).
    pose proof (Rle_0_sqr (c - d)). pose proof (Rle_0_sqr (c - e)). pose proof (Rle_0_sqr (c - f)). pose proof (Rle_0_sqr (c - h)).
    pose proof (Rle_0_sqr (d - e)). pose proof (Rle_0_sqr (d - f)). pose proof (Rle_0_sqr (d - h)).
    pose proof (Rle_0_sqr (e - f)). pose proof (Rle_0_sqr (e - h)). pose proof (Rle_0_sqr (f - h)). unfold Rsqr in *. lra. }
  generalize dependent S. generalize (b * b + (c * c + (d * d + (e * e + (f * f + h * h))))). intros T S Q.
  assert (A : (al * a + (1 - al) * (S / 6)) * (al * a + (1 - al) * (S / 6)) <= al * (a * a) + (1 - al) * ((S / 6) * (S / 6))).
  { pose proof (Rmult_le_pos al (1 - al) ltac:(lra) ltac:(lra)) as P. pose proof (Rle_0_sqr (a - S / 6)) as P2. pose proof (Rmult_le_pos _ _ P P2) as P3. unfold Rsqr in P3. lra. }
  assert (B : (1 - al) * ((S / 6) * (S / 6)) <= (1 - al) * (T / 6)) by (apply Rmult_le_compat_l; lra).
  lra.
Qed.
Lemma avg_sq : forall g alpha M x, 0 <= alpha <= 1 -> sq (averaged g alpha M x)
  <= alpha * sq (M x) + (1 - alpha) / 6 * (sq (M (next g Xp x)) + (sq (M (next g Xm x)) + (sq (M (next g Yp x)) + (sq (M (next g Ym x)) + (sq (M (next g Zp x)) + sq (M (next g Zm x))))))).
Proof.
  intros g alpha M x H. pose proof (avg_dot g alpha M (1, 0) x) as A. pose proof (avg_dot g alpha M (0, 1) x) as B.
  unfold dot in A, B. cbn [fst snd] in A, B. unfold sq, dot.
  pose proof (jensen7 alpha (fst (M x)) (fst (M (next g Xp x))) (fst (M (next g Xm x))) (fst (M (next g Yp x))) (fst (M (next g Ym x))) (fst (M (next g Zp x))) (fst (M (next g Zm x))) H) as J.
  pose proof (jensen7 alpha (snd (M x)) (snd (M (next g Xp x))) (snd (M (next g Xm x))) (snd (M (next g Yp x))) (snd (M (next g Ym x))) (snd (M (next g Zp x))) (snd (M (next g Zm x))) H) as K.
  replace (fst (averaged g alpha M x)) with (alpha * fst (M x) + (1 - alpha) / 6 * (fst (M (next g Xp x)) + (fst (M (next g Xm x)) + (fst (M (next g Yp x)) + (fst (M (next g Ym x)) + (fst (M (next g Zp x)) + fst (M (next g Zm x)))))))) by lra.
  replace (snd (averaged g alpha M x)) with (alpha * snd (M x) + (1 - alpha) / 6 * (snd (M (next g Xp x)) + (snd (M (next g Xm x)) + (snd (M (next g Yp x)) + (snd (M (next g Ym x)) + (snd (M (next g Zp x)) + snd (M (next g Zm x)))))))) by lra.
  lra.
Qed.
Lemma sumOver_le : forall A (f g : A -> R) l, (forall x, In x l -> f x <= g x) -> sumOver f l <= sumOver g l.
Proof.
  intros A f g l; induction l as [|a l IH]; intros H; cbn [sumOver fold_right]; [lra|].
  pose proof (H a (or_introl eq_refl)). pose proof (IH (fun x Hx => H x (or_intror Hx))). unfold sumOver in *. lra.
Qed.
Lemma avg_power : forall g alpha M, sane g -> 0 <= alpha <= 1 -> sumOver (fun x => sq (averaged g alpha M x)) (sites g) <= sumOver (fun x => sq (M x)) (sites g).
Proof.
  intros g alpha M S H. rewrite <- (avg_sum g alpha (fun x => sq (M x)) S). apply sumOver_le. intros x _. apply avg_sq; assumption.
Qed.
(** Averaging commutes with steps and with differences. *)
Lemma mod_comm : forall n a b i, (0 < n)%nat -> (((i + a) mod n + b) mod n = ((i + b) mod n + a) mod n)%nat.
Proof. intros n a b i H. rewrite !Nat.add_mod_idemp_l by lia. f_equal. lia. Qed.
Lemma next_comm : forall g d e x, sane g -> next g d (next g e x) = next g e (next g d x).
Proof.
  intros g d e [[i j] k] S. pose proof (depth_pos g S). destruct S as (HL & _).
  destruct d, e; unfold next; cbn [stepTo]; try reflexivity; rewrite mod_comm by lia; reflexivity.
Qed.
Definition diff (g : grid) (d : dir) (M : ConserveSpec.cell -> R * R) (x : ConserveSpec.cell) : R * R := minus (M (next g d x)) (M x).
Lemma avg_diff : forall g alpha d M x, sane g -> diff g d (averaged g alpha M) x = averaged g alpha (diff g d M) x.
Proof.
  intros g alpha d M x S. unfold diff, averaged, mean6, around6, plus, times, minus. cbn [fold_right fst snd].
  rewrite !(next_comm g _ d x S). f_equal; field.
Qed.
Lemma sumOver_swap : forall A B (f : A -> B -> R) l l', sumOver (fun x => sumOver (f x) l') l = sumOver (fun y => sumOver (fun x => f x y) l) l'.
Proof.
  intros A B f l l'. induction l as [|a l IH].
  - cbn. induction l' as [|b l' IH']; [reflexivity|]. unfold sumOver in *. cbn [fold_right] in *. rewrite <- IH'. ring.
  - cbn [sumOver fold_right]. change (fold_right (fun x s => sumOver (f x) l' + s) 0 l) with (sumOver (fun x => sumOver (f x) l') l).
    rewrite IH, <- sumOver_plus. reflexivity.
Qed.
Lemma rough_swap : forall g M, roughness g M = sumOver (fun d => sumOver (fun x => sq (diff g d M x)) (sites g)) around6.
Proof. intros. unfold roughness. rewrite sumOver_swap. reflexivity. Qed.
Lemma avg_rough : forall g alpha M, sane g -> 0 <= alpha <= 1 -> roughness g (averaged g alpha M) <= roughness g M.
Proof.
  intros g alpha M S H. rewrite !rough_swap. apply sumOver_le. intros d _.
  rewrite (sumOver_ext _ (fun x => sq (diff g d (averaged g alpha M) x)) (fun x => sq (averaged g alpha (diff g d M) x))) by (intros; rewrite avg_diff by assumption; reflexivity).
  apply avg_power; assumption.
Qed.
(** Averaging a field on the box needs only its values there. *)
Lemma avg_ext : forall g alpha M M', (forall x, In x (sites g) -> M x = M' x) -> forall x, In x (sites g) -> averaged g alpha M x = averaged g alpha M' x.
Proof.
  intros g alpha M M' H x Hx. unfold averaged, mean6, around6. cbn [fold_right].
  rewrite (H x Hx), !(H _ (next_in g _ x Hx)). reflexivity.
Qed.
Lemma avg_scaled : forall g alpha k M x, averaged g alpha (fun y => times k (M y)) x = times k (averaged g alpha M x).
Proof. intros. unfold averaged, mean6, around6, plus, times. cbn [fold_right fst snd]. f_equal; field. Qed.
(** Plane waves *)
Lemma cyc_up : forall n i, (i < n)%nat -> exists t : nat, INR ((i + 1) mod n) = INR i + 1 - INR n * INR t.
Proof.
  intros n i H. destruct (Nat.eq_dec (i + 1) n) as [e|e].
  - exists 1%nat. rewrite e, Nat.mod_same by lia. rewrite <- e, plus_INR. cbn. ring.
  - exists 0%nat. rewrite Nat.mod_small by lia. rewrite plus_INR. cbn. ring.
Qed.
Lemma cyc_down : forall n i, (i < n)%nat -> exists t : nat, INR ((i + (n - 1) * 1) mod n) = INR i - 1 + INR n * INR t.
Proof.
  intros n i H. destruct i as [|i].
  - exists 1%nat. rewrite Nat.mod_small by lia. replace (0 + (n - 1) * 1)%nat with (n - 1)%nat by lia. rewrite minus_INR by lia. cbn. ring.
  - exists 0%nat. replace (S i + (n - 1) * 1)%nat with (i + 1 * n)%nat by lia. rewrite Nat.mod_add by lia. rewrite Nat.mod_small by lia. rewrite S_INR. cbn. ring.
Qed.
Definition stepAngle (g : grid) (p q s : nat) (d : dir) : R :=
  match d with
  | Xp => 2 * PI * INR p / INR (gL g) | Xm => - (2 * PI * INR p / INR (gL g))
  | Yp => 2 * PI * INR q / INR (gL g) | Ym => - (2 * PI * INR q / INR (gL g))
  | Zp => 2 * PI * INR s / INR (depth g) | Zm => - (2 * PI * INR s / INR (depth g))
  end.
Lemma turn : forall a b (t : nat), (a = b + 2 * INR t * PI \/ b = a + 2 * INR t * PI) -> cos a = cos b /\ sin a = sin b.
Proof. intros a b t [-> | ->]; rewrite cos_period, sin_period; auto. Qed.
Lemma angle_next : forall g p q s d x, sane g -> In x (sites g) ->
  exists t : nat, angle g p q s (next g d x) = angle g p q s x + stepAngle g p q s d + 2 * INR t * PI \/
    angle g p q s x + stepAngle g p q s d = angle g p q s (next g d x) + 2 * INR t * PI.
Proof.
  intros g p q s d [[i j] k] S Hx. apply in_box in Hx. destruct Hx as (Hi & Hj & Hk).
  pose proof (depth_pos g S) as HD. destruct S as (HL & _).
  assert (NL : INR (gL g) <> 0) by (apply not_0_INR; lia). assert (ND : INR (depth g) <> 0) by (apply not_0_INR; lia).
  destruct d; unfold next; cbn [stepTo]; unfold angle, stepAngle;
    match goal with |- context [INR ((?a + 1) mod ?n)] => destruct (cyc_up n a ltac:(lia)) as [t E]; rewrite E
                  | |- context [INR ((?a + (?n - 1) * 1) mod ?n)] => destruct (cyc_down n a ltac:(lia)) as [t E]; rewrite E end.
  - exists (p * t)%nat. right. rewrite mult_INR. field. auto.
  - exists (p * t)%nat. left. rewrite mult_INR. field. auto.
  - exists (q * t)%nat. right. rewrite mult_INR. field. auto.
  - exists (q * t)%nat. left. rewrite mult_INR. field. auto.
  - exists (s * t)%nat. right. rewrite mult_INR. field. auto.
  - exists (s * t)%nat. left. rewrite mult_INR. field. auto.
Qed.
Lemma wave_next : forall g a p q s d x, sane g -> In x (sites g) ->
  planeWave g a p q s (next g d x) = vacuum a (angle g p q s x + stepAngle g p q s d).
Proof.
  intros g a p q s d x S Hx. unfold planeWave, vacuum. destruct (angle_next g p q s d x S Hx) as [t H].
  destruct (turn _ _ t H) as [-> ->]. reflexivity.
Qed.
Definition damping (g : grid) (alpha : R) (p q s : nat) : R :=
  alpha + (1 - alpha) / 3 * (cos (2 * PI * INR p / INR (gL g)) + cos (2 * PI * INR q / INR (gL g)) + cos (2 * PI * INR s / INR (depth g))).
Lemma avg_wave : forall g alpha a p q s x, sane g -> In x (sites g) ->
  averaged g alpha (planeWave g a p q s) x = times (damping g alpha p q s) (planeWave g a p q s x).
Proof.
  intros g alpha a p q s x S Hx. unfold averaged, mean6, around6. cbn [fold_right].
  rewrite !(wave_next g a p q s _ x S Hx). unfold planeWave, damping, stepAngle, vacuum, plus, times. cbn [fst snd].
  rewrite !cos_plus, !sin_plus, !cos_neg, !sin_neg. f_equal; field.
Qed.
Lemma iter_S : forall (A : Type) (f : A -> A) n x, Nat.iter (S n) f x = f (Nat.iter n f x).
Proof. reflexivity. Qed.
Lemma wave_iter : forall g alpha a p q s n x, sane g -> In x (sites g) ->
  Nat.iter n (averaged g alpha) (planeWave g a p q s) x = times (damping g alpha p q s ^ n) (planeWave g a p q s x).
Proof.
  intros g alpha a p q s n x S. revert x. induction n as [|n IH]; intros x Hx.
  - unfold times. cbn [pow Nat.iter nat_rect]. rewrite !Rmult_1_l. destruct (planeWave g a p q s x); reflexivity.
  - rewrite iter_S. rewrite (avg_ext g alpha _ _ IH x Hx), avg_scaled, avg_wave by assumption.
    unfold times. cbn [fst snd pow]. f_equal; ring.
Qed.
Lemma damping_range : forall g alpha p q s, 0 <= alpha <= 1 -> -1 <= damping g alpha p q s <= 1.
Proof.
  intros g alpha p q s H. unfold damping.
  pose proof (COS_bound (2 * PI * INR p / INR (gL g))) as A. pose proof (COS_bound (2 * PI * INR q / INR (gL g))) as B. pose proof (COS_bound (2 * PI * INR s / INR (depth g))) as C.
  revert A B C. generalize (cos (2 * PI * INR p / INR (gL g))) (cos (2 * PI * INR q / INR (gL g))) (cos (2 * PI * INR s / INR (depth g))). intros a b c A B C.
  assert (P : (1 - alpha) / 3 * (a + b + c) <= (1 - alpha) / 3 * 3) by (apply Rmult_le_compat_l; lra).
  assert (Q : (1 - alpha) / 3 * (-3) <= (1 - alpha) / 3 * (a + b + c)) by (apply Rmult_le_compat_l; lra). lra.
Qed.
