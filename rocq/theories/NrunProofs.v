From Coq Require Import Reals List Arith Bool Lia Lra.
From Verif Require Import KgvModel KgvSpec KgvProofs NrunModel.
From Verif Require ThetaModel ThetaProperties.
Import ListNotations.
Local Open Scope R_scope.
Ltac Zify.zify_post_hook ::= idtac.

Lemma rows_put g site F order m2 : allRows g order -> (forall m x y z, site m x y z = put m (odx g x y z) (F x y z)) ->
  (forall x y z, (x < gL g)%nat -> (y < gL g)%nat -> (z < gLz g)%nat -> rows g site order m2 (odx g x y z) = F x y z) /\
  (forall j, (forall x y z, (x < gL g)%nat -> (y < gL g)%nat -> (z < gLz g)%nat -> j <> odx g x y z) -> rows g site order m2 j = m2 j).
Proof.
  intros HA HS. set (r0 := Rk 1 1 0 (fun _ => (0, 0)) (fun _ => (0, 0)) (fun _ => false)).
  rewrite (rows_ext g site (fun m x y z => put m (odx g x y z) (fac Flat g r0 1 1 m x y z * F x y z))) by (intros m x y z; rewrite HS; f_equal; unfold fac, factor; ring).
  destruct (rows_one g Flat true 1 1 r0 F order m2 HA) as [P Q]; [discriminate|]. split; [|exact Q].
  intros x y z A B C. etransitivity; [exact (P x y z A B C)|]. unfold fac, factor. ring.
Qed.
Lemma rows_id g site order : (forall m x y z, site m x y z = m) -> forall m2, rows g site order m2 = m2.
Proof.
  intros H m2. rewrite rows_sites. generalize (sites (gL g) order). intros l. revert m2. induction l as [|s l IH]; intros m2; [reflexivity|]. cbn [fold_left]. rewrite H. apply IH.
Qed.

(** tan of half the turn *)
Lemma half_eq r a b rho al be : 0 < rho -> - PI < be - al < PI -> (fst a - rSh r, snd a) = (rho * cos al, rho * sin al) -> (fst b - rSh r, snd b) = (rho * cos be, rho * sin be) -> half r a b = tan ((be - al) / 2).
Proof.
  intros P D A B. injection A as A1 A2. injection B as B1 B2. set (s := (al + be) / 2). set (d := (be - al) / 2).
  assert (Ea : al = s - d) by (unfold s, d; field). assert (Eb : be = s + d) by (unfold s, d; field).
  assert (Cd : 0 < cos d) by (apply cos_gt_0; unfold d; lra).
  unfold half, sub2. cbv zeta. cbn [fst snd].
  replace (fst b + fst a - rSh r - rSh r) with (rho * cos be + rho * cos al) by (rewrite <- A1, <- B1; ring).
  replace (fst b - fst a) with (rho * cos be - rho * cos al) by (rewrite <- A1, <- B1; ring). rewrite A2, B2, Ea, Eb.
  rewrite cos_plus, cos_minus, sin_plus, sin_minus. pose proof (trig s) as T.
  match goal with |- ?n / ?q = _ => replace n with (4 * rho * rho * (sin d * cos d) * (cos s * cos s + sin s * sin s)) by ring; replace q with (4 * rho * rho * (cos d * cos d) * (cos s * cos s + sin s * sin s)) by ring end.
  rewrite T. unfold tan. field. lra.
Qed.

Lemma cx_rows g r k order m2 : k <> Ball -> k <> Saxi -> allRows g order -> (smooth k = true -> (gLz g <= gNg g * gL g)%nat) -> forall x y z, (x < gL g)%nat -> (y < gL g)%nat -> (z < gLz g)%nat ->
  buildCX k g r order m2 (odx g x y z) = oldFac k g r m2 x y z * half r (ma g r (idx g x y (z + 1))) (ma g r (idx g ((x + 1) mod gL g) y (z + 1))).
Proof.
  intros NB NS HA HG x y z Hx Hy Hz. unfold buildCX.
  rewrite (rows_ext g (siteCX k g r) (fun m x y z => put m (odx g x y z) (fac k g r (2 * rR r / rD r) (2 / rD r) m x y z * half r (ma g r (idx g x y (z + 1))) (ma g r (idx g ((x + 1) mod gL g) y (z + 1)))))).
  - destruct (rows_one g k true (2 * rR r / rD r) (2 / rD r) r (fun x y z => half r (ma g r (idx g x y (z + 1))) (ma g r (idx g ((x + 1) mod gL g) y (z + 1)))) order m2 HA) as [P _]; [intros S _; apply HG; exact S|].
    exact (P x y z Hx Hy Hz).
  - intros m a b c. destruct k; try reflexivity; contradiction.
Qed.
Lemma cyz_rows g r k order m2 : k <> Ball -> k <> Saxi -> allRows g order -> (gLz g <= gNg g * gL g)%nat -> forall x y z, (x < gL g)%nat -> (y < gL g)%nat -> (z < gLz g)%nat ->
  buildCYZ k g r order m2 (odx g x y z) = oldFac k g r m2 x y z * half r (ma g r (idx g x y (z + 1))) (ma g r (idx g x ((y + 1) mod gL g) (z + 1))) /\
  buildCYZ k g r order m2 (v3 g + if smooth k then idx g x y z else odx g x y z)%nat = oldFac k g r m2 x y z * half r (ma g r (idx g x y (z + 1))) (ma g r (idx g x y (z + 2))).
Proof.
  intros NB NS HA HR x y z Hx Hy Hz. unfold buildCYZ.
  destruct (rows_two g k (siteCYZ k g r) (odx g) (fun x y z => v3 g + if smooth k then idx g x y z else odx g x y z)%nat
    (fun m x y z => oldFac k g r m x y z * half r (ma g r (idx g x y (z + 1))) (ma g r (idx g x ((y + 1) mod gL g) (z + 1))))
    (fun m x y z => oldFac k g r m x y z * half r (ma g r (idx g x y (z + 1))) (ma g r (idx g x y (z + 2)))) order m2 HA HR) as [P _]; try reflexivity.
  - intros m a b c Ha Hb Hc. unfold siteCYZ. cbv zeta. unfold oldFac.
    rewrite (fac_at k g r (2 * rR r / rD r) (2 / rD r) (put m (odx g a b c) _) m).
    + destruct k; try reflexivity; contradiction.
    + apply put_other. pose proof (padded_lt3 g (a, b, c) (conj Ha (conj Hb Hc))) as Lt. cbn [fst snd] in Lt. pose proof (room g HR). lia.
  - intros m m' a b c H. unfold oldFac. destruct (smooth k) eqn:S.
    + rewrite (fac_at _ _ _ _ _ m m') by (apply H; reflexivity). split; reflexivity.
    + rewrite (fac_indep _ _ _ _ _ m m') by exact S. split; reflexivity.
  - exact (P x y z Hx Hy Hz).
Qed.
Lemma above K p g r phi x y z : ok K p g r phi -> (x < gL g)%nat -> (y < gL g)%nat -> (z < gLz g)%nat -> ma g r (idx g x y (z + 2)) = phi x y (next (K * gLz g) (p * gLz g + z)).
Proof.
  intros H Hx Hy Hz. pose proof (inBox K p (gLz g) z (okP _ _ _ _ _ H) Hz) as B. rewrite (read_ K p g r phi) by (assumption || lia).
  replace (p * gLz g + (z + 2) + K * gLz g - 1)%nat with (p * gLz g + z + 1 + 1 * (K * gLz g))%nat by lia. rewrite Nat.mod_add by lia. rewrite next_mod by exact B. reflexivity.
Qed.
Lemma beneath K p g r phi x y z : ok K p g r phi -> (x < gL g)%nat -> (y < gL g)%nat -> (z < gLz g)%nat -> ma g r (idx g x y z) = phi x y (prev (K * gLz g) (p * gLz g + z)).
Proof.
  intros H Hx Hy Hz. pose proof (inBox K p (gLz g) z (okP _ _ _ _ _ H) Hz) as B. rewrite (read_ K p g r phi) by (assumption || lia).
  replace (p * gLz g + z + K * gLz g - 1)%nat with (K * gLz g + (p * gLz g + z) - 1)%nat by lia. rewrite prev_mod by exact B. reflexivity.
Qed.
Lemma oldFac_eq k g r m2 x y z rho th : rR r <> 0 -> 0 < rho -> at0 g r x y z = (rho * cos th, rho * sin th) ->
  oldFac k g r m2 x y z = weight k (rR r) rho (rS r (plain (gL g) x y z)) (m2 (v3 g + plain (gL g) x y z)%nat) * (2 * rR r / rD r).
Proof.
  intros HR P E. unfold oldFac. rewrite (fac_eq k g r (2 * rR r / rD r) (2 / rD r) m2 x y z rho th HR P E) by (unfold Rdiv; ring). rewrite weight_pick, idx_eq. reflexivity.
Qed.

(** Rows of the axion. *)
Lemma copyRow_other g src m sl i : ~ (sl * (gL g + 2) <= i < sl * (gL g + 2) + gL g)%nat -> copyRow g src m sl i = m i.
Proof.
  intros H. unfold copyRow. destruct (Nat.leb_spec (sl * (gL g + 2)) i); [|reflexivity]. destruct (Nat.ltb_spec i (sl * (gL g + 2) + gL g)); [lia|reflexivity].
Qed.
Lemma copyRow_at g src m sl x : (x < gL g)%nat -> copyRow g src m sl (sl * (gL g + 2) + x)%nat = src (sl * gL g + x)%nat.
Proof.
  intros H. unfold copyRow. destruct (Nat.leb_spec (sl * (gL g + 2)) (sl * (gL g + 2) + x)); [|lia]. destruct (Nat.ltb_spec (sl * (gL g + 2) + x) (sl * (gL g + 2) + gL g)); [|lia].
  cbn [andb]. f_equal. lia.
Qed.
Lemma copyRows_other g src order : forall m i, (forall sl, In sl order -> ~ (sl * (gL g + 2) <= i < sl * (gL g + 2) + gL g)%nat) -> copyRows g src order m i = m i.
Proof.
  unfold copyRows. induction order as [|s l IH]; intros m i H; [reflexivity|]. cbn [fold_left]. rewrite IH by (intros sl I; apply H; right; exact I).
  apply copyRow_other, H. left. reflexivity.
Qed.
Lemma copyRows_at g src order sl x : (x < gL g)%nat -> In sl order -> forall m, copyRows g src order m (sl * (gL g + 2) + x)%nat = src (sl * gL g + x)%nat.
Proof.
  intros Hx. unfold copyRows. induction order as [|s l IH]; intros I m; [destruct I|]. cbn [fold_left].
  destruct (in_dec Nat.eq_dec sl l) as [J|J]; [apply IH; exact J|]. destruct I as [->|I]; [|contradiction].
  fold (copyRows g src l (copyRow g src m sl)). rewrite copyRows_other.
  - apply copyRow_at. exact Hx.
  - intros t T C. apply J. assert (t = sl); [|subst; exact T].
    destruct (lt_eq_lt_dec t sl) as [[c|c]|c]; [exfalso|exact c|exfalso].
    + assert ((t + 1) * (gL g + 2) <= sl * (gL g + 2))%nat by (apply Nat.mul_le_mono_r; lia). lia.
    + assert ((sl + 1) * (gL g + 2) <= t * (gL g + 2))%nat by (apply Nat.mul_le_mono_r; lia). lia.
Qed.
