(** Lemmas for ConserveProperties. *)
From Coq Require Import Lqa Lra Reals List Arith NArith Bool Lia Permutation.
From Verif Require Import KernelModel LaneModel LaplModel ForceModel ForceSpec ForceProofs EnergyModel EnergySpec EnergyProofs ConserveSpec.
Import ListNotations.
Open Scope R_scope.

(** ** Derivatives *)
Lemma dl_eq : forall f t a b, derivable_pt_lim f t a -> a = b -> derivable_pt_lim f t b.
Proof. intros; subst; assumption. Qed.
Lemma dl_plus : forall f g t a b, derivable_pt_lim f t a -> derivable_pt_lim g t b -> derivable_pt_lim (fun u => f u + g u) t (a + b).
Proof. intros f g t a b; apply (derivable_pt_lim_plus f g). Qed.
Lemma dl_minus : forall f g t a b, derivable_pt_lim f t a -> derivable_pt_lim g t b -> derivable_pt_lim (fun u => f u - g u) t (a - b).
Proof. intros f g t a b; apply (derivable_pt_lim_minus f g). Qed.
Lemma dl_mult : forall f g t a b, derivable_pt_lim f t a -> derivable_pt_lim g t b ->
  derivable_pt_lim (fun u => f u * g u) t (a * g t + f t * b).
Proof. intros f g t a b; apply (derivable_pt_lim_mult f g). Qed.
Lemma dl_const : forall k t, derivable_pt_lim (fun _ => k) t 0.
Proof. intros; apply (derivable_pt_lim_const k). Qed.
Lemma dl_scal : forall f t a k, derivable_pt_lim f t a -> derivable_pt_lim (fun u => f u * k) t (a * k).
Proof. intros f t a k H. eapply dl_eq; [apply (dl_mult f (fun _ => k)); [exact H | apply dl_const]|]. cbv beta. ring. Qed.
Lemma dl_sqrt : forall f t a, derivable_pt_lim f t a -> 0 < f t -> derivable_pt_lim (fun u => sqrt (f u)) t (a / (2 * sqrt (f t))).
Proof.
  intros f t a H P. eapply dl_eq; [apply (derivable_pt_lim_comp f sqrt); [exact H | apply derivable_pt_lim_sqrt; exact P]|].
  field. apply Rgt_not_eq, sqrt_lt_R0, P.
Qed.
Lemma dl_inv : forall f t a, derivable_pt_lim f t a -> f t <> 0 -> derivable_pt_lim (fun u => / f u) t (- a / (f t * f t)).
Proof.
  intros f t a H N. eapply dl_eq.
  - apply derivable_pt_lim_ext with (f := ((fun _ => 1) / f)%F).
    + intros z. unfold div_fct. unfold Rdiv. ring.
    + apply derivable_pt_lim_div; [apply dl_const | exact H | exact N].
  - unfold Rsqr. field. exact N.
Qed.
Lemma dl_ext : forall f g t a, (forall u, f u = g u) -> derivable_pt_lim f t a -> derivable_pt_lim g t a.
Proof. intros f g t a H; apply derivable_pt_lim_ext, H. Qed.
(** Two functions of the same value and slope: any choice between them has that slope. *)
Lemma dl_choice : forall f g h t a, f t = g t -> f t = h t -> (forall u, f u = g u \/ f u = h u) ->
  derivable_pt_lim g t a -> derivable_pt_lim h t a -> derivable_pt_lim f t a.
Proof.
  intros f g h t a E1 E2 C G H e He. destruct (G e He) as [d1 D1]. destruct (H e He) as [d2 D2].
  assert (P : 0 < Rmin d1 d2) by (apply Rmin_pos; apply cond_pos).
  exists (mkposreal _ P). intros x Hx L. cbn [pos] in L. destruct (C (t + x)) as [->| ->].
  - rewrite E1. apply D1; [exact Hx | eapply Rlt_le_trans; [exact L | apply Rmin_l]].
  - rewrite E2. apply D2; [exact Hx | eapply Rlt_le_trans; [exact L | apply Rmin_r]].
Qed.
Lemma dl_sum : forall A (f : A -> R -> R) (a : A -> R) t l, (forall x, In x l -> derivable_pt_lim (f x) t (a x)) ->
  derivable_pt_lim (fun u => sumOver (fun x => f x u) l) t (sumOver a l).
Proof.
  intros A f a t l; unfold sumOver; induction l as [|x l IH]; intros H; cbn [fold_right]; [apply dl_const|].
  apply (dl_plus (f x) (fun u => fold_right (fun y b => f y u + b) 0 l)); [apply H; left; reflexivity|]. apply IH. intros y Hy; apply H; right; exact Hy.
Qed.
(** The function under the third saxion potential. *)
Lemma dl_third : forall g, derivable_pt_lim (fun x => saxion PQ3 x) g (if Rle_dec 1 g then 4 * (1 - / sqrt g) else 2 * (g - 1)).
Proof.
  intros g.
  assert (A : 1 <= g -> derivable_pt_lim (fun x => 4 * ((sqrt x - 1) * (sqrt x - 1))) g (4 * (1 - / sqrt g))).
  { intros G1. assert (Hg : 0 < g) by lra. assert (Sg : 0 < sqrt g) by (apply sqrt_lt_R0; exact Hg). eapply dl_eq.
    - apply (dl_mult (fun _ => 4) (fun x => (sqrt x - 1) * (sqrt x - 1))); [apply dl_const|].
      apply (dl_mult (fun x => sqrt x - 1) (fun x => sqrt x - 1)); (apply (dl_minus sqrt (fun _ => 1)); [apply (dl_sqrt (fun x => x) g 1); [apply derivable_pt_lim_id | exact Hg] | apply dl_const]).
    - cbv beta. field. lra. }
  assert (B : derivable_pt_lim (fun x => (x - 1) * (x - 1)) g (2 * (g - 1))).
  { eapply dl_eq.
    - apply (dl_mult (fun x => x - 1) (fun x => x - 1)); (apply (dl_minus (fun x => x) (fun _ => 1)); [apply derivable_pt_lim_id | apply dl_const]).
    - cbv beta. ring. }
  unfold saxion, kkk. destruct (Rle_dec 1 g) as [L|L].
  - destruct (Req_dec g 1) as [->|N].
    + rewrite sqrt_1 in *.
      apply (dl_choice _ (fun x => 4 * ((sqrt x - 1) * (sqrt x - 1))) (fun x => (x - 1) * (x - 1))).
      * destruct (Rle_dec 1 1); [reflexivity | lra].
      * destruct (Rle_dec 1 1); [rewrite sqrt_1; ring | lra].
      * intros u. destruct (Rle_dec 1 u); [left | right]; reflexivity.
      * exact (A L).
      * eapply dl_eq; [exact B|]. field.
    + apply (derivable_pt_lim_locally_ext (fun x => 4 * ((sqrt x - 1) * (sqrt x - 1))) _ g 1 (g + 1)); [lra | | exact (A L)].
      intros z Hz. destruct (Rle_dec 1 z); [reflexivity | lra].
  - apply (derivable_pt_lim_locally_ext (fun x => (x - 1) * (x - 1)) _ g (g - 1) 1); [lra | | exact B].
    intros z Hz. destruct (Rle_dec 1 z); [lra | reflexivity].
Qed.

(** ** Potential energies *)
Lemma stored_pot : forall P s q c m u, stored P s q c m u -> 0 < eR c ->
  exists b, axionPot (snd (dispatch s q)) c m = Some b /\ u = rhoPot (fst (dispatch s q)) c m * lZ c + b * eZQ c.
Proof.
  intros P s q c m u [E [M [a [b [H [H9 [H4 ->]]]]]]] HR.
  set (rs := [Rank [[Site m (0, 0) m m m m m m false]] [] (fun _ => 0)]) in *.
  pose proof (fun i f Hi Hf => reply_total P false false s q c 1 1 rs [fun _ => None] E M H (or_introl eq_refl) i f Hi Hf) as A.
  rewrite (A 9%nat (fun x => rhoPot (fst (dispatch s q)) c (sM x))) in H9; [|left; lia | intros; reflexivity].
  destruct (axionPot (snd (dispatch s q)) c m) as [y|] eqn:Y.
  - rewrite (A 4%nat (fun _ => y)) in H4; [|left; lia | intros x [<-|[]]; exact Y].
    exists y. split; [reflexivity|]. unfold mean, sumOver, rs, sites, rSites in *. cbn [map concat app rThreads fold_right length INR factor sM] in *.
    assert (A9 := f_equal (fun o => match o with Some z => z | None => 0 end) H9). assert (A4 := f_equal (fun o => match o with Some z => z | None => 0 end) H4).
    cbv beta iota in A9, A4. rewrite <- A9, <- A4. field.
  - exfalso. unfold energy in H. change (hasMap 1 && false) with false in H. change (hasMask 1) with false in H. cbn [andb negb] in H.
    injection H as HE _. rewrite <- HE in H4. cbn [Nat.ltb Nat.leb kernelOf rs map osum fold_right] in H4. unfold eTmp in H4.
    destruct (dispatch s q) as [s' q']. cbn [Nat.ltb Nat.leb orb snd] in *. change (hasEne 1) with true in H4.
    unfold over, rSites in H4. cbn [rThreads concat app map osum fold_right quantity grads sM] in H4. unfold quantity, grads in H4. cbn [sM] in H4. rewrite Y in H4. discriminate H4.
Qed.
Lemma axion_not0 : forall q c m b, q <> QCDV -> eShift c = 0 -> axionPot q c m = Some b -> m <> (0, 0).
Proof.
  intros q c m b Hq HS H ->. unfold axionPot, shifted, n2 in H. cbn [fst snd] in H. rewrite HS in H.
  destruct q; try congruence;
    (match type of H with context [Req_EM_T ?x 0] => destruct (Req_EM_T x 0) as [A|A]; [discriminate | apply A; ring] end).
Qed.
Definition slopeOf (s : pq) (g : R) : R :=
  match s with
  | PQ1 => 2 * (g - 1)
  | PQ2 => 4 * g * (g * g - 1)
  | PQ3 => if Rle_dec 1 g then 4 * (1 - / sqrt g) else 2 * (g - 1)
  end.
Lemma dl_saxion : forall s g, derivable_pt_lim (saxion s) g (slopeOf s g).
Proof.
  intros s g. destruct s; cbn [slopeOf].
  - eapply dl_eq.
    + apply (dl_mult (fun x => x - 1) (fun x => x - 1)); (apply (dl_minus (fun x => x) (fun _ => 1)); [apply derivable_pt_lim_id | apply dl_const]).
    + cbv beta. ring.
  - eapply dl_eq.
    + apply (dl_mult (fun x => x * x - 1) (fun x => x * x - 1));
        (apply (dl_minus (fun x => x * x) (fun _ => 1)); [apply (dl_mult (fun x => x) (fun x => x)); apply derivable_pt_lim_id | apply dl_const]).
    + cbv beta. ring.
  - apply dl_third.
Qed.
Lemma dl_n2 : forall g t v, tangent g t v -> derivable_pt_lim (fun u => n2 (g u)) t (2 * dot (g t) v).
Proof.
  intros g t v [A B]. unfold n2. eapply dl_eq.
  - apply (dl_plus (fun u => fst (g u) * fst (g u)) (fun u => snd (g u) * snd (g u))).
    + apply (dl_mult (fun u => fst (g u)) (fun u => fst (g u))); exact A.
    + apply (dl_mult (fun u => snd (g u)) (fun u => snd (g u))); exact B.
  - unfold dot. ring.
Qed.
Lemma shifted_0 : forall c m, eShift c = 0 -> shifted c m = m.
Proof. intros c [x y] H; unfold shifted; cbn [fst snd]; rewrite H; f_equal; ring. Qed.
Lemma dl_rhoPot : forall s f c g t v, sameWorld f c -> tangent g t v ->
  derivable_pt_lim (fun u => rhoPot s c (g u) * lZ c) t (pqCoef s f (sq (g t)) * dot (g t) v / pR f ^ 4).
Proof.
  intros s f c g t v [W1 [W2 [W3 [W4 W5]]]] T. rewrite W1. assert (R0 : eR c <> 0) by lra.
  assert (L : lZ c = eLam c / 4) by (unfold lZ; replace 0.25 with (1/4) by lra; field; exact R0).
  apply dl_ext with (f := fun u => saxion s (n2 (g u) * iz2 c) * lZ c); [intros u; unfold rhoPot; rewrite (shifted_0 c _ W4); reflexivity|].
  eapply dl_eq.
  - apply (dl_scal (fun u => saxion s (n2 (g u) * iz2 c))). apply (derivable_pt_lim_comp (fun u => n2 (g u) * iz2 c) (saxion s)).
    + apply (dl_scal (fun u => n2 (g u))). apply dl_n2, T.
    + apply dl_saxion.
  - rewrite L. change (sq (g t)) with (n2 (g t)). pose proof (n2_nonneg (g t)) as N0. generalize dependent (n2 (g t)). intros n N0. generalize (dot (g t) v). intros d.
    unfold slopeOf, pqCoef, LaLa, iz2. cbv beta zeta. rewrite W1, W2. destruct s.
    + field. exact R0.
    + field. exact R0.
    + unfold kkk. assert (RR : 0 < eR c * eR c) by (apply Rmult_lt_0_compat; lra).
      assert (X : n * (1 / eR c * (1 / eR c)) * (eR c * eR c) = n) by (field; exact R0).
      destruct (Rle_dec 1 (n * (1 / eR c * (1 / eR c)))) as [A|A], (Rle_dec (eR c * eR c) n) as [B|B].
      * assert (SQ : sqrt (n * (1 / eR c * (1 / eR c))) = sqrt n * (1 / eR c)).
        { rewrite sqrt_mult; [|lra|]. - rewrite sqrt_square; [reflexivity|]. unfold Rdiv; rewrite Rmult_1_l; apply Rlt_le, Rinv_0_lt_compat, W5.
          - apply Rle_0_sqr. }
        rewrite SQ. assert (0 < sqrt n) by (apply sqrt_lt_R0; lra). field. split; [lra | exact R0].
      * exfalso. apply B. rewrite <- X at 1. rewrite <- (Rmult_1_l (eR c * eR c)) at 1. apply Rmult_le_compat_r; lra.
      * exfalso. apply A. apply Rmult_le_reg_r with (eR c * eR c); [exact RR|]. rewrite X. lra.
      * field. exact R0.
Qed.
Lemma dl_cosine : forall g t v, tangent g t v -> g t <> (0, 0) ->
  derivable_pt_lim (fun u => 1 - fst (g u) / sqrt (n2 (g u))) t (snd (g t) * cross (g t) v / (n2 (g t) * sqrt (n2 (g t)))).
Proof.
  intros g t v T N. pose proof (n2_not0 _ N) as P. assert (S : 0 < sqrt (n2 (g t))) by (apply sqrt_lt_R0; exact P).
  pose proof (sqrt_sqrt (n2 (g t)) (Rlt_le _ _ P)) as Q.
  eapply dl_eq.
  - apply (dl_minus (fun _ => 1) (fun u => fst (g u) / sqrt (n2 (g u)))); [apply dl_const|].
    apply (dl_mult (fun u => fst (g u)) (fun u => / sqrt (n2 (g u)))); [apply T|].
    apply (dl_inv (fun u => sqrt (n2 (g u)))); [|lra].
    apply (dl_sqrt (fun u => n2 (g u))); [apply dl_n2, T | exact P].
  - cbv beta. rewrite Q. revert Q S. generalize (sqrt (n2 (g t))). intros r Q S. revert P. revert Q. unfold n2, dot, cross. destruct (g t) as [x y], v as [a b]. cbn [fst snd].
    intros Q P. rewrite <- Q.
    replace (0 - (a * / r + x * (- (2 * (x * a + y * b) / (2 * r)) / (r * r)))) with ((x * (x * a + y * b) - a * (r * r)) / (r * r * r)) by (field; lra).
    rewrite Q at 1. field. lra.
Qed.
Lemma force_pair : forall k P I s q f p mel lp vel w, (p < lanesOf P I)%nat -> goodCos P (plain s q) -> pDzc f <> 0 ->
  newVel k P I (plain s q) f p mel lp vel = Some w ->
  plus (applied f (pairOf p vel) w) (times (-1) (plus (pairOf p lp) (times (pRpp f) (pairOf p mel))))
  = qcdPair k P (plain s q) f (pairOf p mel) (times (- pqCoef s f (sq (pairOf p mel))) (pairOf p mel)).
Proof.
  intros k P I s q f p mel lp vel w Hp G Hd.
  rewrite newVel_pair; [|assumption|assumption|intro E; discriminate E|intro E; discriminate E].
  destruct (divides k P (plain s q) && vanishes (pairOf p mel)); [discriminate|].
  intros E. apply (f_equal (fun o => match o with Some z => z | None => (0, 0) end)) in E. cbv beta iota in E. rewrite <- E.
  generalize (pairOf p mel) (pairOf p lp) (pairOf p vel). intros m l x.
  unfold velPair. cbn [pEvol plain].
  replace (match k with Fused => _ | Kick => accelPair k P (plain s q) f m l end) with (accelPair k P (plain s q) f m l) by (destruct k; reflexivity).
  replace (match k with Fused => x | Kick => x end) with x by (destruct k; reflexivity).
  unfold rhoPair, kickPair. cbn [pEvol pDamp plain].
  replace (accelPair k P (plain s q) f m l) with (qcdPair k P (plain s q) f m (pqPair s f m l)) by (unfold accelPair, basePair; destruct k; reflexivity).
  unfold applied, pqPair. generalize (pqCoef s f (sq m)). intros C.
  unfold qcdPair. cbn [pQcd plain].
  destruct q, k, P; unfold cosPair, plus, times, Rdiv; cbn [fst snd]; generalize (/ sqrt (sq m * (sq m * sq m))); intros; f_equal; field; exact Hd.
Qed.
Lemma cosine_stored : forall P s q c (g : R -> R * R) (U : R -> R), snd (dispatch s q) = QCDC -> eShift c = 0 -> 0 < eR c ->
  (forall u, stored P s q c (g u) (U u)) ->
  (forall u, g u <> (0, 0)) /\ (forall u, rhoPot (fst (dispatch s q)) c (g u) * lZ c + (1 - fst (g u) / sqrt (n2 (g u))) * eZQ c = U u).
Proof.
  intros P s q c g U D HS HR H. assert (A : forall u, g u <> (0, 0) /\ rhoPot (fst (dispatch s q)) c (g u) * lZ c + (1 - fst (g u) / sqrt (n2 (g u))) * eZQ c = U u).
  { intros u. destruct (stored_pot _ _ _ _ _ _ (H u) HR) as [b [Hb ->]]. rewrite D in Hb.
    assert (N : g u <> (0, 0)) by (apply (axion_not0 QCDC c (g u) b); [discriminate | exact HS | exact Hb]). split; [exact N|].
    unfold axionPot in Hb. rewrite (shifted_0 c _ HS) in Hb. destruct (Req_EM_T (n2 (g u)) 0); [discriminate|].
    apply (f_equal (fun o => match o with Some z => z | None => 0 end)) in Hb. cbv beta iota in Hb. rewrite Hb. reflexivity. }
  split; intros u; apply (A u).
Qed.
Lemma massless_stored : forall P s q c m u, eMa2 c = 0 -> 0 < eR c -> stored P s q c m u -> rhoPot (fst (dispatch s q)) c m * lZ c = u.
Proof.
  intros P s q c m u HM HR H. destruct (stored_pot _ _ _ _ _ _ H HR) as [b [_ ->]]. rewrite eZQ_mass, HM by lra. ring.
Qed.
(** The potentials whose force is the gradient of the reported energy. *)
Lemma cosine_force : forall s q f c g t v, snd (dispatch s q) = QCDC -> q <> QCD2 -> pQcd (plain s q) = q -> sameWorld f c -> tangent g t v -> g t <> (0, 0) ->
  derivable_pt_lim (fun u => rhoPot s c (g u) * lZ c + (1 - fst (g u) / sqrt (n2 (g u))) * eZQ c) t
    (- (dot (cosPair (plain s q) f (g t) (times (- pqCoef s f (sq (g t))) (g t))) v / pR f ^ 4)).
Proof.
  intros s q f c g t v D Q2 _ W T N. eapply dl_eq.
  - apply (dl_plus (fun u => rhoPot s c (g u) * lZ c)); [apply (dl_rhoPot s f c g t v W T)|].
    apply (dl_scal (fun u => 1 - fst (g u) / sqrt (n2 (g u)))). exact (dl_cosine g t v T N).
  - destruct W as [W1 [W2 [W3 [W4 W5]]]]. rewrite eZQ_mass by lra.
    assert (Z : zN q f = eMa2 c * (eR c * eR c) * (eR c * eR c)) by (rewrite <- W1, <- W3; destruct q; try reflexivity; congruence).
    unfold cosPair. cbn [pQcd plain]. rewrite Z. rewrite W1. generalize (pqCoef s f (sq (g t))). intros C.
    pose proof (n2_not0 _ N) as P. change (sq (g t)) with (n2 (g t)). rewrite sqrt_cube by lra.
    assert (S : 0 < sqrt (n2 (g t))) by (apply sqrt_lt_R0; exact P).
    revert P S. generalize (n2 (g t)) (sqrt (n2 (g t))). intros n r P S. destruct (g t) as [x y], v as [a b]. unfold dot, cross, times; cbn [fst snd].
    field. repeat split; lra.
Qed.
Lemma massless_force : forall k P s q f c g t v, pMa2 f = 0 -> sameWorld f c -> tangent g t v ->
  derivable_pt_lim (fun u => rhoPot s c (g u) * lZ c) t
    (- (dot (qcdPair k P (plain s q) f (g t) (times (- pqCoef s f (sq (g t))) (g t))) v / pR f ^ 4)).
Proof.
  intros k P s q f c g t v M W T. eapply dl_eq; [apply (dl_rhoPot s f c g t v W T)|].
  assert (Q : qcdPair k P (plain s q) f (g t) (times (- pqCoef s f (sq (g t))) (g t)) = times (- pqCoef s f (sq (g t))) (g t)).
  { assert (Z1 : zQ f = 0) by (unfold zQ; rewrite M; ring).
    assert (Z2 : forall q, zN q f = 0) by (intros q'; unfold zN; rewrite M; destruct q'; field).
    generalize (times (- pqCoef s f (sq (g t))) (g t)). intros [a b]. unfold qcdPair, cosPair. cbn [pQcd plain]. rewrite Z1, !Z2.
    destruct q, k, P; cbn [fst snd]; try reflexivity; f_equal; ring. }
  rewrite Q. destruct W as [W1 [_ [_ [_ W5]]]]. rewrite W1. destruct (g t) as [x y], v as [a b]. unfold dot, times; cbn [fst snd]. field. lra.
Qed.
