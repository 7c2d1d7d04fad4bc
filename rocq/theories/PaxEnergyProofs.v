(** Lemmas for PaxEnergyProperties. *)
From Coq Require Import Lqa Lra Reals List Arith NArith Bool Lia Permutation.
From Verif Require Import KernelModel LaneModel LaplModel ForceModel ForceSpec EnergyModel EnergySpec EnergyProofs ConserveSpec ConserveProofs ConserveBoxProofs CosmoModel CosmoSpec CosmoProofs AxionModel AxionProofs PaxModel PaxSpec PaxProofs PaxEnergyModel PaxEnergySpec.
Import ListNotations.
Open Scope R_scope.
Ltac Zify.zify_post_hook ::= idtac.

Lemma pEnergy_mean P I hs n nz Ng junk b e rs E : replies (pEnergy P I hs n nz Ng junk b e rs) E -> forall i, (i < 5)%nat ->
  E i = Some (mean (fun x => pQuantity P I n junk i x * pFactor b i) (psites rs)).
Proof.
  intros H i L. unfold pEnergy in H. destruct (hasMask e && negb hs); [destruct H as [[m2 H]|H]; discriminate|].
  assert (Q : (if (i <? 5)%nat then Some (rsum (map (fun r => rsum (map (fun l => rsum (map (pQuantity P I n junk i) l)) r) * pFactor b i) rs) * (1 / INR (length (concat (concat rs))))) else None)
    = Some (mean (fun x => pQuantity P I n junk i x * pFactor b i) (psites rs))).
  { replace (i <? 5)%nat with true by (symmetry; apply Nat.ltb_lt, L). f_equal. unfold mean, psites. rewrite sumOver_scale.
    rewrite rsum_sumOver, sumOver_scale. unfold Rdiv. rewrite Rmult_1_l. f_equal. f_equal.
    rewrite !sumOver_concat. apply sumOver_ext. intros r _. rewrite rsum_sumOver. apply sumOver_ext. intros l _. apply rsum_sumOver. }
  destruct (hasMap e); destruct H as [[m2 H]|H]; try discriminate; injection H; intros; subst E; exact Q.
Qed.
Lemma pYs_good P I n junk x : goodLanes P I -> pYs P I n junk x = (qNb x Yp, qNb x Ym).
Proof. intros [->|[->|[-> ->]]]; [destruct P; reflexivity|destruct P; reflexivity|reflexivity]. Qed.
Lemma grad_scaled b x d d' : 0 < kR b -> 0 < kMa b -> 0 < kDelta b ->
  (pSq (qNb x d) (qPsi x) + pSq (qNb x d') (qPsi x)) * kO2 b = gradPsi b x d d' / kR b ^ 2.
Proof.
  intros R0 M0 D0. unfold pSq, kO2, gradPsi, abs2, minus. cbn [fst snd]. replace 0.25 with (1 / 4) by lra. field. lra.
Qed.

(** ** Sums over the box *)
Lemma step_back_any n z nv d x : In x (box n z) -> stepTo n z nv (back d) (stepTo n z nv d x) = x.
Proof.
  assert (A : forall n i, (i < n)%nat -> (((i + nv) mod n + (n - 1) * nv) mod n = i)%nat).
  { intros q i L. rewrite Nat.add_mod_idemp_l by lia. replace (i + nv + (q - 1) * nv)%nat with (i + nv * q)%nat by (destruct q; [lia|]; cbn [Nat.sub]; rewrite Nat.sub_0_r; ring).
    rewrite Nat.mod_add by lia. apply Nat.mod_small, L. }
  assert (B : forall n i, (i < n)%nat -> (((i + (n - 1) * nv) mod n + nv) mod n = i)%nat).
  { intros q i L. rewrite Nat.add_mod_idemp_l by lia. replace (i + (q - 1) * nv + nv)%nat with (i + nv * q)%nat by (destruct q; [lia|]; cbn [Nat.sub]; rewrite Nat.sub_0_r; ring).
    rewrite Nat.mod_add by lia. apply Nat.mod_small, L. }
  destruct x as [[i j] k]. intros H. apply in_box in H. destruct d; cbn [back stepTo]; rewrite ?A, ?B by lia; reflexivity.
Qed.
Lemma step_swap n z nv d (f g : cell -> R) : (0 < n)%nat -> (0 < z)%nat ->
  sumOver (fun x => f x * g (stepTo n z nv d x)) (box n z) = sumOver (fun x => f (stepTo n z nv (back d) x) * g x) (box n z).
Proof.
  intros N Z. rewrite <- (step_sum n z nv (back d) (fun x => f x * g (stepTo n z nv d x)) N Z). apply sumOver_ext. intros x X. f_equal. f_equal.
  replace d with (back (back d)) at 1 by (destruct d; reflexivity). apply step_back_any, X.
Qed.
(** The Laplacian of any number of neighbours is symmetric *)
Lemma lapAt_sym r (f g : fld) : (0 < rn r)%nat -> (0 < rnz r)%nat ->
  sumOver (fun x => f x * lapAt r g x) (box (rn r) (rnz r)) = sumOver (fun x => g x * lapAt r f x) (box (rn r) (rnz r)).
Proof.
  intros N Z. unfold lapAt, lapSum. generalize (seq 1 (rNN r)) as l.
  assert (SH : forall nv, sumOver (fun x => f x * shell (g x) (fun d => g (stepTo (rn r) (rnz r) nv d x))) (box (rn r) (rnz r))
    = sumOver (fun x => g x * shell (f x) (fun d => f (stepTo (rn r) (rnz r) nv d x))) (box (rn r) (rnz r))).
  { intros nv. unfold shell. set (st := stepTo (rn r) (rnz r) nv).
    rewrite (sumOver_ext _ _ (fun x => (f x * g (st Yp x) + f x * g (st Ym x)) + ((f x * g (st Xp x) + f x * g (st Xm x)) + (f x * g (st Zp x) + f x * g (st Zm x))) + f x * g x * -6)) by (intros; ring).
    rewrite (sumOver_ext _ (fun x => g x * _) (fun x => (f (st Ym x) * g x + f (st Yp x) * g x) + ((f (st Xm x) * g x + f (st Xp x) * g x) + (f (st Zm x) * g x + f (st Zp x) * g x)) + f x * g x * -6)) by (intros; ring).
    unfold st. rewrite !sumOver_plus. rewrite !step_swap by assumption. cbn [back]. reflexivity. }
  intros l. induction l as [|nv l IH].
  - unfold sumOver at 2 4. cbn [fold_right]. apply sumOver_ext. intros; ring.
  - assert (E : forall h k : fld, sumOver (fun x => h x * sumOver (fun nv => shell (k x) (fun d => k (stepTo (rn r) (rnz r) nv d x)) * nth (nv - 1) (setCO (rNN r)) 0) (nv :: l)) (box (rn r) (rnz r))
      = sumOver (fun x => h x * shell (k x) (fun d => k (stepTo (rn r) (rnz r) nv d x))) (box (rn r) (rnz r)) * nth (nv - 1) (setCO (rNN r)) 0
        + sumOver (fun x => h x * sumOver (fun nv => shell (k x) (fun d => k (stepTo (rn r) (rnz r) nv d x)) * nth (nv - 1) (setCO (rNN r)) 0) l) (box (rn r) (rnz r))).
    { intros h k. rewrite <- sumOver_scale, <- sumOver_plus. apply sumOver_ext. intros x _. unfold sumOver. cbn [fold_right]. ring. }
    rewrite !E, SH, IH. reflexivity.
Qed.
Lemma dl_sumOver {A} (f : A -> R -> R) (f' : A -> R) l t : (forall y, In y l -> derivable_pt_lim (f y) t (f' y)) ->
  derivable_pt_lim (fun u => sumOver (fun y => f y u) l) t (sumOver f' l).
Proof.
  induction l as [|y l IH]; intros H; [apply derivable_pt_lim_const|]. unfold sumOver. cbn [fold_right].
  apply (derivable_pt_lim_plus (f y) (fun u => sumOver (fun y => f y u) l)); [apply H; left; reflexivity|]. apply IH. intros z Z. apply H. right. exact Z.
Qed.
Lemma dl_mean {A} (f : A -> R -> R) (f' : A -> R) l t : (forall y, In y l -> derivable_pt_lim (f y) t (f' y)) ->
  derivable_pt_lim (fun u => mean (fun y => f y u) l) t (mean f' l).
Proof.
  intros H. unfold mean, Rdiv. apply (derivable_pt_lim_ext (fun u => / INR (length l) * sumOver (fun y => f y u) l)); [intros; ring|].
  replace (sumOver f' l * / INR (length l)) with (/ INR (length l) * sumOver f' l) by ring. apply (derivable_pt_lim_scal (fun u => sumOver (fun y => f y u) l)). apply dl_sumOver, H.
Qed.
Lemma reportedNumber_is P I b n z m v e : reportedNumber P I b n z m v e -> e = mean (fun x => m x * m x + v x * v x) (box n z).
Proof.
  intros (hs & nz & Ng & junk & rs & E & H1 & H2 & H3). rewrite (pEnergy_mean _ _ _ _ _ _ _ _ _ _ _ H2 3%nat) in H3 by lia. injection H3 as <-.
  rewrite (mean_perm _ _ _ _ H1), mean_map. apply mean_ext. intros [[i j] k] _. cbn. ring.
Qed.
Definition energyAt (b : pback) (n z : nat) (m v : fld) (x : cell) : R :=
  let s d := (m (stepTo n z 1 d x) - m x) * (m (stepTo n z 1 d x) - m x) + (v (stepTo n z 1 d x) - v x) * (v (stepTo n z 1 d x) - v x) in
  (s Xp + s Xm + (s Yp + s Ym) + (s Zp + s Zm)) * kO2 b + (m x * m x + v x * v x) * (m x * m x + v x * v x) * kBeta b.
Lemma reportedEnergy_is P I b n z m v e : goodLanes P I -> reportedEnergy P I b n z m v e -> e = mean (energyAt b n z m v) (box n z).
Proof.
  intros G (hs & nz & Ng & junk & rs & E & x & y & w & p & H1 & H2 & A0 & A1 & A2 & A4 & ->).
  rewrite (pEnergy_mean _ _ _ _ _ _ _ _ _ _ _ H2) in A0, A1, A2, A4 by lia. injection A0 as <-. injection A1 as <-. injection A2 as <-. injection A4 as <-.
  rewrite !mean_plus, (mean_perm _ _ _ _ H1), mean_map. apply mean_ext. intros [[i j] k] _. unfold pQuantity, pFactor. rewrite !pYs_good by exact G.
  unfold energyAt, psiteAt, pSq. cbn [qNb qPsi fst snd]. cbv zeta. ring.
Qed.
Lemma reportedEnergy_exists P I b n z m v : goodLanes P I -> reportedEnergy P I b n z m v (mean (energyAt b n z m v) (box n z)).
Proof.
  intros G. set (rs := [[map (psiteAt n z m v) (box n z)]]).
  assert (Q : psites rs = map (psiteAt n z m v) (box n z)) by (exact (app_nil_r _)).
  assert (H2 : exists E, replies (pEnergy P I false n 0 0 (fun _ => 0) b 1 rs) E) by (eexists; left; eexists; reflexivity). destruct H2 as [E H2].
  pose proof (pEnergy_mean _ _ _ _ _ _ _ _ _ _ _ H2) as M. rewrite Q in M.
  exists false, 0%nat, 0%nat, (fun _ => 0), rs, E. do 4 eexists. split; [rewrite Q; apply Permutation_refl|]. split; [exact H2|].
  split; [apply M; lia|]. split; [apply M; lia|]. split; [apply M; lia|]. split; [apply M; lia|].
  rewrite !mean_plus, mean_map. apply mean_ext. intros [[i j] k] _. unfold pQuantity, pFactor. rewrite !pYs_good by exact G.
  unfold energyAt, psiteAt, pSq. cbn [qNb qPsi fst snd]. cbv zeta. ring.
Qed.
Lemma kO2_pos b : 0 < kR b -> 0 < kMa b -> 0 < kDelta b -> 0 < kO2 b.
Proof.
  intros R0 M0 D0. pose proof (pow_lt _ 2 D0). pose proof (pow_lt _ 5 R0). unfold kO2.
  apply Rdiv_lt_0_compat; [|exact R0]. apply Rdiv_lt_0_compat; [|exact R0]. apply Rdiv_lt_0_compat; [|assumption]. apply Rdiv_lt_0_compat; [|assumption]. apply Rdiv_lt_0_compat; [lra|assumption].
Qed.
Lemma some_inj (a b : R) : Some a = Some b -> a = b.
Proof. intros H. injection H as ->. reflexivity. Qed.
(** ** Change of number and energy when the field moves by its equation *)
Lemma obeys_at r phi m v t x : rOod2 r <> 0 -> axionMass (rC r) t <> 0 -> scale (rC r) t <> 0 ->
  rateM r phi t (m t) (v t) x = - kap r t * lapAt r (v t) x - selfPhase r phi t (m t) (v t) x * v t x /\
  rateV r phi t (m t) (v t) x = kap r t * lapAt r (m t) x + selfPhase r phi t (m t) (v t) x * m t x.
Proof. intros O M S0. unfold rateM, rateV, kap. rewrite boxLap_at by exact O. cbn [fst snd]. split; field; split; assumption. Qed.
Lemma dl_sq (f : R -> R) t f' : derivable_pt_lim f t f' -> derivable_pt_lim (fun u => f u * f u) t (2 * f t * f').
Proof. intros H. replace (2 * f t * f') with (f' * f t + f t * f') by ring. apply (derivable_pt_lim_mult f f t f' f' H H). Qed.
Lemma number_rate r phi m v t : (0 < rn r)%nat -> (0 < rnz r)%nat -> rOod2 r <> 0 -> axionMass (rC r) t <> 0 -> scale (rC r) t <> 0 -> pObeys r phi m v t ->
  derivable_pt_lim (fun u => mean (fun x => m u x * m u x + v u x * v u x) (box (rn r) (rnz r))) t 0.
Proof.
  intros N Z O M S0 H.
  replace 0 with (mean (fun x => 2 * m t x * rateM r phi t (m t) (v t) x + 2 * v t x * rateV r phi t (m t) (v t) x) (box (rn r) (rnz r))).
  - apply (dl_mean (fun x u => m u x * m u x + v u x * v u x)). intros x X. destruct (H x X) as [A B].
    apply (derivable_pt_lim_plus (fun u => m u x * m u x) (fun u => v u x * v u x)); apply dl_sq; assumption.
  - unfold mean. rewrite (sumOver_ext _ _ (fun x => v t x * lapAt r (m t) x * (2 * kap r t) + m t x * lapAt r (v t) x * (- 2 * kap r t))).
    + rewrite sumOver_plus, !sumOver_scale, lapAt_sym by assumption. unfold Rdiv. ring.
    + intros x _. destruct (obeys_at r phi m v t x O M S0) as [-> ->]. ring.
Qed.
Lemma second_diff r f x : rNN r = 1%nat -> let s := stepTo (rn r) (rnz r) 1 in
  lapAt r f x = (f (s Xp x) - f x) - (f x - f (s Xm x)) + ((f (s Yp x) - f x) - (f x - f (s Ym x))) + ((f (s Zp x) - f x) - (f x - f (s Zm x))).
Proof. intros N. unfold lapAt, lapSum. rewrite N. unfold sumOver. cbn [seq fold_right setCO Nat.sub nth]. unfold shell. ring. Qed.
Lemma energy_rate r b m v t : (0 < rn r)%nat -> (0 < rnz r)%nat -> rNN r = 1%nat -> kR b = 1 -> kMa b = axionMass (rC r) t -> 0 < kMa b -> 0 < kDelta b ->
  rOod2 r = / kDelta b ^ 2 -> scale (rC r) t = 1 -> pObeys r (fun _ => 0) m v t ->
  derivable_pt_lim (fun u => mean (energyAt b (rn r) (rnz r) (m u) (v u)) (box (rn r) (rnz r))) t
    (mean (fun x => (m t x * m t x + v t x * v t x) * (m t x * lapAt r (v t) x - v t x * lapAt r (m t) x)) (box (rn r) (rnz r)) * ((1 - rBeta r) * rOod2 r / (8 * kMa b))).
Proof.
  intros N Z NN R1 MA M0 D0 OO S1 H. set (st := stepTo (rn r) (rnz r) 1). set (bx := box (rn r) (rnz r)).
  set (p := rateM r (fun _ => 0) t (m t) (v t)). set (q := rateV r (fun _ => 0) t (m t) (v t)). set (M := m t). set (V := v t).
  set (g := fun d x => 2 * (M (st d x) - M x) * (p (st d x) - p x) + 2 * (V (st d x) - V x) * (q (st d x) - q x)).
  set (e' := fun x => (g Xp x + g Xm x + (g Yp x + g Ym x) + (g Zp x + g Zm x)) * kO2 b + 2 * (M x * M x + V x * V x) * (2 * M x * p x + 2 * V x * q x) * kBeta b).
  assert (PD : 0 < kDelta b ^ 2) by (apply pow_lt, D0).
  replace (mean _ bx * _) with (mean e' bx).
  - apply (dl_mean (fun x u => energyAt b (rn r) (rnz r) (m u) (v u) x)). intros x X.
    assert (G : forall d, derivable_pt_lim (fun u => (m u (st d x) - m u x) * (m u (st d x) - m u x) + (v u (st d x) - v u x) * (v u (st d x) - v u x)) t (g d x)).
    { intros d. assert (Y : In (st d x) bx) by (apply step_in; assumption). destruct (H x X) as [A B]. destruct (H _ Y) as [A' B'].
      apply (derivable_pt_lim_plus (fun u => (m u (st d x) - m u x) * (m u (st d x) - m u x)) (fun u => (v u (st d x) - v u x) * (v u (st d x) - v u x))).
      - apply (dl_sq (fun u => m u (st d x) - m u x)). apply (derivable_pt_lim_minus (fun u => m u (st d x)) (fun u => m u x)); assumption.
      - apply (dl_sq (fun u => v u (st d x) - v u x)). apply (derivable_pt_lim_minus (fun u => v u (st d x)) (fun u => v u x)); assumption. }
    assert (D : derivable_pt_lim (fun u => m u x * m u x + v u x * v u x) t (2 * M x * p x + 2 * V x * q x)).
    { destruct (H x X) as [A B]. apply (derivable_pt_lim_plus (fun u => m u x * m u x) (fun u => v u x * v u x)); apply dl_sq; assumption. }
    apply dl_sq in D. unfold energyAt. cbv zeta. fold st.
    pose proof (derivable_pt_lim_plus _ _ _ _ _ (derivable_pt_lim_plus _ _ _ _ _ (derivable_pt_lim_plus _ _ _ _ _ (G Xp) (G Xm)) (derivable_pt_lim_plus _ _ _ _ _ (G Yp) (G Ym))) (derivable_pt_lim_plus _ _ _ _ _ (G Zp) (G Zm))) as S6.
    pose proof (derivable_pt_lim_scal _ (kO2 b) _ _ S6) as S7. pose proof (derivable_pt_lim_scal _ (kBeta b) _ _ D) as S8.
    pose proof (derivable_pt_lim_plus _ _ _ _ _ S7 S8) as S9. cbv beta in S9.
    eapply derivable_pt_lim_ext; [|replace (e' x) with (kO2 b * (g Xp x + g Xm x + (g Yp x + g Ym x) + (g Zp x + g Zm x)) + kBeta b * (2 * (M x * M x + V x * V x) * (2 * M x * p x + 2 * V x * q x))) by (unfold e'; ring); exact S9].
    intros u. unfold plus_fct, mult_real_fct. ring.
  - unfold mean. assert (E : sumOver e' bx = sumOver (fun x => (M x * M x + V x * V x) * (M x * lapAt r V x - V x * lapAt r M x)) bx * ((1 - rBeta r) * rOod2 r / (8 * kMa b))); [|rewrite E; unfold Rdiv; ring].
    assert (BP : forall d, sumOver (fun x => g d x + g (back d) x) bx
      = sumOver (fun x => - 4 * (p x * ((M (st d x) - M x) - (M x - M (st (back d) x))) + q x * ((V (st d x) - V x) - (V x - V (st (back d) x))))) bx).
    { intros d. pose proof (by_parts (rn r) (rnz r) d (fun x => (M x, V x)) (fun x => (p x, q x)) N Z) as B. cbv zeta in B. fold st bx in B.
      rewrite (sumOver_ext _ _ (fun x => (dot (minus (M (st d x), V (st d x)) (M x, V x)) (minus (p (st d x), q (st d x)) (p x, q x)) + dot (minus (M x, V x) (M (st (back d) x), V (st (back d) x))) (minus (p x, q x) (p (st (back d) x), q (st (back d) x)))) * 2)).
      - rewrite sumOver_scale, B, <- sumOver_scale. apply sumOver_ext. intros x _. unfold dot, minus. cbn [fst snd]. ring.
      - intros x _. unfold g, dot, minus. cbn [fst snd]. ring. }
    unfold e'. rewrite sumOver_plus, sumOver_scale.
    rewrite (sumOver_plus _ (fun x => g Xp x + g Xm x + (g Yp x + g Ym x)) (fun x => g Zp x + g Zm x)), (sumOver_plus _ (fun x => g Xp x + g Xm x) (fun x => g Yp x + g Ym x)).
    pose proof (BP Xp) as BX. pose proof (BP Yp) as BY. pose proof (BP Zp) as BZ. cbn [back] in BX, BY, BZ. rewrite BX, BY, BZ. rewrite <- !sumOver_plus, <- !sumOver_scale, <- sumOver_plus. apply sumOver_ext. intros x _. cbn [back].
    assert (AM : axionMass (rC r) t <> 0) by lra. assert (O0 : rOod2 r <> 0) by (rewrite OO; apply Rinv_neq_0_compat; lra).
    destruct (obeys_at r (fun _ => 0) m v t x O0 AM ltac:(lra)) as [Hp Hq]. fold p in Hp. fold q in Hq. fold M V in Hp, Hq. rewrite Hp, Hq.
    pose proof (second_diff r M x NN) as LM. pose proof (second_diff r V x NN) as LV. cbv zeta in LM, LV. fold st in LM, LV.
    unfold kap, selfPhase, kO2, kBeta. rewrite R1, S1, <- MA, OO. 
    set (a := lapAt r M x) in *. set (c := lapAt r V x) in *. clearbody a c.
    set (i := / kDelta b ^ 2) in *. set (B0 := rBeta r). clearbody B0.
    set (a1 := M (st Xp x) - M x - (M x - M (st Xm x))) in *. set (a2 := M (st Yp x) - M x - (M x - M (st Ym x))) in *. set (a3 := M (st Zp x) - M x - (M x - M (st Zm x))) in *.
    set (c1 := V (st Xp x) - V x - (V x - V (st Xm x))) in *. set (c2 := V (st Yp x) - V x - (V x - V (st Ym x))) in *. set (c3 := V (st Zp x) - V x - (V x - V (st Zm x))) in *.
    clearbody a1 a2 a3 c1 c2 c3. subst a c. unfold i. replace 0.25 with (1 / 4) by lra. field. lra.
Qed.
Lemma concat_one_one {A} (l : list A) : concat (concat [[l]]) = l.
Proof. exact (app_nil_r l). Qed.
