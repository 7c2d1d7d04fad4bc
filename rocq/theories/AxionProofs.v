(** Lemmas for AxionProperties. *)
From Coq Require Import Lqa Lra Reals List Arith NArith ZArith Bool Lia Permutation.
From Verif Require Import KernelModel LaneModel LaplModel ForceModel EnergyModel EnergySpec EnergyProofs
  ConserveSpec ConserveProofs ConserveBoxProofs AxionModel AxionSpec.
Import ListNotations.
Open Scope R_scope.

(** ** One period *)
Lemma modR_mid : forall x md, 0 < md -> Rabs x < md / 2 -> modR x md = x.
Proof.
  intros x md Hm Hx. apply Rabs_def2 in Hx. unfold modR. cbv zeta.
  assert (A : x * x < (x + md) * (x + md)) by nra. assert (B : x * x < (x - md) * (x - md)) by nra.
  rewrite (Rmin_right _ (x * x)) by (apply Rmin_glb; lra).
  destruct (Req_EM_T (x * x) ((x + md) * (x + md))); [lra|]. destruct (Req_EM_T (x * x) ((x - md) * (x - md))); [lra|].
  destruct (Req_EM_T (x * x) (x * x)); lra.
Qed.
Lemma modR_up : forall x md, 0 < md -> md / 2 < x -> modR x md = x - md.
Proof.
  intros x md Hm Hx. unfold modR. cbv zeta.
  assert (A : (x - md) * (x - md) < x * x) by nra. assert (B : (x - md) * (x - md) < (x + md) * (x + md)) by nra.
  rewrite (Rmin_right ((x + md) * (x + md)) ((x - md) * (x - md))) by lra. rewrite Rmin_left by lra.
  destruct (Req_EM_T ((x - md) * (x - md)) ((x + md) * (x + md))); [lra|]. destruct (Req_EM_T ((x - md) * (x - md)) ((x - md) * (x - md))); [|lra].
  destruct (Req_EM_T ((x - md) * (x - md)) (x * x)); lra.
Qed.
Lemma modR_odd : forall x md, modR (- x) md = - modR x md.
Proof.
  intros x md. unfold modR. cbv zeta. replace ((- x + md) * (- x + md)) with ((x - md) * (x - md)) by ring.
  replace ((- x - md) * (- x - md)) with ((x + md) * (x + md)) by ring. replace (- x * - x) with (x * x) by ring.
  rewrite (Rmin_comm ((x - md) * (x - md)) ((x + md) * (x + md))).
  repeat match goal with |- context [Req_EM_T ?a ?b] => destruct (Req_EM_T a b) end; ring.
Qed.
Lemma modR_down : forall x md, 0 < md -> x < - (md / 2) -> modR x md = x + md.
Proof. intros x md Hm Hx. replace x with (- - x) at 1 by ring. rewrite modR_odd, (modR_up (- x) md) by lra. ring. Qed.
Lemma modR_half : forall md, 0 < md -> modR (md / 2) md = 0.
Proof.
  intros md Hm. unfold modR. cbv zeta.
  assert (A : (md / 2 - md) * (md / 2 - md) = md / 2 * (md / 2)) by field. assert (B : md / 2 * (md / 2) < (md / 2 + md) * (md / 2 + md)) by nra.
  rewrite A, (Rmin_right ((md / 2 + md) * (md / 2 + md))) by lra. rewrite Rmin_left by lra.
  destruct (Req_EM_T (md / 2 * (md / 2)) ((md / 2 + md) * (md / 2 + md))); [lra|]. destruct (Req_EM_T (md / 2 * (md / 2)) (md / 2 * (md / 2))); lra.
Qed.
Lemma modR_cases : forall x md, 0 < md -> Rabs x <> md / 2 ->
  (Rabs x < md / 2 /\ modR x md = x) \/ (md / 2 < x /\ modR x md = x - md) \/ (x < - (md / 2) /\ modR x md = x + md).
Proof.
  intros x md Hm N. destruct (Rlt_dec (Rabs x) (md / 2)) as [L|L]; [left; split; [exact L | apply modR_mid; assumption]|]. right.
  assert (md / 2 < Rabs x) by lra. destruct (Rle_dec 0 x) as [P|P].
  - left. rewrite Rabs_right in * by lra. split; [lra | apply modR_up; lra].
  - right. rewrite Rabs_left in * by lra. split; [lra | apply modR_down; lra].
Qed.
Lemma modR_mod : forall x md, 0 < md -> Rabs x <> md / 2 -> exists k : Z, modR x md = x + IZR k * md.
Proof.
  intros x md Hm N. destruct (modR_cases x md Hm N) as [[_ ->]|[[_ ->]|[_ ->]]]; [exists 0%Z | exists (-1)%Z | exists 1%Z]; ring.
Qed.
Lemma modR_short : forall x md, 0 < md -> Rabs x <> md / 2 -> Rabs x < 3 * (md / 2) -> Rabs (modR x md) < md / 2.
Proof.
  intros x md Hm N B. apply Rabs_def2 in B. destruct (modR_cases x md Hm N) as [[L ->]|[[L ->]|[L ->]]]; [exact L | apply Rabs_def1; lra | apply Rabs_def1; lra].
Qed.
Lemma short_unique : forall md a b (k : Z), 0 < md -> Rabs a < md / 2 -> Rabs b < md / 2 -> b = a + IZR k * md -> b = a.
Proof.
  intros md a b k Hm A B E. apply Rabs_def2 in A. apply Rabs_def2 in B. assert (X : Rabs (IZR k * md) < md) by (apply Rabs_def1; lra).
  assert (K : k = 0%Z).
  { rewrite Rabs_mult, (Rabs_right md), <- abs_IZR in X by lra. assert (Y : IZR (Z.abs k) < 1) by (apply Rmult_lt_reg_r with md; lra). apply lt_IZR in Y. lia. }
  subst k. rewrite E. ring.
Qed.
Lemma dl_id : forall t, derivable_pt_lim (fun u => u) t 1.
Proof. exact derivable_pt_lim_id. Qed.
Lemma dl_modR : forall x md, 0 < md -> Rabs x <> md / 2 -> derivable_pt_lim (fun u => modR u md) x 1.
Proof.
  intros x md Hm N. destruct (modR_cases x md Hm N) as [[L _]|[[L _]|[L _]]].
  - apply Rabs_def2 in L. apply (derivable_pt_lim_locally_ext (fun u => u) _ x (- (md / 2)) (md / 2)); [lra | | apply dl_id].
    intros u Hu. symmetry. apply modR_mid; [exact Hm | apply Rabs_def1; lra].
  - apply (derivable_pt_lim_locally_ext (fun u => u - md) _ x (md / 2) (x + 1)); [lra | |].
    + intros u Hu. symmetry. apply modR_up; lra.
    + eapply dl_eq; [apply (dl_minus (fun u => u) (fun _ => md)); [apply dl_id | apply dl_const] | ring].
  - apply (derivable_pt_lim_locally_ext (fun u => u + md) _ x (x - 1) (- (md / 2))); [lra | |].
    + intros u Hu. symmetry. apply modR_down; lra.
    + eapply dl_eq; [apply (dl_plus (fun u => u) (fun _ => md)); [apply dl_id | apply dl_const] | ring].
Qed.
(** The difference that the program uses. *)
Definition link (wMod : bool) (md g : R) : R := if wMod then modR g md else g.
Lemma link_odd : forall w md g, link w md (- g) = - link w md g.
Proof. intros [] md g; [apply modR_odd | reflexivity]. Qed.
Lemma link_0 : forall w md, 0 < md -> link w md 0 = 0.
Proof. intros [] md H; [apply modR_mid; [exact H | rewrite Rabs_R0; lra] | reflexivity]. Qed.
Lemma link_small : forall w md g, 0 < md -> Rabs g < md / 2 -> link w md g = g.
Proof. intros [] md g H L; [apply modR_mid; assumption | reflexivity]. Qed.
Lemma tDiff_link : forall w b a m, tDiff w b a m = link w (tPeriod (bR b)) (a - m).
Proof. intros [] b a m; reflexivity. Qed.
Lemma dl_link : forall w md g t a, 0 < md -> derivable_pt_lim g t a -> (w = true -> Rabs (g t) <> md / 2) ->
  derivable_pt_lim (fun u => link w md (g u)) t a.
Proof.
  intros [] md g t a Hm G N; [|exact G]. unfold link. eapply dl_eq; [apply (derivable_pt_lim_comp g (fun u => modR u md)); [exact G | apply dl_modR; [exact Hm | exact (N eq_refl)]]|]. ring.
Qed.

(** ** The sums *)
Lemma rsum_sumOver : forall A (f : A -> R) l, rsum (map f l) = sumOver f l.
Proof. intros A f l; induction l as [|a l IH]; [reflexivity|]. unfold rsum, sumOver in *. cbn [map fold_right]. rewrite IH. reflexivity. Qed.
Lemma tEnergy_mean : forall P I w hs n b e rs E, answers (tEnergy P I w hs n b e rs) E -> forall i, (i < 5)%nat ->
  E i = Some (mean (fun x => tQuantity P I w n b i x * tFactor b i) (tsites rs)).
Proof.
  intros P I w hs n b e rs E H i Hi. unfold tEnergy in H. destruct (hasMask e && negb hs); [destruct H as [[m2 H]|H]; discriminate|].
  assert (X : E = (fun i => if (i <? 5)%nat then Some (rsum (map (fun r => rsum (map (fun l => rsum (map (tQuantity P I w n b i) l)) r) * tFactor b i) rs) * (1 / INR (length (concat (concat rs))))) else None)).
  { destruct (hasMap e); destruct H as [[m2 H]|H]; try discriminate; injection H; intros; symmetry; assumption. }
  rewrite X. replace (i <? 5)%nat with true by (symmetry; apply Nat.ltb_lt; exact Hi). f_equal.
  unfold mean, tsites. rewrite rsum_sumOver, sumOver_scale, <- rsum_sumOver. unfold Rdiv. rewrite Rmult_1_l. f_equal.
  rewrite rsum_sumOver, sumOver_scale. f_equal. rewrite !sumOver_concat. apply sumOver_ext. intros r _. rewrite rsum_sumOver. apply sumOver_ext. intros l _. apply rsum_sumOver.
Qed.
Definition tDensity (P : prec) (I : isa) (w : bool) (n : nat) (b : tback) (x : tsite) : R :=
  sumOver (fun i => tQuantity P I w n b i x * tFactor b i) (seq 0 5).
Lemma sumOver_mean : forall A (f : nat -> A -> R) l l', sumOver (fun i => mean (f i) l) l' = mean (fun x => sumOver (fun i => f i x) l') l.
Proof.
  intros A f l l'; induction l' as [|a l' IH].
  - unfold sumOver at 1. cbn [fold_right]. rewrite (mean_ext _ _ (fun _ => 0 * 0)), <- mean_scale; [ring | intros; unfold sumOver; cbn [fold_right]; ring].
  - unfold sumOver in *. cbn [fold_right]. rewrite IH, mean_plus. reflexivity.
Qed.
Lemma tTotal_is : forall P I w b n z m v e, tTotal P I w b n z m v e -> e = mean (fun x => tDensity P I w n b (tsiteAt n z m v x)) (box n z).
Proof.
  intros P I w b n z m v e [rs [E [h [Hp [H [Hh ->]]]]]].
  rewrite (sumOver_ext _ h (fun i => mean (fun x => tQuantity P I w n b i x * tFactor b i) (tsites rs))).
  - rewrite sumOver_mean, (mean_perm _ _ _ _ Hp), mean_map. reflexivity.
  - intros i Hi. apply in_seq in Hi. pose proof (tEnergy_mean _ _ _ _ _ _ _ _ _ H i ltac:(lia)) as X. rewrite (Hh i ltac:(lia)) in X.
    exact (f_equal (fun o => match o with Some a => a | None => 0 end) X).
Qed.
Lemma tTotal_exists : forall P I w b n z m v, tTotal P I w b n z m v (mean (fun x => tDensity P I w n b (tsiteAt n z m v x)) (box n z)).
Proof.
  intros P I w b n z m v. set (rs := [[map (tsiteAt n z m v) (box n z)]]).
  assert (SI : tsites rs = map (tsiteAt n z m v) (box n z)) by (unfold tsites, rs; cbn [concat app]; rewrite !app_nil_r; reflexivity).
  assert (X : exists E, answers (tEnergy P I w false n b 1 rs) E) by (eexists; left; eexists; reflexivity). destruct X as [E HE].
  exists rs, E, (fun i => mean (fun x => tQuantity P I w n b i x * tFactor b i) (tsites rs)).
  split; [rewrite SI; reflexivity|]. split; [exact HE|]. split; [exact (tEnergy_mean _ _ _ _ _ _ _ _ _ HE)|].
  rewrite sumOver_mean, SI, mean_map. reflexivity.
Qed.
(** The density where the rows are read correctly. *)
Definition broken (P : prec) (I : isa) : Prop := P = Double /\ I = AVX512.
Lemma broken_dec : forall P I, broken P I \/ ~ broken P I.
Proof. intros [] []; unfold broken; try (right; intros [A B]; discriminate). left; auto. Qed.
Lemma tYs_right : forall P I n x, ~ broken P I -> tYs P I n x = (tNb x Yp, tNb x Ym).
Proof. intros [] [] n x H; try reflexivity. exfalso; apply H; split; reflexivity. Qed.
Lemma tDensity_is : forall P I w n b x, ~ broken P I -> bR b <> 0 ->
  let sq d := link w (tPeriod (bR b)) (tNb x d - tM x) * link w (tPeriod (bR b)) (tNb x d - tM x) in
  tDensity P I w n b x = (sq Xp + sq Xm + (sq Yp + sq Ym) + (sq Zp + sq Zm)) * bO2 b
    + (tV x - bD1 b * (tM x / bR b)) * (tV x - bD1 b * (tM x / bR b)) / (2 * bR b ^ 4) + bMa2 b * (1 - cos (tM x / bR b)).
Proof.
  intros P I w n b x NB HR sq. unfold tDensity, sumOver. cbn [seq fold_right]. unfold tQuantity, tFactor. rewrite (tYs_right P I n x NB). cbn [fst snd].
  unfold tSquares. rewrite !tDiff_link. unfold tKin, tPot, bIz4. cbv zeta.
  assert (C : 1 - cos (tM x / bR b) = sin (0.5 * (tM x * (1 / bR b))) * sin (0.5 * (tM x * (1 / bR b))) * 2).
  { replace (tM x / bR b) with (2 * (0.5 * (tM x * (1 / bR b)))) by (replace 0.5 with (1/2) by lra; field; exact HR). rewrite cos_2a_sin. ring. }
  rewrite C. unfold sq. replace (tM x * (1 / bR b)) with (tM x / bR b) by (field; exact HR).
  generalize (sin (0.5 * (tM x / bR b))). intros s. replace 0.5 with (1/2) by lra. field. exact HR.
Qed.

(** ** The Laplacian *)
Definition lkShell (w : bool) (md mel : R) (nb : dir -> R) : R :=
  link w md (nb Xp - mel) + link w md (nb Xm - mel) + (link w md (nb Yp - mel) + link w md (nb Ym - mel)) + (link w md (nb Zp - mel) + link w md (nb Zm - mel)).
Lemma tShell_link : forall w md mel nb, tShell w md mel nb = lkShell w md mel nb.
Proof. intros [] md mel nb; unfold tShell, lkShell, link, shell; ring. Qed.
Lemma tBoxLap_1 : forall w n z d2 r m x, tBoxLap w 1 n z d2 r m x = lkShell w (tPeriod r) (m x) (fun d => m (stepTo n z 1 d x)) * / d2.
Proof. intros w n z d2 r m x. unfold tBoxLap, tLap, setCO. cbn [seq fold_left nth Nat.sub]. rewrite tShell_link. ring. Qed.
Lemma period_pos : forall r, 0 < r -> 0 < tPeriod r.
Proof. intros r H. unfold tPeriod. pose proof PI_RGT_0. apply Rmult_lt_0_compat; lra. Qed.
Lemma half_period : forall r, tPeriod r / 2 = PI * r.
Proof. intros r. unfold tPeriod. field. Qed.
Lemma fold_zero : forall (g : nat -> R) l a, (forall k, In k l -> g k = 0) -> fold_left (fun s k => s + g k) l a = a.
Proof. intros g l; induction l as [|y l IH]; intros a H; [reflexivity|]. cbn [fold_left]. rewrite (H y (or_introl eq_refl)), Rplus_0_r. apply IH. intros k Hk; apply H; right; exact Hk. Qed.
Lemma tLap_flat : forall w NN n z d2 r k x, 0 < r -> tBoxLap w NN n z d2 r (fun _ => k) x = 0.
Proof.
  intros w NN n z d2 r k x Hr. unfold tBoxLap, tLap. apply (fold_zero (fun nv => tShell w (tPeriod r) k (fun _ => k) * (nth (nv - 1) (setCO NN) 0 * / d2))). intros j _.
  rewrite tShell_link. unfold lkShell. rewrite Rminus_diag_eq by reflexivity. rewrite (link_0 w _ (period_pos r Hr)). ring.
Qed.
(** Summation by parts. *)
Lemma link_parts : forall w md n z d (m v : cell -> R), (0 < n)%nat -> (0 < z)%nat ->
  let D e x := link w md (m (stepTo n z 1 e x) - m x) in
  sumOver (fun x => D d x * (v (stepTo n z 1 d x) - v x) + D (back d) x * (v (stepTo n z 1 (back d) x) - v x)) (box n z)
  = sumOver (fun x => (D d x + D (back d) x) * v x * -2) (box n z).
Proof.
  intros w md n z d m v Hn Hz D.
  assert (BB : back (back d) = d) by (destruct d; reflexivity).
  assert (S1 := step_sum n z 1 (back d) (fun x => D d x * v (stepTo n z 1 d x)) Hn Hz).
  assert (S2 := step_sum n z 1 d (fun x => D (back d) x * v (stepTo n z 1 (back d) x)) Hn Hz).
  rewrite (sumOver_ext _ _ (fun x => D (back d) x * v x * -1)) in S1.
  2:{ intros x Hx. unfold D. assert (SB : stepTo n z 1 d (stepTo n z 1 (back d) x) = x) by (rewrite <- BB at 1; apply step_back, Hx). rewrite SB.
      replace (m x - m (stepTo n z 1 (back d) x)) with (- (m (stepTo n z 1 (back d) x) - m x)) by ring. rewrite link_odd. ring. }
  rewrite (sumOver_ext _ _ (fun x => D d x * v x * -1)) in S2.
  2:{ intros x Hx. unfold D. rewrite step_back by exact Hx.
      replace (m x - m (stepTo n z 1 d x)) with (- (m (stepTo n z 1 d x) - m x)) by ring. rewrite link_odd. ring. }
  rewrite (sumOver_ext _ _ (fun x => ((D d x * v (stepTo n z 1 d x)) + D (back d) x * v (stepTo n z 1 (back d) x)) + (D d x * v x * -1 + D (back d) x * v x * -1))) by (intros; ring).
  rewrite (sumOver_ext _ (fun x => (D d x + D (back d) x) * v x * -2) (fun x => (D (back d) x * v x * -1 + D d x * v x * -1) + (D d x * v x * -1 + D (back d) x * v x * -1))) by (intros; ring).
  rewrite !sumOver_plus, S1, S2. reflexivity.
Qed.

(** ** The rate of change of the energy *)
Definition accOf (w : bool) (P : prec) (q : qcd) (c : tparms) (lp mel : R) : R :=
  match tKernel q with None => 0 | Some k => tAccel P k c lp mel end.
Lemma step_acc : forall w P q c lp mel vel m2 v' m', tDzc c <> 0 -> tStep w P q c lp mel vel m2 = (v', m') ->
  (v' - vel) / tDzc c = accOf w P q c lp mel.
Proof.
  intros w P q c lp mel vel m2 v' m' H E. unfold tStep, accOf in *. destruct (tKernel q) as [k|]; injection E; intros _ E1; rewrite <- E1; field; exact H.
Qed.
Lemma t_rate : forall w P I q NN n z c b m v t T, (0 < n)%nat -> (0 < z)%nat -> tWorld c b -> bFrw b = 0 -> 0 < bDelta2 b -> tDzc c <> 0 -> ~ broken P I ->
  (w = true -> forall x d, In x (box n z) -> Rabs (m t (stepTo n z 1 d x) - m t x) <> PI * tR c) ->
  tObeys w P q NN n z c (bDelta2 b) m v t -> (forall u, tTotal P I w b n z (m u) (v u) (T u)) ->
  derivable_pt_lim T t (mean (fun x => v t x * (accOf w P q c (tBoxLap w NN n z (bDelta2 b) (tR c) (m t) x) (m t x)
     - tBoxLap w 1 n z (bDelta2 b) (tR c) (m t) x + tMa2 c * tR c ^ 3 * sin (m t x / tR c)) / tR c ^ 4) (box n z)).
Proof.
  intros w P I q NN n z c b m v t T Hn Hz [W1 [W2 W3]] Hf HD Hd NB NT O TE. assert (HR : bR b <> 0) by lra. assert (HD' : bDelta2 b <> 0) by lra.
  set (md := tPeriod (bR b)) in *. assert (Hmd : 0 < md) by (apply period_pos, W3).
  assert (D1 : bD1 b = 0) by (unfold bD1; rewrite Hf; unfold Rdiv; ring).
  apply dl_ext with (f := fun u => mean (fun x => tDensity P I w n b (tsiteAt n z (m u) (v u) x)) (box n z)).
  { intros u. symmetry. apply (tTotal_is P I w b n z (m u) (v u) (T u) (TE u)). }
  set (acc := fun x => accOf w P q c (tBoxLap w NN n z (bDelta2 b) (tR c) (m t) x) (m t x)).
  set (D := fun e x => link w md (m t (stepTo n z 1 e x) - m t x)).
  set (gr := fun d x => (D d x * (v t (stepTo n z 1 d x) - v t x) + D (back d) x * (v t (stepTo n z 1 (back d) x) - v t x)) * (2 * bO2 b)).
  eapply dl_eq.
  - apply (dl_scal (fun u => sumOver (fun x => tDensity P I w n b (tsiteAt n z (m u) (v u) x)) (box n z))).
    apply (dl_sum _ (fun x u => tDensity P I w n b (tsiteAt n z (m u) (v u) x))
      (fun x => (gr Xp x + (gr Yp x + gr Zp x)) + v t x * acc x / bR b ^ 4 + bMa2 b * sin (m t x / bR b) * v t x / bR b)). intros x Hx.
    destruct (O x Hx) as [Tx [m2 [v' [m' [Hs Tv]]]]]. rewrite (step_acc w P q c _ _ _ _ _ _ Hd Hs) in Tv. fold (acc x) in Tv.
    assert (TS : forall d, derivable_pt_lim (fun u => m u (stepTo n z 1 d x)) t (v t (stepTo n z 1 d x))) by (intros d; apply O, step_in, Hx).
    assert (L : forall d, derivable_pt_lim (fun u => link w md (m u (stepTo n z 1 d x) - m u x)) t (v t (stepTo n z 1 d x) - v t x)).
    { intros d. apply (dl_link w md (fun u => m u (stepTo n z 1 d x) - m u x) t _ Hmd).
      - apply (dl_minus (fun u => m u (stepTo n z 1 d x)) (fun u => m u x)); [apply TS | exact Tx].
      - intros Hw. unfold md. rewrite half_period, <- W1. apply (NT Hw x d Hx). }
    assert (L2 : forall d, derivable_pt_lim (fun u => link w md (m u (stepTo n z 1 d x) - m u x) * link w md (m u (stepTo n z 1 d x) - m u x)) t
       (2 * D d x * (v t (stepTo n z 1 d x) - v t x))).
    { intros d. eapply dl_eq; [apply (dl_mult (fun u => link w md (m u (stepTo n z 1 d x) - m u x)) (fun u => link w md (m u (stepTo n z 1 d x) - m u x))); apply L|]. cbv beta. unfold D. ring. }
    apply dl_ext with (f := fun u => (let sq d := link w md (m u (stepTo n z 1 d x) - m u x) * link w md (m u (stepTo n z 1 d x) - m u x) in
        (sq Xp + sq Xm + (sq Yp + sq Ym) + (sq Zp + sq Zm)) * bO2 b) + v u x * v u x * (/ (2 * bR b ^ 4)) + (1 - cos (m u x * / bR b)) * bMa2 b).
    { intros u. rewrite (tDensity_is P I w n b _ NB HR). rewrite D1. cbn [tsiteAt tM tV tNb]. fold md. cbv zeta. unfold Rdiv. ring. }
    cbv zeta. eapply dl_eq.
    + apply (dl_plus (fun u => _ + _) (fun u => (1 - cos (m u x * / bR b)) * bMa2 b)); [apply (dl_plus (fun u => _ * bO2 b) (fun u => v u x * v u x * (/ (2 * bR b ^ 4))))|].
      * apply (dl_scal (fun u => _)). apply (dl_plus (fun u => _ + _) (fun u => _ + _)); [apply (dl_plus (fun u => _ + _) (fun u => _ + _))|].
        -- apply (dl_plus (fun u => _ * _) (fun u => _ * _)); [apply (L2 Xp) | apply (L2 Xm)].
        -- apply (dl_plus (fun u => _ * _) (fun u => _ * _)); [apply (L2 Yp) | apply (L2 Ym)].
        -- apply (dl_plus (fun u => _ * _) (fun u => _ * _)); [apply (L2 Zp) | apply (L2 Zm)].
      * apply (dl_scal (fun u => v u x * v u x)), (dl_mult (fun u => v u x) (fun u => v u x)); exact Tv.
      * apply (dl_scal (fun u => 1 - cos (m u x * / bR b))), (dl_minus (fun _ => 1) (fun u => cos (m u x * / bR b))); [apply dl_const|].
        apply (derivable_pt_lim_comp (fun u => m u x * / bR b) cos); [apply (dl_scal (fun u => m u x)); exact Tx | apply derivable_pt_lim_cos].
    + cbv beta. unfold gr. cbn [back]. unfold Rdiv. field. exact HR.
  - unfold mean. apply (Rmult_eq_compat_r (/ INR (length (box n z)))). rewrite !sumOver_plus.
    assert (BP : forall d, sumOver (gr d) (box n z) = sumOver (fun x => (D d x + D (back d) x) * v t x * - (4 * bO2 b)) (box n z)).
    { intros d. unfold gr. rewrite sumOver_scale. pose proof (link_parts w md n z d (m t) (v t) Hn Hz) as LP. cbv zeta in LP. unfold D. rewrite LP, <- sumOver_scale. apply sumOver_ext. intros x _. ring. }
    rewrite !BP, <- !sumOver_plus. apply sumOver_ext. intros x _. rewrite tBoxLap_1, W1, W2. fold md. unfold lkShell. cbn [back]. fold (acc x) (D Xp x) (D Xm x) (D Yp x) (D Ym x) (D Zp x) (D Zm x).
    replace (accOf w P q c (tBoxLap w NN n z (bDelta2 b) (bR b) (m t) x) (m t x)) with (acc x) by (unfold acc; rewrite W1; reflexivity).
    unfold bO2. replace 0.25 with (1/4) by lra. field. split; [exact HD' | exact HR].
Qed.
