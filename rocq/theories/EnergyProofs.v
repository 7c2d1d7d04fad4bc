(** Lemmas about EnergyModel. *)
From Coq Require Import Lqa Lra Reals List Arith NArith Bool Lia.
From Verif Require Import ForceModel EnergyModel EnergySpec.
Import ListNotations.
Open Scope R_scope.

Lemma osum_some : forall A (f : A -> option R) (g : A -> R) l, (forall x, In x l -> f x = Some (g x)) ->
  osum (map f l) = Some (sumOver g l).
Proof.
  intros A f g l; induction l as [|a l IH]; intros H; [reflexivity|].
  cbn [map osum fold_right sumOver]. change (fold_right oplus (Some 0) (map f l)) with (osum (map f l)).
  rewrite (H a (or_introl eq_refl)), IH; [reflexivity|]. intros x Hx; apply H; right; exact Hx.
Qed.
Lemma sumOver_app : forall A (g : A -> R) l l', sumOver g (l ++ l') = sumOver g l + sumOver g l'.
Proof.
  intros A g l l'; unfold sumOver; induction l as [|a l IH]; cbn [app fold_right]; [ring | rewrite IH; ring].
Qed.
Lemma sumOver_concat : forall A (g : A -> R) l, sumOver g (concat l) = sumOver (fun x => sumOver g x) l.
Proof.
  intros A g l; induction l as [|a l IH]; [reflexivity|]. cbn [concat]. rewrite sumOver_app, IH. reflexivity.
Qed.
Lemma sumOver_map : forall A B (h : A -> B) (g : B -> R) l, sumOver g (map h l) = sumOver (fun x => g (h x)) l.
Proof. intros A B h g l; induction l as [|a l IH]; [reflexivity|]. cbn [map sumOver fold_right] in *. unfold sumOver in IH. rewrite IH. reflexivity. Qed.
Lemma sumOver_ext : forall A (g h : A -> R) l, (forall x, In x l -> g x = h x) -> sumOver g l = sumOver h l.
Proof.
  intros A g h l; induction l as [|a l IH]; intros H; [reflexivity|]. cbn [sumOver fold_right].
  change (fold_right (fun x b => g x + b) 0 l) with (sumOver g l). change (fold_right (fun x b => h x + b) 0 l) with (sumOver h l).
  rewrite (H a (or_introl eq_refl)), IH; [reflexivity|]. intros x Hx; apply H; right; exact Hx.
Qed.
Lemma sumOver_scale : forall A k (g : A -> R) l, sumOver (fun x => g x * k) l = sumOver g l * k.
Proof. intros A k g l; induction l as [|a l IH]; [cbn; ring|]; unfold sumOver in *; cbn [fold_right]; rewrite IH; ring. Qed.
Lemma sumOver_plus : forall A (g h : A -> R) l, sumOver (fun x => g x + h x) l = sumOver g l + sumOver h l.
Proof. intros A g h l; induction l as [|a l IH]; [cbn; ring|]; unfold sumOver in *; cbn [fold_right]; rewrite IH; ring. Qed.
Lemma sumOver_nonneg : forall A (g : A -> R) l, (forall x, In x l -> 0 <= g x) -> 0 <= sumOver g l.
Proof.
  intros A g l; induction l as [|a l IH]; intros H; cbn [sumOver fold_right]; [lra|].
  pose proof (H a (or_introl eq_refl)). pose proof (IH (fun x Hx => H x (or_intror Hx))). unfold sumOver in *. lra.
Qed.
Lemma in_sites : forall rs r x, In r rs -> In x (rSites r) -> In x (sites rs).
Proof. intros rs r x H1 H2. unfold sites. apply in_concat. exists (rSites r). split; [apply in_map; exact H1 | exact H2]. Qed.

(** One of the averages. *)
Lemma reply_total : forall P low hasSd s q c e Vt rs old E M, energy P low hasSd s q c e Vt rs old = Reply E M ->
  asksTotals e -> forall i f, (i < 10)%nat \/ (i = 10%nat /\ P = Single) ->
  (forall x, In x (sites rs) -> quantity (fst (dispatch s q)) (snd (dispatch s q)) c i x = Some (f x)) ->
  E i = Some (mean f (sites rs) * factor P c i).
Proof.
  intros P low hasSd s q c e Vt rs old E M H Ha i f Hi Hf. unfold energy in H.
  assert (HM : hasMap e = true) by (destruct Ha as [<-|[<-|[<-|[<-|[]]]]]; reflexivity).
  assert (HE : hasEne e = true) by (destruct Ha as [<-|[<-|[<-|[<-|[]]]]]; reflexivity).
  rewrite HM in H. destruct low; [discriminate|]. cbn [andb] in H.
  destruct (hasMask e && negb hasSd); [discriminate|].
  assert (HK : kernelOf false e = Some e) by (destruct Ha as [<-|[<-|[<-|[<-|[]]]]]; reflexivity).
  rewrite HK in H. injection H as <- _. replace (i <? 11)%nat with true by (symmetry; apply Nat.ltb_lt; lia).
  rewrite (osum_some _ _ (fun r => sumOver f (rSites r) * factor P c i)).
  - cbn [oscale]. f_equal. rewrite sumOver_scale. unfold mean, totalSize. fold (sites rs).
    unfold sites. rewrite sumOver_concat, sumOver_map. unfold Rdiv. ring.
  - intros r Hr. unfold eTmp. destruct (dispatch s q) as [s' q'] eqn:D. cbn [fst snd] in Hf. rewrite HE.
    assert (B : ((i <? 10)%nat || ((i =? 10)%nat && match P with Single => true | Double => false end)) = true).
    { destruct Hi as [Hi|[-> ->]]; [apply orb_true_iff; left; apply Nat.ltb_lt; exact Hi | reflexivity]. }
    rewrite B. unfold over. rewrite (osum_some _ _ f); [reflexivity|].
    intros x Hx. apply Hf. eapply in_sites; eassumption.
Qed.
(** The masked ones. *)
Lemma filter_app : forall (f : site -> bool) l l', filter f (l ++ l') = filter f l ++ filter f l'.
Proof. intros f l l'; induction l as [|a l IH]; [reflexivity|]. cbn [app filter]. destruct (f a); rewrite IH; reflexivity. Qed.
Lemma filter_concat : forall (f : site -> bool) l, filter f (concat l) = concat (map (filter f) l).
Proof. intros f l; induction l as [|a l IH]; [reflexivity|]. cbn [concat map]. rewrite filter_app, IH. reflexivity. Qed.
Lemma sumOver_one : forall A (l : list A), sumOver (fun _ => 1) l = INR (length l).
Proof. intros A l; unfold sumOver; induction l as [|a l IH]; [reflexivity|]. cbn [fold_right length]. rewrite IH, S_INR. ring. Qed.
Lemma count_masked : forall l, fold_right Rplus 0 (map ups (filter sMask l)) = INR (length (filter sMask l)).
Proof.
  intros l; induction l as [|a l IH]; [reflexivity|]. cbn [filter]. destruct (sMask a) eqn:Q; [|exact IH].
  cbn [map fold_right length]. rewrite IH, S_INR. unfold ups. rewrite Q. ring.
Qed.
Lemma maskSites_ranks : forall rs, maskSites rs = concat (map (fun r => filter sMask (rSites r)) rs).
Proof. intros rs. unfold maskSites, sites. rewrite filter_concat, map_map. reflexivity. Qed.
Lemma mask_accepts : forall P low hasSd s q c e Vt rs old E M, energy P low hasSd s q c e Vt rs old = Reply E M ->
  asksMask e -> exists k, kernelOf low e = Some k /\ hasMask k = true.
Proof.
  intros P low hasSd s q c e Vt rs old E M H Ha. destruct Ha as [<-|[<-|[<-|[<-|[]]]]]; destruct low; try discriminate H; eexists; split; reflexivity.
Qed.
Lemma reply_count : forall low hasSd s q c e Vt rs old E M, energy Single low hasSd s q c e Vt rs old = Reply E M ->
  asksMask e -> E 22%nat = Some (INR (length (maskSites rs))).
Proof.
  intros low hasSd s q c e Vt rs old E M H Ha. destruct (mask_accepts _ _ _ _ _ _ _ _ _ _ _ _ H Ha) as [k [HK HM]].
  unfold energy in H. destruct (hasMap e && low); [discriminate|]. destruct (hasMask e && negb hasSd); [discriminate|].
  rewrite HK in H. injection H as <- _. cbn [Nat.ltb Nat.leb].
  rewrite (osum_some _ _ (fun r => INR (length (filter sMask (rSites r))))).
  - f_equal. rewrite maskSites_ranks. rewrite <- sumOver_one, sumOver_concat, sumOver_map.
    apply sumOver_ext. intros r _. rewrite sumOver_one. reflexivity.
  - intros r _. unfold eTmp. destruct (dispatch s q). cbn [Nat.ltb Nat.leb Nat.eqb andb orb]. rewrite HM. unfold nummask.
    rewrite count_masked. reflexivity.
Qed.
Lemma in_maskSites : forall rs r x, In r rs -> In x (filter sMask (rSites r)) -> In x (maskSites rs).
Proof. intros rs r x H1 H2. rewrite maskSites_ranks. apply in_concat. exists (filter sMask (rSites r)). split; [apply in_map with (f := fun r => filter sMask (rSites r)); exact H1 | exact H2]. Qed.
Lemma reply_masked : forall P low hasSd s q c e Vt rs old E M, energy P low hasSd s q c e Vt rs old = Reply E M ->
  asksMask e -> forall i f, (i < 10)%nat \/ (i = 10%nat /\ P = Single) ->
  (forall x, In x (maskSites rs) -> quantity (fst (dispatch s q)) (snd (dispatch s q)) c i x = Some (f x)) ->
  E (11 + i)%nat = omult (Some (sumOver f (maskSites rs) * factor P c i)) (oinv (E 22%nat)).
Proof.
  intros P low hasSd s q c e Vt rs old E M H Ha i f Hi Hf. destruct (mask_accepts _ _ _ _ _ _ _ _ _ _ _ _ H Ha) as [k [HK HM]].
  unfold energy in H. destruct (hasMap e && low); [discriminate|]. destruct (hasMask e && negb hasSd); [discriminate|].
  rewrite HK in H. injection H as <- _.
  replace (11 + i <? 11)%nat with false by (symmetry; apply Nat.ltb_ge; lia).
  replace (11 + i <? 22)%nat with true by (symmetry; apply Nat.ltb_lt; lia).
  change (22 <? 11)%nat with false. change (22 <? 22)%nat with false. cbv iota. f_equal.
  rewrite (osum_some _ _ (fun r => sumOver f (filter sMask (rSites r)) * factor P c i)).
  - f_equal. rewrite sumOver_scale, maskSites_ranks, sumOver_concat, sumOver_map. reflexivity.
  - intros r Hr. unfold eTmp. destruct (dispatch s q) as [s' q'] eqn:D. cbn [fst snd] in Hf. rewrite HM.
    replace (11 + i <? 10)%nat with false by (symmetry; apply Nat.ltb_ge; lia).
    replace (11 + i =? 10)%nat with false by (symmetry; apply Nat.eqb_neq; lia).
    replace (11 <=? 11 + i)%nat with true by (symmetry; apply Nat.leb_le; lia).
    replace (11 + i - 11)%nat with i by lia.
    assert (B : ((11 + i <? 21)%nat || ((11 + i =? 21)%nat && match P with Single => true | Double => false end)) = true).
    { destruct Hi as [Hi|[-> ->]]; [apply orb_true_iff; left; apply Nat.ltb_lt; lia | reflexivity]. }
    rewrite B. cbn [andb orb]. unfold masked. rewrite (osum_some _ _ f); [reflexivity|].
    intros x Hx. apply Hf. eapply in_maskSites; eassumption.
Qed.
Lemma reply_masked_single : forall low hasSd s q c e Vt rs old E M, energy Single low hasSd s q c e Vt rs old = Reply E M ->
  asksMask e -> maskSites rs <> [] -> forall i f, (i <= 10)%nat ->
  (forall x, In x (maskSites rs) -> quantity (fst (dispatch s q)) (snd (dispatch s q)) c i x = Some (f x)) ->
  maskPart E i = Some (mean f (maskSites rs) * factor Single c i).
Proof.
  intros low hasSd s q c e Vt rs old E M H Ha Hn i f Hi Hf. unfold maskPart.
  rewrite (reply_masked _ _ _ _ _ _ _ _ _ _ _ _ H Ha i f); [|destruct (Nat.eq_dec i 10); [right; auto | left; lia] | exact Hf].
  rewrite (reply_count _ _ _ _ _ _ _ _ _ _ _ H Ha). unfold oinv.
  destruct (Req_EM_T (INR (length (maskSites rs))) 0) as [Z|Z].
  - exfalso. apply Hn. destruct (maskSites rs) as [|a l]; [reflexivity|]. exfalso. cbn [length] in Z. pose proof (pos_INR (length l)). rewrite S_INR in Z. lra.
  - cbn [omult]. unfold mean, Rdiv. f_equal. ring.
Qed.
Lemma mean_plus : forall A (f g : A -> R) l, mean f l + mean g l = mean (fun x => f x + g x) l.
Proof. intros; unfold mean; rewrite sumOver_plus; unfold Rdiv; ring. Qed.
Lemma mean_scale : forall A (f : A -> R) k l, mean f l * k = mean (fun x => f x * k) l.
Proof. intros; unfold mean; rewrite sumOver_scale; unfold Rdiv; ring. Qed.
Lemma mean_ext : forall A (f g : A -> R) l, (forall x, In x l -> f x = g x) -> mean f l = mean g l.
Proof. intros A f g l H; unfold mean; rewrite (sumOver_ext _ f g) by exact H; reflexivity. Qed.
Lemma mean_nonneg : forall A (f : A -> R) l, (forall x, In x l -> 0 <= f x) -> 0 <= mean f l.
Proof.
  intros A f l H. unfold mean, Rdiv. destruct l as [|a l]; [cbn; lra|].
  apply Rmult_le_pos; [apply sumOver_nonneg; exact H|]. apply Rlt_le, Rinv_0_lt_compat, lt_0_INR. cbn; lia.
Qed.

(** Lanes. *)
Lemma n2_not0 : forall m : R * R, m <> (0, 0) -> 0 < n2 m.
Proof.
  intros [x y] H; unfold n2; cbn [fst snd].
  destruct (Req_dec x 0) as [->|A].
  - assert (B : y <> 0) by (intros ->; apply H; reflexivity).
    pose proof (Rsqr_pos_lt y B) as Q; unfold Rsqr in Q; lra.
  - pose proof (Rsqr_pos_lt x A) as Q; unfold Rsqr in Q. pose proof (Rle_0_sqr y) as Q2; unfold Rsqr in Q2; lra.
Qed.
Definition lanesR (m d : R * R) : R * R :=
  (fst d * (fst m / n2 m) + snd d * (snd m / n2 m), fst d * (snd m / n2 m) + snd d * - (fst m / n2 m)).
Lemma lanes_some : forall m d, m <> (0, 0) -> lanes m d = Some (lanesR m d).
Proof. intros m d H. unfold lanes. destruct (Req_EM_T (n2 m) 0) as [A|A]; [pose proof (n2_not0 m H); lra | reflexivity]. Qed.
Lemma lanes_sum : forall m d, m <> (0, 0) ->
  n2 m * (fst (lanesR m d) * fst (lanesR m d) + snd (lanesR m d) * snd (lanesR m d)) = n2 d.
Proof.
  intros m d H. pose proof (n2_not0 m H) as N. unfold lanesR, n2 in *; cbn [fst snd]. field. lra.
Qed.
Definition gradientR (c : eparms) (m p n : R * R) : R * R :=
  let a := lanesR m (mSub p m) in let b := lanesR m (mSub m n) in
  (n2 m * iz2 c * (fst b * fst b + fst a * fst a), n2 m * iz2 c * (snd b * snd b + snd a * snd a)).
Lemma gradient_some : forall c m p n, m <> (0, 0) -> gradient c m p n = Some (gradientR c m p n).
Proof. intros c m p n H. unfold gradient. rewrite !lanes_some by exact H. reflexivity. Qed.
Lemma gradientR_sum : forall c m p n, m <> (0, 0) ->
  fst (gradientR c m p n) + snd (gradientR c m p n) = iz2 c * (n2 (mSub p m) + n2 (mSub m n)).
Proof.
  intros c m p n H. unfold gradientR. cbn [fst snd].
  rewrite <- (lanes_sum m (mSub p m) H), <- (lanes_sum m (mSub m n) H). ring.
Qed.
Lemma iz2_nonneg : forall c, 0 <= iz2 c.
Proof. intros c; unfold iz2; apply Rle_0_sqr. Qed.
Lemma n2_nonneg : forall m, 0 <= n2 m.
Proof. intros [x y]; unfold n2; cbn [fst snd]; pose proof (Rle_0_sqr x); pose proof (Rle_0_sqr y); unfold Rsqr in *; lra. Qed.
Lemma sq_nonneg2 : forall a b, 0 <= a * a + b * b.
Proof. intros a b; pose proof (Rle_0_sqr a); pose proof (Rle_0_sqr b); unfold Rsqr in *; lra. Qed.
Lemma gradientR_nonneg : forall c m p n, 0 <= fst (gradientR c m p n) /\ 0 <= snd (gradientR c m p n).
Proof.
  intros; unfold gradientR; cbn [fst snd]. pose proof (iz2_nonneg c). pose proof (n2_nonneg m).
  split; (apply Rmult_le_pos; [apply Rmult_le_pos; assumption | apply sq_nonneg2]).
Qed.
Definition kineticR (c : eparms) (m v : R * R) : R * R :=
  let a := fst (lanesR m v) - eRprime c * (1 / eR c) in
  let b := snd (lanesR m v) in (n2 m * iz2 c * (a * a), n2 m * iz2 c * (b * b)).
Lemma kinetic_some : forall c m v, m <> (0, 0) -> kinetic c m v = Some (kineticR c m v).
Proof. intros c m v H. unfold kinetic. rewrite lanes_some by exact H. reflexivity. Qed.
Lemma kineticR_nonneg : forall c m v, 0 <= fst (kineticR c m v) /\ 0 <= snd (kineticR c m v).
Proof.
  intros; unfold kineticR; cbn [fst snd]. pose proof (iz2_nonneg c). pose proof (n2_nonneg m).
  split; (apply Rmult_le_pos; [apply Rmult_le_pos; assumption | apply Rle_0_sqr]).
Qed.
Lemma kineticR_sum : forall c x, eR c <> 0 -> sM x <> (0, 0) ->
  (fst (kineticR c (sM x) (sV x)) + snd (kineticR c (sM x) (sV x))) * (0.5 * iz2 c) = kineticDensity c x.
Proof.
  intros c x HR H. pose proof (n2_not0 _ H) as N. unfold kineticR, kineticDensity, phiDot, abs2, lanesR, iz2, n2 in *.
  destruct (sM x) as [a b], (sV x) as [u w]. cbn [fst snd] in *. replace 0.5 with (1/2) by lra. field. split; [exact HR | lra].
Qed.
Lemma gradientR_density : forall c x p n, eR c <> 0 -> eDelta2 c <> 0 -> sM x <> (0, 0) ->
  (fst (gradientR c (sM x) p n) + snd (gradientR c (sM x) p n)) * o2 c = gradientDensity c x p n.
Proof.
  intros c x p n HR HD H. rewrite gradientR_sum by exact H.
  unfold gradientDensity, abs2, minus, phi, o2, iz2, n2, mSub. cbn [fst snd]. replace 0.25 with (1/4) by lra. field. split; assumption.
Qed.

(** ** From averages to what they mean *)
Definition averages (P : prec) (s : pq) (q : qcd) (c : eparms) (E : nat -> option R) (l : list site) : Prop :=
  forall i f, (i < 10)%nat \/ (i = 10%nat /\ P = Single) ->
  (forall x, In x l -> quantity (fst (dispatch s q)) (snd (dispatch s q)) c i x = Some (f x)) ->
  E i = Some (mean f l * factor P c i).
Lemma o2_nonneg : forall c, 0 < eDelta2 c -> 0 <= o2 c.
Proof.
  intros c H. unfold o2. replace (0.25 / eDelta2 c / eR c / eR c) with ((0.25 / eDelta2 c) * Rsqr (/ eR c)) by (unfold Rsqr, Rdiv; ring).
  apply Rmult_le_pos; [|apply Rle_0_sqr]. apply Rmult_le_pos; [lra|]. apply Rlt_le, Rinv_0_lt_compat, H.
Qed.
Lemma quantity_grads : forall s q c x, sM x <> (0, 0) ->
  quantity s q c 0 x = Some (snd (gradientR c (sM x) (sXp x) (sXm x))) /\
  quantity s q c 1 x = Some (snd (gradientR c (sM x) (sYp x) (sYm x))) /\
  quantity s q c 2 x = Some (snd (gradientR c (sM x) (sZp x) (sZm x))) /\
  quantity s q c 5 x = Some (fst (gradientR c (sM x) (sXp x) (sXm x))) /\
  quantity s q c 6 x = Some (fst (gradientR c (sM x) (sYp x) (sYm x))) /\
  quantity s q c 7 x = Some (fst (gradientR c (sM x) (sZp x) (sZm x))) /\
  quantity s q c 3 x = Some (snd (kineticR c (sM x) (sV x))) /\
  quantity s q c 8 x = Some (fst (kineticR c (sM x) (sV x))).
Proof.
  intros s q c x H. unfold quantity, grads. rewrite !gradient_some, kinetic_some by exact H.
  unfold osnd, ofst. unfold gradientR, kineticR. cbn [fst snd]. repeat split.
Qed.
Lemma parts_mean : forall c l (g : site -> R * R) (d : site -> R) (k : R) a b, 0 <= k ->
  (forall x, In x l -> 0 <= fst (g x) /\ 0 <= snd (g x)) -> (forall x, In x l -> (fst (g x) + snd (g x)) * k = d x) ->
  a = Some (mean (fun x => snd (g x)) l * k) -> b = Some (mean (fun x => fst (g x)) l * k) -> c = mean d l -> parts a b c.
Proof.
  intros c l g d k a b Hk H0 Hd -> -> ->. eexists; eexists. split; [reflexivity|]. split; [reflexivity|].
  split; [apply Rmult_le_pos; [apply mean_nonneg; intros x Hx; apply (H0 x Hx) | exact Hk]|].
  split; [apply Rmult_le_pos; [apply mean_nonneg; intros x Hx; apply (H0 x Hx) | exact Hk]|].
  rewrite <- Rmult_plus_distr_r, mean_plus, mean_scale. apply mean_ext. intros x Hx. rewrite <- (Hd x Hx). ring.
Qed.
Lemma gradients_right : forall P s q c E l, averages P s q c E l -> eR c <> 0 -> 0 < eDelta2 c -> nonzero l -> gradientsRight c E l.
Proof.
  intros P s q c E l A HR HD NZ. unfold gradientsRight.
  pose proof (fun x Hx => quantity_grads (fst (dispatch s q)) (snd (dispatch s q)) c x (NZ x Hx)) as Q.
  assert (HD' : eDelta2 c <> 0) by lra.
  split; [|split].
  - eapply (parts_mean _ l (fun x => gradientR c (sM x) (sXp x) (sXm x)) (fun x => gradientDensity c x (sXp x) (sXm x)) (o2 c)); try reflexivity.
    + apply o2_nonneg; exact HD.
    + intros; apply gradientR_nonneg.
    + intros x Hx; apply gradientR_density; try assumption; apply NZ, Hx.
    + apply (A 0%nat); [left; lia | intros x Hx; apply (Q x Hx)].
    + apply (A 5%nat); [left; lia | intros x Hx; apply (Q x Hx)].
  - eapply (parts_mean _ l (fun x => gradientR c (sM x) (sYp x) (sYm x)) (fun x => gradientDensity c x (sYp x) (sYm x)) (o2 c)); try reflexivity.
    + apply o2_nonneg; exact HD.
    + intros; apply gradientR_nonneg.
    + intros x Hx; apply gradientR_density; try assumption; apply NZ, Hx.
    + apply (A 1%nat); [left; lia | intros x Hx; apply (Q x Hx)].
    + apply (A 6%nat); [left; lia | intros x Hx; apply (Q x Hx)].
  - eapply (parts_mean _ l (fun x => gradientR c (sM x) (sZp x) (sZm x)) (fun x => gradientDensity c x (sZp x) (sZm x)) (o2 c)); try reflexivity.
    + apply o2_nonneg; exact HD.
    + intros; apply gradientR_nonneg.
    + intros x Hx; apply gradientR_density; try assumption; apply NZ, Hx.
    + apply (A 2%nat); [left; lia | intros x Hx; apply (Q x Hx)].
    + apply (A 7%nat); [left; lia | intros x Hx; apply (Q x Hx)].
Qed.
Lemma moves_kinetic : forall c x rho rho' th th', eR c <> 0 -> sM x <> (0, 0) -> moves c x rho rho' th th' ->
  kineticR c (sM x) (sV x) = (rho' ^ 2, (rho * th') ^ 2).
Proof.
  intros c x rho rho' th th' HR NZ [Hm Hv]. rewrite Hm, Hv. rewrite Hm in NZ.
  assert (Hr : rho <> 0) by (intros ->; apply NZ; f_equal; ring).
  pose proof (sin2_cos2 th) as T; unfold Rsqr in T.
  unfold kineticR, lanesR, iz2. cbn [fst snd].
  assert (N : n2 (eR c * rho * cos th, eR c * rho * sin th) = (eR c * rho) * (eR c * rho)).
  { unfold n2; cbn [fst snd].
    replace (eR c * rho * cos th * (eR c * rho * cos th) + eR c * rho * sin th * (eR c * rho * sin th))
      with (eR c * rho * (eR c * rho) * (sin th * sin th + cos th * cos th)) by ring. rewrite T. ring. }
  rewrite N. generalize dependent (cos th). generalize dependent (sin th). intros S C _ _ _ T _.
  assert (X : ((eRprime c * rho + eR c * rho') * C - eR c * rho * th' * S) * (eR c * rho * C / (eR c * rho * (eR c * rho)))
    + ((eRprime c * rho + eR c * rho') * S + eR c * rho * th' * C) * (eR c * rho * S / (eR c * rho * (eR c * rho)))
    = (eRprime c * rho + eR c * rho') / (eR c * rho) * (S * S + C * C)) by (field; split; assumption).
  assert (Y : ((eRprime c * rho + eR c * rho') * C - eR c * rho * th' * S) * (eR c * rho * S / (eR c * rho * (eR c * rho)))
    + ((eRprime c * rho + eR c * rho') * S + eR c * rho * th' * C) * - (eR c * rho * C / (eR c * rho * (eR c * rho)))
    = - th' * (S * S + C * C)) by (field; split; assumption).
  rewrite X, Y, T. f_equal; field; try split; assumption.
Qed.
Lemma half_iz2 : forall c, eR c <> 0 -> 0.5 * iz2 c = / 2 / eR c ^ 2.
Proof. intros c H. unfold iz2. replace 0.5 with (1/2) by lra. field. exact H. Qed.
Lemma kinetic_right : forall P s q c E l, averages P s q c E l -> factor P c 3 = 0.5 * iz2 c -> eR c <> 0 -> nonzero l -> kineticRight c E l.
Proof.
  intros P s q c E l A F3 HR NZ. unfold kineticRight.
  assert (F8 : factor P c 8 = 0.5 * iz2 c) by exact F3.
  pose proof (fun x Hx => quantity_grads (fst (dispatch s q)) (snd (dispatch s q)) c x (NZ x Hx)) as Q.
  assert (E3 : E 3%nat = Some (mean (fun x => snd (kineticR c (sM x) (sV x))) l * (0.5 * iz2 c))).
  { rewrite <- F3. apply (A 3%nat); [left; lia | intros x Hx; apply (Q x Hx)]. }
  assert (E8 : E 8%nat = Some (mean (fun x => fst (kineticR c (sM x) (sV x))) l * (0.5 * iz2 c))).
  { rewrite <- F8. apply (A 8%nat); [left; lia | intros x Hx; apply (Q x Hx)]. }
  split.
  - eapply (parts_mean _ l (fun x => kineticR c (sM x) (sV x)) (kineticDensity c) (0.5 * iz2 c)); try reflexivity; try assumption.
    + pose proof (iz2_nonneg c). lra.
    + intros; apply kineticR_nonneg.
    + intros x Hx; apply kineticR_sum; [assumption | apply NZ, Hx].
  - intros rho rho' th th' Hm. rewrite E3, E8, (half_iz2 c HR). rewrite !mean_scale.
    split; f_equal; apply mean_ext; intros x Hx; rewrite (moves_kinetic c x _ _ _ _ HR (NZ x Hx) (Hm x Hx)); cbn [fst snd]; field; exact HR.
Qed.
Lemma polar_n2 : forall c x r th, 0 < eR c -> polar c x r th ->
  n2 (shifted c (sM x)) = (eR c * r) * (eR c * r) /\ 0 < eR c * r /\ fst (shifted c (sM x)) = eR c * r * cos th
  /\ snd (shifted c (sM x)) = eR c * r * sin th.
Proof.
  intros c x r th HR [Hr [_ Hm]]. rewrite Hm. unfold shifted, n2; cbn [fst snd].
  pose proof (sin2_cos2 th) as T; unfold Rsqr in T. assert (P : 0 < eR c * r) by (apply Rmult_lt_0_compat; assumption).
  split; [|split; [exact P|split; ring]].
  replace ((eShift c + eR c * r * cos th - eShift c) * (eShift c + eR c * r * cos th - eShift c) + eR c * r * sin th * (eR c * r * sin th))
    with (eR c * r * (eR c * r) * (sin th * sin th + cos th * cos th)) by ring. rewrite T. ring.
Qed.
Lemma saxion_density : forall s c x r th, 0 < eR c -> polar c x r th ->
  rhoPot s c (sM x) * lZ c = saxionDensity s c r.
Proof.
  intros s c x r th HR Hp. destruct (polar_n2 c x r th HR Hp) as [N [_ _]]. destruct Hp as [Hr _].
  assert (HR' : eR c <> 0) by lra. unfold rhoPot. rewrite N.
  replace (eR c * r * (eR c * r) * iz2 c) with (r * r) by (unfold iz2; field; exact HR').
  assert (L : lZ c = eLam c / 4) by (unfold lZ; replace 0.25 with (1/4) by lra; field; exact HR'). rewrite L.
  destruct s; cbn [saxion saxionDensity].
  - field.
  - field.
  - unfold kkk. rewrite sqrt_square by lra. destruct (Rle_dec 1 (r * r)) as [A|A], (Rlt_dec r 1) as [B|B].
    + exfalso. assert (r * r < 1 * 1) by (apply Rmult_le_0_lt_compat; lra). lra.
    + field.
    + field.
    + exfalso. apply A. assert (1 * 1 <= r * r) by (apply Rmult_le_compat; lra). lra.
Qed.
Lemma saxion_right : forall P s q c E l, averages P s q c E l -> 0 < eR c -> fst (dispatch s q) = s -> saxionRight s c E l.
Proof.
  intros P s q c E l A HR D r th Hp.
  rewrite (A 9%nat (fun x => rhoPot s c (sM x))); [|left; lia|].
  - f_equal. cbn [factor]. rewrite mean_scale. apply mean_ext. intros x Hx. apply (saxion_density s c x _ (th x) HR (Hp x Hx)).
  - intros x Hx. unfold quantity, grads. rewrite D. reflexivity.
Qed.
Lemma eZQ_mass : forall c, eR c <> 0 -> eZQ c = eMa2 c.
Proof. intros c H. unfold eZQ. field. exact H. Qed.
(** Reported axion potential, in units of the mass squared. *)
Lemma cosine_reported : forall c x r th, 0 < eR c -> polar c x r th -> axionPot QCDC c (sM x) = Some (1 - cos th).
Proof.
  intros c x r th HR Hp. destruct (polar_n2 c x r th HR Hp) as [N [P [F _]]]. unfold axionPot. rewrite N, F.
  destruct (Req_EM_T (eR c * r * (eR c * r)) 0) as [Z|Z].
  - exfalso. pose proof (Rmult_lt_0_compat _ _ P P). lra.
  - rewrite sqrt_square by lra. f_equal. field. destruct Hp; split; lra.
Qed.
Lemma both_reported : forall c x r th, 0 < eR c -> polar c x r th ->
  axionPot QCDV c (sM x) = Some ((1 - r * cos th) ^ 2 / 2 + (r * sin th) ^ 2 / 2).
Proof.
  intros c x r th HR Hp. destruct (polar_n2 c x r th HR Hp) as [_ [_ [F1 F2]]]. unfold axionPot. cbv zeta. cbn [fst snd]. rewrite F1, F2.
  f_equal. replace 0.5 with (1/2) by lra. field. lra.
Qed.
Lemma modulus_right : forall s q c E l, averages Single s q c E l -> 0 < eR c -> modulusRight c E l.
Proof.
  intros s q c E l A HR r th Hp. rewrite (A 10%nat r); [cbn [factor]; f_equal; ring | right; split; reflexivity|].
  intros x Hx. unfold quantity, grads. f_equal. destruct (polar_n2 c x _ _ HR (Hp x Hx)) as [N _]. destruct (Hp x Hx) as [Hr _].
  unfold modulus. rewrite N. replace (eR c * r x * (eR c * r x) * iz2 c) with (r x * r x) by (unfold iz2; field; lra). apply sqrt_square; lra.
Qed.
Lemma axion_right : forall P s q c E l, averages P s q c E l -> 0 < eR c ->
  q = QCDV \/ q = QCDC \/ (eMa2 c = 0 /\ nonzero l) -> axionRight q c E l.
Proof.
  intros P s q c E l A HR Hq r th Hp.
  assert (Q : forall x, quantity (fst (dispatch s q)) (snd (dispatch s q)) c 4 x = axionPot (snd (dispatch s q)) c (sM x)) by (intros; reflexivity).
  destruct Hq as [->|[->|[Z NZ]]].
  - rewrite (A 4%nat (fun x => (1 - r x * cos (th x)) ^ 2 / 2 + (r x * sin (th x)) ^ 2 / 2)); [|left; lia|].
    + cbn [factor]. rewrite eZQ_mass by lra. rewrite mean_scale. f_equal. apply mean_ext. intros; unfold axionDensity; ring.
    + intros x Hx. rewrite Q. apply (both_reported c x _ _ HR (Hp x Hx)).
  - rewrite (A 4%nat (fun x => 1 - cos (th x))); [|left; lia|].
    + cbn [factor]. rewrite eZQ_mass by lra. rewrite mean_scale. f_equal. apply mean_ext. intros; unfold axionDensity; ring.
    + intros x Hx. rewrite Q. apply (cosine_reported c x (r x) _ HR (Hp x Hx)).
  - assert (S : exists f, forall x, In x l -> axionPot (snd (dispatch s q)) c (sM x) = Some (f x)).
    { exists (fun x => match axionPot (snd (dispatch s q)) c (sM x) with Some y => y | None => 0 end).
      intros x Hx. destruct (polar_n2 c x _ _ HR (Hp x Hx)) as [N [PP _]]. pose proof (Rmult_lt_0_compat _ _ PP PP) as PP2.
      pose proof (n2_not0 _ (NZ x Hx)) as N0. unfold axionPot. rewrite N.
      destruct (snd (dispatch s q)); try reflexivity;
        match goal with |- context [Req_EM_T ?a 0] => destruct (Req_EM_T a 0); [lra | reflexivity] end. }
    destruct S as [f Hf]. rewrite (A 4%nat f); [|left; lia | intros x Hx; rewrite Q; apply Hf, Hx].
    cbn [factor]. rewrite eZQ_mass, Z by lra. f_equal. rewrite Rmult_0_r.
    rewrite (mean_ext _ _ (fun _ => 0 * 0)).
    + rewrite <- (mean_scale _ (fun _ => 0)). ring.
    + intros x _. unfold axionDensity. rewrite Z. destruct q; ring.
Qed.

(** ** The map *)
Lemma mapTheta_some : forall s q c x f0 f1 f2 f3 f4,
  quantity s q c 0 x = Some f0 -> quantity s q c 1 x = Some f1 -> quantity s q c 2 x = Some f2 ->
  quantity s q c 3 x = Some f3 -> quantity s q c 4 x = Some f4 ->
  mapTheta q c x = Some (f3 * (0.5 * iz2 c) + (f0 + (f1 + f2)) * o2 c + f4 * eZQ c).
Proof.
  intros s q c x f0 f1 f2 f3 f4 H0 H1 H2 H3 H4. unfold quantity in *. unfold mapTheta. destruct (grads c x) as [[gx gy] gz].
  rewrite H0, H1, H2, H3, H4. reflexivity.
Qed.
Lemma mapRho_some : forall s q c x f5 f6 f7 f8 f9,
  quantity s q c 5 x = Some f5 -> quantity s q c 6 x = Some f6 -> quantity s q c 7 x = Some f7 ->
  quantity s q c 8 x = Some f8 -> quantity s q c 9 x = Some f9 ->
  mapRho s c x = Some (f8 * (0.5 * iz2 c) + (f5 + (f6 + f7)) * o2 c + f9 * lZ c).
Proof.
  intros s q c x f0 f1 f2 f3 f4 H0 H1 H2 H3 H4. unfold quantity in *. unfold mapRho. destruct (grads c x) as [[gx gy] gz].
  rewrite H0, H1, H2, H3. injection H4 as <-. cbn [oplus oscale]. f_equal. ring.
Qed.
Lemma map_entries : forall P low hasSd s q c e Vt rs old E M, energy P low hasSd s q c e Vt rs old = Reply E M ->
  asksTotals e -> fits Vt rs -> length old = length rs ->
  Forall2 (fun r f => forall j x, nth_error (rSites r) j = Some x ->
    f j = mapTheta (snd (dispatch s q)) c x /\ f (Vt + j)%nat = mapRho (fst (dispatch s q)) c x) rs M.
Proof.
  intros P low hasSd s q c e Vt rs old E M H Ha Hf Hl. unfold energy in H.
  assert (HM : hasMap e = true) by (destruct Ha as [<-|[<-|[<-|[<-|[]]]]]; reflexivity).
  assert (H6 : (e =? 6)%N = false) by (destruct Ha as [<-|[<-|[<-|[<-|[]]]]]; reflexivity).
  rewrite HM in H. destruct low; [discriminate|]. cbn [andb] in H.
  destruct (hasMask e && negb hasSd); [discriminate|].
  assert (HK : kernelOf false e = Some e) by (destruct Ha as [<-|[<-|[<-|[<-|[]]]]]; reflexivity).
  rewrite HK in H. injection H as _ <-.
  revert old Hl. induction rs as [|r rs IH]; intros [|o old] Hl; try discriminate Hl; [constructor|].
  cbn [combine map]. constructor.
  - intros j x Hx. cbn [fst snd]. unfold newM2, mapEntry. rewrite HM, Hx, H6. destruct (dispatch s q) as [s' q']. cbn [fst snd andb].
    split; [reflexivity|].
    assert (L : (length (rSites r) <= Vt)%nat) by (apply Hf; left; reflexivity).
    replace (nth_error (rSites r) (Vt + j)) with (@None site) by (symmetry; apply nth_error_None; lia).
    replace (Vt <=? Vt + j)%nat with true by (symmetry; apply Nat.leb_le; lia).
    replace (Vt + j - Vt)%nat with j by lia. rewrite Hx. reflexivity.
  - apply IH; [intros r' Hr'; apply Hf; right; exact Hr' | cbn in Hl; lia].
Qed.
Lemma axionPot_some : forall q c x r th, 0 < eR c -> sM x <> (0, 0) -> polar c x r th -> exists y, axionPot q c (sM x) = Some y.
Proof.
  intros q c x r th HR NZ Hp. destruct (polar_n2 c x _ _ HR Hp) as [N [PP _]]. pose proof (Rmult_lt_0_compat _ _ PP PP) as PP2.
  pose proof (n2_not0 _ NZ) as N0. unfold axionPot. rewrite N.
  destruct q; try (eexists; reflexivity);
    match goal with |- context [Req_EM_T ?a 0] => destruct (Req_EM_T a 0); [lra | eexists; reflexivity] end.
Qed.
Lemma axion_density : forall q c x r th, 0 < eR c -> sM x <> (0, 0) -> polar c x r th ->
  q = QCDV \/ q = QCDC \/ eMa2 c = 0 -> forall s y, axionPot (snd (dispatch s q)) c (sM x) = Some y -> y * eZQ c = axionDensity q c r th.
Proof.
  intros q c x r th HR NZ Hp Hq s y H. rewrite eZQ_mass by lra. destruct Hq as [->|[->|Z]].
  - cbn [dispatch snd] in H. rewrite (both_reported c x _ _ HR Hp) in H.
    apply (f_equal (fun o => match o with Some a => a | None => 0 end)) in H. cbv beta iota in H. rewrite <- H. unfold axionDensity. ring.
  - cbn [dispatch snd] in H. rewrite (cosine_reported c x _ _ HR Hp) in H. injection H as <-. unfold axionDensity. ring.
  - unfold axionDensity. rewrite Z. destruct q; ring.
Qed.
Lemma Forall2_impl_in : forall A B (P Q : A -> B -> Prop) l l', (forall a b, In a l -> P a b -> Q a b) -> Forall2 P l l' -> Forall2 Q l l'.
Proof.
  intros A B P Q l l' H F. induction F as [|a b l l' Hab F IH]; constructor; [apply H; [left; reflexivity | exact Hab]|].
  apply IH. intros a' b' Ha'. apply H. right; exact Ha'.
Qed.

(** ** Counting with a race *)
Definition rem (l : list tstate) : R := sumOver (fun x => fold_right Rplus 0 (snd x)) l.
Lemma rem_setNth : forall l t o o' i r, nth_error l t = Some (o, i :: r) ->
  rem (setNth t (o', i :: r) l) = rem l /\ rem (setNth t (o', r) l) = rem l - i.
Proof.
  unfold rem, sumOver. induction l as [|[a b] l IH]; intros [|t] o o' i r H; cbn [nth_error] in H; try discriminate.
  - injection H as -> ->. cbn [setNth fold_right snd]. split; ring.
  - destruct (IH t o o' i r H) as [E1 E2]. cbn [setNth fold_right snd]. rewrite E1, E2. split; ring.
Qed.
Lemma in_setNth : forall A (l : list A) t x y, In y (setNth t x l) -> y = x \/ In y l.
Proof.
  intros A l; induction l as [|a l IH]; intros [|t] x y H; cbn [setNth] in H; try (destruct H; fail).
  - destruct H as [<-|H]; [left; reflexivity | right; right; exact H].
  - destruct H as [<-|H]; [right; left; reflexivity|]. destruct (IH _ _ _ H) as [->|H']; [left; reflexivity | right; right; exact H'].
Qed.
(** Every increment is at least one. *)
Definition units (l : list tstate) : Prop := forall o ls i, In (o, ls) l -> In i ls -> i = 1.
Definition raceInv (T : R) (s : R * list tstate) : Prop :=
  units (snd s) /\ 0 <= fst s /\ fst s + rem (snd s) <= T /\ (rem (snd s) = T \/ 1 <= fst s) /\
  forall x ls, In (Some x, ls) (snd s) -> 0 <= x /\ x + rem (snd s) <= T.
Lemma nth_in : forall A (l : list A) n x, nth_error l n = Some x -> In x l.
Proof. intros; eapply nth_error_In; eassumption. Qed.
Lemma raceStep_inv : forall T t s, raceInv T s -> raceInv T (raceStep t s).
Proof.
  intros T t [s l] [U [S0 [ST [SW RG]]]]. unfold raceStep. cbn [fst snd] in *.
  destruct (nth_error l t) as [[o [|i r]]|] eqn:N; [destruct o; exact (conj U (conj S0 (conj ST (conj SW RG)))) | | exact (conj U (conj S0 (conj ST (conj SW RG))))].
  pose proof (nth_in _ _ _ _ N) as I0. destruct o as [x|].
  - destruct (rem_setNth l t _ None i r N) as [_ E]. assert (i = 1) by (apply (U _ _ i I0); left; reflexivity). subst i.
    destruct (RG x _ I0) as [X0 XT]. unfold raceInv. cbn [fst snd]. rewrite E. split; [|split; [lra|split; [lra|split; [right; lra|]]]].
    + intros o ls i H Hi. destruct (in_setNth _ _ _ _ _ H) as [Q|Q]; [injection Q as -> ->; apply (U _ _ i I0); right; exact Hi | apply (U _ _ i Q Hi)].
    + intros y ls H. destruct (in_setNth _ _ _ _ _ H) as [Q|Q]; [discriminate Q|]. destruct (RG _ _ Q). split; lra.
  - destruct (rem_setNth l t _ (Some s) i r N) as [E _]. unfold raceInv. cbn [fst snd]. rewrite E. split; [|split; [lra|split; [lra|split; [exact SW|]]]].
    + intros o ls j H Hj. destruct (in_setNth _ _ _ _ _ H) as [Q|Q]; [injection Q as -> ->; apply (U _ _ j I0 Hj) | apply (U _ _ j Q Hj)].
    + intros y ls H. destruct (in_setNth _ _ _ _ _ H) as [Q|Q]; [injection Q as -> _; split; lra | apply (RG _ _ Q)].
Qed.
Lemma race_inv : forall T sched s, raceInv T s -> raceInv T (race sched s).
Proof. intros T sched; induction sched as [|t r IH]; intros s H; [exact H|]. cbn [race]. apply IH, raceStep_inv, H. Qed.
Lemma rem_finished : forall l, finished l = true -> rem l = 0.
Proof.
  intros l; unfold rem, sumOver; induction l as [|[a [|b r]] l IH]; intros H; [reflexivity| |discriminate H].
  cbn [fold_right snd]. rewrite IH; [ring|]. unfold finished in *. cbn [forallb snd andb] in H. exact H.
Qed.
Lemma rem_start : forall l, rem (snd (startRace (map (fun l => map ups (filter sMask l)) l))) = INR (length (filter sMask (concat l))).
Proof.
  intros l. unfold rem, startRace. cbn [snd]. rewrite map_map. cbn [snd]. rewrite sumOver_map. cbn [snd].
  rewrite filter_concat, <- sumOver_one, sumOver_concat, sumOver_map. apply sumOver_ext. intros x _. rewrite count_masked, sumOver_one. reflexivity.
Qed.
Lemma start_inv : forall l, raceInv (INR (length (filter sMask (concat l)))) (startRace (map (fun l => map ups (filter sMask l)) l)).
Proof.
  intros l. unfold raceInv. rewrite rem_start. unfold startRace. cbn [fst snd]. split; [|split; [lra|split; [lra|split; [left; reflexivity|]]]].
  - intros o ls i H Hi. apply in_map_iff in H. destruct H as [a [Q H]]. injection Q as _ ->. apply in_map_iff in H. destruct H as [b [<- _]].
    apply in_map_iff in Hi. destruct Hi as [x [<- Hx]]. apply filter_In in Hx. unfold ups. destruct Hx as [_ ->]. reflexivity.
  - intros x ls H. apply in_map_iff in H. destruct H as [a [Q _]]. discriminate Q.
Qed.
Lemma nummask_bounds : forall r, finished (snd (race (rSched r) (startRace (map (fun l => map ups (filter sMask l)) (rThreads r))))) = true ->
  0 <= nummask Double r <= INR (length (filter sMask (rSites r))) /\ (filter sMask (rSites r) <> [] -> 1 <= nummask Double r).
Proof.
  intros r F. pose proof (race_inv _ (rSched r) _ (start_inv (rThreads r))) as [_ [S0 [ST [SW _]]]].
  rewrite (rem_finished _ F) in ST, SW. unfold nummask, rSites. split; [lra|]. intros N. destruct SW as [SW|SW]; [|exact SW].
  exfalso. apply N. destruct (filter sMask (concat (rThreads r))) as [|a l]; [reflexivity|]. cbn [length] in SW. pose proof (pos_INR (length l)).
  rewrite S_INR in SW. lra.
Qed.
(** One thread. *)
Lemma race_one : forall sched o ls s, (o = None \/ o = Some s) ->
  exists o' ls' s', race sched (s, [(o, ls)]) = (s', [(o', ls')]) /\ s' + fold_right Rplus 0 ls' = s + fold_right Rplus 0 ls.
Proof.
  intros sched; induction sched as [|t r IH]; intros o ls s Ho; [exists o, ls, s; split; reflexivity|].
  cbn [race]. unfold raceStep. cbn [fst snd]. destruct t as [|t].
  - cbn [nth_error]. destruct ls as [|i ls].
    + destruct Ho as [->| ->]; apply IH; auto.
    + destruct Ho as [->| ->]; cbn [setNth].
      * apply IH; auto.
      * destruct (IH None ls (s + i) (or_introl eq_refl)) as [o' [ls' [s' [E1 E2]]]]. exists o', ls', s'. split; [exact E1|]. rewrite E2. cbn [fold_right]. ring.
  - cbn [nth_error]. destruct t; cbn [nth_error]; apply IH; exact Ho.
Qed.
Lemma nummask_one : forall r l, rThreads r = [l] ->
  finished (snd (race (rSched r) (startRace (map (fun l => map ups (filter sMask l)) (rThreads r))))) = true ->
  nummask Double r = INR (length (filter sMask (rSites r))).
Proof.
  intros r l Hl F. unfold nummask, rSites. rewrite Hl in *. cbn [map startRace concat] in *. rewrite app_nil_r. unfold startRace in *. cbn [map] in *.
  destruct (race_one (rSched r) None (map ups (filter sMask l)) 0 (or_introl eq_refl)) as [o' [ls' [s' [E1 E2]]]].
  rewrite E1 in *. cbn [fst snd finished forallb] in *. destruct ls'; [|discriminate F]. cbn [fold_right] in E2. rewrite count_masked in E2. lra.
Qed.
