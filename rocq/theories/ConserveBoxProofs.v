(** Sums over a periodic box and the rate of change of the reported energy. *)
From Coq Require Import Lqa Lra Reals List Arith NArith Bool Lia Permutation.
From Verif Require Import KernelModel LaneModel LaplModel ForceModel ForceSpec ForceProofs EnergyModel EnergySpec EnergyProofs
  ConserveSpec ConserveProofs.
Import ListNotations.
Open Scope R_scope.

(** ** Sums *)
Lemma sumOver_flat_map : forall A B (g : A -> list B) (f : B -> R) l, sumOver f (flat_map g l) = sumOver (fun x => sumOver f (g x)) l.
Proof. intros A B g f l; induction l as [|a l IH]; [reflexivity|]. cbn [flat_map]. rewrite sumOver_app, IH. reflexivity. Qed.
Lemma sumOver_perm : forall A (f : A -> R) l l', Permutation l l' -> sumOver f l = sumOver f l'.
Proof.
  intros A f l l' H. induction H as [|x l l' H IH|x y l|l1 l2 l3 H1 IH1 H2 IH2]; unfold sumOver in *; cbn [fold_right]; [reflexivity | rewrite IH; reflexivity | ring | congruence].
Qed.
Lemma cyclic_inj : forall n a i j, (i < n)%nat -> (j < n)%nat -> ((i + a) mod n = (j + a) mod n)%nat -> i = j.
Proof.
  intros n a i j Hi Hj H. pose proof (Nat.div_mod (i + a) n ltac:(lia)) as A. pose proof (Nat.div_mod (j + a) n ltac:(lia)) as B.
  rewrite H in A. revert A B. generalize ((i + a) / n)%nat ((j + a) / n)%nat ((j + a) mod n)%nat. intros p q r A B.
  destruct (Nat.lt_trichotomy p q) as [L|[->|L]]; [|lia|].
  - assert (n * p + n <= n * q)%nat by (replace (n * p + n)%nat with (n * (p + 1))%nat by ring; apply Nat.mul_le_mono_l; lia). lia.
  - assert (n * q + n <= n * p)%nat by (replace (n * q + n)%nat with (n * (q + 1))%nat by ring; apply Nat.mul_le_mono_l; lia). lia.
Qed.
Lemma NoDup_map_in : forall A B (f : A -> B) l, NoDup l -> (forall x y, In x l -> In y l -> f x = f y -> x = y) -> NoDup (map f l).
Proof.
  intros A B f l N; induction N as [|x l H N IH]; intros I; [constructor|]. cbn [map]. constructor.
  - intros Q. apply in_map_iff in Q. destruct Q as [y [E Y]]. apply H. rewrite (I x y); [exact Y | left; reflexivity | right; exact Y | congruence].
  - apply IH. intros a b Ha Hb. apply I; right; assumption.
Qed.
Lemma cyclic_perm : forall n a, (0 < n)%nat -> Permutation (map (fun i => ((i + a) mod n)%nat) (seq 0 n)) (seq 0 n).
Proof.
  intros n a Hn. apply NoDup_Permutation_bis.
  - apply NoDup_map_in; [apply seq_NoDup|]. intros x y Hx Hy. apply in_seq in Hx. apply in_seq in Hy. apply cyclic_inj; lia.
  - rewrite map_length, seq_length. lia.
  - intros x Hx. apply in_map_iff in Hx. destruct Hx as [i [<- _]]. apply in_seq. pose proof (Nat.mod_upper_bound (i + a) n). lia.
Qed.
Lemma cyclic_sum : forall n a (f : nat -> R), (0 < n)%nat -> sumOver (fun i => f ((i + a) mod n)%nat) (seq 0 n) = sumOver f (seq 0 n).
Proof.
  intros n a f Hn. rewrite <- (sumOver_map _ _ (fun i => ((i + a) mod n)%nat) f). apply sumOver_perm, cyclic_perm, Hn.
Qed.
Lemma box_sum : forall n z (f : cell -> R),
  sumOver f (box n z) = sumOver (fun k => sumOver (fun j => sumOver (fun i => f (i, j, k)) (seq 0 n)) (seq 0 n)) (seq 0 z).
Proof.
  intros n z f. unfold box. rewrite sumOver_flat_map. apply sumOver_ext. intros k _. rewrite sumOver_flat_map. apply sumOver_ext. intros j _.
  apply sumOver_map.
Qed.
Lemma in_box : forall n z i j k, In (i, j, k) (box n z) <-> (i < n /\ j < n /\ k < z)%nat.
Proof.
  intros n z i j k. unfold box. rewrite in_flat_map. split.
  - intros [k' [Hk H]]. apply in_flat_map in H. destruct H as [j' [Hj H]]. apply in_map_iff in H. destruct H as [i' [E Hi]]. injection E as <- <- <-.
    apply in_seq in Hk. apply in_seq in Hj. apply in_seq in Hi. lia.
  - intros [Hi [Hj Hk]]. exists k. split; [apply in_seq; lia|]. apply in_flat_map. exists j. split; [apply in_seq; lia|].
    apply in_map_iff. exists i. split; [reflexivity | apply in_seq; lia].
Qed.
Lemma box_length : forall n z, length (box n z) = (n * n * z)%nat.
Proof.
  intros n z. apply INR_eq. rewrite <- sumOver_one, box_sum.
  rewrite (sumOver_ext _ _ (fun _ => 1 * INR (n * n))).
  - rewrite sumOver_scale, sumOver_one, seq_length, <- mult_INR. f_equal. ring.
  - intros k _. rewrite (sumOver_ext _ _ (fun _ => 1 * INR n)); [rewrite sumOver_scale, sumOver_one, seq_length, mult_INR; ring|].
    intros j _. rewrite sumOver_one, seq_length. ring.
Qed.
(** Every step is a shift of the box. *)
Lemma step_sum : forall n z nv d (f : cell -> R), (0 < n)%nat -> (0 < z)%nat -> sumOver (fun x => f (stepTo n z nv d x)) (box n z) = sumOver f (box n z).
Proof.
  intros n z nv d f Hn Hz. rewrite !box_sum. destruct d; cbn [stepTo].
  1,2: apply sumOver_ext; intros k _; apply sumOver_ext; intros j _; apply (cyclic_sum n _ (fun i => f (i, j, k)) Hn).
  1,2: apply sumOver_ext; intros k _; apply (cyclic_sum n _ (fun j => sumOver (fun i => f (i, j, k)) (seq 0 n)) Hn).
  1,2: apply (cyclic_sum z _ (fun k => sumOver (fun j => sumOver (fun i => f (i, j, k)) (seq 0 n)) (seq 0 n)) Hz).
Qed.
Lemma step_in : forall n z nv d x, In x (box n z) -> In (stepTo n z nv d x) (box n z).
Proof.
  intros n z nv d [[i j] k] H. apply in_box in H.
  pose proof (fun a => Nat.mod_upper_bound a n ltac:(lia)) as Mn. pose proof (fun a => Nat.mod_upper_bound a z ltac:(lia)) as Mz.
  destruct d; cbn [stepTo]; apply in_box; repeat split; try lia; apply Mn || apply Mz.
Qed.
Definition back (d : dir) : dir := match d with Xp => Xm | Xm => Xp | Yp => Ym | Ym => Yp | Zp => Zm | Zm => Zp end.
Lemma cyclic_back : forall n a b i, (i < n)%nat -> (a + b = n)%nat -> (((i + a) mod n + b) mod n = i)%nat.
Proof.
  intros n a b i Hi H. rewrite Nat.add_mod_idemp_l by lia. replace (i + a + b)%nat with (i + 1 * n)%nat by lia.
  rewrite Nat.mod_add by lia. apply Nat.mod_small; exact Hi.
Qed.
Lemma step_back : forall n z d x, In x (box n z) -> stepTo n z 1 (back d) (stepTo n z 1 d x) = x.
Proof.
  intros n z d [[i j] k] H. apply in_box in H. destruct d; cbn [back stepTo]; rewrite cyclic_back by lia; reflexivity.
Qed.
(** Summation by parts along one axis. *)
Lemma by_parts : forall n z d (m v : cell -> R * R), (0 < n)%nat -> (0 < z)%nat ->
  let p := stepTo n z 1 d in let b := stepTo n z 1 (back d) in
  sumOver (fun x => dot (minus (m (p x)) (m x)) (minus (v (p x)) (v x)) + dot (minus (m x) (m (b x))) (minus (v x) (v (b x)))) (box n z)
  = sumOver (fun x => - 2 * dot (v x) (minus (minus (m (p x)) (m x)) (minus (m x) (m (b x))))) (box n z).
Proof.
  intros n z d m v Hn Hz p b.
  assert (S1 := step_sum n z 1 d (fun x => dot (m x) (v x)) Hn Hz). assert (S2 := step_sum n z 1 (back d) (fun x => dot (m x) (v x)) Hn Hz).
  assert (S3 := step_sum n z 1 (back d) (fun x => dot (m (p x)) (v x)) Hn Hz). assert (S4 := step_sum n z 1 d (fun x => dot (m (b x)) (v x)) Hn Hz).
  assert (BB : back (back d) = d) by (destruct d; reflexivity).
  rewrite (sumOver_ext _ _ (fun x => dot (m x) (v (b x)))) in S3
    by (intros x Hx; unfold p; rewrite <- BB at 1; rewrite step_back by exact Hx; reflexivity).
  rewrite (sumOver_ext _ _ (fun x => dot (m x) (v (p x)))) in S4 by (intros x Hx; unfold b; rewrite step_back by exact Hx; reflexivity).
  fold p in S1, S4. fold b in S2, S3.
  rewrite (sumOver_ext _ _ (fun x => - 2 * dot (v x) (minus (minus (m (p x)) (m x)) (minus (m x) (m (b x))))
    + (((dot (m (p x)) (v (p x)) + dot (m x) (v x) * -1) + (dot (m (b x)) (v (b x)) + dot (m x) (v x) * -1))
       + ((dot (m (p x)) (v x) + dot (m x) (v (b x)) * -1) + (dot (m (b x)) (v x) + dot (m x) (v (p x)) * -1)))))
    by (intros x _; unfold dot, minus; cbn [fst snd]; ring).
  rewrite !sumOver_plus, !sumOver_scale. unfold p, b in *.
  match goal with |- ?X + ?Y = ?Z => enough (Y = 0) by lra end. lra.
Qed.

(** ** The total energy *)
Definition axOf (s : pq) (q : qcd) (c : eparms) (m : R * R) : R :=
  match axionPot (snd (dispatch s q)) c m with Some y => y | None => 0 end.
Definition potOf (s : pq) (q : qcd) (c : eparms) (m : R * R) : R := rhoPot (fst (dispatch s q)) c m * lZ c + axOf s q c m * eZQ c.
Lemma axOf_some : forall s q c m, eShift c = 0 -> m <> (0, 0) -> axionPot (snd (dispatch s q)) c m = Some (axOf s q c m).
Proof.
  intros s q c m S N. unfold axOf, axionPot. rewrite (shifted_0 c m S). pose proof (n2_not0 _ N).
  destruct (snd (dispatch s q)); try reflexivity; destruct (Req_EM_T (n2 m) 0); try lra; reflexivity.
Qed.
Lemma mean_perm : forall A (f : A -> R) l l', Permutation l l' -> mean f l = mean f l'.
Proof. intros A f l l' H. unfold mean. rewrite (sumOver_perm _ f l l' H), (Permutation_length H). reflexivity. Qed.
Lemma mean_map : forall A B (h : A -> B) (f : B -> R) l, mean f (map h l) = mean (fun x => f (h x)) l.
Proof. intros. unfold mean. rewrite sumOver_map, map_length. reflexivity. Qed.
Lemma ten : forall (h : nat -> R), sumOver h (seq 0 10) = h 0%nat + h 5%nat + (h 1%nat + h 6%nat + (h 2%nat + h 7%nat)) + (h 3%nat + h 8%nat) + (h 4%nat + h 9%nat).
Proof. intros h. unfold sumOver. cbn [seq fold_right]. ring. Qed.
Definition fac (P : prec) (c : eparms) : R := match P with Single => iz2 c | Double => iR2 c end.
(** In either precision, with the factor that the kinetic energy gets. *)
Lemma ten_sums : forall P s q c rs old E M h, energy P false false s q c 1 (length (sites rs)) rs old = Reply E M ->
  (forall i, (i < 10)%nat -> E i = Some (h i)) -> eShift c = 0 -> 0 < eR c -> 0 < eDelta2 c -> nonzero (sites rs) ->
  sumOver h (seq 0 10) = mean (fun y => kineticDensity c y * (fac P c * eR c ^ 2)
     + (gradientDensity c y (sXp y) (sXm y) + (gradientDensity c y (sYp y) (sYm y) + gradientDensity c y (sZp y) (sZm y))) + potOf s q c (sM y)) (sites rs).
Proof.
  intros P s q c rs old E M h H Hh HS HR HD NZ.
  pose proof (fun i f Hi Hf => reply_total P false false s q c 1 (length (sites rs)) rs old E M H (or_introl eq_refl) i f Hi Hf) as A.
  pose proof (fun x Hx => quantity_grads (fst (dispatch s q)) (snd (dispatch s q)) c x (NZ x Hx)) as Q.
  assert (V : forall i f, (i < 10)%nat -> (forall x, In x (sites rs) -> quantity (fst (dispatch s q)) (snd (dispatch s q)) c i x = Some (f x)) ->
     h i = mean f (sites rs) * factor P c i).
  { intros i f Hi Hf. pose proof (Hh i Hi) as Y. rewrite (A i f (or_introl Hi) Hf) in Y.
    exact (f_equal (fun o => match o with Some a => a | None => 0 end) (eq_sym Y)). }
  rewrite ten.
  rewrite (V 0%nat (fun x => snd (gradientR c (sM x) (sXp x) (sXm x)))), (V 5%nat (fun x => fst (gradientR c (sM x) (sXp x) (sXm x)))),
    (V 1%nat (fun x => snd (gradientR c (sM x) (sYp x) (sYm x)))), (V 6%nat (fun x => fst (gradientR c (sM x) (sYp x) (sYm x)))),
    (V 2%nat (fun x => snd (gradientR c (sM x) (sZp x) (sZm x)))), (V 7%nat (fun x => fst (gradientR c (sM x) (sZp x) (sZm x)))),
    (V 3%nat (fun x => snd (kineticR c (sM x) (sV x)))), (V 8%nat (fun x => fst (kineticR c (sM x) (sV x)))),
    (V 4%nat (fun x => axOf s q c (sM x))), (V 9%nat (fun x => rhoPot (fst (dispatch s q)) c (sM x)));
    try lia; try (intros x Hx; apply (Q x Hx)); try (intros x Hx; unfold quantity, grads; reflexivity);
    try (intros x Hx; unfold quantity, grads; apply axOf_some; [exact HS | apply NZ, Hx]).
  cbn [factor]. rewrite !mean_scale, !mean_plus. apply mean_ext. intros x Hx.
  assert (HR' : eR c <> 0) by lra. assert (HD' : eDelta2 c <> 0) by lra.
  rewrite <- (kineticR_sum c x HR' (NZ x Hx)).
  rewrite <- (gradientR_density c x (sXp x) (sXm x) HR' HD' (NZ x Hx)), <- (gradientR_density c x (sYp x) (sYm x) HR' HD' (NZ x Hx)),
      <- (gradientR_density c x (sZp x) (sZm x) HR' HD' (NZ x Hx)).
  unfold potOf.
  assert (F : match P with Single => 0.5 * iz2 c | Double => 0.5 * iR2 c end = 0.5 * iz2 c * (fac P c * eR c ^ 2))
    by (unfold fac, iz2; destruct P; field; exact HR').
  replace (match P with Single => 0.5 * iz2 c | Double => 0.5 * iR2 c end) with (0.5 * iz2 c * (fac P c * eR c ^ 2)).
  ring.
Qed.
Definition densityAs (P : prec) (s : pq) (q : qcd) (c : eparms) (n z : nat) (m v : cell -> R * R) (x : cell) : R :=
  let y := siteAt n z m v x in
  kineticDensity c y * (fac P c * eR c ^ 2)
  + (gradientDensity c y (sXp y) (sXm y) + (gradientDensity c y (sYp y) (sYm y) + gradientDensity c y (sZp y) (sZm y))) + potOf s q c (m x).
Lemma total_is : forall P s q c n z m v e, totalEnergy P s q c n z m v e -> (forall x, In x (box n z) -> m x <> (0, 0)) ->
  eShift c = 0 -> 0 < eR c -> 0 < eDelta2 c -> e = mean (densityAs P s q c n z m v) (box n z).
Proof.
  intros P s q c n z m v e [rs [old [E [M [h [Hp [H [Hh ->]]]]]]]] NZ HS HR HD.
  assert (N : nonzero (sites rs)).
  { intros y Hy. apply (Permutation_in _ Hp) in Hy. apply in_map_iff in Hy. destruct Hy as [x [<- Hx]]. exact (NZ x Hx). }
  rewrite (ten_sums P s q c rs old E M h H Hh HS HR HD N). rewrite (mean_perm _ _ _ _ Hp), mean_map. reflexivity.
Qed.
Lemma total_exists : forall P s q c n z m v, (forall x, In x (box n z) -> m x <> (0, 0)) ->
  eShift c = 0 -> 0 < eR c -> 0 < eDelta2 c -> totalEnergy P s q c n z m v (mean (densityAs P s q c n z m v) (box n z)).
Proof.
  intros P s q c n z m v NZ HS HR HD. set (rs := [Rank [map (siteAt n z m v) (box n z)] [] (fun _ => 0)]).
  assert (SI : sites rs = map (siteAt n z m v) (box n z)) by (unfold sites, rs, rSites; cbn [map concat rThreads]; rewrite !app_nil_r; reflexivity).
  destruct (energy P false false s q c 1 (length (sites rs)) rs []) as [|E M] eqn:R; [discriminate|].
  assert (N : nonzero (sites rs)).
  { intros y Hy. rewrite SI in Hy. apply in_map_iff in Hy. destruct Hy as [x [<- Hx]]. exact (NZ x Hx). }
  assert (K : forall i, (i < 10)%nat -> exists y, E i = Some y).
  { pose proof (fun i f Hi Hf => reply_total P false false s q c 1 (length (sites rs)) rs [] E M R (or_introl eq_refl) i f Hi Hf) as A.
    pose proof (fun x Hx => quantity_grads (fst (dispatch s q)) (snd (dispatch s q)) c x (N x Hx)) as Q.
    intros i Hi. assert (X : exists f, forall x, In x (sites rs) -> quantity (fst (dispatch s q)) (snd (dispatch s q)) c i x = Some (f x)).
    { do 10 (destruct i as [|i]; [eexists; intros x Hx; first [apply (Q x Hx) | unfold quantity, grads; reflexivity | unfold quantity, grads; apply axOf_some; [exact HS | apply N, Hx]]|]). lia. }
    destruct X as [f Hf]. eexists. apply (A i f (or_introl Hi) Hf). }
  exists rs, [], E, M, (fun i => match E i with Some y => y | None => 0 end).
  split; [rewrite SI; reflexivity|]. split; [exact R|].
  assert (Hh : forall i, (i < 10)%nat -> E i = Some (match E i with Some y => y | None => 0 end)) by (intros i Hi; destruct (K i Hi) as [y ->]; reflexivity).
  split; [exact Hh|]. rewrite (ten_sums P s q c rs [] E M _ R Hh HS HR HD N), SI, mean_map. reflexivity.
Qed.

(** ** Its rate of change *)
Lemma dl_sq_pair : forall (g : R -> R * R) t v, tangent g t v -> derivable_pt_lim (fun u => dot (g u) (g u)) t (2 * dot (g t) v).
Proof. intros g t v T. exact (dl_n2 g t v T). Qed.
Lemma tangent_minus : forall g h t a b, tangent g t a -> tangent h t b -> tangent (fun u => minus (g u) (h u)) t (minus a b).
Proof.
  intros g h t a b [A1 A2] [B1 B2]. unfold tangent, minus. cbn [fst snd]. split.
  - apply (dl_minus (fun u => fst (g u)) (fun u => fst (h u))); assumption.
  - apply (dl_minus (fun u => snd (g u)) (fun u => snd (h u))); assumption.
Qed.
Lemma dl_gradient : forall c (p g n : R -> R * R) t vp v vn k, eR c <> 0 -> eDelta2 c <> 0 -> tangent p t vp -> tangent g t v -> tangent n t vn ->
  derivable_pt_lim (fun u => gradientDensity c (Site (g u) (k u) (p u) (p u) (p u) (p u) (p u) (p u) false) (p u) (n u)) t
    ((dot (minus (p t) (g t)) (minus vp v) + dot (minus (g t) (n t)) (minus v vn)) * (/ (2 * eDelta2 c * eR c ^ 4))).
Proof.
  intros c p g n t vp v vn k HR HD P G N.
  apply dl_ext with (f := fun u => (dot (minus (p u) (g u)) (minus (p u) (g u)) + dot (minus (g u) (n u)) (minus (g u) (n u))) * (/ (4 * eDelta2 c * eR c ^ 4))).
  - intros u. unfold gradientDensity, phi, abs2, minus, dot. cbn [sM fst snd]. field. split; [exact HR | exact HD].
  - eapply dl_eq.
    + apply (dl_scal (fun u => dot (minus (p u) (g u)) (minus (p u) (g u)) + dot (minus (g u) (n u)) (minus (g u) (n u)))).
      apply (dl_plus (fun u => dot (minus (p u) (g u)) (minus (p u) (g u))) (fun u => dot (minus (g u) (n u)) (minus (g u) (n u)))).
      * apply (dl_sq_pair (fun u => minus (p u) (g u))). apply tangent_minus; eassumption.
      * apply (dl_sq_pair (fun u => minus (g u) (n u))). apply tangent_minus; eassumption.
    + cbv beta. field. split; [exact HR | exact HD].
Qed.
Lemma gradientDensity_site : forall c x y p n, sM x = sM y -> gradientDensity c x p n = gradientDensity c y p n.
Proof. intros c x y p n H. unfold gradientDensity. rewrite H. reflexivity. Qed.
Lemma boxLap_1 : forall n z d2 m x, boxLap 1 n z d2 m x =
  let ax p b := minus (minus (m (stepTo n z 1 p x)) (m x)) (minus (m x) (m (stepTo n z 1 b x))) in
  times (/ d2) (plus (ax Xp Xm) (plus (ax Yp Ym) (ax Zp Zm))).
Proof.
  intros n z d2 m x. unfold boxLap, lap, setCO, shell, times, plus, minus. cbn [seq fold_left nth Nat.sub fst snd]. f_equal; ring.
Qed.
Definition forceOf (k : kern) (P : prec) (s : pq) (q : qcd) (f : parms) (m : R * R) : R * R :=
  qcdPair k P (plain s q) f m (times (- pqCoef s f (sq m)) m).
Lemma energy_rate : forall k P I NN n z s q f c m v t T, (0 < n)%nat -> (0 < z)%nat -> sameWorld f c -> pRpp f = 0 -> eRprime c = 0 -> 0 < eDelta2 c -> pDzc f <> 0 ->
  (forall u x, In x (box n z) -> m u x <> (0, 0)) -> goodCos P (plain s q) -> obeys k P I NN n z s q f (eDelta2 c) m v t ->
  (forall u, totalEnergy P s q c n z (m u) (v u) (T u)) ->
  (forall x, In x (box n z) -> derivable_pt_lim (fun u => potOf s q c (m u x)) t (- (dot (forceOf k P s q f (m t x)) (v t x) / pR f ^ 4))) ->
  derivable_pt_lim T t (mean (fun x => (fac P c * eR c ^ 2 * dot (v t x) (plus (boxLap NN n z (eDelta2 c) (m t) x) (forceOf k P s q f (m t x)))
      - dot (v t x) (boxLap 1 n z (eDelta2 c) (m t) x) - dot (forceOf k P s q f (m t x)) (v t x)) / eR c ^ 4) (box n z)).
Proof.
  intros k P I NN n z s q f c m v t T Hn Hz W Hr Hp HD Hd NZ G O TE PR. pose proof W as [W1 [W2 [W3 [W4 W5]]]]. assert (HR : eR c <> 0) by lra. assert (HD' : eDelta2 c <> 0) by lra.
  apply dl_ext with (f := fun u => mean (densityAs P s q c n z (m u) (v u)) (box n z)).
  { intros u. symmetry. apply (total_is P s q c n z (m u) (v u) (T u) (TE u) (NZ u) W4 W5 HD). }
  set (ax := fun d x => minus (minus (m t (stepTo n z 1 d x)) (m t x)) (minus (m t x) (m t (stepTo n z 1 (back d) x)))).
  set (gr := fun d x => (dot (minus (m t (stepTo n z 1 d x)) (m t x)) (minus (v t (stepTo n z 1 d x)) (v t x))
      + dot (minus (m t x) (m t (stepTo n z 1 (back d) x))) (minus (v t x) (v t (stepTo n z 1 (back d) x)))) * (/ (2 * eDelta2 c * eR c ^ 4))).
  set (kin := fun x => fac P c * eR c ^ 2 * dot (v t x) (plus (boxLap NN n z (eDelta2 c) (m t) x) (forceOf k P s q f (m t x))) / eR c ^ 4).
  set (po := fun x => - (dot (forceOf k P s q f (m t x)) (v t x) / pR f ^ 4)).
  eapply dl_eq.
  - apply (dl_scal (fun u => sumOver (densityAs P s q c n z (m u) (v u)) (box n z))).
    apply (dl_sum _ (fun x u => densityAs P s q c n z (m u) (v u) x) (fun x => kin x + (gr Xp x + (gr Yp x + gr Zp x)) + po x)). intros x Hx.
    destruct (O x Hx) as [Tx [p [mel [lp [vel [w [Hl [Hm [Hv [Hlp [Hw Tv]]]]]]]]]]].
    pose proof (force_pair k P I s q f p mel lp vel w Hl G Hd Hw) as FP. rewrite Hm, Hv, Hlp, Hr in FP.
    assert (AP : applied f (v t x) w = plus (boxLap NN n z (eDelta2 c) (m t) x) (forceOf k P s q f (m t x))).
    { unfold forceOf. rewrite <- FP. destruct (applied f (v t x) w) as [a1 a2], (boxLap NN n z (eDelta2 c) (m t) x) as [b1 b2].
      unfold plus, times; cbn [fst snd]. f_equal; ring. }
    rewrite AP in Tv.
    assert (TS : forall d, tangent (fun u => m u (stepTo n z 1 d x)) t (v t (stepTo n z 1 d x))) by (intros d; apply O, step_in, Hx).
    unfold densityAs. apply (dl_plus (fun u => _ + _) (fun u => potOf s q c (m u x))); [|apply PR, Hx].
    apply (dl_plus (fun u => kineticDensity c (siteAt n z (m u) (v u) x) * (fac P c * eR c ^ 2))).
    + apply dl_ext with (f := fun u => dot (v u x) (v u x) * (fac P c * eR c ^ 2 / (2 * eR c ^ 4))).
      * intros u. unfold kineticDensity, phiDot, abs2, siteAt, dot. cbn [sM sV fst snd]. rewrite Hp. field. exact HR.
      * eapply dl_eq; [apply (dl_scal (fun u => dot (v u x) (v u x))), (dl_sq_pair (fun u => v u x) t _ Tv)|]. unfold kin. field. exact HR.
    + apply (dl_plus (fun u => gradientDensity c _ _ _)); [|apply (dl_plus (fun u => gradientDensity c _ _ _))].
      * eapply dl_ext; [|apply (dl_gradient c _ _ _ t _ _ _ (fun u => (0, 0)) HR HD' (TS Xp) Tx (TS Xm))]. intros u; apply gradientDensity_site; reflexivity.
      * eapply dl_ext; [|apply (dl_gradient c _ _ _ t _ _ _ (fun u => (0, 0)) HR HD' (TS Yp) Tx (TS Ym))]. intros u; apply gradientDensity_site; reflexivity.
      * eapply dl_ext; [|apply (dl_gradient c _ _ _ t _ _ _ (fun u => (0, 0)) HR HD' (TS Zp) Tx (TS Zm))]. intros u; apply gradientDensity_site; reflexivity.
  - unfold mean, Rdiv at 1 2. f_equal. rewrite !sumOver_plus.
    assert (BP : forall d, sumOver (gr d) (box n z) = sumOver (fun x => - (dot (v t x) (ax d x) / (eDelta2 c * eR c ^ 4))) (box n z)).
    { intros d. unfold gr. rewrite sumOver_scale, (by_parts n z d (m t) (v t) Hn Hz), <- sumOver_scale. apply sumOver_ext. intros x _. fold (ax d x). field. split; [exact HR | exact HD']. }
    rewrite !BP, <- !sumOver_plus. apply sumOver_ext. intros x _. unfold kin, po. rewrite boxLap_1, W1. cbv zeta.
    generalize (forceOf k P s q f (m t x)) (boxLap NN n z (eDelta2 c) (m t) x). intros [f1 f2] [l1 l2].
    unfold ax, dot, times, plus, minus; cbn [fst snd back]. field. split; [exact HR | exact HD'].
Qed.
