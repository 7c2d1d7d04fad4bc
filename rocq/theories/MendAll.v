(** Lemmas for the mending claims: the passes put together. *)
From Coq Require Import List Arith ZArith QArith Qabs Qround Lia Lqa Permutation Setoid.
From Verif Require Import Base StrModel StrProofs MendModel MendSpec MendProofs MendVol.
Import ListNotations.
Local Open Scope nat_scope.
Ltac Zify.zify_post_hook ::= idtac.

Lemma paste_in : forall m o n s i, i < n -> paste m o n s (o + i) = s i.
Proof.
  intros m o n s i H. unfold paste. assert ((o <=? o + i) = true) by (apply Nat.leb_le; lia).
  assert ((o + i <? o + n) = true) by (apply Nat.ltb_lt; lia). rewrite H0, H1. cbn [andb]. f_equal. lia.
Qed.
Lemma paste_out : forall m o n s i, i < o \/ o + n <= i -> paste m o n s i = m i.
Proof.
  intros m o n s i H. unfold paste. destruct (Nat.leb_spec o i), (Nat.ltb_spec i (o + n)); cbn [andb]; try reflexivity. lia.
Qed.
Lemma bound_list : forall (A : Type) (l : list A) (k : A -> Z), exists N, forall a, In a l -> (Z.abs (k a) <= Z.of_nat N)%Z.
Proof.
  intros A l k. induction l as [ | b l [N H] ]; [ exists 0; intros a [] | ].
  exists (Nat.max N (Z.abs_nat (k b))). intros a [<- | Ha]; [ lia | ]. specialize (H a Ha). lia.
Qed.

(** ** Rows that are smooth up to whole periods *)
Definition strict (c : Q) (near : Q -> Prop) : Prop := forall d, near d -> (Qabs d <= c)%Q.
Lemma strict_C : forall c, strict c (noJump c).
Proof. intros c d H. exact H. Qed.
Lemma strict_H : forall c, strict c (noJumpHalf c).
Proof. intros c d [A B]. apply Qabs_le. lra. Qed.
Lemma same_lift : forall c a b j k, (0 < c)%Q -> (Qabs (a - b) < c)%Q ->
  (Qabs (a + per c j - (b + per c k)) <= c)%Q -> j = k.
Proof.
  intros c a b j k Hc H1 H2. apply Qabs_Qlt_condition in H1. apply Qabs_le in H2.
  apply Z.le_antisymm; apply (per_lt c); try exact Hc; lra.
Qed.
Lemma row_smooth : forall c q near L f v f' v' count F j, (0 < c)%Q -> 0 < L -> strict c near ->
  rowMended near L c q f v f' v' count -> smoothRow c L F -> (forall y, y < L -> (f y == F y + per c (j y))%Q) ->
  forall y, y < L -> moved c q (f y) (v y) (f' y) (v' y) (j 0%nat - j y)%Z.
Proof.
  intros c q near L f v f' v' count F j Hc HL St (kF & kB & F0 & B0 & NF & NB & _ & _ & W & _) Sm Ef.
  assert (KF : forall y, y < L -> (kF y = j 0%nat - j y)%Z).
  { induction y as [ | y IH ]; intros Hy; [ rewrite F0; lia | ]. specialize (IH ltac:(lia)).
    specialize (NF y ltac:(lia)). apply St in NF. unfold lifted in NF. fold (per c (kF (y + 1))) in NF. fold (per c (kF y)) in NF.
    replace (y + 1) with (S y) in NF by lia. rewrite (Ef (S y)), (Ef y) in NF by lia.
    specialize (Sm y ltac:(lia)). rewrite Nat.mod_small in Sm by lia. replace (y + 1) with (S y) in Sm by lia.
    assert (E : (j (S y) + kF (S y) = j y + kF y)%Z); [ | lia ].
    apply (same_lift c (F (S y)) (F y)); [ exact Hc | exact Sm | ]. rewrite !per_add.
    setoid_replace (F (S y) + (per c (j (S y)) + per c (kF (S y))) - (F y + (per c (j y) + per c (kF y))))%Q with
      (F (S y) + per c (j (S y)) + per c (kF (S y)) - (F y + per c (j y) + per c (kF y)))%Q by ring. exact NF. }
  assert (KB : forall t, t < L -> (kB ((L - t) mod L)%nat = j 0%nat - j ((L - t) mod L)%nat)%Z).
  { induction t as [ | t IH ]; intros Ht; [ rewrite Nat.sub_0_r, Nat.mod_same by lia; rewrite B0; lia | ]. specialize (IH ltac:(lia)).
    rewrite (Nat.mod_small (L - S t)) by lia. set (y := L - S t) in *. assert (Ey : (y + 1) mod L = (L - t) mod L) by (unfold y; f_equal; lia).
    specialize (NB y ltac:(unfold y; lia)). apply St in NB. rewrite Ey in NB. unfold lifted in NB.
    set (y' := (L - t) mod L) in *. assert (Hy' : y' < L) by (apply Nat.mod_upper_bound; lia).
    fold (per c (kB y)) in NB. fold (per c (kB y')) in NB. rewrite (Ef y), (Ef y') in NB by (unfold y; lia).
    specialize (Sm y ltac:(unfold y; lia)). rewrite Ey in Sm.
    assert (E : (j y + kB y = j y' + kB y')%Z); [ | lia ].
    apply (same_lift c (F y) (F y')); [ exact Hc | | ].
    - rewrite Qabs_Qminus. exact Sm.
    - rewrite !per_add. setoid_replace (F y + (per c (j y) + per c (kB y)) - (F y' + (per c (j y') + per c (kB y'))))%Q with
      (F y + per c (j y) + per c (kB y) - (F y' + per c (j y') + per c (kB y')))%Q by ring. exact NB. }
  intros y Hy. destruct (W y Hy) as [W1 _].
  assert (EB : (kB y = j 0%nat - j y)%Z).
  { specialize (KB ((L - y) mod L) ltac:(apply Nat.mod_upper_bound; lia)).
    assert (Ey : (L - (L - y) mod L) mod L = y).
    { destruct (Nat.eq_dec y 0) as [-> | D]; [ rewrite !Nat.sub_0_r, Nat.mod_same by lia; rewrite Nat.sub_0_r; apply Nat.mod_same; lia | ].
      rewrite (Nat.mod_small (L - y)) by lia. rewrite Nat.mod_small; lia. }
    rewrite Ey in KB. exact KB. }
  rewrite <- (KF y Hy). apply W1. rewrite (KF y Hy), EB. reflexivity.
Qed.

(** ** The slices of a rank *)
Section slices.
Variables (c q : Q) (L step YC NN Lz : nat).
Hypotheses (Hc : (0 < c)%Q) (Hs : 0 < step) (HY : 0 < YC) (Hd : L = step * YC) (HL : 4 <= L).
Notation Sf := (L * L).
Notation yp := (ypos L step YC).
Variables (m v : nat -> Q).
Lemma yp_in : forall y, y < L -> yp y < Sf.
Proof.
  intros y Hy. unfold ypos. pose proof (lane_lt L step YC Hs HY Hd HL y Hy) as A. pose proof (Nat.mod_upper_bound y YC ltac:(lia)) as B.
  assert (E : Sf = YC * (L * step)) by (rewrite Hd at 1; lia). rewrite E.
  assert ((y mod YC + 1) * (L * step) <= YC * (L * step)) by (apply Nat.mul_le_mono_r; lia).
  assert (step <= L * step) by nia. lia.
Qed.
Definition fuelS (fuel z : nat) : Prop := forall t, t <= L ->
  (Z.abs (kFw c (kzC c) L (fun y => m ((z + NN) * Sf + yp y)) t) <= Z.of_nat fuel /\
   Z.abs (kseq c (kzC c) (bwd L (fun y => m ((z + NN) * Sf + yp y))) t) <= Z.of_nat fuel)%Z.
Definition goodS (done : list nat) (st : (nat -> Q) * (nat -> Q) * nat) : Prop :=
  let '(m', v', n) := st in exists cnt : nat -> nat, n = list_sum (map cnt done) /\
  (forall zS, In zS done -> rowMended (noJump c) L c q (fun y => m (zS * Sf + yp y)) (fun y => v ((zS - NN) * Sf + yp y))
     (fun y => m' (zS * Sf + yp y)) (fun y => v' ((zS - NN) * Sf + yp y)) (cnt zS)) /\
  (forall p, (forall zS y, In zS done -> y < L -> p <> zS * Sf + yp y) -> m' p = m p) /\
  (forall p, (forall zS y, In zS done -> y < L -> p <> (zS - NN) * Sf + yp y) -> v' p = v p).
Lemma apart : forall a b i j, a <> b -> i < Sf -> j < Sf -> a * Sf + i <> b * Sf + j.
Proof. intros a b i j D Hi Hj E. destruct (Nat.div_mod_unique Sf a b i j); lia. Qed.
Lemma slices_fold : forall fuel bs l done st, NoDup (l ++ done) -> (forall zS, In zS (l ++ done) -> NN <= zS < Lz + NN) ->
  (forall z, z < Lz -> fuelS fuel z) -> goodS done st ->
  exists st', foldM (fun st zSl => let '(m, v, n) := st in
    bind (mendSlice fuel c q L step (bs zSl) (fun p => m (zSl * Sf + p)) (fun p => v ((zSl - NN) * Sf + p)))
         (fun r => let '(ms, vs, k) := r in Some (paste m (zSl * Sf) Sf ms, paste v ((zSl - NN) * Sf) Sf vs, n + k))) l st = Some st' /\
    goodS (rev l ++ done) st'.
Proof.
  intros fuel bs. induction l as [ | zS l IH ]; intros done ((m1 & v1) & n) Hn Hr Hf G.
  - exists (m1, v1, n). split; [ reflexivity | exact G ].
  - rewrite foldM_cons. cbn [app] in Hn. apply NoDup_cons_iff in Hn. destruct Hn as [N1 N2].
    destruct G as (cnt & En & G1 & G2 & G3).
    assert (HzS : NN <= zS < Lz + NN) by (apply Hr; now left).
    assert (ND : forall z', In z' done -> z' <> zS /\ NN <= z' < Lz + NN).
    { intros z' H'. split; [ intros ->; apply N1; apply in_or_app; now right | apply Hr; right; apply in_or_app; now right ]. }
    assert (OM : forall p, p < Sf -> m1 (zS * Sf + p) = m (zS * Sf + p)).
    { intros p Hp. apply G2. intros z' y H' Hy. apply apart; [ | exact Hp | now apply yp_in ]. destruct (ND z' H'). congruence. }
    assert (OV : forall p, p < Sf -> v1 ((zS - NN) * Sf + p) = v ((zS - NN) * Sf + p)).
    { intros p Hp. apply G3. intros z' y H' Hy. apply apart; [ | exact Hp | now apply yp_in ]. destruct (ND z' H'). lia. }
    assert (SE : forall g h, (forall t, g t = h t) -> forall t, kseq c (kzC c) g t = kseq c (kzC c) h t).
    { intros g h E. induction t as [ | t IHt ]; [ reflexivity | ]. cbn [kseq]. rewrite !E, IHt. reflexivity. }
    destruct (mendSlice_ok c q L step YC Hc Hs HY Hd HL (fun p => m1 (zS * Sf + p)) (fun p => v1 ((zS - NN) * Sf + p)) fuel (bs zS)) as (ms & vs & k & E & R & F).
    { intros t Ht. pose proof (Hf (zS - NN) ltac:(lia) t Ht) as X. replace (zS - NN + NN) with zS in X by lia. unfold kFw in *.
      rewrite (SE (fun t => m1 (zS * Sf + yp (t mod L))) (fun t => m (zS * Sf + yp (t mod L))))
        by (intros t0; apply OM, yp_in, Nat.mod_upper_bound; lia).
      rewrite (SE (bwd L (fun y => m1 (zS * Sf + yp y))) (bwd L (fun y => m (zS * Sf + yp y))))
        by (intros t0; apply OM, yp_in, Nat.mod_upper_bound; lia). exact X. }
    rewrite E. cbn [bind].
    destruct (IH (zS :: done) (paste m1 (zS * Sf) Sf ms, paste v1 ((zS - NN) * Sf) Sf vs, n + k)) as (st' & E' & G').
    + apply NoDup_Add with (a := zS) (l := l ++ done); [ apply Add_app | ]. now split.
    + intros z' Hin. apply Hr. apply in_app_or in Hin. destruct Hin as [A | [<- | A]]; [ right; apply in_or_app; now left | now left | right; apply in_or_app; now right ].
    + exact Hf.
    + exists (fun z' => if z' =? zS then k else cnt z'). split; [ | split; [ | split ] ].
      * rewrite En. cbn [map]. rewrite Nat.eqb_refl. change (list_sum (?a :: ?l)) with (a + list_sum l).
        rewrite (map_ext_in (fun z' => if z' =? zS then k else cnt z') cnt); [ lia | ].
        intros z' Hz'. destruct (Nat.eqb_spec z' zS) as [C | C]; [ destruct (ND z' Hz'); contradiction | reflexivity ].
      * intros z' [<- | Hin].
        -- rewrite Nat.eqb_refl. revert R. apply rowMended_ext; [ lia | | | | ]; intros y Hy.
           ++ apply OM. now apply yp_in.
           ++ apply OV. now apply yp_in.
           ++ symmetry. apply paste_in. now apply yp_in.
           ++ symmetry. apply paste_in. now apply yp_in.
        -- destruct (ND z' Hin) as [D1 D2]. apply Nat.eqb_neq in D1. rewrite D1. apply Nat.eqb_neq in D1. generalize (G1 z' Hin).
           assert (O : forall a b y, y < L -> a <> b -> a * Sf + yp y < b * Sf \/ b * Sf + Sf <= a * Sf + yp y).
           { intros a b y Hy D. pose proof (yp_in y Hy). destruct (Nat.lt_ge_cases a b) as [A | A].
             - left. assert ((a + 1) * Sf <= b * Sf) by (apply Nat.mul_le_mono_r; lia). lia.
             - right. assert ((b + 1) * Sf <= a * Sf) by (apply Nat.mul_le_mono_r; lia). lia. }
           apply rowMended_ext; [ lia | reflexivity | reflexivity | | ]; intros y Hy; symmetry; apply paste_out; apply O; lia || exact Hy.
      * intros p Hp. unfold paste. destruct (Nat.leb_spec (zS * Sf) p), (Nat.ltb_spec p (zS * Sf + Sf)); cbn [andb].
        -- destruct (F (p - zS * Sf)) as [F1 _].
           ++ intros y Hy C. apply (Hp zS y (or_introl eq_refl) Hy). lia.
           ++ rewrite F1. replace (zS * Sf + (p - zS * Sf)) with p by lia. apply G2. intros z' y Hin. apply Hp. now right.
        -- apply G2. intros z' y Hin. apply Hp. now right.
        -- apply G2. intros z' y Hin. apply Hp. now right.
        -- apply G2. intros z' y Hin. apply Hp. now right.
      * intros p Hp. unfold paste. destruct (Nat.leb_spec ((zS - NN) * Sf) p), (Nat.ltb_spec p ((zS - NN) * Sf + Sf)); cbn [andb].
        -- destruct (F (p - (zS - NN) * Sf)) as [_ F1].
           ++ intros y Hy C. apply (Hp zS y (or_introl eq_refl) Hy). lia.
           ++ rewrite F1. replace ((zS - NN) * Sf + (p - (zS - NN) * Sf)) with p by lia. apply G3. intros z' y Hin. apply Hp. now right.
        -- apply G3. intros z' y Hin. apply Hp. now right.
        -- apply G3. intros z' y Hin. apply Hp. now right.
        -- apply G3. intros z' y Hin. apply Hp. now right.
    + exists st'. split; [ exact E' | ]. cbn [rev]. rewrite <- app_assoc. exact G'.
Qed.
End slices.

(** ** A larger bound on the rounds does not change a result *)
Lemma bind_mono : forall (A B : Type) (o o' : option A) (f f' : A -> option B) r,
  (forall a, o = Some a -> o' = Some a) -> (forall a b, f a = Some b -> f' a = Some b) -> bind o f = Some r -> bind o' f' = Some r.
Proof. intros A B o o' f f' r Ho Hf E. destruct o as [a | ]; [ | discriminate ]. rewrite (Ho a eq_refl). cbn [bind] in *. now apply Hf. Qed.
Lemma foldM_mono : forall (S A : Type) (f g : S -> A -> option S) l s r,
  (forall s a r, f s a = Some r -> g s a = Some r) -> foldM f l s = Some r -> foldM g l s = Some r.
Proof.
  intros S A f g l. induction l as [ | a l IH ]; intros s r H E; [ exact E | ]. rewrite foldM_cons in *.
  revert E. apply bind_mono; [ intros b; apply H | ]. intros b r' E. now apply IH.
Qed.
Section mono.
Variables (F F' : nat).
Hypothesis HF : F <= F'.
Lemma mendPoint_mono : forall c q ref m v n r, mendPoint F c q ref m v n = Some r -> mendPoint F' c q ref m v n = Some r.
Proof.
  intros c q. revert F' HF. induction F as [ | f IH ]; intros f' Hf ref m v n r E.
  - cbn [mendPoint] in E. destruct (Qltb c (Qabs (m - ref))) eqn:X; [ discriminate | ]. destruct f'; cbn [mendPoint]; rewrite X; exact E.
  - destruct f' as [ | f' ]; [ lia | ]. cbn [mendPoint] in *. destruct (Qltb c (Qabs (m - ref))); [ | exact E ].
    destruct (Qltb c (m - ref)); apply IH; (lia || exact E).
Qed.
Lemma vecLoop_mono : forall c q step ref m v n r, vecLoop F c q step ref m v n = Some r -> vecLoop F' c q step ref m v n = Some r.
Proof.
  intros c q step. revert F' HF. induction F as [ | f IH ]; intros f' Hf ref m v n r E.
  - cbn [vecLoop] in E. destruct (existsb (orM (maskP c ref m) (maskM c ref m)) (seq 0 step)) eqn:X; [ discriminate | ].
    destruct f'; cbn [vecLoop]; rewrite X; exact E.
  - destruct f' as [ | f' ]; [ lia | ]. cbn [vecLoop] in *. destruct (existsb _ (seq 0 step)); [ | exact E ].
    apply IH; (lia || exact E).
Qed.
Lemma mendLine_mono : forall c q P Lz Sf NN ms vs r, mendLine F c q P Lz Sf NN ms vs = Some r -> mendLine F' c q P Lz Sf NN ms vs = Some r.
Proof.
  intros c q P Lz Sf NN ms vs r. unfold mendLine. apply foldM_mono. clear r. intros st a r. unfold lineStep.
  destruct (st a) as ((m & v) & n). apply bind_mono; [ | auto ]. intros d. unfold lineRank. apply foldM_mono. clear -HF.
  intros ((m & v) & n) i r. unfold lineSite. apply bind_mono; [ | auto ]. intros b. now apply mendPoint_mono.
Qed.
Lemma mendSlice_mono : forall c q L step b m v r, mendSlice F c q L step b m v = Some r -> mendSlice F' c q L step b m v = Some r.
Proof.
  intros c q L step b m v r. unfold mendSlice. apply bind_mono; [ | auto ]. intros d. apply foldM_mono.
  intros ((b1 & cF) & cB) (x & y) r'. unfold sliceScan. apply bind_mono; [ intros ((a1 & a2) & a3); now apply mendPoint_mono | ].
  intros ((a1 & a2) & a3) r2. apply bind_mono; [ intros e; now apply mendPoint_mono | auto ].
Qed.
Lemma mendSlices_mono : forall c q L step NN bs order m v r,
  mendSlices F c q L step NN bs order m v = Some r -> mendSlices F' c q L step NN bs order m v = Some r.
Proof.
  intros c q L step NN bs order m v r. unfold mendSlices. apply foldM_mono. intros ((m1 & v1) & n) z r'.
  apply bind_mono; [ intros a; now apply mendSlice_mono | auto ].
Qed.
Lemma mendVolume_mono : forall c q L Lz step bs order m v sd r,
  mendVolume Masks F c q L Lz step bs order m v sd = Some r -> mendVolume Masks F' c q L Lz step bs order m v sd = Some r.
Proof.
  intros c q L Lz step bs order m v sd r. unfold mendVolume. apply foldM_mono. intros st (z & y) r'. unfold volLine.
  apply bind_mono; [ | auto ]. intros d. apply foldM_mono. intros ((b1 & sd1) & ch) x r2. unfold volScan.
  apply bind_mono; [ intros a; now apply vecLoop_mono | ].
  intros ((a1 & a2) & a3) r3. apply bind_mono; [ intros e; now apply vecLoop_mono | auto ].
Qed.
End mono.

Lemma sum_perm : forall l l', Permutation l l' -> list_sum l = list_sum l'.
Proof. intros l l' H. induction H; cbn [list_sum fold_right] in *; try change (fold_right Nat.add 0) with list_sum in *; lia. Qed.
