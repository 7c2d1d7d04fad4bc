(** Lemmas for the mending claims: the volume. *)
From Coq Require Import List Arith ZArith QArith Qabs Qround Lia Lqa Permutation Setoid.
From Verif Require Import Base StrModel StrProofs MendModel MendSpec MendProofs.
Import ListNotations.
Local Open Scope nat_scope.
Ltac Zify.zify_post_hook ::= idtac.

Lemma storeV_in : forall step m p x k, k < step -> storeV step m p x (p + k) = x k.
Proof.
  intros step m p x k Hk. unfold storeV. assert ((p <=? p + k) = true) by (apply Nat.leb_le; lia).
  assert ((p + k <? p + step) = true) by (apply Nat.ltb_lt; lia). rewrite H, H0. cbn [andb]. f_equal. lia.
Qed.
Lemma storeV_out : forall step m p x i, i < p \/ p + step <= i -> storeV step m p x i = m i.
Proof.
  intros step m p x i H. unfold storeV. destruct (Nat.leb_spec p i), (Nat.ltb_spec i (p + step)); cbn [andb]; try reflexivity. lia.
Qed.
(** sums over 0 .. n-1 *)
Definition sumN (n : nat) (g : nat -> nat) : nat := list_sum (map g (seq 0 n)).
Lemma sumN_S : forall n g, sumN (S n) g = sumN n g + g n.
Proof. intros. unfold sumN. rewrite seq_S, map_app, list_sum_app. cbn. lia. Qed.
Lemma sumN_ext : forall n g h, (forall i, i < n -> g i = h i) -> sumN n g = sumN n h.
Proof. intros n g h H. unfold sumN. f_equal. apply map_ext_in. intros i Hi. apply in_seq in Hi. apply H. lia. Qed.
Lemma sumN_add : forall n g h, sumN n (fun i => g i + h i) = sumN n g + sumN n h.
Proof. intros n g h. induction n as [ | n IH ]; [ reflexivity | ]. rewrite !sumN_S, IH. lia. Qed.
Lemma sumN_0 : forall n, sumN n (fun _ => 0) = 0.
Proof. induction n as [ | n IH ]; [ reflexivity | ]. rewrite sumN_S, IH. reflexivity. Qed.
Lemma sumN_swap : forall n k g, sumN n (fun i => sumN k (fun j => g i j)) = sumN k (fun j => sumN n (fun i => g i j)).
Proof.
  intros n k g. induction n as [ | n IH ].
  - cbn. symmetry. apply sumN_0.
  - rewrite sumN_S, IH. rewrite <- sumN_add. apply sumN_ext. intros j _. now rewrite sumN_S.
Qed.
Lemma sumN_block : forall n k g, sumN (k * n) g = sumN k (fun j => sumN n (fun i => g (i + j * n))).
Proof.
  intros n k g. induction k as [ | k IH ]; [ reflexivity | ]. rewrite sumN_S, <- IH. replace (S k * n) with (k * n + n) by lia.
  generalize (k * n). intros a. clear. induction n as [ | n IH ]; [ rewrite Nat.add_0_r; cbn; lia | ].
  replace (a + S n) with (S (a + n)) by lia. rewrite !sumN_S, IH. replace (n + a) with (a + n) by lia. lia.
Qed.
Lemma filter_len_sum : forall n p, length (filter p (seq 0 n)) = sumN n (fun i => if p i then 1 else 0).
Proof.
  intros n p. induction n as [ | n IH ]; [ reflexivity | ]. rewrite seq_S, filter_app, app_length, IH, sumN_S. cbn [filter plus].
  destruct (p n); reflexivity.
Qed.
(** the masked store of one vector *)
Lemma laneFold : forall (w : nat -> bool) (x : nat -> Q) (base step : nat) (m : nat -> Q) (p : nat),
  fold_left (fun m k => if w k then upd m (base + k) (x k) else m) (seq 0 step) m p =
    if (base <=? p) && (p <? base + step) && w (p - base) then x (p - base) else m p.
Proof.
  intros w x base step m p. induction step as [ | n IH ].
  - cbn [seq fold_left]. destruct (Nat.leb_spec base p), (Nat.ltb_spec p (base + 0)); cbn [andb]; try reflexivity; lia.
  - rewrite seq_S, fold_left_app. cbn [fold_left plus].
    destruct (Nat.eq_dec p (base + n)) as [-> | D].
    + assert ((base <=? base + n) = true) by (apply Nat.leb_le; lia).
      assert ((base + n <? base + S n) = true) by (apply Nat.ltb_lt; lia). rewrite H, H0. cbn [andb].
      replace (base + n - base) with n by lia. destruct (w n) eqn:W; [ apply upd_same | ]. rewrite IH.
      assert ((base + n <? base + n) = false) by (apply Nat.ltb_ge; lia). rewrite H1, Bool.andb_false_r. reflexivity.
    + assert (E : (p <? base + S n) = (p <? base + n)).
      { apply Bool.eq_iff_eq_true. rewrite !Nat.ltb_lt. lia. }
      rewrite E, <- IH. destruct (w n); [ now apply upd_other | reflexivity ].
Qed.

Section line.
Variables (c q : Q) (L step YC : nat).
Hypotheses (Hc : (0 < c)%Q) (Hs : 0 < step) (HY : 0 < YC) (Hd : L = step * YC).
Notation XC := (L * step).
Lemma YCeq : L / step = YC.
Proof. rewrite Hd, Nat.mul_comm. now apply Nat.div_mul; lia. Qed.
Lemma HLpos : 0 < L.
Proof. rewrite Hd. nia. Qed.
Variables (base sbase : nat) (m v : nat -> Q) (sd0 : nat -> bool).
Definition site (x k : nat) : nat := base + x * step + k.
Definition fsite (x k : nat) : nat := x + sbase + k * (YC * L).
Hypothesis Hsd : forall x k, x < L -> k < step -> sd0 (fsite x k) = false.
Notation f k := (fun x => m (site x k)).
Notation kF k := (kFw c (kzH c) L (f k)).
Notation kB k := (kBw c (kzH c) L (f k)).
Notation kb k := (kseq c (kzH c) (bwd L (f k))).
Lemma fsite_inj : forall x k x' k', x < L -> x' < L -> fsite x k = fsite x' k' -> x = x' /\ k = k'.
Proof.
  intros x k x' k' H H' E. unfold fsite in E.
  assert (B : L <= YC * L) by nia. destruct (Nat.div_mod_unique (YC * L) k k' x x') as [? ?]; [ lia | lia | lia | ]. auto.
Qed.
Definition jumpF (n x k : nat) : bool := (0 <? x) && (x <=? n) && negb (kF k x =? 0)%Z.
Definition jumpB (n x k : nat) : bool := (0 <? x) && (L <=? x + n) && negb (kb k (L - x) =? 0)%Z.
Definition vscanInv (n : nat) (st : (nat -> Q) * (nat -> bool) * bool) : Prop :=
  let '(b, sd, cha) := st in
  (forall x k, x <= n -> x < L -> k < step -> (b (x * step + k)%nat == m (site x k) + per c (kF k x))%Q /\
     (0 < x -> (b (x * step + k + XC)%nat == v (site x k) + inject_Z (kF k x) * q)%Q)) /\
  (forall t k, t <= n -> t < L -> k < step -> (b (2 * XC + ((L - t) mod L) * step + k)%nat == bwd L (f k) t + per c (kb k t))%Q) /\
  (forall x k, x < L -> k < step -> sd (fsite x k) = jumpF n x k || jumpB n x k) /\
  (forall i, (forall x k, x < L -> k < step -> i <> fsite x k) -> sd i = sd0 i) /\
  (cha = false -> forall x k, x < L -> k < step -> jumpF n x k || jumpB n x k = false).

Lemma setFlags_at : forall sd p mask x k, p < L -> x < L -> k < step ->
  setFlags step (YC * L) sd (p + sbase) mask (fsite x k) = sd (fsite x k) || ((x =? p) && mask k).
Proof.
  intros sd p mask x k Hp Hx Hk. unfold setFlags. f_equal. apply Bool.eq_iff_eq_true. rewrite existsb_exists. split.
  - intros (j & Hj & E). rewrite Bool.andb_true_iff in E. destruct E as [E1 E2]. apply Nat.eqb_eq in E2.
    change (fsite x k = fsite p j) in E2. apply fsite_inj in E2; [ | exact Hx | exact Hp ]. destruct E2 as [-> ->].
    rewrite Nat.eqb_refl. exact E1.
  - rewrite Bool.andb_true_iff. intros [E1 E2]. apply Nat.eqb_eq in E1. subst x. exists k. split; [ apply in_seq; lia | ].
    rewrite E2. cbn [andb]. apply Nat.eqb_refl.
Qed.
Lemma setFlags_off : forall sd p mask i, p < L -> (forall x k, x < L -> k < step -> i <> fsite x k) ->
  setFlags step (YC * L) sd (p + sbase) mask i = sd i.
Proof.
  intros sd p mask i Hp Hi. unfold setFlags.
  assert (E : existsb (fun k => mask k && (i =? p + sbase + k * (YC * L))) (seq 0 step) = false).
  { apply Bool.not_true_iff_false. rewrite existsb_exists. intros (k & Hk & E). apply in_seq in Hk.
    rewrite Bool.andb_true_iff, Nat.eqb_eq in E. apply (Hi p k Hp ltac:(lia)). tauto. }
  rewrite E. apply Bool.orb_false_r.
Qed.

Lemma vscan_step : forall fuel n st, n + 1 < L ->
  (forall t k, t < L -> k < step -> (Z.abs (kF k t) <= Z.of_nat fuel /\ Z.abs (kb k t) <= Z.of_nat fuel)%Z) ->
  vscanInv n st -> exists st', volScan Masks fuel c q L step base sbase m v st n = Some st' /\ vscanInv (n + 1) st'.
Proof.
  intros fuel n ((b & sd) & cha) Hn Hf (I1 & I2 & I3 & I4 & I5). unfold volScan. rewrite YCeq. cbn [mendVec].
  set (iB := if n =? 0 then 3 * XC - n * step - step + step - XC else 3 * XC - n * step - step + step).
  assert (HnX : n * step + 2 * step <= XC).
  { revert Hn. clear. intros Hn. replace (n * step + 2 * step) with ((n + 2) * step) by lia. apply Nat.mul_le_mono_r. lia. }
  assert (EiB : iB = 2 * XC + ((L - n) mod L) * step).
  { unfold iB. destruct (Nat.eqb_spec n 0) as [-> | D].
    - rewrite (Nat.sub_0_r L), Nat.mod_same by lia. revert HnX. generalize XC. clear. intros. lia.
    - rewrite Nat.mod_small by lia. rewrite Nat.mul_sub_distr_r. revert HnX. generalize XC. clear. intros. lia. }
  set (mel := loadV b (n * step)). set (mP := loadV m (base + n * step + step)). set (vP := loadV v (base + n * step + step)).
  set (melB := loadV b iB). set (mB := loadV m (base + XC - n * step - step)). set (vB := loadV v (base + XC - n * step - step)).
  assert (EmP : forall k, mP k = m (site (n + 1) k)) by (intros k; unfold mP, loadV, site; f_equal; lia).
  assert (EvP : forall k, vP k = v (site (n + 1) k)) by (intros k; unfold vP, loadV, site; f_equal; lia).
  assert (EmB : forall k, mB k = bwd L (f k) (n + 1)).
  { intros k. unfold mB, loadV, bwd. rewrite Nat.mod_small by lia. unfold site. f_equal. rewrite Nat.mul_sub_distr_r.
    revert HnX. generalize XC. clear. intros. lia. }
  assert (KF : forall k, k < step -> kzH c (mP k - mel k) = kF k (n + 1)).
  { intros k Hk. rewrite EmP. rewrite Nat.add_1_r. unfold kFw. cbn [kseq]. apply kzH_comp; [ exact Hc | ].
    unfold mel, loadV. destruct (I1 n k ltac:(lia) ltac:(lia) Hk) as [J _]. rewrite J.
    rewrite (Nat.mod_small (S n)), (Nat.mod_small n) by lia. reflexivity. }
  assert (KB : forall k, k < step -> kzH c (mB k - melB k) = kb k (n + 1)).
  { intros k Hk. rewrite EmB. rewrite Nat.add_1_r. cbn [kseq]. apply kzH_comp; [ exact Hc | ].
    unfold melB, loadV. rewrite EiB. rewrite (I2 n k) by lia. reflexivity. }
  destruct (vecLoop_ok c q step Hc fuel mel mP vP 0) as (a & av & an & R & M).
  { intros k Hk. rewrite KF by exact Hk. apply Hf; lia. }
  rewrite R. cbn [bind]. clear R.
  destruct (vecLoop_ok c q step Hc fuel melB mB vB 0) as (g & gv & gn & R & N).
  { intros k Hk. rewrite KB by exact Hk. apply Hf; lia. }
  rewrite R. cbn [bind]. clear R. eexists; split; [ reflexivity | ].
  assert (MF : forall k, k < step -> orM (maskP c mel mP) (maskM c mel mP) k = negb (kF k (n + 1) =? 0)%Z).
  { intros k Hk. rewrite mask_kz by exact Hc. now rewrite KF by exact Hk. }
  assert (MB : forall k, k < step -> orM (maskP c melB mB) (maskM c melB mB) k = negb (kb k (n + 1) =? 0)%Z).
  { intros k Hk. rewrite mask_kz by exact Hc. now rewrite KB by exact Hk. }
  set (maskF := orM (maskP c mel mP) (maskM c mel mP)) in *. set (maskB := orM (maskP c melB mB) (maskM c melB mB)) in *.
  replace (n + 1 + sbase) with ((n + 1) + sbase) by lia.
  replace (L + sbase - n - 1) with ((L - (n + 1)) + sbase) by lia.
  assert (JF : forall x k, k < step -> jumpF (n + 1) x k = jumpF n x k || ((x =? n + 1) && maskF k)).
  { intros x k Hk. rewrite MF by exact Hk. unfold jumpF. destruct (Nat.eqb_spec x (n + 1)) as [-> | D].
    - assert ((0 <? n + 1) = true) by (apply Nat.ltb_lt; lia). assert ((n + 1 <=? n + 1) = true) by (apply Nat.leb_le; lia).
      assert ((n + 1 <=? n) = false) by (apply Nat.leb_gt; lia). rewrite H, H0, H1. reflexivity.
    - cbn [andb]. rewrite Bool.orb_false_r. f_equal. f_equal. apply Bool.eq_iff_eq_true. rewrite !Nat.leb_le. lia. }
  assert (JB : forall x k, x < L -> k < step -> jumpB (n + 1) x k = jumpB n x k || ((x =? L - (n + 1)) && maskB k)).
  { intros x k Hx Hk. rewrite MB by exact Hk. unfold jumpB. destruct (Nat.eqb_spec x (L - (n + 1))) as [-> | D].
    - assert ((0 <? L - (n + 1)) = true) by (apply Nat.ltb_lt; lia). assert ((L <=? L - (n + 1) + (n + 1)) = true) by (apply Nat.leb_le; lia).
      assert ((L <=? L - (n + 1) + n) = false) by (apply Nat.leb_gt; lia). rewrite H, H0, H1.
      replace (L - (L - (n + 1))) with (n + 1) by lia. reflexivity.
    - cbn [andb]. rewrite Bool.orb_false_r. f_equal. f_equal. apply Bool.eq_iff_eq_true. rewrite !Nat.leb_le. lia. }
  assert (XX : forall x k, x < L -> k < step -> x * step + k < XC).
  { intros x k Hx Hk. assert (x * step + step <= XC); [ | lia ]. replace (x * step + step) with ((x + 1) * step) by lia. apply Nat.mul_le_mono_r. lia. }
  assert (XO : forall x k, k < step -> x <> n + 1 -> x * step + k < n * step + step \/ n * step + step + step <= x * step + k).
  { intros x k Hk D. destruct (Nat.lt_ge_cases x (n + 1)) as [A | A].
    - left. assert (x * step <= n * step) by (apply Nat.mul_le_mono_r; lia). lia.
    - right. assert ((n + 2) * step <= x * step) by (apply Nat.mul_le_mono_r; lia). lia. }
  split; [ | split; [ | split; [ | split ] ] ].
  - intros x k Hx HxL Hk. specialize (XX x k HxL Hk).
    rewrite !(storeV_out step _ (3 * XC - n * step - step)) by (left; lia).
    rewrite (storeV_out step _ (n * step + step + XC) _ (x * step + k)) by (left; lia).
    destruct (Nat.eq_dec x (n + 1)) as [-> | D].
    + destruct (M k Hk) as [M1 M2]. rewrite KF in M1, M2 by exact Hk. rewrite EmP in M1. rewrite EvP in M2.
      replace ((n + 1) * step + k) with (n * step + step + k) by lia. rewrite storeV_in by exact Hk. split; [ exact M1 | intros _ ].
      replace (n * step + step + k + XC) with (n * step + step + XC + k) by lia. rewrite storeV_in by exact Hk. exact M2.
    + destruct (I1 x k ltac:(lia) HxL Hk) as [J1 J2]. specialize (XO x k Hk D).
      rewrite storeV_out by exact XO. split; [ exact J1 | intros Hx0 ].
      rewrite (storeV_out step _ (n * step + step + XC)) by lia. rewrite storeV_out by lia. now apply J2.
  - intros t k Ht HtL Hk. assert (Htm : (L - t) mod L < L) by (apply Nat.mod_upper_bound; lia).
    destruct (Nat.eq_dec t (n + 1)) as [-> | D].
    + replace (2 * XC + (L - (n + 1)) mod L * step + k) with (3 * XC - n * step - step + k).
      2:{ rewrite Nat.mod_small by lia. rewrite Nat.mul_sub_distr_r. revert HnX. generalize XC. clear. intros. lia. }
      rewrite storeV_in by exact Hk. destruct (N k Hk) as [N1 _]. rewrite KB in N1 by exact Hk. rewrite EmB in N1. exact N1.
    + assert (O : 2 * XC + (L - t) mod L * step + k < 3 * XC - n * step - step \/ 3 * XC - n * step - step + step <= 2 * XC + (L - t) mod L * step + k).
      { destruct (Nat.eq_dec t 0) as [-> | D0].
        - left. rewrite (Nat.sub_0_r L), Nat.mod_same by lia. revert HnX Hk. generalize XC. clear. intros. lia.
        - right. rewrite Nat.mod_small by lia. rewrite Nat.mul_sub_distr_r.
          assert (t * step <= n * step) by (apply Nat.mul_le_mono_r; lia). revert HnX H. generalize XC. clear. intros. lia. }
      rewrite storeV_out by exact O. rewrite storeV_out by (right; lia). rewrite storeV_out by (right; lia). apply I2; lia.
  - intros x k Hx Hk. rewrite !setFlags_at by lia. rewrite I3, JF, JB by assumption.
    destruct (jumpF n x k), (jumpB n x k), ((x =? n + 1) && maskF k), ((x =? L - (n + 1)) && maskB k); reflexivity.
  - intros i Hi. rewrite !setFlags_off by (lia || exact Hi). now apply I4.
  - intros Hcha x k Hx Hk. rewrite !Bool.orb_false_iff in Hcha. destruct Hcha as [[C1 C2] C3].
    specialize (I5 C1 x k Hx Hk). rewrite Bool.orb_false_iff in I5. destruct I5 as [I5 I6].
    assert (E : forall mask, existsb mask (seq 0 step) = false -> mask k = false).
    { intros mask H. apply Bool.not_true_iff_false. intros T. apply Bool.not_true_iff_false in H. apply H.
      apply existsb_exists. exists k. split; [ apply in_seq; lia | exact T ]. }
    rewrite JF, JB, I5, I6, (E maskF C2), (E maskB C3), !Bool.andb_false_r by assumption. reflexivity.
Qed.
Lemma vscan_ok : forall fuel b0, (forall t k, t < L -> k < step -> (Z.abs (kF k t) <= Z.of_nat fuel /\ Z.abs (kb k t) <= Z.of_nat fuel)%Z) ->
  exists st, foldM (volScan Masks fuel c q L step base sbase m v) (seq 0 (L - 1))
    (storeV step (storeV step b0 0 (loadV m base)) (2 * XC) (loadV m base), sd0, false) = Some st /\ vscanInv (L - 1) st.
Proof.
  intros fuel b0 Hf. pose proof HLpos as HL. apply foldM_seq with (Inv := vscanInv).
  - assert (SX : step <= XC) by (revert HL; clear; intros; nia).
    split; [ | split; [ | split; [ | split ] ] ].
    + intros x k Hx _ Hk. assert (x = 0) by lia. subst x. split; [ | lia ]. rewrite storeV_out by (left; lia).
      change (0 * step + k) with (0 + k). rewrite storeV_in by exact Hk. unfold loadV, site. unfold kFw. cbn [kseq]. rewrite per_0.
      replace (base + 0 * step + k) with (base + k) by lia. lra.
    + intros t k Ht _ Hk. assert (t = 0) by lia. subst t. unfold bwd. rewrite (Nat.sub_0_r L), Nat.mod_same by lia.
      rewrite Nat.mul_0_l, Nat.add_0_r. rewrite storeV_in by exact Hk. unfold loadV, site. cbn [kseq]. rewrite per_0.
      rewrite Nat.mul_0_l, Nat.add_0_r. lra.
    + intros x k Hx Hk. rewrite Hsd by assumption. symmetry. unfold jumpF, jumpB.
      destruct x as [ | x ]; [ reflexivity | ]. assert ((S x <=? 0) = false) by (apply Nat.leb_gt; lia).
      assert ((L <=? S x + 0) = false) by (apply Nat.leb_gt; lia). rewrite H, H0, !Bool.andb_false_r. reflexivity.
    + reflexivity.
    + intros _ x k Hx Hk. unfold jumpF, jumpB.
      destruct x as [ | x ]; [ reflexivity | ]. assert ((S x <=? 0) = false) by (apply Nat.leb_gt; lia).
      assert ((L <=? S x + 0) = false) by (apply Nat.leb_gt; lia). rewrite H, H0, !Bool.andb_false_r. reflexivity.
  - intros n st Hn I. apply vscan_step; [ lia | exact Hf | exact I ].
Qed.
(** flags at the end *)
Lemma kB_at' : forall x k, 0 < x -> x < L -> kB k x = kb k (L - x).
Proof using Type. intros x k H1 H2. unfold kBw. rewrite Nat.mod_small by (revert H1 H2; clear; lia). reflexivity. Qed.
Lemma flags_end : forall x k, 0 < x -> x < L -> jumpF (L - 1) x k || jumpB (L - 1) x k = negb ((kF k x =? 0) && (kB k x =? 0))%Z.
Proof using Type.
  intros x k H1 H2. unfold jumpF, jumpB. rewrite kB_at' by assumption.
  assert ((0 <? x) = true) by (apply Nat.ltb_lt; exact H1). assert ((x <=? L - 1) = true) by (apply Nat.leb_le; revert H1 H2; clear; lia).
  assert ((L <=? x + (L - 1)) = true) by (apply Nat.leb_le; revert H1 H2; clear; lia). rewrite H, H0, H3. cbn [andb]. now rewrite Bool.negb_andb.
Qed.

Definition agreeV (k x : nat) : bool := (kF k x =? kB k x)%Z && negb (kF k x =? 0)%Z.
Definition cntV (n k : nat) : nat := length (filter (agreeV k) (seq 0 n)).
Definition inLine (p : nat) : Prop := base <= p < base + XC.
Definition vwriteInv (count0 n : nat) (st : (nat -> Q) * (nat -> Q) * nat) : Prop :=
  let '(m', v', count) := st in
  (forall x k, 0 < x <= n -> x < L -> k < step ->
     (kF k x = kB k x -> moved c q (m (site x k)) (v (site x k)) (m' (site x k)) (v' (site x k)) (kF k x)) /\
     (kF k x <> kB k x -> m' (site x k) = m (site x k) /\ v' (site x k) = v (site x k))) /\
  (forall p, (forall x k, 0 < x <= n -> x < L -> k < step -> p <> site x k) -> m' p = m p /\ v' p = v p) /\
  count = count0 + sumN step (cntV (n + 1)).
Lemma site_inj : forall x k x' k', k < step -> k' < step -> site x k = site x' k' -> x = x' /\ k = k'.
Proof using Type.
  intros x k x' k' H H' E. unfold site in E. destruct (Nat.div_mod_unique step x x' k k') as [? ?]; [ exact H | exact H' | revert E; clear; lia | ]. auto.
Qed.
Lemma cnt_1 : sumN step (cntV 1) = 0.
Proof using Type.
  transitivity (sumN step (fun _ => 0)); [ | apply sumN_0 ]. apply sumN_ext. intros k _. unfold cntV. cbn [seq filter]. unfold agreeV. change (kF k 0) with 0%Z.
  rewrite Z.eqb_refl, Bool.andb_false_r. reflexivity.
Qed.
Lemma cnt_S : forall n, sumN step (cntV (n + 1 + 1)) = sumN step (cntV (n + 1)) + sumN step (fun k => if agreeV k (n + 1) then 1 else 0).
Proof using Type.
  intros n. rewrite <- sumN_add. apply sumN_ext. intros k _. unfold cntV. rewrite (Nat.add_1_r (n + 1)).
  rewrite seq_S, filter_app, app_length. cbn [filter plus]. destruct (agreeV k (n + 1)); reflexivity.
Qed.
Lemma vwrite_ok : forall b sd cha count0, vscanInv (L - 1) (b, sd, cha) ->
  vwriteInv count0 (L - 1) (fold_left (volWrite L step base sbase b sd) (seq 0 (L - 1)) (m, v, count0)).
Proof.
  intros b sd cha count0 (I1 & I2 & I3 & _ & _). pose proof HLpos as HL. apply fold_seq with (Inv := vwriteInv count0).
  - split; [ intros; lia | ]. split; [ auto | ]. cbn [plus]. rewrite cnt_1. lia.
  - intros x ((m1 & v1) & count) Hx (W1 & W2 & W3). unfold volWrite. rewrite YCeq. cbv zeta.
    set (flag := fun k => sd (x + 1 + sbase + k * (YC * L))).
    set (w := fun k => Qeq_bool (loadV b (x * step + step) k) (loadV b (x * step + step + 2 * XC) k) && flag k).
    change (vwriteInv count0 (x + 1) (if existsb flag (seq 0 step) then if 0 <? setLanes step w then
      (fold_left (fun m k => if w k then upd m (base + x * step + step + k) (loadV b (x * step + step) k) else m) (seq 0 step) m1,
       fold_left (fun v k => if w k then upd v (base + x * step + step + k) (loadV b (x * step + step + XC) k) else v) (seq 0 step) v1,
       count + setLanes step w) else (m1, v1, count) else (m1, v1, count))).
    assert (Fl : forall k, k < step -> flag k = negb ((kF k (x + 1) =? 0) && (kB k (x + 1) =? 0))%Z).
    { intros k Hk. unfold flag. change (x + 1 + sbase + k * (YC * L)) with (fsite (x + 1) k). rewrite I3 by lia.
      apply flags_end; lia. }
    assert (J1 : forall k, k < step -> (loadV b (x * step + step) k == m (site (x + 1) k) + per c (kF k (x + 1)))%Q).
    { intros k Hk. destruct (I1 (x + 1) k ltac:(lia) ltac:(lia) Hk) as [J _]. rewrite <- J. unfold loadV.
      replace (x * step + step + k) with ((x + 1) * step + k) by lia. reflexivity. }
    assert (J2 : forall k, k < step -> (loadV b (x * step + step + XC) k == v (site (x + 1) k) + inject_Z (kF k (x + 1)) * q)%Q).
    { intros k Hk. destruct (I1 (x + 1) k ltac:(lia) ltac:(lia) Hk) as [_ J]. rewrite <- J by lia. unfold loadV.
      replace (x * step + step + XC + k) with ((x + 1) * step + k + XC) by lia. reflexivity. }
    assert (J3 : forall k, k < step -> (loadV b (x * step + step + 2 * XC) k == m (site (x + 1) k) + per c (kB k (x + 1)))%Q).
    { intros k Hk. pose proof (I2 (L - (x + 1)) k ltac:(lia) ltac:(lia) Hk) as J. rewrite <- kB_at' in J by lia. unfold bwd at 1 in J.
      replace (L - (L - (x + 1))) with (x + 1) in J by lia. rewrite !(Nat.mod_small (x + 1)) in J by lia. rewrite <- J. unfold loadV.
      replace (x * step + step + 2 * XC + k) with (2 * XC + (x + 1) * step + k) by lia. reflexivity. }
    assert (Ww : forall k, k < step -> w k = agreeV k (x + 1)).
    { intros k Hk. unfold w, agreeV. rewrite Fl by exact Hk. apply Bool.eq_iff_eq_true.
      rewrite !Bool.andb_true_iff, !Bool.negb_true_iff, Bool.andb_false_iff, Qeq_bool_iff, !Z.eqb_neq, Z.eqb_eq, J1, J3 by exact Hk.
      split.
      - intros [E1 E2]. assert (E : kF k (x + 1) = kB k (x + 1)) by (apply (per_inj c Hc); lra). split; [ exact E | ].
        rewrite <- E in E2. tauto.
      - intros [E1 E2]. rewrite <- E1. split; [ reflexivity | tauto ]. }
    assert (Cw : setLanes step w = sumN step (fun k => if agreeV k (x + 1) then 1 else 0)).
    { unfold setLanes. rewrite filter_len_sum. apply sumN_ext. intros k Hk. now rewrite Ww. }
    (* what the masked stores do *)
    assert (Upd : forall (u u1 : nat -> Q) y p, 
              (forall k, p = site (x + 1) k -> k < step -> w k = true -> 
                 fold_left (fun m k => if w k then upd m (base + x * step + step + k) (y k) else m) (seq 0 step) u1 p = y k) /\
              ((forall k, k < step -> p = site (x + 1) k -> w k = false) ->
                 fold_left (fun m k => if w k then upd m (base + x * step + step + k) (y k) else m) (seq 0 step) u1 p = u1 p)).
    { intros u u1 y p. rewrite (laneFold w y (base + x * step + step) step u1 p). split.
      - intros k -> Hk Hw. unfold site. replace (base + (x + 1) * step + k) with (base + x * step + step + k) by lia.
        replace (base + x * step + step + k - (base + x * step + step)) with k by lia. rewrite Hw.
        assert ((base + x * step + step <=? base + x * step + step + k) = true) by (apply Nat.leb_le; lia).
        assert ((base + x * step + step + k <? base + x * step + step + step) = true) by (apply Nat.ltb_lt; lia).
        rewrite H, H0. reflexivity.
      - intros Hw. destruct (Nat.leb_spec (base + x * step + step) p), (Nat.ltb_spec p (base + x * step + step + step)); cbn [andb]; try reflexivity.
        rewrite (Hw (p - (base + x * step + step))); [ reflexivity | lia | unfold site; lia ]. }
    (* the case in which nothing is written *)
    assert (None_ : (forall k, k < step -> agreeV k (x + 1) = false) -> vwriteInv count0 (x + 1) (m1, v1, count)).
    { intros Hno. split; [ | split ].
      - intros x' k Hx' HxL Hk. destruct (Nat.eq_dec x' (x + 1)) as [-> | D]; [ | apply W1; lia ].
        destruct (W2 (site (x + 1) k)) as [O1 O2]; [ intros x2 k2 A B C E; apply site_inj in E; lia | ].
        split; [ | intros _; auto ]. intros E. specialize (Hno k Hk). unfold agreeV in Hno. rewrite E, Z.eqb_refl in Hno.
        cbn [andb] in Hno. apply Bool.negb_false_iff, Z.eqb_eq in Hno. rewrite E, Hno, O1, O2. apply moved_0.
      - intros p Hp. apply W2. intros x' k A B C. apply Hp; lia.
      - rewrite cnt_S, W3. rewrite (sumN_ext step (fun k => if agreeV k (x + 1) then 1 else 0) (fun _ => 0)).
        + rewrite sumN_0. lia.
        + intros k Hk. now rewrite Hno. }
    destruct (existsb flag (seq 0 step)) eqn:EF.
    + destruct (Nat.ltb_spec 0 (setLanes step w)) as [P | P].
      * assert (Ms : forall x' k, k < step -> x' <> x + 1 -> forall k0, k0 < step -> site x' k = site (x + 1) k0 -> w k0 = false).
        { intros x' k Hk D k0 H0 E. apply site_inj in E; lia. }
        split; [ | split ].
        -- intros x' k Hx' HxL Hk. destruct (Nat.eq_dec x' (x + 1)) as [-> | D].
           ++ destruct (W2 (site (x + 1) k)) as [O1 O2]; [ intros x2 k2 A B C E; apply site_inj in E; lia | ].
              destruct (w k) eqn:Wk.
              ** rewrite (proj1 (Upd m m1 _ _) k eq_refl Hk Wk), (proj1 (Upd v v1 _ _) k eq_refl Hk Wk).
                 rewrite Ww in Wk by exact Hk. unfold agreeV in Wk. rewrite Bool.andb_true_iff, Z.eqb_eq in Wk.
                 split; [ intros _ | intros C; exfalso; tauto ]. split; [ apply J1 | apply J2 ]; exact Hk.
              ** rewrite !(proj2 (Upd m _ _ _)), O1, O2.
                 2, 3: intros k0 H0 E; apply site_inj in E; [ | lia | lia ]; destruct E as [_ ->]; exact Wk.
                 split; [ | auto ]. intros E. rewrite Ww in Wk by exact Hk. unfold agreeV in Wk. rewrite E, Z.eqb_refl in Wk.
                 cbn [andb] in Wk. apply Bool.negb_false_iff, Z.eqb_eq in Wk. rewrite E, Wk. apply moved_0.
           ++ rewrite !(proj2 (Upd m _ _ _)) by (apply Ms; assumption). apply W1; lia.
        -- intros p Hp. rewrite !(proj2 (Upd m _ _ _)).
           2, 3: intros k0 H0 E; exfalso; apply (Hp (x + 1) k0); [ lia | lia | exact H0 | exact E ].
           apply W2. intros x' k A B C. apply Hp; lia.
        -- rewrite cnt_S, W3, Cw. lia.
      * apply None_. intros k Hk. rewrite <- Ww by exact Hk. rewrite Cw in P.
        destruct (w k) eqn:Wk; [ exfalso | reflexivity ].
        assert (Pos : forall n g, k < n -> g k <= sumN n g).
        { clear. intros n g. induction n as [ | n IH ]; intros H; [ lia | ]. rewrite sumN_S. destruct (Nat.eq_dec k n) as [-> | D]; [ lia | ].
          specialize (IH ltac:(lia)). lia. }
        specialize (Pos step (fun k => if agreeV k (x + 1) then 1 else 0) Hk). cbv beta in Pos.
        rewrite Ww in Wk by exact Hk. rewrite Wk in Pos. lia.
    + apply None_. intros k Hk. rewrite <- Ww by exact Hk. unfold w.
      assert (flag k = false); [ | rewrite H; apply Bool.andb_false_r ].
      apply Bool.not_true_iff_false. intros T. apply Bool.not_true_iff_false in EF. apply EF. apply existsb_exists.
      exists k. split; [ apply in_seq; lia | exact T ].
Qed.
End line.

Lemma NoDup_join : forall (A : Type) (l l' : list A), NoDup l -> NoDup l' -> (forall a, In a l -> ~ In a l') -> NoDup (l ++ l').
Proof.
  intros A l l' H H' D. induction H as [ | a l Ha H IH ]; [ exact H' | ]. cbn [app]. constructor.
  - rewrite in_app_iff. intros [C | C]; [ contradiction | ]. apply (D a); [ now left | exact C ].
  - apply IH. intros b Hb. apply D. now right.
Qed.
Lemma rowMended_ext : forall c q near n f g v1 v2 f' g' v1' v2' count, 0 < n ->
  (forall x, x < n -> f x = g x) -> (forall x, x < n -> v1 x = v2 x) ->
  (forall x, x < n -> f' x = g' x) -> (forall x, x < n -> v1' x = v2' x) ->
  rowMended near n c q f v1 f' v1' count -> rowMended near n c q g v2 g' v2' count.
Proof.
  intros c q near n f g v1 v2 f' g' v1' v2' count Hn E1 E2 E3 E4 (kF & kB & A1 & A2 & A3 & A4 & A3' & A4' & A5 & A6).
  exists kF, kB. split; [ exact A1 | ]. split; [ exact A2 | ]. split; [ | split; [ | split; [ | split; [ | split; [ | exact A6 ] ] ] ] ].
  - intros y Hy. specialize (A3 y Hy). unfold lifted in *. rewrite <- (E1 (y + 1)), <- (E1 y) by lia. exact A3.
  - intros y Hy. specialize (A4 y Hy). unfold lifted in *. rewrite <- (E1 y), <- (E1 ((y + 1) mod n)); [ exact A4 | apply Nat.mod_upper_bound | ]; lia.
  - intros y Hy N. apply (A3' y Hy). unfold lifted in *. rewrite (E1 (y + 1)), (E1 y) by lia. exact N.
  - intros y Hy N. apply (A4' y Hy). unfold lifted in *. rewrite (E1 y), (E1 ((y + 1) mod n)); [ exact N | apply Nat.mod_upper_bound | ]; lia.
  - intros y Hy. destruct (A5 y Hy) as [B1 B2]. rewrite <- (E1 y), <- (E2 y), <- (E3 y), <- (E4 y) by exact Hy. auto.
Qed.
Section volume.
Variables (c q : Q) (L step YC : nat).
Hypotheses (Hc : (0 < c)%Q) (Hs : 0 < step) (HY : 0 < YC) (Hd : L = step * YC).
Notation XC := (L * step).
Definition vbase (z yl : nat) : nat := z * (L * L) + yl * XC.
Definition vsbase (z yl : nat) : nat := yl * L + z * (L * L).
Notation vsite z yl := (site step (vbase z yl)).
Notation vflag z yl := (fsite L YC (vsbase z yl)).
Definition rowCount (m : nat -> Q) (z yl k : nat) : nat := cntV c L step (vbase z yl) m L k.
Definition fuelOk (m : nat -> Q) (fuel z yl : nat) : Prop := forall t k, t < L -> k < step ->
  (Z.abs (kFw c (kzH c) L (fun x => m (vsite z yl x k)) t) <= Z.of_nat fuel /\
   Z.abs (kseq c (kzH c) (bwd L (fun x => m (vsite z yl x k))) t) <= Z.of_nat fuel)%Z.

Lemma vol_line_ok : forall fuel b st z yl, fuelOk (k_m st) fuel z yl ->
  (forall x k, x < L -> k < step -> k_sd st (vflag z yl x k) = false) ->
  exists st', volLine Masks fuel c q L step b st (z, yl) = Some st' /\
    (forall k, k < step -> rowMended (noJumpHalf c) L c q (fun x => k_m st (vsite z yl x k)) (fun x => k_v st (vsite z yl x k))
       (fun x => k_m st' (vsite z yl x k)) (fun x => k_v st' (vsite z yl x k)) (rowCount (k_m st) z yl k)) /\
    (forall p, p < vbase z yl \/ vbase z yl + XC <= p -> k_m st' p = k_m st p /\ k_v st' p = k_v st p) /\
    (forall i, (forall x k, x < L -> k < step -> i <> vflag z yl x k) -> k_sd st' i = k_sd st i) /\
    k_count st' = k_count st + sumN step (rowCount (k_m st) z yl).
Proof.
  intros fuel b st z yl Hf Hsd. pose proof (HLpos L step YC Hs HY Hd) as HL. unfold volLine. fold (vbase z yl). fold (vsbase z yl).
  destruct (vscan_ok c q L step YC Hc Hs HY Hd (vbase z yl) (vsbase z yl) (k_m st) (k_v st) (k_sd st) Hsd fuel b Hf) as (((b' & sd') & cha) & E & I).
  cbv zeta. rewrite E. cbn [bind]. clear E.
  assert (W : exists m' v' n, (if cha then let '(m, v, count) := fold_left (volWrite L step (vbase z yl) (vsbase z yl) b' sd') (seq 0 (L - 1)) (k_m st, k_v st, k_count st) in Some (KS m v sd' count)
                else Some (KS (k_m st) (k_v st) sd' (k_count st))) = Some (KS m' v' sd' n) /\
              vwriteInv c q L step (vbase z yl) (k_m st) (k_v st) (k_count st) (L - 1) (m', v', n)).
  { destruct cha.
    - pose proof (vwrite_ok c q L step YC Hc Hs HY Hd (vbase z yl) (vsbase z yl) (k_m st) (k_v st) (k_sd st) Hsd b' sd' true (k_count st) I) as W.
      destruct (fold_left _ _ _) as ((m' & v') & n). exists m', v', n. split; [ reflexivity | exact W ].
    - exists (k_m st), (k_v st), (k_count st). split; [ reflexivity | ]. destruct I as (_ & _ & _ & _ & I5). specialize (I5 eq_refl).
      assert (Z0 : forall x k, x < L -> k < step -> kFw c (kzH c) L (fun x => k_m st (vsite z yl x k)) x = 0%Z /\
                               kBw c (kzH c) L (fun x => k_m st (vsite z yl x k)) x = 0%Z).
      { intros x k Hx Hk. destruct (Nat.eq_dec x 0) as [-> | D].
        - split; [ reflexivity | ]. unfold kBw. rewrite (Nat.sub_0_r L), Nat.mod_same by lia. reflexivity.
        - specialize (I5 x k Hx Hk). rewrite flags_end in I5 by (assumption || lia). apply Bool.negb_false_iff in I5.
          rewrite Bool.andb_true_iff, !Z.eqb_eq in I5. exact I5. }
      split; [ | split ].
      + intros x k Hx HxL Hk. destruct (Z0 x k HxL Hk) as [-> ->]. split; [ intros _; apply moved_0 | contradiction ].
      + auto.
      + replace (sumN step _) with 0; [ lia | ]. symmetry. transitivity (sumN step (fun _ => 0)); [ | apply sumN_0 ].
        apply sumN_ext. intros k Hk. unfold cntV. rewrite filter_len_sum. transitivity (sumN (L - 1 + 1) (fun _ => 0)); [ | apply sumN_0 ]. apply sumN_ext.
        intros x Hx. unfold agreeV. destruct (Z0 x k ltac:(lia) Hk) as [-> ->]. reflexivity. }
  destruct W as (m' & v' & n & E & W1 & W2 & W3). rewrite E. eexists; split; [ reflexivity | ]. cbn [k_m k_v k_sd k_count].
  replace (L - 1 + 1) with L in W3 by lia.
  assert (XX : forall x k, x < L -> k < step -> x * step + k < XC).
  { intros x k Hx Hk. assert (x * step + step <= XC); [ | lia ]. replace (x * step + step) with ((x + 1) * step) by lia. apply Nat.mul_le_mono_r. lia. }
  split; [ | split; [ | split; [ | exact W3 ] ] ].
  - intros k Hk. apply rowMended_intro with (kz := kzH c).
    + intros d. apply kzH_range. exact Hc.
    + intros d d' Ed [A B]. split; lra.
    + intros d. now apply kzH_zero.
    + exact HL.
    + intros x Hx. destruct (Nat.eq_dec x 0) as [-> | D]; [ | apply W1; lia ].
      assert (K0 : kBw c (kzH c) L (fun x => k_m st (vsite z yl x k)) 0 = 0%Z) by (unfold kBw; rewrite (Nat.sub_0_r L), Nat.mod_same by lia; reflexivity).
      rewrite K0. change (kFw c (kzH c) L (fun x => k_m st (vsite z yl x k)) 0) with 0%Z. split; [ intros _ | contradiction ].
      destruct (W2 (vsite z yl 0 k)) as [-> ->]; [ | apply moved_0 ].
      intros x' k' A B C E0. apply site_inj in E0; lia.
    + reflexivity.
  - intros p Hp. apply W2. intros x k A B C ->. specialize (XX x k B C). unfold site in Hp. lia.
  - destruct I as (_ & _ & _ & I4 & _). exact I4.
Qed.

(** different lines do not meet *)
Lemma SfX : L * L = YC * XC.
Proof. rewrite Hd at 1. lia. Qed.
Lemma vbase_line : forall z yl, vbase z yl = (z * YC + yl) * XC.
Proof. intros z yl. unfold vbase. rewrite SfX. lia. Qed.
Lemma line_apart : forall z yl z' yl', yl < YC -> yl' < YC -> (z, yl) <> (z', yl') ->
  vbase z yl + XC <= vbase z' yl' \/ vbase z' yl' + XC <= vbase z yl.
Proof.
  intros z yl z' yl' H H' D. rewrite !vbase_line.
  assert (N : z * YC + yl <> z' * YC + yl').
  { intros E. destruct (Nat.div_mod_unique YC z z' yl yl') as [A B]; [ lia | lia | lia | ]. congruence. }
  destruct (Nat.lt_ge_cases (z * YC + yl) (z' * YC + yl')) as [A | A].
  - left. assert ((z * YC + yl + 1) * XC <= (z' * YC + yl') * XC) by (apply Nat.mul_le_mono_r; lia). lia.
  - right. assert ((z' * YC + yl' + 1) * XC <= (z * YC + yl) * XC) by (apply Nat.mul_le_mono_r; lia). lia.
Qed.
Lemma vflag_site : forall z yl x k, vflag z yl x k = ((z * step + k) * YC + yl) * L + x.
Proof. intros z yl x k. unfold fsite, vsbase. assert (E : L * L = step * YC * L) by (rewrite Hd at 1; reflexivity). rewrite E. lia. Qed.
Lemma vflag_inj : forall z yl x k z' yl' x' k', x < L -> x' < L -> yl < YC -> yl' < YC -> k < step -> k' < step ->
  vflag z yl x k = vflag z' yl' x' k' -> (z, yl) = (z', yl').
Proof.
  intros z yl x k z' yl' x' k' Hx Hx' Hy Hy' Hk Hk' E. rewrite !vflag_site in E.
  destruct (Nat.div_mod_unique L ((z * step + k) * YC + yl) ((z' * step + k') * YC + yl') x x') as [A _]; [ lia | lia | lia | ].
  destruct (Nat.div_mod_unique YC (z * step + k) (z' * step + k') yl yl') as [B B']; [ lia | lia | lia | ].
  destruct (Nat.div_mod_unique step z z' k k') as [C _]; [ lia | lia | lia | ]. congruence.
Qed.
Lemma vsite_in : forall z yl x k, x < L -> k < step -> vbase z yl <= vsite z yl x k < vbase z yl + XC.
Proof.
  intros z yl x k Hx Hk. unfold site. assert (x * step + step <= XC); [ | lia ].
  replace (x * step + step) with ((x + 1) * step) by lia. apply Nat.mul_le_mono_r. lia.
Qed.

Variables (Lz : nat) (m v : nat -> Q).
Definition inRange (zy : nat * nat) : Prop := fst zy < Lz /\ snd zy < YC.
Definition good (done : list (nat * nat)) (st : kstate) : Prop :=
  (forall z yl k, In (z, yl) done -> k < step ->
     rowMended (noJumpHalf c) L c q (fun x => m (vsite z yl x k)) (fun x => v (vsite z yl x k))
       (fun x => k_m st (vsite z yl x k)) (fun x => k_v st (vsite z yl x k)) (rowCount m z yl k)) /\
  (forall p, (forall z yl, In (z, yl) done -> p < vbase z yl \/ vbase z yl + XC <= p) -> k_m st p = m p /\ k_v st p = v p) /\
  (forall z yl x k, inRange (z, yl) -> ~ In (z, yl) done -> x < L -> k < step -> k_sd st (vflag z yl x k) = false) /\
  k_count st = list_sum (map (fun zy => sumN step (rowCount m (fst zy) (snd zy))) done).

Lemma rowCount_ext : forall m' z yl k, (forall x, x < L -> m' (vsite z yl x k) = m (vsite z yl x k)) -> rowCount m' z yl k = rowCount m z yl k.
Proof.
  intros m' z yl k H. pose proof (HLpos L step YC Hs HY Hd) as HL. unfold rowCount, cntV. rewrite !filter_len_sum. apply sumN_ext. intros x Hx.
  assert (S : forall g h, (forall t, g t = h t) -> forall t, kseq c (kzH c) g t = kseq c (kzH c) h t).
  { intros g h E. induction t as [ | t IH ]; [ reflexivity | ]. cbn [kseq]. rewrite !E, IH. reflexivity. }
  unfold agreeV, kFw, kBw.
  rewrite !(S (fun t => m' (vsite z yl (t mod L) k)) (fun t => m (vsite z yl (t mod L) k))) by (intros t; apply H, Nat.mod_upper_bound; lia).
  rewrite !(S (bwd L (fun x => m' (vsite z yl x k))) (bwd L (fun x => m (vsite z yl x k)))) by (intros t; apply H, Nat.mod_upper_bound; lia).
  reflexivity.
Qed.
Lemma fuelOk_ext : forall m' fuel z yl, (forall x k, x < L -> k < step -> m' (vsite z yl x k) = m (vsite z yl x k)) ->
  fuelOk m fuel z yl -> fuelOk m' fuel z yl.
Proof.
  intros m' fuel z yl H F t k Ht Hk. pose proof (HLpos L step YC Hs HY Hd) as HL. specialize (F t k Ht Hk).
  assert (S : forall g h, (forall t, g t = h t) -> forall t, kseq c (kzH c) g t = kseq c (kzH c) h t).
  { intros g h E. induction t0 as [ | t0 IH ]; [ reflexivity | ]. cbn [kseq]. rewrite !E, IH. reflexivity. }
  unfold kFw in *.
  rewrite (S (fun t => m' (vsite z yl (t mod L) k)) (fun t => m (vsite z yl (t mod L) k))) by (intros t0; apply H; [ apply Nat.mod_upper_bound; lia | exact Hk ]).
  rewrite (S (bwd L (fun x => m' (vsite z yl x k))) (bwd L (fun x => m (vsite z yl x k)))) by (intros t0; apply H; [ apply Nat.mod_upper_bound; lia | exact Hk ]).
  exact F.
Qed.

Lemma good_step : forall fuel bs zy done st, inRange zy -> ~ In zy done -> (forall zy', In zy' done -> inRange zy') ->
  (forall z yl, inRange (z, yl) -> fuelOk m fuel z yl) -> good done st ->
  exists st', volLine Masks fuel c q L step bs st zy = Some st' /\ good (zy :: done) st'.
Proof.
  intros fuel bs (z & yl) done st Hr Hn Hrd Hfu (G1 & G2 & G3 & G4). pose proof (HLpos L step YC Hs HY Hd) as HL.
  assert (Old : forall p, vbase z yl <= p < vbase z yl + XC -> k_m st p = m p /\ k_v st p = v p).
  { intros p Hp. apply G2. intros z' yl' Hin. destruct (line_apart z yl z' yl'); [ apply Hr | apply (Hrd _ Hin) | congruence | lia | lia ]. }
  destruct (vol_line_ok fuel bs st z yl) as (st' & E & R1 & R2 & R3 & R4).
  { apply fuelOk_ext; [ | now apply Hfu ]. intros x k Hx Hk. apply Old. now apply vsite_in. }
  { intros x k Hx Hk. now apply G3. }
  exists st'. split; [ exact E | ].
  assert (EC : forall k, k < step -> rowCount (k_m st) z yl k = rowCount m z yl k).
  { intros k Hk. apply rowCount_ext. intros x Hx. apply Old. now apply vsite_in. }
  split; [ | split; [ | split ] ].
  - intros z' yl' k [E' | Hin] Hk.
    + injection E' as <- <-. specialize (R1 k Hk). rewrite EC in R1 by exact Hk. revert R1. apply rowMended_ext; try exact HL; try reflexivity.
      * intros x Hx. apply Old. now apply vsite_in.
      * intros x Hx. apply Old. now apply vsite_in.
    + assert (AP : forall x, x < L -> k_m st' (vsite z' yl' x k) = k_m st (vsite z' yl' x k) /\ k_v st' (vsite z' yl' x k) = k_v st (vsite z' yl' x k)).
      { intros x Hx. apply R2. pose proof (vsite_in z' yl' x k Hx Hk) as B.
        destruct (line_apart z yl z' yl'); [ apply Hr | apply (Hrd _ Hin) | congruence | lia | lia ]. }
      generalize (G1 z' yl' k Hin Hk). apply rowMended_ext; try exact HL; try reflexivity; intros x Hx; symmetry; now apply AP.
  - intros p Hp. destruct (R2 p (Hp z yl (or_introl eq_refl))) as [-> ->]. apply G2. intros z' yl' Hin. apply Hp. now right.
  - intros z' yl' x k Hr' Hn' Hx Hk. rewrite R3.
    + apply G3; try assumption. intros C. apply Hn'. now right.
    + intros x2 k2 Hx2 Hk2 C. apply Hn'. left. symmetry. apply (vflag_inj z' yl' x k z yl x2 k2); try assumption; [ apply Hr' | apply Hr ].
  - rewrite R4, G4. cbn [map list_sum fold_right fst snd]. fold (list_sum (map (fun zy => sumN step (rowCount m (fst zy) (snd zy))) done)).
    rewrite (sumN_ext step _ _ EC). lia.
Qed.
Lemma good_fold : forall fuel bs l done st, NoDup (l ++ done) -> (forall zy, In zy (l ++ done) -> inRange zy) ->
  (forall z yl, inRange (z, yl) -> fuelOk m fuel z yl) -> good done st ->
  exists st', foldM (fun st zy => volLine Masks fuel c q L step (bs zy) st zy) l st = Some st' /\ good (rev l ++ done) st'.
Proof.
  intros fuel bs. induction l as [ | zy l IH ]; intros done st Hd' Hr Hfu G.
  - exists st. split; [ reflexivity | exact G ].
  - rewrite foldM_cons. cbn [app] in Hd'. apply NoDup_cons_iff in Hd'. destruct Hd' as [N1 N2].
    destruct (good_step fuel (bs zy) zy done st) as (st1 & E1 & G1).
    + apply Hr. now left.
    + intros C. apply N1. apply in_or_app. now right.
    + intros zy' Hin. apply Hr. right. apply in_or_app. now right.
    + exact Hfu.
    + exact G.
    + rewrite E1. cbn [bind]. destruct (IH (zy :: done) st1) as (st2 & E2 & G2).
      * apply NoDup_Add with (a := zy) (l := l ++ done); [ apply Add_app | ]. now split.
      * intros zy' Hin. apply Hr. apply in_app_or in Hin. destruct Hin as [A | [<- | A]]; [ right; apply in_or_app; now left | now left | right; apply in_or_app; now right ].
      * exact Hfu.
      * exact G1.
      * exists st2. split; [ exact E2 | ]. cbn [rev]. rewrite <- app_assoc. exact G2.
Qed.

Lemma volOrder_in : forall zy, In zy (volOrder L Lz step) <-> inRange zy.
Proof.
  intros (z & yl). unfold volOrder, inRange. rewrite (YCeq L step YC Hs HY Hd). rewrite in_flat_map. cbn [fst snd]. split.
  - intros (z' & Hz & Hin). apply in_seq in Hz. apply in_map_iff in Hin. destruct Hin as (y & E & Hy). injection E as -> ->. apply in_seq in Hy. lia.
  - intros [A B]. exists z. split; [ apply in_seq; lia | ]. apply in_map_iff. exists yl. split; [ reflexivity | apply in_seq; lia ].
Qed.
Lemma volOrder_sum : forall g, list_sum (map g (volOrder L Lz step)) = sumN Lz (fun z => sumN YC (fun yl => g (z, yl))).
Proof.
  intros g. unfold volOrder. rewrite (YCeq L step YC Hs HY Hd). unfold sumN at 1. induction (seq 0 Lz) as [ | z l IH ]; [ reflexivity | ].
  cbn [flat_map]. rewrite map_app, list_sum_app, IH, map_map. reflexivity.
Qed.
Lemma volOrder_nodup : NoDup (volOrder L Lz step).
Proof.
  unfold volOrder. generalize (seq_NoDup Lz 0). induction (seq 0 Lz) as [ | z l IH ]; intros N; [ constructor | ].
  apply NoDup_cons_iff in N. destruct N as [N1 N2]. cbn [flat_map]. apply NoDup_join.
  - apply FinFun.Injective_map_NoDup; [ intros a b E; congruence | apply seq_NoDup ].
  - now apply IH.
  - intros (z' & y') H1 H2. apply in_map_iff in H1. destruct H1 as (y1 & E1 & _). injection E1 as -> ->.
    apply in_flat_map in H2. destruct H2 as (z2 & Hz2 & H2). apply in_map_iff in H2. destruct H2 as (y2 & E2 & _). injection E2 as -> ->. contradiction.
Qed.
End volume.
