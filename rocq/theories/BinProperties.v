(** C21: histograms. *)
From Coq Require Import List Arith ZArith QArith Qround Qabs Lia Lqa Permutation.
From Verif Require Import BinModel.
Import ListNotations.
Local Open Scope nat_scope.

(** ** Specification *)
(** The samples of a rank: its data without the padding. *)
Definition samples (pl dl : nat) (l : list Q) : list Q :=
  map snd (filter (fun ic => isData pl dl (fst ic)) (combine (seq 0 (length l)) l)).
Definition allSamples (pl dl : nat) (ranks : list (list Q)) : list Q := flat_map (samples pl dl) ranks.
(** c lies in the interval of bin j *)
Definition inBin (b : binner) (j : nat) (c : Q) : Prop :=
  (baseVal b + inject_Z (Z.of_nat j) * step b <= c /\ c < baseVal b + inject_Z (Z.of_nat j + 1) * step b)%Q.
Definition inBinb (b : binner) (j : nat) (c : Q) : bool :=
  Qleb (baseVal b + inject_Z (Z.of_nat j) * step b) c && Qltb c (baseVal b + inject_Z (Z.of_nat j + 1) * step b).
Definition howMany (b : binner) (j : nat) (l : list Q) : nat := length (filter (inBinb b j) l).
Definition ofNat (n : nat) : Q := inject_Z (Z.of_nat n).

Lemma Qltb_iff : forall a b, Qltb a b = true <-> (a < b)%Q.
Proof. intros a b. unfold Qltb. destruct (Qlt_le_dec a b); split; intros H; try easy. exfalso; lra. Qed.
Lemma Qltb_false : forall a b, Qltb a b = false <-> (b <= a)%Q.
Proof. intros a b. unfold Qltb. destruct (Qlt_le_dec a b); split; intros H; try easy. exfalso; lra. Qed.
Lemma Qleb_iff : forall a b, Qleb a b = true <-> (a <= b)%Q.
Proof. intros a b. apply Qle_bool_iff. Qed.
Lemma inBinb_iff : forall b j c, inBinb b j c = true <-> inBin b j c.
Proof. intros b j c. unfold inBinb, inBin. rewrite Bool.andb_true_iff, Qleb_iff, Qltb_iff. tauto. Qed.

(** ** Extremes *)
Lemma foldMax : forall (p : nat -> bool) l x,
  let r := fold_left (fun car (ic : nat * Q) => let '(i, c) := ic in if p i && Qltb car c then c else car) l x in
  (x <= r)%Q /\ (forall i c, In (i, c) l -> p i = true -> (c <= r)%Q) /\ (r = x \/ exists i, p i = true /\ In (i, r) l).
Proof.
  intros p. induction l as [ | [i c] l IH ]; intros x; cbn zeta.
  - cbn. repeat split; try lra; auto. intros; contradiction.
  - cbn [fold_left]. specialize (IH (if p i && Qltb x c then c else x)). cbn zeta in IH.
    destruct IH as (I1 & I2 & I3).
    destruct (p i) eqn:Ep; cbn [andb] in *.
    + destruct (Qltb x c) eqn:E; [ apply Qltb_iff in E | apply Qltb_false in E ].
      * split; [ lra | ]. split.
        -- intros i' c' [Hi | Hi] Hp; [ injection Hi as <- <-; exact I1 | eapply I2; eauto ].
        -- right. destruct I3 as [-> | (i' & Hp & Hi)]; [ exists i; split; [ exact Ep | now left ] | exists i'; split; [ exact Hp | now right ] ].
      * split; [ lra | ]. split.
        -- intros i' c' [Hi | Hi] Hp; [ injection Hi as <- <-; lra | eapply I2; eauto ].
        -- destruct I3 as [-> | (i' & Hp & Hi)]; [ now left | right; exists i'; split; [ exact Hp | now right ] ].
    + split; [ exact I1 | ]. split.
      * intros i' c' [Hi | Hi] Hp; [ injection Hi as <- <-; congruence | eapply I2; eauto ].
      * destruct I3 as [-> | (i' & Hp & Hi)]; [ now left | right; exists i'; split; [ exact Hp | now right ] ].
Qed.
Lemma foldMin : forall (p : nat -> bool) l x,
  let r := fold_left (fun cir (ic : nat * Q) => let '(i, c) := ic in if p i && Qltb c cir then c else cir) l x in
  (r <= x)%Q /\ (forall i c, In (i, c) l -> p i = true -> (r <= c)%Q) /\ (r = x \/ exists i, p i = true /\ In (i, r) l).
Proof.
  intros p. induction l as [ | [i c] l IH ]; intros x; cbn zeta.
  - cbn. repeat split; try lra; auto. intros; contradiction.
  - cbn [fold_left]. specialize (IH (if p i && Qltb c x then c else x)). cbn zeta in IH.
    destruct IH as (I1 & I2 & I3).
    destruct (p i) eqn:Ep; cbn [andb] in *.
    + destruct (Qltb c x) eqn:E; [ apply Qltb_iff in E | apply Qltb_false in E ].
      * split; [ lra | ]. split.
        -- intros i' c' [Hi | Hi] Hp; [ injection Hi as <- <-; exact I1 | eapply I2; eauto ].
        -- right. destruct I3 as [-> | (i' & Hp & Hi)]; [ exists i; split; [ exact Ep | now left ] | exists i'; split; [ exact Hp | now right ] ].
      * split; [ lra | ]. split.
        -- intros i' c' [Hi | Hi] Hp; [ injection Hi as <- <-; lra | eapply I2; eauto ].
        -- destruct I3 as [-> | (i' & Hp & Hi)]; [ now left | right; exists i'; split; [ exact Hp | now right ] ].
    + split; [ exact I1 | ]. split.
      * intros i' c' [Hi | Hi] Hp; [ injection Hi as <- <-; congruence | eapply I2; eauto ].
      * destruct I3 as [-> | (i' & Hp & Hi)]; [ now left | right; exists i'; split; [ exact Hp | now right ] ].
Qed.

Lemma samples_cons : forall pl dl x l, isData pl dl 0 = true ->
  forall c, In c (samples pl dl (x :: l)) <-> c = x \/ exists i, isData pl dl i = true /\ In (i, c) (combine (seq 1 (length l)) l).
Proof.
  intros pl dl x l H0 c. unfold samples. cbn [length seq combine filter fst]. rewrite H0. cbn [map snd].
  split.
  - intros [-> | H]; [ now left | ]. right. apply in_map_iff in H as ([i c'] & <- & H). apply filter_In in H as [H1 H2].
    exists i. auto.
  - intros [-> | (i & Hp & Hi)]; [ now left | ]. right. apply in_map_iff. exists (i, c). split; [ reflexivity | ].
    apply filter_In. auto.
Qed.
Lemma rankMax_spec : forall pl dl l, isData pl dl 0 = true -> l <> [] ->
  In (rankMax pl dl l) (samples pl dl l) /\ forall c, In c (samples pl dl l) -> (c <= rankMax pl dl l)%Q.
Proof.
  intros pl dl [ | x l ] H0 Hl; [ congruence | ]. unfold rankMax. cbn [length tl hd].
  replace (S (length l) - 1) with (length l) by lia.
  pose proof (foldMax (isData pl dl) (combine (seq 1 (length l)) l) x) as (F1 & F2 & F3). cbn zeta in *.
  split.
  - apply samples_cons; [ assumption | ]. destruct F3 as [F3 | (i & Hp & Hi)]; [ now left | right; now exists i ].
  - intros c Hc. apply samples_cons in Hc; [ | assumption ]. destruct Hc as [-> | (i & Hp & Hi)]; [ exact F1 | eapply F2; eauto ].
Qed.
Lemma rankMin_spec : forall pl dl l, isData pl dl 0 = true -> l <> [] ->
  In (rankMin pl dl l) (samples pl dl l) /\ forall c, In c (samples pl dl l) -> (rankMin pl dl l <= c)%Q.
Proof.
  intros pl dl [ | x l ] H0 Hl; [ congruence | ]. unfold rankMin. cbn [length tl hd].
  replace (S (length l) - 1) with (length l) by lia.
  pose proof (foldMin (isData pl dl) (combine (seq 1 (length l)) l) x) as (F1 & F2 & F3). cbn zeta in *.
  split.
  - apply samples_cons; [ assumption | ]. destruct F3 as [F3 | (i & Hp & Hi)]; [ now left | right; now exists i ].
  - intros c Hc. apply samples_cons in Hc; [ | assumption ]. destruct Hc as [-> | (i & Hp & Hi)]; [ exact F1 | eapply F2; eauto ].
Qed.
Lemma allMax_spec : forall l, l <> [] -> In (allMax l) l /\ forall c, In c l -> (c <= allMax l)%Q.
Proof.
  intros [ | x l ] H; [ congruence | ]. clear H. unfold allMax.
  revert x. induction l as [ | y l IH ]; intros x; cbn [fold_left].
  - split; [ now left | ]. intros c [-> | []]; lra.
  - destruct (IH (if Qltb x y then y else x)) as [I1 I2].
    destruct (Qltb x y) eqn:E; [ apply Qltb_iff in E | apply Qltb_false in E ].
    + split; [ right; exact I1 | ]. intros c [-> | Hc]; [ pose proof (I2 y (or_introl eq_refl)); lra | now apply I2 ].
    + split; [ destruct I1 as [I1 | I1]; [ left; exact I1 | right; right; exact I1 ] | ].
      intros c [-> | [-> | Hc]]; [ apply I2; now left | pose proof (I2 x (or_introl eq_refl)); lra | apply I2; now right ].
Qed.
Lemma allMin_spec : forall l, l <> [] -> In (allMin l) l /\ forall c, In c l -> (allMin l <= c)%Q.
Proof.
  intros [ | x l ] H; [ congruence | ]. clear H. unfold allMin.
  revert x. induction l as [ | y l IH ]; intros x; cbn [fold_left].
  - split; [ now left | ]. intros c [-> | []]; lra.
  - destruct (IH (if Qltb y x then y else x)) as [I1 I2].
    destruct (Qltb y x) eqn:E; [ apply Qltb_iff in E | apply Qltb_false in E ].
    + split; [ right; exact I1 | ]. intros c [-> | Hc]; [ pose proof (I2 y (or_introl eq_refl)); lra | now apply I2 ].
    + split; [ destruct I1 as [I1 | I1]; [ left; exact I1 | right; right; exact I1 ] | ].
      intros c [-> | [-> | Hc]]; [ apply I2; now left | pose proof (I2 x (or_introl eq_refl)); lra | apply I2; now right ].
Qed.

(** ** The bin of a value *)
Definition ready (N : nat) (b : binner) : Prop :=
  2 <= N /\ (0 < step b)%Q /\ (baseVal b == minVal b - step b * (1 # 2))%Q /\
  (maxVal b == minVal b + inject_Z (Z.of_nat N - 1) * step b)%Q.

Lemma assign_bin : forall N b c, ready N b -> (minVal b <= c)%Q -> (c <= maxVal b)%Q ->
  exists k, assign N b c = Some k /\ k < N /\ inBin b k c.
Proof.
  intros N b c (HN & Hs & Hb & Hm) H1 H2. unfold assign.
  rewrite (proj2 (Qleb_iff _ _) H1), (proj2 (Qleb_iff _ _) H2). cbn [andb].
  assert (Hd : (step b * (1 # 2) <= c - baseVal b)%Q) by lra.
  assert (Ha : Qltb (Qabs (c - baseVal b)) (step b / 100) = false).
  { apply Qltb_false. rewrite Qabs_pos by lra.
    assert (step b / 100 == step b * (1 # 100))%Q by (field; lra). lra. }
  rewrite Ha. cbn zeta.
  set (x := ((c - baseVal b) / step b)%Q).
  assert (Hx : (x * step b == c - baseVal b)%Q) by (unfold x; field; lra).
  pose proof (Qfloor_le x) as F1. pose proof (Qlt_floor x) as F2.
  set (k := Qfloor x) in *.
  assert (G1 : (inject_Z k * step b <= c - baseVal b)%Q).
  { rewrite <- Hx. apply Qmult_le_compat_r; lra. }
  assert (G2 : (c - baseVal b < inject_Z (k + 1) * step b)%Q).
  { rewrite <- Hx. apply Qmult_lt_compat_r; lra. }
  assert (K0 : (0 <= k)%Z).
  { assert ((0 < inject_Z (k + 1))%Q).
    { destruct (Qlt_le_dec 0 (inject_Z (k + 1))) as [? | C]; [ assumption | exfalso ].
      assert (inject_Z (k + 1) * step b <= 0 * step b)%Q by (apply Qmult_le_compat_r; lra). lra. }
    change 0%Q with (inject_Z 0) in H. rewrite <- Zlt_Qlt in H. lia. }
  assert (KN : (k < Z.of_nat N)%Z).
  { assert (L : (inject_Z k * step b < inject_Z (Z.of_nat N) * step b)%Q).
    { assert (E : (inject_Z (Z.of_nat N - 1) == inject_Z (Z.of_nat N) - 1)%Q).
      { unfold Z.sub, Qminus. rewrite inject_Z_plus, inject_Z_opp. reflexivity. }
      rewrite E in Hm. lra. }
    apply Qmult_lt_r in L; [ | assumption ]. rewrite <- Zlt_Qlt in L. exact L. }
  rewrite (proj2 (Z.leb_le _ _) K0), (proj2 (Z.ltb_lt _ _) KN). cbn [andb].
  exists (Z.to_nat k). split; [ reflexivity | ]. split; [ lia | ].
  unfold inBin. rewrite Z2Nat.id by assumption. split; lra.
Qed.

Lemma inBin_unique : forall b j k c, (0 < step b)%Q -> inBin b j c -> inBin b k c -> j = k.
Proof.
  intros b j k c Hs [A1 A2] [B1 B2].
  assert (L : forall p q : nat, (baseVal b + inject_Z (Z.of_nat p) * step b < baseVal b + inject_Z (Z.of_nat q + 1) * step b)%Q -> p <= q).
  { intros p q H. assert (H' : (inject_Z (Z.of_nat p) * step b < inject_Z (Z.of_nat q + 1) * step b)%Q) by lra.
    apply Qmult_lt_r in H'; [ | assumption ]. rewrite <- Zlt_Qlt in H'. lia. }
  pose proof (L j k ltac:(lra)). pose proof (L k j ltac:(lra)). lia.
Qed.

Lemma assign_iff : forall N b c j, ready N b -> (minVal b <= c)%Q -> (c <= maxVal b)%Q -> j < N ->
  ((match assign N b c with Some k => k =? j | None => false end) = inBinb b j c).
Proof.
  intros N b c j R H1 H2 Hj. destruct (assign_bin N b c R H1 H2) as (k & -> & Hk & Hin).
  destruct (Nat.eqb_spec k j) as [<- | Hn].
  - symmetry. now apply inBinb_iff.
  - symmetry. apply Bool.not_true_iff_false. intros C. apply inBinb_iff in C.
    apply Hn. eapply inBin_unique; eauto. apply R.
Qed.

(** ** Counting *)
Lemma nsum_upd : forall tb t k T j, t < T ->
  nsum (map (fun t' => upd tb t k t' j) (seq 0 T)) = nsum (map (fun t' => tb t' j) (seq 0 T)) + (if k =? j then 1 else 0).
Proof.
  intros tb t k T j Ht.
  assert (G : forall n s, (t < s -> nsum (map (fun t' => upd tb t k t' j) (seq s n)) = nsum (map (fun t' => tb t' j) (seq s n))) /\
    (s <= t < s + n -> nsum (map (fun t' => upd tb t k t' j) (seq s n)) = nsum (map (fun t' => tb t' j) (seq s n)) + (if k =? j then 1 else 0))).
  { induction n as [ | n IH ]; intros s; [ split; intros; [ reflexivity | lia ] | ].
    destruct (IH (S s)) as [I1 I2]. cbn [seq map nsum fold_right]. fold (nsum (map (fun t' => upd tb t k t' j) (seq (S s) n))).
    fold (nsum (map (fun t' => tb t' j) (seq (S s) n))).
    split; intros H.
    - rewrite I1 by lia. f_equal. unfold upd. destruct (Nat.eqb_spec s t); [ lia | reflexivity ].
    - destruct (Nat.eq_dec s t) as [-> | Hn].
      + rewrite I1 by lia. unfold upd. rewrite Nat.eqb_refl. cbn [andb]. rewrite (Nat.eqb_sym j k).
        destruct (k =? j); lia.
      + rewrite I2 by lia. unfold upd. destruct (Nat.eqb_spec s t); [ congruence | cbn [andb]; lia ]. }
  apply (G T 0). lia.
Qed.
Lemma nsum_zeros : forall n s, nsum (map (fun _ : nat => 0) (seq s n)) = 0.
Proof. induction n as [ | n IH ]; intros s; cbn; [ reflexivity | apply IH ]. Qed.
Lemma countLoop_sum : forall N b th l T j, (forall i, th i < T) ->
  nsum (map (fun t => countLoop N b th l t j) (seq 0 T)) =
  length (filter (fun c => match assign N b c with Some k => k =? j | None => false end) (samples (padded b) (dataLen b) l)).
Proof.
  intros N b th l T j Hth. unfold countLoop, samples.
  assert (G : forall ll (tb : nat -> nat -> nat),
    nsum (map (fun t => fold_left (fun tb ic => let '(i, c) := ic in
      if isData (padded b) (dataLen b) i then match assign N b c with Some k => upd tb (th i) k | None => tb end else tb) ll tb t j) (seq 0 T))
    = nsum (map (fun t => tb t j) (seq 0 T)) +
      length (filter (fun c => match assign N b c with Some k => k =? j | None => false end)
        (map snd (filter (fun ic => isData (padded b) (dataLen b) (fst ic)) ll)))).
  { induction ll as [ | [i c] ll IH ]; intros tb; cbn [fold_left filter map length fst].
    - cbn. lia.
    - rewrite IH. destruct (isData (padded b) (dataLen b) i); cbn [map filter snd]; [ | reflexivity ].
      destruct (assign N b c) as [k | ]; [ | reflexivity ].
      rewrite nsum_upd by apply Hth. destruct (k =? j); cbn [length]; lia. }
  rewrite G. assert (Z : nsum (map (fun _ : nat => 0) (seq 0 T)) = 0).
  { apply nsum_zeros. }
  rewrite Z. reflexivity.
Qed.

Lemma isData_count : forall pl dl q, 0 < dl -> dl < pl ->
  length (filter (fun i => isData pl dl i) (seq 0 (q * pl))) = q * dl.
Proof.
  intros pl dl q H1 H2.
  assert (Row : forall r, length (filter (fun i => isData pl dl i) (seq (r * pl) pl)) = dl).
  { intros r. assert (G : forall n s, s + n <= pl -> length (filter (fun i => isData pl dl i) (seq (r * pl + s) n)) = min n (dl - s)).
    { induction n as [ | n IH ]; intros s Hs; [ reflexivity | ].
      cbn [seq filter]. replace (S (r * pl + s)) with (r * pl + S s) by lia.
      assert (E : isData pl dl (r * pl + s) = (s <? dl)).
      { unfold isData. rewrite (proj2 (Nat.eqb_neq pl dl)) by lia. rewrite (proj2 (Nat.ltb_lt dl pl)) by lia.
        rewrite Nat.add_comm, Nat.mod_add by lia. now rewrite Nat.mod_small by lia. }
      rewrite E. destruct (Nat.ltb_spec s dl); cbn [length]; rewrite IH by lia; lia. }
    specialize (G pl 0 ltac:(lia)). rewrite Nat.add_0_r in G. rewrite G. lia. }
  induction q as [ | q IH ]; [ reflexivity | ].
  replace (S q * pl) with (q * pl + pl) by lia. rewrite seq_app, filter_app, app_length, IH. cbn [plus]. rewrite Row. lia.
Qed.
Lemma samples_length_all : forall pl l, length (samples pl pl l) = length l.
Proof.
  intros pl l. unfold samples. rewrite map_length.
  assert (G : forall ll : list (nat * Q), filter (fun ic => isData pl pl (fst ic)) ll = ll).
  { induction ll as [ | x ll IH ]; [ reflexivity | ]. cbn [filter]. unfold isData at 1. rewrite Nat.eqb_refl. now rewrite IH. }
  rewrite G, combine_length, seq_length. lia.
Qed.
Lemma filter_fst : forall (p : nat -> bool) (l : list Q) s,
  length (filter (fun ic : nat * Q => p (fst ic)) (combine (seq s (length l)) l)) = length (filter p (seq s (length l))).
Proof.
  intros p. induction l as [ | x l IH ]; intros s; [ reflexivity | ].
  cbn [length seq combine filter fst]. destruct (p s); cbn [length]; now rewrite IH.
Qed.
Lemma samples_length_padded : forall pl dl l, 0 < dl -> dl < pl -> length l mod pl = 0 ->
  length (samples pl dl l) = length l / pl * dl.
Proof.
  intros pl dl l H1 H2 Hm. unfold samples. rewrite map_length, filter_fst.
  pose proof (Nat.div_mod (length l) pl ltac:(lia)) as D. rewrite Hm, Nat.add_0_r in D.
  rewrite D at 1. rewrite (Nat.mul_comm pl). now apply isData_count.
Qed.

(** Every sample has one bin, so the counts add up. *)
Lemma counts_total : forall N b l, ready N b -> (forall c, In c l -> (minVal b <= c)%Q /\ (c <= maxVal b)%Q) ->
  nsum (map (fun j => howMany b j l) (seq 0 N)) = length l.
Proof.
  intros N b l R H. induction l as [ | c l IH ].
  - assert (G : forall n s, nsum (map (fun j => howMany b j []) (seq s n)) = 0).
    { induction n; intros s; cbn; [ reflexivity | apply IHn ]. }
    apply G.
  - assert (Hc := H c (or_introl eq_refl)). destruct Hc as [H1 H2].
    destruct (assign_bin N b c R H1 H2) as (k & _ & Hk & Hin).
    cbn [length]. rewrite <- IH by (intros; apply H; now right).
    assert (G : forall n s, nsum (map (fun j => howMany b j (c :: l)) (seq s n)) =
      nsum (map (fun j => howMany b j l) (seq s n)) + (if (s <=? k) && (k <? s + n) then 1 else 0)).
    { induction n as [ | n IHn ]; intros s.
      - cbn [seq map nsum fold_right]. destruct (Nat.leb_spec s k); destruct (Nat.ltb_spec k (s + 0)); cbn [andb]; lia.
      - cbn [seq map nsum fold_right]. fold (nsum (map (fun j => howMany b j (c :: l)) (seq (S s) n))).
        fold (nsum (map (fun j => howMany b j l) (seq (S s) n))). rewrite IHn.
        assert (E : howMany b s (c :: l) = howMany b s l + (if s =? k then 1 else 0)).
        { unfold howMany. cbn [filter]. destruct (Nat.eqb_spec s k) as [-> | Hn].
          - rewrite (proj2 (inBinb_iff _ _ _) Hin). cbn [length]. lia.
          - assert (inBinb b s c = false) as ->; [ | lia ].
            apply Bool.not_true_iff_false. intros C. apply inBinb_iff in C. apply Hn. eapply inBin_unique; eauto. apply R. }
        rewrite E.
        destruct (Nat.eqb_spec s k); destruct (Nat.leb_spec (S s) k); destruct (Nat.ltb_spec k (S s + n));
        destruct (Nat.leb_spec s k); destruct (Nat.ltb_spec k (s + S n)); cbn [andb]; lia. }
    rewrite G. rewrite (proj2 (Nat.leb_le 0 k)), (proj2 (Nat.ltb_lt k (0 + N))) by lia. cbn [andb]. lia.
Qed.

(** ** The histogram *)
(** A layout of the data: contiguous, or rows of [pl] entries of which the first [dl]
    are data. *)
Definition layout (pl dl n : nat) : Prop := (pl = dl) \/ (0 < dl < pl /\ n mod pl = 0).

Lemma layout_size : forall pl dl n l, layout pl dl n -> length l = n ->
  length (samples pl dl l) = (if pl =? dl then length l else length l / pl * dl).
Proof.
  intros pl dl n l [-> | [Hp Hm]] Hl.
  - rewrite Nat.eqb_refl. apply samples_length_all.
  - rewrite (proj2 (Nat.eqb_neq pl dl)) by lia. apply samples_length_padded; try lia. now rewrite Hl.
Qed.
Lemma layout_first : forall pl dl n, layout pl dl n -> isData pl dl 0 = true.
Proof.
  intros pl dl n [-> | [Hp _]]; unfold isData; [ now rewrite Nat.eqb_refl | ].
  rewrite (proj2 (Nat.eqb_neq pl dl)) by lia. rewrite (proj2 (Nat.ltb_lt dl pl)) by lia.
  rewrite Nat.mod_0_l by lia. apply Nat.ltb_lt. lia.
Qed.

Lemma find_extremes : forall N pl dl n ranks b, layout pl dl n -> padded b = pl -> dataLen b = dl ->
  ranks <> [] -> (forall l, In l ranks -> l <> []) ->
  let f := find N ranks b in
  In (minVal f) (allSamples pl dl ranks) /\ In (maxVal f) (allSamples pl dl ranks) /\
  forall c, In c (allSamples pl dl ranks) -> (minVal f <= c)%Q /\ (c <= maxVal f)%Q.
Proof.
  intros N pl dl n ranks b HL Ep Ed Hr Hne f.
  pose proof (layout_first _ _ _ HL) as H0.
  subst f. unfold find. cbn [minVal maxVal]. rewrite Ep, Ed.
  destruct (allMax_spec (map (rankMax pl dl) ranks)) as [M1 M2]; [ now destruct ranks | ].
  destruct (allMin_spec (map (rankMin pl dl) ranks)) as [L1 L2]; [ now destruct ranks | ].
  split; [ | split ].
  - apply in_map_iff in L1 as (l & E & Hl). rewrite <- E. apply in_flat_map. exists l. split; [ exact Hl | ].
    apply rankMin_spec; auto.
  - apply in_map_iff in M1 as (l & E & Hl). rewrite <- E. apply in_flat_map. exists l. split; [ exact Hl | ].
    apply rankMax_spec; auto.
  - intros c Hc. apply in_flat_map in Hc as (l & Hl & Hc). split.
    + apply Qle_trans with (rankMin pl dl l); [ apply L2, in_map, Hl | apply rankMin_spec; auto ].
    + apply Qle_trans with (rankMax pl dl l); [ apply rankMax_spec; auto | apply M2, in_map, Hl ].
Qed.

Lemma qsum_ext : forall (A : Type) (f g : A -> Q) l, (forall x, In x l -> (f x == g x)%Q) -> (qsum (map f l) == qsum (map g l))%Q.
Proof.
  intros A f g l. induction l as [ | x l IH ]; intros H; cbn; [ reflexivity | ].
  rewrite (H x (or_introl eq_refl)). fold (qsum (map f l)). fold (qsum (map g l)). rewrite IH; [ reflexivity | ].
  intros; apply H; now right.
Qed.
Lemma ofNat_plus : forall a b, (ofNat (a + b) == ofNat a + ofNat b)%Q.
Proof. intros; unfold ofNat. now rewrite Nat2Z.inj_add, inject_Z_plus. Qed.
Lemma qsum_counts : forall (A : Type) (f : A -> nat) (d : Q) l, ~ (d == 0)%Q -> (qsum (map (fun x => ofNat (f x) / d) l) == ofNat (nsum (map f l)) / d)%Q.
Proof.
  intros A f d l Hd. induction l as [ | x l IH ]; cbn.
  - unfold ofNat; cbn. field. exact Hd.
  - fold (qsum (map (fun x => ofNat (f x) / d)%Q l)). fold (nsum (map f l)). rewrite IH, ofNat_plus. field. exact Hd.
Qed.

Lemma rank_counts : forall (p : Q -> bool) pl dl ranks s,
  nsum (map (fun rl : nat * list Q => length (filter p (samples pl dl (snd rl)))) (combine (seq s (length ranks)) ranks))
  = length (filter p (allSamples pl dl ranks)).
Proof.
  intros p pl dl ranks. unfold allSamples. induction ranks as [ | l ranks IH ]; intros s; [ reflexivity | ].
  cbn [length seq combine map flat_map snd]. rewrite filter_app, app_length, <- (IH (S s)). reflexivity.
Qed.

(** A fresh histogram of N bins over data spread over the ranks in equal parts, counted
    by T threads in any division. Missing: data within 1e-10 of one another, and what
    the next theorems refute. *)
Theorem histogram_partial : forall N T th ranks pl dl n,
  2 <= N -> ranks <> [] -> 0 < n -> (forall l, In l ranks -> length l = n) -> layout pl dl n ->
  (forall r i, th r i < T) ->
  let b := run N T th ranks (newBinner pl dl) in
  let all := allSamples pl dl ranks in
  (exists x y, In x all /\ In y all /\ (1 # 10000000000 <= y - x)%Q) ->
  (In (minVal b) all /\ In (maxVal b) all /\ forall c, In c all -> (minVal b <= c)%Q /\ (c <= maxVal b)%Q) /\
  ((baseVal b == minVal b - step b / 2)%Q /\ (maxVal b == minVal b + ofNat (N - 1) * step b)%Q /\ (0 < step b)%Q) /\
  (forall c, In c all -> exists j, j < N /\ inBin b j c /\ forall k, inBin b k c -> k = j) /\
  (forall j, j < N -> (bins b j * (ofNat (length all) * step b) == ofNat (howMany b j all))%Q) /\
  (qsum (map (fun j => bins b j * step b) (seq 0 N)) == 1)%Q.
Proof.
  intros N T th ranks pl dl n HN Hr Hn Hlen HL Hth b all Hspread.
  assert (Hne : forall l, In l ranks -> l <> []) by (intros l Hl C; apply Hlen in Hl; subst l; cbn in Hl; lia).
  set (f := find N ranks (newBinner pl dl)).
  pose proof (find_extremes N pl dl n ranks (newBinner pl dl) HL eq_refl eq_refl Hr Hne) as (Mn & Mx & Bd).
  fold f in Mn, Mx, Bd. fold all in Mn, Mx, Bd.
  assert (Gap : (1 # 10000000000 <= maxVal f - minVal f)%Q).
  { destruct Hspread as (x & y & Hx & Hy & Hd). apply Bd in Hx. apply Bd in Hy. lra. }
  assert (Close : Qltb (Qabs (maxVal f - minVal f)) (1 # 10000000000) = false).
  { apply Qltb_false. rewrite Qabs_pos by lra. exact Gap. }
  assert (Unph : unphysical f = false).
  { unfold f, find. cbn [unphysical newBinner]. fold f. change (Qltb (Qabs (maxVal f - minVal f)) (1 # 10000000000) || false = false).
    now rewrite Close. }
  assert (Eb : b = Binner (fun j => qsum (map (fun rl => rankBins N T f (length ranks) (th (fst rl)) (snd rl) j) (combine (seq 0 (length ranks)) ranks)))
      (maxVal f) (minVal f) (step f) (baseVal f) pl dl true false).
  { unfold b, run. cbn [setmaxmin newBinner]. fold (newBinner pl dl). fold f. rewrite Unph, Close. reflexivity. }
  assert (HNq : (0 < inject_Z (Z.of_nat N - 1))%Q) by (change 0%Q with (inject_Z 0); rewrite <- Zlt_Qlt; lia).
  assert (Rf : ready N f).
  { assert (Es : (step f == (maxVal f - minVal f) / inject_Z (Z.of_nat N - 1))%Q) by reflexivity.
    assert (Eb' : (baseVal f == minVal f - step f * (1 # 2))%Q) by reflexivity.
    assert (Em : (maxVal f - minVal f == inject_Z (Z.of_nat N - 1) * step f)%Q) by (rewrite Es; field; lra).
    split; [ exact HN | ]. split; [ | split; [ exact Eb' | lra ] ].
    destruct (Qlt_le_dec 0 (step f)) as [? | C]; [ assumption | exfalso ].
    assert (inject_Z (Z.of_nat N - 1) * step f <= inject_Z (Z.of_nat N - 1) * 0)%Q.
    { apply Qmult_le_l; [ exact HNq | exact C ]. }
    lra. }
  assert (Rb : ready N b) by (rewrite Eb; exact Rf).
  assert (Eall : length all = (if pl =? dl then n else n / pl * dl) * length ranks).
  { unfold all, allSamples. clear - HL Hlen. induction ranks as [ | l ranks IH ]; [ cbn; lia | ].
    cbn [flat_map length]. rewrite app_length, IH by (intros; apply Hlen; now right).
    rewrite (layout_size pl dl n l HL) by (apply Hlen; now left). rewrite (Hlen l) by now left. lia. }
  assert (Hall : 0 < length all) by (destruct all; [ destruct Mn | cbn; lia ]).
  assert (Hallq : (0 < ofNat (length all))%Q) by (unfold ofNat; change 0%Q with (inject_Z 0); rewrite <- Zlt_Qlt; lia).
  assert (Hstep : (0 < step f)%Q) by apply Rf.
  assert (Hnz : (0 < ofNat (length all) * step f)%Q).
  { setoid_replace 0%Q with (0 * step f)%Q by ring. apply Qmult_lt_compat_r; assumption. }
  assert (Counts : forall j, j < N -> (bins b j == ofNat (howMany b j all) / (ofNat (length all) * step f))%Q).
  { intros j Hj. rewrite Eb at 1. cbn [bins].
    assert (St : forall rl, In rl (combine (seq 0 (length ranks)) ranks) ->
      (rankBins N T f (length ranks) (th (fst rl)) (snd rl) j == ofNat (howMany f j (samples pl dl (snd rl))) / (ofNat (length all) * step f))%Q).
    { intros [r l] Hrl. cbn [fst snd]. assert (Hl : In l ranks) by (eapply in_combine_r; exact Hrl).
      unfold rankBins. rewrite countLoop_sum by apply Hth.
      change (padded f) with pl. change (dataLen f) with dl.
      assert (Ef : filter (fun c => match assign N f c with Some k => k =? j | None => false end) (samples pl dl l)
        = filter (inBinb f j) (samples pl dl l)).
      { apply filter_ext_in. intros c Hc. apply assign_iff; try assumption; apply Bd; apply in_flat_map; exists l; auto. }
      rewrite Ef. fold (howMany f j (samples pl dl l)). fold (ofNat (howMany f j (samples pl dl l))).
      assert (Ebz : (bins f j == 0)%Q).
      { unfold f, find. cbn [bins newBinner]. fold f. change (Qltb _ _) with (Qltb (Qabs (maxVal f - minVal f)) (1 # 10000000000)).
        rewrite Close. reflexivity. }
      assert (Ets : (totalSize f (length ranks) l == ofNat (length all) * step f)%Q).
      { unfold totalSize. change (padded f) with pl. change (dataLen f) with dl. rewrite (Hlen l Hl).
        rewrite Eall. reflexivity. }
      rewrite Ebz, Ets. lra. }
    rewrite (qsum_ext _ _ (fun rl => ofNat (howMany f j (samples pl dl (snd rl))) / (ofNat (length all) * step f))%Q _ St).
    rewrite qsum_counts by lra.
    assert (Ec : nsum (map (fun rl : nat * list Q => howMany f j (samples pl dl (snd rl))) (combine (seq 0 (length ranks)) ranks)) = howMany b j all).
    { rewrite Eb. apply (rank_counts (inBinb f j)). }
    rewrite Ec. reflexivity. }
  assert (Bd' : forall c, In c all -> (minVal b <= c)%Q /\ (c <= maxVal b)%Q) by (rewrite Eb; exact Bd).
  split; [ | split; [ | split; [ | split ] ] ].
  - rewrite Eb. cbn [minVal maxVal]. auto.
  - destruct Rb as (_ & R1 & R2 & R3). split; [ rewrite R2; field | ]. split; [ | exact R1 ].
    unfold ofNat. replace (Z.of_nat (N - 1)) with (Z.of_nat N - 1)%Z by lia. exact R3.
  - intros c Hc. destruct (Bd' c Hc) as [H1 H2].
    destruct (assign_bin N b c Rb H1 H2) as (j & _ & Hj & Hin). exists j. split; [ exact Hj | ]. split; [ exact Hin | ].
    intros k Hk. eapply inBin_unique; [ apply Rb | exact Hk | exact Hin ].
  - intros j Hj. rewrite Counts by assumption.
    assert (Es : step b = step f) by (rewrite Eb; reflexivity). rewrite Es.
    field. split; lra.
  - assert (Es : step b = step f) by (rewrite Eb; reflexivity).
    assert (E1 : (qsum (map (fun j => bins b j * step b) (seq 0 N)) == qsum (map (fun j => ofNat (howMany b j all) / ofNat (length all)) (seq 0 N)))%Q).
    { apply qsum_ext. intros j Hj. apply in_seq in Hj. rewrite Counts by lia. rewrite Es. field. split; lra. }
    rewrite E1, qsum_counts by lra.
    rewrite (counts_total N b all Rb Bd'). field. lra.
Qed.

Lemma permutation_filter_length : forall (p q : Q -> bool) l m, (forall c, In c l -> p c = q c) -> Permutation l m ->
  length (filter p l) = length (filter q m).
Proof.
  intros p q l m H P. rewrite (filter_ext_in _ _ _ H). clear H.
  induction P as [ | x l m P IH | x y l | l m k P1 IH1 P2 IH2 ]; cbn [filter]; try congruence.
  - destruct (q x); cbn [length]; congruence.
  - destruct (q x), (q y); reflexivity.
Qed.

(** The histogram depends on the samples only: neither on the division among ranks and
    threads, nor on the order, nor on the padding. *)
Theorem histogram_division : forall N T th ranks pl dl n T' th' ranks' pl' dl' n',
  2 <= N -> ranks <> [] -> 0 < n -> (forall l, In l ranks -> length l = n) -> layout pl dl n -> (forall r i, th r i < T) ->
  ranks' <> [] -> 0 < n' -> (forall l, In l ranks' -> length l = n') -> layout pl' dl' n' -> (forall r i, th' r i < T') ->
  Permutation (allSamples pl dl ranks) (allSamples pl' dl' ranks') ->
  (exists x y, In x (allSamples pl dl ranks) /\ In y (allSamples pl dl ranks) /\ (1 # 10000000000 <= y - x)%Q) ->
  let b := run N T th ranks (newBinner pl dl) in
  let b' := run N T' th' ranks' (newBinner pl' dl') in
  (minVal b == minVal b')%Q /\ (maxVal b == maxVal b')%Q /\ (step b == step b')%Q /\ (baseVal b == baseVal b')%Q /\
  forall j, j < N -> (bins b j == bins b' j)%Q.
Proof.
  intros N T th ranks pl dl n T' th' ranks' pl' dl' n' HN Hr Hn Hl HL Ht Hr' Hn' Hl' HL' Ht' P S b b'.
  destruct (histogram_partial N T th ranks pl dl n HN Hr Hn Hl HL Ht S) as ((A1 & A2 & A3) & (A4 & A5 & A6) & _ & A7 & _).
  assert (S' : exists x y, In x (allSamples pl' dl' ranks') /\ In y (allSamples pl' dl' ranks') /\ (1 # 10000000000 <= y - x)%Q).
  { destruct S as (x & y & Hx & Hy & H). exists x, y. split; [ | split; [ | exact H ] ]; eapply Permutation_in; eauto. }
  destruct (histogram_partial N T' th' ranks' pl' dl' n' HN Hr' Hn' Hl' HL' Ht' S') as ((B1 & B2 & B3) & (B4 & B5 & B6) & _ & B7 & _).
  fold b in A1, A2, A3, A4, A5, A6, A7. fold b' in B1, B2, B3, B4, B5, B6, B7.
  assert (I1 := Permutation_in _ P A1). assert (I2 := Permutation_in _ P A2).
  assert (I3 := Permutation_in _ (Permutation_sym P) B1). assert (I4 := Permutation_in _ (Permutation_sym P) B2).
  apply B3 in I1. apply B3 in I2. apply A3 in I3. apply A3 in I4.
  assert (Emin : (minVal b == minVal b')%Q) by lra.
  assert (Emax : (maxVal b == maxVal b')%Q) by lra.
  assert (HNq : (0 < ofNat (N - 1))%Q) by (unfold ofNat; change 0%Q with (inject_Z 0); rewrite <- Zlt_Qlt; lia).
  assert (Estep : (step b == step b')%Q).
  { assert (E : (ofNat (N - 1) * step b == ofNat (N - 1) * step b')%Q) by lra.
    apply Qmult_inj_l in E; [ exact E | lra ]. }
  assert (Ebase : (baseVal b == baseVal b')%Q) by (rewrite A4, B4, Emin, Estep; reflexivity).
  repeat split; try assumption.
  intros j Hj. specialize (A7 j Hj). specialize (B7 j Hj).
  assert (Ec : howMany b j (allSamples pl dl ranks) = howMany b' j (allSamples pl' dl' ranks')).
  { apply permutation_filter_length; [ | exact P ]. intros c _.
    apply Bool.eq_iff_eq_true. rewrite !inBinb_iff. unfold inBin. rewrite Estep, Ebase. reflexivity. }
  rewrite Ec, <- B7 in A7. rewrite (Permutation_length P), Estep in A7.
  apply Qmult_inj_r in A7; [ exact A7 | ].
  assert (Hp : 0 < length (allSamples pl' dl' ranks')) by (destruct (allSamples pl' dl' ranks'); [ destruct B1 | cbn; lia ]).
  assert (Hq : (0 < ofNat (length (allSamples pl' dl' ranks')))%Q) by (unfold ofNat; change 0%Q with (inject_Z 0); rewrite <- Zlt_Qlt; lia).
  intros C. apply Qmult_integral in C as [C | C]; lra.
Qed.

(** Running the same histogram object a second time adds to what is there, and on more
    than one rank counts the old content once per rank: on two ranks the sum is 3. *)
Theorem histogram_again_refuted : exists N T th ranks,
  2 <= N /\ (forall r i, th r i < T) /\ length ranks = 2 /\
  let b := run N T th ranks (newBinner 1 1) in
  (qsum (map (fun j => bins b j * step b) (seq 0 N)) == 1)%Q /\
  let b2 := run N T th ranks b in
  (qsum (map (fun j => bins b2 j * step b2) (seq 0 N)) == 3)%Q.
Proof.
  exists 3, 1, (fun _ _ => 0), [[0; 2]; [1; 4]]%Q. split; [ lia | ]. split; [ intros; lia | ]. split; [ reflexivity | ].
  vm_compute. auto.
Qed.

(** Padded data that is not a whole number of rows: the samples of the last row are
    binned but not counted in the total, so the histogram is not normalised. *)
Theorem histogram_ragged_refuted : exists N T th ranks,
  2 <= N /\ (forall r i, th r i < T) /\
  let b := run N T th ranks (newBinner 4 2) in
  (qsum (map (fun j => bins b j * step b) (seq 0 N)) == 3 # 2)%Q.
Proof.
  exists 3, 1, (fun _ _ => 0), [[0; 2; 0; 0; 3]]%Q. split; [ lia | ]. split; [ intros; lia | ].
  vm_compute. auto.
Qed.

(** Data that differ by less than 1e-10: the histogram holds the greatest sample in every
    bin instead of a density, whatever the data: even negative. *)
Theorem histogram_constant_refuted : forall N T th ranks pl dl n, 2 <= N ->
  ranks <> [] -> 0 < n -> (forall l, In l ranks -> length l = n) -> layout pl dl n ->
  (forall x y, In x (allSamples pl dl ranks) -> In y (allSamples pl dl ranks) -> (y - x < 1 # 10000000000)%Q) ->
  let b := run N T th ranks (newBinner pl dl) in
  forall j, bins b j = maxVal b.
Proof.
  intros N T th ranks pl dl n HN Hr Hn Hlen HL Hc b j.
  assert (Hne : forall l, In l ranks -> l <> []) by (intros l Hl C; apply Hlen in Hl; subst l; cbn in Hl; lia).
  pose proof (find_extremes N pl dl n ranks (newBinner pl dl) HL eq_refl eq_refl Hr Hne) as (Mn & Mx & Bd).
  set (f := find N ranks (newBinner pl dl)) in *.
  assert (Close : Qltb (Qabs (maxVal f - minVal f)) (1 # 10000000000) = true).
  { apply Qltb_iff. rewrite Qabs_pos by (apply Bd in Mn; lra). now apply Hc. }
  assert (Unph : unphysical f = true).
  { change (Qltb (Qabs (maxVal f - minVal f)) (1 # 10000000000) || false = true). now rewrite Close. }
  unfold b, run. cbn [setmaxmin newBinner]. fold (newBinner pl dl). fold f. rewrite Unph.
  change (bins f j) with ((if Qltb (Qabs (maxVal f - minVal f)) (1 # 10000000000) then (fun _ => maxVal f) else (fun _ : nat => 0%Q)) j).
  now rewrite Close.
Qed.

(** Two ranks with rows of four entries of which three are data, two threads. *)
Example histogram_example :
  let ranks := [[0; 5; 2; 99; 1; 1; 3; 99]; [4; 4; 2; 99; -3; 0; 0; 99]]%Q in
  let th := fun r i : nat => i mod 2 in
  (exists x y, In x (allSamples 4 3 ranks) /\ In y (allSamples 4 3 ranks) /\ (1 # 10000000000 <= y - x)%Q) /\
  layout 4 3 8 /\ (forall r i, th r i < 2) /\
  let b := run 5 2 th ranks (newBinner 4 3) in
  (minVal b == -3)%Q /\ (maxVal b == 5)%Q /\ map (fun j => howMany b j (allSamples 4 3 ranks)) (seq 0 5) = [1; 0; 5; 3; 3] /\
  (bins b 2 == 5 # 24)%Q.
Proof.
  split; [ | split; [ | split ] ].
  - exists (-3)%Q, 5%Q. vm_compute. intuition congruence.
  - right. split; [ lia | reflexivity ].
  - intros r i. apply Nat.mod_upper_bound. lia.
  - vm_compute. auto.
Qed.

Print Assumptions histogram_partial.
Print Assumptions histogram_division.
Print Assumptions histogram_again_refuted.
Print Assumptions histogram_ragged_refuted.
Print Assumptions histogram_constant_refuted.
