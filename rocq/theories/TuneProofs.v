(** Proofs about the tuner. *)
From Coq Require Import List Arith Bool Lia.
From Verif Require Import TuneModel TuneSpec.
Import ListNotations.

Lemma find_seq_some : forall p n s d, find p (seq s n) = Some d ->
  s <= d < s + n /\ p d = true /\ forall e, s <= e < d -> p e = false.
Proof.
  intros p. induction n as [ | n IH ]; intros s d H; cbn in H; [ discriminate | ].
  destruct (p s) eqn:Es.
  - injection H as <-. repeat split; try lia; try assumption. all: intros; lia.
  - apply IH in H as (H1 & H2 & H3). repeat split; try lia; try assumption.
    intros e He. destruct (Nat.eq_dec e s) as [-> | ]; [ assumption | apply H3; lia ].
Qed.
Lemma find_seq_none : forall p n s, find p (seq s n) = None -> forall e, s <= e < s + n -> p e = false.
Proof.
  intros p n s H e He. apply (find_none _ _ H). apply in_seq. lia.
Qed.

Lemma mod_above : forall size d, 0 < size -> size < d -> size mod d <> 0.
Proof. intros size d H1 H2. rewrite Nat.mod_small by lia. lia. Qed.

(** [next] is what the counting loop computes, wrap-around included. *)
Lemma count_up_next : forall W size b, b + 1 < W -> size < W -> count_up W size b (next size b).
Proof.
  intros W size b Hb Hs. unfold next.
  destruct (find _ _) as [d | ] eqn:E.
  - apply find_seq_some in E as (H1 & H2 & H3). apply Nat.eqb_eq in H2.
    assert (d < W) by lia.
    remember (d - b) as k eqn:Ek. revert b Hb H1 H3 Ek.
    induction k as [ | k IH ]; intros b Hb H1 H3 Ek; [ lia | ].
    destruct (Nat.eq_dec d (b + 1)) as [-> | Hn].
    + now apply cu_stop.
    + apply cu_next; [ lia | apply Nat.eqb_neq, H3; lia | ].
      apply IH; try lia. intros e He. apply H3; lia.
  - pose proof (find_seq_none _ _ _ E) as N.
    assert (Hz : 0 < size).
    { destruct size; [ | lia ]. specialize (N (b + 1) ltac:(lia)). apply Nat.eqb_neq in N.
      rewrite Nat.mod_0_l in N; lia. }
    assert (N' : forall e, b < e -> size mod e <> 0).
    { intros e He. destruct (Nat.le_gt_cases e size).
      - apply Nat.eqb_neq, N; lia.
      - apply mod_above; lia. }
    clear N E. remember (W - 1 - b) as k eqn:Ek. revert b Hb Ek N'.
    induction k as [ | k IH ]; intros b Hb Ek N'; [ lia | ].
    apply cu_next; [ lia | apply N'; lia | ].
    destruct (Nat.eq_dec (b + 2) W).
    + apply cu_wrap; lia.
    + apply IH; try lia. intros e He; apply N'; lia.
Qed.
Lemma count_up_det : forall W size b r, count_up W size b r -> forall r', count_up W size b r' -> r = r'.
Proof.
  intros W size b r H. induction H; intros r' H'; inversion H'; subst; try lia; try congruence.
  now apply IHcount_up.
Qed.

Lemma next_some : forall n k d, next n k = Some d -> k < n -> k < d <= n /\ n mod d = 0.
Proof.
  intros n k d H Hk. unfold next in H. apply find_seq_some in H as (H1 & H2 & _).
  apply Nat.eqb_eq in H2. split; [ lia | assumption ].
Qed.

Lemma divisors_next : forall n k, k < n -> exists d, next n k = Some d /\ k < d <= n /\ n mod d = 0 /\
  divisors_above n k = d :: divisors_above n d.
Proof.
  intros n k Hk. unfold next, divisors_above. replace (max 1 (n - k)) with (n - k) by lia.
  remember (n - k) as m eqn:Em. revert k Hk Em.
  induction m as [ | m IH ]; intros k Hk Em; [ lia | ].
  cbn [find seq filter]. destruct (n mod (k + 1) =? 0) eqn:E.
  - exists (k + 1). apply Nat.eqb_eq in E. repeat split; try lia; try assumption.
    f_equal. f_equal. f_equal; lia.
  - assert (k + 1 <> n) by (intros C; rewrite C, Nat.mod_same in E by lia; discriminate).
    destruct (IH (k + 1) ltac:(lia) ltac:(lia)) as (d & H1 & H2 & H3 & H4).
    exists d. replace (k + 1 + 1) with (S (k + 1)) in * by lia.
    repeat split; try lia; assumption.
Qed.
Lemma divisors_end : forall n, divisors_above n n = [].
Proof. intros n. unfold divisors_above. now rewrite Nat.sub_diag. Qed.
Lemma in_divisors : forall n k d, In d (divisors_above n k) <-> k < d <= n /\ n mod d = 0.
Proof.
  intros n k d. unfold divisors_above. rewrite filter_In, in_seq, Nat.eqb_eq.
  split; intros [H1 H2]; (split; [ lia | assumption ]).
Qed.

(** ** The CPU *)
Definition at_cpu (xs ys zs y z : nat) (t : tun) : Prop :=
  xBlock t = xs /\ yBlock t = y /\ zBlock t = z /\ ySize t = ys /\ zSize t = zs /\ isTuned t = false /\ isGpu t = false.
Definition cpu_rest (xs ys zs y z : nat) : list block :=
  map (fun y => (xs, y, z)) (y :: divisors_above ys y)
  ++ flat_map (fun z => map (fun y => (xs, y, z)) (divisors_above ys 3)) (divisors_above zs z).

Lemma at_cpu_best : forall xs ys zs y z t b, at_cpu xs ys zs y z t -> at_cpu xs ys zs y z (if b : bool then updateBest t else t).
Proof. intros xs ys zs y z t [] H; [ destruct t; exact H | exact H ]. Qed.

Lemma cpu_advance : forall xs ys zs y z t, at_cpu xs ys zs y z t -> 4 <= ys -> 1 <= y <= ys -> 1 <= z <= zs ->
  exists t', advanceCpu t = Some t' /\
    ((exists y' z', at_cpu xs ys zs y' z' t' /\ 1 <= y' <= ys /\ 1 <= z' <= zs /\
       cpu_rest xs ys zs y z = (xs, y, z) :: cpu_rest xs ys zs y' z' /\ (z < z' \/ z' = z /\ y < y'))
     \/ isTuned t' = true /\ cpu_rest xs ys zs y z = [(xs, y, z)]).
Proof.
  intros xs ys zs y z t (Ex & Ey & Ez & Es & Ezs & Et & Eg) H4 Hy Hz.
  unfold advanceCpu. rewrite Ey, Es.
  destruct (Nat.ltb_spec y ys) as [Hlt | Hge].
  - destruct (divisors_next ys y Hlt) as (y' & N & B & _ & D). rewrite N.
    eexists; split; [ reflexivity | ]. left. exists y', z.
    split; [ destruct t; cbn in *; repeat split; assumption || reflexivity | ].
    repeat split; try lia. unfold cpu_rest. rewrite D. reflexivity.
  - assert (Eyy : y = ys) by lia; rewrite Eyy in *; clear Eyy.
    destruct (divisors_next ys 3 ltac:(lia)) as (y' & N & B & _ & D). rewrite N.
    cbn [zBlock zSize setBlock]. rewrite Ez, Ezs.
    destruct (Nat.ltb_spec z zs) as [Hlz | Hgz].
    + destruct (divisors_next zs z Hlz) as (z' & Nz & Bz & _ & Dz). rewrite Nz.
      eexists; split; [ reflexivity | ]. left. exists y', z'.
      split; [ destruct t; cbn in *; repeat split; assumption || reflexivity | ].
      repeat split; try lia. unfold cpu_rest.  rewrite Dz, divisors_end. cbn [map flat_map app].
      rewrite D. reflexivity.
    + assert (Ezz : z = zs) by lia; rewrite Ezz in *; clear Ezz.
      eexists; split; [ reflexivity | ]. right. split; [ reflexivity | ].
      unfold cpu_rest. rewrite !divisors_end. reflexivity.
Qed.

Lemma cpu_tuning : forall W mTB time xs ys zs, 4 <= ys -> forall n m y z t i best,
  zs - z <= n -> ys - y <= m ->
  at_cpu xs ys zs y z t -> 1 <= y <= ys -> 1 <= z <= zs ->
  exists r, tuning W mTB time i best t (cpu_rest xs ys zs y z) (Some r).
Proof.
  intros W mTB time xs ys zs H4. induction n as [ n IHn ] using lt_wf_ind.
  induction m as [ m IHm ] using lt_wf_ind.
  intros y z t i best Hn Hm At Hy Hz.
  assert (B : theBlock t = (xs, y, z)) by (destruct At as (? & ? & ? & _); unfold theBlock; congruence).
  pose proof (at_cpu_best _ _ _ _ _ _ (time i <? best) At) as At'.
  destruct (cpu_advance _ _ _ _ _ _ At' H4 Hy Hz) as (t' & A & [(y' & z' & At2 & Hy' & Hz' & E & L) | (T & E)]).
  - assert (R : exists r, tuning W mTB time (i + 1) (if time i <? best then time i else best) t' (cpu_rest xs ys zs y' z') (Some r)).
    { destruct L as [L | [-> L]].
      - apply (IHn (zs - z') ltac:(lia) ys); try assumption; lia.
      - apply (IHm (ys - y') ltac:(lia)); try assumption; lia. }
    destruct R as [r R]. exists r. rewrite E, <- B.
    apply tn_step with t'; [ apply At | | exact R ].
    rewrite <- A. apply adv_cpu, At'.
  - eexists. rewrite E, <- B. apply tn_step with t'; [ apply At | | apply tn_end, T ].
    rewrite <- A. apply adv_cpu, At'.
Qed.

(** ** The GPU *)
Definition at_gpu (xs zs xm ym x y : nat) (t : tun) : Prop :=
  xBlock t = x /\ yBlock t = y /\ zBlock t = 1 /\ xSize t = xs /\ ySize t = zs /\ xMax t = xm /\ yMax t = ym /\
  isTuned t = false /\ isGpu t = true.
Lemma at_gpu_best : forall xs zs xm ym x y t b, at_gpu xs zs xm ym x y t -> at_gpu xs zs xm ym x y (if b : bool then updateBest t else t).
Proof. intros xs zs xm ym x y t [] H; [ destruct t; exact H | exact H ]. Qed.
Definition left_gpu (xs zs x y : nat) : nat := (zs - y) * (xs + 1) + (xs - x).

Lemma gpu_step : forall xs zs xm ym x y t, at_gpu xs zs xm ym x y t -> 8 <= xs -> xm <= xs -> ym <= zs ->
  x <= xs -> 1 <= y <= zs ->
  exists t', stepGpu t = Some t' /\
    ((exists x' y', at_gpu xs zs xm ym x' y' t' /\ 1 <= x' <= xs /\ 1 <= y' <= zs /\ xs mod x' = 0 /\ (zs mod y = 0 -> zs mod y' = 0) /\
        left_gpu xs zs x' y' < left_gpu xs zs x y)
     \/ isTuned t' = true).
Proof.
  intros xs zs xm ym x y t (Ex & Ey & Ez & Es & Ezs & Exm & Eym & Et & Eg) H8 Hxm Hym Hx Hy.
  unfold stepGpu. rewrite Ex, Exm, Es.
  destruct (Nat.ltb_spec x xm) as [Hlt | Hge].
  - destruct (divisors_next xs x ltac:(lia)) as (x' & N & B & M & D). rewrite N.
    eexists; split; [ reflexivity | ]. left. exists x', y.
    split; [ destruct t; cbn in *; repeat split; assumption || reflexivity | ].
    unfold left_gpu. repeat split; try lia; auto.
  - destruct (divisors_next xs 7 ltac:(lia)) as (x' & N & B & M & D). rewrite N.
    cbn [yBlock yMax setBlock]. rewrite Ey, Eym.
    destruct (Nat.ltb_spec y ym) as [Hlz | Hgz].
    + cbn [ySize]. rewrite Ezs. destruct (divisors_next zs y ltac:(lia)) as (y' & Nz & Bz & Mz & Dz). rewrite Nz.
      eexists; split; [ reflexivity | ]. left. exists x', y'.
      split; [ destruct t; cbn in *; repeat split; assumption || reflexivity | ].
      repeat split; try lia; auto.
      unfold left_gpu.
      assert ((zs - y') * (xs + 1) + (xs + 1) <= (zs - y) * (xs + 1)).
      { replace ((zs - y') * (xs + 1) + (xs + 1)) with ((zs - y' + 1) * (xs + 1)) by lia.
        apply Nat.mul_le_mono_r. lia. }
      lia.
    + eexists; split; [ reflexivity | ]. now right.
Qed.

Definition gpu_ok (W mTB xs zs : nat) (b : block) : Prop :=
  let '(x, y, z) := b in 1 <= x <= xs /\ 1 <= y <= zs /\ z = 1 /\ xs mod x = 0 /\ zs mod y = 0 /\ (x * y) mod W <= mTB.

Lemma gpu_advance : forall W mTB xs zs xm ym, 8 <= xs -> xm <= xs -> ym <= zs -> forall n x y t,
  left_gpu xs zs x y <= n -> at_gpu xs zs xm ym x y t -> x <= xs -> 1 <= y <= zs -> zs mod y = 0 ->
  exists t', advance W mTB t (Some t') /\
    ((exists x' y', at_gpu xs zs xm ym x' y' t' /\ gpu_ok W mTB xs zs (x', y', 1) /\
       left_gpu xs zs x' y' < left_gpu xs zs x y) \/ isTuned t' = true).
Proof.
  intros W mTB xs zs xm ym H8 Hxm Hym. induction n as [ n IH ] using lt_wf_ind.
  intros x y t Hn At Hx Hy Hd.
  destruct (gpu_step _ _ _ _ _ _ _ At H8 Hxm Hym Hx Hy) as (t' & S & [(x' & y' & At' & Hx' & Hy' & Mx & My & L) | T]).
  - destruct (Nat.le_gt_cases (totalThreads W t') mTB) as [Hle | Hgt].
    + exists t'. split; [ eapply adv_gpu_stop; [ apply At | exact S | now right ] | ].
      left. exists x', y'. split; [ exact At' | ]. split; [ | exact L ].
      unfold totalThreads in Hle. destruct At' as (E1 & E2 & E3 & _).
      rewrite E1, E2, E3, Nat.mul_1_r in Hle. unfold gpu_ok. auto 10.
    + destruct (IH (left_gpu xs zs x' y') ltac:(lia) x' y' t' (le_n _) At' ltac:(lia) Hy' (My Hd)) as (t2 & A2 & C).
      exists t2. split.
      * eapply adv_gpu_again; [ apply At | exact S | apply At' | exact Hgt | exact A2 ].
      * destruct C as [(x2 & y2 & C1 & C2 & C3) | C]; [ left; exists x2, y2; split; [ exact C1 | split; [ exact C2 | lia ] ] | now right ].
  - exists t'. split; [ eapply adv_gpu_stop; [ apply At | exact S | now left ] | now right ].
Qed.

Lemma gpu_tuning : forall W mTB time xs zs xm ym, 8 <= xs -> xm <= xs -> ym <= zs -> forall n x y t i best,
  left_gpu xs zs x y <= n -> at_gpu xs zs xm ym x y t -> x <= xs -> 1 <= y <= zs -> zs mod y = 0 ->
  exists l r, tuning W mTB time i best t (theBlock t :: l) (Some r) /\ Forall (gpu_ok W mTB xs zs) l.
Proof.
  intros W mTB time xs zs xm ym H8 Hxm Hym. induction n as [ n IH ] using lt_wf_ind.
  intros x y t i best Hn At Hx Hy Hd.
  pose proof (at_gpu_best _ _ _ _ _ _ _ (time i <? best) At) as At'.
  destruct (gpu_advance W mTB xs zs xm ym H8 Hxm Hym _ x y _ (le_n _) At' Hx Hy Hd)
    as (t' & A & [(x' & y' & At2 & Ok & L) | T]).
  - destruct (IH (left_gpu xs zs x' y') ltac:(lia) x' y' t' (i + 1) (if time i <? best then time i else best)
      (le_n _) At2) as (l & r & Tn & F).
    { unfold gpu_ok in Ok; lia. } { unfold gpu_ok in Ok; lia. } { unfold gpu_ok in Ok; intuition. }
    exists (theBlock t' :: l), r. split.
    + apply tn_step with t'; [ apply At | exact A | exact Tn ].
    + constructor; [ | exact F ]. destruct At2 as (E1 & E2 & E3 & _). unfold theBlock. now rewrite E1, E2, E3.
  - exists [], (if time i <? best then time i else best, t'). split; [ | constructor ].
    apply tn_step with t'; [ apply At | exact A | apply tn_end, T ].
Qed.

(** ** Determinism *)
Lemma advance_det : forall W mTB t r, advance W mTB t r -> forall r', advance W mTB t r' -> r = r'.
Proof.
  intros W mTB t r H. induction H; intros r' H'; inversion H'; subst; try congruence.
  - assert (t' = t'0) by congruence; subst. destruct H1 as [C | C]; [ congruence | lia ].
  - assert (t' = t'0) by congruence; subst. destruct H6 as [C | C]; [ congruence | lia ].
  - assert (t' = t'0) by congruence; subst. now apply IHadvance.
Qed.
Lemma tuning_det : forall W mTB time i best t l r, tuning W mTB time i best t l r ->
  forall l' r', tuning W mTB time i best t l' r' -> l = l' /\ r = r'.
Proof.
  intros W mTB time i best t l r H. induction H; intros l' r' H'; inversion H'; subst; try congruence.
  - now split.
  - now split.
  - pose proof (advance_det _ _ _ _ H0 _ H2); discriminate.
  - pose proof (advance_det _ _ _ _ H0 _ H3); discriminate.
  - pose proof (advance_det _ _ _ _ H0 _ H3) as E; injection E as E; subst.
    destruct (IHtuning _ _ H4) as [-> ->]. now split.
Qed.
Lemma tuneLoop_det : forall W mTB time t l r, tuneLoop W mTB time t l r ->
  forall l' r', tuneLoop W mTB time t l' r' -> l = l' /\ r = r'.
Proof.
  intros W mTB time t l r H l' r' H'. destruct H as [A | t1 l1 r1 A T]; destruct H' as [A' | t2 l2 r2 A' T'].
  - now split.
  - pose proof (advance_det _ _ _ _ A _ A'); discriminate.
  - pose proof (advance_det _ _ _ _ A _ A'); discriminate.
  - pose proof (advance_det _ _ _ _ A _ A') as E; injection E as <-.
    destruct (tuning_det _ _ _ _ _ _ _ _ T _ _ T') as [<- <-]. now split.
Qed.

(** ** The best block *)
Lemma setBlock_best : forall t b, bestBlock (setBlock t b) = bestBlock t.
Proof. intros t [[x y] z]; reflexivity. Qed.
Lemma advanceCpu_best : forall t t', advanceCpu t = Some t' -> bestBlock t' = bestBlock t.
Proof.
  intros t t' H. unfold advanceCpu in H. destruct (yBlock t <? ySize t).
  - destruct (next _ _); [ injection H as <-; reflexivity | discriminate ].
  - destruct (next (ySize t) 3); [ | discriminate ]. cbn [zBlock zSize setBlock] in H.
    destruct (zBlock t <? zSize t); [ destruct (next _ _); [ | discriminate ] | ]; injection H as <-; reflexivity.
Qed.
Lemma stepGpu_best : forall t t', stepGpu t = Some t' -> bestBlock t' = bestBlock t.
Proof.
  intros t t' H. unfold stepGpu in H. destruct (xBlock t <? xMax t).
  - destruct (next _ _); [ injection H as <-; reflexivity | discriminate ].
  - destruct (next (xSize t) 7); [ | discriminate ]. cbn [yBlock yMax ySize setBlock] in H.
    destruct (yBlock t <? yMax t); [ destruct (next _ _); [ | discriminate ] | ]; injection H as <-; reflexivity.
Qed.
Lemma advance_best : forall W mTB t r, advance W mTB t r -> forall t', r = Some t' -> bestBlock t' = bestBlock t.
Proof.
  intros W mTB t r H. induction H; intros t1 E.
  - now apply advanceCpu_best.
  - discriminate.
  - injection E as <-. now apply stepGpu_best.
  - rewrite (IHadvance _ E). now apply stepGpu_best.
Qed.

Lemma tuning_best : forall W mTB time i best t l r, tuning W mTB time i best t l r ->
  forall best' t', r = Some (best', t') ->
  (forall j, j < length l -> best' <= time (i + j)) /\ best' <= best /\
  (best' = best /\ bestBlock t' = bestBlock t \/
   exists k, k < length l /\ best' = time (i + k) /\ nth_error l k = Some (bestBlock t') /\ best' < best /\
     forall j, j < k -> best' < time (i + j)).
Proof.
  intros W mTB time i best t l r H. induction H; intros best' t1 E.
  - injection E as <- <-. split; [ cbn; intros; lia | ]. split; [ lia | ]. now left.
  - discriminate.
  - specialize (IHtuning _ _ E) as (I1 & I2 & I3).
    pose proof (advance_best _ _ _ _ H0 _ eq_refl) as AB.
    destruct (Nat.ltb_spec (time i) best) as [Hlt | Hge].
    + split; [ | split; [ lia | ] ].
      { intros [ | j ] Hj; [ rewrite Nat.add_0_r; lia | ]. cbn in Hj. replace (i + S j) with (i + 1 + j) by lia. apply I1; lia. }
      right. destruct I3 as [[-> I3] | (k & K1 & K2 & K3 & K4 & K5)].
      * exists 0. rewrite Nat.add_0_r. cbn [length nth_error]. rewrite I3, AB. repeat split; try lia.
      * exists (S k). cbn [length nth_error]. replace (i + S k) with (i + 1 + k) by lia.
        repeat split; try lia; try assumption.
        intros [ | j ] Hj; [ rewrite Nat.add_0_r; lia | replace (i + S j) with (i + 1 + j) by lia; apply K5; lia ].
    + split; [ | split; [ lia | ] ].
      { intros [ | j ] Hj; [ rewrite Nat.add_0_r; lia | ]. cbn in Hj. replace (i + S j) with (i + 1 + j) by lia. apply I1; lia. }
      destruct I3 as [[-> I3] | (k & K1 & K2 & K3 & K4 & K5)].
      * left. split; [ reflexivity | congruence ].
      * right. exists (S k). cbn [length nth_error]. replace (i + S k) with (i + 1 + k) by lia.
        repeat split; try lia; try assumption.
        intros [ | j ] Hj; [ rewrite Nat.add_0_r; lia | replace (i + S j) with (i + 1 + j) by lia; apply K5; lia ].
Qed.
