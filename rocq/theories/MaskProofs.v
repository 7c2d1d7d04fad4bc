(** Proofs about the masking of balls around defects. *)
From Coq Require Import List Arith ZArith NArith Lia Permutation.
From Verif Require Import MaskModel MaskSpec.
Import ListNotations.
Local Open Scope nat_scope.

(** ** The ball *)
Lemma inflLoop_spec : forall fuel a ts, (0 <= ts)%Z -> ((ts - 1) * (ts - 1) <= a \/ ts = 0)%Z -> (a < (ts + Z.of_nat fuel) * (ts + Z.of_nat fuel))%Z ->
  let s := inflLoop fuel a ts in (0 <= s /\ ((s - 1) * (s - 1) <= a \/ s = 0) /\ a < s * s)%Z.
Proof.
  induction fuel as [ | fuel IH ]; intros a ts H0 H1 H2; cbn [inflLoop].
  - rewrite Z.add_0_r in H2. auto.
  - destruct (Z.leb_spec (ts * ts) a) as [C | C].
    + apply IH; [ lia | left; replace (ts + 1 - 1)%Z with ts by lia; exact C | ].
      replace (ts + 1 + Z.of_nat fuel)%Z with (ts + Z.of_nat (S fuel))%Z by lia. exact H2.
    + auto.
Qed.
Lemma inflsq_spec : forall a, (0 <= a)%Z -> (0 <= inflsq a /\ inflsq a * inflsq a <= a < (inflsq a + 1) * (inflsq a + 1))%Z.
Proof.
  intros a Ha. unfold inflsq.
  destruct (inflLoop_spec (Z.to_nat a + 2) a 0) as (A & B & C); [ lia | now right | | ].
  - replace (0 + Z.of_nat (Z.to_nat a + 2))%Z with (a + 2)%Z by lia. nia.
  - set (s := inflLoop _ _ _) in *. assert (s <> 0)%Z by (intros E; rewrite E in C; lia).
    replace (s - 1 + 1)%Z with s by lia. destruct B; lia.
Qed.
Lemma inflsq_le : forall a d, (0 <= a)%Z -> (- inflsq a <= d <= inflsq a <-> d * d <= a)%Z.
Proof.
  intros a d Ha. destruct (inflsq_spec a Ha) as (A & B & C). split; intros H.
  - assert (d * d <= inflsq a * inflsq a)%Z by nia. lia.
  - nia.
Qed.
Lemma in_zrange : forall a b d, In d (zrange a b) <-> (a <= d <= b)%Z.
Proof.
  intros a b d. unfold zrange. rewrite in_map_iff. split.
  - intros (i & <- & Hi). apply in_seq in Hi. lia.
  - intros H. exists (Z.to_nat (d - a)). split; [ lia | apply in_seq; lia ].
Qed.
Lemma sqrt_le : forall a d, (0 <= a)%Z -> (- Z.sqrt a <= d <= Z.sqrt a <-> d * d <= a)%Z.
Proof.
  intros a d Ha. pose proof (Z.sqrt_spec a Ha) as [A B]. pose proof (Z.sqrt_nonneg a). rewrite <- Z.add_1_r in B. split; intros H'.
  - assert (d * d <= Z.sqrt a * Z.sqrt a)%Z by nia. lia.
  - nia.
Qed.
Lemma ball_in : forall (f : Z -> Z -> Z -> instr) R2 i, (0 <= R2)%Z ->
  In i (flat_map (fun dz => flat_map (fun dy => map (fun dx => f dz dy dx) (zrange (- inflsq (R2 - dz * dz - dy * dy)) (inflsq (R2 - dz * dz - dy * dy))))
    (zrange (- inflsq (R2 - dz * dz)) (inflsq (R2 - dz * dz)))) (zrange (- Z.sqrt R2) (Z.sqrt R2))) <->
  exists dx dy dz, within R2 dx dy dz /\ i = f dz dy dx.
Proof.
  intros f R2 i HR. rewrite in_flat_map. unfold within. split.
  - intros (dz & Hz & H). apply in_flat_map in H. destruct H as (dy & Hy & H). apply in_map_iff in H. destruct H as (dx & <- & Hx).
    rewrite in_zrange in *. apply sqrt_le in Hz; [ | exact HR ]. apply inflsq_le in Hy; [ | lia ]. apply inflsq_le in Hx; [ | lia ].
    exists dx, dy, dz. split; [ lia | reflexivity ].
  - intros (dx & dy & dz & W & ->). assert (0 <= dx * dx /\ 0 <= dy * dy /\ 0 <= dz * dz)%Z as (X & Y & Z0) by (repeat split; apply Z.square_nonneg).
    exists dz. split; [ apply in_zrange; apply sqrt_le; lia | ]. apply in_flat_map. exists dy. split; [ apply in_zrange; apply inflsq_le; lia | ].
    apply in_map_iff. exists dx. split; [ reflexivity | ]. apply in_zrange. apply inflsq_le; lia.
Qed.

Definition wrapped (L a : nat) (d : Z) : nat := Z.to_nat ((Z.of_nat L + Z.of_nat a + d) mod Z.of_nat L).
Lemma wrapped_reaches : forall L a d b, 0 < L -> (b < L /\ reaches L a d b <-> wrapped L a d = b).
Proof.
  intros L a d b HL. unfold wrapped, reaches. replace (Z.of_nat L + Z.of_nat a + d)%Z with (Z.of_nat a + d + 1 * Z.of_nat L)%Z by lia.
  rewrite Z.mod_add by lia. pose proof (Z.mod_pos_bound (Z.of_nat a + d) (Z.of_nat L) ltac:(lia)) as B. lia.
Qed.
(** what a step of the ball does *)
Definition effBorder (L Lz z y x : nat) (dz dy dx : Z) : instr :=
  let c := L * wrapped L y dy + wrapped L x dx in
  let zii := (Z.of_nat z + dz)%Z in
  if (zii <? 0)%Z then LoadF c (Z.to_nat (- zii))
  else if (Z.of_nat Lz <=? zii)%Z then LoadB c (Z.to_nat (zii + 1 - Z.of_nat Lz))
  else Mark (L * L * Z.to_nat zii + L * wrapped L y dy + wrapped L x dx).
Lemma ballBorder_in : forall L Lz R2 z y x i, (0 <= R2)%Z -> (Z.sqrt R2 <= Z.of_nat Lz)%Z ->
  (In i (ballBorder L Lz R2 (Z.sqrt R2) z y x) <-> exists dx dy dz, within R2 dx dy dz /\ i = effBorder L Lz z y x dz dy dx).
Proof.
  intros L Lz R2 z y x i HR Hz. unfold ballBorder. destruct (Z.ltb_spec (Z.of_nat Lz) (Z.sqrt R2)); [ lia | ].
  exact (ball_in (fun dz dy dx => effBorder L Lz z y x dz dy dx) R2 i HR).
Qed.
Lemma ballBulk_in : forall L R2 z y x i, (0 <= R2)%Z ->
  (In i (ballBulk L R2 (Z.sqrt R2) z y x) <-> exists dx dy dz, within R2 dx dy dz /\
    i = Mark (Z.to_nat (Z.of_nat z + dz) * (L * L) + L * wrapped L y dy + wrapped L x dx)).
Proof. intros L R2 z y x i HR. unfold ballBulk. exact (ball_in (fun dz dy dx => Mark (Z.to_nat (Z.of_nat z + dz) * (L * L) + L * wrapped L y dy + wrapped L x dx)) R2 i HR). Qed.

(** ** Any interleaving of the threads *)
Lemma setN_same : forall A (f : nat -> A) i a, setN f i a i = a.
Proof. intros. unfold setN. now rewrite Nat.eqb_refl. Qed.
Lemma setN_other : forall A (f : nat -> A) i a j, j <> i -> setN f i a j = f j.
Proof. intros A f i a j H. unfold setN. apply Nat.eqb_neq in H. now rewrite H. Qed.

Section machine.
Variables (L : nat) (D M : N) (ball : nat -> nat -> nat -> list instr).
Hypothesis HDM : N.land D M = 0%N.
Hypothesis Hball : forall z y x i, In i (ball z y x) -> match i with Visit _ _ _ => False | _ => True end.
Variable st0 : mstate.
Definition defect0 (z y x : nat) : bool := negb (N.land (m_sd st0 (L * L * z + L * y + x)) D =? 0)%N.
(** the effects a list of instructions stands for *)
Definition eff1 (i : instr) : list instr := match i with Visit z y x => if defect0 z y x then ball z y x else [] | a => [a] end.
Definition effs (q : list instr) : list instr := flat_map eff1 q.
Variable ths0 : nat -> thread.
Hypothesis Hnone : forall i, snd (ths0 i) = None.
Definition total (a : instr) : Prop := exists i, In a (effs (fst (ths0 i))).
Definition pendingOf (t : thread) : Prop := match t with (LoadF _ _ :: _, _) | (LoadB _ _ :: _, _) => True | (_, a) => a = None end.

Lemma effs_ball : forall z y x k, effs (ball z y x ++ k) = ball z y x ++ effs k.
Proof.
  intros z y x k. unfold effs. rewrite flat_map_app. f_equal.
  pose proof (Hball z y x) as B. induction (ball z y x) as [ | a l IH ]; [ reflexivity | ]. cbn [flat_map].
  rewrite IH by (intros i Hi; apply B; now right). specialize (B a (or_introl eq_refl)). destruct a; [ destruct B | reflexivity .. ].
Qed.

(** holds in every reachable state *)
Record inv (s : mstate * (nat -> thread)) : Prop := INV {
  i_sd : forall i, m_sd (fst s) i = m_sd st0 i \/ (m_sd (fst s) i = N.lor (m_sd st0 i) M /\ total (Mark i));
  i_F : forall c, m_F (fst s) c = m_F st0 c \/ total (LoadF c (m_F (fst s) c));
  i_B : forall c, m_B (fst s) c = m_B st0 c \/ total (LoadB c (m_B (fst s) c));
  i_sub : forall j a, In a (effs (fst (snd s j))) -> total a;
  i_mark : forall i, total (Mark i) -> (exists j, In (Mark i) (effs (fst (snd s j)))) \/ m_sd (fst s) i = N.lor (m_sd st0 i) M;
  i_pend : forall j, pendingOf (snd s j) }.

Lemma land_or : forall f, N.land (N.lor f M) D = N.land f D.
Proof. intros f. rewrite N.land_lor_distr_l, (N.land_comm M D), HDM, N.lor_0_r. reflexivity. Qed.
Lemma test_same : forall s i, inv s -> N.land (m_sd (fst s) i) D = N.land (m_sd st0 i) D.
Proof. intros s i I. destruct (i_sd s I i) as [-> | [-> _]]; [ reflexivity | apply land_or ]. Qed.

(** what a step does, in terms of effects: it turns the instructions into effects still to be done and at most one
    effect done *)
Lemma stepThread_cases : forall st ths j st' t', inv (st, ths) -> stepThread L D M ball st (ths j) = (st', t') ->
  (st' = st /\ effs (fst t') = effs (fst (ths j)) /\
     (ths j = t' \/ snd t' = None \/
      (exists c l k, ths j = (LoadF c l :: k, None) /\ t' = (LoadF c l :: k, Some (m_F st c))) \/
      (exists c l k, ths j = (LoadB c l :: k, None) /\ t' = (LoadB c l :: k, Some (m_B st c))))) \/
  (exists i k, ths j = (Mark i :: k, None) /\ t' = (k, None) /\ st' = MS (setN (m_sd st) i (N.lor (m_sd st i) M)) (m_F st) (m_B st)) \/
  (exists c l k a, ths j = (LoadF c l :: k, Some a) /\ t' = (k, None) /\ st' = if a <? l then MS (m_sd st) (setN (m_F st) c l) (m_B st) else st) \/
  (exists c l k a, ths j = (LoadB c l :: k, Some a) /\ t' = (k, None) /\ st' = if a <? l then MS (m_sd st) (m_F st) (setN (m_B st) c l) else st).
Proof.
  intros st ths j st' t' I E. pose proof (i_pend _ I j) as Pj. cbn [snd] in Pj. destruct (ths j) as (q & p) eqn:Ej. destruct q as [ | a k ].
  - injection E as <- <-. left. auto.
  - destruct a as [ z y x | i | c l | c l ]; cbn [stepThread pendingOf] in *.
    + subst p. rewrite (test_same _ _ I : N.land (m_sd st _) D = _) in E. left. destruct (N.land (m_sd st0 (L * L * z + L * y + x)) D =? 0)%N eqn:Ed; injection E as <- <-; cbn [fst].
      * split; [ reflexivity | ]. split; [ unfold effs; cbn [flat_map eff1]; unfold defect0; now rewrite Ed | ]. auto.
      * split; [ reflexivity | ]. split; [ rewrite effs_ball; unfold effs; cbn [flat_map eff1]; unfold defect0; now rewrite Ed | ]. auto.
    + subst p. injection E as <- <-. right. left. eauto.
    + destruct p as [ a | ]; injection E as <- <-.
      * right. right. left. exists c, l, k, a. auto.
      * left. split; [ reflexivity | ]. split; [ reflexivity | ]. right. right. left. eauto.
    + destruct p as [ a | ]; injection E as <- <-.
      * right. right. right. exists c, l, k, a. auto.
      * left. split; [ reflexivity | ]. split; [ reflexivity | ]. right. right. right. eauto.
Qed.
Lemma pend_none : forall q, pendingOf (q, None).
Proof. intros [ | [ | | | ] q ]; cbn; auto. Qed.
Lemma lor_again : forall f : N, N.lor (N.lor f M) M = N.lor f M.
Proof. intros f. now rewrite <- N.lor_assoc, N.lor_diag. Qed.
(** the queue of thread j after doing its first effect a *)
Lemma inv_drop : forall s j a k p, inv s -> snd s j = (a :: k, p) -> (forall b, In b (effs k) -> total b).
Proof.
  intros s j a k p I E b Hb. apply (i_sub s I j). rewrite E. cbn [fst]. unfold effs. cbn [flat_map]. apply in_or_app. now right.
Qed.
Lemma inv_step : forall s j, inv s -> inv (step L D M ball s j).
Proof.
  intros (st & ths) j I. unfold step. cbn [fst snd]. destruct (stepThread L D M ball st (ths j)) as (st' & t') eqn:E.
  destruct (stepThread_cases st ths j st' t' I E) as [(-> & Ee & C) | [(i & k & Et & -> & ->) | [(c & l & k & a & Et & -> & ->) | (c & l & k & a & Et & -> & ->)]]].
  - constructor; cbn [fst snd]; try apply I.
    + intros j' b Hb. destruct (Nat.eq_dec j' j) as [-> | Dj]; [ rewrite setN_same, Ee in Hb; now apply (i_sub _ I j) | ].
      rewrite setN_other in Hb by exact Dj. now apply (i_sub _ I j').
    + intros i Hi. destruct (i_mark _ I i Hi) as [(j' & Hj) | Hs]; [ left | now right ]. exists j'.
      destruct (Nat.eq_dec j' j) as [-> | Dj]; [ now rewrite setN_same, Ee | now rewrite setN_other by exact Dj ].
    + intros j'. destruct (Nat.eq_dec j' j) as [-> | Dj]; [ rewrite setN_same | rewrite setN_other by exact Dj; apply (i_pend _ I) ].
      destruct C as [<- | [C | [(c & l & k & _ & ->) | (c & l & k & _ & ->)]]]; [ apply (i_pend _ I) | destruct t' as (q & p); cbn in C; subst p; apply pend_none | exact Logic.I .. ].
  - assert (Hm : total (Mark i)). { apply (i_sub _ I j). cbn [snd]. rewrite Et. cbn. now left. }
    constructor; cbn [fst snd m_sd m_F m_B]; try apply I.
    + intros i'. destruct (Nat.eq_dec i' i) as [-> | Di].
      * right. rewrite setN_same. split; [ | exact Hm ]. destruct (i_sd _ I i) as [Es | [Es _]]; cbn [fst] in Es; rewrite Es; [ reflexivity | apply lor_again ].
      * rewrite setN_other by exact Di. apply (i_sd _ I).
    + intros j' b Hb. destruct (Nat.eq_dec j' j) as [-> | Dj]; [ rewrite setN_same in Hb; now apply (inv_drop _ j _ _ _ I Et) | ].
      rewrite setN_other in Hb by exact Dj. now apply (i_sub _ I j').
    + intros i' Hi. destruct (Nat.eq_dec i' i) as [-> | Di].
      * right. rewrite setN_same. destruct (i_sd _ I i) as [Es | [Es _]]; cbn [fst] in Es; rewrite Es; [ reflexivity | apply lor_again ].
      * rewrite setN_other by exact Di. destruct (i_mark _ I i' Hi) as [(j' & Hj) | Hs]; [ left | now right ]. exists j'.
        destruct (Nat.eq_dec j' j) as [-> | Dj]; [ rewrite setN_same | now rewrite setN_other by exact Dj ].
        cbn [snd] in Hj. rewrite Et in Hj. cbn in Hj. destruct Hj as [Hj | Hj]; [ congruence | exact Hj ].
    + intros j'. destruct (Nat.eq_dec j' j) as [-> | Dj]; [ rewrite setN_same; apply pend_none | rewrite setN_other by exact Dj; apply (i_pend _ I) ].
  - assert (Hm : total (LoadF c l)). { apply (i_sub _ I j). cbn [snd]. rewrite Et. cbn. now left. }
    constructor; cbn [fst snd].
    + destruct (a <? l); apply (i_sd _ I).
    + intros c'. destruct (a <? l); [ | apply (i_F _ I) ]. cbn [m_F]. destruct (Nat.eq_dec c' c) as [-> | Dc]; [ rewrite setN_same; now right | rewrite setN_other by exact Dc; apply (i_F _ I) ].
    + destruct (a <? l); apply (i_B _ I).
    + intros j' b Hb. destruct (Nat.eq_dec j' j) as [-> | Dj]; [ rewrite setN_same in Hb; now apply (inv_drop _ j _ _ _ I Et) | ].
      rewrite setN_other in Hb by exact Dj. now apply (i_sub _ I j').
    + intros i Hi. replace (m_sd (if a <? l then _ else _)) with (m_sd st) by now destruct (a <? l).
      destruct (i_mark _ I i Hi) as [(j' & Hj) | Hs]; [ left | now right ]. exists j'.
      destruct (Nat.eq_dec j' j) as [-> | Dj]; [ rewrite setN_same | now rewrite setN_other by exact Dj ].
      cbn [snd] in Hj. rewrite Et in Hj. cbn in Hj. destruct Hj as [Hj | Hj]; [ congruence | exact Hj ].
    + intros j'. destruct (Nat.eq_dec j' j) as [-> | Dj]; [ rewrite setN_same; apply pend_none | rewrite setN_other by exact Dj; apply (i_pend _ I) ].
  - assert (Hm : total (LoadB c l)). { apply (i_sub _ I j). cbn [snd]. rewrite Et. cbn. now left. }
    constructor; cbn [fst snd].
    + destruct (a <? l); apply (i_sd _ I).
    + destruct (a <? l); apply (i_F _ I).
    + intros c'. destruct (a <? l); [ | apply (i_B _ I) ]. cbn [m_B]. destruct (Nat.eq_dec c' c) as [-> | Dc]; [ rewrite setN_same; now right | rewrite setN_other by exact Dc; apply (i_B _ I) ].
    + intros j' b Hb. destruct (Nat.eq_dec j' j) as [-> | Dj]; [ rewrite setN_same in Hb; now apply (inv_drop _ j _ _ _ I Et) | ].
      rewrite setN_other in Hb by exact Dj. now apply (i_sub _ I j').
    + intros i Hi. replace (m_sd (if a <? l then _ else _)) with (m_sd st) by now destruct (a <? l).
      destruct (i_mark _ I i Hi) as [(j' & Hj) | Hs]; [ left | now right ]. exists j'.
      destruct (Nat.eq_dec j' j) as [-> | Dj]; [ rewrite setN_same | now rewrite setN_other by exact Dj ].
      cbn [snd] in Hj. rewrite Et in Hj. cbn in Hj. destruct Hj as [Hj | Hj]; [ congruence | exact Hj ].
    + intros j'. destruct (Nat.eq_dec j' j) as [-> | Dj]; [ rewrite setN_same; apply pend_none | rewrite setN_other by exact Dj; apply (i_pend _ I) ].
Qed.
Lemma inv_run : forall sched s, inv s -> inv (fold_left (step L D M ball) sched s).
Proof. induction sched as [ | j sched IH ]; intros s I; [ exact I | ]. cbn [fold_left]. apply IH. now apply inv_step. Qed.
Lemma inv_init : inv (st0, ths0).
Proof.
  constructor; cbn [fst snd]; auto.
  - intros j a Ha. now exists j.
  - intros j. specialize (Hnone j). destruct (ths0 j) as (q & p). cbn in Hnone. subst p. apply pend_none.
Qed.

(** no load is lost when no thread is interrupted between reading and writing *)
Record cinv (s : mstate * (nat -> thread)) : Prop := CINV {
  c_F : forall c l, total (LoadF c l) -> (exists j, In (LoadF c l) (effs (fst (snd s j)))) \/ l <= m_F (fst s) c;
  c_B : forall c l, total (LoadB c l) -> (exists j, In (LoadB c l) (effs (fst (snd s j)))) \/ l <= m_B (fst s) c;
  c_pF : forall j c l k a, snd s j = (LoadF c l :: k, Some a) -> a = m_F (fst s) c;
  c_pB : forall j c l k a, snd s j = (LoadB c l :: k, Some a) -> a = m_B (fst s) c }.
Lemma cinv_step : forall s j, inv s -> cinv s -> (forall j', j' <> j -> snd (snd s j') = None) -> cinv (step L D M ball s j).
Proof.
  intros (st & ths) j I C Hc. cbn [snd] in Hc. unfold step. cbn [fst snd]. destruct (stepThread L D M ball st (ths j)) as (st' & t') eqn:E.
  assert (NoP : forall j' q a, j' <> j -> setN ths j t' j' = (q, Some a) -> False).
  { intros j' q a Dj. rewrite setN_other by exact Dj. intros E1. specialize (Hc j' Dj). rewrite E1 in Hc. discriminate Hc. }
  destruct (stepThread_cases st ths j st' t' I E) as [(-> & Ee & K) | [(i & k & Et & -> & ->) | [(c & l & k & a & Et & -> & ->) | (c & l & k & a & Et & -> & ->)]]].
  - assert (KP : forall q a, t' = (q, Some a) -> ths j = t' \/ (exists c l k, q = LoadF c l :: k /\ a = m_F st c) \/ (exists c l k, q = LoadB c l :: k /\ a = m_B st c)).
    { intros q a Ea. destruct K as [K | [K | [(c & l & k & _ & K) | (c & l & k & _ & K)]]]; [ now left | subst t'; discriminate K | | ];
        rewrite K in Ea; injection Ea as <- <-; [ right; left | right; right ]; eauto. }
    constructor; cbn [fst snd].
    + intros c l Hl. destruct (c_F _ C c l Hl) as [(j' & Hj) | H]; [ left | now right ]. exists j'.
      destruct (Nat.eq_dec j' j) as [-> | Dj]; [ now rewrite setN_same, Ee | now rewrite setN_other by exact Dj ].
    + intros c l Hl. destruct (c_B _ C c l Hl) as [(j' & Hj) | H]; [ left | now right ]. exists j'.
      destruct (Nat.eq_dec j' j) as [-> | Dj]; [ now rewrite setN_same, Ee | now rewrite setN_other by exact Dj ].
    + intros j' c l k a Ea. destruct (Nat.eq_dec j' j) as [-> | Dj]; [ | now elim (NoP _ _ _ Dj Ea) ]. rewrite setN_same in Ea.
      destruct (KP _ _ Ea) as [K' | [(c' & l' & k' & K' & ->) | (c' & l' & k' & K' & ->)]]; [ | injection K' as -> _ _; reflexivity | discriminate K' ].
      apply (c_pF _ C j c l k a). cbn [snd]. congruence.
    + intros j' c l k a Ea. destruct (Nat.eq_dec j' j) as [-> | Dj]; [ | now elim (NoP _ _ _ Dj Ea) ]. rewrite setN_same in Ea.
      destruct (KP _ _ Ea) as [K' | [(c' & l' & k' & K' & ->) | (c' & l' & k' & K' & ->)]]; [ | discriminate K' | injection K' as -> _ _; reflexivity ].
      apply (c_pB _ C j c l k a). cbn [snd]. congruence.
  - assert (Q : forall a, a <> Mark i -> (exists j, In a (effs (fst (ths j)))) -> exists j', In a (effs (fst (setN ths j (k, None) j')))).
    { intros a Da (j' & Hj). exists j'. destruct (Nat.eq_dec j' j) as [-> | Dj]; [ rewrite setN_same | now rewrite setN_other by exact Dj ].
      rewrite Et in Hj. cbn in Hj. destruct Hj as [Hj | Hj]; [ congruence | exact Hj ]. }
    constructor; cbn [fst snd m_F m_B].
    + intros c l Hl. destruct (c_F _ C c l Hl) as [Hj | H]; [ left | now right ]. apply Q; [ discriminate | exact Hj ].
    + intros c l Hl. destruct (c_B _ C c l Hl) as [Hj | H]; [ left | now right ]. apply Q; [ discriminate | exact Hj ].
    + intros j' c l k' a Ea. destruct (Nat.eq_dec j' j) as [-> | Dj]; [ rewrite setN_same in Ea; discriminate Ea | now elim (NoP _ _ _ Dj Ea) ].
    + intros j' c l k' a Ea. destruct (Nat.eq_dec j' j) as [-> | Dj]; [ rewrite setN_same in Ea; discriminate Ea | now elim (NoP _ _ _ Dj Ea) ].
  - assert (Q : forall b, b <> LoadF c l -> (exists j, In b (effs (fst (ths j)))) -> exists j', In b (effs (fst (setN ths j (k, None) j')))).
    { intros b Da (j' & Hj). exists j'. destruct (Nat.eq_dec j' j) as [-> | Dj]; [ rewrite setN_same | now rewrite setN_other by exact Dj ].
      rewrite Et in Hj. cbn in Hj. destruct Hj as [Hj | Hj]; [ congruence | exact Hj ]. }
    pose proof (c_pF _ C j c l k a Et) as Ea. cbn [fst] in Ea.
    assert (FF : forall c', m_F st c' <= m_F (if a <? l then MS (m_sd st) (setN (m_F st) c l) (m_B st) else st) c').
    { intros c'. destruct (Nat.ltb_spec a l); [ | lia ]. cbn [m_F]. destruct (Nat.eq_dec c' c) as [-> | Dc]; [ rewrite setN_same; lia | rewrite setN_other by exact Dc; lia ]. }
    constructor; cbn [fst snd].
    + intros c' l' Hl. destruct (c_F _ C c' l' Hl) as [Hj | H]; [ | right; cbn [fst] in H; specialize (FF c'); lia ].
      destruct (Nat.eq_dec c' c) as [-> | Dc]; [ | left; apply Q; [ congruence | exact Hj ] ].
      destruct (Nat.eq_dec l' l) as [-> | Dl]; [ | left; apply Q; [ congruence | exact Hj ] ].
      right. destruct (Nat.ltb_spec a l); [ cbn [m_F]; rewrite setN_same; lia | lia ].
    + intros c' l' Hl. replace (m_B (if a <? l then _ else _)) with (m_B st) by now destruct (a <? l).
      destruct (c_B _ C c' l' Hl) as [Hj | H]; [ left; apply Q; [ discriminate | exact Hj ] | now right ].
    + intros j' c' l' k' a' Ea'. destruct (Nat.eq_dec j' j) as [-> | Dj]; [ rewrite setN_same in Ea'; discriminate Ea' | now elim (NoP _ _ _ Dj Ea') ].
    + intros j' c' l' k' a' Ea'. destruct (Nat.eq_dec j' j) as [-> | Dj]; [ rewrite setN_same in Ea'; discriminate Ea' | now elim (NoP _ _ _ Dj Ea') ].
  - assert (Q : forall b, b <> LoadB c l -> (exists j, In b (effs (fst (ths j)))) -> exists j', In b (effs (fst (setN ths j (k, None) j')))).
    { intros b Da (j' & Hj). exists j'. destruct (Nat.eq_dec j' j) as [-> | Dj]; [ rewrite setN_same | now rewrite setN_other by exact Dj ].
      rewrite Et in Hj. cbn in Hj. destruct Hj as [Hj | Hj]; [ congruence | exact Hj ]. }
    pose proof (c_pB _ C j c l k a Et) as Ea. cbn [fst] in Ea.
    assert (FF : forall c', m_B st c' <= m_B (if a <? l then MS (m_sd st) (m_F st) (setN (m_B st) c l) else st) c').
    { intros c'. destruct (Nat.ltb_spec a l); [ | lia ]. cbn [m_B]. destruct (Nat.eq_dec c' c) as [-> | Dc]; [ rewrite setN_same; lia | rewrite setN_other by exact Dc; lia ]. }
    constructor; cbn [fst snd].
    + intros c' l' Hl. replace (m_F (if a <? l then _ else _)) with (m_F st) by now destruct (a <? l).
      destruct (c_F _ C c' l' Hl) as [Hj | H]; [ left; apply Q; [ discriminate | exact Hj ] | now right ].
    + intros c' l' Hl. destruct (c_B _ C c' l' Hl) as [Hj | H]; [ | right; cbn [fst] in H; specialize (FF c'); lia ].
      destruct (Nat.eq_dec c' c) as [-> | Dc]; [ | left; apply Q; [ congruence | exact Hj ] ].
      destruct (Nat.eq_dec l' l) as [-> | Dl]; [ | left; apply Q; [ congruence | exact Hj ] ].
      right. destruct (Nat.ltb_spec a l); [ cbn [m_B]; rewrite setN_same; lia | lia ].
    + intros j' c' l' k' a' Ea'. destruct (Nat.eq_dec j' j) as [-> | Dj]; [ rewrite setN_same in Ea'; discriminate Ea' | now elim (NoP _ _ _ Dj Ea') ].
    + intros j' c' l' k' a' Ea'. destruct (Nat.eq_dec j' j) as [-> | Dj]; [ rewrite setN_same in Ea'; discriminate Ea' | now elim (NoP _ _ _ Dj Ea') ].
Qed.
Lemma cinv_run : forall sched s, inv s -> cinv s -> calm L D M ball s sched -> cinv (fold_left (step L D M ball) sched s).
Proof.
  induction sched as [ | j sched IH ]; intros s I C K; [ exact C | ]. cbn [fold_left]. destruct K as [K1 K2].
  apply IH; [ now apply inv_step | now apply cinv_step | exact K2 ].
Qed.
Lemma cinv_init : cinv (st0, ths0).
Proof.
  constructor; cbn [fst snd]; auto.
  - intros j c l k a E. specialize (Hnone j). rewrite E in Hnone. discriminate Hnone.
  - intros j c l k a E. specialize (Hnone j). rewrite E in Hnone. discriminate Hnone.
Qed.
End machine.

(** ** One loop *)
Section phase.
Variables (L : nat) (D M : N) (ball : nat -> nat -> nat -> list instr) (slice : nat -> nat) (shares : list (list nat)) (sched : list nat).
Hypothesis HDM : N.land D M = 0%N.
Hypothesis Hball : forall z y x i, In i (ball z y x) -> match i with Visit _ _ _ => False | _ => True end.
Variables (st0 st : mstate).
Hypothesis Hrun : phase L D M ball slice shares sched st0 = Some st.
Definition ths0 (i : nat) : thread := (program L slice (nth i shares []), None).
(** effects of the loop *)
Definition does (a : instr) : Prop := exists l y x, In l (concat shares) /\ y < L /\ x < L /\
  N.land (m_sd st0 (L * L * slice l + L * y + x)) D <> 0%N /\ In a (ball (slice l) y x).
Lemma total_does : forall a, total L D ball st0 ths0 a <-> does a.
Proof.
  intros a. unfold total, ths0, does. cbn [fst]. split.
  - intros (i & Hi). unfold effs in Hi. apply in_flat_map in Hi. destruct Hi as (b & Hb & Ha). unfold program in Hb.
    apply in_flat_map in Hb. destruct Hb as (l & Hl & Hb). apply in_flat_map in Hb. destruct Hb as (y & Hy & Hb).
    apply in_map_iff in Hb. destruct Hb as (x & <- & Hx). apply in_seq in Hy. apply in_seq in Hx. cbn [eff1] in Ha. unfold defect0 in Ha.
    destruct (N.eqb_spec (N.land (m_sd st0 (L * L * slice l + L * y + x)) D) 0%N) as [E | E]; cbn [negb] in Ha; [ destruct Ha | ].
    exists l, y, x. repeat split; try assumption; try lia. apply in_concat. exists (nth i shares []). split; [ | exact Hl ].
    destruct (Nat.lt_ge_cases i (length shares)) as [C | C]; [ now apply nth_In | rewrite nth_overflow in Hl by lia; destruct Hl ].
  - intros (l & y & x & Hl & Hy & Hx & E & Ha). apply in_concat in Hl. destruct Hl as (sh & Hs & Hl). apply (In_nth _ _ []) in Hs.
    destruct Hs as (i & Hi & En). exists i. rewrite En. unfold effs. apply in_flat_map. exists (Visit (slice l) y x). split.
    + unfold program. apply in_flat_map. exists l. split; [ exact Hl | ]. apply in_flat_map. exists y. split; [ apply in_seq; lia | ].
      apply in_map_iff. exists x. split; [ reflexivity | apply in_seq; lia ].
    + cbn [eff1]. unfold defect0. apply N.eqb_neq in E. rewrite E. exact Ha.
Qed.
Lemma run_end : exists ths, fold_left (step L D M ball) sched (st0, ths0) = (st, ths) /\ forall j, fst (ths j) = [].
Proof.
  pose proof Hrun as R. unfold phase in R. change ((fun i : nat => (program L slice (nth i shares []), None)) : nat -> thread) with ths0 in R. cbv zeta in R. revert R.
  destruct (fold_left (step L D M ball) sched (st0, ths0)) as (st1 & ths) eqn:E. cbn [fst snd].
  destruct (forallb (fun i => match fst (ths i) with [] => true | _ :: _ => false end) (seq 0 (length shares))) eqn:F; [ | discriminate ].
  intros R. injection R as R. subst st1. exists ths. split; [ reflexivity | ].
  intros j. destruct (Nat.lt_ge_cases j (length shares)) as [C | C].
  - rewrite forallb_forall in F. specialize (F j ltac:(apply in_seq; lia)). now destruct (fst (ths j)).
  - assert (G : forall sc s, fst (snd s j) = [] -> fst (snd (fold_left (step L D M ball) sc s) j) = []).
    { clear. induction sc as [ | i sc IH ]; intros s H; [ exact H | ]. cbn [fold_left]. apply IH. unfold step.
      destruct (Nat.eq_dec j i) as [<- | Di].
      - destruct s as (s1 & ths). cbn [fst snd] in *. destruct (ths j) as (q & p). cbn in H. subst q. cbn. now rewrite setN_same.
      - destruct (stepThread _ _ _ _ _ _) as (st' & t'). cbn [snd]. now rewrite setN_other by exact Di. }
    specialize (G sched (st0, ths0)). rewrite E in G. cbn [snd] in G. apply G. unfold ths0. cbn [fst]. now rewrite nth_overflow by lia.
Qed.
Lemma phase_any : (forall i, m_sd st i = m_sd st0 i \/ (m_sd st i = N.lor (m_sd st0 i) M /\ does (Mark i))) /\
  (forall i, does (Mark i) -> m_sd st i = N.lor (m_sd st0 i) M) /\
  (forall c, m_F st c = m_F st0 c \/ does (LoadF c (m_F st c))) /\ (forall c, m_B st c = m_B st0 c \/ does (LoadB c (m_B st c))).
Proof.
  destruct run_end as (ths & E & En). pose proof (inv_run L D M ball HDM Hball st0 ths0 sched (st0, ths0)) as I.
  rewrite E in I. specialize (I (inv_init L D M ball st0 ths0 (fun _ => eq_refl))).
  assert (A : forall i, does (Mark i) -> m_sd st i = N.lor (m_sd st0 i) M).
  { intros i Hi. apply total_does in Hi. destruct (i_mark _ _ _ _ _ _ _ I i Hi) as [(j & Hj) | H]; [ | exact H ].
    cbn [snd] in Hj. rewrite En in Hj. destruct Hj. }
  split; [ | split; [ exact A | split ] ].
  - intros i. destruct (i_sd _ _ _ _ _ _ _ I i) as [H | [H Ht]]; cbn [fst] in H; [ now left | right ].
    split; [ exact H | now apply total_does ].
  - intros c. destruct (i_F _ _ _ _ _ _ _ I c) as [H | H]; [ now left | right; now apply total_does ].
  - intros c. destruct (i_B _ _ _ _ _ _ _ I c) as [H | H]; [ now left | right; now apply total_does ].
Qed.
Lemma phase_calm : calm L D M ball (st0, ths0) sched ->
  (forall c l, does (LoadF c l) -> l <= m_F st c) /\ (forall c l, does (LoadB c l) -> l <= m_B st c).
Proof.
  intros K. destruct run_end as (ths & E & En).
  pose proof (cinv_run L D M ball HDM Hball st0 ths0 sched (st0, ths0) (inv_init L D M ball st0 ths0 (fun _ => eq_refl)) (cinv_init L D ball st0 ths0 (fun _ => eq_refl)) K) as C.
  rewrite E in C. split.
  - intros c l Hl. apply total_does in Hl. destruct (c_F _ _ _ _ _ _ C c l Hl) as [(j & Hj) | H]; [ | exact H ]. cbn [snd] in Hj. rewrite En in Hj. destruct Hj.
  - intros c l Hl. apply total_does in Hl. destruct (c_B _ _ _ _ _ _ C c l Hl) as [(j & Hj) | H]; [ | exact H ]. cbn [snd] in Hj. rewrite En in Hj. destruct Hj.
Qed.
End phase.
