(** C48, C50: conversions between complex and angle fields. *)
From Coq Require Import List Arith Bool Lia Permutation Reals Lra.
From Verif Require Import ThetaModel.
Import ListNotations.

(** ** C48: in place, in any thread order, every site gets the value made from its own
    old value, and nothing else changes *)
Section Words.
Context {A : Type}.
Implicit Types m v : words A.

(** Specification: the complex number at site i of a complex buffer, and its words. *)
Definition complex_site (m : words A) (S NG i : nat) : A * A := (m (2 * (S * NG + i)), m (2 * (S * NG + i) + 1)).
Definition within (j b n : nat) : Prop := b <= j < b + n.

Lemma copy_in : forall (s d : words A) a b n j, within j b n -> copy s d a b n j = s (a + (j - b)).
Proof.
  intros s d a b n j [H1 H2]; unfold copy.
  rewrite (proj2 (Nat.leb_le b j)), (proj2 (Nat.ltb_lt j (b + n))) by lia; reflexivity.
Qed.
Lemma copy_out : forall (s d : words A) a b n j, ~ within j b n -> copy s d a b n j = d j.
Proof.
  intros s d a b n j H; unfold copy, within in *.
  destruct (Nat.leb_spec b j); cbn [andb]; [ | reflexivity ].
  destruct (Nat.ltb_spec j (b + n)); [ lia | reflexivity ].
Qed.
Lemma set_same : forall m i (x : A), set m i x i = x.
Proof. intros; unfold set; now rewrite Nat.eqb_refl. Qed.
Lemma set_other : forall m i (x : A) j, j <> i -> set m i x j = m j.
Proof. intros m i x j H; unfold set; now rewrite (proj2 (Nat.eqb_neq j i) H). Qed.

Lemma iter_fold : forall (gm : A * A -> A) gv S NG V Vo m v l,
  S <= S * NG -> Vo + S <= V -> (forall i, In i l -> i < S) ->
  let '(m', v') := fold_left (toTheta_iter gm gv S NG V Vo) l (m, v) in
  v' = v /\
  (forall i, In i l -> m' i = gm (cread m (2 * (S * NG)) (Vo + i))) /\
  (forall i, In i l -> m' (2 * (S * NG + V) + i) = gv (cread m (2 * (S * NG)) (Vo + i)) (cread v 0 (Vo + i))) /\
  (forall j, ~ within j 0 S -> ~ within j (2 * (S * NG + V)) S -> m' j = m j).
Proof.
  intros gm gv S NG V Vo m v l HN HV. remember (S * NG) as a eqn:Ea.
  induction l as [ | x l IH ] using rev_ind; intros Hl.
  - cbn. repeat split; intros; easy.
  - rewrite fold_left_app. cbn [fold_left].
    assert (Hl' : forall i, In i l -> i < S) by (intros; apply Hl, in_or_app; auto).
    assert (Hx : x < S) by (apply Hl, in_or_app; cbn; auto).
    specialize (IH Hl').
    destruct (fold_left _ l (m, v)) as [m1 v1]. destruct IH as (-> & I1 & I2 & I3).
    unfold toTheta_iter. rewrite <- Ea.
    assert (E : cread m1 (2 * a) (Vo + x) = cread m (2 * a) (Vo + x))
      by (unfold cread; f_equal; apply I3; unfold within; lia).
    rewrite E. split; [ reflexivity | ].
    split; [ | split ].
    + intros i Hi. rewrite set_other by (apply Hl in Hi; lia).
      destruct (Nat.eq_dec i x) as [-> | Hn]; [ apply set_same | ].
      rewrite set_other by assumption. apply I1.
      apply in_app_or in Hi; destruct Hi as [Hi | [Hi | []]]; [ assumption | congruence ].
    + intros i Hi. destruct (Nat.eq_dec i x) as [-> | Hn]; [ apply set_same | ].
      rewrite set_other by lia. rewrite set_other by (apply Hl in Hi; lia).
      apply I2. apply in_app_or in Hi; destruct Hi as [Hi | [Hi | []]]; [ assumption | congruence ].
    + unfold within in *. intros j H1 H2.
      rewrite !set_other by lia. apply I3; assumption.
Qed.

Lemma slice_step : forall (gm : A * A -> A) gv S NG V ord m v cZ,
  S <= S * NG -> cZ * S + S <= V -> Permutation (ord cZ) (seq 0 S) ->
  let '(m', v') := toTheta_slice gm gv S NG V ord (m, v) cZ in
  (forall i, i < S -> m' (S * NG + cZ * S + i) = gm (cread m (2 * (S * NG)) (cZ * S + i))) /\
  (forall i, i < S -> v' (cZ * S + i) = gv (cread m (2 * (S * NG)) (cZ * S + i)) (cread v 0 (cZ * S + i))) /\
  (forall j, ~ within j 0 S -> ~ within j (2 * (S * NG + V)) S -> ~ within j (S * NG + cZ * S) S -> m' j = m j) /\
  (forall j, ~ within j (cZ * S) S -> v' j = v j).
Proof.
  intros gm gv S NG V ord m v cZ HN HV HP. unfold toTheta_slice.
  assert (Hin : forall i, In i (ord cZ) <-> i < S).
  { intros i; split; intros H.
    - apply (Permutation_in _ HP), in_seq in H; lia.
    - apply (Permutation_in _ (Permutation_sym HP)), in_seq; lia. }
  pose proof (iter_fold gm gv S NG V (cZ * S) m v (ord cZ) HN HV (fun i H => proj1 (Hin i) H)) as I.
  destruct (fold_left _ (ord cZ) (m, v)) as [m1 v1]. destruct I as (-> & I1 & I2 & I3).
  remember (S * NG) as a eqn:Ea. remember (cZ * S) as Vo eqn:EVo.
  split; [ | split; [ | split ] ].
  - intros i Hi. rewrite copy_in by (unfold within; lia).
    replace (0 + (a + Vo + i - (a + Vo))) with i by lia. apply I1, Hin, Hi.
  - intros i Hi. rewrite copy_in by (unfold within; lia).
    replace (Vo + i - Vo) with i by lia.
    rewrite copy_out by (unfold within; lia). apply I2, Hin, Hi.
  - intros j H1 H2 H3. rewrite copy_out by assumption. now apply I3.
  - intros j H1. now apply copy_out.
Qed.

Definition slices_done (gm : A * A -> A) gv S NG V m v k (m' v' : words A) : Prop :=
  (forall i, i < k * S -> m' (S * NG + i) = gm (cread m (2 * (S * NG)) i)) /\
  (forall i, i < k * S -> v' i = gv (cread m (2 * (S * NG)) i) (cread v 0 i)) /\
  (forall j, ~ within j 0 S -> ~ within j (2 * (S * NG + V)) S -> ~ within j (S * NG) (k * S) -> m' j = m j) /\
  (forall j, ~ within j 0 (k * S) -> v' j = v j).

Lemma toTheta_slices : forall (gm : A * A -> A) gv S NG V ord m v n,
  S <= S * NG -> n * S <= V -> (forall cZ, cZ < n -> Permutation (ord cZ) (seq 0 S)) ->
  let '(m', v') := fold_left (toTheta_slice gm gv S NG V ord) (seq 0 n) (m, v) in
  slices_done gm gv S NG V m v n m' v'.
Proof.
  intros gm gv S NG V ord m v n HN. induction n as [ | n IH ]; intros HV HP.
  - cbn. repeat split; intros; try lia; reflexivity.
  - rewrite seq_S, fold_left_app. cbn [fold_left plus].
    specialize (IH ltac:(lia) ltac:(intros; apply HP; lia)).
    destruct (fold_left _ (seq 0 n) (m, v)) as [m1 v1]. destruct IH as (I1 & I2 & I3 & I4).
    pose proof (slice_step gm gv S NG V ord m1 v1 n HN ltac:(lia) (HP n ltac:(lia))) as J.
    destruct (toTheta_slice gm gv S NG V ord (m1, v1) n) as [m2 v2]. destruct J as (J1 & J2 & J3 & J4).
    assert (Em : forall i, n * S <= i < n * S + S -> cread m1 (2 * (S * NG)) i = cread m (2 * (S * NG)) i).
    { intros i Hi. unfold cread; f_equal; apply I3; unfold within; lia. }
    assert (Ev : forall i, n * S <= i < n * S + S -> cread v1 0 i = cread v 0 i).
    { intros i Hi. unfold cread; f_equal; apply I4; unfold within; lia. }
    cbn [Nat.mul] in HV.
    unfold slices_done. replace (Datatypes.S n * S) with (n * S + S) by (cbn; lia).
    remember (S * NG) as a eqn:Ea. remember (n * S) as Vo eqn:EVo.
    split; [ | split; [ | split ] ].
    + intros i Hi. destruct (Nat.lt_ge_cases i Vo) as [Hlt | Hge].
      * rewrite J3 by (unfold within; lia). now apply I1.
      * replace (a + i) with (a + Vo + (i - Vo)) by lia. rewrite J1 by lia.
        replace (Vo + (i - Vo)) with i by lia. f_equal; apply Em; lia.
    + intros i Hi. destruct (Nat.lt_ge_cases i Vo) as [Hlt | Hge].
      * rewrite J4 by (unfold within; lia). now apply I2.
      * replace i with (Vo + (i - Vo)) at 1 by lia. rewrite J2 by lia.
        replace (Vo + (i - Vo)) with i by lia. f_equal; [ apply Em | apply Ev ]; lia.
    + unfold within in *. intros j H1 H2 H3. rewrite J3 by lia. apply I3; lia.
    + unfold within in *. intros j H. rewrite J4 by lia. apply I4; lia.
Qed.

Lemma cread_site : forall m S NG i, cread m (2 * (S * NG)) i = complex_site m S NG i.
Proof. intros; unfold cread, complex_site; f_equal; f_equal; lia. Qed.

(** [sizes] S sites a slice, NG ghost slices on either side and Lz slices: the angle at
    site i, in the place an angle field keeps it, is the function gm of the complex
    number that was at site i, and its velocity is gv of the complex number and the
    complex velocity. Only the angle, the first S words of the front ghosts and the
    first S words of the back ghosts are written. *)
Theorem complex_to_angle_in_place : forall (gm : A * A -> A) (gv : A * A -> A * A -> A) S NG Lz ord m v,
  1 <= NG -> (forall cZ, cZ < Lz -> Permutation (ord cZ) (seq 0 S)) ->
  let '(m', v') := toTheta gm gv S NG Lz ord m v in
  (forall i, i < S * Lz -> m' (S * NG + i) = gm (complex_site m S NG i)) /\
  (forall i, i < S * Lz -> v' i = gv (complex_site m S NG i) (complex_site v S 0 i)) /\
  (forall j, ~ within j 0 S -> ~ within j (2 * (S * NG + S * Lz)) S -> ~ within j (S * NG) (S * Lz) -> m' j = m j) /\
  (forall j, S * Lz <= j -> v' j = v j).
Proof.
  intros gm gv S NG Lz ord m v HN HP. unfold toTheta.
  pose proof (toTheta_slices gm gv S NG (S * Lz) ord m v Lz
    ltac:(destruct NG; [ lia | rewrite Nat.mul_succ_r; lia ]) ltac:(lia) HP) as I.
  destruct (fold_left _ (seq 0 Lz) (m, v)) as [m' v'].
  destruct I as (I1 & I2 & I3 & I4). rewrite (Nat.mul_comm Lz S) in *.
  split; [ | split; [ | split ] ].
  - intros i Hi. rewrite I1 by assumption. now rewrite cread_site.
  - intros i Hi. rewrite I2 by assumption. rewrite cread_site. f_equal.
    unfold cread, complex_site. f_equal; f_equal; lia.
  - exact I3.
  - intros j Hj. apply I4; unfold within; lia.
Qed.

Theorem angle_to_complex_in_place : forall (ge : A -> A * A) gw S NG V ord m v,
  Permutation ord (seq 0 V) ->
  let '(m', v') := th2cx ge gw S NG V ord m v in
  (forall i, i < V -> complex_site m' S NG i = ge (fst (complex_site m S NG i)) /\
    complex_site v' S 0 i = gw (ge (fst (complex_site m S NG i))) (fst (complex_site v S 0 i))) /\
  (forall j, ~ within j (2 * (S * NG)) (2 * V) -> m' j = m j) /\
  (forall j, 2 * V <= j -> v' j = v j).
Proof.
  intros ge gw S NG V ord m v HP. unfold th2cx.
  assert (Hin : forall i, In i ord <-> i < V).
  { intros i; split; intros H.
    - apply (Permutation_in _ HP), in_seq in H; lia.
    - apply (Permutation_in _ (Permutation_sym HP)), in_seq; lia. }
  assert (ND : NoDup ord) by (eapply Permutation_NoDup; [ apply Permutation_sym, HP | apply seq_NoDup ]).
  assert (Hlt : forall i, In i ord -> i < V) by (intros; now apply Hin).
  match goal with |- context [ fold_left ?f ord ] => set (F := f) end.
  assert (G : forall l, NoDup l -> (forall i, In i l -> i < V) ->
    let '(m', v') := fold_left F l (m, v) in
    (forall i, In i l -> cread m' (2 * (S * NG)) i = ge (fst (cread m (2 * (S * NG)) i)) /\
      cread v' 0 i = gw (ge (fst (cread m (2 * (S * NG)) i))) (fst (cread v 0 i))) /\
    (forall i, ~ In i l -> cread m' (2 * (S * NG)) i = cread m (2 * (S * NG)) i /\ cread v' 0 i = cread v 0 i) /\
    (forall j, ~ within j (2 * (S * NG)) (2 * V) -> m' j = m j) /\
    (forall j, 2 * V <= j -> v' j = v j)).
  { subst F. generalize (2 * (S * NG)); intros a.
    induction l as [ | x l IH ] using rev_ind; intros N Hl.
    - cbn [fold_left]. repeat split; intros; easy.
    - rewrite fold_left_app. cbn [fold_left].
      assert (N' : NoDup (x :: l)) by (apply (Permutation_NoDup (Permutation_app_comm l [x]) N)).
      apply NoDup_cons_iff in N' as [Hx N'].
      specialize (IH N' ltac:(intros; apply Hl, in_or_app; auto)).
      assert (Hxv : x < V) by (apply Hl, in_or_app; cbn; auto).
      destruct (fold_left _ l (m, v)) as [m1 v1]. destruct IH as (I1 & I2 & I3 & I4).
      destruct (I2 x Hx) as [E1 E2]. rewrite E1, E2.
      assert (K : forall i, i <> x -> forall (w : words A) b p q,
        cread (set (set w (b + 2 * x) p) (b + 2 * x + 1) q) b i = cread w b i).
      { intros i Hi w b p q. unfold cread; f_equal; rewrite !set_other by lia; reflexivity. }
      assert (K' : forall (w : words A) b p,
        cread (set (set w (b + 2 * x) (fst p)) (b + 2 * x + 1) (snd p)) b x = p).
      { intros w b [p q]. unfold cread; cbn [fst snd]. rewrite set_same.
        rewrite set_other by lia. now rewrite set_same. }
      split; [ | split; [ | split ] ].
      + intros i Hi. destruct (Nat.eq_dec i x) as [-> | Hn].
        * rewrite K'. split; [ reflexivity | ]. apply (K' v1 0).
        * rewrite K by assumption.
          rewrite (K i Hn v1 0).
          apply I1. apply in_app_or in Hi; destruct Hi as [Hi | [Hi | []]]; [ assumption | congruence ].
      + intros i Hi. assert (i <> x) by (intros ->; apply Hi, in_or_app; cbn; auto).
        assert (~ In i l) by (intros C; apply Hi, in_or_app; auto).
        rewrite K by assumption. rewrite (K i) with (b := 0) by assumption. now apply I2.
      + unfold within in *. intros j Hj. rewrite !set_other by lia. now apply I3.
      + intros j Hj. rewrite !set_other by lia. now apply I4. }
  specialize (G ord ND Hlt). destruct (fold_left F ord (m, v)) as [m' v'].
  destruct G as (G1 & _ & G3 & G4).
  assert (C0 : forall w i, cread w 0 i = complex_site w S 0 i).
  { intros w i. unfold cread, complex_site; f_equal; f_equal; lia. }
  split; [ | split; assumption ].
  intros i Hi. rewrite <- !C0, <- !cread_site. apply G1, Hin, Hi.
Qed.

(** The Paxion field keeps its velocity behind a ghost region of its own. *)
Theorem angle_to_paxion_in_place : forall (fm : A -> A) (fv : A -> A -> A) S NG V ord m v,
  Permutation ord (seq 0 V) ->
  let '(m', v') := toPaxion fm fv S NG V ord m v in
  (forall i, i < V -> m' (S * NG + i) = fm (m (S * NG + i)) /\ v' (S * NG + i) = fv (v i) (fm (m (S * NG + i)))) /\
  (forall j, ~ within j (S * NG) V -> m' j = m j) /\
  (forall j, S * NG + V <= j -> v' j = v j).
Proof.
  intros fm fv S NG V ord m v HP. unfold toPaxion. rewrite (Nat.mul_comm NG S).
  generalize (S * NG); intros a.
  assert (Hin : forall i, In i ord <-> i < V).
  { intros i; split; intros H.
    - apply (Permutation_in _ HP), in_seq in H; lia.
    - apply (Permutation_in _ (Permutation_sym HP)), in_seq; lia. }
  assert (ND : NoDup ord) by (eapply Permutation_NoDup; [ apply Permutation_sym, HP | apply seq_NoDup ]).
  assert (Hlt : forall i, In i ord -> i < V) by (intros; now apply Hin).
  match goal with |- context [ fold_left ?f ord ] => set (F := f) end.
  assert (G : forall l, NoDup l -> (forall i, In i l -> i < V) ->
    let '(m', v') := fold_left F l (m, v) in
    (forall i, In i l -> m' (a + i) = fm (m (a + i)) /\ v' i = fv (v i) (fm (m (a + i)))) /\
    (forall i, ~ In i l -> m' (a + i) = m (a + i) /\ v' i = v i) /\
    (forall j, ~ within j a V -> m' j = m j) /\ (forall j, V <= j -> v' j = v j)).
  { subst F. induction l as [ | x l IH ] using rev_ind; intros N Hl.
    - cbn [fold_left]. repeat split; intros; easy.
    - rewrite fold_left_app. cbn [fold_left].
      assert (N' : NoDup (x :: l)) by (apply (Permutation_NoDup (Permutation_app_comm l [x]) N)).
      apply NoDup_cons_iff in N' as [Hx N'].
      specialize (IH N' ltac:(intros; apply Hl, in_or_app; auto)).
      assert (Hxv : x < V) by (apply Hl, in_or_app; cbn; auto).
      destruct (fold_left _ l (m, v)) as [m1 v1]. destruct IH as (I1 & I2 & I3 & I4).
      destruct (I2 x Hx) as [E1 E2]. rewrite E1, E2.
      split; [ | split; [ | split ] ].
      + intros i Hi. destruct (Nat.eq_dec i x) as [-> | Hn].
        * rewrite !set_same. now split.
        * rewrite !set_other by lia.
          apply I1. apply in_app_or in Hi; destruct Hi as [Hi | [Hi | []]]; [ assumption | congruence ].
      + intros i Hi. assert (i <> x) by (intros ->; apply Hi, in_or_app; cbn; auto).
        rewrite !set_other by lia. apply I2. intros C; apply Hi, in_or_app; auto.
      + unfold within in *. intros j Hj. rewrite !set_other by lia. now apply I3.
      + intros j Hj. rewrite !set_other by lia. now apply I4. }
  specialize (G ord ND Hlt). destruct (fold_left F ord (m, v)) as [m' v'].
  destruct G as (G1 & _ & G3 & G4).
  split; [ | split ].
  - intros i Hi. destruct (G1 i (proj2 (Hin i) Hi)) as [H1 H2]. split; [ exact H1 | ].
    rewrite copy_in by (unfold within; lia). replace (0 + (a + i - a)) with i by lia. exact H2.
  - exact G3.
  - intros j Hj. rewrite copy_out by (unfold within; lia). apply G4. lia.
Qed.

Theorem angle_to_naxion_in_place : forall (f1 f2 : A -> A) S NG V ord m v m2,
  Permutation ord (seq 0 V) ->
  let '(m', m2') := toNaxion f1 f2 S NG V ord m v m2 in
  (forall i, i < V -> complex_site m' S NG i = (f1 (m (S * NG + i)), f2 (v i))) /\
  (forall j, ~ within j (2 * (S * NG)) (2 * V) -> m' j = m j).
Proof.
  intros f1 f2 S NG V ord m v m2 HP. unfold toNaxion.
  assert (Hin : forall i, In i ord <-> i < V).
  { intros i; split; intros H.
    - apply (Permutation_in _ HP), in_seq in H; lia.
    - apply (Permutation_in _ (Permutation_sym HP)), in_seq; lia. }
  match goal with |- context [ fold_left ?f ord ] => set (F := f) end.
  assert (G : forall l i, In i l -> fold_left F l m2 (2 * i) = f1 (m (S * NG + i)) /\
    fold_left F l m2 (2 * i + 1) = f2 (v i)).
  { subst F. induction l as [ | x l IH ] using rev_ind; intros i Hi; [ easy | ].
    rewrite fold_left_app. cbn [fold_left].
    destruct (Nat.eq_dec i x) as [-> | Hn].
    - rewrite set_same. rewrite set_other by lia. now rewrite set_same.
    - rewrite !set_other by lia. apply IH.
      apply in_app_or in Hi; destruct Hi as [Hi | [Hi | []]]; [ assumption | congruence ]. }
  split.
  - intros i Hi. destruct (G ord i (proj2 (Hin i) Hi)) as [H1 H2].
    unfold complex_site. rewrite !copy_in by (unfold within; lia).
    f_equal; [ rewrite <- H1 | rewrite <- H2 ]; f_equal; lia.
  - intros j Hj. now apply copy_out.
Qed.
End Words.

(** Two sites a slice, one ghost slice, two slices, threads in different orders. *)
Example complex_to_angle_ex :
  let gm := fun c : nat * nat => fst c * 100 + snd c in
  let gv := fun c w : nat * nat => fst c * 1000 + snd w in
  let '(m, v) := toTheta gm gv 2 1 2 (fun z => if z =? 0 then [1; 0] else [0; 1]) (fun j => j) (fun j => j + 50) in
  map m [2; 3; 4; 5] = [4 * 100 + 5; 6 * 100 + 7; 8 * 100 + 9; 10 * 100 + 11] /\
  map v [0; 1; 2; 3] = [4051; 6053; 8055; 10057].
Proof. vm_compute. split; reflexivity. Qed.
Example conversions_ex :
  (let '(m, v) := toPaxion (fun x => 2 * x) (fun x y => x + y) 2 1 4 [3; 0; 2; 1] (fun j => j) (fun j => j) in
   map v [2; 3; 4; 5] = [4; 7; 10; 13] /\ map m [2; 3; 4; 5] = [4; 6; 8; 10]) /\
  (let '(m, _) := toNaxion (fun x => 2 * x) (fun x => 3 * x) 2 1 4 [3; 0; 2; 1] (fun j => j) (fun j => j) (fun j => 0) in
   map m [4; 5; 6; 7; 8; 9; 10; 11] = [4; 0; 6; 3; 8; 6; 10; 9]).
Proof. vm_compute. repeat split; reflexivity. Qed.

(** Without ghost slices the scratch array is the field itself: the result depends on
    the order of the threads. *)
Theorem complex_to_angle_no_ghosts_refuted :
  exists (gm : nat * nat -> nat) gv S Lz ord m v,
  (forall cZ, cZ < Lz -> Permutation (ord cZ) (seq 0 S)) /\
  ~ (forall i, i < S * Lz -> fst (toTheta gm gv S 0 Lz ord m v) (S * 0 + i) = gm (complex_site m S 0 i)).
Proof.
  exists (fun c => fst c * 100 + snd c), (fun c w => 0), 2, 1, (fun _ => [1; 0]), (fun j => j), (fun j => j).
  split.
  - intros cZ _. cbn. constructor.
  - intros H. specialize (H 0 ltac:(lia)). vm_compute in H. discriminate.
Qed.

(** ** C50: the values *)
Local Open Scope R_scope.

Lemma norm2_polar : forall r t, norm2 (r * cos t, r * sin t) = r * r.
Proof.
  intros r t. unfold norm2; cbn [fst snd].
  pose proof (sin2_cos2 t) as H. unfold Rsqr in H.
  replace (r * cos t * (r * cos t) + r * sin t * (r * sin t)) with (r * r * (sin t * sin t + cos t * cos t)) by ring.
  rewrite H; ring.
Qed.

(** [arg] is the angle of a number in polar form. *)
Lemma arg_polar : forall r t, 0 < r -> - PI < t <= PI -> arg (r * cos t, r * sin t) = t.
Proof.
  intros r t Hr [H1 H2]. unfold arg. rewrite norm2_polar, sqrt_square by lra. cbn [fst snd].
  replace (r * cos t / r) with (cos t) by (field; lra).
  destruct (Rle_dec 0 (r * sin t)) as [Hs | Hs].
  - destruct (Rle_or_lt 0 t) as [Ht | Ht].
    + apply acos_cos; lra.
    + exfalso. assert (sin t < 0) by (apply sin_lt_0_var; lra).
      assert (r * sin t < r * 0) by (apply Rmult_lt_compat_l; lra). lra.
  - destruct (Rle_or_lt 0 t) as [Ht | Ht].
    + exfalso. apply Hs. apply Rmult_le_pos; [ lra | apply sin_ge_0; lra ].
    + rewrite <- (cos_neg t). rewrite acos_cos by lra. ring.
Qed.

(** Angle theta with velocity theta' to complex and back: the angle field holds
    R*theta and its conformal velocity (R*theta)' = R*theta' + R'*theta. *)
Theorem angle_round_trip : forall frw sc z theta theta',
  0 < sc -> - PI < theta <= PI ->
  let F := toTheta_F frw sc z in
  let phi := th2cx_m sc theta in
  toTheta_m sc 0 phi = sc * theta /\
  toTheta_v sc F 0 phi (th2cx_v sc phi theta') = sc * theta' + F * theta.
Proof.
  intros frw sc z theta theta' Hr Ht F phi. subst phi.
  unfold toTheta_m, toTheta_v, th2cx_m, th2cx_v. cbn [fst snd].
  rewrite !Rminus_0_r. rewrite arg_polar by assumption. split; [ ring | ].
  pose proof (norm2_polar sc theta) as N. unfold norm2 in N; cbn [fst snd] in N. rewrite N.
  unfold cmul, conj; cbn [fst snd].
  pose proof (sin2_cos2 theta) as H. unfold Rsqr in H.
  apply Rplus_eq_compat_r.
  transitivity (sc * theta' * (sin theta * sin theta + cos theta * cos theta)); [ field; lra | rewrite H; ring ].
Qed.

(** A complex field phi(z) - sh = rho(z) exp(i theta(z)) and its derivative give the
    angle field R*theta and its derivative, for a scale factor R = z^frw. The derivative of z^frw
    is stated as a hypothesis on R. *)
Theorem complex_to_angle_velocity : forall frw (sc rho theta x y : R -> R) sh z rho' theta' x' y',
  z <> 0 -> 0 < rho z -> - PI < theta z <= PI ->
  derivable_pt_lim sc z (frw * sc z / z) ->
  derivable_pt_lim rho z rho' -> derivable_pt_lim theta z theta' ->
  (forall t, x t = sh + rho t * cos (theta t)) -> (forall t, y t = rho t * sin (theta t)) ->
  derivable_pt_lim x z x' -> derivable_pt_lim y z y' ->
  toTheta_m (sc z) sh (x z, y z) = sc z * theta z /\
  derivable_pt_lim (fun t => sc t * theta t) z (toTheta_v (sc z) (toTheta_F frw (sc z) z) sh (x z, y z) (x', y')).
Proof.
  intros frw sc rho theta x y sh z rho' theta' x' y' Hz Hrho Ht Dsc Drho Dth Ex Ey Dx Dy.
  assert (Dx' : derivable_pt_lim x z (rho' * cos (theta z) + rho z * (- sin (theta z) * theta'))).
  { apply (derivable_pt_lim_ext (fun t => sh + rho t * cos (theta t))); [ intros t; symmetry; apply Ex | ].
    replace (rho' * cos (theta z) + rho z * (- sin (theta z) * theta'))
      with (0 + (rho' * cos (theta z) + rho z * (- sin (theta z) * theta'))) by ring.
    apply (derivable_pt_lim_plus (fct_cte sh) (fun t => rho t * cos (theta t))); [ apply derivable_pt_lim_const | ].
    apply (derivable_pt_lim_mult rho (fun t => cos (theta t))); [ exact Drho | ].
    apply (derivable_pt_lim_comp theta cos); [ exact Dth | apply derivable_pt_lim_cos ]. }
  assert (Dy' : derivable_pt_lim y z (rho' * sin (theta z) + rho z * (cos (theta z) * theta'))).
  { apply (derivable_pt_lim_ext (fun t => rho t * sin (theta t))); [ intros t; symmetry; apply Ey | ].
    apply (derivable_pt_lim_mult rho (fun t => sin (theta t))); [ exact Drho | ].
    apply (derivable_pt_lim_comp theta sin); [ exact Dth | apply derivable_pt_lim_sin ]. }
  rewrite (uniqueness_limite _ _ _ _ Dx Dx'), (uniqueness_limite _ _ _ _ Dy Dy'). clear Dx Dy Dx' Dy'.
  unfold toTheta_m, toTheta_v; cbn [fst snd]. rewrite Ex, Ey.
  replace (sh + rho z * cos (theta z) - sh) with (rho z * cos (theta z)) by ring.
  rewrite arg_polar by assumption. split; [ ring | ].
  pose proof (norm2_polar (rho z) (theta z)) as N. unfold norm2 in N; cbn [fst snd] in N. rewrite N.
  pose proof (sin2_cos2 (theta z)) as H. unfold Rsqr in H.
  match goal with |- derivable_pt_lim _ _ ?e => replace e with (frw * sc z / z * theta z + sc z * theta') end.
  - apply (derivable_pt_lim_mult sc theta); assumption.
  - unfold cmul, conj, toTheta_F; cbn [fst snd].
    transitivity (frw * sc z / z * theta z + sc z * theta' * (sin (theta z) * sin (theta z) + cos (theta z) * cos (theta z))).
    + rewrite H; ring.
    + field. split; lra.
Qed.

(** The velocity made from an angle is the derivative of R*exp(i*theta) when R' = 1... *)
Theorem angle_to_complex_velocity_partial : forall (sc theta : R -> R) z theta',
  0 < sc z -> derivable_pt_lim sc z 1 -> derivable_pt_lim theta z theta' ->
  let phi := th2cx_m (sc z) (theta z) in
  derivable_pt_lim (fun t => fst (th2cx_m (sc t) (theta t))) z (fst (th2cx_v (sc z) phi theta')) /\
  derivable_pt_lim (fun t => snd (th2cx_m (sc t) (theta t))) z (snd (th2cx_v (sc z) phi theta')).
Proof.
  intros sc theta z theta' Hr Dsc Dth phi. subst phi. unfold th2cx_m, th2cx_v, cmul; cbn [fst snd]. split.
  - match goal with |- derivable_pt_lim _ _ ?e => replace e with (1 * cos (theta z) + sc z * (- sin (theta z) * theta')) by (field; lra) end.
    apply (derivable_pt_lim_mult sc (fun t => cos (theta t))); [ exact Dsc | ].
    apply (derivable_pt_lim_comp theta cos); [ exact Dth | apply derivable_pt_lim_cos ].
  - match goal with |- derivable_pt_lim _ _ ?e => replace e with (1 * sin (theta z) + sc z * (cos (theta z) * theta')) by (field; lra) end.
    apply (derivable_pt_lim_mult sc (fun t => sin (theta t))); [ exact Dsc | ].
    apply (derivable_pt_lim_comp theta sin); [ exact Dth | apply derivable_pt_lim_sin ].
Qed.

(** ...and only then: at any other expansion rate the code's 1/R should be R'/R. *)
Theorem angle_to_complex_velocity_refuted : forall (sc theta : R -> R) z sc' theta',
  0 < sc z -> derivable_pt_lim sc z sc' -> derivable_pt_lim theta z theta' -> sc' <> 1 ->
  let phi := th2cx_m (sc z) (theta z) in
  ~ (derivable_pt_lim (fun t => fst (th2cx_m (sc t) (theta t))) z (fst (th2cx_v (sc z) phi theta')) /\
     derivable_pt_lim (fun t => snd (th2cx_m (sc t) (theta t))) z (snd (th2cx_v (sc z) phi theta'))).
Proof.
  intros sc theta z sc' theta' Hr Dsc Dth Hn phi. subst phi. unfold th2cx_m, th2cx_v, cmul; cbn [fst snd].
  intros [H1 H2].
  assert (D1 : derivable_pt_lim (fun t => sc t * cos (theta t)) z (sc' * cos (theta z) + sc z * (- sin (theta z) * theta'))).
  { apply (derivable_pt_lim_mult sc (fun t => cos (theta t))); [ exact Dsc | ].
    apply (derivable_pt_lim_comp theta cos); [ exact Dth | apply derivable_pt_lim_cos ]. }
  assert (D2 : derivable_pt_lim (fun t => sc t * sin (theta t)) z (sc' * sin (theta z) + sc z * (cos (theta z) * theta'))).
  { apply (derivable_pt_lim_mult sc (fun t => sin (theta t))); [ exact Dsc | ].
    apply (derivable_pt_lim_comp theta sin); [ exact Dth | apply derivable_pt_lim_sin ]. }
  pose proof (uniqueness_limite _ _ _ _ D1 H1) as E1. pose proof (uniqueness_limite _ _ _ _ D2 H2) as E2.
  assert (F1 : (sc' - 1) * cos (theta z) = 0).
  { assert (sc z * cos (theta z) * (1 / sc z) = cos (theta z)) by (field; lra). lra. }
  assert (F2 : (sc' - 1) * sin (theta z) = 0).
  { assert (sc z * sin (theta z) * (1 / sc z) = sin (theta z)) by (field; lra). lra. }
  pose proof (sin2_cos2 (theta z)) as H. unfold Rsqr in H.
  apply Hn. assert ((sc' - 1) * (sin (theta z) * sin (theta z) + cos (theta z) * cos (theta z)) = 0).
  { rewrite Rmult_plus_distr_l. replace ((sc' - 1) * (sin (theta z) * sin (theta z))) with ((sc' - 1) * sin (theta z) * sin (theta z)) by ring.
    replace ((sc' - 1) * (cos (theta z) * cos (theta z))) with ((sc' - 1) * cos (theta z) * cos (theta z)) by ring.
    rewrite F1, F2; ring. }
  rewrite H in H0. lra.
Qed.

(** The hypotheses are met: radiation (R = z, R' = 1) and angle z/2, at z = 1. *)
Example velocity_ex :
  0 < id 1 /\ - PI < id 1 / 2 <= PI /\ derivable_pt_lim id 1 (1 * id 1 / 1) /\ derivable_pt_lim id 1 1.
Proof.
  unfold id. pose proof PI_RGT_0. pose proof PI2_1.
  repeat split; try lra.
  - replace (1 * 1 / 1) with 1 by field. apply derivable_pt_lim_id.
  - apply derivable_pt_lim_id.
Qed.
(** and an expansion rate 2 (R = 2z) refutes it at any angle *)
Example velocity_refuted_ex : ~ (derivable_pt_lim (fun t => fst (th2cx_m (2 * t) 0)) 1 (fst (th2cx_v 2 (th2cx_m 2 0) 0)) /\
  derivable_pt_lim (fun t => snd (th2cx_m (2 * t) 0)) 1 (snd (th2cx_v 2 (th2cx_m 2 0) 0))).
Proof.
  assert (D : derivable_pt_lim (fun t => 2 * t) 1 2).
  { pose proof (derivable_pt_lim_scal id 2 1 1 (derivable_pt_lim_id 1)) as H. rewrite Rmult_1_r in H. exact H. }
  pose proof (angle_to_complex_velocity_refuted (fun t => 2 * t) (fct_cte 0) 1 2 0 ltac:(lra) D
    (derivable_pt_lim_const 0 1) ltac:(lra)) as H.
  cbn beta zeta in H. unfold fct_cte in H. rewrite Rmult_1_r in H. exact H.
Qed.

Print Assumptions complex_to_angle_in_place.
Print Assumptions angle_to_complex_in_place.
Print Assumptions angle_to_paxion_in_place.
Print Assumptions angle_to_naxion_in_place.
Print Assumptions complex_to_angle_no_ghosts_refuted.
Print Assumptions angle_round_trip.
Print Assumptions complex_to_angle_velocity.
Print Assumptions angle_to_complex_velocity_partial.
Print Assumptions angle_to_complex_velocity_refuted.
