(** The solver of band matrices. *)
From Coq Require Import Lra Reals List Arith Bool Lia.
From Verif Require Import SplineModel SplineSpec.
Import ListNotations.
Open Scope R_scope.

(** ** Sums *)
Lemma sumTo_ext : forall n f g, (forall i, (i < n)%nat -> f i = g i) -> sumTo n f = sumTo n g.
Proof. induction n as [|n IH]; intros f g H; [reflexivity|]. cbn [sumTo]. rewrite (IH f g), (H n) by (intros; try apply H; lia). reflexivity. Qed.
Lemma sumTo_zero : forall n f, (forall i, (i < n)%nat -> f i = 0) -> sumTo n f = 0.
Proof. induction n as [|n IH]; intros f H; [reflexivity|]. cbn [sumTo]. rewrite IH, H by (intros; try apply H; lia). ring. Qed.
Lemma sumTo_plus : forall n f g, sumTo n (fun i => f i + g i) = sumTo n f + sumTo n g.
Proof. induction n as [|n IH]; intros f g; cbn [sumTo]; [ring | rewrite IH; ring]. Qed.
Lemma sumTo_scal : forall n c f, sumTo n (fun i => c * f i) = c * sumTo n f.
Proof. induction n as [|n IH]; intros c f; cbn [sumTo]; [ring | rewrite IH; ring]. Qed.
Lemma sumTo_swap : forall n m f, sumTo n (fun i => sumTo m (f i)) = sumTo m (fun j => sumTo n (fun i => f i j)).
Proof.
  induction n as [|n IH]; intros m f; cbn [sumTo]; [symmetry; apply sumTo_zero; reflexivity|]. rewrite IH. rewrite <- sumTo_plus. reflexivity.
Qed.
(** A sum with terms outside a range equal to zero is the sum over the range. *)
Lemma sumTo_app : forall n m f, sumTo (n + m) f = sumTo n f + sumTo m (fun i => f (n + i)%nat).
Proof. intros n m f; induction m as [|m IH]; [rewrite Nat.add_0_r; cbn [sumTo]; ring|]. rewrite Nat.add_succ_r. cbn [sumTo]. rewrite IH. ring. Qed.
Lemma sumTo_range : forall n lo len f, (lo + len <= n)%nat -> (forall i, (i < n)%nat -> (i < lo \/ lo + len <= i)%nat -> f i = 0) ->
  sumTo n f = sumTo len (fun i => f (lo + i)%nat).
Proof.
  intros n lo len f H Z. replace n with (lo + (len + (n - lo - len)))%nat by lia. rewrite sumTo_app, sumTo_app.
  rewrite (sumTo_zero lo), (sumTo_zero (n - lo - len)) by (intros; apply Z; lia). ring.
Qed.

(** ** Loops *)
Lemma loop_some : forall (S : Type) (f : nat -> S -> option S) (P : nat -> S -> Prop) len lo s s', loop f (seq lo len) s = Some s' -> P lo s ->
  (forall k a b, (lo <= k < lo + len)%nat -> P k a -> f k a = Some b -> P (k + 1)%nat b) -> P (lo + len)%nat s'.
Proof.
  intros S f P len; induction len as [|len IH]; intros lo s s' H P0 St; cbn [seq loop] in H.
  - injection H as <-. rewrite Nat.add_0_r. exact P0.
  - destruct (f lo s) as [a|] eqn:E; [|discriminate]. replace (lo + Datatypes.S len)%nat with (Datatypes.S lo + len)%nat by lia.
    apply (IH (Datatypes.S lo) a s' H); [replace (Datatypes.S lo) with (lo + 1)%nat by lia; apply (St lo s a); [lia | exact P0 | exact E]|].
    intros k x y Hk. apply St. lia.
Qed.
Lemma loop_inv : forall (S : Type) (f : nat -> S -> option S) (P : nat -> S -> Prop) len lo s, P lo s ->
  (forall k a, (lo <= k < lo + len)%nat -> P k a -> exists b, f k a = Some b /\ P (k + 1)%nat b) -> exists s', loop f (seq lo len) s = Some s' /\ P (lo + len)%nat s'.
Proof.
  intros S f P len; induction len as [|len IH]; intros lo s P0 St; cbn [seq loop].
  - exists s. rewrite Nat.add_0_r. auto.
  - destruct (St lo s ltac:(lia) P0) as [a [E Pa]]. rewrite E. replace (lo + Datatypes.S len)%nat with (Datatypes.S lo + len)%nat by lia.
    apply IH; [replace (Datatypes.S lo) with (lo + 1)%nat by lia; exact Pa|]. intros k x Hk. apply St. lia.
Qed.
(** Downwards. *)
Lemma rev_seq : forall n, rev (seq 0 (S n)) = n :: rev (seq 0 n).
Proof. intros n. rewrite seq_S, rev_app_distr. reflexivity. Qed.
Lemma loop_down : forall (S : Type) (f : nat -> S -> option S) (P : nat -> S -> Prop) n s s', loop f (rev (seq 0 n)) s = Some s' -> P n s ->
  (forall k a b, (k < n)%nat -> P (k + 1)%nat a -> f k a = Some b -> P k b) -> P 0%nat s'.
Proof.
  intros S f P n; induction n as [|n IH]; intros s s' H P0 St; [cbn in H; injection H as <-; exact P0|].
  rewrite rev_seq in H. cbn [loop] in H. destruct (f n s) as [a|] eqn:E; [|discriminate].
  apply (IH a s' H); [apply (St n s a); [lia | rewrite Nat.add_1_r; exact P0 | exact E]|]. intros k x y Hk. apply St. lia.
Qed.
Lemma loop_down_inv : forall (S : Type) (f : nat -> S -> option S) (P : nat -> S -> Prop) n s, P n s ->
  (forall k a, (k < n)%nat -> P (k + 1)%nat a -> exists b, f k a = Some b /\ P k b) -> exists s', loop f (rev (seq 0 n)) s = Some s' /\ P 0%nat s'.
Proof.
  intros S f P n; induction n as [|n IH]; intros s P0 St; [exists s; auto|].
  rewrite rev_seq. cbn [loop]. destruct (St n s ltac:(lia)) as [a [E Pa]]; [rewrite Nat.add_1_r; exact P0|]. rewrite E.
  apply IH; [exact Pa|]. intros k x Hk. apply St. lia.
Qed.

(** ** Entries *)
Definition like (A B : band) : Prop := nDim B = nDim A /\ nUp B = nUp A /\ nLow B = nLow A.
Lemma like_refl : forall A, like A A. Proof. intros A; unfold like; auto. Qed.
Lemma like_trans : forall A B C, like A B -> like B C -> like A C.
Proof. intros A B C [a [b c]] [d [e f]]. unfold like. rewrite d, e, f. auto. Qed.
Lemma like_inBand : forall A B i j, like A B -> inBand B i j = inBand A i j.
Proof. intros A B i j [a [b c]]. unfold inBand. rewrite a, b, c. reflexivity. Qed.
Lemma inBand_iff : forall A i j, inBand A i j = true <-> (i < nDim A /\ j < nDim A /\ j <= i + nUp A /\ i <= j + nLow A)%nat.
Proof. intros A i j. unfold inBand. rewrite !andb_true_iff, !Nat.ltb_lt, !Nat.leb_le. tauto. Qed.
Lemma entry_out : forall A i j, inBand A i j = false -> entry A i j = 0.
Proof. intros A i j H. unfold entry, at_. rewrite H. reflexivity. Qed.
Lemma at_entry : forall A i j v, at_ A i j = Some v -> v = entry A i j /\ inBand A i j = true.
Proof. intros A i j v H. unfold entry. rewrite H. unfold at_ in H. destruct (inBand A i j); [auto | discriminate]. Qed.
Lemma at_some : forall A i j, inBand A i j = true -> at_ A i j = Some (entry A i j).
Proof. intros A i j H. unfold entry, at_. rewrite H. reflexivity. Qed.
Lemma put_some : forall A i j v, inBand A i j = true -> exists B, put A i j v = Some B.
Proof. intros A i j v H. unfold put. rewrite H. eexists. reflexivity. Qed.
Lemma put_effect : forall A i j v B, put A i j v = Some B -> like A B /\ inBand A i j = true /\
  (forall i' j', entry B i' j' = if (i' =? i)%nat && (j' =? j)%nat then v else entry A i' j') /\ forall i', savedDiag B i' = savedDiag A i'.
Proof.
  intros A i j v B H. unfold put in H. destruct (inBand A i j) eqn:IB; [|discriminate]. injection H as <-.
  assert (L : like A (if (i <=? j)%nat then Band (nDim A) (nUp A) (nLow A) (upd (mUp A) (j - i) i v) (mLow A) else Band (nDim A) (nUp A) (nLow A) (mUp A) (upd (mLow A) (i - j) i v)))
    by (destruct (i <=? j)%nat; unfold like; cbn [nDim nUp nLow]; auto).
  split; [exact L|]. split; [reflexivity|]. split.
  - intros i' j'. unfold entry, at_. rewrite (like_inBand _ _ i' j' L).
    destruct (Nat.eqb_spec i' i) as [->|Ni]; [destruct (Nat.eqb_spec j' j) as [->|Nj]|]; cbn [andb].
    + rewrite IB. destruct (i <=? j)%nat; cbn [mUp mLow]; unfold upd; rewrite !Nat.eqb_refl; reflexivity.
    + destruct (inBand A i j'); [|reflexivity]. destruct (Nat.leb_spec i j), (Nat.leb_spec i j'); cbn [mUp mLow]; unfold upd; try reflexivity;
        match goal with |- context [(?a =? ?b)%nat] => replace (a =? b)%nat with false by (symmetry; apply Nat.eqb_neq; lia) end; reflexivity.
    + destruct (inBand A i' j'); [|reflexivity]. apply Nat.eqb_neq in Ni. destruct (i <=? j)%nat, (i' <=? j')%nat; cbn [mUp mLow]; unfold upd; rewrite ?Ni, ?andb_false_r; reflexivity.
  - intros i'. destruct (Nat.leb_spec i j); unfold savedDiag; cbn [mLow]; [reflexivity|]. unfold upd.
    replace (0 =? i - j)%nat with false by (symmetry; apply Nat.eqb_neq; lia). reflexivity.
Qed.
Lemma saveDiag_effect : forall A i v, like A (saveDiag A i v) /\ (forall i' j', entry (saveDiag A i v) i' j' = entry A i' j') /\
  forall i', savedDiag (saveDiag A i v) i' = setAt (savedDiag A) i v i'.
Proof.
  intros A i v. split; [unfold like, saveDiag; cbn [nDim nUp nLow]; auto|]. split.
  - intros i' j'. unfold entry, at_. change (inBand (saveDiag A i v) i' j') with (inBand A i' j'). destruct (inBand A i' j'); [|reflexivity].
    destruct (Nat.leb_spec i' j'); [reflexivity|]. unfold saveDiag; cbn [mLow]. unfold upd. replace (i' - j' =? 0)%nat with false by (symmetry; apply Nat.eqb_neq; lia). reflexivity.
  - intros i'. unfold savedDiag, saveDiag, setAt; cbn [mLow]. unfold upd. reflexivity.
Qed.

(** ** Scaling *)
Definition rowChange (A B : band) (i : nat) (g : nat -> R) : Prop :=
  like A B /\ (forall j, entry B i j = g j) /\ (forall i' j, i' <> i -> entry B i' j = entry A i' j).
Lemma scaleRow_effect : forall i A B, scaleRow i A = Some B -> entry A i i <> 0 /\ rowChange A B i (fun j => entry A i j / entry A i i) /\
  forall i', savedDiag B i' = setAt (savedDiag A) i (1 / entry A i i) i'.
Proof.
  intros i A B H. unfold scaleRow in H. destruct (at_ A i i) as [a|] eqn:Ea; [|discriminate]. destruct (at_entry _ _ _ _ Ea) as [-> IB].
  destruct (Req_EM_T (entry A i i) 0) as [|N]; [discriminate|]. split; [exact N|].
  set (a := entry A i i) in *. destruct (saveDiag_effect A i (1 / a)) as [L0 [E0 S0]].
  match type of H with match ?x with _ => _ end = _ => destruct x as [C|] eqn:EC; [|discriminate] end.
  unfold upto in EC. set (lo := (i - nLow A)%nat) in *. set (len := (Nat.min (nDim A - 1) (i + nUp A) + 1 - lo)%nat) in *.
  pose proof (loop_some _ _ (fun k X => like A X /\ (forall i', savedDiag X i' = setAt (savedDiag A) i (1 / a) i') /\
     (forall i' j, i' <> i -> entry X i' j = entry A i' j) /\ forall j, entry X i j = if (lo <=? j)%nat && (j <? k)%nat then entry A i j * (1 / a) else entry A i j) _ _ _ _ EC) as Q.
  destruct Q as [QL [QS [QO QI]]].
  - split; [exact L0|]. split; [exact S0|]. split; [intros; apply E0|]. intros j. rewrite E0. destruct (Nat.leb_spec lo j), (Nat.ltb_spec j lo); cbn [andb]; (lia || reflexivity).
  - intros k X Y Hk [XL [XS [XO XI]]] HY. unfold scaleEntry in HY. destruct (at_ X i k) as [v|] eqn:Ev; [|discriminate]. destruct (at_entry _ _ _ _ Ev) as [-> _].
    destruct (put_effect _ _ _ _ _ HY) as [YL [_ [YE YS]]]. split; [exact (like_trans _ _ _ XL YL)|]. split; [intros i'; rewrite YS; apply XS|].
    split; [intros i' j Hi; rewrite YE; replace (i' =? i)%nat with false by (symmetry; apply Nat.eqb_neq; exact Hi); apply XO, Hi|].
    intros j. rewrite YE, Nat.eqb_refl. cbn [andb]. destruct (Nat.eqb_spec j k) as [->|Nj].
    + rewrite XI, XS. unfold setAt. rewrite Nat.eqb_refl. replace (lo <=? k)%nat with true by (symmetry; apply Nat.leb_le; lia).
      replace (k <? k)%nat with false by (symmetry; apply Nat.ltb_irrefl). replace (k <? k + 1)%nat with true by (symmetry; apply Nat.ltb_lt; lia). reflexivity.
    + rewrite XI. replace (j <? k + 1)%nat with (j <? k)%nat; [reflexivity|]. destruct (Nat.ltb_spec j k), (Nat.ltb_spec j (k + 1)); (lia || reflexivity).
  - assert (QJ : forall j, entry C i j = entry A i j / a).
    { intros j. rewrite QI. destruct (inBand A i j) eqn:Ij.
      - apply inBand_iff in Ij. replace (lo <=? j)%nat with true by (symmetry; apply Nat.leb_le; lia). replace (j <? lo + len)%nat with true by (symmetry; apply Nat.ltb_lt; lia). cbn [andb]. unfold Rdiv. ring.
      - rewrite (entry_out _ _ _ Ij). destruct (_ && _); unfold Rdiv; ring. }
    destruct (put_effect _ _ _ _ _ H) as [BL [_ [BE BS]]]. split; [|intros i'; rewrite BS; apply QS].
    split; [exact (like_trans _ _ _ QL BL)|]. split.
    + intros j. rewrite BE, Nat.eqb_refl. cbn [andb]. destruct (Nat.eqb_spec j i) as [->|]; [unfold a; field; exact N | apply QJ].
    + intros i' j Hi. rewrite BE. replace (i' =? i)%nat with false by (symmetry; apply Nat.eqb_neq; exact Hi). apply QO, Hi.
Qed.
Lemma scaled : forall A B, loop scaleRow (seq 0 (nDim A)) A = Some B -> like A B /\ forall i, (i < nDim A)%nat ->
  entry A i i <> 0 /\ (forall j, entry B i j = entry A i j / entry A i i) /\ savedDiag B i = 1 / entry A i i.
Proof.
  intros A B H. pose proof (loop_some _ _ (fun k X => like A X /\ (forall i j, (k <= i)%nat -> entry X i j = entry A i j) /\
    forall i, (i < k)%nat -> entry A i i <> 0 /\ (forall j, entry X i j = entry A i j / entry A i i) /\ savedDiag X i = 1 / entry A i i) _ _ _ _ H) as Q.
  destruct Q as [QL [_ QI]]; [| |split; [exact QL | exact QI]].
  - split; [apply like_refl|]. split; [reflexivity | intros; lia].
  - intros k X Y Hk [XL [XO XI]] HY. destruct (scaleRow_effect _ _ _ HY) as [N [[YL [YI YO]] YS]]. rewrite (XO k k) in * by lia.
    split; [exact (like_trans _ _ _ XL YL)|]. split; [intros i j Hi; rewrite YO by lia; apply XO; lia|].
    intros i Hi. destruct (Nat.eq_dec i k) as [->|Ni].
    + split; [exact N|]. split; [intros j; rewrite YI, XO by lia; reflexivity|]. rewrite YS. unfold setAt. rewrite Nat.eqb_refl. reflexivity.
    + destruct (XI i ltac:(lia)) as [a [b c]]. split; [exact a|]. split; [intros j; rewrite YO by exact Ni; apply b|]. rewrite YS. unfold setAt.
      replace (i =? k)%nat with false by (symmetry; apply Nat.eqb_neq; exact Ni). exact c.
Qed.

(** ** Elimination *)
Lemma gaussRow_effect : forall k i A B, (k < i)%nat -> gaussRow k i A = Some B -> let m := entry A i k / entry A k k in
  entry A k k <> 0 /\ rowChange A B i (fun j => if (j <? k)%nat then entry A i j else if (j =? k)%nat then m else entry A i j - m * entry A k j) /\
  forall i', savedDiag B i' = savedDiag A i'.
Proof.
  intros k i A B Hki H m. unfold gaussRow in H. destruct (at_ A k k) as [p|] eqn:Ep; [|discriminate]. destruct (at_entry _ _ _ _ Ep) as [-> IK].
  destruct (at_ A i k) as [v|] eqn:Ev; [|discriminate]. destruct (at_entry _ _ _ _ Ev) as [-> II].
  destruct (Req_EM_T (entry A k k) 0) as [|N]; [discriminate|]. split; [exact N|]. set (x := - entry A i k / entry A k k) in *.
  assert (XM : x = - m) by (unfold x, m; field; exact N).
  destruct (put A i k (- x)) as [C|] eqn:EC; [|discriminate]. destruct (put_effect _ _ _ _ _ EC) as [CL [_ [CE CS]]].
  unfold upto in H. set (len := (Nat.min (nDim A - 1) (k + nUp A) + 1 - (k + 1))%nat) in *.
  pose proof (loop_some _ _ (fun t X => like A X /\ (forall i', savedDiag X i' = savedDiag A i') /\ (forall i' j, i' <> i -> entry X i' j = entry A i' j) /\
     forall j, entry X i j = if (j <? k)%nat then entry A i j else if (j =? k)%nat then m else if (j <? t)%nat then entry A i j - m * entry A k j else entry A i j) _ _ _ _ H) as Q.
  destruct Q as [QL [QS [QO QI]]].
  - split; [exact CL|]. split; [exact CS|]. split.
    + intros i' j Hi. rewrite CE. replace (i' =? i)%nat with false by (symmetry; apply Nat.eqb_neq; exact Hi). reflexivity.
    + intros j. rewrite CE, Nat.eqb_refl. cbn [andb]. destruct (Nat.ltb_spec j k), (Nat.eqb_spec j k), (Nat.ltb_spec j (k + 1)); try lia; try reflexivity. rewrite XM. ring.
  - intros t X Y Ht [XL [XS [XO XI]]] HY. unfold gaussEntry in HY. destruct (at_ X i t) as [va|] eqn:Ea; [|discriminate]. destruct (at_entry _ _ _ _ Ea) as [-> _].
    destruct (at_ X k t) as [vb|] eqn:Eb; [|discriminate]. destruct (at_entry _ _ _ _ Eb) as [-> _]. destruct (put_effect _ _ _ _ _ HY) as [YL [_ [YE YS]]].
    split; [exact (like_trans _ _ _ XL YL)|]. split; [intros i'; rewrite YS; apply XS|].
    split; [intros i' j Hi; rewrite YE; replace (i' =? i)%nat with false by (symmetry; apply Nat.eqb_neq; exact Hi); apply XO, Hi|].
    intros j. rewrite YE, Nat.eqb_refl. cbn [andb]. rewrite !XI, (XO k t) by lia.
    destruct (Nat.eqb_spec j t) as [->|Nj].
    + destruct (Nat.ltb_spec t k), (Nat.eqb_spec t k), (Nat.ltb_spec t t), (Nat.ltb_spec t (t + 1)); try lia. rewrite XM. ring.
    + destruct (Nat.ltb_spec j k), (Nat.eqb_spec j k), (Nat.ltb_spec j t), (Nat.ltb_spec j (t + 1)); (lia || reflexivity).
  - split; [|exact QS]. split; [exact QL|]. split; [|exact QO]. intros j. rewrite QI.
    destruct (Nat.ltb_spec j k), (Nat.eqb_spec j k); try reflexivity. destruct (Nat.ltb_spec j (k + 1 + len)); [reflexivity|].
    rewrite (entry_out A k j); [ring|]. destruct (inBand A k j) eqn:Ij; [|reflexivity]. apply inBand_iff in Ij. lia.
Qed.
Lemma gauss_effect : forall k A B, (k < nDim A)%nat -> gauss k A = Some B -> exists m : nat -> R,
  like A B /\ (forall i', savedDiag B i' = savedDiag A i') /\
  (forall i j, (i <= k)%nat -> entry B i j = entry A i j) /\ (forall i j, (j < k)%nat -> entry B i j = entry A i j) /\
  forall i, (k < i)%nat -> m i * entry A k k = entry A i k /\ entry B i k = m i /\ forall j, (k < j)%nat -> entry B i j = entry A i j - m i * entry A k j.
Proof.
  intros k A B HkA H. unfold gauss, upto in H. set (len := (Nat.min (nDim A - 1) (k + nLow A) + 1 - (k + 1))%nat) in *.
  exists (fun i => if (i <? k + 1 + len)%nat then entry A i k / entry A k k else 0).
  pose proof (loop_some _ _ (fun t X => like A X /\ (forall i', savedDiag X i' = savedDiag A i') /\
     (forall i j, (i <= k \/ t <= i \/ j < k)%nat -> entry X i j = entry A i j) /\
     forall i, (k < i < t)%nat -> entry A k k <> 0 /\ entry X i k = entry A i k / entry A k k /\ forall j, (k < j)%nat -> entry X i j = entry A i j - entry A i k / entry A k k * entry A k j) _ _ _ _ H) as Q.
  destruct Q as [QL [QS [QO QI]]].
  - split; [apply like_refl|]. split; [reflexivity|]. split; [reflexivity | intros; lia].
  - intros t X Y Ht [XL [XS [XO XI]]] HY. destruct (gaussRow_effect k t X Y ltac:(lia) HY) as [N [[YL [YI YO]] YS]].
    rewrite (XO k k) in * by lia. rewrite (XO t k) in * by lia.
    split; [exact (like_trans _ _ _ XL YL)|]. split; [intros i'; rewrite YS; apply XS|]. split.
    + intros i j Hij. destruct (Nat.eq_dec i t) as [->|Ni].
      * rewrite YI. replace (j <? k)%nat with true by (symmetry; apply Nat.ltb_lt; lia). apply XO. lia.
      * rewrite YO by exact Ni. apply XO. lia.
    + intros i Hi. split; [exact N|]. destruct (Nat.eq_dec i t) as [->|Ni].
      * rewrite YI. rewrite Nat.eqb_refl, Nat.ltb_irrefl. split; [reflexivity|]. intros j Hj. rewrite YI.
        replace (j <? k)%nat with false by (symmetry; apply Nat.ltb_ge; lia). replace (j =? k)%nat with false by (symmetry; apply Nat.eqb_neq; lia). rewrite !XO by lia. reflexivity.
      * destruct (XI i ltac:(lia)) as [_ [b c]]. split; [rewrite YO by exact Ni; exact b|]. intros j Hj. rewrite YO by exact Ni. apply c, Hj.
  - split; [exact QL|]. split; [exact QS|]. split; [intros; apply QO; lia|]. split; [intros; apply QO; lia|].
    intros i Hi. cbv beta. destruct (Nat.ltb_spec i (k + 1 + len)) as [L|L].
    + destruct (QI i ltac:(lia)) as [N [b c]]. split; [field; exact N|]. split; [exact b | exact c].
    + assert (Z : entry A i k = 0). { apply entry_out. destruct (inBand A i k) eqn:Ij; [|reflexivity]. apply inBand_iff in Ij. lia. }
      split; [rewrite Z; ring|]. split; [rewrite QO by lia; exact Z|]. intros j Hj. rewrite QO by lia. ring.
Qed.
(** The factors. *)
Definition lf (M : band) (i t : nat) : R := if (t <? i)%nat then entry M i t else if (t =? i)%nat then 1 else 0.
Definition rf (M : band) (t j : nat) : R := if (t <=? j)%nat then entry M t j else 0.
Lemma factored : forall A B, loop gauss (seq 0 (nDim A)) A = Some B -> like A B /\ (forall i, savedDiag B i = savedDiag A i) /\
  forall i j, (i < nDim A)%nat -> (j < nDim A)%nat -> entry A i j = sumTo (nDim A) (fun t => lf B i t * rf B t j).
Proof.
  intros A B H. pose proof (loop_some _ _ (fun k X => like A X /\ (forall i, savedDiag X i = savedDiag A i) /\
    forall i j, entry A i j = sumTo k (fun t => lf X i t * rf X t j) + if (k <=? i)%nat && (k <=? j)%nat then entry X i j else 0) _ _ _ _ H) as Q.
  destruct Q as [QL [QS QI]].
  - split; [apply like_refl|]. split; [reflexivity|]. intros i j. cbn [sumTo Nat.leb andb]. ring.
  - intros k X Y Hk [XL [XS XI]] HY. destruct (gauss_effect k X Y ltac:(destruct XL as [-> _]; lia) HY) as [m [YL [YS [YR [YC YE]]]]].
    split; [exact (like_trans _ _ _ XL YL)|]. split; [intros i; rewrite YS; apply XS|].
    intros i j. rewrite XI, Nat.add_1_r. cbn [sumTo].
    assert (SS : sumTo k (fun t => lf Y i t * rf Y t j) = sumTo k (fun t => lf X i t * rf X t j)).
    { apply sumTo_ext. intros t Ht. unfold lf, rf. rewrite (YC i t Ht), (YR t j) by lia. reflexivity. }
    rewrite SS. clear SS. set (s := sumTo k _). clearbody s. unfold lf, rf.
    destruct (Nat.leb_spec k j) as [J|J]; [|rewrite andb_false_r; replace (Nat.leb (S k) j) with false by (symmetry; apply Nat.leb_gt; lia); rewrite andb_false_r; ring].
    rewrite (YR k j) by lia. destruct (Nat.lt_trichotomy i k) as [L|[L|L]].
    + replace (k <=? i)%nat with false by (symmetry; apply Nat.leb_gt; lia). replace (k <? i)%nat with false by (symmetry; apply Nat.ltb_ge; lia).
      replace (k =? i)%nat with false by (symmetry; apply Nat.eqb_neq; lia). replace (Nat.leb (S k) i) with false by (symmetry; apply Nat.leb_gt; lia). cbn [andb]. ring.
    + subst i. rewrite Nat.leb_refl, Nat.ltb_irrefl, Nat.eqb_refl. replace (Nat.leb (S k) k) with false by (symmetry; apply Nat.leb_gt; lia). cbn [andb]. ring.
    + destruct (YE i L) as [E1 [E2 E3]]. replace (k <=? i)%nat with true by (symmetry; apply Nat.leb_le; lia). replace (k <? i)%nat with true by (symmetry; apply Nat.ltb_lt; lia).
      replace (Nat.leb (S k) i) with true by (symmetry; apply Nat.leb_le; lia). rewrite E2. cbn [andb].
      destruct (Nat.leb_spec (S k) j) as [J'|J']; [rewrite (E3 j) by lia; ring|]. assert (j = k) by lia. subst j. rewrite <- E1. ring.
  - split; [exact QL|]. split; [exact QS|]. intros i j Hi Hj. rewrite QI. cbn [Nat.add]. replace (nDim A <=? i)%nat with false by (symmetry; apply Nat.leb_gt; lia). cbn [andb]. ring.
Qed.

(** ** Substitution *)
Lemma rowSum_is : forall A i x len lo s, rowSum A i x (seq lo len) = Some s -> s = sumTo len (fun j => entry A i (lo + j)%nat * x (lo + j)%nat).
Proof.
  intros A i x len lo s H. unfold rowSum in H.
  pose proof (loop_some _ _ (fun k (s : R) => s = sumTo (k - lo) (fun j => entry A i (lo + j)%nat * x (lo + j)%nat)) _ _ _ _ H) as Q.
  cbv beta in Q. replace (lo + len - lo)%nat with len in Q by lia. apply Q.
  - rewrite Nat.sub_diag. reflexivity.
  - intros k a b Hk -> Hb. destruct (at_ A i k) as [v|] eqn:Ev; [|discriminate]. destruct (at_entry _ _ _ _ Ev) as [-> _]. injection Hb as <-.
    replace (k + 1 - lo)%nat with (S (k - lo)) by lia. cbn [sumTo]. replace (lo + (k - lo))%nat with k by lia. reflexivity.
Qed.
Lemma lSolve_is : forall A b y, lSolve A b = Some y -> length b = nDim A /\ forall i, (i < nDim A)%nat ->
  y i + sumTo i (fun j => entry A i j * y j) = nth i b 0 * savedDiag A i.
Proof.
  intros A b y H. unfold lSolve in H. destruct (Nat.eqb_spec (length b) (nDim A)) as [L|]; [|discriminate]. split; [exact L|].
  pose proof (loop_some _ _ (fun k (x : nat -> R) => forall i, (i < k)%nat -> x i + sumTo i (fun j => entry A i j * x j) = nth i b 0 * savedDiag A i) _ _ _ _ H) as Q.
  apply Q; [intros; lia|]. intros k x x' Hk Hx E. destruct (rowSum _ _ _ _) as [s|] eqn:ES; [|discriminate]. injection E as <-. apply rowSum_is in ES.
  assert (S0 : s = sumTo k (fun j => entry A k j * x j)).
  { rewrite ES. symmetry. apply (sumTo_range k (k - nLow A) (k - (k - nLow A)) (fun j => entry A k j * x j)); [lia|]. intros i Hi [Z|Z]; [|lia].
    rewrite entry_out; [ring|]. destruct (inBand A k i) eqn:Ij; [|reflexivity]. apply inBand_iff in Ij. lia. }
  intros i Hi. rewrite (sumTo_ext i (fun j => entry A i j * setAt x k (nth k b 0 * savedDiag A k - s) j) (fun j => entry A i j * x j)).
  - unfold setAt. destruct (Nat.eqb_spec i k) as [->|Ni]; [rewrite <- S0; ring | apply Hx; lia].
  - intros j Hj. unfold setAt. replace (j =? k)%nat with false by (symmetry; apply Nat.eqb_neq; lia). reflexivity.
Qed.
Lemma rSolve_is : forall A y x, rSolve A y = Some x -> forall i, (i < nDim A)%nat -> sumTo (nDim A) (fun j => rf A i j * x j) = y i.
Proof.
  intros A y x H. unfold rSolve in H.
  pose proof (loop_down _ _ (fun k (x : nat -> R) => forall i, (k <= i < nDim A)%nat -> sumTo (nDim A) (fun j => rf A i j * x j) = y i) _ _ _ H) as Q.
  intros i Hi. apply Q; [intros; lia | | lia]. clear Q H x i Hi. intros k x x' Hk Hx E. destruct (rowSum _ _ _ _) as [s|] eqn:ES; [|discriminate].
  destruct (at_ A k k) as [a|] eqn:Ea; [|discriminate]. destruct (at_entry _ _ _ _ Ea) as [-> _]. destruct (Req_EM_T (entry A k k) 0) as [|N]; [discriminate|]. injection E as <-.
  unfold upto in ES. apply rowSum_is in ES. intros i Hi. destruct (Nat.eq_dec i k) as [->|Ni].
  - assert (S0 : sumTo (nDim A - (k + 1)) (fun j => entry A k (k + 1 + j)%nat * x (k + 1 + j)%nat) = s).
    { rewrite ES. apply (sumTo_range (nDim A - (k + 1)) 0 (Nat.min (nDim A - 1) (k + nUp A) + 1 - (k + 1)) (fun j => entry A k (k + 1 + j)%nat * x (k + 1 + j)%nat)); [lia|].
      intros j Hj Z. rewrite entry_out; [ring|]. destruct (inBand A k (k + 1 + j)) eqn:Ij; [|reflexivity]. apply inBand_iff in Ij. lia. }
    set (x' := setAt x k ((y k - s) / entry A k k)).
    replace (nDim A) with (k + (1 + (nDim A - (k + 1))))%nat at 1 by lia. rewrite sumTo_app, sumTo_app.
    rewrite sumTo_zero by (intros j Hj; unfold rf; replace (k <=? j)%nat with false by (symmetry; apply Nat.leb_gt; lia); ring).
    cbn [sumTo]. rewrite Nat.add_0_r. unfold rf at 1. rewrite Nat.leb_refl. unfold x' at 1. unfold setAt at 1. rewrite Nat.eqb_refl.
    rewrite (sumTo_ext _ (fun j => rf A k (k + (1 + j))%nat * x' (k + (1 + j))%nat) (fun j => entry A k (k + 1 + j)%nat * x (k + 1 + j)%nat)).
    + rewrite S0. field. exact N.
    + intros j Hj. unfold rf, x', setAt. replace (k <=? k + (1 + j))%nat with true by (symmetry; apply Nat.leb_le; lia). replace (k + (1 + j) =? k)%nat with false by (symmetry; apply Nat.eqb_neq; lia). rewrite Nat.add_assoc. reflexivity.
  - rewrite <- (Hx i ltac:(lia)). apply sumTo_ext. intros j Hj. unfold rf. destruct (Nat.leb_spec i j); [|ring]. unfold setAt. replace (j =? k)%nat with false by (symmetry; apply Nat.eqb_neq; lia). reflexivity.
Qed.

(** ** The solution *)
Lemma sumTo_pick : forall n i f, (i < n)%nat -> sumTo n (fun t => (if (t =? i)%nat then 1 else 0) * f t) = f i.
Proof.
  intros n i f H. rewrite (sumTo_range n i 1) by (try lia; intros t Ht Z; replace (t =? i)%nat with false by (symmetry; apply Nat.eqb_neq; lia); ring).
  cbn [sumTo]. rewrite Nat.add_0_r, Nat.eqb_refl. ring.
Qed.
Theorem luSolve_solves : forall A b x, luSolve A b = Some x -> solves A b x.
Proof.
  intros A b x H i Hi. unfold luSolve, luDecompose in H. destruct (loop scaleRow _ A) as [B|] eqn:EB; [|discriminate].
  destruct (scaled A B EB) as [BL BI]. destruct (BI i Hi) as [N [BE BS]]. assert (DB : nDim B = nDim A) by apply BL.
  destruct (loop gauss _ B) as [C|] eqn:EC; [|discriminate]. rewrite <- DB in EC. destruct (factored B C EC) as [CL [CS CE]]. assert (DC : nDim C = nDim A) by (destruct CL as [-> _]; exact DB).
  destruct (lSolve C b) as [y|] eqn:EY; [|discriminate]. destruct (lSolve_is C b y EY) as [_ Y]. pose proof (rSolve_is C y x H) as X. rewrite DC in X, Y. rewrite DB in CE.
  rewrite (sumTo_ext _ _ (fun j => entry A i i * sumTo (nDim A) (fun t => lf C i t * rf C t j * x j))).
  - rewrite sumTo_scal, sumTo_swap.
    rewrite (sumTo_ext _ (fun j => sumTo (nDim A) (fun i0 => lf C i j * rf C j i0 * x i0)) (fun t => lf C i t * y t)).
    + assert (L : sumTo (nDim A) (fun t => lf C i t * y t) = y i + sumTo i (fun j => entry C i j * y j)).
      { rewrite (sumTo_ext _ _ (fun t => (if (t =? i)%nat then 1 else 0) * y t + (if (t <? i)%nat then entry C i t * y t else 0))).
        - rewrite sumTo_plus, sumTo_pick by exact Hi. f_equal. rewrite (sumTo_range _ 0 i) by (try lia; intros t Ht Z; replace (t <? i)%nat with false by (symmetry; apply Nat.ltb_ge; lia); reflexivity).
          apply sumTo_ext. intros t Ht. cbn [Nat.add]. replace (t <? i)%nat with true by (symmetry; apply Nat.ltb_lt; lia). reflexivity.
        - intros t _. unfold lf. destruct (Nat.ltb_spec t i), (Nat.eqb_spec t i); try lia; ring. }
      rewrite L, (Y i Hi), CS, BS. field. exact N.
    + intros t Ht. rewrite <- (X t Ht), <- sumTo_scal. apply sumTo_ext. intros; ring.
  - intros j Hj. replace (entry A i j) with (entry A i i * entry B i j) by (rewrite BE; field; exact N). rewrite (CE i j Hi Hj), Rmult_assoc, (Rmult_comm _ (x j)), <- sumTo_scal.
    f_equal. apply sumTo_ext. intros; ring.
Qed.
