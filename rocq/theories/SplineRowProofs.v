(** The system of the interpolation always has a solution, and only one. *)
From Coq Require Import Lra Reals List Arith Bool Lia.
From Verif Require Import SplineModel SplineSpec SplineProofs.
Import ListNotations.
Open Scope R_scope.

(** ** When the solver succeeds *)
Lemma scaleRow_some : forall i A, (i < nDim A)%nat -> entry A i i <> 0 -> exists B, scaleRow i A = Some B.
Proof.
  intros i A Hi N. assert (II : inBand A i i = true) by (apply inBand_iff; lia). unfold scaleRow. rewrite (at_some _ _ _ II).
  destruct (Req_EM_T (entry A i i) 0) as [Z|_]; [congruence|]. destruct (saveDiag_effect A i (1 / entry A i i)) as [L0 _].
  unfold upto. destruct (loop_inv _ (scaleEntry i) (fun _ X => like A X) (Nat.min (nDim A - 1) (i + nUp A) + 1 - (i - nLow A)) (i - nLow A) _ L0) as [C [EC CL]].
  - intros k X Hk XL. unfold scaleEntry. assert (IK : inBand X i k = true) by (rewrite (like_inBand _ _ _ _ XL); apply inBand_iff; lia).
    rewrite (at_some _ _ _ IK). destruct (put_some X i k (entry X i k * savedDiag X i) IK) as [Y EY]. exists Y. split; [exact EY|].
    destruct (put_effect _ _ _ _ _ EY) as [YL _]. exact (like_trans _ _ _ XL YL).
  - rewrite EC. apply put_some. rewrite (like_inBand _ _ _ _ CL). exact II.
Qed.
Lemma gaussRow_some : forall k i A, (k < i)%nat -> (i <= k + nLow A)%nat -> (i < nDim A)%nat -> entry A k k <> 0 -> exists B, gaussRow k i A = Some B.
Proof.
  intros k i A Hki Hi Hn N. unfold gaussRow. rewrite (at_some A k k), (at_some A i k) by (apply inBand_iff; lia).
  destruct (Req_EM_T (entry A k k) 0) as [Z|_]; [congruence|].
  destruct (put_some A i k (- (- entry A i k / entry A k k))) as [C EC]; [apply inBand_iff; lia|]. rewrite EC. destruct (put_effect _ _ _ _ _ EC) as [CL _].
  unfold upto. destruct (loop_inv _ (gaussEntry (- entry A i k / entry A k k) k i) (fun _ X => like A X) (Nat.min (nDim A - 1) (k + nUp A) + 1 - (k + 1)) (k + 1) C CL) as [B [EB _]].
  - intros t X Ht XL. unfold gaussEntry. assert (I1 : inBand X i t = true) by (rewrite (like_inBand _ _ _ _ XL); apply inBand_iff; lia).
    assert (I2 : inBand X k t = true) by (rewrite (like_inBand _ _ _ _ XL); apply inBand_iff; lia). rewrite (at_some _ _ _ I1), (at_some _ _ _ I2).
    destruct (put_some X i t (entry X i t + - entry A i k / entry A k k * entry X k t) I1) as [Y EY]. exists Y. split; [exact EY|].
    destruct (put_effect _ _ _ _ _ EY) as [YL _]. exact (like_trans _ _ _ XL YL).
  - exists B. exact EB.
Qed.
Lemma gauss_some : forall k A, (k < nDim A)%nat -> entry A k k <> 0 -> exists B, gauss k A = Some B.
Proof.
  intros k A Hk N. unfold gauss, upto.
  destruct (loop_inv _ (gaussRow k) (fun _ X => like A X /\ entry X k k = entry A k k) (Nat.min (nDim A - 1) (k + nLow A) + 1 - (k + 1)) (k + 1) A) as [B [EB _]].
  - split; [apply like_refl | reflexivity].
  - intros i X Hi [XL XK]. assert (D : nDim X = nDim A) by apply XL. assert (D' : nLow X = nLow A) by apply XL.
    destruct (gaussRow_some k i X) as [Y EY]; try lia; [rewrite XK; exact N|]. exists Y. split; [exact EY|].
    destruct (gaussRow_effect k i X Y ltac:(lia) EY) as [_ [[YL [_ YO]] _]]. split; [exact (like_trans _ _ _ XL YL)|]. rewrite YO by lia. exact XK.
  - exists B. exact EB.
Qed.
Lemma rowSum_some : forall A i x len lo, (forall j, (lo <= j < lo + len)%nat -> inBand A i j = true) -> exists s, rowSum A i x (seq lo len) = Some s.
Proof.
  intros A i x len lo H. unfold rowSum. destruct (loop_inv _ (fun j s => match at_ A i j with None => None | Some a => Some (s + a * x j) end) (fun _ _ => True) len lo 0 I) as [s [E _]].
  - intros k a Hk _. rewrite (at_some _ _ _ (H k Hk)). eexists; split; [reflexivity | exact I].
  - exists s. exact E.
Qed.
Lemma lSolve_some : forall A b, length b = nDim A -> exists y, lSolve A b = Some y.
Proof.
  intros A b L. unfold lSolve. rewrite L, Nat.eqb_refl.
  destruct (loop_inv _ (fun i x => match rowSum A i x (seq (i - nLow A) (i - (i - nLow A))) with None => None | Some s => Some (setAt x i (nth i b 0 * savedDiag A i - s)) end)
    (fun _ _ => True) (nDim A) 0%nat (fun _ => 0) I) as [y [E _]].
  - intros k a Hk _. destruct (rowSum_some A k a (k - (k - nLow A)) (k - nLow A)) as [s ->]; [intros; apply inBand_iff; lia|]. eexists; split; [reflexivity | exact I].
  - exists y. exact E.
Qed.
Lemma rSolve_some : forall A y, (forall i, (i < nDim A)%nat -> entry A i i <> 0) -> exists x, rSolve A y = Some x.
Proof.
  intros A y N. unfold rSolve. set (f := fun i x => _).
  destruct (loop_down_inv _ f (fun _ _ => True) (nDim A) (fun _ => 0) I) as [x [E _]].
  - intros k a Hk _. unfold f, upto. destruct (rowSum_some A k a (Nat.min (nDim A - 1) (k + nUp A) + 1 - (k + 1)) (k + 1)) as [s ->]; [intros; apply inBand_iff; lia|].
    rewrite (at_some A k k) by (apply inBand_iff; lia). destruct (Req_EM_T (entry A k k) 0) as [Z|_]; [destruct (N k Hk Z)|]. eexists; split; [reflexivity | exact I].
  - exists x. exact E.
Qed.

(** ** Dominant diagonals *)
Definition dominant (A : band) : Prop := nUp A = 1%nat /\ nLow A = 1%nat /\ forall i, (i < nDim A)%nat ->
  0 < entry A i i /\ Rabs (entry A i (i + 1)) <= entry A i i / 2 /\ ((0 < i)%nat -> Rabs (entry A i (i - 1)) <= entry A i i / 2).
Lemma Rabs_half : forall a d, 0 < d -> Rabs a <= d / 2 -> Rabs (a / d) <= 1 / 2.
Proof.
  intros a d Hd H. unfold Rdiv at 1. rewrite Rabs_mult, (Rabs_right (/ d)) by (apply Rle_ge, Rlt_le, Rinv_0_lt_compat, Hd).
  apply Rmult_le_reg_r with d; [exact Hd|]. rewrite Rmult_assoc, Rinv_l by lra. lra.
Qed.
Lemma luSolve_some : forall A b, dominant A -> length b = nDim A -> exists x, luSolve A b = Some x.
Proof.
  intros A b [U [L D]] Lb. unfold luSolve, luDecompose.
  destruct (loop_inv _ scaleRow (fun k X => like A X /\ forall i j, (k <= i)%nat -> entry X i j = entry A i j) (nDim A) 0%nat A) as [B [EB _]].
  { split; [apply like_refl | reflexivity]. }
  { intros k X Hk [XL XO]. assert (DX : nDim X = nDim A) by apply XL. destruct (scaleRow_some k X) as [Y EY]; [lia | rewrite XO by lia; destruct (D k ltac:(lia)) as [P _]; lra|].
    exists Y. split; [exact EY|]. destruct (scaleRow_effect _ _ _ EY) as [_ [[YL [_ YO]] _]]. split; [exact (like_trans _ _ _ XL YL)|]. intros i j Hi. rewrite YO by lia. apply XO. lia. }
  rewrite EB. destruct (scaled A B EB) as [BL BI]. assert (DB : nDim B = nDim A) by apply BL. assert (UB : nUp B = 1%nat) by (destruct BL as [_ [-> _]]; exact U). assert (LB : nLow B = 1%nat) by (destruct BL as [_ [_ ->]]; exact L).
  destruct (loop_inv _ gauss (fun k X => like B X /\ (forall i, (i < nDim A)%nat -> (if (i <=? k)%nat then 1 / 2 <= entry X i i else entry X i i = 1) /\ Rabs (entry X i (i + 1)) <= 1 / 2 /\ ((k < i)%nat -> Rabs (entry X i (i - 1)) <= 1 / 2)))
    (nDim A) 0%nat B) as [C [EC [CL CI]]].
  { split; [apply like_refl|]. intros i Hi. destruct (BI i Hi) as [N [BE _]]. destruct (D i Hi) as [P [P1 P2]]. split; [|split]; try rewrite BE.
    - replace (entry A i i / entry A i i) with 1 by (field; exact N). destruct (i <=? 0)%nat; lra.
    - apply Rabs_half; assumption.
    - intros Hi0. apply Rabs_half; [exact P | apply P2, Hi0]. }
  { intros k X Hk [XL XI]. assert (DX : nDim X = nDim A) by (destruct XL as [-> _]; exact DB). destruct (XI k ltac:(lia)) as [PK [QK _]]. rewrite Nat.leb_refl in PK.
    destruct (gauss_some k X) as [Y EY]; [lia | lra|]. exists Y. split; [exact EY|].
    destruct (gauss_effect k X Y ltac:(lia) EY) as [m [YL [_ [YR [YC YE]]]]]. split; [exact (like_trans _ _ _ XL YL)|].
    assert (BX : forall i j, (i + 1 < j \/ j + 1 < i)%nat -> entry X i j = 0).
    { intros i j Hij. apply entry_out. destruct (inBand X i j) eqn:E; [|reflexivity]. apply inBand_iff in E. destruct XL as [_ [-> ->]] in E. lia. }
    intros i Hi. destruct (XI i Hi) as [Pi [Qi Ri]]. destruct (Nat.le_gt_cases i k) as [Lik|Lik].
    - rewrite !YR by lia. replace (i <=? k)%nat with true in Pi by (symmetry; apply Nat.leb_le; lia). replace (i <=? k + 1)%nat with true by (symmetry; apply Nat.leb_le; lia).
      split; [exact Pi|]. split; [exact Qi | intros; lia].
    - destruct (YE i Lik) as [E1 [E2 E3]]. rewrite (E3 i) by lia. rewrite (E3 (i + 1)%nat) by lia. rewrite (BX k (i + 1)%nat) by lia.
      replace (i <=? k)%nat with false in Pi by (symmetry; apply Nat.leb_gt; lia). specialize (Ri Lik).
      destruct (Nat.eq_dec i (k + 1)) as [->|Ni].
      + rewrite Nat.leb_refl. replace (k + 1 - 1)%nat with k in * by lia. split; [|split; [rewrite Rmult_0_r, Rminus_0_r; exact Qi | intros; lia]].
        rewrite Pi. set (p := entry X k k) in *. set (u := entry X k (k + 1)) in *. set (lo := entry X (k + 1) k) in *. clearbody p u lo. clear - E1 PK QK Ri.
        assert (M : Rabs (m (k + 1)%nat) <= 1).
        { apply Rmult_le_reg_r with p; [lra|]. rewrite <- (Rabs_right p) at 1 by lra. rewrite <- Rabs_mult, E1. lra. }
        set (mm := m (k + 1)%nat) in *. clearbody mm. assert (X : Rabs (mm * u) <= 1 / 2).
        { rewrite Rabs_mult. apply Rle_trans with (1 * (1 / 2)); [|lra]. apply Rmult_le_compat; try apply Rabs_pos; assumption. }
        unfold Rabs in X. destruct (Rcase_abs (mm * u)); lra.
      + assert (Mz : m i = 0). { rewrite (BX i k) in E1 by lia. apply Rmult_integral in E1. destruct E1 as [E1|E1]; [exact E1 | lra]. }
        replace (i <=? k + 1)%nat with false by (symmetry; apply Nat.leb_gt; lia). rewrite Mz, !Rmult_0_l, !Rminus_0_r. split; [exact Pi|]. split; [exact Qi|].
        intros _. rewrite (E3 (i - 1)%nat) by lia. rewrite Mz, Rmult_0_l, Rminus_0_r. exact Ri. }
  rewrite EC. assert (DC : nDim C = nDim A) by (destruct CL as [-> _]; exact DB).
  destruct (lSolve_some C b) as [y ->]; [congruence|]. apply rSolve_some. intros i Hi. rewrite DC in Hi. destruct (CI i Hi) as [P _].
  replace (i <=? 0 + nDim A)%nat with true in P by (symmetry; apply Nat.leb_le; lia). lra.
Qed.

(** ** The rows of the interpolation *)
Definition innerRow (x y b : nat -> R) (i : nat) : Prop :=
  1 / 3 * (x i - x (i - 1)%nat) * b (i - 1)%nat + 2 / 3 * (x (i + 1)%nat - x (i - 1)%nat) * b i + 1 / 3 * (x (i + 1)%nat - x i) * b (i + 1)%nat = innerRhs x y i.
Definition leftEq (x y b : nat -> R) (e : ending) : Prop :=
  match e with
  | Curvature v => 2 * b 0%nat = v
  | Slope v => 2 * (x 1%nat - x 0%nat) * b 0%nat + (x 1%nat - x 0%nat) * b 1%nat = 3 * ((y 1%nat - y 0%nat) / (x 1%nat - x 0%nat) - v)
  end.
Definition rightEq (n : nat) (x y b : nat -> R) (e : ending) : Prop :=
  match e with
  | Curvature v => 2 * b (n - 1)%nat = v
  | Slope v => (x (n - 1)%nat - x (n - 2)%nat) * b (n - 2)%nat + 2 * (x (n - 1)%nat - x (n - 2)%nat) * b (n - 1)%nat
      = 3 * (v - (y (n - 1)%nat - y (n - 2)%nat) / (x (n - 1)%nat - x (n - 2)%nat))
  end.
Definition rowsOK (n : nat) (x y : nat -> R) (l r : ending) (b : nat -> R) : Prop :=
  (forall i, (0 < i < n - 1)%nat -> innerRow x y b i) /\ leftEq x y b l /\ rightEq n x y b r.
Lemma put3_effect : forall w A, (forall e, In e w -> inBand A (fst (fst e)) (snd (fst e)) = true) -> exists B, put3 A w = Some B /\ like A B /\
  forall i j, entry B i j = fold_left (fun v e => if (i =? fst (fst e))%nat && (j =? snd (fst e))%nat then snd e else v) w (entry A i j).
Proof.
  induction w as [|[[p q] v] w IH]; intros A H.
  - exists A. split; [reflexivity|]. split; [apply like_refl | reflexivity].
  - destruct (put_some A p q v (H _ (or_introl eq_refl))) as [C EC]. destruct (put_effect _ _ _ _ _ EC) as [CL [_ [CE _]]].
    destruct (IH C) as [B [EB [BL BE]]]; [intros e He; rewrite (like_inBand _ _ _ _ CL); apply H; right; exact He|].
    exists B. unfold put3 in *. cbn [fold_left fst snd]. rewrite EC. split; [exact EB|]. split; [exact (like_trans _ _ _ CL BL)|].
    intros i j. rewrite BE, CE. reflexivity.
Qed.
(** Entries of row i are a, d, u and no other. *)
Definition rowIs (A : band) (i : nat) (a d u : R) : Prop :=
  ((0 < i)%nat -> entry A i (i - 1) = a) /\ entry A i i = d /\ entry A i (i + 1) = u.
Ltac natb := repeat match goal with
  | |- context [(?a =? ?b)%nat] => first [replace (a =? b)%nat with true by (symmetry; apply Nat.eqb_eq; lia) | replace (a =? b)%nat with false by (symmetry; apply Nat.eqb_neq; lia)]
  end.
Lemma assembled : forall n x l r, (2 < n)%nat -> exists A, 
  match loop (inner x) (seq 1 (n - 2)) (fresh n 1 1) with
  | None => None
  | Some A => match leftRow x l A with None => None | Some A1 => rightRow n x r A1 end
  end = Some A /\ nDim A = n /\ nUp A = 1%nat /\ nLow A = 1%nat /\
  (forall i, (0 < i < n - 1)%nat -> rowIs A i (1 / 3 * (x i - x (i - 1)%nat)) (2 / 3 * (x (i + 1)%nat - x (i - 1)%nat)) (1 / 3 * (x (i + 1)%nat - x i))) /\
  rowIs A 0 0 (match l with Curvature _ => 2 | Slope _ => 2 * (x 1%nat - x 0%nat) end) (match l with Curvature _ => 0 | Slope _ => 1 * (x 1%nat - x 0%nat) end) /\
  rowIs A (n - 1) (match r with Curvature _ => 0 | Slope _ => 1 * (x (n - 1)%nat - x (n - 2)%nat) end) (match r with Curvature _ => 2 | Slope _ => 2 * (x (n - 1)%nat - x (n - 2)%nat) end) 0.
Proof.
  intros n x l r Hn.
  destruct (loop_inv _ (inner x) (fun k X => like (fresh n 1 1) X /\ forall i, (0 < i < k)%nat -> rowIs X i (1 / 3 * (x i - x (i - 1)%nat)) (2 / 3 * (x (i + 1)%nat - x (i - 1)%nat)) (1 / 3 * (x (i + 1)%nat - x i)))
    (n - 2) 1%nat (fresh n 1 1)) as [A [EA [AL AI]]].
  - split; [apply like_refl | intros; lia].
  - intros k X Hk [XL XI]. destruct (put3_effect [((k, k - 1)%nat, 1 / 3 * (x k - x (k - 1)%nat)); ((k, k), 2 / 3 * (x (k + 1)%nat - x (k - 1)%nat)); ((k, k + 1)%nat, 1 / 3 * (x (k + 1)%nat - x k))] X) as [Y [EY [YL YE]]].
    + intros e [<-|[<-|[<-|[]]]]; cbn [fst snd]; rewrite (like_inBand _ _ _ _ XL); apply inBand_iff; cbn [fresh nDim nUp nLow]; lia.
    + exists Y. split; [exact EY|]. split; [exact (like_trans _ _ _ XL YL)|]. intros i Hi. unfold rowIs. rewrite !YE. cbn [fold_left fst snd].
      destruct (Nat.eq_dec i k) as [->|Ni]; [natb; cbn [andb]; auto|]. natb. cbn [andb]. apply XI. lia.
  - rewrite EA. destruct AL as [DA [UA LA]]. cbn [fresh nDim nUp nLow] in DA, UA, LA.
    assert (Z0 : forall X i j, nDim X = n -> (i < n)%nat -> (n <= j)%nat -> entry X i j = 0).
    { intros X i j DX Hi Hj. apply entry_out. destruct (inBand X i j) eqn:E; [|reflexivity]. apply inBand_iff in E. lia. }
    set (d0 := match l with Curvature _ => 2 | Slope _ => 2 * (x 1%nat - x 0%nat) end). set (u0 := match l with Curvature _ => 0 | Slope _ => 1 * (x 1%nat - x 0%nat) end).
    set (dn := match r with Curvature _ => 2 | Slope _ => 2 * (x (n - 1)%nat - x (n - 2)%nat) end). set (un := match r with Curvature _ => 0 | Slope _ => 1 * (x (n - 1)%nat - x (n - 2)%nat) end).
    assert (LR : leftRow x l A = put3 A [((0, 0)%nat, d0); ((0, 1)%nat, u0)]) by (destruct l; reflexivity).
    assert (RR : forall B, rightRow n x r B = put3 B [((n - 1, n - 1)%nat, dn); ((n - 1, n - 2)%nat, un)]) by (intros; destruct r; reflexivity).
    destruct (put3_effect [((0, 0)%nat, d0); ((0, 1)%nat, u0)] A) as [B [EB [BL BE]]]; [intros e [<-|[<-|[]]]; apply inBand_iff; cbn [fst snd]; lia|].
    destruct BL as [DB [UB LB]].
    destruct (put3_effect [((n - 1, n - 1)%nat, dn); ((n - 1, n - 2)%nat, un)] B) as [C [EC [CL CE]]]; [intros e [<-|[<-|[]]]; apply inBand_iff; cbn [fst snd]; lia|].
    destruct CL as [DC [UC LC]]. exists C. rewrite LR, EB, RR. split; [exact EC|]. split; [congruence|]. split; [congruence|]. split; [congruence|]. split; [|split].
    + intros i Hi. unfold rowIs. rewrite !CE, !BE. cbn [fold_left fst snd]. natb. cbn [andb]. apply AI. lia.
    + unfold rowIs. split; [lia|]. rewrite !CE, !BE. cbn [fold_left fst snd]. natb. cbn [andb]. split; reflexivity.
    + unfold rowIs. split; [|split].
      * intros _. rewrite !CE, !BE. cbn [fold_left fst snd]. natb. cbn [andb]. reflexivity.
      * rewrite !CE, !BE. cbn [fold_left fst snd]. natb. cbn [andb]. reflexivity.
      * apply Z0; (congruence || lia).
Qed.
(** A row of the product. *)
Lemma row_product : forall A i a d u b, nUp A = 1%nat -> nLow A = 1%nat -> (i < nDim A)%nat -> rowIs A i a d u ->
  sumTo (nDim A) (fun j => entry A i j * b j) = (if (i =? 0)%nat then 0 else a * b (i - 1)%nat) + d * b i + (if (i =? nDim A - 1)%nat then 0 else u * b (i + 1)%nat).
Proof.
  intros A i a d u b U L Hi [Ra [Rd Ru]].
  assert (Z : forall j, (j + 1 < i \/ i + 1 < j)%nat -> entry A i j * b j = 0).
  { intros j Hj. rewrite entry_out; [ring|]. destruct (inBand A i j) eqn:E; [|reflexivity]. apply inBand_iff in E. rewrite U, L in E. lia. }
  destruct (Nat.eqb_spec i (nDim A - 1)) as [E1|N1]; destruct (Nat.eqb_spec i 0) as [->|N0].
  - rewrite (sumTo_range _ 0 1) by (lia || intros; lia). cbn [sumTo Nat.add]. rewrite Rd. ring.
  - rewrite (sumTo_range _ (i - 1) 2) by (lia || (intros; apply Z; lia)). cbn [sumTo]. rewrite Nat.add_0_r, Ra by lia. replace (i - 1 + 1)%nat with i by lia. rewrite Rd. ring.
  - rewrite (sumTo_range _ 0 2) by (lia || (intros; apply Z; lia)). cbn [sumTo Nat.add] in *. rewrite Rd, Ru. ring.
  - rewrite (sumTo_range _ (i - 1) 3) by (lia || (intros; apply Z; lia)). cbn [sumTo]. rewrite Nat.add_0_r, Ra by lia. replace (i - 1 + 1)%nat with i by lia. replace (i - 1 + 2)%nat with (i + 1)%nat by lia. rewrite Rd, Ru. ring.
Qed.
Lemma rhs_nth : forall n x y l r i, (i < n)%nat -> nth i (rhsOf n x y l r) 0 = if (i =? 0)%nat then leftRhs x y l else if (i =? n - 1)%nat then rightRhs n x y r else innerRhs x y i.
Proof.
  intros n x y l r i Hi. unfold rhsOf. set (f := fun i : nat => _). rewrite (nth_indep _ 0 (f 0%nat)) by (rewrite map_length, seq_length; exact Hi). rewrite map_nth, seq_nth by exact Hi. reflexivity.
Qed.
Lemma solveB_rows : forall n x y l r, (2 < n)%nat -> (forall i, (i + 1 < n)%nat -> x i < x (i + 1)%nat) -> exists b, solveB n x y l r = Some b /\ rowsOK n x y l r b.
Proof.
  intros n x y l r Hn HX. destruct (assembled n x l r Hn) as [A [EA [DA [UA [LA [AI [A0 AN]]]]]]].
  assert (ES : solveB n x y l r = luSolve A (rhsOf n x y l r)).
  { unfold solveB. destruct (loop (inner x) (seq 1 (n - 2)) (fresh n 1 1)) as [B|]; [|discriminate]. destruct (leftRow x l B) as [C|]; [|discriminate]. rewrite EA. reflexivity. }
  assert (H1 : x 0%nat < x 1%nat) by (apply (HX 0%nat); lia). assert (H2 : x (n - 2)%nat < x (n - 1)%nat) by (replace (n - 1)%nat with (n - 2 + 1)%nat by lia; apply HX; lia).
  assert (DO : dominant A).
  { split; [exact UA|]. split; [exact LA|]. intros i Hi. rewrite DA in Hi. destruct (Nat.eq_dec i 0) as [->|N0]; [|destruct (Nat.eq_dec i (n - 1)) as [->|N1]].
    - destruct A0 as [_ [-> ->]]. split; [destruct l; lra|]. split; [|intros; lia]. destruct l; [rewrite Rabs_right; lra | rewrite Rabs_R0; lra].
    - destruct AN as [Q [-> ->]]. split; [destruct r; lra|]. split; [rewrite Rabs_R0; destruct r; lra|]. intros P. rewrite (Q P). destruct r; [rewrite Rabs_right; lra | rewrite Rabs_R0; lra].
    - destruct (AI i ltac:(lia)) as [Q [-> ->]]. pose proof (HX i ltac:(lia)) as G1. pose proof (HX (i - 1)%nat ltac:(lia)) as G2. replace (i - 1 + 1)%nat with i in G2 by lia.
      split; [lra|]. split; [rewrite Rabs_right; lra|]. intros P. rewrite (Q P), Rabs_right; lra. }
  destruct (luSolve_some A (rhsOf n x y l r) DO) as [b Eb]; [unfold rhsOf; rewrite map_length, seq_length; congruence|].
  exists b. split; [congruence|]. pose proof (luSolve_solves A _ b Eb) as S. unfold solves in S. rewrite DA in S. split; [|split].
  - intros i Hi. pose proof (S i ltac:(lia)) as Q. rewrite rhs_nth in Q by lia. replace n with (nDim A) in Q at 1. rewrite (row_product A i _ _ _ b UA LA ltac:(lia) (AI i Hi)), DA in Q.
    replace (i =? 0)%nat with false in Q by (symmetry; apply Nat.eqb_neq; lia). replace (i =? n - 1)%nat with false in Q by (symmetry; apply Nat.eqb_neq; lia). exact Q.
  - pose proof (S 0%nat ltac:(lia)) as Q. rewrite rhs_nth in Q by lia. replace n with (nDim A) in Q at 1. rewrite (row_product A 0 _ _ _ b UA LA ltac:(lia) A0), DA in Q.
    replace (0 =? n - 1)%nat with false in Q by (symmetry; apply Nat.eqb_neq; lia). cbn [Nat.eqb Nat.add] in Q. unfold leftEq, leftRhs in *. destruct l; cbv beta iota in *; lra.
  - pose proof (S (n - 1)%nat ltac:(lia)) as Q. rewrite rhs_nth in Q by lia. replace n with (nDim A) in Q at 1. rewrite (row_product A (n - 1) _ _ _ b UA LA ltac:(lia) AN), DA in Q. rewrite Nat.eqb_refl in Q.
    replace (n - 1 =? 0)%nat with false in Q by (symmetry; apply Nat.eqb_neq; lia). replace (n - 1 - 1)%nat with (n - 2)%nat in Q by lia. unfold rightEq, rightRhs in *. destruct r; cbv beta iota in *; lra.
Qed.

(** ** Only one solution *)
Lemma largest : forall n (d : nat -> R), (0 < n)%nat -> exists i, (i < n)%nat /\ forall j, (j < n)%nat -> Rabs (d j) <= Rabs (d i).
Proof.
  induction n as [|n IH]; intros d H; [lia|]. destruct n as [|n]; [exists 0%nat; split; [lia|]; intros j Hj; replace j with 0%nat by lia; lra|].
  destruct (IH d ltac:(lia)) as [i [Hi M]]. destruct (Rle_dec (Rabs (d (S n))) (Rabs (d i))) as [L|L].
  - exists i. split; [lia|]. intros j Hj. destruct (Nat.eq_dec j (S n)) as [->|]; [exact L | apply M; lia].
  - exists (S n). split; [lia|]. intros j Hj. destruct (Nat.eq_dec j (S n)) as [->|]; [lra|]. pose proof (M j ltac:(lia)). lra.
Qed.
Lemma half_bound : forall p a u v w, 0 < p -> 0 <= a -> 0 <= u -> a + u <= p / 2 -> a * v + p * w + u * 0 = 0 -> Rabs v <= Rabs w -> w = 0.
Proof.
  intros p a u v w Hp Ha Hu Hs E V. destruct (Req_EM_T w 0) as [|N]; [assumption|]. exfalso. apply Rabs_pos_lt in N.
  assert (Q : p * Rabs w = a * Rabs v). { rewrite <- (Rabs_right p), <- (Rabs_right a) at 1 by lra. rewrite <- !Rabs_mult. replace (p * w) with (- (a * v)) by lra. apply Rabs_Ropp. }
  assert (a * Rabs v <= p / 2 * Rabs w) by (apply Rmult_le_compat; try lra; apply Rabs_pos). nra.
Qed.
Lemma three_bound : forall p a u v w z, 0 < p -> 0 <= a -> 0 <= u -> a + u <= p / 2 -> a * v + p * w + u * z = 0 -> Rabs v <= Rabs w -> Rabs z <= Rabs w -> w = 0.
Proof.
  intros p a u v w z Hp Ha Hu Hs E V Z. destruct (Req_EM_T w 0) as [|N]; [assumption|]. exfalso. apply Rabs_pos_lt in N.
  assert (Q : p * Rabs w <= a * Rabs v + u * Rabs z).
  { rewrite <- (Rabs_right p), <- (Rabs_right a), <- (Rabs_right u) at 1 by lra. rewrite <- !Rabs_mult. replace (p * w) with (- (a * v + u * z)) by lra. rewrite Rabs_Ropp. apply Rabs_triang. }
  assert (A1 : a * Rabs v <= a * Rabs w) by (apply Rmult_le_compat_l; lra). assert (A2 : u * Rabs z <= u * Rabs w) by (apply Rmult_le_compat_l; lra).
  assert (A3 : (a + u) * Rabs w <= p / 2 * Rabs w) by (apply Rmult_le_compat_r; lra). assert (A4 : 0 < p * Rabs w) by (apply Rmult_lt_0_compat; assumption). lra.
Qed.
Lemma rows_unique : forall n x y l r b b', (2 < n)%nat -> (forall i, (i + 1 < n)%nat -> x i < x (i + 1)%nat) -> rowsOK n x y l r b -> rowsOK n x y l r b' ->
  forall i, (i < n)%nat -> b i = b' i.
Proof.
  intros n x y l r b b' Hn HX [I1 [L1 R1]] [I2 [L2 R2]]. set (d := fun i => b i - b' i).
  assert (H1 : x 0%nat < x 1%nat) by (apply (HX 0%nat); lia). assert (H2 : x (n - 2)%nat < x (n - 1)%nat) by (replace (n - 1)%nat with (n - 2 + 1)%nat by lia; apply HX; lia).
  destruct (largest n d ltac:(lia)) as [k [Hk M]].
  assert (Z : d k = 0).
  { destruct (Nat.eq_dec k 0) as [->|N0]; [|destruct (Nat.eq_dec k (n - 1)) as [->|N1]].
    - destruct l; unfold leftEq in L1, L2; [|unfold d; lra].
      apply (three_bound (2 * (x 1%nat - x 0%nat)) (x 1%nat - x 0%nat) 0 (d 1%nat) (d 0%nat) 0); try lra; [unfold d; lra | apply M; lia | rewrite Rabs_R0; apply Rabs_pos].
    - destruct r; unfold rightEq in R1, R2; [|unfold d; lra].
      apply (three_bound (2 * (x (n - 1)%nat - x (n - 2)%nat)) (x (n - 1)%nat - x (n - 2)%nat) 0 (d (n - 2)%nat) (d (n - 1)%nat) 0); try lra; [unfold d; lra | apply M; lia | rewrite Rabs_R0; apply Rabs_pos].
    - pose proof (I1 k ltac:(lia)) as E1. pose proof (I2 k ltac:(lia)) as E2. unfold innerRow in E1, E2.
      pose proof (HX k ltac:(lia)) as G1. pose proof (HX (k - 1)%nat ltac:(lia)) as G2. replace (k - 1 + 1)%nat with k in G2 by lia.
      apply (three_bound (2 / 3 * (x (k + 1)%nat - x (k - 1)%nat)) (1 / 3 * (x k - x (k - 1)%nat)) (1 / 3 * (x (k + 1)%nat - x k)) (d (k - 1)%nat) (d k) (d (k + 1)%nat)); try lra; [unfold d; lra | apply M; lia | apply M; lia]. }
  intros i Hi. pose proof (M i Hi) as Q. rewrite Z, Rabs_R0 in Q. pose proof (Rabs_pos (d i)). assert (Y : Rabs (d i) = 0) by lra.
  destruct (Req_EM_T (d i) 0) as [E|E]; [unfold d in E; lra | apply Rabs_no_R0 in E; lra].
Qed.
