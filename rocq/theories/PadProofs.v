(** Proofs about the padding of rows. *)
From Coq Require Import List Arith ZArith Bool Lia Permutation Sorting.Sorted.
From Verif Require Import Base PadModel PadSpec.
Import ListNotations.
Ltac Zify.zify_post_hook ::= idtac.
Local Open Scope nat_scope.

Section Rows.
Context {A : Type}.
Implicit Types m : mem A.

Lemma memmove_in (d s : arr) (x y n j : nat) m : j < n -> memmove d x s y n m (d, x + j) = m (s, y + j).
Proof.
  intros H. unfold memmove; cbn [fst snd].
  replace (arr_eqb d d) with true by (symmetry; apply arr_eqb_eq; reflexivity).
  replace (x <=? x + j) with true by (symmetry; apply Nat.leb_le; lia).
  replace (x + j <? x + n) with true by (symmetry; apply Nat.ltb_lt; lia).
  cbn [andb]. f_equal. f_equal. lia.
Qed.

Lemma memmove_out (d s : arr) (x y n : nat) m l :
  (forall j, j < n -> l <> (d, x + j)) -> memmove d x s y n m l = m l.
Proof.
  intros H. unfold memmove. destruct l as [a i]; cbn [fst snd].
  destruct (arr_eqb a d) eqn:E; [|reflexivity].
  apply arr_eqb_eq in E; subst a. cbn [andb].
  destruct (x <=? i) eqn:E1; [|reflexivity].
  destruct (i <? x + n) eqn:E2; [|reflexivity].
  apply Nat.leb_le in E1. apply Nat.ltb_lt in E2.
  exfalso. apply (H (i - x)); [lia|]. f_equal. lia.
Qed.

(** Earlier writes never hit later reads *)
Definition quiet (to from : arr * nat) (sd so len x y : nat) : Prop :=
  forall i j, i < len -> j < len -> rowCell to sd x i <> rowCell from so y j.

Lemma rowCell_inj p stride len x i y j : len <= stride -> i < len -> j < len ->
  rowCell p stride x i = rowCell p stride y j -> x = y.
Proof.
  unfold rowCell. intros HS Hi Hj H. inversion H as [E].
  assert (K : x * stride + i = y * stride + j) by lia.
  revert HS Hi Hj K; clear; intros. nia.
Qed.

Lemma moveRows_spec to from sd so len rows : forall m, len <= sd -> NoDup rows ->
  ForallOrdPairs (quiet to from sd so len) rows ->
  (forall sl j, In sl rows -> j < len -> moveRows to from sd so len rows m (rowCell to sd sl j) = m (rowCell from so sl j)) /\
  (forall l, (forall sl j, In sl rows -> j < len -> l <> rowCell to sd sl j) ->
             moveRows to from sd so len rows m l = m l).
Proof.
  induction rows as [|x rows IH]; intros m HS ND FQ; [split; [intros ? ? []|reflexivity]|].
  inversion ND as [|? ? Hx ND']; subst. inversion FQ as [|? ? FX FQ']; subst.
  unfold moveRows; cbn [fold_left]. change (fold_left (moveRow to from sd so len) rows) with (moveRows to from sd so len rows (A:=A)).
  destruct (IH (moveRow to from sd so len m x) HS ND' FQ') as [I1 I2].
  split.
  - intros sl j [E|Hin] Hj.
    + subst sl. rewrite I2.
      * unfold rowCell, moveRow. rewrite memmove_in by exact Hj. reflexivity.
      * intros sl j' Hin Hj' E. apply rowCell_inj with (len := len) in E; auto. subst. contradiction.
    + rewrite I1 by assumption. unfold moveRow. apply memmove_out.
      intros i Hi E. rewrite Forall_forall in FX. apply (FX sl Hin i j Hi Hj). symmetry. exact E.
  - intros l Hl. rewrite I2.
    + unfold moveRow. apply memmove_out. intros j Hj. apply (Hl x j); [left; reflexivity|exact Hj].
    + intros sl j Hin Hj. apply Hl; [right; exact Hin|exact Hj].
Qed.

Lemma moveRows_ok to from sd so len rows order m : len <= sd -> Permutation order (seq 0 rows) ->
  ForallOrdPairs (quiet to from sd so len) order ->
  rowsCopied to sd from so len rows m (moveRows to from sd so len order m) /\
  restKept (inRows to sd len rows) m (moveRows to from sd so len order m).
Proof.
  intros HS HP HQ.
  assert (ND : NoDup order) by (eapply Permutation_NoDup; [apply Permutation_sym, HP|apply seq_NoDup]).
  destruct (moveRows_spec to from sd so len order m HS ND HQ) as [I1 I2].
  split.
  - intros sl j Hsl Hj. apply I1; [|exact Hj].
    eapply Permutation_in; [apply Permutation_sym, HP|]. apply in_seq. lia.
  - intros l Hl. apply I2. intros sl j Hin Hj E. apply Hl. exists sl, j.
    split; [|split; [exact Hj|exact E]].
    apply (Permutation_in _ HP) in Hin. apply in_seq in Hin. lia.
Qed.
End Rows.

Lemma pairs_all {B} (R : B -> B -> Prop) l : (forall x y, In x l -> In y l -> R x y) -> ForallOrdPairs R l.
Proof.
  induction l as [|a l IH]; intros H; constructor.
  - apply Forall_forall. intros y Hy. apply H; [left; reflexivity|right; exact Hy].
  - apply IH. intros x y Hx Hy. apply H; right; assumption.
Qed.

Lemma pairs_up (R : nat -> nat -> Prop) n : forall a, (forall x y, a <= x -> x < y -> y < a + n -> R x y) ->
  ForallOrdPairs R (seq a n).
Proof.
  induction n as [|n IH]; intros a H; cbn [seq]; constructor.
  - apply Forall_forall. intros y Hy. apply in_seq in Hy. apply H; lia.
  - apply IH. intros x y H1 H2 H3. apply H; lia.
Qed.

Lemma pairs_app {B} (R : B -> B -> Prop) l k : ForallOrdPairs R l -> ForallOrdPairs R k ->
  (forall x y, In x l -> In y k -> R x y) -> ForallOrdPairs R (l ++ k).
Proof.
  induction l as [|a l IH]; intros HL HK H; cbn [app]; [exact HK|].
  inversion HL as [|? ? F1 F2]; subst. constructor.
  - apply Forall_app. split; [exact F1|]. apply Forall_forall. intros y Hy. apply H; [left; reflexivity|exact Hy].
  - apply IH; auto. intros x y Hx Hy. apply H; [right; exact Hx|exact Hy].
Qed.

Lemma pairs_down (R : nat -> nat -> Prop) n : (forall x y, y < x -> x < n -> R x y) ->
  ForallOrdPairs R (downto n).
Proof.
  unfold downto. induction n as [|n IH]; intros H; [constructor|].
  rewrite seq_S. rewrite rev_app_distr. cbn [rev app]. constructor.
  - apply Forall_forall. intros y Hy. apply in_rev in Hy. apply in_seq in Hy. apply H; lia.
  - apply IH. intros x y H1 H2. apply H; lia.
Qed.

Lemma perm_down n : Permutation (downto n) (seq 0 n).
Proof. unfold downto. apply Permutation_sym, Permutation_rev. Qed.

Lemma quiet_down to from q x y : fst to = fst from -> snd from <= snd to -> y < x -> quiet to from (q + 2) q q x y.
Proof.
  intros _ HO HL i j Hi Hj E. unfold rowCell in E. inversion E as [[E1 E2]].
  revert HO HL Hi Hj E2; generalize (snd to) (snd from); clear; intros. nia.
Qed.
Lemma quiet_up to from q x y : snd to <= snd from -> x < y -> quiet to from q (q + 2) q x y.
Proof.
  intros HO HL i j Hi Hj E. unfold rowCell in E. inversion E as [[E1 E2]].
  revert HO HL Hi Hj E2; generalize (snd to) (snd from); clear; intros. nia.
Qed.
Lemma span_bare n q y j : y < n -> j < q -> y * q + j < n * q.
Proof. clear; nia. Qed.
Lemma span_pad n q y j : y < n -> j < q -> y * (q + 2) + j < (n - 1) * (q + 2) + q.
Proof. clear; intros. assert (y <= n - 1) by lia. nia. Qed.
Lemma apart_cells p n q k i j : apart p n q k -> i < n -> j < k -> (fst p, snd p + i) <> (fst q, snd q + j).
Proof. unfold apart. intros H Hi Hj E. inversion E as [[E1 E2]]. destruct H as [H|[H|H]]; [contradiction|lia|lia]. Qed.

Lemma apart_sym p n q k : apart p n q k -> apart q k p n.
Proof. unfold apart. intros [H|[H|H]]; [left; intros E; apply H; symmetry; exact E|right; right; exact H|right; left; exact H]. Qed.

Lemma quiet_pad g to from x y : apart from (bareSpan g) to (padSpan g) -> x < LyLz g -> y < LyLz g ->
  quiet to from (pl g) (dl g) (dl g) x y.
Proof.
  unfold quiet, rowCell, pl, dl, LyLz. intros HA Hx Hy i j Hi Hj.
  rewrite <- !Nat.add_assoc. intros E. symmetry in E. revert E. apply (apart_cells _ _ _ _ _ _ HA).
  - unfold bareSpan. apply span_bare; assumption.
  - unfold padSpan. apply span_pad; assumption.
Qed.
Lemma quiet_unpad g to from x y : apart from (padSpan g) to (bareSpan g) -> x < LyLz g -> y < LyLz g ->
  quiet to from (dl g) (pl g) (dl g) x y.
Proof.
  unfold quiet, rowCell, pl, dl, LyLz. intros HA Hx Hy i j Hi Hj.
  rewrite <- !Nat.add_assoc. intros E. symmetry in E. revert E. apply (apart_cells _ _ _ _ _ _ HA).
  - unfold padSpan. apply span_pad; assumption.
  - unfold bareSpan. apply span_bare; assumption.
Qed.

Lemma order_bound order n x : Permutation order (seq 0 n) -> In x order -> x < n.
Proof. intros HP H. apply (Permutation_in _ HP), in_seq in H. lia. Qed.

Section Pads.
Context {A : Type}.
Implicit Types m : mem A.

Definition padOk (g : geom) (o d : pidx) (m m' : mem A) : Prop :=
  rowsCopied (chosechar g d) (gLy g + 2) (chosechar g o) (gLy g) (gLy g) (gLy g * gLz g) m m' /\
  restKept (inRows (chosechar g d) (gLy g + 2) (gLy g) (gLy g * gLz g)) m m'.

Lemma pad_down g to from m :
  (fst to = fst from /\ snd from <= snd to) \/ apart from (bareSpan g) to (padSpan g) ->
  let m' := moveRows to from (pl g) (dl g) (dl g) (downto (LyLz g)) m in
  rowsCopied to (gLy g + 2) from (gLy g) (gLy g) (gLy g * gLz g) m m' /\
  restKept (inRows to (gLy g + 2) (gLy g) (gLy g * gLz g)) m m'.
Proof.
  intros H. apply (moveRows_ok to from (pl g) (dl g) (dl g) (LyLz g)); [unfold pl, dl; lia|apply perm_down|].
  apply pairs_down. intros x y H1 H2. destruct H as [[H3 H4]|H].
  - apply quiet_down; assumption.
  - apply quiet_pad; auto. lia.
Qed.
Lemma pad_any g to from order m : Permutation order (seq 0 (LyLz g)) ->
  apart from (bareSpan g) to (padSpan g) ->
  let m' := moveRows to from (pl g) (dl g) (dl g) order m in
  rowsCopied to (gLy g + 2) from (gLy g) (gLy g) (gLy g * gLz g) m m' /\
  restKept (inRows to (gLy g + 2) (gLy g) (gLy g * gLz g)) m m'.
Proof.
  intros HP H. apply (moveRows_ok to from (pl g) (dl g) (dl g) (LyLz g)); [unfold pl, dl; lia|exact HP|].
  apply pairs_all. intros x y H1 H2. apply quiet_pad; auto; eapply order_bound; eauto.
Qed.
Lemma unpad_up g to from m : snd to <= snd from ->
  let m' := moveRows to from (dl g) (pl g) (dl g) (seq 0 (LyLz g)) m in
  rowsCopied to (gLy g) from (gLy g + 2) (gLy g) (gLy g * gLz g) m m' /\
  restKept (inRows to (gLy g) (gLy g) (gLy g * gLz g)) m m'.
Proof.
  intros H. apply (moveRows_ok to from (dl g) (pl g) (dl g) (LyLz g)); [lia|apply Permutation_refl|].
  apply pairs_up. intros x y _ H1 _. apply quiet_up; assumption.
Qed.
Lemma unpad_any g to from order m : Permutation order (seq 0 (LyLz g)) ->
  apart from (padSpan g) to (bareSpan g) ->
  let m' := moveRows to from (dl g) (pl g) (dl g) order m in
  rowsCopied to (gLy g) from (gLy g + 2) (gLy g) (gLy g * gLz g) m m' /\
  restKept (inRows to (gLy g) (gLy g) (gLy g * gLz g)) m m'.
Proof.
  intros HP H. apply (moveRows_ok to from (dl g) (pl g) (dl g) (LyLz g)); [lia|exact HP|].
  apply pairs_all. intros x y H1 H2. apply quiet_unpad; auto; eapply order_bound; eauto.
Qed.

Lemma fwd g o d : (o, d) = (PM, PMS) \/ (o, d) = (PV, PVS) \/ (o, d) = (PM2, PM2S) \/ (o, d) = (PM2H, PM2HS) ->
  fst (chosechar g d) = fst (chosechar g o) /\ snd (chosechar g o) <= snd (chosechar g d).
Proof.
  intros [H|[H|[H|H]]]; inversion H; subst; cbn [chosechar fst snd]; (split; [reflexivity|]); try lia; destruct (gpax g); lia.
Qed.
Lemma bwd g o d : (o, d) = (PMS, PM) \/ (o, d) = (PVS, PV) \/ (o, d) = (PM2S, PM2) \/ (o, d) = (PM2HS, PM2H) ->
  padSpan g <= gfs g * (gLy g * gLy g) * gNg g ->
  (fst (chosechar g d) = fst (chosechar g o) /\ snd (chosechar g o) <= snd (chosechar g d))
  \/ apart (chosechar g o) (bareSpan g) (chosechar g d) (padSpan g).
Proof.
  intros H HS.
  destruct H as [H|[H|[H|H]]]; inversion H; subst; cbn [chosechar fst snd]; unfold apart; cbn [fst snd]; unfold n2 in *; try (right; right; right; lia).
  destruct (gpax g); [right; right; right; lia|left; split; [reflexivity|lia]].
Qed.
Lemma code_cases o d : (Z.abs (pcode o - pcode d) <= 1)%Z ->
  o = d \/ ((o, d) = (PM, PMS) \/ (o, d) = (PV, PVS) \/ (o, d) = (PM2, PM2S) \/ (o, d) = (PM2H, PM2HS))
  \/ ((o, d) = (PMS, PM) \/ (o, d) = (PVS, PV) \/ (o, d) = (PM2S, PM2) \/ (o, d) = (PM2HS, PM2H)).
Proof.
  destruct o, d; cbn; intros H; auto; try (exfalso; apply H; reflexivity); intuition auto.
Qed.

Theorem pad_ok g order o d m : Permutation order (seq 0 (gLy g * gLz g)) -> padAllowed g o d ->
  fst (pad g order o d m) = 1 /\ padOk g o d m (snd (pad g order o d m)).
Proof.
  intros HP H. unfold padOk.
  assert (KD : (fst (chosechar g d) = fst (chosechar g o) /\ snd (chosechar g o) <= snd (chosechar g d))
               \/ apart (chosechar g o) (bareSpan g) (chosechar g d) (padSpan g)).
  { destruct H as [H|[H|[H|[H|[H|[[H HG]|[[H HG]|[_ H]]]]]]]].
    - subst. left. split; [reflexivity|lia].
    - left. apply fwd. auto.
    - left. apply fwd. auto.
    - left. apply fwd. auto 6.
    - left. apply fwd. auto 6.
    - inversion H; subst. left. cbn [chosechar fst snd]. rewrite HG. split; [reflexivity|lia].
    - apply bwd; assumption.
    - right. exact H. }
  assert (KP : (1 < Z.abs (pcode o - pcode d))%Z -> apart (chosechar g o) (bareSpan g) (chosechar g d) (padSpan g)).
  { intros HC. destruct H as [H|[H|[H|[H|[H|[[H HG]|[[H HG]|[_ H]]]]]]]]; [..|exact H]; exfalso; revert HC.
    - subst d. rewrite Z.sub_diag. cbn. lia.
    - inversion H; subst; cbn; lia.
    - inversion H; subst; cbn; lia.
    - inversion H; subst; cbn; lia.
    - inversion H; subst; cbn; lia.
    - inversion H; subst; cbn; lia.
    - destruct H as [H|[H|[H|H]]]; inversion H; subst; cbn; lia. }
  unfold pad.
  destruct (pcode o - pcode d =? 0)%Z eqn:E0; [split; [reflexivity|apply pad_down, KD]|].
  destruct (pcode o - pcode d =? 1)%Z eqn:E1; [split; [reflexivity|apply pad_down, KD]|].
  destruct (- (pcode o - pcode d) =? 1)%Z eqn:E2; [split; [reflexivity|apply pad_down, KD]|].
  apply Z.eqb_neq in E0, E1, E2.
  assert (HC : (1 < Z.abs (pcode o - pcode d))%Z) by lia.
  rewrite (proj2 (Z.ltb_lt _ _) HC). split; [reflexivity|]. apply pad_any; [exact HP|apply KP, HC].
Qed.

Definition unpadOk (g : geom) (o d : pidx) (m m' : mem A) : Prop :=
  rowsCopied (chosechar g d) (gLy g) (chosechar g o) (gLy g + 2) (gLy g) (gLy g * gLz g) m m' /\
  restKept (fun l => inRows (chosechar g d) (gLy g) (gLy g) (gLy g * gLz g) l \/
                     ((pcode d = pcode o + 1)%Z /\ inRows (chosechar g o) (gLy g) (gLy g) (gLy g * gLz g) l)) m m'.

Lemma split_row q x : 0 < q -> exists y j, x = y * q + j /\ j < q.
Proof. intros H. exists (x / q), (x mod q). pose proof (Nat.div_mod x q). pose proof (Nat.mod_upper_bound x q). lia. Qed.

Lemma unpad_forward g to from m :
  let m1 := moveRows from from (dl g) (pl g) (dl g) (seq 1 (LyLz g - 1)) m in
  let m' := memmove (fst to) (snd to) (fst from) (snd from) (dataBare g) m1 in
  rowsCopied to (gLy g) from (gLy g + 2) (gLy g) (gLy g * gLz g) m m' /\
  restKept (fun l => inRows to (gLy g) (gLy g) (gLy g * gLz g) l \/ inRows from (gLy g) (gLy g) (gLy g * gLz g) l) m m'.
Proof.
  intros m1 m'.
  assert (HQ : ForallOrdPairs (quiet from from (dl g) (pl g) (dl g)) (seq 1 (LyLz g - 1))).
  { apply pairs_up. intros x y _ H1 _. apply quiet_up; [lia|assumption]. }
  destruct (moveRows_spec from from (dl g) (pl g) (dl g) (seq 1 (LyLz g - 1)) m (le_n _) (seq_NoDup _ _) HQ) as [I1 I2].
  fold m1 in I1, I2.
  assert (R : forall sl j, sl < gLy g * gLz g -> j < gLy g -> m1 (rowCell from (gLy g) sl j) = m (rowCell from (gLy g + 2) sl j)).
  { intros sl j Hsl Hj. destruct (Nat.eq_dec sl 0) as [->|Hn].
    - rewrite I2; [unfold rowCell; f_equal|]. intros sl' j' Hin Hj' E.
      apply in_seq in Hin. apply rowCell_inj with (len := gLy g) in E; auto. lia.
    - apply I1; [|exact Hj]. apply in_seq. unfold LyLz. lia. }
  split.
  - intros sl j Hsl Hj. unfold m', rowCell. rewrite <- Nat.add_assoc. rewrite memmove_in.
    + rewrite Nat.add_assoc. apply R; assumption.
    + unfold dataBare. pose proof (span_bare _ _ _ _ Hsl Hj). nia.
  - intros l Hl. unfold m'. rewrite memmove_out.
    + apply I2. intros sl j Hin Hj E. apply Hl. right. apply in_seq in Hin. exists sl, j.
      unfold LyLz, dl in *. split; [lia|split; [exact Hj|exact E]].
    + intros x Hx E. apply Hl. left. unfold dataBare in Hx.
      assert (HL : 0 < gLy g) by (destruct (gLy g); [cbn in Hx|]; lia).
      destruct (split_row (gLy g) x HL) as (y & j & -> & Hj). exists y, j. split; [|split; [exact Hj|]].
      * revert Hx. clear. intros. nia.
      * rewrite E. unfold rowCell. f_equal. lia.
Qed.

Theorem unpad_ok g order o d m : Permutation order (seq 0 (gLy g * gLz g)) -> unpadAllowed g o d ->
  fst (unpad g order o d m) = 1 /\ unpadOk g o d m (snd (unpad g order o d m)).
Proof.
  intros HP H. unfold unpadOk.
  assert (W : forall (P Q : Prop) (K : loc -> Prop) (a b : mem A), P /\ restKept K a b -> P /\ restKept (fun l => K l \/ (Q /\ inRows (chosechar g o) (gLy g) (gLy g) (gLy g * gLz g) l)) a b).
  { intros P Q K a b [HA HB]. split; [exact HA|]. intros l Hl. apply HB. intros HK. apply Hl. left. exact HK. }
  unfold unpad.
  destruct (pcode o - pcode d =? 0)%Z eqn:E0.
  { apply Z.eqb_eq in E0. split; [reflexivity|]. apply W. apply unpad_up.
    destruct (code_cases o d) as [HC|[HC|HC]]; [lia|subst; lia|..]; exfalso; destruct HC as [HC|[HC|[HC|HC]]]; inversion HC; subst; discriminate. }
  destruct (pcode o - pcode d =? 1)%Z eqn:E1.
  { apply Z.eqb_eq in E1. split; [reflexivity|]. apply W. apply unpad_up.
    destruct (code_cases o d) as [HC|[HC|HC]]; [lia|subst; lia|..].
    - exfalso; destruct HC as [HC|[HC|[HC|HC]]]; inversion HC; subst; discriminate.
    - destruct HC as [HC|[HC|[HC|HC]]]; inversion HC; subst; cbn [chosechar fst snd]; lia. }
  destruct (- (pcode o - pcode d) =? 1)%Z eqn:E2.
  { apply Z.eqb_eq in E2. split; [reflexivity|].
    destruct (unpad_forward g (chosechar g d) (chosechar g o) m) as [F1 F2].
    split; [exact F1|]. intros l Hl. apply F2. intros [HK|HK]; apply Hl; [left; exact HK|right; split; [lia|exact HK]]. }
  apply Z.eqb_neq in E0, E1, E2.
  assert (HC : (1 < Z.abs (pcode o - pcode d))%Z) by lia.
  rewrite (proj2 (Z.ltb_lt _ _) HC). split; [reflexivity|]. apply W. apply unpad_any; [exact HP|].
  destruct H as [H|[_ H]]; [lia|exact H].
Qed.
End Pads.

(** ** Padding backward by the ghosts loses data *)
Section Backward.
Variables (a : arr) (d G q : nat).
Let to := (a, d).
Let from := (a, d + G).
Definition srcFrom (x : nat) (l : loc) : Prop := exists y j, x <= y /\ j < q /\ l = rowCell from q y j.

Lemma downto_S n : downto (S n) = n :: downto n.
Proof. unfold downto. rewrite seq_S, rev_app_distr. reflexivity. Qed.

(** cells hold their own name or the name of a source row already read *)
Definition own (n : nat) (m : mem loc) : Prop := forall l, m l = l \/ srcFrom n (m l).
Lemma own_step n m : own (S n) m -> own n (moveRow to from (q + 2) q q m n).
Proof.
  intros H l.
  assert (W : forall l, srcFrom (S n) l -> srcFrom n l).
  { intros k (y & j & H1 & H2 & H3). exists y, j. split; [lia|auto]. }
  unfold moveRow, memmove.
  destruct (arr_eqb (fst l) (fst to) && (snd to + n * (q + 2) <=? snd l) && (snd l <? snd to + n * (q + 2) + q)) eqn:E.
  - right. apply andb_true_iff in E. destruct E as [E E2]. apply andb_true_iff in E. destruct E as [_ E1].
    apply Nat.leb_le in E1. apply Nat.ltb_lt in E2.
    set (k := snd l - (snd to + n * (q + 2))).
    destruct (H (fst from, snd from + n * q + k)) as [K|K].
    + rewrite K. exists n, k. split; [lia|split; [unfold k; lia|reflexivity]].
    + apply W, K.
  - destruct (H l) as [K|K]; [left; exact K|right; apply W, K].
Qed.

(** the rows below n of a descending loop are processed after the others *)
Lemma moveRows_head (n : nat) (m : mem loc) :
  moveRows to from (q + 2) q q (downto (S n)) m = moveRows to from (q + 2) q q (downto n) (moveRow to from (q + 2) q q m n).
Proof. rewrite downto_S. reflexivity. Qed.

(** a cell of source row 0 that holds a name of a later source row *)
Definition spoilt (c : nat) (m : mem loc) : Prop := srcFrom 1 (m (a, d + G + c)).

Lemma spoilt_kept n c : forall m, own (S n) m -> spoilt c m -> c < q ->
  0 < G ->
  let m' := moveRows to from (q + 2) q q (downto (S n)) m in
  forall s, s = d + c -> srcFrom 1 (m' (a, s)) .
Proof.
  induction n as [|n IH]; intros m HO HS Hc HG m' s Es.
  - unfold m'. rewrite downto_S. cbn [downto seq rev moveRows fold_left]. subst s.
    unfold moveRow. cbn [fst snd to from].
    replace (d + c) with (d + 0 * (q + 2) + c) by lia.
    rewrite memmove_in by exact Hc. unfold spoilt in HS.
    replace (d + G + 0 * q + c) with (d + G + c) by lia. exact HS.
  - unfold m'. rewrite moveRows_head. apply IH; auto.
    + apply own_step. exact HO.
    + unfold spoilt, moveRow, memmove. cbn [fst snd to from].
      destruct (arr_eqb a a && (d + S n * (q + 2) <=? d + G + c) && (d + G + c <? d + S n * (q + 2) + q)) eqn:E; [|exact HS].
      apply andb_true_iff in E. destruct E as [E E2]. apply andb_true_iff in E. destruct E as [_ E1].
      apply Nat.leb_le in E1. apply Nat.ltb_lt in E2.
      set (k := d + G + c - (d + S n * (q + 2))).
      destruct (HO (a, d + G + S n * q + k)) as [K|(y & j & K1 & K2 & K3)].
      * rewrite K. exists (S n), k. split; [lia|split; [unfold k; lia|reflexivity]].
      * exists y, j. split; [lia|split; [exact K2|exact K3]].
Qed.

Lemma spoil n x c : forall m, own (S n) m -> 1 <= x -> x <= n -> c < q -> 0 < G ->
  x * (q + 2) <= G + c -> G + c < x * (q + 2) + q ->
  srcFrom 1 (moveRows to from (q + 2) q q (downto (S n)) m (a, d + c)).
Proof.
  induction n as [|n IH]; intros m HO H1 H2 Hc HG H3 H4; [lia|].
  rewrite moveRows_head.
  destruct (Nat.eq_dec x (S n)) as [E|E].
  - subst x. apply (spoilt_kept n c); auto.
    + apply own_step. exact HO.
    + unfold spoilt, moveRow, memmove. cbn [fst snd to from].
      replace (arr_eqb a a) with true by (symmetry; apply arr_eqb_eq; reflexivity).
      rewrite (proj2 (Nat.leb_le (d + S n * (q + 2)) (d + G + c))) by lia.
      rewrite (proj2 (Nat.ltb_lt (d + G + c) (d + S n * (q + 2) + q))) by lia. cbn [andb].
      set (k := d + G + c - (d + S n * (q + 2))).
      destruct (HO (a, d + G + S n * q + k)) as [K|(y & j & K1 & K2 & K3)].
      * rewrite K. exists (S n), k. split; [lia|split; [unfold k; lia|reflexivity]].
      * exists y, j. split; [lia|split; [exact K2|exact K3]].
  - apply IH; auto; [apply own_step; exact HO|lia].
Qed.
End Backward.

Lemma hit_exists G q N : 3 <= q -> q + 2 <= G -> G < (N - 1) * (q + 2) + q ->
  exists x c, 1 <= x /\ x <= N - 1 /\ c < q /\ x * (q + 2) <= G + c /\ G + c < x * (q + 2) + q.
Proof.
  intros H1 H2 H3. pose proof (Nat.div_mod G (q + 2) ltac:(lia)) as D. pose proof (Nat.mod_upper_bound G (q + 2) ltac:(lia)) as U.
  set (x := G / (q + 2)) in *. set (r := G mod (q + 2)) in *. clearbody x r.
  assert (X : 1 <= x) by (destruct x; [lia|lia]).
  destruct (Nat.lt_ge_cases r q) as [Hr|Hr].
  - exists x, 0. repeat split; try lia.
    assert (x * (q + 2) < (N - 1 + 1) * (q + 2)) by nia. nia.
  - exists (x + 1), (q + 2 - r). repeat split; try lia.
    assert (x < N - 1) by nia. lia.
Qed.
