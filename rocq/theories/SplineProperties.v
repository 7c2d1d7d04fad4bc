(** The interpolation of tables. *)
From Coq Require Import Lra Reals List Arith Bool Lia.
From Verif Require Import SplineModel SplineSpec SplineProofs SplineRowProofs SplineCurveProofs.
Import ListNotations.
Open Scope R_scope.

Lemma linear_shape : forall l r force old xs ys s, setPoints l r force old false xs ys = Some s -> tableOf xs ys /\ sX s = xs /\ sY s = ys /\
  (forall i, (i <= last s)%nat -> sA s i = 0) /\ (forall i, (i < last s)%nat -> sB s i = 0) /\ sB s (last s) = (if force then 0 else old (last s)) /\
  (forall i, (i < last s)%nat -> sC s i = (ky s (i + 1) - ky s i) / (kx s (i + 1) - kx s i)) /\ sC s (last s) = sC s (last s - 1) /\ sB0 s = 0 /\ sC0 s = sC s 0.
Proof.
  intros l r force old xs ys s H. unfold setPoints in H. destruct ((length xs =? length ys)%nat && (2 <? length xs)%nat && rising xs) eqn:E; [|discriminate]. apply accepted in E. split; [exact E|].
  destruct E as [E1 [E2 E3]]. injection H as <-. unfold last, kx, ky; cbn [sX sY sA sB sC sB0 sC0]. split; [reflexivity|]. split; [reflexivity|].
  assert (BI : forall i, (i < length xs - 1)%nat -> (if (i <? length xs - 1)%nat then 0 else old i) = 0) by (intros i Hi; replace (i <? length xs - 1)%nat with true by (symmetry; apply Nat.ltb_lt; lia); reflexivity).
  split; [intros i Hi; unfold setAt; destruct (i =? length xs - 1)%nat; reflexivity|]. split; [intros i Hi; destruct force; [rewrite setAt_other by lia|]; apply BI, Hi|]. split; [destruct force; [apply setAt_same|]; rewrite Nat.ltb_irrefl; reflexivity|].
  split; [intros i Hi; apply setAt_other; lia|]. split; [rewrite setAt_same, setAt_other by lia; replace (length xs - 1 - 1)%nat with (length xs - 2)%nat by lia; rewrite (BI (length xs - 2)%nat) by lia; ring|].
  split; [destruct force; [reflexivity | apply BI; lia]|]. rewrite setAt_other by lia. reflexivity.
Qed.
Lemma shape : forall l r force old cubic xs ys s, setPoints l r force old cubic xs ys = Some s -> tableOf xs ys /\ sX s = xs /\ sY s = ys /\ wellFormed s /\ valuesJoin s.
Proof.
  intros l r force old [] xs ys s H.
  - apply cubic_fitted in H. destruct H as [T [b [_ F]]]. split; [exact T|]. split; [apply F|]. split; [apply F|]. split; [exact (fitted_well _ _ _ _ _ _ _ T F) | exact (fitted_values _ _ _ _ _ _ _ T F)].
  - apply linear_shape in H. destruct H as [T [X [Y [A [B [_ [C [_ [_ C0]]]]]]]]]. split; [exact T|]. split; [exact X|]. split; [exact Y|].
    assert (Wf : wellFormed s). { split; [rewrite X; apply T|]. split; [rewrite X; apply T|]. split; [apply A; lia | exact C0]. }
    split; [exact Wf|]. intros i Hi. pose proof (kx_lt s Wf i (i + 1) ltac:(lia)) as Q. unfold piece, poly. rewrite A, B, C by lia. field. lra.
Qed.

(** ** C79: tables that are accepted, and the points *)
Theorem table_accepted : forall l r force old cubic xs ys, (exists s, setPoints l r force old cubic xs ys = Some s) <-> tableOf xs ys.
Proof.
  intros l r force old cubic xs ys. split; [intros [s H]; apply shape in H; apply H|]. intros T. destruct cubic; [apply cubic_defined, T|].
  unfold setPoints. rewrite (proj2 (accepted xs ys) T). eexists; reflexivity.
Qed.
Theorem through_points : forall l r force old cubic xs ys s i, setPoints l r force old cubic xs ys = Some s -> (i < length xs)%nat -> eval s (nth i xs 0) = nth i ys 0.
Proof.
  intros l r force old cubic xs ys s i H Hi. apply shape in H. destruct H as [T [X [Y [Wf V]]]]. rewrite <- X in *. rewrite <- Y. fold (kx s i). fold (ky s i).
  destruct (Nat.eq_dec i (last s)) as [->|N]; [rewrite (eval_right s Wf V) by lra; unfold piece, poly; ring|]. assert (Hl : (i < last s)%nat) by (unfold last in *; lia).
  pose proof (kx_lt s Wf i (i + 1) ltac:(lia)) as Q. rewrite (eval_piece s Wf V i) by (exact Hl || lra). unfold piece, poly. ring.
Qed.
(** Between two neighbours the curve is one cubic. *)
Theorem piecewise_cubic : forall l r force old cubic xs ys s i, setPoints l r force old cubic xs ys = Some s -> (i + 1 < length xs)%nat ->
  exists a b c d, pieceOf s (nth i xs 0) (nth (i + 1) xs 0) a b c d.
Proof.
  intros l r force old cubic xs ys s i H Hi. apply shape in H. destruct H as [T [X [Y [Wf V]]]]. rewrite <- X in *. fold (kx s i) (kx s (i + 1)). set (k := kx s i).
  exists (sA s i), (sB s i - 3 * sA s i * k), (sC s i - 2 * sB s i * k + 3 * sA s i * k * k), (ky s i - sC s i * k + sB s i * k * k - sA s i * k * k * k).
  intros x Hx. rewrite (eval_piece s Wf V i) by ((unfold last; lia) || exact Hx). unfold piece, poly, cubicAt. fold k. ring.
Qed.
(** The solver: for every band matrix, of any size and widths, what it returns is a solution. *)
Theorem band_solution : forall A b x, luSolve A b = Some x -> solves A b x.
Proof. exact luSolve_solves. Qed.

(** ** C80: slopes and curvatures *)
Theorem slope_is_derivative : forall l r force old xs ys s x, setPoints l r force old true xs ys = Some s -> derivable_pt_lim (eval s) x (slopeAt s x).
Proof.
  intros l r force old xs ys s x H. apply cubic_fitted in H. destruct H as [T [b [Rb F]]].
  exact (eval_dl s (fitted_well _ _ _ _ _ _ _ T F) (fitted_values _ _ _ _ _ _ _ T F) (fitted_slopes _ _ _ _ _ _ _ T Rb F) x).
Qed.
Theorem curvature_is_derivative_partial : forall l r force old xs ys s x, setPoints l r force old true xs ys = Some s ->
  first xs < x < final xs \/ force = false /\ first xs <= x -> derivable_pt_lim (slopeAt s) x (curvAt s x).
Proof.
  intros l r force old xs ys s x H P. apply cubic_fitted in H. destruct H as [T [b [Rb F]]].
  pose proof (fitted_well _ _ _ _ _ _ _ T F) as Wf. pose proof (fitted_values _ _ _ _ _ _ _ T F) as V. pose proof (fitted_slopes _ _ _ _ _ _ _ T Rb F) as S. pose proof (fitted_curv _ _ _ _ _ _ _ T F) as C.
  assert (C' : curvJoin s (last s - 1)) by (intros i Hi; apply C; destruct force; lia).
  assert (E0 : first xs = kx s 0) by (unfold first, kx; rewrite (fX _ _ _ _ _ _ _ F); reflexivity). assert (E1 : final xs = kx s (last s)) by (unfold final, kx, last; rewrite (fX _ _ _ _ _ _ _ F); reflexivity).
  rewrite E0, E1 in P. destruct P as [P|[Hf P]]; [exact (slope_dl_inner s Wf S x C' P)|]. rewrite Hf in *.
  destruct (Rlt_dec x (kx s (last s))) as [L|L]; [|apply (slope_dl_right s Wf S x C); lra]. destruct (Req_EM_T x (kx s 0)) as [E|N]; [|apply (slope_dl_inner s Wf S x C'); lra].
  apply (slope_dl_corner s Wf S x); [|exact C' | exact E]. rewrite (fB0 _ _ _ _ _ _ _ F), (fB _ _ _ _ _ _ _ F); [reflexivity|]. destruct Wf as [_ [Q _]]. unfold last. lia.
Qed.
Theorem curvature_continuous : forall l r force old xs ys s x, setPoints l r force old true xs ys = Some s -> first xs < x < final xs -> continuity_pt (curvAt s) x.
Proof.
  intros l r force old xs ys s x H P. apply cubic_fitted in H. destruct H as [T [b [Rb F]]].
  pose proof (fitted_well _ _ _ _ _ _ _ T F) as Wf. pose proof (fitted_slopes _ _ _ _ _ _ _ T Rb F) as S. pose proof (fitted_curv _ _ _ _ _ _ _ T F) as C.
  assert (C' : curvJoin s (last s - 1)) by (intros i Hi; apply C; destruct force; lia).
  assert (E0 : first xs = kx s 0) by (unfold first, kx; rewrite (fX _ _ _ _ _ _ _ F); reflexivity). assert (E1 : final xs = kx s (last s)) by (unfold final, kx, last; rewrite (fX _ _ _ _ _ _ _ F); reflexivity).
  rewrite E0, E1 in P. exact (curv_continuous s Wf x C' P).
Qed.
(** To the left of the table the reported second derivative is not that of the curve. *)
Theorem left_curvature_iff : forall l r force old xs ys s x, setPoints l r force old true xs ys = Some s -> x < first xs ->
  (derivable_pt_lim (slopeAt s) x (curvAt s x) <-> force = true \/ curvAt s (first xs) = 0).
Proof.
  intros l r force old xs ys s x H P. apply cubic_fitted in H. destruct H as [T [b [Rb F]]].
  pose proof (fitted_well _ _ _ _ _ _ _ T F) as Wf. pose proof (fitted_curv _ _ _ _ _ _ _ T F) as C.
  assert (E0 : first xs = kx s 0) by (unfold first, kx; rewrite (fX _ _ _ _ _ _ _ F); reflexivity). rewrite E0 in *.
  pose proof (slope_dl_left s Wf x P) as D. pose proof (fB0 _ _ _ _ _ _ _ F) as B0.
  assert (CA : curvAt s x = 2 * sB0 s * (x - kx s 0)).
  { unfold curvAt, deriv. cbn [Nat.eqb]. fold (kx s 0). destruct (Rlt_dec x (kx s 0)); [|lra]. rewrite (place_left s x) by lra. reflexivity. }
  assert (C0 : curvAt s (kx s 0) = 2 * b 0%nat).
  { rewrite (curv_inside s). 2: { split; [lra|]. apply kx_le; [exact Wf | lia]. } rewrite (place_left s) by lra. unfold piece2, poly2. rewrite (fB _ _ _ _ _ _ _ F); [ring|]. destruct Wf as [_ [Q _]]. unfold last. lia. }
  rewrite CA, C0. split.
  - intros D'. pose proof (uniqueness_limite _ _ _ _ D D') as U. rewrite B0 in U. destruct force; [left; reflexivity|]. right. clear - U P. assert (Q : b 0%nat * (1 - (x - kx s 0)) = 0) by lra. apply Rmult_integral in Q. destruct Q; lra.
  - intros Q. eapply dl_to; [exact D|]. rewrite B0. destruct Q as [->|Q]; [ring|]. destruct force; [ring|]. replace (b 0%nat) with 0 by lra. ring.
Qed.
(** Third derivative, inside an interval of the table. *)
Theorem third_is_derivative_partial : forall l r force old cubic xs ys s i x v, setPoints l r force old cubic xs ys = Some s -> (i + 1 < length xs)%nat -> nth i xs 0 < x < nth (i + 1) xs 0 ->
  deriv s 3 x = Some v -> derivable_pt_lim (curvAt s) x v.
Proof.
  intros l r force old cubic xs ys s i x v H Hi [L U] D. apply shape in H. destruct H as [T [X [Y [Wf V]]]]. rewrite <- X in *. fold (kx s i) in L. fold (kx s (i + 1)) in U.
  assert (Hl : (i < last s)%nat) by (unfold last; lia). pose proof (kx_le s Wf 0 i ltac:(lia)) as B0. pose proof (kx_le s Wf (i + 1) (last s) ltac:(lia)) as B1.
  assert (E : forall u, kx s i < u <= kx s (i + 1) -> curvAt s u = piece2 s i u) by (intros u Hu; rewrite (curv_inside s) by lra; rewrite (place_piece s Wf i u Hl Hu); reflexivity).
  assert (V3 : v = 6 * sA s i).
  { unfold deriv in D. cbn [Nat.eqb] in D. fold (kx s 0) in D. destruct (Rlt_dec x (kx s 0)); [lra|]. fold (last s) in D. fold (kx s (last s)) in D. destruct (Rlt_dec (kx s (last s)) x); [lra|]. rewrite (place_piece s Wf i x Hl) in D by lra. injection D as <-. reflexivity. }
  rewrite V3. apply (dl_glue _ (piece2 s i) (piece2 s i) x ((kx s i + x) / 2) (kx s (i + 1))); [lra | intros; apply E; lra | intros; apply E; lra | apply poly2_dl | apply poly2_dl].
Qed.
(** The conditions at the ends. *)
Theorem ends_met : forall l r force old xs ys s, setPoints l r force old true xs ys = Some s -> meets s l (first xs) /\ meets s r (final xs).
Proof.
  intros l r force old xs ys s H. apply cubic_fitted in H. destruct H as [T [b [[_ [Lb Rb]] F]]]. pose proof (fitted_well _ _ _ _ _ _ _ T F) as Wf.
  pose proof (fX _ _ _ _ _ _ _ F) as X. pose proof (fY _ _ _ _ _ _ _ F) as Y. assert (N : (2 < length xs)%nat) by apply T. assert (LS : last s = (length xs - 1)%nat) by (unfold last; rewrite X; reflexivity).
  assert (KX : forall j, nth j xs 0 = kx s j) by (intros; unfold kx; rewrite X; reflexivity). assert (KY : forall j, nth j ys 0 = ky s j) by (intros; unfold ky; rewrite Y; reflexivity).
  unfold first, final. rewrite !KX, <- LS. pose proof (kx_le s Wf 0 (last s) ltac:(lia)) as Q. pose proof (kx_lt s Wf 0 1 ltac:(lia)) as Q0. pose proof (kx_lt s Wf (length xs - 2) (length xs - 1) ltac:(lia)) as Q1.
  assert (J : (length xs - 2 + 1)%nat = (length xs - 1)%nat) by lia. split.
  - unfold meets. destruct l as [v|v]; unfold leftEq in Lb; rewrite ?KX, ?KY in Lb.
    + rewrite (slope_inside s) by lra. rewrite (place_left s) by lra. unfold piece1, poly1. rewrite (fC _ _ _ _ _ _ _ F) by lia. unfold coefC. cbn [Nat.add].
      transitivity ((ky s 1 - ky s 0) / (kx s 1 - kx s 0) - 1 / 3 * (2 * (kx s 1 - kx s 0) * b 0%nat + (kx s 1 - kx s 0) * b 1%nat)); [ring|]. rewrite Lb. field. lra.
    + rewrite (curv_inside s) by lra. rewrite (place_left s) by lra. unfold piece2, poly2. rewrite (fB _ _ _ _ _ _ _ F) by lia. rewrite <- Lb. ring.
  - unfold meets. rewrite LS. destruct r as [v|v]; unfold rightEq in Rb; rewrite ?KX, ?KY in Rb.
    + rewrite (slope_inside s) by (rewrite LS in *; lra). rewrite (place_piece s Wf (length xs - 2)) by (try lia; rewrite J; lra). unfold piece1, poly1.
      rewrite (fA _ _ _ _ _ _ _ F), (fB _ _ _ _ _ _ _ F), (fC _ _ _ _ _ _ _ F) by lia. unfold coefA, coefC. rewrite J.
      set (h := kx s (length xs - 1) - kx s (length xs - 2)) in *. set (dy := ky s (length xs - 1) - ky s (length xs - 2)) in *. assert (Hh : h <> 0) by (unfold h; lra). clearbody h dy.
      transitivity (dy / h + 1 / 3 * (h * b (length xs - 2)%nat + 2 * h * b (length xs - 1)%nat)); [field; exact Hh|]. rewrite Rb. field. exact Hh.
    + rewrite (curv_inside s) by (rewrite LS in *; lra). rewrite (place_piece s Wf (length xs - 2)) by (try lia; rewrite J; lra). unfold piece2, poly2.
      rewrite (fA _ _ _ _ _ _ _ F), (fB _ _ _ _ _ _ _ F) by lia. unfold coefA. rewrite J, <- Rb. field. lra.
Qed.
(** Extrapolation made linear on request. *)
Theorem linear_extrapolation : forall l r old xs ys s x, setPoints l r true old true xs ys = Some s ->
  (x <= first xs -> eval s x = nth 0 ys 0 + slopeAt s (first xs) * (x - first xs)) /\
  (final xs <= x -> eval s x = nth (length ys - 1) ys 0 + slopeAt s (final xs) * (x - final xs)).
Proof.
  intros l r old xs ys s x H. apply cubic_fitted in H. destruct H as [T [b [Rb F]]]. pose proof (fitted_well _ _ _ _ _ _ _ T F) as Wf. pose proof (fitted_values _ _ _ _ _ _ _ T F) as V. pose proof (fitted_slopes _ _ _ _ _ _ _ T Rb F) as S.
  pose proof (fX _ _ _ _ _ _ _ F) as X. pose proof (fY _ _ _ _ _ _ _ F) as Y. assert (E0 : first xs = kx s 0) by (unfold first, kx; rewrite X; reflexivity). assert (E1 : final xs = kx s (last s)) by (unfold final, kx, last; rewrite X; reflexivity).
  rewrite E0, E1. split; intros P.
  - rewrite (eval_left s Wf) by exact P. rewrite (slope_left s Wf) by lra. unfold leftArm, leftArm1, poly, poly1. rewrite (fB0 _ _ _ _ _ _ _ F), <- Y. unfold ky. ring.
  - rewrite (eval_right s Wf V) by exact P. rewrite (slope_right s Wf S) by lra. unfold piece, piece1, poly, poly1. rewrite (fBn _ _ _ _ _ _ _ F), (fAn _ _ _ _ _ _ _ F). unfold ky, last. rewrite X, Y.
    destruct T as [-> _]. ring.
Qed.

(** ** C81: curves that are reproduced *)
Lemma fitted_unique : forall l r force xs ys b b' s, tableOf xs ys -> rowsOK (length xs) (fun i => nth i xs 0) (fun i => nth i ys 0) l r b -> rowsOK (length xs) (fun i => nth i xs 0) (fun i => nth i ys 0) l r b' ->
  fitted l r force xs ys b s -> fitted l r force xs ys b' s.
Proof.
  intros l r force xs ys b b' s T R1 R2 F. assert (U : forall i, (i < length xs)%nat -> b i = b' i) by (destruct T as [_ [T1 T2]]; apply (rows_unique _ _ _ _ _ _ _ T1 (fun i Hi => T2 i (i + 1)%nat ltac:(lia)) R1 R2)).
  pose proof (fX _ _ _ _ _ _ _ F) as X. assert (N : (2 < length xs)%nat) by apply T. assert (LS : last s = (length xs - 1)%nat) by (unfold last; rewrite X; reflexivity).
  destruct F. split; try assumption.
  - intros i Hi. rewrite fA by exact Hi. unfold coefA. rewrite !U by lia. reflexivity.
  - intros i Hi. rewrite fB by exact Hi. apply U. lia.
  - rewrite fBn. destruct force; [reflexivity|]. apply U. lia.
  - intros i Hi. rewrite fC by exact Hi. unfold coefC. rewrite !U by lia. reflexivity.
  - rewrite fB0. destruct force; [reflexivity|]. apply U. lia.
  - rewrite fC0. unfold coefC. rewrite !U by lia. reflexivity.
Qed.
Theorem cubics_reproduced : forall l r force old xs ys s a b c d, setPoints l r force old true xs ys = Some s ->
  (forall i, (i < length xs)%nat -> nth i ys 0 = cubicAt a b c d (nth i xs 0)) -> agrees a b c (first xs) l -> agrees a b c (final xs) r ->
  (forall x, first xs <= x <= final xs -> eval s x = cubicAt a b c d x /\ slopeAt s x = cubicSlope a b c x) /\
  (a = 0 -> force = false -> forall x, eval s x = cubicAt a b c d x) /\
  (a = 0 -> b = 0 -> forall x, eval s x = cubicAt a b c d x).
Proof.
  intros l r force old xs ys s a b c d H HY AL AR. apply cubic_fitted in H. destruct H as [T [bb [Rb F]]].
  assert (X := fX _ _ _ _ _ _ _ F). assert (Y := fY _ _ _ _ _ _ _ F). assert (N : (2 < length xs)%nat) by apply T. assert (LS : last s = (length xs - 1)%nat) by (unfold last; rewrite X; reflexivity).
  assert (I : increasing xs) by apply T.
  assert (R2 : rowsOK (length xs) (fun i => nth i xs 0) (fun i => nth i ys 0) l r (fun i => 3 * a * nth i xs 0 + b)).
  { unfold first, final in *. split; [|split].
    - intros i Hi. unfold innerRow, innerRhs. pose proof (I (i - 1)%nat i ltac:(lia)) as Q1. pose proof (I i (i + 1)%nat ltac:(lia)) as Q2. rewrite !HY by lia. unfold cubicAt. field. lra.
    - pose proof (I 0%nat 1%nat ltac:(lia)) as Q. unfold leftEq. destruct AL; unfold cubicSlope, cubicCurv; [|ring]. rewrite !HY by lia. unfold cubicAt. field. lra.
    - pose proof (I (length xs - 2)%nat (length xs - 1)%nat ltac:(lia)) as Q. unfold rightEq. destruct AR; unfold cubicSlope, cubicCurv; [|ring]. rewrite !HY by lia. unfold cubicAt. field. lra. }
  pose proof (fitted_unique _ _ _ _ _ _ _ _ T Rb R2 F) as G. clear F Rb bb. rename G into F.
  pose proof (fitted_well _ _ _ _ _ _ _ T F) as Wf. pose proof (fitted_values _ _ _ _ _ _ _ T F) as V. pose proof (fitted_slopes _ _ _ _ _ _ _ T R2 F) as S.
  assert (KX : forall j, nth j xs 0 = kx s j) by (intros; unfold kx; rewrite X; reflexivity). assert (KY : forall j, nth j ys 0 = ky s j) by (intros; unfold ky; rewrite Y; reflexivity).
  assert (Hy : forall i, (i <= last s)%nat -> ky s i = cubicAt a b c d (kx s i)) by (intros i Hi; rewrite <- KY, <- KX; apply HY; lia).
  assert (Ca : forall i, (i < last s)%nat -> sA s i = a). { intros i Hi. rewrite (fA _ _ _ _ _ _ _ F) by exact Hi. unfold coefA. rewrite !KX. pose proof (kx_lt s Wf i (i + 1) ltac:(lia)). field. lra. }
  assert (Cb : forall i, (i < last s)%nat -> sB s i = 3 * a * kx s i + b). { intros i Hi. rewrite (fB _ _ _ _ _ _ _ F) by exact Hi. rewrite KX. reflexivity. }
  assert (Cc : forall i, (i < last s)%nat -> sC s i = cubicSlope a b c (kx s i)).
  { intros i Hi. rewrite (fC _ _ _ _ _ _ _ F) by exact Hi. unfold coefC. rewrite !KX, !Hy by lia. pose proof (kx_lt s Wf i (i + 1) ltac:(lia)). unfold cubicAt, cubicSlope. field. lra. }
  assert (Ccn : sC s (last s) = cubicSlope a b c (kx s (last s))). { rewrite (fCn _ _ _ _ _ _ _ F). unfold piece1, poly1. rewrite Ca, Cb, Cc by lia. unfold cubicSlope. ring. }
  assert (E0 : first xs = kx s 0) by (unfold first; apply KX). assert (E1 : final xs = kx s (last s)) by (unfold final; rewrite KX, LS; reflexivity).
  assert (IN : forall x, first xs <= x <= final xs -> eval s x = cubicAt a b c d x /\ slopeAt s x = cubicSlope a b c x).
  { intros x Hx. rewrite E0, E1 in Hx. assert (P : exists i, (i < last s)%nat /\ kx s i <= x <= kx s (i + 1)).
    { destruct (located_in s Wf x) as [A|[[i [Hi A]]|A]]; [lra | exists i; split; [exact Hi | lra]|]. exists (last s - 1)%nat. replace (last s - 1 + 1)%nat with (last s) by lia. pose proof (kx_lt s Wf (last s - 1) (last s) ltac:(lia)). split; [lia | lra]. }
    destruct P as [i [Hi P]]. rewrite (eval_piece s Wf V i x Hi P), (slope_piece s Wf S i x Hi P). unfold piece, piece1, poly, poly1. rewrite Ca, Cb, Cc, Hy by lia. unfold cubicAt, cubicSlope. split; ring. }
  assert (OUT : a = 0 -> force = false \/ b = 0 -> forall x, eval s x = cubicAt a b c d x).
  { intros Ha Hfb x. destruct (Rlt_dec x (kx s 0)) as [A|A]; [|destruct (Rlt_dec (kx s (last s)) x) as [B|B]; [|apply IN; rewrite E0, E1; lra]].
    - rewrite (eval_left s Wf) by lra. unfold leftArm, poly. destruct Wf as [_ [_ [_ ->]]]. rewrite Cc, Hy by lia. replace (sB0 s) with b; [rewrite Ha; unfold cubicAt, cubicSlope; ring|].
      rewrite (fB0 _ _ _ _ _ _ _ F), Ha. destruct Hfb as [->|Hb]; [ring|]. destruct force; [exact Hb | ring].
    - rewrite (eval_right s Wf V) by lra. unfold piece, poly. rewrite (fAn _ _ _ _ _ _ _ F), Ccn, Hy by lia. replace (sB s (last s)) with b; [rewrite Ha; unfold cubicAt, cubicSlope; ring|].
      rewrite (fBn _ _ _ _ _ _ _ F), Ha. destruct Hfb as [->|Hb]; [ring|]. destruct force; [exact Hb | ring]. }
  split; [exact IN|]. split; [intros Ha Hf; apply OUT; auto | intros Ha Hb; apply OUT; auto].
Qed.
(** With the ends of a new object: straight lines, everywhere. *)
Theorem lines_reproduced : forall force old xs ys s c d, setPoints natural natural force old true xs ys = Some s ->
  (forall i, (i < length xs)%nat -> nth i ys 0 = c * nth i xs 0 + d) -> forall x, eval s x = c * x + d /\ slopeAt s x = c.
Proof.
  intros force old xs ys s c d H HY x.
  assert (AG : forall t, agrees 0 0 c t natural) by (intros t; unfold natural; replace 0 with (cubicCurv 0 0 t) at 3 by (unfold cubicCurv; ring); constructor).
  destruct (cubics_reproduced _ _ _ _ _ _ _ 0 0 c d H) as [_ [_ Q]]; [intros i Hi; rewrite HY by exact Hi; unfold cubicAt; ring | apply AG | apply AG|].
  assert (E : forall u, eval s u = c * u + d) by (intros u; rewrite Q by reflexivity; unfold cubicAt; ring). split; [apply E|].
  apply (uniqueness_limite (eval s) x); [apply (slope_is_derivative _ _ _ _ _ _ _ x H)|]. apply (derivable_pt_lim_ext (fun u => c * (u - 0) + d)); [intros u; rewrite E; ring|].
  eapply dl_to; [apply (dl_add (fun u => c * (u - 0))), (dl_times (fun _ => c)), dl_cst | ring].
Qed.
Lemma lowerBound_le : forall l x, (lowerBound l x <= length l)%nat.
Proof. induction l as [|a t IH]; intros x; cbn [lowerBound length]; [lia|]. destruct (Rlt_dec a x); [specialize (IH x); lia | lia]. Qed.
(** The curve depends linearly on the table. *)
Theorem superposition : forall p q l l' l'' r r' r'' force old old' old'' xs ys ys' ys'' s s' s'',
  blended p q l l' l'' -> blended p q r r' r'' -> (forall i, (i < length xs)%nat -> nth i ys'' 0 = p * nth i ys 0 + q * nth i ys' 0) ->
  setPoints l r force old true xs ys = Some s -> setPoints l' r' force old' true xs ys' = Some s' -> setPoints l'' r'' force old'' true xs ys'' = Some s'' ->
  forall x, eval s'' x = p * eval s x + q * eval s' x.
Proof.
  intros p q l l' l'' r r' r'' force old old' old'' xs ys ys' ys'' s s' s'' BL BR HY H H' H'' x.
  apply cubic_fitted in H, H', H''. destruct H as [T [b [Rb F]]]. destruct H' as [T' [b' [Rb' F']]]. destruct H'' as [T'' [b'' [Rb'' F'']]].
  assert (N : (2 < length xs)%nat) by apply T. assert (I : increasing xs) by apply T.
  assert (R2 : rowsOK (length xs) (fun i => nth i xs 0) (fun i => nth i ys'' 0) l'' r'' (fun i => p * b i + q * b' i)).
  { destruct Rb as [RI [RL RR]]. destruct Rb' as [RI' [RL' RR']]. split; [|split].
    - intros i Hi. specialize (RI i Hi). specialize (RI' i Hi). unfold innerRow, innerRhs in *. rewrite !HY by lia. pose proof (I (i - 1)%nat i ltac:(lia)) as Q1. pose proof (I i (i + 1)%nat ltac:(lia)) as Q2.
      match goal with |- ?L = ?R => match type of RI with ?A = ?B => match type of RI' with ?A' = ?B' => transitivity (p * A + q * A'); [ring | rewrite RI, RI'; field; lra] end end end.
    - pose proof (I 0%nat 1%nat ltac:(lia)) as Q. destruct BL; unfold leftEq in *; rewrite ?HY by lia.
      + match type of RL with ?A = ?B => match type of RL' with ?A' = ?B' => transitivity (p * A + q * A'); [ring | rewrite RL, RL'; field; lra] end end.
      + match type of RL with ?A = ?B => match type of RL' with ?A' = ?B' => transitivity (p * A + q * A'); [ring | rewrite RL, RL'; ring] end end.
    - pose proof (I (length xs - 2)%nat (length xs - 1)%nat ltac:(lia)) as Q. destruct BR; unfold rightEq in *; rewrite ?HY by lia.
      + match type of RR with ?A = ?B => match type of RR' with ?A' = ?B' => transitivity (p * A + q * A'); [ring | rewrite RR, RR'; field; lra] end end.
      + match type of RR with ?A = ?B => match type of RR' with ?A' = ?B' => transitivity (p * A + q * A'); [ring | rewrite RR, RR'; ring] end end. }
  pose proof (fitted_unique _ _ _ _ _ _ _ _ T'' Rb'' R2 F'') as G. clear F''. rename G into F''.
  pose proof (fX _ _ _ _ _ _ _ F) as X. pose proof (fX _ _ _ _ _ _ _ F') as X'. pose proof (fX _ _ _ _ _ _ _ F'') as X''.
  pose proof (fY _ _ _ _ _ _ _ F) as Y. pose proof (fY _ _ _ _ _ _ _ F') as Y'. pose proof (fY _ _ _ _ _ _ _ F'') as Y''.
  assert (LS : last s = (length xs - 1)%nat) by (unfold last; rewrite X; reflexivity). assert (LS' : last s' = (length xs - 1)%nat) by (unfold last; rewrite X'; reflexivity). assert (LS'' : last s'' = (length xs - 1)%nat) by (unfold last; rewrite X''; reflexivity).
  assert (KX : kx s = kx s'') by (unfold kx; rewrite X, X''; reflexivity). assert (KX' : kx s' = kx s'') by (unfold kx; rewrite X', X''; reflexivity).
  assert (KY : forall i, (i <= last s'')%nat -> ky s'' i = p * ky s i + q * ky s' i) by (intros i Hi; unfold ky; rewrite Y, Y', Y''; apply HY; lia).
  pose proof (fitted_well _ _ _ _ _ _ _ T'' F'') as Wf.
  assert (ST : forall i, (i < last s'')%nat -> kx s'' i < kx s'' (i + 1)) by (intros i Hi; apply kx_lt; [exact Wf | lia]).
  assert (Ca : forall i, (i <= last s'')%nat -> sA s'' i = p * sA s i + q * sA s' i).
  { intros i Hi. destruct (Nat.eq_dec i (last s'')) as [->|Ni].
    - rewrite (fAn _ _ _ _ _ _ _ F''), LS'', <- LS, (fAn _ _ _ _ _ _ _ F), LS, <- LS', (fAn _ _ _ _ _ _ _ F'). ring.
    - rewrite (fA _ _ _ _ _ _ _ F''), (fA _ _ _ _ _ _ _ F), (fA _ _ _ _ _ _ _ F') by lia. unfold coefA. rewrite KX, KX'. pose proof (ST i ltac:(lia)). field. lra. }
  assert (Cb : forall i, (i <= last s'')%nat -> sB s'' i = p * sB s i + q * sB s' i).
  { intros i Hi. destruct (Nat.eq_dec i (last s'')) as [->|Ni].
    - rewrite (fBn _ _ _ _ _ _ _ F''), LS'', <- LS, (fBn _ _ _ _ _ _ _ F), LS, <- LS', (fBn _ _ _ _ _ _ _ F'). destruct force; [ring | reflexivity].
    - rewrite (fB _ _ _ _ _ _ _ F''), (fB _ _ _ _ _ _ _ F), (fB _ _ _ _ _ _ _ F') by lia. reflexivity. }
  assert (Cc0 : forall i, (i < last s'')%nat -> sC s'' i = p * sC s i + q * sC s' i).
  { intros i Hi. rewrite (fC _ _ _ _ _ _ _ F''), (fC _ _ _ _ _ _ _ F), (fC _ _ _ _ _ _ _ F') by lia. unfold coefC. rewrite KX, KX', !KY by lia. pose proof (ST i ltac:(lia)). field. lra. }
  assert (Cc : forall i, (i <= last s'')%nat -> sC s'' i = p * sC s i + q * sC s' i).
  { intros i Hi. destruct (Nat.eq_dec i (last s'')) as [->|Ni]; [|apply Cc0; lia].
    pose proof (fCn _ _ _ _ _ _ _ F) as A1. pose proof (fCn _ _ _ _ _ _ _ F') as A2. pose proof (fCn _ _ _ _ _ _ _ F'') as A3. rewrite LS in A1. rewrite LS' in A2. rewrite LS'' in *. rewrite A1, A2, A3. unfold piece1, poly1.
    rewrite KX, KX', Ca, Cb, Cc0 by lia. ring. }
  assert (B0 : sB0 s'' = p * sB0 s + q * sB0 s') by (rewrite (fB0 _ _ _ _ _ _ _ F), (fB0 _ _ _ _ _ _ _ F'), (fB0 _ _ _ _ _ _ _ F''); destruct force; [ring | reflexivity]).
  assert (C0 : sC0 s'' = p * sC0 s + q * sC0 s').
  { destruct Wf as [_ [_ [_ ->]]]. destruct (fitted_well _ _ _ _ _ _ _ T F) as [_ [_ [_ ->]]]. destruct (fitted_well _ _ _ _ _ _ _ T' F') as [_ [_ [_ ->]]]. apply Cc. lia. }
  unfold eval, place. rewrite X, X', X''. assert (PL : (lowerBound xs x - 1 <= last s'')%nat) by (pose proof (lowerBound_le xs x); lia).
  fold (ky s 0) (ky s' 0) (ky s'' 0) (ky s (length xs - 1)) (ky s' (length xs - 1)) (ky s'' (length xs - 1)) (ky s (lowerBound xs x - 1)) (ky s' (lowerBound xs x - 1)) (ky s'' (lowerBound xs x - 1)).
  destruct (Rlt_dec x (nth 0 xs 0)); [rewrite B0, C0, KY by lia; ring|]. destruct (Rlt_dec (nth (length xs - 1) xs 0) x); [rewrite Cb, Cc, KY by lia; ring|]. rewrite Ca, Cb, Cc, KY by lia. ring.
Qed.
Lemma nth_map_R : forall (f : R -> R) l i, (i < length l)%nat -> nth i (map f l) 0 = f (nth i l 0).
Proof. intros f l i H. rewrite (nth_indep _ 0 (f 0)) by (rewrite map_length; exact H). apply map_nth. Qed.
Lemma lowerBound_stretch : forall k l x, 0 < k -> lowerBound (map (fun t => k * t) l) (k * x) = lowerBound l x.
Proof.
  intros k l x Hk. induction l as [|a t IH]; [reflexivity|]. cbn [map lowerBound]. destruct (Rlt_dec (k * a) (k * x)) as [L|L]; destruct (Rlt_dec a x) as [M|M].
  - rewrite IH. reflexivity.
  - exfalso. apply M. apply Rmult_lt_reg_l with k; assumption.
  - exfalso. apply L. apply Rmult_lt_compat_l; assumption.
  - reflexivity.
Qed.
(** The curve does not depend on the unit of the abscissa. *)
Theorem stretched_table : forall k l l' r r' force old old' xs ys s s', 0 < k -> stretched k l l' -> stretched k r r' ->
  setPoints l r force old true xs ys = Some s -> setPoints l' r' force old' true (map (fun t => k * t) xs) ys = Some s' ->
  forall x, eval s' (k * x) = eval s x.
Proof.
  intros k l l' r r' force old old' xs ys s s' Hk SL SR H H' x. apply cubic_fitted in H, H'. destruct H as [T [b [Rb F]]]. destruct H' as [T' [b' [Rb' F']]].
  assert (N : (2 < length xs)%nat) by apply T. assert (I : increasing xs) by apply T. assert (LM : length (map (fun t => k * t) xs) = length xs) by apply map_length.
  assert (NX : forall i, (i < length xs)%nat -> nth i (map (fun t => k * t) xs) 0 = k * nth i xs 0) by (intros i Hi; apply (nth_map_R (fun t => k * t)), Hi).
  assert (R2 : rowsOK (length (map (fun t => k * t) xs)) (fun i => nth i (map (fun t => k * t) xs) 0) (fun i => nth i ys 0) l' r' (fun i => b i / (k * k))).
  { rewrite LM. destruct Rb as [RI [RL RR]]. split; [|split].
    - intros i Hi. specialize (RI i Hi). unfold innerRow, innerRhs in *. rewrite !NX by lia. rewrite <- !Rmult_minus_distr_l. pose proof (I (i - 1)%nat i ltac:(lia)) as Q1. pose proof (I i (i + 1)%nat ltac:(lia)) as Q2.
      match type of RI with ?A = ?B => transitivity (A / k); [field; lra | rewrite RI; field; lra] end.
    - pose proof (I 0%nat 1%nat ltac:(lia)) as Q. destruct SL; unfold leftEq in *; rewrite ?NX by lia; rewrite <- ?Rmult_minus_distr_l.
      + match type of RL with ?A = ?B => transitivity (A / k); [field; lra | rewrite RL; field; lra] end.
      + match type of RL with ?A = ?B => transitivity (A / (k * k)); [field; lra | rewrite RL; reflexivity] end.
    - pose proof (I (length xs - 2)%nat (length xs - 1)%nat ltac:(lia)) as Q. destruct SR; unfold rightEq in *; rewrite ?NX by lia; rewrite <- ?Rmult_minus_distr_l.
      + match type of RR with ?A = ?B => transitivity (A / k); [field; lra | rewrite RR; field; lra] end.
      + match type of RR with ?A = ?B => transitivity (A / (k * k)); [field; lra | rewrite RR; reflexivity] end. }
  pose proof (fitted_unique _ _ _ _ _ _ _ _ T' Rb' R2 F') as G. clear F'. rename G into F'.
  pose proof (fX _ _ _ _ _ _ _ F) as X. pose proof (fX _ _ _ _ _ _ _ F') as X'. pose proof (fY _ _ _ _ _ _ _ F) as Y. pose proof (fY _ _ _ _ _ _ _ F') as Y'.
  assert (LS : last s = (length xs - 1)%nat) by (unfold last; rewrite X; reflexivity). assert (LS' : last s' = (length xs - 1)%nat) by (unfold last; rewrite X', LM; reflexivity).
  assert (KX : forall i, (i <= last s)%nat -> kx s' i = k * kx s i) by (intros i Hi; unfold kx; rewrite X, X'; apply NX; lia). assert (KY : ky s' = ky s) by (unfold ky; rewrite Y, Y'; reflexivity).
  pose proof (fitted_well _ _ _ _ _ _ _ T F) as Wf. assert (ST : forall i, (i < last s)%nat -> kx s i < kx s (i + 1)) by (intros i Hi; apply kx_lt; [exact Wf | lia]).
  assert (Ca : forall i, (i <= last s)%nat -> sA s' i = sA s i / (k * k * k)).
  { intros i Hi. destruct (Nat.eq_dec i (last s)) as [->|Ni].
    - rewrite (fAn _ _ _ _ _ _ _ F), LS, <- LS', (fAn _ _ _ _ _ _ _ F'). field. lra.
    - rewrite (fA _ _ _ _ _ _ _ F), (fA _ _ _ _ _ _ _ F') by lia. unfold coefA. rewrite !KX by lia. rewrite <- !Rmult_minus_distr_l. pose proof (ST i ltac:(lia)). field. lra. }
  assert (Cb : forall i, (i <= last s)%nat -> sB s' i = sB s i / (k * k)).
  { intros i Hi. destruct (Nat.eq_dec i (last s)) as [->|Ni].
    - rewrite (fBn _ _ _ _ _ _ _ F), LS, <- LS', (fBn _ _ _ _ _ _ _ F'). destruct force; [field; lra | reflexivity].
    - rewrite (fB _ _ _ _ _ _ _ F), (fB _ _ _ _ _ _ _ F') by lia. reflexivity. }
  assert (Cc0 : forall i, (i < last s)%nat -> sC s' i = sC s i / k).
  { intros i Hi. rewrite (fC _ _ _ _ _ _ _ F), (fC _ _ _ _ _ _ _ F') by lia. unfold coefC. rewrite !KX, KY by lia. rewrite <- !Rmult_minus_distr_l. pose proof (ST i ltac:(lia)). field. lra. }
  assert (Cc : forall i, (i <= last s)%nat -> sC s' i = sC s i / k).
  { intros i Hi. destruct (Nat.eq_dec i (last s)) as [->|Ni]; [|apply Cc0; lia].
    pose proof (fCn _ _ _ _ _ _ _ F) as A1. pose proof (fCn _ _ _ _ _ _ _ F') as A2. rewrite LS' in A2. rewrite LS in *. rewrite A1, A2. unfold piece1, poly1. rewrite !KX, Ca, Cb, Cc0 by lia. field. lra. }
  assert (B0 : sB0 s' = sB0 s / (k * k)) by (rewrite (fB0 _ _ _ _ _ _ _ F), (fB0 _ _ _ _ _ _ _ F'); destruct force; [field; lra | reflexivity]).
  assert (C0 : sC0 s' = sC0 s / k). { destruct Wf as [_ [_ [_ ->]]]. destruct (fitted_well _ _ _ _ _ _ _ T' F') as [_ [_ [_ ->]]]. apply Cc. lia. }
  unfold eval, place. rewrite X', LM, <- X, lowerBound_stretch by exact Hk. fold (last s). assert (PL : (lowerBound (sX s) x - 1 <= last s)%nat) by (pose proof (lowerBound_le (sX s) x); unfold last; lia).
  fold (ky s 0) (ky s' 0) (ky s (last s)) (ky s' (last s)) (ky s (lowerBound (sX s) x - 1)) (ky s' (lowerBound (sX s) x - 1)). rewrite KY, X.
  rewrite !NX by (rewrite <- X; rewrite X in *; lia). rewrite <- X. fold (kx s 0) (kx s (last s)) (kx s (lowerBound (sX s) x - 1)).
  destruct (Rlt_dec (k * x) (k * kx s 0)) as [L|L]; destruct (Rlt_dec x (kx s 0)) as [M|M].
  - rewrite B0, C0. field. lra.
  - exfalso. apply M. apply Rmult_lt_reg_l with k; assumption.
  - exfalso. apply L. apply Rmult_lt_compat_l; assumption.
  - destruct (Rlt_dec (k * kx s (last s)) (k * x)) as [L'|L']; destruct (Rlt_dec (kx s (last s)) x) as [M'|M'].
    + rewrite Cb, Cc by lia. field. lra.
    + exfalso. apply M'. apply Rmult_lt_reg_l with k; assumption.
    + exfalso. apply L'. apply Rmult_lt_compat_l; assumption.
    + rewrite Ca, Cb, Cc by exact PL. field. lra.
Qed.

(** ** C82: straight lines on request *)
Theorem chords : forall l r force old xs ys s i x, setPoints l r force old false xs ys = Some s -> (i + 1 < length xs)%nat -> nth i xs 0 <= x <= nth (i + 1) xs 0 -> eval s x = chord xs ys i x.
Proof.
  intros l r force old xs ys s i x H Hi Hx. pose proof (shape _ _ _ _ _ _ _ _ H) as [_ [X [Y [Wf V]]]]. apply linear_shape in H. destruct H as [_ [_ [_ [A [B [_ [C _]]]]]]].
  assert (Hl : (i < last s)%nat) by (unfold last; rewrite X; lia). rewrite <- X in Hx. rewrite (eval_piece s Wf V i x Hl Hx). unfold piece, poly, chord. rewrite A, B, C by lia. unfold kx, ky. rewrite X, Y. ring.
Qed.
Theorem between_neighbours : forall l r force old xs ys s i x, setPoints l r force old false xs ys = Some s -> (i + 1 < length xs)%nat -> nth i xs 0 <= x <= nth (i + 1) xs 0 ->
  Rmin (nth i ys 0) (nth (i + 1) ys 0) <= eval s x <= Rmax (nth i ys 0) (nth (i + 1) ys 0).
Proof.
  intros l r force old xs ys s i x H Hi Hx. rewrite (chords _ _ _ _ _ _ _ _ _ H Hi Hx). apply linear_shape in H. destruct H as [[_ [_ I]] _]. specialize (I i (i + 1)%nat ltac:(lia)). unfold chord.
  set (x0 := nth i xs 0) in *. set (x1 := nth (i + 1) xs 0) in *. set (y0 := nth i ys 0). set (y1 := nth (i + 1) ys 0). set (t := (x - x0) / (x1 - x0)).
  replace (y0 + (x - x0) * ((y1 - y0) / (x1 - x0))) with (y0 + t * (y1 - y0)) by (unfold t; field; lra).
  assert (T0 : 0 <= t) by (unfold t, Rdiv; apply Rmult_le_pos; [lra | apply Rlt_le, Rinv_0_lt_compat; lra]).
  assert (T1 : t <= 1) by (unfold t; apply Rmult_le_reg_r with (x1 - x0); [lra|]; unfold Rdiv; rewrite Rmult_assoc, Rinv_l by lra; lra).
  clearbody t y0 y1. clear - T0 T1. unfold Rmin, Rmax. destruct (Rle_dec y0 y1) as [L|L].
  - assert (0 <= t * (y1 - y0)) by (apply Rmult_le_pos; lra). assert (0 <= (1 - t) * (y1 - y0)) by (apply Rmult_le_pos; lra). lra.
  - assert (0 <= t * (y0 - y1)) by (apply Rmult_le_pos; lra). assert (0 <= (1 - t) * (y0 - y1)) by (apply Rmult_le_pos; lra). lra.
Qed.
(** Beyond the ends: the chord at the left; at the right a term left by an earlier table. *)
Theorem chords_beyond_partial : forall l r force old xs ys s x, setPoints l r force old false xs ys = Some s ->
  (x <= first xs -> eval s x = chord xs ys 0 x) /\
  (final xs <= x -> eval s x = chord xs ys (length xs - 2) x + (if force then 0 else old (length xs - 1)%nat) * (x - final xs) ^ 2).
Proof.
  intros l r force old xs ys s x H. pose proof (shape _ _ _ _ _ _ _ _ H) as [T [X [Y [Wf V]]]]. apply linear_shape in H. destruct H as [_ [_ [_ [A [B [Bn [C [Cn [B0 C0]]]]]]]]].
  assert (N : (2 < length xs)%nat) by apply T. assert (LS : last s = (length xs - 1)%nat) by (unfold last; rewrite X; reflexivity).
  assert (E0 : first xs = kx s 0) by (unfold first, kx; rewrite X; reflexivity). assert (E1 : final xs = kx s (last s)) by (unfold final, kx, last; rewrite X; reflexivity).
  rewrite E0, E1. split; intros P.
  - rewrite (eval_left s Wf x P). unfold leftArm, poly, chord. rewrite B0, C0, C by lia. unfold kx, ky. rewrite X, Y. ring.
  - rewrite (eval_right s Wf V x P). unfold piece, poly, chord. rewrite A, Bn, Cn, C by lia. rewrite LS. replace (length xs - 1 - 1)%nat with (length xs - 2)%nat by lia. replace (length xs - 2 + 1)%nat with (length xs - 1)%nat by lia.
    pose proof (kx_lt s Wf (length xs - 2) (length xs - 1) ltac:(lia)) as Q. unfold kx, ky in *. rewrite X in *. rewrite Y. field. lra.
Qed.

(** ** Examples and refutations *)
Definition egX : list R := [0; 1; 2].
Lemma egX_table : forall a b c, tableOf egX [a; b; c].
Proof.
  intros a b c. split; [reflexivity|]. split; [cbn; lia|]. intros i j [H1 H2]. cbn in H2. destruct i as [|[|[|i]]], j as [|[|[|j]]]; try lia; cbn; lra.
Qed.
Lemma egX_b : forall force old a b c s, setPoints natural natural force old true egX [a; b; c] = Some s -> fitted natural natural force egX [a; b; c] (fun i => if (i =? 1)%nat then 3 / 4 * (c - 2 * b + a) else 0) s.
Proof.
  intros force old a b c s H. apply cubic_fitted in H. destruct H as [T [bb [Rb F]]]. apply (fitted_unique _ _ _ _ _ _ _ _ T Rb); [|exact F]. split; [|split].
  - intros i Hi. cbn in Hi. replace i with 1%nat by lia. unfold innerRow, innerRhs. cbn. field.
  - unfold leftEq, natural. cbn. ring.
  - unfold rightEq, natural. cbn. ring.
Qed.
(** A rising table, and a curve that goes below its smallest value. *)
Theorem between_neighbours_refuted : exists xs ys s x, setPoints natural natural false (fun _ => 0) true xs ys = Some s /\ nth 0 xs 0 <= x <= nth 1 xs 0 /\
  (forall i, (i + 1 < length ys)%nat -> nth i ys 0 <= nth (i + 1) ys 0) /\ (forall i, (i < length ys)%nat -> 0 <= nth i ys 0) /\ eval s x < 0.
Proof.
  destruct (cubic_defined natural natural false (fun _ => 0) egX [0; 0; 1] (egX_table _ _ _)) as [s H]. exists egX, [0; 0; 1], s, (1 / 2). split; [exact H|].
  split; [cbn; lra|]. split; [intros i Hi; cbn in Hi; destruct i as [|[|i]]; [cbn; lra | cbn; lra | lia]|]. split; [intros i Hi; cbn in Hi; destruct i as [|[|[|i]]]; [cbn; lra | cbn; lra | cbn; lra | lia]|].
  pose proof (shape _ _ _ _ _ _ _ _ H) as [T [X [Y [Wf V]]]]. pose proof (egX_b _ _ _ _ _ _ H) as F. assert (LS : last s = 2%nat) by (unfold last; rewrite X; reflexivity).
  rewrite (eval_piece s Wf V 0) by (rewrite ?LS; unfold kx; rewrite ?X; cbn; (lia || lra)). unfold piece, poly.
  rewrite (fA _ _ _ _ _ _ _ F), (fB _ _ _ _ _ _ _ F), (fC _ _ _ _ _ _ _ F) by (rewrite LS; lia). unfold coefA, coefC, kx, ky. rewrite X, Y. cbn. lra.
Qed.
(** A parabola and a new object: the curve is another one. *)
Theorem parabola_refuted : exists xs ys s x, setPoints natural natural false (fun _ => 0) true xs ys = Some s /\
  (forall i, (i < length xs)%nat -> nth i ys 0 = cubicAt 0 1 0 0 (nth i xs 0)) /\ first xs <= x <= final xs /\ eval s x <> cubicAt 0 1 0 0 x.
Proof.
  destruct (cubic_defined natural natural false (fun _ => 0) egX [0; 1; 4] (egX_table _ _ _)) as [s H]. exists egX, [0; 1; 4], s, (1 / 2). split; [exact H|].
  split; [intros i Hi; cbn in Hi; destruct i as [|[|[|i]]]; [cbn; unfold cubicAt; ring | cbn; unfold cubicAt; ring | cbn; unfold cubicAt; ring | lia]|]. split; [unfold first, final; cbn; lra|].
  pose proof (shape _ _ _ _ _ _ _ _ H) as [T [X [Y [Wf V]]]]. pose proof (egX_b _ _ _ _ _ _ H) as F. assert (LS : last s = 2%nat) by (unfold last; rewrite X; reflexivity).
  rewrite (eval_piece s Wf V 0) by (rewrite ?LS; unfold kx; rewrite ?X; cbn; (lia || lra)). unfold piece, poly.
  rewrite (fA _ _ _ _ _ _ _ F), (fB _ _ _ _ _ _ _ F), (fC _ _ _ _ _ _ _ F) by (rewrite LS; lia). unfold coefA, coefC, kx, ky, cubicAt. rewrite X, Y. cbn. lra.
Qed.
(** A curvature at the left end, and the reported second derivative beyond it. *)
Theorem left_curvature_refuted : exists l r xs ys s x, setPoints l r false (fun _ => 0) true xs ys = Some s /\ x < first xs /\ ~ derivable_pt_lim (slopeAt s) x (curvAt s x).
Proof.
  destruct (cubic_defined (Curvature 2) natural false (fun _ => 0) egX [0; 1; 4] (egX_table _ _ _)) as [s H]. exists (Curvature 2), natural, egX, [0; 1; 4], s, (- 1).
  split; [exact H|]. split; [unfold first; cbn; lra|]. rewrite (left_curvature_iff _ _ _ _ _ _ _ (- 1) H) by (unfold first; cbn; lra). pose proof (proj1 (ends_met _ _ _ _ _ _ _ H)) as M. cbn [meets] in M.
  rewrite M. intros [Q|Q]; [discriminate | lra].
Qed.
(** An object used for a curve before: beyond the right end the line is bent. *)
Theorem chords_beyond_refuted : exists xs ys ys' s s' x, setPoints natural (Curvature 2) false (fun _ => 0) true xs ys = Some s /\
  setPoints natural (Curvature 2) false (sB s) false xs ys' = Some s' /\ final xs < x /\ eval s' x <> chord xs ys' (length xs - 2) x.
Proof.
  destruct (cubic_defined natural (Curvature 2) false (fun _ => 0) egX [0; 1; 4] (egX_table _ _ _)) as [s H].
  destruct (proj2 (table_accepted natural (Curvature 2) false (sB s) false egX [0; 1; 2]) (egX_table _ _ _)) as [s' H']. exists egX, [0; 1; 4], [0; 1; 2], s, s', 3.
  split; [exact H|]. split; [exact H'|]. split; [unfold final; cbn; lra|]. rewrite (proj2 (chords_beyond_partial _ _ _ _ _ _ _ 3 H')) by (unfold final; cbn; lra).
  apply cubic_fitted in H. destruct H as [T [b [[_ [_ Rb]] F]]]. assert (X := fX _ _ _ _ _ _ _ F). assert (LS : last s = 2%nat) by (unfold last; rewrite X; reflexivity). pose proof (fBn _ _ _ _ _ _ _ F) as Q. rewrite LS in Q.
  unfold rightEq in Rb. cbn in Rb. cbn [length egX Nat.sub]. rewrite Q. unfold final. cbn. lra.
Qed.
Example accepted_case : tableOf [0; 1; 3; 4] [1; 0; 2; 2].
Proof. split; [reflexivity|]. split; [cbn; lia|]. intros i j [H1 H2]. cbn in H2. destruct i as [|[|[|[|i]]]], j as [|[|[|[|j]]]]; try lia; cbn; lra. Qed.
Example rejected_case : ~ tableOf [0; 1; 1; 4] [1; 0; 2; 2].
Proof. intros [_ [_ I]]. specialize (I 1%nat 2%nat ltac:(cbn; lia)). cbn in I. lra. Qed.
Example cubic_case : exists s, setPoints (Slope 0) (Curvature 12) false (fun _ => 0) true egX [0; 1; 8] = Some s /\ forall x, 0 <= x <= 2 -> eval s x = x ^ 3.
Proof.
  destruct (cubic_defined (Slope 0) (Curvature 12) false (fun _ => 0) egX [0; 1; 8] (egX_table _ _ _)) as [s H]. exists s. split; [exact H|]. intros x Hx.
  assert (A0 : agrees 1 0 0 (first egX) (Slope 0)) by (replace 0 with (cubicSlope 1 0 0 (first egX)) at 3 by (unfold cubicSlope, first; cbn; ring); constructor).
  assert (A1 : agrees 1 0 0 (final egX) (Curvature 12)) by (replace 12 with (cubicCurv 1 0 (final egX)) by (unfold cubicCurv, final; cbn; ring); constructor).
  destruct (cubics_reproduced _ _ _ _ _ _ _ 1 0 0 0 H) as [Q _]; [intros i Hi; cbn in Hi; destruct i as [|[|[|i]]]; [cbn; unfold cubicAt; ring | cbn; unfold cubicAt; ring | cbn; unfold cubicAt; ring | lia] | exact A0 | exact A1 |].
  rewrite (proj1 (Q x ltac:(unfold first, final; cbn; lra))). unfold cubicAt. ring.
Qed.
(** A full band matrix: the first column is eliminated and the system solved. *)
Definition egBand : band := Band 2 1 1 (fun k i => match k, i with 0%nat, 0%nat => 2 | 0%nat, _ => 3 | _, _ => 1 end) (fun _ _ => 1).
Example band_case : exists x, luSolve egBand [3; 4] = Some x.
Proof.
  apply luSolve_some; [|reflexivity]. split; [reflexivity|]. split; [reflexivity|]. intros i Hi. cbn in Hi. destruct i as [|[|i]]; [| |lia]; cbn.
  - split; [lra|]. split; [rewrite Rabs_right; lra | lia].
  - split; [lra|]. split; [rewrite Rabs_R0; lra | intros _; rewrite Rabs_right; lra].
Qed.

Print Assumptions slope_is_derivative. Print Assumptions superposition. Print Assumptions stretched_table. Print Assumptions chords_beyond_refuted.
