(** The cosmology from a table. *)
From Coq Require Import Lra Reals List Arith Bool Lia ZArith.
From Verif Require Import SplineModel SplineSpec SplineProofs SplineRowProofs SplineCurveProofs SplineProperties TabModel TabSpec.
Import ListNotations.
Open Scope R_scope.

Lemma ln10_pos : 0 < ln 10.
Proof. rewrite <- ln_1. apply ln_increasing; lra. Qed.
Lemma log10_pow10 : forall x, ln (pow10 x) / ln 10 = x.
Proof. intros x. unfold pow10. rewrite ln_exp. field. pose proof ln10_pos; lra. Qed.
Lemma pow10_pos : forall x, 0 < pow10 x.
Proof. intros; apply exp_pos. Qed.
Lemma search_found : forall fuel s lfA a b c d x, search fuel s lfA a b c d = Some x -> Rabs (1 - eval s x / lfA) <= 1 / 100000.
Proof.
  induction fuel as [|fuel IH]; intros s lfA a b c d x H; [discriminate|]. cbn [search] in H. destruct (Req_EM_T (b - a) 0); [discriminate|].
  set (lslo := (d - c) / (b - a)) in H. destruct (Req_EM_T lslo 0); [discriminate|]. set (l1 := a + (lfA - c) / lslo) in H. destruct (Req_EM_T lfA 0); [discriminate|].
  destruct (Rle_dec (Rabs (1 - eval s l1 / lfA)) 0.00001) as [L|L].
  - injection H as <-. lra.
  - destruct (Rlt_dec (Rabs (d - lfA)) (Rabs (Rabs (c - lfA)))); apply IH in H; exact H.
Qed.
Lemma fromStart_length : forall A i (l : list A), length (fromStart i l) = length l -> l <> [] -> i = 0%Z.
Proof.
  intros A i l H N. unfold fromStart in H. destruct (Z.ltb_spec i 0); [destruct l; [congruence | discriminate]|]. rewrite skipn_length in H. destruct l as [|a l]; [congruence|]. cbn [length] in H. lia.
Qed.
Lemma findUnit_some : forall i1 fuel rows fA e r c, findUnit i1 fuel rows fA = Some (e, r, c) -> i1 = 0%Z /\ unitOf rows fA e /\
  exists sr sc, columnCurve rows rR sr /\ columnCurve rows rChi sc /\ r = eval sr e /\ c = eval sc e.
Proof.
  intros i1 fuel rows fA e r c H. unfold findUnit in H. destruct (allPositive (fA :: map rEta rows)); [|discriminate]. cbn [negb] in H.
  destruct (curve (fromStart i1 (map log10 (map rEta rows))) (map rPf rows)) as [s|] eqn:E; [|discriminate].
  destruct (search _ _ _ _ _ _ _) as [l1|] eqn:Es; [|discriminate]. destruct (curve (map rEta rows) (map rR rows)) as [sr|] eqn:Er; [|discriminate]. destruct (curve (map rEta rows) (map rChi rows)) as [sc|] eqn:Ec; [|discriminate].
  injection H; intros <- <- <-. assert (T : tableOf (fromStart i1 (map log10 (map rEta rows))) (map rPf rows)) by (apply (table_accepted (Curvature 0) (Curvature 0) false (fun _ => 0) true); exists s; exact E).
  assert (Z0 : i1 = 0%Z). { apply (fromStart_length _ _ (map log10 (map rEta rows))); destruct T as [T1 [T2 _]]; [rewrite T1, !map_length; reflexivity|]. intros Q. rewrite Q in T2. unfold fromStart in T2. destruct (i1 <? 0)%Z; [cbn in T2; lia|]. rewrite skipn_nil in T2. cbn in T2. lia. }
  split; [exact Z0|]. split.
  - split; [apply pow10_pos|]. exists s. subst i1. change (fromStart 0 (map log10 (map rEta rows))) with (map log10 (map rEta rows)) in *. split; [unfold logCurve; rewrite <- E; rewrite map_map; reflexivity|].
    rewrite log10_pow10. exact (search_found _ _ _ _ _ _ _ _ Es).
  - exists sr, sc. repeat split; assumption.
Qed.
Lemma divideFrom_all : forall u l, divideFrom 0 u l = map (fun t => t / u) l.
Proof. reflexivity. Qed.
Lemma curve_stretched : forall k xs ys s s', 0 < k -> curve xs ys = Some s -> curve (map (fun t => t / k) xs) ys = Some s' -> forall x, eval s' x = eval s (k * x).
Proof.
  intros k xs ys s s' Hk H H' x. assert (S : forall e, e = 0 -> stretched (/ k) (Curvature 0) (Curvature e)) by (intros e ->; replace 0 with (0 / (/ k * / k)) at 2 by (unfold Rdiv; ring); constructor).
  assert (M : map (fun t => t / k) xs = map (fun t => / k * t) xs) by (apply map_ext; intros; unfold Rdiv; ring). unfold curve in H'. rewrite M in H'.
  rewrite <- (stretched_table (/ k) _ _ _ _ _ _ _ _ _ _ _ (Rinv_0_lt_compat _ Hk) (S 0 eq_refl) (S 0 eq_refl) H H' (k * x)). f_equal. field. lra.
Qed.
Lemma curve_divided : forall u xs ys s s', u <> 0 -> curve xs ys = Some s -> curve xs (map (fun t => t / u) ys) = Some s' -> forall x, eval s' x = eval s x / u.
Proof.
  intros u xs ys s s' Hu H H' x. assert (Bl : blended (/ u) 0 (Curvature 0) (Curvature 0) (Curvature 0)) by (replace 0 with (/ u * 0 + 0 * 0) at 4 by ring; constructor).
  rewrite (superposition (/ u) 0 _ _ _ _ _ _ false (fun _ => 0) (fun _ => 0) (fun _ => 0) xs ys ys (map (fun t => t / u) ys) s s s' Bl Bl); [unfold Rdiv; ring | | exact H | exact H | exact H'].
  intros i Hi. apply cubic_fitted in H. destruct H as [[L _] _]. rewrite (nth_map_R (fun t => t / u)) by lia. unfold Rdiv. ring.
Qed.
Lemma curve_both : forall k u xs ys s s', 0 < k -> u <> 0 -> curve xs ys = Some s -> curve (map (fun t => t / k) xs) (map (fun t => t / u) ys) = Some s' -> forall x, eval s' x = eval s (k * x) / u.
Proof.
  intros k u xs ys s s' Hk Hu H H' x.
  destruct (proj2 (table_accepted (Curvature 0) (Curvature 0) false (fun _ => 0) true (map (fun t => t / k) xs) ys)) as [m Hm].
  { apply cubic_fitted in H, H'. destruct H as [[L1 [L2 _]] _]. destruct H' as [[_ [_ I]] _]. split; [rewrite map_length; exact L1|]. split; [rewrite map_length; exact L2 | exact I]. }
  rewrite (curve_divided u _ _ m s' Hu Hm H'), (curve_stretched k _ _ s m Hk H Hm). reflexivity.
Qed.

(** ** C83: units *)
Theorem table_units_partial : forall fuel rows fA t, setup 0 0 fuel rows fA = Some t -> exists eta1, unitOf rows fA eta1 /\ inUnits rows eta1 t.
Proof.
  intros fuel rows fA t H. unfold setup in H. destruct (findUnit 0 fuel rows fA) as [[[e r] c]|] eqn:E; [|discriminate]. apply findUnit_some in E. destruct E as [_ [U [sr [sc [Hr [Hc [-> ->]]]]]]].
  destruct (Req_EM_T (eval sr e) 0) as [|Nr]; [discriminate|]. destruct (Req_EM_T (eval sc e) 0) as [|Nc]; [discriminate|]. rewrite !divideFrom_all in H.
  destruct (curve _ (map (fun t => t / eval sr e) (map rR rows))) as [a|] eqn:Ea; [|discriminate]. destruct (curve _ (map rT rows)) as [b|] eqn:Eb; [|discriminate]. destruct (curve _ (map rRpp rows)) as [cc|] eqn:Ec; [|discriminate].
  destruct (curve _ (map (fun t => t / eval sc e) (map rChi rows))) as [d|] eqn:Ed; [|discriminate]. injection H as <-. exists e. split; [exact U|]. destruct U as [He _].
  assert (TB : tableOf (map rEta rows) (map rR rows)) by (apply cubic_fitted in Hr; apply Hr).
  assert (TC : forall f : row -> R, exists s, columnCurve rows f s) by (intros f; apply table_accepted; destruct TB as [_ [T2 T3]]; split; [rewrite !map_length; reflexivity | split; [exact T2 | exact T3]]).
  destruct (TC rT) as [st Ht]. destruct (TC rRpp) as [sp Hp]. exists sr, st, sp, sc. split; [exact Hr|]. split; [exact Ht|]. split; [exact Hp|]. split; [exact Hc|]. split; [exact Nr|]. split; [exact Nc|].
  intros ct. unfold tabR, tabT, tabRpp, tabMass2. cbn [tR tT tRpp tChi]. split; [exact (curve_both e _ _ _ _ _ He Nr Hr Ea ct)|]. split; [exact (curve_stretched e _ _ _ _ He Ht Eb ct)|].
  split; [rewrite (curve_stretched e _ _ _ _ He Hp Ec ct); unfold Rdiv; f_equal; f_equal; ring | exact (curve_both e _ _ _ _ _ He Nc Hc Ed ct)].
Qed.
Theorem today_is_one_partial : forall fuel rows fA t, setup 0 0 fuel rows fA = Some t -> tabR t 1 = 1 /\ tabMass2 t 1 = 1.
Proof.
  intros fuel rows fA t H. destruct (table_units_partial fuel rows fA t H) as [e [_ [sr [st [sp [sc [_ [_ [_ [_ [Nr [Nc Q]]]]]]]]]]]]. destruct (Q 1) as [-> [_ [_ ->]]]. rewrite Rmult_1_r. split; field; assumption.
Qed.
(** Anything but zero in the variable that the first loop does not set ends the program. *)
Theorem start_zero : forall i1 i2 fuel rows fA t, setup i1 i2 fuel rows fA = Some t -> i1 = 0%Z.
Proof.
  intros i1 i2 fuel rows fA t H. unfold setup in H. destruct (findUnit i1 fuel rows fA) as [[[e r] c]|] eqn:E; [|discriminate]. apply findUnit_some in E. apply E.
Qed.
(** A table of straight lines. *)
Definition lines3 (p q u w : R) : list row := [Row 1 (p + q) 1 0 (u + w) 1; Row 10 (10 * p + q) 1 0 (10 * u + w) 2; Row 100 (100 * p + q) 1 0 (100 * u + w) 3].
Lemma lines3_table : forall p q u w (f : row -> R), tableOf (map rEta (lines3 p q u w)) (map f (lines3 p q u w)).
Proof. intros. split; [reflexivity|]. split; [cbn; lia|]. intros i j [H1 H2]. cbn in H2. destruct i as [|[|[|i]]], j as [|[|[|j]]]; try lia; cbn; lra. Qed.
Lemma log10_1 : log10 1 = 0. Proof. unfold log10. rewrite ln_1. unfold Rdiv. ring. Qed.
Lemma log10_10 : log10 10 = 1. Proof. unfold log10. field. pose proof ln10_pos; lra. Qed.
Lemma log10_100 : log10 100 = 2. Proof. unfold log10. replace 100 with (10 * 10) by ring. rewrite ln_mult by lra. field. pose proof ln10_pos; lra. Qed.
Lemma pow10_1 : pow10 1 = 10. Proof. unfold pow10. rewrite Rmult_1_l. apply exp_ln. lra. Qed.
Lemma lines3_unit : forall p q u w, findUnit 0 1 (lines3 p q u w) 100 = Some (10, 10 * p + q, 10 * u + w).
Proof.
  intros p q u w. unfold findUnit. replace (allPositive (100 :: map rEta (lines3 p q u w))) with true by (cbn; repeat (destruct (Rlt_dec 0 _); [|lra]); reflexivity). cbn [negb].
  change (fromStart 0 (map log10 (map rEta (lines3 p q u w)))) with [log10 1; log10 10; log10 100]. rewrite log10_1, log10_10, log10_100. change (map rPf (lines3 p q u w)) with [1; 2; 3].
  destruct (cubic_defined (Curvature 0) (Curvature 0) false (fun _ => 0) egX [1; 2; 3] (egX_table _ _ _)) as [s Hs]. unfold curve at 1. change [0; 1; 2] with egX. rewrite Hs.
  assert (Es : forall x, eval s x = 1 * x + 1). { intros x. apply (lines_reproduced false (fun _ => 0) egX [1; 2; 3] s 1 1 Hs). intros i Hi. cbn in Hi. destruct i as [|[|[|i]]]; [cbn; ring | cbn; ring | cbn; ring | lia]. }
  assert (SE : search 1 s 2 0 2 1 3 = Some 1).
  { cbn [search]. destruct (Req_EM_T (2 - 0) 0); [lra|]. replace ((3 - 1) / (2 - 0)) with 1 by field. destruct (Req_EM_T 1 0); [lra|]. replace (0 + (2 - 1) / 1) with 1 by field. destruct (Req_EM_T 2 0); [lra|].
    rewrite Es. destruct (Rle_dec (Rabs (1 - (1 * 1 + 1) / 2)) 0.00001) as [|N]; [reflexivity|]. exfalso. apply N. replace (1 - (1 * 1 + 1) / 2) with 0 by field. rewrite Rabs_R0. lra. }
  unfold front, back. cbn [nth length Nat.sub egX]. change [0; 1; 2] with egX. rewrite SE, pow10_1.
  assert (L : forall (f : row -> R) a b, (forall r, In r (lines3 p q u w) -> f r = a * rEta r + b) -> exists s', curve (map rEta (lines3 p q u w)) (map f (lines3 p q u w)) = Some s' /\ forall x, eval s' x = a * x + b).
  { intros f a b Hf. destruct (cubic_defined (Curvature 0) (Curvature 0) false (fun _ => 0) _ _ (lines3_table p q u w f)) as [s' H']. exists s'. split; [exact H'|]. intros x. apply (lines_reproduced false (fun _ => 0) _ _ s' a b H').
    intros i Hi. rewrite !(nth_indep _ 0 (f (Row 0 0 0 0 0 0))) by exact Hi. cbn in Hi. destruct i as [|[|[|i]]]; [| | |lia]; cbn [map nth lines3]; rewrite Hf by (cbn; tauto); reflexivity. }
  destruct (L rR p q) as [s1 [-> V1]]; [intros r [<-|[<-|[<-|[]]]]; cbn; ring|]. destruct (L rChi u w) as [s2 [-> V2]]; [intros r [<-|[<-|[<-|[]]]]; cbn; ring|]. rewrite V1, V2. f_equal. f_equal; [f_equal|]; ring.
Qed.
Lemma lines3_setup : forall i2 p q u w, (i2 <= 0)%Z -> 10 * p + q <> 0 -> 10 * u + w <> 0 -> exists t, setup 0 i2 1 (lines3 p q u w) 100 = Some t /\
  (forall ct, tabR t ct = (if (i2 <? 0)%Z then p * ct + q else (10 * p * ct + q) / (10 * p + q)) /\ tabMass2 t ct = (if (i2 <? 0)%Z then u * ct + w else (10 * u * ct + w) / (10 * u + w))) /\
  sX (tR t) = map (fun v => v / (if (i2 <? 0)%Z then 1 else 10)) [1; 10; 100] /\ sX (tChi t) = sX (tR t).
Proof.
  intros i2 p q u w Hi Hr Hc. unfold setup. rewrite lines3_unit. destruct (Req_EM_T (10 * p + q) 0); [lra|]. destruct (Req_EM_T (10 * u + w) 0); [lra|].
  set (k := if (i2 <? 0)%Z then 1 else 10).
  assert (DV : forall v l, divideFrom i2 v l = map (fun t => t / (if (i2 <? 0)%Z then 1 else v)) l).
  { intros v l. unfold divideFrom. destruct (Z.ltb_spec i2 0); [rewrite <- (map_id l) at 1; apply map_ext; intros; field|]. replace i2 with 0%Z by lia. reflexivity. }
  rewrite !DV. fold k. assert (Hk : 0 < k) by (unfold k; destruct (i2 <? 0)%Z; lra). set (r1 := if (i2 <? 0)%Z then 1 else 10 * p + q). set (c1 := if (i2 <? 0)%Z then 1 else 10 * u + w).
  assert (Nr : r1 <> 0) by (unfold r1; destruct (i2 <? 0)%Z; lra). assert (Nc : c1 <> 0) by (unfold c1; destruct (i2 <? 0)%Z; lra).
  assert (L : forall (f : row -> R) a b v, v <> 0 -> (forall r, In r (lines3 p q u w) -> f r = a * rEta r + b) ->
    exists s', curve (map (fun t => t / k) (map rEta (lines3 p q u w))) (map (fun t => t / v) (map f (lines3 p q u w))) = Some s' /\ forall x, eval s' x = a * k / v * x + b / v).
  { intros f a b v Hv Hf. destruct (proj2 (table_accepted (Curvature 0) (Curvature 0) false (fun _ => 0) true (map (fun t => t / k) (map rEta (lines3 p q u w))) (map (fun t => t / v) (map f (lines3 p q u w))))) as [s' H'].
    - split; [reflexivity|]. split; [cbn; lia|]. intros i j [H1 H2]. cbn in H2. assert (Ik : 0 < / k) by (apply Rinv_0_lt_compat, Hk). unfold Rdiv. destruct i as [|[|[|i]]], j as [|[|[|j]]]; try lia; cbn; lra.
    - exists s'. split; [exact H'|]. intros x. apply (lines_reproduced false (fun _ => 0) _ _ s' _ _ H'). intros i Hi'. cbn in Hi'. destruct i as [|[|[|i]]]; [| | |lia]; cbn [map nth lines3 rEta]; rewrite Hf by (cbn; tauto); cbn [rEta]; field; lra. }
  destruct (L rR p q r1 Nr) as [s1 [E1 V1]]; [intros r [<-|[<-|[<-|[]]]]; cbn; ring|]. destruct (L rChi u w c1 Nc) as [s2 [E2 V2]]; [intros r [<-|[<-|[<-|[]]]]; cbn; ring|].
  assert (TC : forall f : row -> R, exists s, curve (map (fun t => t / k) (map rEta (lines3 p q u w))) (map f (lines3 p q u w)) = Some s).
  { intros f. apply table_accepted. apply cubic_fitted in E1. destruct E1 as [[_ [T2 T3]] _]. split; [rewrite !map_length; reflexivity | split; [exact T2 | exact T3]]. }
  destruct (TC rT) as [s3 E3]. destruct (TC rRpp) as [s4 E4]. rewrite E1, E2, E3, E4. eexists. split; [reflexivity|]. cbn [tR tChi].
  assert (X1 : sX s1 = map (fun t => t / k) (map rEta (lines3 p q u w))) by (apply shape in E1; apply E1). assert (X2 : sX s2 = map (fun t => t / k) (map rEta (lines3 p q u w))) by (apply shape in E2; apply E2).
  split; [|rewrite X1, X2; split; reflexivity]. intros ct. unfold tabR, tabMass2. cbn [tR tChi]. rewrite V1, V2. unfold k, r1, c1. destruct (i2 <? 0)%Z; split; field; lra.
Qed.
(** The variable of the second loop: below zero, nothing is brought to the new units. *)
Theorem today_is_one_refuted : exists i2 rows fA t, usable rows /\ setup 0 i2 1 rows fA = Some t /\ tabR t 1 = 11.
Proof.
  destruct (lines3_setup (-1) 1 10 1 0) as [t [H [V _]]]; [lia | lra | lra|]. exists (-1)%Z, (lines3 1 10 1 0), 100, t. split; [|split; [exact H|]].
  - split; [cbn; lia|]. split; [intros r [<-|[<-|[<-|[]]]]; cbn; lra | apply (lines3_table 1 10 1 0 rR)].
  - rewrite (proj1 (V 1)). cbn. ring.
Qed.
Theorem not_in_units : forall i2 fuel rows fA t, (i2 < 0)%Z -> setup 0 i2 fuel rows fA = Some t -> exists sr sc, columnCurve rows rR sr /\ columnCurve rows rChi sc /\
  forall ct, tabR t ct = eval sr ct /\ tabMass2 t ct = eval sc ct.
Proof.
  intros i2 fuel rows fA t Hi H. unfold setup in H. destruct (findUnit 0 fuel rows fA) as [[[e r] c]|] eqn:E; [|discriminate]. destruct (Req_EM_T r 0); [discriminate|]. destruct (Req_EM_T c 0); [discriminate|].
  assert (D : forall v l, divideFrom i2 v l = l) by (intros; unfold divideFrom; replace (i2 <? 0)%Z with true by (symmetry; apply Z.ltb_lt, Hi); reflexivity). rewrite !D in H.
  destruct (curve (map rEta rows) (map rR rows)) as [a|] eqn:Ea; [|discriminate]. destruct (curve (map rEta rows) (map rT rows)); [|discriminate]. destruct (curve (map rEta rows) (map rRpp rows)); [|discriminate].
  destruct (curve (map rEta rows) (map rChi rows)) as [d|] eqn:Ed; [|discriminate]. injection H as <-. exists a, d. split; [exact Ea|]. split; [exact Ed|]. intros ct. split; reflexivity.
Qed.
(** Where the last column is a straight line the search ends at once, at the exact place. *)
Lemma allPositive_iff : forall l, allPositive l = true <-> (forall a, In a l -> 0 < a).
Proof.
  induction l as [|a t IH]; cbn [allPositive]; [split; [intros _ b [] | reflexivity]|]. rewrite andb_true_iff, IH. split.
  - intros [H1 H2] b [<-|Hb]; [destruct (Rlt_dec 0 a); [assumption | discriminate] | apply H2, Hb].
  - intros H. split; [destruct (Rlt_dec 0 a) as [|N]; [reflexivity | exfalso; apply N, H; left; reflexivity] | intros b Hb; apply H; right; exact Hb].
Qed.
Lemma logs_table : forall rows (f : row -> R), usable rows -> tableOf (map (fun r => ln (rEta r) / ln 10) rows) (map f rows).
Proof.
  intros rows f [U1 [U2 U3]]. split; [rewrite !map_length; reflexivity|]. split; [rewrite map_length; exact U1|]. intros i j Hij. rewrite map_length in Hij. specialize (U3 i j ltac:(rewrite map_length; exact Hij)).
  set (d := Row 1 0 0 0 0 0). rewrite !(nth_indep (map rEta rows) 0 (rEta d)), !map_nth in U3 by (rewrite map_length; lia).
  rewrite !(nth_indep (map (fun r => ln (rEta r) / ln 10) rows) 0 ((fun r => ln (rEta r) / ln 10) d)), !(map_nth (fun r => ln (rEta r) / ln 10)) by (rewrite map_length; lia).
  apply Rmult_lt_compat_r; [apply Rinv_0_lt_compat, ln10_pos|]. apply ln_increasing; [apply U2, nth_In; lia | exact U3].
Qed.
Theorem unit_found_partial : forall fuel rows fA a b, usable rows -> 0 < fA -> fA <> 1 -> a <> 0 -> (forall r, In r rows -> rPf r = a * (ln (rEta r) / ln 10) + b) ->
  exists eta1, 0 < eta1 /\ a * (ln eta1 / ln 10) + b = ln fA / ln 10 /\
  ((forall sr sc, columnCurve rows rR sr -> columnCurve rows rChi sc -> eval sr eta1 <> 0 /\ eval sc eta1 <> 0) -> exists t, setup 0 0 (S fuel) rows fA = Some t).
Proof.
  intros fuel rows fA a b U Hf Hf1 Ha Hl. pose proof ln10_pos as L10. set (x1 := (ln fA / ln 10 - b) / a). exists (pow10 x1). split; [apply pow10_pos|]. split; [rewrite log10_pow10; unfold x1; field; split; lra|]. intros HN.
  destruct (cubic_defined natural natural false (fun _ => 0) _ _ (logs_table rows rPf U)) as [s Hs].
  assert (N : forall i, (i < length rows)%nat -> nth i (map rPf rows) 0 = a * nth i (map (fun r => ln (rEta r) / ln 10) rows) 0 + b).
  { intros i Hi. set (d := Row 1 0 0 0 0 b). rewrite (nth_indep (map rPf rows) 0 (rPf d)), (nth_indep (map (fun r => ln (rEta r) / ln 10) rows) 0 ((fun r => ln (rEta r) / ln 10) d)) by (rewrite map_length; exact Hi).
    rewrite !(map_nth rPf), (map_nth (fun r => ln (rEta r) / ln 10)). apply Hl, nth_In, Hi. }
  assert (Es : forall x, eval s x = a * x + b) by (intros x; apply (lines_reproduced false (fun _ => 0) _ _ s a b Hs); intros i Hi; rewrite map_length in Hi; apply N, Hi).
  destruct U as [U1 [U2 U3]].
  assert (LF : ln fA / ln 10 <> 0). { intros Q. apply Rmult_integral in Q. destruct Q as [Q|Q]; [|pose proof (Rinv_0_lt_compat _ L10); lra]. apply Hf1. apply ln_inv; [exact Hf | lra | rewrite ln_1; exact Q]. }
  assert (LL : front (map (fun r => ln (rEta r) / ln 10) rows) < back (map (fun r => ln (rEta r) / ln 10) rows)).
  { destruct (logs_table rows rPf (conj U1 (conj U2 U3))) as [_ [_ I]]. unfold front, back. apply I. rewrite map_length. lia. }
  assert (F1 : front (map rPf rows) = a * front (map (fun r => ln (rEta r) / ln 10) rows) + b) by (unfold front; apply N; lia).
  assert (F2 : back (map rPf rows) = a * back (map (fun r => ln (rEta r) / ln 10) rows) + b) by (unfold back; rewrite !map_length; apply N; lia).
  destruct (table_accepted (Curvature 0) (Curvature 0) false (fun _ => 0) true (map rEta rows) (map rR rows)) as [_ TR]. destruct TR as [sr Er]; [split; [rewrite !map_length; reflexivity | split; [rewrite map_length; exact U1 | exact U3]]|].
  destruct (table_accepted (Curvature 0) (Curvature 0) false (fun _ => 0) true (map rEta rows) (map rChi rows)) as [_ TC]. destruct TC as [sc Ec]; [split; [rewrite !map_length; reflexivity | split; [rewrite map_length; exact U1 | exact U3]]|].
  assert (FU : findUnit 0 (S fuel) rows fA = Some (pow10 x1, eval sr (pow10 x1), eval sc (pow10 x1))).
  { unfold findUnit. replace (allPositive (fA :: map rEta rows)) with true.
    2: { symmetry. apply allPositive_iff. intros v [<-|Hv]; [exact Hf|]. apply in_map_iff in Hv. destruct Hv as [r [<- Hr]]. apply U2, Hr. }
    cbn [negb]. change (fromStart 0 (map log10 (map rEta rows))) with (map log10 (map rEta rows)). rewrite map_map. change (fun x : row => log10 (rEta x)) with (fun r => ln (rEta r) / ln 10).
    unfold curve at 1. change (Curvature 0) with natural. rewrite Hs. rewrite F1, F2. change (log10 fA) with (ln fA / ln 10). cbn [search].
    set (l0 := front _) in *. set (l2 := back (map (fun r => ln (rEta r) / ln 10) rows)) in *. destruct (Req_EM_T (l2 - l0) 0); [lra|].
    replace ((a * l2 + b - (a * l0 + b)) / (l2 - l0)) with a by (field; lra). destruct (Req_EM_T a 0); [lra|]. destruct (Req_EM_T (ln fA / ln 10) 0); [lra|].
    replace (l0 + (ln fA / ln 10 - (a * l0 + b)) / a) with x1 by (unfold x1; field; split; lra). rewrite Es. replace (a * x1 + b) with (ln fA / ln 10) by (unfold x1; field; split; lra).
    destruct (Rle_dec (Rabs (1 - ln fA / ln 10 / (ln fA / ln 10))) 0.00001) as [_|NL].
    2: { exfalso. apply NL. replace (1 - ln fA / ln 10 / (ln fA / ln 10)) with 0; [rewrite Rabs_R0; lra|]. set (z := ln fA / ln 10) in *. clearbody z. field. exact LF. }
    unfold curve. change natural with (Curvature 0). rewrite Er, Ec. reflexivity. }
  unfold setup. rewrite FU. destruct (HN sr sc Er Ec) as [N1 N2]. destruct (Req_EM_T (eval sr (pow10 x1)) 0); [contradiction|]. destruct (Req_EM_T (eval sc (pow10 x1)) 0); [contradiction|]. rewrite !divideFrom_all.
  assert (TT : forall ys, length ys = length rows -> exists s', curve (map (fun t => t / pow10 x1) (map rEta rows)) ys = Some s').
  { intros ys Ly. apply table_accepted. split; [rewrite !map_length; congruence|]. split; [rewrite !map_length; exact U1|]. intros i j Hij. rewrite !map_length in Hij. rewrite !(nth_map_R (fun t => t / pow10 x1)) by (rewrite map_length; lia).
    apply Rmult_lt_compat_r; [apply Rinv_0_lt_compat, pow10_pos|]. apply U3. rewrite map_length. exact Hij. }
  destruct (TT (map (fun t => t / eval sr (pow10 x1)) (map rR rows))) as [s1 ->]; [rewrite !map_length; reflexivity|]. destruct (TT (map rT rows)) as [s2 ->]; [apply map_length|]. destruct (TT (map rRpp rows)) as [s3 ->]; [apply map_length|].
  destruct (TT (map (fun t => t / eval sc (pow10 x1)) (map rChi rows))) as [s4 ->]; [rewrite !map_length; reflexivity|]. eexists. reflexivity.
Qed.
(** A scale of 1 GeV: the relative error is never a number. *)
Theorem unit_search_refuted : exists rows, usable rows /\ (forall r, In r rows -> rPf r = 1 * (ln (rEta r) / ln 10) + 0) /\ forall i1 i2 fuel, setup i1 i2 fuel rows 1 = None.
Proof.
  exists [Row 1 1 1 1 1 (log10 1); Row 10 1 1 1 1 (log10 10); Row 100 1 1 1 1 (log10 100)]. split; [|split].
  - split; [cbn; lia|]. split; [intros r [<-|[<-|[<-|[]]]]; cbn; lra|]. intros i j [H1 H2]. cbn in H2. destruct i as [|[|[|i]]], j as [|[|[|j]]]; try lia; cbn; lra.
  - intros r [<-|[<-|[<-|[]]]]; cbn [rPf rEta]; unfold log10; ring.
  - intros i1 i2 fuel. assert (S0 : forall n s a b c d, search n s 0 a b c d = None).
    { destruct n as [|n]; intros; [reflexivity|]. cbn [search]. destruct (Req_EM_T (b - a) 0); [reflexivity|]. destruct (Req_EM_T ((d - c) / (b - a)) 0); [reflexivity|]. destruct (Req_EM_T 0 0); [reflexivity | lra]. }
    unfold setup, findUnit. destruct (negb _); [reflexivity|]. destruct (curve _ _); [|reflexivity]. rewrite log10_1, S0. reflexivity.
Qed.
(** The last line of a file that does not end with a newline. *)
Theorem lines_kept_iff : forall ended lines, readRows ended lines = lines <-> ended = true \/ lines = [].
Proof.
  intros [] lines; cbn [readRows]; [split; auto|]. split; [|intros [H|H]; [discriminate | subst; reflexivity]]. intros H. right. destruct lines as [|a l]; [reflexivity|]. exfalso.
  assert (L : length (removelast (a :: l)) = length (a :: l)) by (rewrite H; reflexivity). pose proof (app_removelast_last a (l := a :: l) ltac:(discriminate)) as Q. apply (f_equal (@length row)) in Q. rewrite app_length, L in Q. cbn in Q. lia.
Qed.
Theorem lines_kept_refuted : exists lines, lines <> [] /\ readRows false lines <> lines.
Proof. exists [Row 1 1 1 1 1 1]. split; [discriminate | cbn; discriminate]. Qed.

(** ** C84: rates *)
Lemma central : forall l r force old xs ys s i ct e v, setPoints l r force old true xs ys = Some s -> (i + 1 < length xs)%nat -> 0 < e -> nth i xs 0 <= ct - e -> ct + e <= nth (i + 1) xs 0 -> deriv s 3 ct = Some v ->
  (eval s (ct + e) - eval s (ct - e)) / (2 * e) = slopeAt s ct + v / 6 * e ^ 2.
Proof.
  intros l r force old xs ys s i ct e v H Hi He L U D. apply cubic_fitted in H. destruct H as [T [b [Rb F]]]. pose proof (fitted_well _ _ _ _ _ _ _ T F) as Wf. pose proof (fitted_values _ _ _ _ _ _ _ T F) as V. pose proof (fX _ _ _ _ _ _ _ F) as X.
  rewrite <- X in *. fold (kx s i) in L. fold (kx s (i + 1)) in U. assert (Hl : (i < last s)%nat) by (unfold last; lia). rewrite !(eval_piece s Wf V i) by (exact Hl || lra). rewrite (slope_open s Wf i) by (exact Hl || lra).
  pose proof (kx_le s Wf 0 i ltac:(lia)) as B0. pose proof (kx_le s Wf (i + 1) (last s) ltac:(lia)) as B1.
  assert (V3 : v = 6 * sA s i).
  { unfold deriv in D. cbn [Nat.eqb] in D. fold (kx s 0) in D. destruct (Rlt_dec ct (kx s 0)); [lra|]. fold (last s) in D. fold (kx s (last s)) in D. destruct (Rlt_dec (kx s (last s)) ct); [lra|]. rewrite (place_piece s Wf i ct Hl) in D by lra. injection D as <-. reflexivity. }
  rewrite V3. unfold piece, piece1, poly, poly1. field. lra.
Qed.
Lemma setup_curves : forall i1 i2 fuel rows fA t, setup i1 i2 fuel rows fA = Some t -> (exists xs ys, curve xs ys = Some (tR t)) /\ (exists xs ys, curve xs ys = Some (tChi t)).
Proof.
  intros i1 i2 fuel rows fA t H. unfold setup in H. destruct (findUnit i1 fuel rows fA) as [[[e r] c]|]; [|discriminate]. destruct (Req_EM_T r 0); [discriminate|]. destruct (Req_EM_T c 0); [discriminate|].
  destruct (curve _ (divideFrom i2 r (map rR rows))) as [a|] eqn:Ea; [|discriminate]. destruct (curve _ (map rT rows)); [|discriminate]. destruct (curve _ (map rRpp rows)); [|discriminate].
  destruct (curve _ (divideFrom i2 c (map rChi rows))) as [d|] eqn:Ed; [|discriminate]. injection H as <-. split; eexists; eexists; eassumption.
Qed.
Theorem expansion_table_partial : forall i1 i2 fuel rows fA t i ct v, setup i1 i2 fuel rows fA = Some t -> (i + 1 < length (sX (tR t)))%nat ->
  nth i (sX (tR t)) 0 <= ct - 1 / 1000 -> ct + 1 / 1000 <= nth (i + 1) (sX (tR t)) 0 -> deriv (tR t) 3 ct = Some v -> tabR t ct <> 0 ->
  exists d, derivable_pt_lim (tabR t) ct d /\ tabRp t ct = (d + v / 6 * (1 / 1000) ^ 2) / tabR t ct.
Proof.
  intros i1 i2 fuel rows fA t i ct v H Hi L U D N. destruct (setup_curves _ _ _ _ _ _ H) as [[xs [ys E]] _]. exists (slopeAt (tR t) ct). split; [exact (slope_is_derivative _ _ _ _ _ _ _ ct E)|].
  assert (X : sX (tR t) = xs) by (apply shape in E; apply E). rewrite X in *. rewrite <- (central _ _ _ _ _ _ _ i ct (1 / 1000) v E Hi ltac:(lra) L U D). unfold tabRp, tabR in *. replace 0.001 with (1 / 1000) by lra. replace 0.002 with (2 / 1000) by lra. field. exact N.
Qed.
Theorem mass_table_partial : forall i1 i2 fuel rows fA t i ct v, setup i1 i2 fuel rows fA = Some t -> (i + 1 < length (sX (tChi t)))%nat ->
  nth i (sX (tChi t)) 0 <= ct - 1 / 1000000 -> ct + 1 / 1000000 <= nth (i + 1) (sX (tChi t)) 0 -> deriv (tChi t) 3 ct = Some v ->
  exists d, derivable_pt_lim (tabMass2 t) ct d /\ tabDMass2 t ct = d + v / 6 * (1 / 1000000) ^ 2.
Proof.
  intros i1 i2 fuel rows fA t i ct v H Hi L U D. destruct (setup_curves _ _ _ _ _ _ H) as [_ [xs [ys E]]]. exists (slopeAt (tChi t) ct). split; [exact (slope_is_derivative _ _ _ _ _ _ _ ct E)|].
  assert (X : sX (tChi t) = xs) by (apply shape in E; apply E). rewrite X in *. rewrite <- (central _ _ _ _ _ _ _ i ct (1 / 1000000) v E Hi ltac:(lra) L U D). unfold tabDMass2, tabMass2. replace 0.000001 with (1 / 1000000) by lra. replace 0.000002 with (2 / 1000000) by lra. field.
Qed.
(** The logarithmic rate of the mass times R: what is returned is off by a term that is not small. *)
Theorem log_rate_excess : forall t ct, massR t ct <> 0 ->
  tabDlog t ct = ct * ((massR t (ct + 1 / 1000000) - massR t (ct - 1 / 1000000)) / (2 / 1000000)) / massR t ct + (ct - 1) * massR t (ct - 1 / 1000000) / (2 / 1000000 * massR t ct).
Proof.
  intros t ct N. unfold tabDlog, massR in *. cbv zeta. replace 0.000001 with (1 / 1000000) by lra. field.
  split; intros Q; apply N; rewrite Q; ring.
Qed.
Theorem log_rate_refuted : exists rows t, usable rows /\ setup 0 0 1 rows 100 = Some t /\ derivable_pt_lim (fun u => ln (massR t u)) 2 0 /\ tabDlog t 2 = 500000.
Proof.
  destruct (lines3_setup 0 0 1 0 1) as [t [H [V _]]]; [lia | lra | lra|]. exists (lines3 0 1 0 1), t. split; [|split; [exact H|]].
  - split; [cbn; lia|]. split; [intros r [<-|[<-|[<-|[]]]]; cbn; lra | apply (lines3_table 0 1 0 1 rR)].
  - assert (VR : forall u, tabR t u = 1) by (intros u; rewrite (proj1 (V u)); cbn; field). assert (VM : forall u, tabMass2 t u = 1) by (intros u; rewrite (proj2 (V u)); cbn; field).
    assert (M : forall u, massR t u = 1) by (intros u; unfold massR; rewrite VR, VM, sqrt_1; ring). split.
    + apply (derivable_pt_lim_ext (fun _ => ln 1)); [intros u; rewrite M; reflexivity | apply (derivable_pt_lim_const (ln 1))].
    + rewrite log_rate_excess by (rewrite M; lra). rewrite !M. field.
Qed.
(** ** Examples *)
Example units_case : exists t, setup 0 0 1 (lines3 1 10 1 0) 100 = Some t /\ tabR t 2 = 3 / 2.
Proof. destruct (lines3_setup 0 1 10 1 0) as [t [H [V _]]]; [lia | lra | lra|]. exists t. split; [exact H|]. rewrite (proj1 (V 2)). cbn. field. Qed.
Example found_case : usable (lines3 1 10 1 0) /\ forall r, In r (lines3 1 10 1 0) -> rPf r = 1 * (ln (rEta r) / ln 10) + 1.
Proof.
  split; [split; [cbn; lia|]; split; [intros r [<-|[<-|[<-|[]]]]; cbn; lra | apply (lines3_table 1 10 1 0 rR)]|].
  intros r [<-|[<-|[<-|[]]]]; cbn [rPf rEta]; [pose proof log10_1 | pose proof log10_10 | pose proof log10_100]; unfold log10 in *; lra.
Qed.
Example rates_case : exists t v w, setup 0 0 1 (lines3 1 10 1 0) 100 = Some t /\ (1 + 1 < length (sX (tR t)))%nat /\ nth 1 (sX (tR t)) 0 <= 5 - 1 / 1000 /\ 5 + 1 / 1000 <= nth (1 + 1) (sX (tR t)) 0 /\
  deriv (tR t) 3 5 = Some v /\ tabR t 5 <> 0 /\ sX (tChi t) = sX (tR t) /\ deriv (tChi t) 3 5 = Some w /\ massR t 5 <> 0.
Proof.
  destruct (lines3_setup 0 1 10 1 0) as [t [H [V [X Y]]]]; [lia | lra | lra|]. exists t. cbn in X. eexists. eexists. split; [exact H|]. rewrite X. split; [cbn; lia|]. split; [cbn; lra|]. split; [cbn; lra|].
  split; [unfold deriv; cbn [Nat.eqb]; reflexivity|]. assert (R5 : tabR t 5 = 3) by (rewrite (proj1 (V 5)); cbn; field). assert (M5 : tabMass2 t 5 = 5) by (rewrite (proj2 (V 5)); cbn; field).
  split; [lra|]. split; [congruence|]. split; [unfold deriv; cbn [Nat.eqb]; reflexivity|]. unfold massR. rewrite R5, M5. pose proof (sqrt_lt_R0 5 ltac:(lra)). lra.
Qed.
Print Assumptions table_units_partial. Print Assumptions unit_found_partial. Print Assumptions expansion_table_partial. Print Assumptions log_rate_refuted.
