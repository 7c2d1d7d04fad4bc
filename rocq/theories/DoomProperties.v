(** C132: the search for the time at which the walls take over. *)
From Coq Require Import Reals Lra Lia.
From Verif Require Import DoomModel.
Local Open Scope R_scope.

Lemma loop_right D z D0 n : forall ct ct2 t, loop D z D0 n ct ct2 = At t -> Rabs (D t - 1) <= 0.001.
Proof.
  induction n as [|n IH]; intros ct ct2 t; cbn [loop]; cbv zeta; destruct (Rlt_dec 0.001 (Rabs (D ct2 - 1))) as [M|M];
    try (intros E; injection E as <-; apply Rnot_lt_le; exact M); [discriminate|].
  repeat match goal with |- context [if ?c then _ else _] => destruct c end; try discriminate; apply IH.
Qed.
Lemma loop_mass D z D0 n : forall ct ct2, loop D z D0 n ct ct2 <> NoMass.
Proof.
  induction n as [|n IH]; intros ct ct2; cbn [loop]; cbv zeta; destruct (Rlt_dec 0.001 (Rabs (D ct2 - 1))); try discriminate.
  repeat match goal with |- context [if ?c then _ else _] => destruct c end; try discriminate; apply IH.
Qed.
(** Whatever the functions and however many passes: a time that is given fulfils the condition to a part in a thousand. *)
Theorem doom_right D frw indi3 z n t : findzdoom D frw indi3 z n = At t -> 0 < indi3 /\ 0 < frw /\ Rabs (D t - 1) <= 0.001.
Proof.
  unfold findzdoom. destruct (Rlt_dec 0 indi3) as [A|]; [|discriminate]. destruct (Rlt_dec 0 frw) as [B|]; [|discriminate]. intros H. split; [exact A|]. split; [exact B|].
  exact (loop_right _ _ _ _ _ _ _ H).
Qed.
(** Without a mass, or without expansion, it is never searched. *)
Theorem doom_none D frw indi3 z n : ~ (0 < indi3 /\ 0 < frw) <-> findzdoom D frw indi3 z n = NoMass.
Proof.
  unfold findzdoom. destruct (Rlt_dec 0 indi3) as [A|A]; [|split; [reflexivity|intros _ [B _]; contradiction]]. destruct (Rlt_dec 0 frw) as [B|B]; [|split; [reflexivity|intros _ [_ C]; contradiction]].
  split; [intros C; exfalso; apply C; split; assumption|]. intros H. exfalso. exact (loop_mass _ _ _ _ _ _ H).
Qed.
(** A power law, with any exponent but 0: found in one pass, exactly, unless the first guess is good enough. *)
Theorem doom_power c b frw indi3 z n : 0 < c -> b <> 0 -> 0 < z -> 0 < frw -> 0 < indi3 -> let D := fun t => c * Rpower t b in
  findzdoom D frw indi3 z (S n) = At (z * 1.1) \/ exists t, findzdoom D frw indi3 z (S n) = At t /\ 0 < t /\ D t = 1.
Proof.
  intros C B Z F I D. unfold findzdoom. destruct (Rlt_dec 0 indi3) as [_|]; [|contradiction]. destruct (Rlt_dec 0 frw) as [_|]; [|contradiction].
  assert (P : forall t, 0 < D t) by (intros t; unfold D; apply Rmult_lt_0_compat; [exact C|apply exp_pos]).
  set (ct2 := z * 1.1). assert (Z2 : z < ct2) by (unfold ct2; lra). cbn [loop]. cbv zeta. destruct (Rlt_dec 0.001 (Rabs (D ct2 - 1))); [|left; reflexivity]. right.
  destruct (Rlt_dec 0 (D z)) as [_|X]; [|exfalso; apply X, P]. destruct (Rlt_dec 0 (D ct2)) as [_|X]; [|exfalso; apply X, P].
  destruct (Rlt_dec 0 z) as [_|]; [|contradiction]. destruct (Rlt_dec 0 ct2) as [_|X]; [|exfalso; apply X; lra]. destruct (Req_EM_T z ct2) as [X|_]; [exfalso; lra|].
  assert (L : ln (ct2 / z) <> 0).
  { assert (H : 0 < ln (ct2 / z)); [|lra]. rewrite <- ln_1. apply ln_increasing; [lra|]. apply Rmult_lt_reg_r with z; [exact Z|]. unfold Rdiv. rewrite Rmult_assoc, Rinv_l by lra. lra. }
  assert (Q : ln (D ct2 / D z) = b * ln (ct2 / z)).
  { assert (LD : forall t, ln (D t) = ln c + b * ln t) by (intros t; unfold D; rewrite ln_mult; [unfold Rpower; rewrite ln_exp; reflexivity|exact C|apply exp_pos]).
    unfold Rdiv. rewrite !ln_mult by (try apply Rinv_0_lt_compat; auto; lra). rewrite !ln_Rinv by (auto; lra). rewrite !LD. ring. }
  rewrite Q. replace (b * ln (ct2 / z) / ln (ct2 / z)) with b by (field; exact L). destruct (Req_EM_T b 0) as [X|_]; [contradiction|].
  replace (D ct2 / Rpower ct2 b) with c by (unfold D; field; unfold Rpower; pose proof (exp_pos (b * ln ct2)); lra).
  set (t := Rpower c (- 1 / b)). assert (E : D t = 1).
  { unfold D, t. rewrite Rpower_mult. replace (- 1 / b * b) with (- (1)) by (field; exact B). rewrite Rpower_Ropp, Rpower_1 by exact C. field. lra. }
  exists t. split; [|split; [apply exp_pos|exact E]]. destruct n; cbn [loop]; cbv zeta; rewrite E; (destruct (Rlt_dec 0.001 (Rabs (1 - 1))) as [X|_]; [exfalso; rewrite Rminus_diag_eq, Rabs_R0 in X by reflexivity; lra|reflexivity]).
Qed.
Example doom_power_case : exists t, findzdoom (fun t => 2 * Rpower t 4) 1 1 1 3 = At t.
Proof. destruct (doom_power 2 4 1 1 1 2 ltac:(lra) ltac:(lra) ltac:(lra) ltac:(lra) ltac:(lra)) as [E|[t [E _]]]; [exists (1 * 1.1)|exists t]; exact E. Qed.

(** A ratio that does not change: no time, and not the answer "never" either. *)
Theorem doom_constant_refuted d frw indi3 z n : 0 < d -> 0.001 < Rabs (d - 1) -> 0 < z -> 0 < frw -> 0 < indi3 -> findzdoom (fun _ => d) frw indi3 z (S n) = Undefined.
Proof.
  intros Hd M Z F I. unfold findzdoom. destruct (Rlt_dec 0 indi3) as [_|]; [|contradiction]. destruct (Rlt_dec 0 frw) as [_|]; [|contradiction]. cbn [loop]. cbv zeta.
  destruct (Rlt_dec 0.001 (Rabs (d - 1))) as [_|]; [|contradiction]. destruct (Rlt_dec 0 d) as [_|]; [|contradiction]. destruct (Rlt_dec 0 z) as [_|]; [|contradiction].
  destruct (Rlt_dec 0 (z * 1.1)) as [_|X]; [|exfalso; lra]. destruct (Req_EM_T z (z * 1.1)) as [X|_]; [exfalso; lra|].
  replace (d / d) with 1 by (field; lra). rewrite ln_1. replace (0 / ln (z * 1.1 / z)) with 0 by (unfold Rdiv; ring). destruct (Req_EM_T 0 0) as [_|X]; [|contradiction].
  destruct (Rlt_dec d d) as [X|_]; [exfalso; lra|reflexivity].
Qed.
Example doom_constant_case : 0.001 < Rabs (1 / 2 - 1). Proof. rewrite Rabs_left; lra. Qed.

(** Facts of the two functions below: they start at [d] and are [e] later. *)
Lemma ratio_pos : 0 < ln 1.1. Proof. rewrite <- ln_1. apply ln_increasing; lra. Qed.
Lemma ln2_pos : 0 < ln 2. Proof. rewrite <- ln_1. apply ln_increasing; lra. Qed.
Lemma over x y : y <> 0 -> x * y / y = x. Proof. intros H. field. exact H. Qed.
Lemma guess : Rpower (2 / Rpower 1.1 (ln 4 / ln 1.1)) (- 1 / (ln 4 / ln 1.1)) = sqrt 1.1.
Proof.
  assert (A : ln 4 = 2 * ln 2) by (replace 4 with (2 * 2) by ring; rewrite ln_mult by lra; ring). pose proof ratio_pos as P. pose proof ln2_pos as Q.
  assert (E : Rpower 1.1 (ln 4 / ln 1.1) = 4) by (unfold Rpower, Rdiv; rewrite Rmult_assoc, Rinv_l, Rmult_1_r by lra; apply exp_ln; lra). rewrite E.
  replace (2 / 4) with (/ 2) by field. unfold Rpower. rewrite ln_Rinv by lra. rewrite A.
  replace (- 1 / (2 * ln 2 / ln 1.1) * - ln 2) with (/ 2 * ln 1.1) by (field; split; lra). change (exp (/ 2 * ln 1.1)) with (Rpower 1.1 (/ 2)). apply Rpower_sqrt. lra.
Qed.
Lemma root_bounds : 1 < sqrt 1.1 < 1.1.
Proof.
  split.
  - rewrite <- sqrt_1. apply sqrt_lt_1; lra.
  - apply Rsqr_incrst_0; [|apply sqrt_pos|lra]. rewrite Rsqr_sqrt by lra. unfold Rsqr. lra.
Qed.
Lemma first_pass D n : 0 < D 1 -> D 1.1 = 4 * D 1 -> 0.001 < Rabs (D 1.1 - 1) -> D 1 = 1 / 2 -> loop D 1 (D 1) (S n) 1 (1 * 1.1) = loop D 1 (D 1) n 1.1 (sqrt 1.1).
Proof.
  intros P E M H. cbn [loop]. cbv zeta. replace (1 * 1.1) with 1.1 by ring.
  destruct (Rlt_dec 0.001 (Rabs (D 1.1 - 1))) as [_|]; [|contradiction]. destruct (Rlt_dec 0 (D 1)) as [_|]; [|contradiction]. destruct (Rlt_dec 0 (D 1.1)) as [_|X]; [|exfalso; lra].
  destruct (Rlt_dec 0 1) as [_|X]; [|exfalso; lra]. destruct (Rlt_dec 0 1.1) as [_|X]; [|exfalso; lra]. destruct (Req_EM_T 1 1.1) as [X|_]; [exfalso; lra|].
  replace (D 1.1 / D 1) with 4 by (rewrite E; field; lra). replace (1.1 / 1) with 1.1 by field.
  assert (N : ln 4 / ln 1.1 <> 0). { pose proof ratio_pos as Q. assert (0 < ln 4) by (rewrite <- ln_1; apply ln_increasing; lra). unfold Rdiv. apply Rmult_integral_contrapositive_currified; [lra|]. apply Rinv_neq_0_compat. lra. }
  destruct (Req_EM_T (ln 4 / ln 1.1) 0) as [X|_]; [contradiction|]. replace (D 1.1) with 2 by lra. rewrite guess. reflexivity.
Qed.
(** A ratio that jumps over 1: the search never ends. *)
Theorem doom_hangs_refuted : exists D frw indi3 z, (forall t, z < t -> D t = 2) /\ 0 < D z < 1 /\ 0 < z /\ 0 < frw /\ 0 < indi3 /\ forall n, findzdoom D frw indi3 z n = More.
Proof.
  set (D := fun t => if Rlt_dec 1 t then 2 else 1 / 2). exists D, 1, 1, 1.
  assert (H1 : D 1 = 1 / 2) by (unfold D; destruct (Rlt_dec 1 1); [exfalso; lra|reflexivity]).
  assert (H2 : forall t, 1 < t -> D t = 2) by (intros t Ht; unfold D; destruct (Rlt_dec 1 t); [reflexivity|contradiction]).
  assert (M : 0.001 < Rabs (2 - 1)) by (rewrite Rabs_right; lra).
  split; [exact H2|]. rewrite H1. split; [lra|]. do 3 (split; [lra|]). intros n. unfold findzdoom. destruct (Rlt_dec 0 1) as [_|X]; [|exfalso; lra].
  destruct n as [|n].
  { cbn [loop]. rewrite (H2 (1 * 1.1)) by lra. destruct (Rlt_dec 0.001 (Rabs (2 - 1))) as [_|]; [reflexivity|contradiction]. }
  rewrite (first_pass D n) by (rewrite ?H1, ?(H2 1.1) by lra; lra). pose proof root_bounds as RB. assert (G : forall n ct ct2, 1 < ct2 < ct -> loop D 1 (D 1) n ct ct2 = More); [|apply G; exact RB]. clear n RB.
  induction n as [|n IH]; intros ct ct2 B; cbn [loop]; cbv zeta; rewrite (H2 ct2) by lra; (destruct (Rlt_dec 0.001 (Rabs (2 - 1))) as [_|]; [|contradiction]); [reflexivity|]. rewrite (H2 ct) by lra.
  destruct (Rlt_dec 0 2) as [_|X]; [|exfalso; lra]. destruct (Rlt_dec 0 ct) as [_|X]; [|exfalso; lra]. destruct (Rlt_dec 0 ct2) as [_|X]; [|exfalso; lra]. destruct (Req_EM_T ct ct2) as [X|_]; [exfalso; lra|].
  replace (2 / 2) with 1 by field. rewrite ln_1. replace (0 / ln (ct2 / ct)) with 0 by (unfold Rdiv; ring). destruct (Req_EM_T 0 0) as [_|X]; [|contradiction].
  destruct (Rlt_dec (D 1) 2) as [_|X]; [|exfalso; lra]. destruct (Rlt_dec 1 2) as [_|X]; [|exfalso; lra]. apply IH. rewrite Rmult_1_l. split.
  - rewrite <- sqrt_1. apply sqrt_lt_1; lra.
  - apply Rsqr_incrst_0; [|apply sqrt_pos|lra]. rewrite Rsqr_sqrt by lra. unfold Rsqr. nra.
Qed.
(** A ratio that rests and then grows again: the answer is "never", although 1 is reached. *)
Theorem doom_never_refuted : exists D frw indi3 z T, z < T /\ D T = 1 /\ (forall t u, z <= t -> t <= u -> D t <= D u) /\ 0 < D z /\ 0 < z /\ 0 < frw /\ 0 < indi3 /\ forall n, findzdoom D frw indi3 z (S (S n)) = Never.
Proof.
  set (D := fun t => if Rlt_dec t 1.1 then 1 / 4 else if Rlt_dec t 2 then 1 / 2 else 1). exists D, 1, 1, 1, 2.
  assert (H1 : D 1 = 1 / 4) by (unfold D; destruct (Rlt_dec 1 1.1); [reflexivity|exfalso; lra]).
  assert (H2 : forall t, 1.1 <= t < 2 -> D t = 1 / 2) by (intros t Ht; unfold D; destruct (Rlt_dec t 1.1); [exfalso; lra|]; destruct (Rlt_dec t 2); [reflexivity|exfalso; lra]).
  assert (M : 0.001 < Rabs (1 / 2 - 1)) by (rewrite Rabs_left; lra).
  split; [lra|]. split; [unfold D; destruct (Rlt_dec 2 1.1); [exfalso; lra|]; destruct (Rlt_dec 2 2); [exfalso; lra|reflexivity]|].
  split; [intros t u _ L; unfold D; repeat match goal with |- context [Rlt_dec ?a ?b] => destruct (Rlt_dec a b) end; lra|]. rewrite H1. do 4 (split; [lra|]).
  intros n. unfold findzdoom. destruct (Rlt_dec 0 1) as [_|X]; [|exfalso; lra].
  pose proof ratio_pos as P. pose proof ln2_pos as Q.
  assert (E : Rpower (1 / 2 / Rpower 1.1 (ln 2 / ln 1.1)) (- 1 / (ln 2 / ln 1.1)) = 1.21).
  { replace (Rpower 1.1 (ln 2 / ln 1.1)) with 2 by (unfold Rpower, Rdiv; rewrite Rmult_assoc, Rinv_l, Rmult_1_r by lra; symmetry; apply exp_ln; lra).
    replace (1 / 2 / 2) with (/ (2 * 2)) by field. unfold Rpower. rewrite ln_Rinv, ln_mult by lra. replace (- 1 / (ln 2 / ln 1.1) * - (ln 2 + ln 2)) with (ln 1.1 + ln 1.1) by (field; split; lra).
    rewrite <- ln_mult by lra. rewrite exp_ln by lra. lra. }
  assert (N : ln 2 / ln 1.1 <> 0) by (unfold Rdiv; apply Rmult_integral_contrapositive_currified; [lra|apply Rinv_neq_0_compat; lra]).
  cbn [loop]. cbv zeta. replace (1 * 1.1) with 1.1 by ring. rewrite (H2 1.1) by lra. rewrite H1.
  destruct (Rlt_dec 0.001 (Rabs (1 / 2 - 1))) as [_|]; [|contradiction]. destruct (Rlt_dec 0 (1 / 4)) as [_|X]; [|exfalso; lra]. destruct (Rlt_dec 0 (1 / 2)) as [_|X]; [|exfalso; lra].
  destruct (Rlt_dec 0 1) as [_|X]; [|exfalso; lra]. destruct (Rlt_dec 0 1.1) as [_|X]; [|exfalso; lra]. destruct (Req_EM_T 1 1.1) as [X|_]; [exfalso; lra|].
  replace (1 / 2 / (1 / 4)) with 2 by field. replace (1.1 / 1) with 1.1 by field. destruct (Req_EM_T (ln 2 / ln 1.1) 0) as [X|_]; [contradiction|]. rewrite E. rewrite (H2 1.21) by lra.
  destruct (Rlt_dec 0.001 (Rabs (1 / 2 - 1))) as [_|]; [|contradiction]. destruct (Rlt_dec 0 1.21) as [_|X]; [|exfalso; lra]. destruct (Req_EM_T 1.1 1.21) as [X|_]; [exfalso; lra|].
  replace (1 / 2 / (1 / 2)) with 1 by field. rewrite ln_1. replace (0 / ln (1.21 / 1.1)) with 0 by (unfold Rdiv; ring). destruct (Req_EM_T 0 0) as [_|X]; [|contradiction].
  destruct (Rlt_dec (1 / 4) (1 / 2)) as [_|X]; [|exfalso; lra]. destruct (Rlt_dec 1 (1 / 2)) as [X|_]; [exfalso; lra|].
  repeat match goal with |- context [if Rlt_dec ?a ?b then _ else _] => destruct (Rlt_dec a b) as [_|X]; [|exfalso; lra] end. reflexivity.
Qed.

Print Assumptions doom_right.
Print Assumptions doom_none.
Print Assumptions doom_power.
Print Assumptions doom_constant_refuted.
Print Assumptions doom_hangs_refuted.
Print Assumptions doom_never_refuted.
