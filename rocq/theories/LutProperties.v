(** Theorems about the look-up of the string-core correction (C41). *)
From Coq Require Import ZArith QArith Qround Qabs List Bool Lia Lqa.
From Verif Require Import LutModel LutSpec LutProofs.
Import ListNotations.

(** What the table covers, for arguments of either sign. *)
Definition Covered (A B e cb : Q) : Prop :=
  (Qabs A <= 5)%Q /\ (Qabs B <= 5)%Q /\ (0 <= e <= 1)%Q /\ (-(1) <= cb <= 1)%Q.

Lemma Qltb_spec a b : if Qltb a b then (a < b)%Q else (b <= a)%Q.
Proof.
  unfold Qltb. destruct (Qle_bool b a) eqn:E; simpl.
  - now apply Qle_bool_iff.
  - apply Qnot_le_lt. intros H. apply Qle_bool_iff in H. congruence.
Qed.

(** The signs: the arguments actually looked up are non-negative, of the same
    size, and the table is used whenever they are covered. *)
Lemma corre_unfold Tc Ts A B e cb : Covered A B e cb ->
  exists A' B' cb' s1 s2,
    InRange A' B' e cb' /\ (A' == Qabs A)%Q /\ (B' == Qabs B)%Q /\
    (s1 == 1 \/ s1 == -(1))%Q /\ (s2 == 1 \/ s2 == -(1))%Q /\
    stringcorre Tc Ts A B e cb =
      match lookup Tc A' B' e cb', lookup Ts A' B' e cb' with
      | Some c, Some s => Got (s1 * c) (s2 * s) | _, _ => OutOfTable end.
Proof.
  intros (HA&HB&(He0&He1)&(Hc0&Hc1)).
  pose proof (Qabs_Qle_condition A 5) as (QA&_). destruct (QA HA).
  pose proof (Qabs_Qle_condition B 5) as (QB&_). destruct (QB HB).
  unfold stringcorre.
  pose proof (Qltb_spec A 0) as SA. destruct (Qltb A 0).
  - pose proof (Qltb_spec (-B) 0) as SB. destruct (Qltb (-B) 0); cbv beta iota zeta.
    + exists (-A)%Q, (- - B)%Q, (-cb)%Q, (-(1))%Q, (- -(1))%Q.
      split; [|split; [|split; [|split; [|split]]]].
      * unfold InRange; repeat split; lra.
      * rewrite Qabs_neg; lra.
      * rewrite Qabs_pos; lra.
      * now right.
      * left; ring.
      * replace (_ && _)%bool with true; [reflexivity|].
        symmetry. rewrite !andb_true_iff, !Qle_bool_iff. repeat split; lra.
    + exists (-A)%Q, (-B)%Q, cb, (-(1))%Q, (-(1))%Q.
      split; [|split; [|split; [|split; [|split]]]].
      * unfold InRange; repeat split; lra.
      * rewrite Qabs_neg; lra.
      * rewrite Qabs_neg; lra.
      * now right.
      * now right.
      * replace (_ && _)%bool with true; [reflexivity|].
        symmetry. rewrite !andb_true_iff, !Qle_bool_iff. repeat split; lra.
  - pose proof (Qltb_spec B 0) as SB. destruct (Qltb B 0); cbv beta iota zeta.
    + exists A, (- B)%Q, (-cb)%Q, 1%Q, (-(1))%Q.
      split; [|split; [|split; [|split; [|split]]]].
      * unfold InRange; repeat split; lra.
      * rewrite Qabs_pos; lra.
      * rewrite Qabs_neg; lra.
      * now left.
      * now right.
      * replace (_ && _)%bool with true; [reflexivity|].
        symmetry. rewrite !andb_true_iff, !Qle_bool_iff. repeat split; lra.
    + exists A, B, cb, 1%Q, 1%Q.
      split; [|split; [|split; [|split; [|split]]]].
      * unfold InRange; repeat split; lra.
      * rewrite Qabs_pos; lra.
      * rewrite Qabs_pos; lra.
      * now left.
      * now left.
      * replace (_ && _)%bool with true; [reflexivity|].
        symmetry. rewrite !andb_true_iff, !Qle_bool_iff. repeat split; lra.
Qed.

(** Unless both normalised field components have the largest size the table
    covers, every entry read belongs to the table. *)
Theorem lut_in_table_partial : forall Tc Ts A B e cb,
  Covered A B e cb -> (Qabs A < 5 \/ Qabs B < 5)%Q ->
  exists lc ls, stringcorre Tc Ts A B e cb = Got lc ls.
Proof.
  intros Tc Ts A B e cb H HS.
  destruct (corre_unfold Tc Ts _ _ _ _ H) as (A'&B'&cb'&s1&s2&R&EA&EB&_&_&->).
  assert (R' : (A' < 5 \/ B' < 5)%Q) by (rewrite EA, EB; exact HS).
  pose proof (i0_nonneg _ _ _ _ R). pose proof (i0_room _ _ _ _ R R').
  destruct (lookup_some Tc A' B' e cb') as (u&->); auto.
  destruct (lookup_some Ts A' B' e cb') as (w&->); auto. eauto.
Qed.

Example lut_in_table_ex : Covered (7#2) (-(5)) (1#3) (-(2#5)) /\ (Qabs (7#2) < 5 \/ Qabs (-(5)) < 5)%Q.
Proof. split; [|left; vm_compute; reflexivity]. unfold Covered. repeat split; vm_compute; discriminate. Qed.

(** With both at the end of the range the code reads beyond the table for
    every excentricity from four fifths up and every angle. *)
Theorem lut_in_table_refuted : forall Tc Ts e cb,
  (4#5 <= e <= 1)%Q -> (-(1) <= cb <= 1)%Q ->
  stringcorre Tc Ts 5 5 e cb = OutOfTable.
Proof.
  intros Tc Ts e cb (H0&H1) (H2&H3).
  unfold stringcorre. change (Qltb 5 0) with false. cbv beta iota zeta.
  change (Qltb 5 0) with false. cbv beta iota zeta.
  match goal with |- context [if (?b && ?c)%bool then _ else _] => replace (b && c)%bool with true end.
  2:{ symmetry. rewrite !andb_true_iff, !Qle_bool_iff. repeat split; lra. }
  assert (R : InRange 5 5 e cb) by (unfold InRange; repeat split; lra).
  rewrite lookup_none; [reflexivity|].
  pose proof (iC_range _ _ _ _ R).
  assert (4 <= toInt (xE e))%Z.
  { unfold toInt. rewrite <- (Qfloor_Z 4). apply Qfloor_resp_le. rewrite xE_eq.
    change (inject_Z 4) with (4#1). lra. }
  unfold i0. replace (toInt (xA 5)) with 25%Z by reflexivity. replace (toInt (xB 5)) with 25%Z by reflexivity.
  unfold lutSize, N_C, N_CE, N_CEB, N_C, N_E, N_B. lia.
Qed.

Example lut_in_table_refuted_ex : forall Tc Ts, Covered 5 5 1 (-(1)) /\ stringcorre Tc Ts 5 5 1 (-(1)) = OutOfTable.
Proof. intros. split; [unfold Covered; repeat split; vm_compute; discriminate|].
  apply lut_in_table_refuted; split; vm_compute; discriminate. Qed.

(** Arguments beyond the covered range use no table at all. *)
Theorem lut_range : forall Tc Ts A B e cb,
  ~ Covered A B e cb -> (0 <= e)%Q -> stringcorre Tc Ts A B e cb = NoTable.
Proof.
  intros Tc Ts A B e cb H He. unfold stringcorre.
  assert (NC : forall A' B' cb', (A' == Qabs A)%Q -> (B' == Qabs B)%Q -> (cb' == cb \/ cb' == - cb)%Q ->
    (Qle_bool A' 5 && Qle_bool B' 5 && Qle_bool e 1 && Qle_bool cb' 1 && Qle_bool (-(1)) cb')%bool = false).
  { intros A' B' cb' EA EB EC. apply not_true_is_false. rewrite !andb_true_iff, !Qle_bool_iff.
    intros ((((a&b)&c)&d)&f). apply H. unfold Covered. rewrite <- EA, <- EB.
    repeat split; auto; destruct EC as [EC|EC]; lra. }
  pose proof (Qltb_spec A 0) as SA. destruct (Qltb A 0).
  - pose proof (Qltb_spec (-B) 0) as SB. destruct (Qltb (-B) 0); cbv beta iota zeta.
    + rewrite NC; auto; [rewrite Qabs_neg; lra|rewrite Qabs_pos; lra|right; lra].
    + rewrite NC; auto; [rewrite Qabs_neg; lra|rewrite Qabs_neg; lra|left; lra].
  - pose proof (Qltb_spec B 0) as SB. destruct (Qltb B 0); cbv beta iota zeta.
    + rewrite NC; auto; [rewrite Qabs_pos; lra|rewrite Qabs_neg; lra|right; lra].
    + rewrite NC; auto; [rewrite Qabs_pos; lra|rewrite Qabs_pos; lra|left; lra].
Qed.

Example lut_range_ex : ~ Covered 6 0 0 0.
Proof. intros (H&_). apply Qle_bool_iff in H. discriminate. Qed.

(** Whatever entries are read, the factors obtained are no larger than the
    largest entry of their table. *)
Theorem lut_bounds_partial : forall Tc Ts A B e cb M lc ls,
  Covered A B e cb ->
  (forall i, (0 <= i < lutSize)%Z -> (Qabs (Tc i) <= M)%Q /\ (Qabs (Ts i) <= M)%Q) ->
  stringcorre Tc Ts A B e cb = Got lc ls ->
  (Qabs lc <= M)%Q /\ (Qabs ls <= M)%Q.
Proof.
  intros Tc Ts A B e cb M lc ls H HT.
  destruct (corre_unfold Tc Ts _ _ _ _ H) as (A'&B'&cb'&s1&s2&R&EA&EB&S1&S2&->).
  assert (W : forall T, (forall i, (0 <= i < lutSize)%Z -> (Qabs (T i) <= M)%Q) ->
            within (-M) M (lookup T A' B' e cb')).
  { intros T HT'. apply lookup_within. intros i Hi. apply Qabs_Qle_condition, HT', Hi. }
  pose proof (W Tc (fun i Hi => proj1 (HT i Hi))) as Wc.
  pose proof (W Ts (fun i Hi => proj2 (HT i Hi))) as Ws.
  destruct (lookup Tc A' B' e cb') as [c|]; [|discriminate].
  destruct (lookup Ts A' B' e cb') as [s|]; [|discriminate].
  intros E. injection E as <- <-. destruct (Wc c eq_refl), (Ws s eq_refl).
  split; apply Qabs_Qle_condition.
  - destruct S1 as [S|S]; rewrite S; lra.
  - destruct S2 as [S|S]; rewrite S; lra.
Qed.

Example lut_bounds_ex : exists lc ls,
  stringcorre (fun i => inject_Z (i mod 7)) (fun i => inject_Z (i mod 3)) (-(1)) 2 (1#2) (1#3) = Got lc ls.
Proof. vm_compute. eauto. Qed.

(** Turning the field round (both components) turns both factors round;
    turning one component and the angle round turns the second factor
    round. *)
Theorem lut_signs : forall Tc Ts A B e cb c s,
  (0 < A)%Q -> (0 < B)%Q -> stringcorre Tc Ts A B e cb = Got c s ->
  (exists c' s', stringcorre Tc Ts (- A) (- B) e cb = Got c' s' /\ (c' == - c)%Q /\ (s' == - s)%Q) /\
  (exists c' s', stringcorre Tc Ts A (- B) e (- cb) = Got c' s' /\ (c' == c)%Q /\ (s' == - s)%Q).
Proof.
  intros Tc Ts A B e cb c s HA HB. unfold stringcorre.
  assert (LA : Qltb A 0 = false) by (pose proof (Qltb_spec A 0); destruct (Qltb A 0); [lra|reflexivity]).
  assert (LB : Qltb B 0 = false) by (pose proof (Qltb_spec B 0); destruct (Qltb B 0); [lra|reflexivity]).
  assert (LA' : Qltb (-A) 0 = true) by (pose proof (Qltb_spec (-A) 0); destruct (Qltb (-A) 0); [reflexivity|lra]).
  assert (LB' : Qltb (-B) 0 = true) by (pose proof (Qltb_spec (-B) 0); destruct (Qltb (-B) 0); [reflexivity|lra]).
  assert (OO : forall q, (- - q)%Q = q) by (intros [n d]; unfold Qopp; simpl; now rewrite Z.opp_involutive).
  assert (LB2 : Qltb (- - B) 0 = false) by (rewrite OO; exact LB).
  rewrite LA, LB, LA', LB'. cbv beta iota zeta. rewrite LB2. cbv beta iota zeta. rewrite !OO.
  destruct (_ && _)%bool; [|discriminate].
  destruct (lookup Tc A B e cb) as [u|]; [|discriminate].
  destruct (lookup Ts A B e cb) as [w|]; [|discriminate].
  intros E. injection E as <- <-. split; do 2 eexists; (split; [reflexivity|]); split; ring.
Qed.

Example lut_signs_ex : exists c s, (0 < 1)%Q /\ (0 < 2)%Q /\
  stringcorre (fun i => inject_Z (i mod 7)) (fun i => inject_Z (i mod 3)) 1 2 (1#2) (1#3) = Got c s.
Proof. do 2 eexists. split; [reflexivity|split; [reflexivity|]]. vm_compute. reflexivity. Qed.

(** Where both components lie on the grid the factors are the interpolation
    between the surrounding entries. Missing: the general position, which is
    refuted below. *)
Theorem lut_interpolates_partial : forall Tc Ts Fc Fs A B e cb,
  Tabulates Tc Fc -> Tabulates Ts Fs -> InRange A B e cb -> (A < 5 \/ B < 5)%Q ->
  (exists i, (A * 5 == inject_Z i)%Q) -> (exists j, (B * 5 == inject_Z j)%Q) ->
  exists lc ls, stringcorre Tc Ts A B e cb = Got lc ls /\
    (lc == surrounding Fc A B e cb)%Q /\ (ls == surrounding Fs A B e cb)%Q.
Proof.
  intros Tc Ts Fc Fs A B e cb HTc HTs R HS (i&Hi) (j&Hj).
  assert (GA : (A * 5 == inject_Z (Qfloor (A * 5)))%Q) by (rewrite (Qfloor_comp _ _ Hi), Qfloor_Z; exact Hi).
  assert (GB : (B * 5 == inject_Z (Qfloor (B * 5)))%Q) by (rewrite (Qfloor_comp _ _ Hj), Qfloor_Z; exact Hj).
  destruct (lookup_grid Tc Fc A B e cb) as (u&Eu&Vu); auto.
  destruct (lookup_grid Ts Fs A B e cb) as (w&Ew&Vw); auto.
  pose proof R as ((a0&a1)&(b0&b1)&(e0&e1)&(c0&c1)).
  unfold stringcorre.
  assert (LA : Qltb A 0 = false) by (pose proof (Qltb_spec A 0); destruct (Qltb A 0); [lra|reflexivity]).
  assert (LB : Qltb B 0 = false) by (pose proof (Qltb_spec B 0); destruct (Qltb B 0); [lra|reflexivity]).
  rewrite LA, LB. cbv beta iota zeta.
  match goal with |- context [if (?b && ?c)%bool then _ else _] => replace (b && c)%bool with true end.
  2:{ symmetry. rewrite !andb_true_iff, !Qle_bool_iff. repeat split; assumption. }
  rewrite Eu, Ew. do 2 eexists. split; [reflexivity|]. rewrite Vu, Vw. split; ring.
Qed.

(** What is computed at every position, on the grid or not. *)
Theorem lut_value : forall Tc Ts A B e cb,
  InRange A B e cb -> (A < 5 \/ B < 5)%Q ->
  exists lc ls, stringcorre Tc Ts A B e cb = Got lc ls /\
    (lc == combined Tc A B e cb)%Q /\ (ls == combined Ts A B e cb)%Q.
Proof.
  intros Tc Ts A B e cb R HS.
  destruct (lookup_all Tc A B e cb R HS) as (u&Eu&Vu). destruct (lookup_all Ts A B e cb R HS) as (w&Ew&Vw).
  pose proof R as ((a0&a1)&(b0&b1)&(e0&e1)&(c0&c1)).
  unfold stringcorre.
  assert (LA : Qltb A 0 = false) by (pose proof (Qltb_spec A 0); destruct (Qltb A 0); [lra|reflexivity]).
  assert (LB : Qltb B 0 = false) by (pose proof (Qltb_spec B 0); destruct (Qltb B 0); [lra|reflexivity]).
  rewrite LA, LB. cbv beta iota zeta.
  match goal with |- context [if (?b && ?c)%bool then _ else _] => replace (b && c)%bool with true end.
  2:{ symmetry. rewrite !andb_true_iff, !Qle_bool_iff. repeat split; assumption. }
  rewrite Eu, Ew. do 2 eexists. split; [reflexivity|]. rewrite Vu, Vw. split; ring.
Qed.

Example lut_value_ex : InRange (7#2) (13#10) (1#3) (-(2#7)) /\ ((7#2) < 5 \/ (13#10) < 5)%Q.
Proof. split; [unfold InRange; repeat split; vm_compute; discriminate|left; reflexivity]. Qed.

(** A table that holds the second coordinate. *)
Definition secondT (i : Z) : Q := inject_Z ((i / 126) mod 26).

Lemma secondT_tab : Tabulates secondT (fun _ b _ _ => inject_Z b).
Proof.
  intros a b e c Ha Hb He Hc. unfold secondT.
  replace (((a * 26 + b) * 6 + e) * 21 + c)%Z with (e * 21 + c + (a * 26 + b) * 126)%Z by ring.
  rewrite Z.div_add by lia. rewrite Z.div_small by lia.
  replace (0 + (a * 26 + b))%Z with (b + a * 26)%Z by ring.
  rewrite Z.mod_add, Z.mod_small by lia. reflexivity.
Qed.

Example lut_interpolates_ex : exists lc ls,
  stringcorre secondT secondT (3#5) 4 (1#3) (1#7) = Got lc ls /\
  (lc == surrounding (fun _ b _ _ => inject_Z b) (3#5) 4 (1#3) (1#7))%Q /\
  (ls == surrounding (fun _ b _ _ => inject_Z b) (3#5) 4 (1#3) (1#7))%Q.
Proof.
  apply lut_interpolates_partial; try apply secondT_tab.
  - unfold InRange. repeat split; vm_compute; discriminate.
  - left. vm_compute. reflexivity.
  - now exists 3%Z.
  - now exists 20%Z.
Qed.

(** In general the entries read are not the surrounding ones: the steps used
    for the two field components are those of other directions. *)
Theorem lut_interpolates_refuted :
  exists T F A B e cb lc ls,
    Tabulates T F /\ InRange A B e cb /\ (A < 5)%Q /\ (B < 5)%Q /\
    stringcorre T T A B e cb = Got lc ls /\ ~ (lc == surrounding F A B e cb)%Q.
Proof.
  exists secondT, (fun _ b _ _ => inject_Z b), 1%Q, (1#10)%Q, 0%Q, (-(1))%Q.
  do 2 eexists. split; [apply secondT_tab|].
  split; [unfold InRange; repeat split; vm_compute; discriminate|].
  split; [reflexivity|]. split; [reflexivity|].
  split; [vm_compute; reflexivity|]. vm_compute. discriminate.
Qed.

Print Assumptions lut_in_table_partial.
Print Assumptions lut_in_table_refuted.
Print Assumptions lut_range.
Print Assumptions lut_bounds_partial.
Print Assumptions lut_signs.
Print Assumptions lut_value.
Print Assumptions lut_interpolates_partial.
Print Assumptions lut_interpolates_refuted.
