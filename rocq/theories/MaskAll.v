(** The three loops of the masking put together. *)
From Coq Require Import List Arith ZArith NArith Lia Permutation.
From Verif Require Import MaskModel MaskSpec MaskProofs.
Import ListNotations.
Local Open Scope nat_scope.

(** ** The counters received *)
Lemma marks_in : forall M l sd i, In i l -> marks M sd l i = N.lor (sd i) M.
Proof.
  intros M l. unfold marks. induction l as [ | a l IH ]; intros sd i Hi; [ destruct Hi | ]. cbn [fold_left].
  destruct (in_dec Nat.eq_dec i l) as [C | C].
  - rewrite IH by exact C. destruct (Nat.eq_dec i a) as [-> | Da]; [ rewrite setN_same; apply lor_again | now rewrite setN_other by exact Da ].
  - destruct Hi as [-> | Hi]; [ | contradiction ]. clear IH. assert (G : forall sd, fold_left (fun sd i => setN sd i (N.lor (sd i) M)) l sd i = sd i).
    { induction l as [ | b l IH ]; intros sd'; [ reflexivity | ]. cbn [fold_left]. rewrite IH by (intros H; apply C; now right).
      apply setN_other. intros ->. apply C. now left. }
    rewrite G. now rewrite setN_same.
Qed.
Lemma marks_out : forall M l sd i, ~ In i l -> marks M sd l i = sd i.
Proof.
  intros M l. unfold marks. induction l as [ | a l IH ]; intros sd i Hi; [ reflexivity | ]. cbn [fold_left].
  rewrite IH by (intros H; apply Hi; now right). apply setN_other. intros ->. apply Hi. now left.
Qed.
Lemma marks_app : forall M l l' sd, marks M (marks M sd l) l' = marks M sd (l ++ l').
Proof. intros. unfold marks. now rewrite fold_left_app. Qed.
Definition received (L Lz : nat) (gB gF : nat -> nat) (c : nat) : list nat :=
  map (fun dz => c + dz * (L * L)) (seq 0 (gB c)) ++ map (fun dz => c + L * L * (Lz - 1 - dz)) (seq 0 (gF c)).
Lemma receive_marks : forall L Lz M cells gB gF sd, 1 < Lz -> receive L Lz M cells gB gF sd = marks M sd (flat_map (received L Lz gB gF) cells).
Proof.
  intros L Lz M cells gB gF sd HL. unfold receive. destruct (Nat.ltb_spec 1 Lz); [ | lia ]. revert sd.
  induction cells as [ | c cells IH ]; intros sd; [ reflexivity | ]. cbn [fold_left flat_map]. rewrite IH, marks_app. unfold received at 2.
  now rewrite marks_app, <- app_assoc.
Qed.

(** ** Sites *)
Lemma site_inj : forall L z y x z' y' x', y < L -> x < L -> y' < L -> x' < L -> site L z y x = site L z' y' x' -> z = z' /\ y = y' /\ x = x'.
Proof.
  intros L z y x z' y' x' Hy Hx Hy' Hx' E. unfold site in E.
  assert (B : forall y x, y < L -> x < L -> L * y + x < L * L).
  { intros a b Ha Hb. assert (L * (a + 1) <= L * L) by (apply Nat.mul_le_mono_l; lia). lia. }
  destruct (Nat.div_mod_unique (L * L) z z' (L * y + x) (L * y' + x')) as [E1 E2]; [ now apply B | now apply B | lia | ].
  destruct (Nat.div_mod_unique L y y' x x') as [E3 E4]; auto.
Qed.
Lemma rank_below : forall P r, r < P -> ((r + P - 1) mod P + 1 = r \/ (r = 0 /\ (r + P - 1) mod P + 1 = P)) /\ (r + P - 1) mod P < P.
Proof.
  intros P r Hr. split; [ | apply Nat.mod_upper_bound; lia ]. destruct r as [ | r ].
  - right. rewrite Nat.mod_small; lia.
  - left. replace (S r + P - 1) with (r + 1 * P) by lia. rewrite Nat.mod_add by lia. rewrite Nat.mod_small; lia.
Qed.
Lemma rank_above : forall P r, r < P -> ((r + 1) mod P = r + 1 \/ (r + 1 = P /\ (r + 1) mod P = 0)) /\ (r + 1) mod P < P.
Proof.
  intros P r Hr. split; [ | apply Nat.mod_upper_bound; lia ]. destruct (Nat.eq_dec (r + 1) P) as [E | E].
  - right. split; [ exact E | ]. rewrite E. apply Nat.mod_same. lia.
  - left. apply Nat.mod_small. lia.
Qed.
Lemma reach_z : forall T a d b k, b < T -> (Z.of_nat a + d = Z.of_nat b + k * Z.of_nat T)%Z -> reaches T a d b.
Proof. intros T a d b k Hb E. unfold reaches. rewrite E, Z.mod_add by lia. apply Z.mod_small. lia. Qed.
Lemma wrapped_lt : forall L a d, 0 < L -> wrapped L a d < L.
Proof. intros L a d HL. now apply (proj2 (wrapped_reaches L a d _ HL) eq_refl). Qed.
Lemma wrapped_reach : forall L a d, 0 < L -> reaches L a d (wrapped L a d).
Proof. intros L a d HL. now apply (proj2 (wrapped_reaches L a d _ HL) eq_refl). Qed.
Lemma within_z : forall R2 dx dy dz dz', within R2 dx dy dz -> (Z.abs dz' <= Z.abs dz)%Z -> within R2 dx dy dz'.
Proof. unfold within. intros R2 dx dy dz dz' W H. assert (dz' * dz' <= dz * dz)%Z by nia. lia. Qed.
Lemma within_rz : forall R2 dx dy dz, (0 <= R2)%Z -> within R2 dx dy dz -> (- Z.sqrt R2 <= dz <= Z.sqrt R2)%Z.
Proof. unfold within. intros R2 dx dy dz HR W. apply sqrt_le; [ exact HR | ]. nia. Qed.

Section all.
Variables (P L Lz : nat) (R2 : Z) (D M : N) (tms : nat -> timing) (sds : nat -> nat -> N).
Hypotheses (HP : 0 < P) (HL : 0 < L) (HLz : 1 < Lz) (HR : (0 <= R2)%Z) (Hrz : (Z.sqrt R2 <= Z.of_nat Lz)%Z) (HDM : N.land D M = 0%N).
Hypothesis Hsh : forall r, r < P -> sharing L Lz R2 (tms r).
Notation rz := (Z.sqrt R2).

Lemma border_slices : forall z, (exists l, In l (borderRange Lz rz) /\ l mod Lz = z) <-> z < Lz /\ (Z.of_nat z < rz \/ Z.of_nat Lz - rz <= Z.of_nat z)%Z.
Proof.
  intros z. pose proof (Z.sqrt_nonneg R2) as N0. unfold borderRange. destruct (Z.ltb_spec (Z.of_nat Lz) rz); [ lia | ]. split.
  - intros (l & Hl & <-). apply in_seq in Hl. split; [ apply Nat.mod_upper_bound; lia | ].
    destruct (Nat.lt_ge_cases l Lz) as [C | C].
    + rewrite Nat.mod_small by exact C. lia.
    + left. replace l with (l - Lz + 1 * Lz) by lia. rewrite Nat.mod_add by lia.
      pose proof (Nat.mod_le (l - Lz) Lz ltac:(lia)). lia.
  - intros [Hz [C | C]].
    + exists (z + 1 * Lz). split; [ apply in_seq; lia | ]. rewrite Nat.mod_add by lia. now apply Nat.mod_small.
    + exists z. split; [ apply in_seq; lia | now apply Nat.mod_small ].
Qed.
Lemma bulk_slices : forall z, In z (bulkRange Lz rz) <-> (rz <= Z.of_nat z < Z.of_nat Lz - rz)%Z.
Proof.
  intros z. pose proof (Z.sqrt_nonneg R2) as N0. unfold bulkRange. destruct (Z.ltb_spec rz (Z.of_nat Lz)).
  - rewrite in_seq. lia.
  - split; [ intros [] | lia ].
Qed.
Lemma border_visit : forall z y x i, In i (ballBorder L Lz R2 rz z y x) -> match i with Visit _ _ _ => False | _ => True end.
Proof.
  intros z y x i Hi. apply ballBorder_in in Hi; try assumption. destruct Hi as (dx & dy & dz & _ & ->). unfold effBorder.
  destruct (_ <? 0)%Z; [ exact I | ]. destruct (_ <=? _)%Z; exact I.
Qed.
Lemma bulk_visit : forall z y x i, In i (ballBulk L R2 rz z y x) -> match i with Visit _ _ _ => False | _ => True end.
Proof. intros z y x i Hi. apply ballBulk_in in Hi; try assumption. destruct Hi as (dx & dy & dz & _ & ->). exact I. Qed.

(** what the first loop of rank r does *)
Lemma border_does : forall r a, r < P ->
  (does L D (ballBorder L Lz R2 rz) (fun liz => liz mod Lz) (tm_border (tms r)) (MS (sds r) (fun _ => 0) (fun _ => 0)) a <->
   exists z y x dx dy dz, z < Lz /\ (Z.of_nat z < rz \/ Z.of_nat Lz - rz <= Z.of_nat z)%Z /\ y < L /\ x < L /\ isDefect D (sds r (site L z y x)) /\
     within R2 dx dy dz /\ a = effBorder L Lz z y x dz dy dx).
Proof.
  intros r a Hr. destruct (Hsh r Hr) as (S1 & _ & _). unfold does. cbn [m_sd]. split.
  - intros (l & y & x & Hl & Hy & Hx & E & Ha). apply ballBorder_in in Ha; try assumption. destruct Ha as (dx & dy & dz & W & ->).
    destruct (proj1 (border_slices (l mod Lz))) as [A B]; [ exists l; split; [ now apply (Permutation_in _ S1) | reflexivity ] | ].
    exists (l mod Lz), y, x, dx, dy, dz. repeat (split; [ assumption | ]). reflexivity.
  - intros (z & y & x & dx & dy & dz & Hz & B & Hy & Hx & E & W & ->).
    destruct (proj2 (border_slices z) (conj Hz B)) as (l & Hl & <-). exists l, y, x.
    split; [ now apply (Permutation_in _ (Permutation_sym S1)) | ]. repeat (split; [ assumption | ]).
    apply ballBorder_in; try assumption. eauto 6.
Qed.
Lemma bulk_does : forall r st a, r < P ->
  (does L D (ballBulk L R2 rz) (fun z => z) (tm_bulk (tms r)) st a <->
   exists z y x dx dy dz, (rz <= Z.of_nat z < Z.of_nat Lz - rz)%Z /\ y < L /\ x < L /\ isDefect D (m_sd st (site L z y x)) /\
     within R2 dx dy dz /\ a = Mark (site L (Z.to_nat (Z.of_nat z + dz)) (wrapped L y dy) (wrapped L x dx))).
Proof.
  intros r st a Hr. destruct (Hsh r Hr) as (_ & S2 & _). unfold does. split.
  - intros (l & y & x & Hl & Hy & Hx & E & Ha). apply ballBulk_in in Ha; try assumption. destruct Ha as (dx & dy & dz & W & ->).
    apply (Permutation_in _ S2) in Hl. apply bulk_slices in Hl.
    exists l, y, x, dx, dy, dz. repeat (split; [ assumption | ]). unfold site. f_equal. lia.
  - intros (z & y & x & dx & dy & dz & B & Hy & Hx & E & W & ->). exists z, y, x.
    split; [ apply (Permutation_in _ (Permutation_sym S2)); now apply bulk_slices | ]. repeat (split; [ assumption | ]).
    apply ballBulk_in; try assumption. exists dx, dy, dz. split; [ exact W | ]. unfold site. f_equal. lia.
Qed.

(** a site marked by one of the two loops *)
Definition ownMark (r : nat) (i : nat) : Prop := exists z y x dx dy dz, z < Lz /\ y < L /\ x < L /\ isDefect D (sds r (site L z y x)) /\
  within R2 dx dy dz /\ (0 <= Z.of_nat z + dz < Z.of_nat Lz)%Z /\ i = site L (Z.to_nat (Z.of_nat z + dz)) (wrapped L y dy) (wrapped L x dx).
Definition afterBorder (r : nat) (st : mstate) : Prop := border L Lz R2 D M (tms r) (sds r) = Some st.
Lemma two_loops : forall r st st', r < P -> afterBorder r st -> bulk L Lz R2 D M (tms r) st = Some st' ->
  (forall i, m_sd st' i = sds r i \/ (m_sd st' i = N.lor (sds r i) M /\ ownMark r i)) /\ (forall i, ownMark r i -> m_sd st' i = N.lor (sds r i) M).
Proof.
  intros r st st' Hr B U. unfold afterBorder, border in B. unfold bulk in U.
  destruct (phase_any L D M _ _ _ _ HDM border_visit _ _ B) as (B1 & B2 & _ & _). cbn [m_sd] in B1, B2.
  destruct (phase_any L D M _ _ _ _ HDM bulk_visit _ _ U) as (U1 & U2 & _ & _).
  assert (BO : forall i, does L D (ballBorder L Lz R2 rz) (fun liz => liz mod Lz) (tm_border (tms r)) (MS (sds r) (fun _ => 0) (fun _ => 0)) (Mark i) -> ownMark r i).
  { intros i H. apply border_does in H; [ | exact Hr ]. destruct H as (z & y & x & dx & dy & dz & Hz & _ & Hy & Hx & E & W & Ei).
    exists z, y, x, dx, dy, dz. repeat (split; [ assumption | ]). unfold effBorder in Ei.
    destruct (Z.ltb_spec (Z.of_nat z + dz) 0); [ discriminate Ei | ]. destruct (Z.leb_spec (Z.of_nat Lz) (Z.of_nat z + dz)); [ discriminate Ei | ].
    injection Ei as ->. split; [ lia | reflexivity ]. }
  assert (SD : forall i, isDefect D (m_sd st i) <-> isDefect D (sds r i)).
  { intros i. unfold isDefect. destruct (B1 i) as [-> | [-> _]]; [ reflexivity | now rewrite (land_or D M HDM) ]. }
  assert (UO : forall i, does L D (ballBulk L R2 rz) (fun z => z) (tm_bulk (tms r)) st (Mark i) -> ownMark r i).
  { intros i H. apply bulk_does in H; [ | exact Hr ]. destruct H as (z & y & x & dx & dy & dz & Hz & Hy & Hx & E & W & Ei). pose proof (within_rz _ _ _ _ HR W) as Hdz. pose proof (Z.sqrt_nonneg R2).
    exists z, y, x, dx, dy, dz. split; [ lia | ]. split; [ exact Hy | ]. split; [ exact Hx | ]. split; [ now apply SD | ]. split; [ exact W | ]. split; [ lia | congruence ]. }
  split.
  - intros i. destruct (U1 i) as [-> | [-> Hi]].
    + destruct (B1 i) as [-> | [-> Hi]]; [ now left | right; split; [ reflexivity | now apply BO ] ].
    + right. split; [ | now apply UO ]. destruct (B1 i) as [-> | [-> _]]; [ reflexivity | apply lor_again ].
  - intros i (z & y & x & dx & dy & dz & Hz & Hy & Hx & E & W & Hd & ->). set (i := site L _ _ _).
    assert (C : (Z.of_nat z < rz \/ Z.of_nat Lz - rz <= Z.of_nat z)%Z \/ (rz <= Z.of_nat z < Z.of_nat Lz - rz)%Z) by lia.
    destruct C as [C | C].
    + assert (Hb : m_sd st i = N.lor (sds r i) M).
      { apply B2. apply border_does; [ exact Hr | ]. exists z, y, x, dx, dy, dz. repeat (split; [ assumption | ]).
        unfold effBorder. destruct (Z.ltb_spec (Z.of_nat z + dz) 0); [ lia | ]. destruct (Z.leb_spec (Z.of_nat Lz) (Z.of_nat z + dz)); [ lia | ]. reflexivity. }
      destruct (U1 i) as [-> | [-> _]]; rewrite Hb; [ reflexivity | apply lor_again ].
    + rewrite U2.
      * destruct (B1 i) as [-> | [-> _]]; [ reflexivity | apply lor_again ].
      * apply (bulk_does r); [ exact Hr | ]. exists z, y, x, dx, dy, dz. split; [ exact C | ]. split; [ exact Hy | ]. split; [ exact Hx | ]. split; [ now apply SD | ]. auto.
Qed.
(** what the counters of a rank can be *)
Lemma counter_F : forall r st c, r < P -> afterBorder r st -> m_F st c = 0 \/
  exists z y x dx dy dz, z < Lz /\ y < L /\ x < L /\ isDefect D (sds r (site L z y x)) /\ within R2 dx dy dz /\
    c = L * wrapped L y dy + wrapped L x dx /\ (Z.of_nat (m_F st c) = - (Z.of_nat z + dz) /\ 0 < Z.of_nat (m_F st c) <= rz)%Z.
Proof.
  intros r st c Hr B. unfold afterBorder, border in B. destruct (phase_any L D M _ _ _ _ HDM border_visit _ _ B) as (_ & _ & F1 & _).
  destruct (F1 c) as [H | H]; [ now left | right ]. apply border_does in H; [ | exact Hr ]. destruct H as (z & y & x & dx & dy & dz & Hz & _ & Hy & Hx & E & W & Ei).
  exists z, y, x, dx, dy, dz. repeat (split; [ assumption | ]). unfold effBorder in Ei. pose proof (within_rz _ _ _ _ HR W) as Hdz.
  destruct (Z.ltb_spec (Z.of_nat z + dz) 0).
  - injection Ei as Ec El. split; [ exact Ec | ]. rewrite El. lia.
  - destruct (Z.leb_spec (Z.of_nat Lz) (Z.of_nat z + dz)); discriminate Ei.
Qed.
Lemma counter_B : forall r st c, r < P -> afterBorder r st -> m_B st c = 0 \/
  exists z y x dx dy dz, z < Lz /\ y < L /\ x < L /\ isDefect D (sds r (site L z y x)) /\ within R2 dx dy dz /\
    c = L * wrapped L y dy + wrapped L x dx /\ (Z.of_nat (m_B st c) = Z.of_nat z + dz + 1 - Z.of_nat Lz /\ 0 < Z.of_nat (m_B st c) <= rz)%Z.
Proof.
  intros r st c Hr B. unfold afterBorder, border in B. destruct (phase_any L D M _ _ _ _ HDM border_visit _ _ B) as (_ & _ & _ & F1).
  destruct (F1 c) as [H | H]; [ now left | right ]. apply border_does in H; [ | exact Hr ]. destruct H as (z & y & x & dx & dy & dz & Hz & _ & Hy & Hx & E & W & Ei).
  exists z, y, x, dx, dy, dz. repeat (split; [ assumption | ]). unfold effBorder in Ei. pose proof (within_rz _ _ _ _ HR W) as Hdz.
  destruct (Z.ltb_spec (Z.of_nat z + dz) 0); [ discriminate Ei | ].
  destruct (Z.leb_spec (Z.of_nat Lz) (Z.of_nat z + dz)); [ | discriminate Ei ].
  injection Ei as Ec El. split; [ exact Ec | ]. rewrite El. lia.
Qed.

Lemma maskball_parts : forall r s, maskball P L Lz R2 D M tms sds r = Some s -> exists st stB stF st',
  afterBorder r st /\ afterBorder ((r + P - 1) mod P) stB /\ afterBorder ((r + 1) mod P) stF /\ bulk L Lz R2 D M (tms r) st = Some st' /\
  s = marks M (m_sd st') (flat_map (received L Lz (m_B stB) (m_F stF)) (tm_cells (tms r))).
Proof.
  intros r s. unfold maskball. destruct (border L Lz R2 D M (tms r) (sds r)) as [ st | ] eqn:E1; [ | discriminate ].
  destruct (border L Lz R2 D M (tms ((r + P - 1) mod P)) (sds ((r + P - 1) mod P))) as [ stB | ] eqn:E2; [ | discriminate ].
  destruct (border L Lz R2 D M (tms ((r + 1) mod P)) (sds ((r + 1) mod P))) as [ stF | ] eqn:E3; [ | discriminate ].
  destruct (bulk L Lz R2 D M (tms r) st) as [ st' | ] eqn:E4; [ | discriminate ]. intros E. injection E as <-.
  exists st, stB, stF, st'. repeat (split; [ assumption | ]). now apply receive_marks.
Qed.
(** cell c of a slice *)
Lemma cell_site : forall z y x c w, y < L -> x < L -> c < L * L -> c + w * (L * L) = site L z y x -> c = L * y + x /\ w = z.
Proof.
  intros z y x c w Hy Hx Hc E. unfold site in E.
  assert (B : L * y + x < L * L) by (assert (L * (y + 1) <= L * L) by (apply Nat.mul_le_mono_l; lia); lia).
  destruct (Nat.div_mod_unique (L * L) w z c (L * y + x)) as [E1 E2]; [ exact Hc | exact B | lia | ]. auto.
Qed.
Lemma cell_eq : forall y x y' x', y < L -> x < L -> y' < L -> x' < L -> L * y + x = L * y' + x' -> y = y' /\ x = x'.
Proof. intros y x y' x' Hy Hx Hy' Hx' E. apply (Nat.div_mod_unique L y y' x x'); auto. Qed.

(** Marked sites are near a defect, whatever the timing. *)
Lemma mask_sound : forall r s z y x, r < P -> z < Lz -> y < L -> x < L -> maskball P L Lz R2 D M tms sds r = Some s ->
  s (site L z y x) = sds r (site L z y x) \/ (s (site L z y x) = N.lor (sds r (site L z y x)) M /\ nearDefect P L Lz R2 D sds r z y x).
Proof.
  intros r s z y x Hr Hz Hy Hx H. destruct (maskball_parts r s H) as (st & stB & stF & st' & A1 & A2 & A3 & A4 & ->). clear H.
  destruct (two_loops r st st' Hr A1 A4) as [T1 T2].
  assert (Own : ownMark r (site L z y x) -> nearDefect P L Lz R2 D sds r z y x).
  { intros (z' & y' & x' & dx & dy & dz & Hz' & Hy' & Hx' & E & W & Hd & Es).
    apply site_inj in Es; [ | assumption | assumption | now apply wrapped_lt | now apply wrapped_lt ]. destruct Es as (-> & -> & ->).
    exists r, z', y', x', dx, dy, dz. repeat (split; [ assumption | ]). split; [ now apply wrapped_reach | ]. split; [ now apply wrapped_reach | ].
    apply reach_z with (k := 0%Z); [ | lia ]. assert ((r + 1) * Lz <= P * Lz) by (apply Nat.mul_le_mono_r; lia). lia. }
  set (i := site L z y x) in *. set (lst := flat_map _ _).
  destruct (in_dec Nat.eq_dec i lst) as [C | C].
  - rewrite marks_in by exact C. right. split; [ destruct (T1 i) as [-> | [-> _]]; [ reflexivity | apply lor_again ] | ].
    unfold lst in C. apply in_flat_map in C. destruct C as (c & Hc & C). destruct (Hsh r Hr) as (_ & _ & S3).
    apply (Permutation_in _ S3) in Hc. apply in_seq in Hc. unfold received in C. apply in_app_or in C.
    destruct (rank_below P r Hr) as [RB RB']. destruct (rank_above P r Hr) as [RA RA'].
    assert (TT : (r + 1) * Lz <= P * Lz) by (apply Nat.mul_le_mono_r; lia). destruct C as [C | C].
    + apply in_map_iff in C. destruct C as (w & Ew & Hw). apply in_seq in Hw. apply cell_site in Ew; try assumption; [ | lia ]. destruct Ew as [-> ->].
      destruct (counter_B _ stB (L * y + x) RB' A2) as [K | (z' & y' & x' & dx & dy & dz & Hz' & Hy' & Hx' & E & W & Ec & El & Eb)]; [ lia | ].
      apply cell_eq in Ec; try assumption; try (now apply wrapped_lt). destruct Ec as [-> ->].
      exists ((r + P - 1) mod P), z', y', x', dx, dy, (Z.of_nat Lz + Z.of_nat z - Z.of_nat z')%Z. repeat (split; [ assumption | ]).
      split; [ apply (within_z _ _ _ dz); [ exact W | lia ] | ]. split; [ now apply wrapped_reach | ]. split; [ now apply wrapped_reach | ].
      apply reach_z with (k := if r =? 0 then 1%Z else 0%Z); [ lia | ].
      destruct RB as [RB | [-> RB]]; [ destruct (Nat.eqb_spec r 0) as [-> | _]; [ lia | ] | cbn [Nat.eqb] ].
      * set (rb := (r + P - 1) mod P) in *. replace r with (rb + 1) by lia. lia.
      * set (rb := (0 + P - 1) mod P) in *. replace P with (rb + 1) by lia. lia.
    + apply in_map_iff in C. destruct C as (w & Ew & Hw). apply in_seq in Hw.
      destruct (counter_F _ stF c RA' A3) as [K | (z' & y' & x' & dx & dy & dz & Hz' & Hy' & Hx' & E & W & Ec & El & Eb)]; [ lia | ].
      rewrite (Nat.mul_comm (L * L)) in Ew. apply cell_site in Ew; try assumption; [ | lia ]. destruct Ew as [-> Ew].
      apply cell_eq in Ec; try assumption; try (now apply wrapped_lt). destruct Ec as [-> ->].
      exists ((r + 1) mod P), z', y', x', dx, dy, (Z.of_nat z - Z.of_nat Lz - Z.of_nat z')%Z. repeat (split; [ assumption | ]).
      split; [ apply (within_z _ _ _ dz); [ exact W | lia ] | ]. split; [ now apply wrapped_reach | ]. split; [ now apply wrapped_reach | ].
      apply reach_z with (k := if r + 1 =? P then (-1)%Z else 0%Z); [ lia | ].
      destruct RA as [RA | [RA0 RA]].
      * rewrite RA. destruct (Nat.eqb_spec (r + 1) P) as [E1 | _]; [ rewrite E1, Nat.mod_same in RA by lia; lia | ]. lia.
      * rewrite RA. destruct (Nat.eqb_spec (r + 1) P) as [_ | E1]; [ | lia ]. rewrite <- RA0. lia.
  - rewrite marks_out by exact C. destruct (T1 i) as [-> | [-> O]]; [ now left | right; split; [ reflexivity | now apply Own ] ].
Qed.
(** Sites near a defect of their own rank are marked, whatever the timing. *)
Lemma mask_own : forall r s z y x, r < P -> z < Lz -> y < L -> x < L -> maskball P L Lz R2 D M tms sds r = Some s ->
  nearOwnDefect L Lz R2 D (sds r) z y x -> s (site L z y x) = N.lor (sds r (site L z y x)) M.
Proof.
  intros r s z y x Hr Hz Hy Hx H (z' & y' & x' & dx & dy & dz & Hz' & Hy' & Hx' & E & W & X1 & X2 & X3).
  destruct (maskball_parts r s H) as (st & stB & stF & st' & A1 & A2 & A3 & A4 & ->). clear H.
  destruct (two_loops r st st' Hr A1 A4) as [T1 T2].
  assert (O : ownMark r (site L z y x)).
  { exists z', y', x', dx, dy, dz. repeat (split; [ assumption | ]). split; [ lia | ].
    rewrite X3, Nat2Z.id. rewrite (proj1 (wrapped_reaches L x' dx x HL) (conj Hx X1)), (proj1 (wrapped_reaches L y' dy y HL) (conj Hy X2)). reflexivity. }
  set (lst := flat_map _ _). destruct (in_dec Nat.eq_dec (site L z y x) lst) as [C | C].
  - rewrite marks_in, T2 by assumption. apply lor_again.
  - rewrite marks_out by exact C. now apply T2.
Qed.
(** With no thread interrupted inside an update all sites near a defect are marked. *)
Lemma mask_complete : forall r s z y x, r < P -> z < Lz -> y < L -> x < L ->
  (forall r, r < P -> calmBorder L Lz R2 D M (tms r) (sds r)) -> maskball P L Lz R2 D M tms sds r = Some s ->
  nearDefect P L Lz R2 D sds r z y x -> s (site L z y x) = N.lor (sds r (site L z y x)) M.
Proof.
  intros r s z y x Hr Hz Hy Hx Hcalm H (r' & z' & y' & x' & dx & dy & dz & Hr' & Hz' & Hy' & Hx' & E & W & X1 & X2 & X3).
  pose proof (within_rz _ _ _ _ HR W) as Hdz.
  assert (TT : (r + 1) * Lz <= P * Lz) by (apply Nat.mul_le_mono_r; lia).
  assert (TT' : (r' + 1) * Lz <= P * Lz) by (apply Nat.mul_le_mono_r; lia).
  unfold reaches in X3.
  destruct (maskball_parts r s H) as (st & stB & stF & st' & A1 & A2 & A3 & A4 & Es).
  destruct (two_loops r st st' Hr A1 A4) as [T1 T2].
  assert (Wx : wrapped L x' dx = x) by now apply wrapped_reaches. assert (Wy : wrapped L y' dy = y) by now apply wrapped_reaches.
  assert (CL : L * y + x < L * L) by (assert (L * (y + 1) <= L * L) by (apply Nat.mul_le_mono_l; lia); lia).
  assert (Mk : In (site L z y x) (flat_map (received L Lz (m_B stB) (m_F stF)) (tm_cells (tms r))) -> s (site L z y x) = N.lor (sds r (site L z y x)) M).
  { intros C. rewrite Es, marks_in by exact C. destruct (T1 (site L z y x)) as [-> | [-> _]]; [ reflexivity | apply lor_again ]. }
  assert (Cell : In (L * y + x) (tm_cells (tms r))).
  { destruct (Hsh r Hr) as (_ & _ & S3). apply (Permutation_in _ (Permutation_sym S3)). apply in_seq. lia. }
  destruct (Z.lt_ge_cases (Z.of_nat z' + dz) 0) as [C | C]; [ | destruct (Z.lt_ge_cases (Z.of_nat z' + dz) (Z.of_nat Lz)) as [C' | C'] ].
  - (* the defect is on the rank above *)
    assert (RZ : r' = (r + 1) mod P /\ (Z.of_nat z = Z.of_nat Lz + Z.of_nat z' + dz)%Z).
    { destruct r' as [ | q ].
      - replace (Z.of_nat (0 * Lz + z') + dz)%Z with (Z.of_nat (P * Lz) + (Z.of_nat z' + dz) + (-1) * Z.of_nat (P * Lz))%Z in X3 by lia.
        rewrite Z.mod_add, Z.mod_small in X3 by lia.
        assert (X4 : (P - 1) * Lz + Z.to_nat (Z.of_nat Lz + Z.of_nat z' + dz) = r * Lz + z).
        { assert (Q : P * Lz = (P - 1) * Lz + Lz) by (replace P with (P - 1 + 1) at 1 by lia; lia). lia. }
        destruct (Nat.div_mod_unique Lz (P - 1) r (Z.to_nat (Z.of_nat Lz + Z.of_nat z' + dz)) z) as [Q1 Q2]; [ lia | lia | lia | ].
        split; [ | lia ]. replace (r + 1) with P by lia. symmetry. apply Nat.mod_same. lia.
      - rewrite Z.mod_small in X3 by lia. destruct (Nat.div_mod_unique Lz q r (Z.to_nat (Z.of_nat Lz + Z.of_nat z' + dz)) z) as [Q1 Q2]; [ lia | lia | lia | ].
        split; [ | lia ]. rewrite Nat.mod_small; lia. }
    destruct RZ as [-> RZ]. apply Mk. apply in_flat_map. exists (L * y + x). split; [ exact Cell | ]. unfold received. apply in_or_app. right.
    apply in_map_iff. exists (Z.to_nat (- (Z.of_nat z' + dz)) - 1).
    assert (K : Z.to_nat (- (Z.of_nat z' + dz)) <= m_F stF (L * y + x)).
    { unfold afterBorder, border in A3. destruct (phase_calm L D M _ _ _ _ HDM border_visit _ _ A3 (Hcalm _ Hr')) as [K _]. apply K. apply border_does; [ exact Hr' | ].
      exists z', y', x', dx, dy, dz. split; [ exact Hz' | ]. split; [ left; lia | ]. repeat (split; [ assumption | ]).
      unfold effBorder. rewrite Wx, Wy. destruct (Z.ltb_spec (Z.of_nat z' + dz) 0); [ reflexivity | lia ]. }
    split; [ | apply in_seq; lia ]. unfold site. replace (Lz - 1 - (Z.to_nat (- (Z.of_nat z' + dz)) - 1)) with z by lia. lia.
  - (* on the same rank *)
    apply (mask_own r s z y x Hr Hz Hy Hx H). rewrite Z.mod_small in X3 by lia.
    destruct (Nat.div_mod_unique Lz r' r (Z.to_nat (Z.of_nat z' + dz)) z) as [Q1 Q2]; [ lia | lia | lia | ]. subst r'.
    exists z', y', x', dx, dy, dz. repeat (split; [ assumption | ]). lia.
  - (* on the rank below *)
    assert (RZ : r' = (r + P - 1) mod P /\ (Z.of_nat z = Z.of_nat z' + dz - Z.of_nat Lz)%Z).
    { destruct (Nat.eq_dec (r' + 1) P) as [EP | EP].
      - assert (EPL : P * Lz = r' * Lz + Lz) by (rewrite <- EP; lia).
        replace (Z.of_nat (r' * Lz + z') + dz)%Z with (Z.of_nat z' + dz - Z.of_nat Lz + 1 * Z.of_nat (P * Lz))%Z in X3 by lia.
        rewrite Z.mod_add, Z.mod_small in X3 by lia.
        destruct (Nat.div_mod_unique Lz 0 r (Z.to_nat (Z.of_nat z' + dz - Z.of_nat Lz)) z) as [Q1 Q2]; [ lia | lia | lia | ].
        split; [ | lia ]. subst r. rewrite Nat.mod_small; lia.
      - assert (TT2 : (r' + 2) * Lz <= P * Lz) by (apply Nat.mul_le_mono_r; lia). rewrite Z.mod_small in X3 by lia.
        destruct (Nat.div_mod_unique Lz (r' + 1) r (Z.to_nat (Z.of_nat z' + dz - Z.of_nat Lz)) z) as [Q1 Q2]; [ lia | lia | lia | ].
        split; [ | lia ]. subst r. replace (r' + 1 + P - 1) with (r' + 1 * P) by lia. rewrite Nat.mod_add, Nat.mod_small; lia. }
    destruct RZ as [-> RZ]. apply Mk. apply in_flat_map. exists (L * y + x). split; [ exact Cell | ]. unfold received. apply in_or_app. left.
    apply in_map_iff. exists z.
    assert (K : Z.to_nat (Z.of_nat z' + dz + 1 - Z.of_nat Lz) <= m_B stB (L * y + x)).
    { unfold afterBorder, border in A2. destruct (phase_calm L D M _ _ _ _ HDM border_visit _ _ A2 (Hcalm _ Hr')) as [_ K]. apply K. apply border_does; [ exact Hr' | ].
      exists z', y', x', dx, dy, dz. split; [ exact Hz' | ]. split; [ right; lia | ]. repeat (split; [ assumption | ]).
      unfold effBorder. rewrite Wx, Wy. destruct (Z.ltb_spec (Z.of_nat z' + dz) 0); [ lia | ]. destruct (Z.leb_spec (Z.of_nat Lz) (Z.of_nat z' + dz)); [ reflexivity | lia ]. }
    split; [ unfold site; lia | apply in_seq; lia ].
Qed.
End all.
