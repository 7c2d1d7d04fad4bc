(** The reduced grid of the hybrid method. *)
From Coq Require Import Reals List Arith ZArith Bool Lia Lra.
From Verif Require Import GravModel GravSpec GravProofs GravGridProofs.
Import ListNotations.
Ltac Zify.zify_post_hook ::= idtac.

(** ** C104: down and up *)
(** Whatever the order in which threads take the points of a slice, the reduced grid has one site out of ref in each direction,
    although it is written over the memory it is read from; what lies beyond it is untouched *)
Theorem reduced_grid : forall A g w ref ord (m m' : nat -> A), fits g w ref -> (forall k, k < bLz g / ref -> everyPoint (bL g / ref) (ord k)) -> rfuap g w ref ord m = Some m' ->
  (forall x y z, x < bL g / ref -> y < bL g / ref -> z < bLz g / ref -> m' (rowPlace (bL g / ref) x y z) = m (vectorPlace g w (ref * x) (ref * y) (ref * z))) /\
  (forall i, rowPlace (bL g / ref) 0 0 (bLz g / ref) <= i -> m' i = m i).
Proof.
  intros A g w ref ord m m' F HO H. unfold rfuap in H. cbv zeta in H. destruct (_ && _) eqn:E; [|discriminate]. apply andb_true_iff in E. destruct E as [E1 E2]. apply Nat.eqb_eq in E1. inversion H; subst m'; clear H.
  destruct (reduce_slices g w ref ord m (bLz g / ref) F E1 HO) as [R1 R2]. split; [intros; apply R2; assumption|]. intros i Hi. apply R1. unfold rowPlace in Hi. lia.
Qed.
(** Every site gets the value of its cell, although the cells are read from the memory that is written; the rest is untouched *)
Theorem expanded_grid : forall A g w ref ord (m m' : nat -> A), fits g w ref -> (forall k, k < bLz g -> everyPoint (bL g / ref) (ord k)) -> eguf g w ref ord m = Some m' ->
  (forall x y z, x < bL g -> y < bL g -> z < bLz g -> m' (vectorPlace g w x y z) = m (rowPlace (bL g / ref) (x / ref) (y / ref) (z / ref))) /\
  (forall i, i < bNg g * (bL g * bL g) \/ (bNg g + bLz g) * (bL g * bL g) <= i -> m' i = m i).
Proof.
  intros A g w ref ord m m' F HO H. unfold eguf in H. cbv zeta in H. destruct (_ && _) eqn:E; [|discriminate]. apply andb_true_iff in E. destruct E as [E1 E2]. apply Nat.eqb_eq in E1. inversion H; subst m'; clear H.
  destruct (expand_slices g w ref ord m 0 (bLz g) F E1 ltac:(lia) HO) as [R1 R2]. rewrite Nat.sub_0_r in R1, R2. split; [intros; apply R2; (assumption || lia)|]. intros i Hi. apply R1. unfold bBO. lia.
Qed.
(** Down and up again: each site has the value of the first corner of its cell *)
Theorem reduced_and_back : forall A g w ref ord ord' (m m1 m2 : nat -> A), fits g w ref -> (forall k, everyPoint (bL g / ref) (ord k)) -> (forall k, everyPoint (bL g / ref) (ord' k)) ->
  rfuap g w ref ord m = Some m1 -> eguf g w ref ord' m1 = Some m2 ->
  forall x y z, x < bL g -> y < bL g -> z < bLz g -> m2 (vectorPlace g w x y z) = m (vectorPlace g w (ref * (x / ref)) (ref * (y / ref)) (ref * (z / ref))).
Proof.
  intros A g w ref ord ord' m m1 m2 F O1 O2 H1 H2 x y z Hx Hy Hz. destruct (reduced_grid A g w ref ord m m1 F (fun k _ => O1 k) H1) as [R _]. destruct (expanded_grid A g w ref ord' m1 m2 F (fun k _ => O2 k) H2) as [E _].
  unfold rfuap in H1. cbv zeta in H1. destruct (_ && _) eqn:D; [|discriminate]. apply andb_true_iff in D. destruct D as [D1 D2]. apply Nat.eqb_eq in D1, D2. destruct F as [_ [_ [_ [_ F]]]].
  rewrite E by assumption. apply R; apply Nat.div_lt_upper_bound; lia.
Qed.
(** The factor must divide the side and the slices of a rank; otherwise the program ends *)
Theorem factor_divides : forall A g w ref ord (m : nat -> A), 0 < ref -> (rfuap g w ref ord m <> None <-> bL g mod ref = 0 /\ bLz g mod ref = 0) /\ (eguf g w ref ord m <> None <-> bL g mod ref = 0 /\ bLz g mod ref = 0).
Proof.
  intros A g w ref ord m R. pose proof (Nat.div_mod (bL g) ref ltac:(lia)) as D1. pose proof (Nat.div_mod (bLz g) ref ltac:(lia)) as D2.
  unfold rfuap, eguf. cbv zeta. destruct ((ref * (bL g / ref) =? bL g) && (ref * (bLz g / ref) =? bLz g)) eqn:E; split; split; intros H; try (discriminate || (exfalso; apply H; reflexivity)).
  all: first [apply andb_true_iff in E; destruct E as [E1 E2]; apply Nat.eqb_eq in E1, E2; lia
             |exfalso; apply andb_false_iff in E; destruct H as [H1 H2]; destruct E as [E|E]; apply Nat.eqb_neq in E; lia].
Qed.
Definition egOrder (n : nat) : list (nat * nat) := list_prod (seq 0 n) (seq 0 n).
Lemma egOrder_all n : everyPoint n (egOrder n).
Proof.
  split; [apply nodup_prod; apply seq_NoDup|]. intros y x. unfold egOrder. rewrite in_prod_iff, !in_seq. lia.
Qed.
(** A box of 4 a side on two ranks of 2 slices, vectors of 2, factor 2 *)
Definition egG : gbox := GBox 4 4 2 1.
Example grid_case : fits egG 2 2 /\ exists m1 m2, rfuap egG 2 2 (fun _ => egOrder 2) (fun i => i) = Some m1 /\ eguf egG 2 2 (fun _ => egOrder 2) m1 = Some m2 /\
  m1 (rowPlace 2 1 1 0) = vectorPlace egG 2 2 2 0 /\ m2 (vectorPlace egG 2 3 2 1) = vectorPlace egG 2 2 2 0.
Proof. split; [repeat split; cbn; lia|]. do 2 eexists. repeat split. Qed.

(** ** Momenta of the reduced grid *)
(** On one rank they are those of a grid with as many sites, and only the mean is divided by zero *)
Theorem reduced_momenta_partial : forall g ref, bRanks g = 1 -> 0 < bL g / ref -> 0 < bT g / ref ->
  (forall yl z x, yl < bL g / ref -> z < bT g / ref -> x <= bL g / ref / 2 ->
     momSq (redMom g ref 0 ((yl * (bT g / ref) + z) * (bL g / ref / 2 + 1) + x)) = Z.of_nat (x ^ 2 + distance0 (bL g / ref) yl ^ 2 + distance0 (bT g / ref) z ^ 2)) /\
  ilapBreaks g ref = false.
Proof.
  intros g ref R HL HT. assert (P : forall yl z x, yl < bL g / ref -> z < bT g / ref -> x <= bL g / ref / 2 ->
     momSq (redMom g ref 0 ((yl * (bT g / ref) + z) * (bL g / ref / 2 + 1) + x)) = Z.of_nat (x ^ 2 + distance0 (bL g / ref) yl ^ 2 + distance0 (bT g / ref) z ^ 2)).
  { intros yl z x Hy Hz Hx. unfold redMom, zBaseOf. rewrite Nat.mul_0_r, mom_place by lia. rewrite Nat.add_0_r. reflexivity. }
  split; [exact P|]. unfold ilapBreaks. rewrite R. cbn [seq existsb]. rewrite orb_false_r. destruct (existsb _ _) eqn:E; [|reflexivity]. exfalso. apply existsb_exists in E. destruct E as [i [Hi E]]. apply in_seq in Hi.
  apply andb_true_iff in E. destruct E as [N Z]. set (h := GBox (bL g / ref) (bT g / ref) 1 0). assert (S : shared h) by (repeat split; cbn [bL bT bRanks h]; try lia; apply Nat.mod_1_r).
  assert (FM : i < fullModes h). { unfold fullModes, h, bLz. cbn [bL bT bRanks]. rewrite Nat.div_1_r. unfold redModes, bLz in Hi. rewrite R, Nat.div_1_r in Hi. lia. }
  destruct (places_all h i S FM) as [yl [z [x [-> [Hy [Hz Hx]]]]]]. unfold h in Hy, Hz, Hx, N, Z. unfold modePlace in N, Z. cbn [bL bT bRanks] in *. rewrite Nat.div_1_r in Hy. rewrite P in Z by assumption. apply Z.eqb_eq in Z.
  destruct (zero_momentum h 0 yl z x S) as [_ [-> [-> ->]]].
  - repeat split; cbn [h bL bT bRanks]; try lia.
  - apply Nat2Z.inj. etransitivity; [|exact Z]. reflexivity.
  - discriminate.
Qed.
(** On several ranks the planes of the full grid are counted instead of those of the reduced one: when the ranks are a multiple of the
    factor, a mode that is not the mean is divided by zero *)
Theorem reduced_momenta_refuted : forall g ref c, 2 <= ref -> 0 < c -> bRanks g = ref * c -> bL g mod bRanks g = 0 -> 0 < redModes g ref -> ilapBreaks g ref = true.
Proof.
  intros g ref c HR Hc R D RM. unfold ilapBreaks. apply existsb_exists. exists c. split; [apply in_seq; rewrite R; split; [lia|]; cbn; assert (2 * c <= ref * c) by (apply Nat.mul_le_mono_r; exact HR); lia|].
  apply existsb_exists. exists 0. split; [apply in_seq; lia|]. apply andb_true_iff. split; [unfold isMean; destruct c; [lia|reflexivity]|]. apply Z.eqb_eq. unfold redMom, zBaseOf.
  assert (ZB : bL g / bRanks g * c = bL g / ref). { pose proof (Nat.div_mod (bL g) (bRanks g) ltac:(destruct (bRanks g) eqn:X; [destruct ref, c; lia|lia])) as Q. rewrite D, Nat.add_0_r in Q. set (u := bL g / bRanks g) in *. rewrite Q, R. replace (ref * c * u) with (u * c * ref) by ring. rewrite Nat.div_mul by lia. reflexivity. }
  rewrite ZB. set (n := bL g / ref) in *. unfold momOf. cbv zeta. assert (N0 : 0 < n) by (unfold redModes in RM; fold n in RM; clearbody n; destruct n; [cbn in RM; lia|lia]).
  assert (RK : bRanks g <> 0) by (rewrite R; apply Nat.neq_mul_0; lia).
  assert (T0 : bT g / ref <> 0).
  { intros X. assert (Y : bLz g / ref = 0) by (unfold bLz; rewrite Nat.div_div, (Nat.mul_comm (bRanks g)), <- Nat.div_div by (exact RK || lia); rewrite X; apply Nat.div_0_l; exact RK). unfold redModes in RM. rewrite Y, Nat.mul_0_r in RM. lia. }
  rewrite Nat.div_0_l by lia. rewrite Nat.div_0_l by exact T0.
  rewrite Nat.mul_0_r, Nat.sub_0_r, Nat.add_0_l. assert (n / 2 < n) by (apply Nat.div_lt; lia). destruct (Nat.ltb_spec (n / 2) n); [|lia]. cbn [Nat.mul Nat.sub]. destruct (Nat.ltb_spec (bT g / ref / 2) 0); [exfalso; exact (Nat.nlt_0_r _ H1)|]. idtac. replace (Z.of_nat n - Z.of_nat n)%Z with 0%Z by lia. reflexivity.
Qed.
Example reduced_momenta_case : ilapBreaks (GBox 8 8 1 1) 2 = false /\ ilapBreaks (GBox 8 8 2 1) 2 = true.
Proof. split; reflexivity. Qed.
(** With two ranks and factor 4 nothing is divided by zero, but the momenta of rank 1 are wrong *)
Theorem reduced_momenta_other_refuted : exists g ref yl z x, bRanks g = 2 /\ ilapBreaks g ref = false /\ yl < bL g / ref / bRanks g /\ z < bT g / ref /\ x <= bL g / ref / 2 /\
  momSq (redMom g ref 1 ((yl * (bT g / ref) + z) * (bL g / ref / 2 + 1) + x)) <> Z.of_nat (x ^ 2 + distance0 (bL g / ref) (1 * (bL g / ref / bRanks g) + yl) ^ 2 + distance0 (bT g / ref) z ^ 2).
Proof. exists (GBox 16 16 2 1), 4, 0, 0, 0. cbn. repeat split; try lia. Qed.

(** ** The shift *)
Local Open Scope R_scope.
(** A wave read at the first corners of the cells becomes the wave half a cell further on *)
Theorem shift_half_cell : forall L T ref kx ky kz x y z, (0 < L)%nat -> (0 < T)%nat -> (0 < ref)%nat ->
  timesC (displa L T (kx, ky, kz)) (wave (L * ref) (T * ref) kx ky kz (INR ref * x) (INR ref * y) (INR ref * z)) =
  wave (L * ref) (T * ref) kx ky kz (INR ref * x + INR ref / 2) (INR ref * y + INR ref / 2) (INR ref * z + INR ref / 2).
Proof.
  intros L T ref kx ky kz x y z HL HT HR. apply lt_INR in HL, HT, HR. cbn [INR] in *. unfold timesC, displa, wave. cbn [fst snd]. rewrite !mult_INR.
  set (p := PI * _ + _ + _). set (a := 2 * PI * _). set (b := 2 * PI * (IZR kx * (INR ref * x + INR ref / 2) / _ + _ + _)).
  assert (E : b = p + a) by (unfold a, b, p; field; repeat split; lra). rewrite E, cos_plus, sin_plus. f_equal; ring.
Qed.
(** That is not the centre of the ref sites of the cell, which is (ref - 1)/2 further on *)
Theorem shift_centre_refuted : forall L T ref, (0 < L)%nat -> (0 < T)%nat -> (0 < ref)%nat -> exists kx ky kz,
  timesC (displa L T (kx, ky, kz)) (wave (L * ref) (T * ref) kx ky kz 0 0 0) <> wave (L * ref) (T * ref) kx ky kz ((INR ref - 1) / 2) ((INR ref - 1) / 2) ((INR ref - 1) / 2).
Proof.
  intros L T ref HL HT HR. exists 1%Z, 0%Z, 0%Z. pose proof (shift_half_cell L T ref 1 0 0 0 0 0 HL HT HR) as Q. rewrite !Rmult_0_r in Q. rewrite Q. clear Q. unfold wave. intros E. apply (f_equal fst) in E. cbn [fst] in E.
  rewrite !mult_INR in E. assert (L1 : 1 <= INR L) by (apply (le_INR 1); lia). assert (R1 : 1 <= INR ref) by (apply (le_INR 1); lia). pose proof PI_RGT_0 as PI0.
  set (a := 2 * PI * _) in E at 1. match type of E with _ = cos ?c => set (b := c) in E end.
  assert (Ea : a = PI * / INR L) by (unfold a; field; assert (0 < INR T) by (apply lt_0_INR; lia); repeat split; lra).
  assert (Eb : b = PI * / INR L * ((INR ref - 1) / INR ref)) by (unfold b; field; assert (0 < INR T) by (apply lt_0_INR; lia); repeat split; lra).
  assert (I : 0 < / INR L <= 1) by (split; [apply Rinv_0_lt_compat; lra|rewrite <- Rinv_1; apply Rinv_le_contravar; lra]).
  assert (FR : 0 <= (INR ref - 1) / INR ref < 1) by (split; [apply Rmult_le_pos; [lra|left; apply Rinv_0_lt_compat; lra]|apply Rmult_lt_reg_r with (INR ref); [lra|]; unfold Rdiv; rewrite Rmult_assoc, Rinv_l by lra; lra]).
  assert (A0 : 0 < PI * / INR L) by (apply Rmult_lt_0_compat; lra). assert (A1 : PI * / INR L <= PI * 1) by (apply Rmult_le_compat_l; lra).
  assert (B0 : 0 <= b) by (rewrite Eb; apply Rmult_le_pos; lra). assert (B1 : b < a) by (rewrite Eb, Ea; rewrite <- (Rmult_1_r (PI * / INR L)) at 2; apply Rmult_lt_compat_l; lra).
  pose proof (cos_decreasing_1 b a ltac:(lra) ltac:(lra) ltac:(lra) ltac:(lra) B1). lra.
Qed.
Example shift_case : timesC (displa 4 4 (1, 0, 0)%Z) (wave 8 8 1 0 0 0 0 0) = wave 8 8 1 0 0 1 1 1.
Proof. pose proof (shift_half_cell 4 4 2 1 0 0 0 0 0 ltac:(lia) ltac:(lia) ltac:(lia)) as Q. cbn [Nat.mul Nat.add] in Q. replace (INR 2 * 0) with 0 in Q by ring. replace (0 + INR 2 / 2) with 1 in Q by (cbn; field). exact Q. Qed.

Print Assumptions reduced_grid.
Print Assumptions expanded_grid.
Print Assumptions reduced_and_back.
Print Assumptions factor_divides.
Print Assumptions reduced_momenta_partial.
Print Assumptions reduced_momenta_refuted.
Print Assumptions reduced_momenta_other_refuted.
Print Assumptions shift_half_cell.
Print Assumptions shift_centre_refuted.
