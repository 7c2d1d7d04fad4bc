(** The theorems about the padding of rows (C31). *)
From Coq Require Import List Arith ZArith Bool Lia Permutation.
From Verif Require Import Base PadModel PadSpec PadProofs.
Import ListNotations.
Ltac Zify.zify_post_hook ::= idtac.
Local Open Scope nat_scope.

(** pad copies every row to its padded place, whatever the order of the parallel rows, and touches no other cell. *)
Theorem pad_lossless_partial {A} g order o d (m : mem A) :
  Permutation order (seq 0 (gLy g * gLz g)) -> padAllowed g o d ->
  let r := pad g order o d m in
  fst r = 1 /\
  rowsCopied (dataOf g d) (gLy g + 2) (dataOf g o) (gLy g) (gLy g) (gLy g * gLz g) m (snd r) /\
  restKept (inRows (dataOf g d) (gLy g + 2) (gLy g) (gLy g * gLz g)) m (snd r).
Proof. intros HP H. exact (pad_ok g order o d m HP H). Qed.

(** unpad copies every row back; besides the destination rows it changes only, when it
    shifts forward by the ghosts, the bare rows at the origin. *)
Theorem unpad_lossless_partial {A} g order o d (m : mem A) :
  Permutation order (seq 0 (gLy g * gLz g)) -> unpadAllowed g o d ->
  let r := unpad g order o d m in
  fst r = 1 /\
  rowsCopied (dataOf g d) (gLy g) (dataOf g o) (gLy g + 2) (gLy g) (gLy g * gLz g) m (snd r) /\
  restKept (fun l => inRows (dataOf g d) (gLy g) (gLy g) (gLy g * gLz g) l \/
                     ((pcode d = pcode o + 1)%Z /\ inRows (dataOf g o) (gLy g) (gLy g) (gLy g * gLz g) l)) m (snd r).
Proof. intros HP H. exact (unpad_ok g order o d m HP H). Qed.

(** Padding into a buffer and unpadding from it into a third gives the rows back. *)
Theorem pad_unpad_partial {A} g order1 order2 o b d (m : mem A) :
  Permutation order1 (seq 0 (gLy g * gLz g)) -> Permutation order2 (seq 0 (gLy g * gLz g)) ->
  padAllowed g o b -> unpadAllowed g b d ->
  rowsCopied (dataOf g d) (gLy g) (dataOf g o) (gLy g) (gLy g) (gLy g * gLz g) m
             (snd (unpad g order2 b d (snd (pad g order1 o b m)))).
Proof.
  intros H1 H2 H3 H4 sl j Hsl Hj.
  destruct (pad_ok g order1 o b m H1 H3) as [_ [P _]].
  destruct (unpad_ok g order2 b d (snd (pad g order1 o b m)) H2 H4) as [_ [Q _]].
  etransitivity; [exact (Q sl j Hsl Hj)|exact (P sl j Hsl Hj)].
Qed.

(** Which pairs are allowed for every size: different allocations, and from m2 to its half. *)
Definition bufferOf (p : pidx) : arr :=
  match p with PM | PMS => ArrM | PV | PVS => ArrV | _ => ArrM2 end.
Theorem pad_pairs g o d : gfs g <= 2 ->
  o = d \/ bufferOf o <> bufferOf d
  \/ (In o [PM; PV; PM2; PM2H] /\ In d [PMS; PVS; PM2S; PM2HS] /\ (pcode d = pcode o + 1)%Z)
  \/ (In o [PM2; PM2S] /\ In d [PM2H; PM2HS])
  \/ (In o [PM2H; PM2HS] /\ d = PM2 /\ 1 <= gLz g <= gNg g * gLy g) ->
  padAllowed g o d.
Proof.
  intros HF [H|[H|[H|[H|H]]]].
  - left. exact H.
  - do 7 right. split.
    + destruct o, d; cbn in *; try (exfalso; apply H; reflexivity); reflexivity.
    + left. destruct o, d; cbn in *; exact H.
  - destruct H as (H1 & H2 & H3).
    destruct o; cbn in H1; try (exfalso; intuition discriminate);
      destruct d; cbn in H2, H3; try (exfalso; intuition discriminate); try discriminate; unfold padAllowed; auto 8.
  - destruct H as [H1 H2]. do 7 right. split.
    + destruct o; cbn in H1; try (exfalso; intuition discriminate);
        destruct d; cbn in H2; try (exfalso; intuition discriminate); reflexivity.
    + right. left. assert (K : bareSpan g + gfs g * n2 g * gNg g <= v3 g).
      { unfold bareSpan, n2, v3. revert HF. generalize (gfs g) (gLy g) (gLz g) (gNg g). clear. intros f L Z N HF.
        transitivity (L * Z * L + 2 * (L * L) * N); [|nia]. apply Nat.add_le_mono_l. apply Nat.mul_le_mono_r. apply Nat.mul_le_mono_r. exact HF. }
      destruct o; cbn in H1; try (exfalso; intuition discriminate);
        destruct d; cbn in H2; try (exfalso; intuition discriminate); cbn [dataOf fst snd]; unfold v3, n2 in K; lia.
  - destruct H as (H1 & H2 & H3). subst d. do 7 right. split.
    + destruct o; cbn in H1; try (exfalso; intuition discriminate); reflexivity.
    + right. right.
      assert (K : padSpan g <= v3 g).
      { unfold padSpan, v3. revert H3. generalize (gLy g) (gLz g) (gNg g). clear. intros L Z N [H0 H3].
        destruct (Nat.eq_dec (L * Z) 0) as [E|E].
        - destruct L as [|L]; [cbn; lia|]. exfalso. revert E H0. clear. intros. destruct Z; [lia|discriminate].
        - assert (E2 : (L * Z - 1) * (L + 2) + L = L * Z * (L + 2) - 2) by (destruct (L * Z); [contradiction|cbn; lia]).
          rewrite E2. assert (L * Z <= L * (N * L)) by (apply Nat.mul_le_mono_l; exact H3). nia. }
      destruct o; cbn in H1; try (exfalso; intuition discriminate); cbn [dataOf fst snd]; unfold v3 in K; lia.
Qed.

(** The call made for energies in m2 (pad (PFIELD_M2, PFIELD_M2)) stays inside the allocation of m2. *)
Theorem pad_m2_inside g : 2 <= gLy g -> gfs g = 1 \/ gfs g = 2 -> 1 <= gLz g ->
  forall l, inRows (dataOf g PM2) (gLy g + 2) (gLy g) (gLy g * gLz g) l -> fst l = ArrM2 /\ snd l < capM2 g.
Proof.
  intros HL HF HZ l (sl & j & H1 & H2 & ->). unfold rowCell; cbn [dataOf chosechar fst snd]. split; [reflexivity|].
  pose proof (span_pad _ _ _ _ H1 H2) as S.
  assert (C : capM2 g = 2 * v3 g) by (unfold capM2; destruct HF as [-> | ->]; cbn [Nat.eqb]; lia).
  rewrite C. unfold v3. revert S HL HZ H1. generalize (gLy g) (gLz g) (gNg g). clear. intros L Z N S HL HZ H1.
  assert (E2 : (L * Z - 1) * (L + 2) + L = L * Z * (L + 2) - 2) by (destruct (L * Z); [lia|cbn; lia]).
  assert (L * Z * (L + 2) <= L * Z * (2 * L)) by (apply Nat.mul_le_mono_l; lia).
  assert (L * Z * (2 * L) <= 2 * (L * L * (Z + 2 * N))) by nia. lia.
Qed.

(** ** What does not hold *)
(** "From start to 0 > SAFE": whenever the padded rows reach the data (any field with more than a few
    slices), some number of the first row is lost. *)
Theorem pad_backward_refuted g order o d : 3 <= gLy g -> 1 <= gfs g -> 1 <= gNg g ->
  (o, d) = (PMS, PM) \/ ((o, d) = (PVS, PV) /\ gpax g = true) \/ (o, d) = (PM2S, PM2) \/ (o, d) = (PM2HS, PM2H) ->
  gfs g * (gLy g * gLy g) * gNg g < padSpan g ->
  exists c, c < gLy g /\
    snd (pad g order o d (fun l => l)) (rowCell (dataOf g d) (gLy g + 2) 0 c) <> rowCell (dataOf g o) (gLy g) 0 c.
Proof.
  intros HL HF HN H HS.
  set (G := gfs g * (gLy g * gLy g) * gNg g) in *.
  assert (HG : gLy g + 2 <= G).
  { unfold G. revert HL HF HN. generalize (gLy g) (gfs g) (gNg g). clear. intros L f N H1 H2 H3.
    assert (L * L <= f * (L * L)) by nia. assert (f * (L * L) <= f * (L * L) * N) by nia. nia. }
  unfold padSpan in HS.
  destruct (hit_exists G (gLy g) (gLy g * gLz g) HL HG HS) as (x & c & X1 & X2 & X3 & X4 & X5).
  exists c. split; [exact X3|]. change (dataOf g d) with (chosechar g d). change (dataOf g o) with (chosechar g o).
  assert (E : exists a d0, chosechar g d = (a, d0) /\ chosechar g o = (a, d0 + G) /\ (pcode o - pcode d = 1)%Z).
  { unfold G. destruct H as [H|[[H HP]|[H|H]]]; inversion H; subst; cbn [chosechar pcode].
    - exists ArrM, 0. repeat split.
    - rewrite HP. exists ArrV, 0. repeat split.
    - exists ArrM2, 0. repeat split.
    - exists ArrM2, (v3 g). repeat split. }
  destruct E as (a & d0 & E1 & E2 & E3).
  unfold pad. rewrite E3. cbn [Z.eqb Pos.eqb snd]. rewrite E1, E2. unfold pl, dl, LyLz.
  destruct (gLy g * gLz g) as [|n] eqn:EN; [lia|].
  assert (K := spoil a d0 G (gLy g) n x c (fun l => l) ltac:(intros l; left; reflexivity) X1 ltac:(lia) X3 ltac:(lia) X4 X5).
  unfold rowCell at 1. cbn [fst snd]. rewrite Nat.mul_0_l, Nat.add_0_r.
  intros E. rewrite E in K. destruct K as (y & j & Y1 & Y2 & Y3).
  apply rowCell_inj with (len := gLy g) in Y3; auto. lia.
Qed.

(** From the half of m2 into m2 (the call made when the energy is in m2h): two threads, each
    keeping its own order, lose rows once Lz is over Ng*Ly. *)
Theorem pad_halves_refuted :
  exists g order, 1 <= gNg g /\ Permutation order (seq 0 (gLy g * gLz g)) /\
    order = seq 8 8 ++ seq 0 8 /\
    ~ rowsCopied (dataOf g PM2) (gLy g + 2) (dataOf g PM2H) (gLy g) (gLy g) (gLy g * gLz g)
        (fun l => l) (snd (pad g order PM2H PM2 (fun l => l))).
Proof.
  exists (Geom 2 8 1 1 false), (seq 8 8 ++ seq 0 8). split; [cbn; lia|]. split; [|split; [reflexivity|]].
  - change (seq 0 (gLy (Geom 2 8 1 1 false) * gLz (Geom 2 8 1 1 false))) with (seq 0 8 ++ seq 8 8). apply Permutation_app_comm.
  - intros H. specialize (H 0 0 ltac:(cbn; lia) ltac:(cbn; lia)). vm_compute in H. discriminate.
Qed.

(** The warning that the padded data do not fit is issued only when they do fit, and not when they overrun. *)
Theorem pad_warning_refuted :
  (forall g, 1 <= gfs g -> padWarns g PMS = true ->
     forall l, inRows (dataOf g PMS) (gLy g + 2) (gLy g) (gLy g * gLz g) l -> snd l < capM g) /\
  (exists g l, 1 <= gNg g /\ padWarns g PMS = false /\
     inRows (dataOf g PMS) (gLy g + 2) (gLy g) (gLy g * gLz g) l /\ capM g <= snd l).
Proof.
  split.
  - intros g HF HW l (sl & j & H1 & H2 & ->). unfold rowCell; cbn [dataOf chosechar fst snd].
    unfold padWarns in HW. cbn [pcode Z.odd andb] in HW. apply Nat.ltb_lt in HW.
    assert (S : sl * (gLy g + 2) + j < gLy g * gLz g * (gLy g + 2)) by (revert H1 H2; clear; nia).
    unfold capM, v3, n2. revert HF HW S. generalize (gLy g) (gLz g) (gNg g) (gfs g). clear. intros L Z N f HF HW S.
    assert (S2 : sl * (L + 2) + j < L * L * (Z + N)) by lia.
    assert (f * (L * L) * N + L * L * (Z + N) <= L * L * (Z + 2 * N) * f).
    { assert (L * L * (Z + N) <= L * L * (Z + N) * f) by nia. nia. }
    lia.
  - exists (Geom 8 8 1 1 false), (rowCell (ArrM, 64) 10 63 7). split; [cbn; lia|]. split; [vm_compute; reflexivity|]. split.
    + exists 63, 7. split; [cbn; lia|]. split; [cbn; lia|]. reflexivity.
    + apply Nat.leb_le. vm_compute. reflexivity.
Qed.

(** ** Cases *)
Definition gEx := Geom 4 3 1 1 false.
Example pad_case : snd (pad gEx [] PM2 PM2 (fun l => snd l)) (ArrM2, 11 * 6 + 2) = 46.
Proof. vm_compute. reflexivity. Qed.
Example pad_case_allowed : padAllowed gEx PM2H PM2 /\ padAllowed gEx PM PM2 /\ padAllowed gEx PM2S PM2S.
Proof.
  split; [|split]; apply pad_pairs; cbn; try lia; auto.
  - right. right. right. right. split; [auto|split; [reflexivity|lia]].
  - right. left. discriminate.
Qed.
Example round_case : snd (unpad gEx [] PM2 PM2S (snd (pad gEx [] PM2 PM2 (fun l => snd l)))) (ArrM2, 16 + 47) = 47.
Proof. vm_compute. reflexivity. Qed.
Example backward_case : gfs gEx * (gLy gEx * gLy gEx) * gNg gEx < padSpan gEx /\
  snd (pad gEx [] PMS PM (fun l => snd l)) (ArrM, 2) <> 18.
Proof. split; [vm_compute; lia|vm_compute; discriminate]. Qed.

Print Assumptions pad_lossless_partial.
Print Assumptions unpad_lossless_partial.
Print Assumptions pad_unpad_partial.
Print Assumptions pad_pairs.
Print Assumptions pad_m2_inside.
Print Assumptions pad_backward_refuted.
Print Assumptions pad_halves_refuted.
Print Assumptions pad_warning_refuted.
