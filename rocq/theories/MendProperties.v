(** Theorems on the removal of jumps of the angle (C27, C28). *)
From Coq Require Import List Arith ZArith QArith Qabs Lia Lqa Permutation Setoid.
From Verif Require Import Base StrModel StrProofs MendModel MendSpec MendProofs MendVol MendAll.
Import ListNotations.
Local Open Scope nat_scope.
Ltac Zify.zify_post_hook ::= idtac.

(** ** C27: the line x = y = 0 through all ranks *)

(** The loops end. Along the line (P ranks of Lz slices of Sf sites, NN ghost slices)
    neighbouring values then differ by at most half a period c, and the first one by
    at most c from the value the last one had before. Value number Z was moved by k Z whole periods
    and its velocity by k Z times q; it was moved only if it had to be. Nothing else changes in
    the arrays of a rank but one cell of the ghost slice below, and the count of a rank is the
    number of shifts. *)
Theorem mend_line : forall c q P Lz Sf NN ms vs, (0 < c)%Q -> 0 < P -> 0 < Lz -> 0 < Sf -> 0 < NN ->
  let f := lineAt Lz Sf NN ms in
  exists k st N, (forall fuel, N <= fuel -> mendLine fuel c q P Lz Sf NN ms vs = Some st) /\
    noJump c (lifted c f k 0 - f (P * Lz - 1)) /\
    (forall Z, Z + 1 < P * Lz -> noJump c (lifted c f k (Z + 1) - lifted c f k Z)) /\
    (k 0 = 0%Z <-> noJump c (f 0 - f (P * Lz - 1)%nat)) /\
    (forall Z, Z + 1 < P * Lz -> (k (Z + 1) = 0%Z <-> noJump c (f (Z + 1)%nat - lifted c f k Z))) /\
    (forall r, r < P -> exists m' v', st r = (m', v', list_sum (map (fun i => Z.abs_nat (k (r * Lz + i))) (seq 0 Lz))) /\
       (forall i, i < Lz -> moved c q (ms r (Sf * (NN + i))) (vs r (i * Sf)) (m' (Sf * (NN + i))) (v' (i * Sf)) (k (r * Lz + i))) /\
       (forall p, (forall i, i < Lz -> p <> Sf * (NN + i)) -> p <> Sf * (NN - 1) -> m' p = ms r p) /\
       (forall p, (forall i, i < Lz -> p <> i * Sf) -> v' p = vs r p)).
Proof.
  intros c q P Lz Sf NN ms vs Hc HP HL HS HN f.
  assert (ZP : forall i, Sf * (NN + i) = zp Sf NN i) by (intros i; unfold zp; lia).
  assert (EF : forall Z, f Z = fline Lz Sf NN ms Z) by (intros Z; unfold f, lineAt, fline; now rewrite ZP).
  set (k := kglob c P Lz Sf NN ms).
  destruct (bound_all (P * Lz) k) as (N & HN').
  destruct (mendLine_ok c q P Lz Sf NN Hc HP HL HS HN ms vs N HN') as (st & E & R).
  exists k, st, N. split; [ intros fuel Hf; now apply (mendLine_mono N fuel Hf) | ].
  destruct (kline_near c (fline Lz Sf NN ms (P * Lz - 1)) (fline Lz Sf NN ms) Hc) as [K1 K2].
  assert (EL : forall Z, lifted c f k Z = lifted c (fline Lz Sf NN ms) k Z) by (intros Z; unfold lifted; now rewrite EF).
  split; [ rewrite EL, EF; exact K1 | ]. split; [ intros Z _; rewrite !EL; apply K2 | ]. split; [ | split ].
  - unfold k, kglob. cbn [kline]. rewrite !EF. now apply kzC_zero.
  - intros Z _. rewrite EF, EL. rewrite !Nat.add_1_r. unfold k, kglob. cbn [kline]. now apply kzC_zero.
  - intros r Hr. destruct (R r Hr) as (m' & v' & E1 & M & F1 & F2). exists m', v'. split; [ exact E1 | ]. split; [ | split ].
    + intros i Hi. rewrite ZP. now apply M.
    + intros p Hp. apply F1. intros i Hi. rewrite <- ZP. now apply Hp.
    + exact F2.
Qed.

(** ** C28: planes and volume *)
Lemma grid : forall L step, 0 < step -> 0 < L -> L mod step = 0 -> 0 < L / step /\ L = step * (L / step).
Proof.
  intros L step Hs HL Hm. pose proof (Nat.div_mod L step ltac:(lia)) as D. rewrite Hm, Nat.add_0_r in D. split; [ | exact D ].
  apply Nat.neq_0_lt_0. intros C. rewrite C in D. lia.
Qed.
Lemma plane_0 : forall L step y, planeSite L step 0 y = ypos L step (L / step) y.
Proof. intros. unfold planeSite, ypos. lia. Qed.
(** Plane x = 0 of every slice of a rank: for every sharing of the slices among the threads and any
    contents of their buffers, the loops end; the closed rows along y are mended; nothing
    else changes; the count is the number of sites moved. *)
Theorem mend_slices : forall c q L Lz step NN bs order m v, (0 < c)%Q -> 0 < step -> L mod step = 0 -> 4 <= L ->
  NoDup order -> (forall z, In z order <-> NN <= z < Lz + NN) ->
  exists m' v' cnt N,
    (forall fuel, N <= fuel -> mendSlices fuel c q L step NN bs order m v = Some (m', v', list_sum (map cnt (seq 0 Lz)))) /\
    (forall z, z < Lz -> rowMended (noJump c) L c q
      (fun y => m ((z + NN) * (L * L) + planeSite L step 0 y)) (fun y => v (z * (L * L) + planeSite L step 0 y))
      (fun y => m' ((z + NN) * (L * L) + planeSite L step 0 y)) (fun y => v' (z * (L * L) + planeSite L step 0 y)) (cnt z)) /\
    (forall p, (forall z y, z < Lz -> y < L -> p <> (z + NN) * (L * L) + planeSite L step 0 y) -> m' p = m p) /\
    (forall p, (forall z y, z < Lz -> y < L -> p <> z * (L * L) + planeSite L step 0 y) -> v' p = v p).
Proof.
  intros c q L Lz step NN bs order m v Hc Hs Hm HL Hn Ho. destruct (grid L step Hs ltac:(lia) Hm) as [HY Hd].
  set (YC := L / step) in *.
  set (kf := fun zt : nat * nat => kFw c (kzC c) L (fun y => m ((fst zt + NN) * (L * L) + ypos L step YC y)) (snd zt)).
  set (kb := fun zt : nat * nat => kseq c (kzC c) (bwd L (fun y => m ((fst zt + NN) * (L * L) + ypos L step YC y))) (snd zt)).
  destruct (bound_list _ (list_prod (seq 0 Lz) (seq 0 (L + 1))) kf) as (N1 & B1).
  destruct (bound_list _ (list_prod (seq 0 Lz) (seq 0 (L + 1))) kb) as (N2 & B2).
  destruct (slices_fold c q L step YC NN Lz Hc Hs HY Hd HL m v (Nat.max N1 N2) bs order [] (m, v, 0)) as (((m' & v') & n) & E & cnt & En & R & F1 & F2).
  - now rewrite app_nil_r.
  - intros z Hz. rewrite app_nil_r in Hz. now apply Ho.
  - intros z Hz t Ht. assert (I : In (z, t) (list_prod (seq 0 Lz) (seq 0 (L + 1)))) by (apply in_prod; apply in_seq; lia).
    specialize (B1 _ I). specialize (B2 _ I). unfold kf, kb in *. cbn [fst snd] in *. lia.
  - exists (fun _ => 0). split; [ reflexivity | ]. split; [ intros z [] | ]. split; reflexivity.
  - rewrite app_nil_r in *. exists m', v', (fun z => cnt (z + NN)), (Nat.max N1 N2). split; [ | split; [ | split ] ].
    + intros fuel Hf. apply (mendSlices_mono (Nat.max N1 N2) fuel Hf). unfold mendSlices.
      replace (list_sum (map (fun z => cnt (z + NN)) (seq 0 Lz))) with n; [ exact E | ]. rewrite En.
      rewrite <- (map_map (fun z => z + NN) cnt). apply sum_perm. apply Permutation_map. apply NoDup_Permutation.
      * now apply NoDup_rev.
      * apply FinFun.Injective_map_NoDup; [ intros a b; lia | apply seq_NoDup ].
      * intros z. rewrite <- in_rev, Ho, in_map_iff. split.
        -- intros Hz. exists (z - NN). split; [ lia | apply in_seq; lia ].
        -- intros (z' & <- & Hz'). apply in_seq in Hz'. lia.
    + intros z Hz. assert (I : In (z + NN) (rev order)) by (rewrite <- in_rev, Ho; lia). specialize (R (z + NN) I).
      replace (z + NN - NN) with z in R by lia. revert R. apply rowMended_ext; [ lia | | | | ]; intros y Hy; now rewrite plane_0.
    + intros p Hp. apply F1. intros zS y Hz Hy. rewrite <- in_rev, Ho in Hz. specialize (Hp (zS - NN) y ltac:(lia) Hy).
      rewrite plane_0 in Hp. now replace (zS - NN + NN) with zS in Hp by lia.
    + intros p Hp. apply F2. intros zS y Hz Hy. rewrite <- in_rev, Ho in Hz. specialize (Hp (zS - NN) y ltac:(lia) Hy).
      now rewrite plane_0 in Hp.
Qed.

(** The volume, all builds but double precision AVX-512: for every sharing of the lines among the threads
    and any contents of their buffers and of the map, the loops end; every closed row along
    x is mended; cells past the field do not change; the count is the number of sites moved. *)
Theorem mend_volume_partial : forall c q L Lz step bs order m v sd, (0 < c)%Q -> 0 < step -> 0 < L -> L mod step = 0 ->
  NoDup order -> (forall z yl, In (z, yl) order <-> z < Lz /\ yl < L / step) ->
  exists st cnt N,
    (forall fuel, N <= fuel -> mendVolume Masks fuel c q L Lz step bs order m v sd = Some st) /\
    (forall y z, y < L -> z < Lz -> rowMended (noJumpHalf c) L c q
      (fun x => m (z * (L * L) + planeSite L step x y)) (fun x => v (z * (L * L) + planeSite L step x y))
      (fun x => k_m st (z * (L * L) + planeSite L step x y)) (fun x => k_v st (z * (L * L) + planeSite L step x y)) (cnt y z)) /\
    (forall p, L * L * Lz <= p -> k_m st p = m p /\ k_v st p = v p) /\
    k_count st = list_sum (map (fun z => list_sum (map (fun y => cnt y z) (seq 0 L))) (seq 0 Lz)).
Proof.
  intros c q L Lz step bs order m v sd Hc Hs HL Hm Hn Ho. destruct (grid L step Hs HL Hm) as [HY Hd].
  set (YC := L / step) in *.
  set (kf := fun a : nat * nat * (nat * nat) => kFw c (kzH c) L (fun x => m (site step (vbase L step (fst (fst a)) (snd (fst a))) x (fst (snd a)))) (snd (snd a))).
  set (kb := fun a : nat * nat * (nat * nat) => kseq c (kzH c) (bwd L (fun x => m (site step (vbase L step (fst (fst a)) (snd (fst a))) x (fst (snd a))))) (snd (snd a))).
  set (all := list_prod (list_prod (seq 0 Lz) (seq 0 YC)) (list_prod (seq 0 step) (seq 0 L))).
  destruct (bound_list _ all kf) as (N1 & B1). destruct (bound_list _ all kb) as (N2 & B2).
  destruct (good_fold c q L step YC Hc Hs HY Hd Lz m v (Nat.max N1 N2) bs order []
              (KS m v (fun i => if i <? L * L * Lz then false else sd i) 0)) as (st & E & G1 & G2 & _ & G4).
  - now rewrite app_nil_r.
  - intros (z & yl) Hin. rewrite app_nil_r in Hin. now apply Ho.
  - intros z yl [Hz Hy] t k Ht Hk. cbn [fst snd] in Hz, Hy.
    assert (I : In (z, yl, (k, t)) all) by (apply in_prod; apply in_prod; apply in_seq; lia).
    specialize (B1 _ I). specialize (B2 _ I). unfold kf, kb in *. cbn [fst snd] in *. lia.
  - split; [ intros z yl k [] | ]. split; [ auto | ]. split; [ | reflexivity ].
    intros z yl x k [Hz Hy] _ Hx Hk. cbn [fst snd k_sd] in *. rewrite (vflag_site L step YC Hs HY Hd).
    assert (X : ((z * step + k) * YC + yl) * L + x < L * L * Lz).
    { assert (A : (z * step + k) * YC + yl + 1 <= Lz * step * YC).
      { assert ((z * step + k + 1) * YC <= Lz * step * YC); [ | lia ]. apply Nat.mul_le_mono_r.
        assert ((z + 1) * step <= Lz * step) by (apply Nat.mul_le_mono_r; lia). lia. }
      assert (B : ((z * step + k) * YC + yl + 1) * L <= Lz * step * YC * L) by (apply Nat.mul_le_mono_r; exact A).
      replace (Lz * step * YC) with (Lz * L) in B by (rewrite Hd; lia). lia. }
    apply Nat.ltb_lt in X. now rewrite X.
  - rewrite app_nil_r in *.
    set (cnt := fun y z => rowCount c L step m z (y mod YC) (y / YC)).
    assert (Sp : forall y, y < L -> y / YC < step /\ y mod YC < YC).
    { intros y Hy. split; [ | apply Nat.mod_upper_bound; lia ]. apply Nat.div_lt_upper_bound; [ lia | ]. rewrite Nat.mul_comm, <- Hd. exact Hy. }
    assert (Si : forall x y z, site step (vbase L step z (y mod YC)) x (y / YC) = z * (L * L) + planeSite L step x y).
    { intros x y z. unfold site, vbase, planeSite. fold YC. lia. }
    exists st, cnt, (Nat.max N1 N2). split; [ | split; [ | split ] ].
    + intros fuel Hf. now apply (mendVolume_mono (Nat.max N1 N2) fuel Hf).
    + intros y z Hy Hz. destruct (Sp y Hy) as [S1 S2].
      assert (I : In (z, y mod YC) (rev order)) by (rewrite <- in_rev; apply Ho; auto).
      generalize (G1 z (y mod YC) (y / YC) I S1). apply rowMended_ext; [ exact HL | | | | ]; intros x Hx; now rewrite Si.
    + intros p Hp. apply G2. intros z yl Hin. rewrite <- in_rev in Hin. apply Ho in Hin. destruct Hin as [Hz Hy]. right.
      rewrite (vbase_line L step YC Hs HY Hd). assert (A : (z * YC + yl + 1) * (L * step) <= Lz * YC * (L * step)).
      { apply Nat.mul_le_mono_r. assert ((z + 1) * YC <= Lz * YC) by (apply Nat.mul_le_mono_r; lia). lia. }
      assert (B : Lz * YC * (L * step) = L * L * Lz) by (rewrite Hd at 2; lia). lia.
    + rewrite G4. rewrite (sum_perm _ (map (fun zy => sumN step (rowCount c L step m (fst zy) (snd zy))) (volOrder L Lz step))).
      * rewrite (volOrder_sum L step YC Hs HY Hd Lz). apply sumN_ext. intros z Hz. cbn [fst snd].
        rewrite sumN_swap. change (list_sum (map (fun y => cnt y z) (seq 0 L))) with (sumN L (fun y => cnt y z)).
        transitivity (sumN (step * YC) (fun y => cnt y z)); [ | now rewrite <- Hd ]. rewrite sumN_block. apply sumN_ext. intros k Hk. apply sumN_ext. intros yl Hy. unfold cnt.
        rewrite Nat.mod_add, Nat.div_add by lia. rewrite Nat.mod_small, Nat.div_small by lia. reflexivity.
      * apply Permutation_map. apply NoDup_Permutation; [ now apply NoDup_rev | apply volOrder_nodup | ].
        intros (z & yl). rewrite <- in_rev, Ho. symmetry. apply (volOrder_in L step YC Hs HY Hd Lz m v).
Qed.

(** What mending does to a row that is smooth up to whole periods, f = F + j periods with F
    smooth and closed: the jumps go, every value becomes F + j 0 periods. *)
Theorem mended_row_smooth : forall c q L f v f' v' count F j, (0 < c)%Q -> 0 < L ->
  rowMended (noJump c) L c q f v f' v' count \/ rowMended (noJumpHalf c) L c q f v f' v' count ->
  smoothRow c L F -> (forall y, y < L -> (f y == F y + inject_Z (j y) * (2 * c))%Q) ->
  forall y, y < L -> (f' y == F y + inject_Z (j 0%nat) * (2 * c))%Q /\ (v' y == v y + inject_Z (j 0%nat - j y) * q)%Q.
Proof.
  intros c q L f v f' v' count F j Hc HL R Sm Ef y Hy.
  assert (M : moved c q (f y) (v y) (f' y) (v' y) (j 0 - j y)).
  { destruct R as [R | R].
    - apply (row_smooth c q (noJump c) L f v f' v' count F j); try assumption. apply strict_C.
    - apply (row_smooth c q (noJumpHalf c) L f v f' v' count F j); try assumption. apply strict_H. }
  destruct M as [M1 M2]. split; [ | exact M2 ]. rewrite M1, (Ef y Hy). unfold Z.sub. rewrite inject_Z_plus, inject_Z_opp. ring.
Qed.
(** A row without jumps is left as it was. *)
Theorem mended_row_untouched : forall near L c q f v f' v' count, 0 < L -> rowMended near L c q f v f' v' count ->
  (forall d d', (d == d')%Q -> near d -> near d') ->
  (forall y, y < L -> near (f ((y + 1) mod L)%nat - f y)%Q /\ near (f y - f ((y + 1) mod L)%nat)%Q) ->
  count = 0 /\ forall y, y < L -> (f' y == f y /\ v' y == v y)%Q.
Proof.
  intros near L c q f v f' v' count HL (kF & kB & F0 & B0 & _ & _ & NF & NB & W & Cn) Nq Hn.
  assert (KF : forall y, y < L -> kF y = 0%Z).
  { induction y as [ | y IH ]; intros Hy; [ exact F0 | ]. rewrite <- Nat.add_1_r. apply NF; [ lia | ].
    destruct (Hn y ltac:(lia)) as [A _]. rewrite Nat.mod_small in A by lia. revert A. apply Nq. unfold lifted. rewrite IH by lia. change (inject_Z 0) with 0%Q. ring. }
  assert (KB : forall t, t < L -> kB ((L - t) mod L) = 0%Z).
  { induction t as [ | t IH ]; intros Ht; [ now rewrite Nat.sub_0_r, Nat.mod_same by lia | ].
    rewrite Nat.mod_small by lia. apply NB; [ lia | ]. replace (L - S t + 1) with (L - t) by lia.
    destruct (Hn (L - S t) ltac:(lia)) as [_ A]. replace (L - S t + 1) with (L - t) in A by lia. revert A. apply Nq. unfold lifted. rewrite IH by lia. change (inject_Z 0) with 0%Q. ring. }
  assert (KB' : forall y, y < L -> kB y = 0%Z).
  { intros y Hy. destruct (Nat.eq_dec y 0) as [-> | D]; [ exact B0 | ]. specialize (KB (L - y) ltac:(lia)).
    replace (L - (L - y)) with y in KB by lia. now rewrite Nat.mod_small in KB by lia. }
  split.
  - rewrite Cn. rewrite (filter_ext_in _ (fun _ => false)); [ clear; generalize (seq 0 L); induction l; [ reflexivity | assumption ] | ]. intros y Hy. apply in_seq in Hy. rewrite KF, KB' by lia. reflexivity.
  - intros y Hy. destruct (W y Hy) as [M _]. rewrite KF, KB' in M by exact Hy. destruct (M eq_refl) as [M1 M2].
    rewrite M1, M2. change (inject_Z 0) with 0%Q. split; ring.
Qed.
(** rows as in the two theorems above: one with a jump, one without *)
Definition exRow (w : Q) (y : nat) : Q := if y =? 1 then w else 0.
Example mended_row_smooth_case : rowMended (noJump 1) 3 1 4 (exRow (5 # 2)) (exRow 0) (exRow (1 # 2)) (exRow (-(4))) 1 /\
  smoothRow 1 3 (exRow (1 # 2)) /\ forall y, y < 3 -> (exRow (5 # 2) y == exRow (1 # 2) y + inject_Z (if (y =? 1)%nat then 1 else 0)%Z * (2 * 1))%Q.
Proof.
  split; [ | split ].
  - exists (fun y => if y =? 1 then (-1)%Z else 0%Z), (fun y => if y =? 1 then (-1)%Z else 0%Z).
    split; [ reflexivity | ]. split; [ reflexivity | ].
    split; [ intros [ | [ | y ] ] Hy; [ vm_compute; discriminate .. | lia ] | ].
    split; [ intros [ | [ | [ | y ] ] ] Hy; try lia; vm_compute; discriminate | ].
    split; [ intros [ | [ | y ] ] Hy H; [ exfalso; revert H; vm_compute; intros H; now apply H | reflexivity | lia ] | ].
    split; [ intros [ | [ | [ | y ] ] ] Hy H; [ lia | exfalso; revert H; vm_compute; intros H; now apply H | reflexivity | lia ] | ].
    split; [ | reflexivity ]. intros [ | [ | [ | y ] ] ] Hy; try lia; (split; [ intros _; split; vm_compute; reflexivity | intros C; now elim C ]).
  - intros [ | [ | [ | y ] ] ] Hy; try lia; vm_compute; reflexivity.
  - intros [ | [ | [ | y ] ] ] Hy; try lia; vm_compute; reflexivity.
Qed.
Example mended_row_untouched_case : rowMended (noJump 1) 3 1 4 (exRow 1) (exRow 5) (exRow 1) (exRow 5) 0 /\
  forall y, y < 3 -> noJump 1 (exRow 1 ((y + 1) mod 3)%nat - exRow 1 y) /\ noJump 1 (exRow 1 y - exRow 1 ((y + 1) mod 3)%nat).
Proof.
  split.
  - exists (fun y => 0%Z), (fun y => 0%Z). split; [ reflexivity | ]. split; [ reflexivity | ].
    split; [ intros [ | [ | y ] ] Hy; [ vm_compute; discriminate .. | lia ] | ].
    split; [ intros [ | [ | [ | y ] ] ] Hy; try lia; vm_compute; discriminate | ].
    split; [ reflexivity | ]. split; [ reflexivity | ].
    split; [ | reflexivity ]. intros [ | [ | [ | y ] ] ] Hy; try lia; (split; [ intros _; split; vm_compute; reflexivity | intros C; now elim C ]).
  - intros [ | [ | [ | y ] ] ] Hy; try lia; (split; vm_compute; discriminate).
Qed.

(** ** C27, C28: the three passes together *)
Definition goodThreads (L Lz step NN : nat) (t : threads) : Prop :=
  NoDup (t_order t) /\ (forall z, In z (t_order t) <-> NN <= z < Lz + NN) /\
  NoDup (t_vorder t) /\ (forall z yl, In (z, yl) (t_vorder t) <-> z < Lz /\ yl < L / step).
(** after the line pass the line is F + n periods *)
Lemma line_smooth : forall c f k T F j, (0 < c)%Q -> 0 < T ->
  noJump c (lifted c f k 0 - f (T - 1)%nat) -> (forall Z, Z + 1 < T -> noJump c (lifted c f k (Z + 1) - lifted c f k Z)) ->
  smoothRow c T F -> (forall Z, Z < T -> (f Z == F Z + per c (j Z))%Q) -> forall Z, Z < T -> (k Z = j (T - 1)%nat - j Z)%Z.
Proof.
  intros c f k T F j Hc HT N0 N1 Sm Ef. unfold noJump, lifted in *.
  induction Z as [ | Z IH ]; intros HZ.
  - assert (E : (j 0%nat + k 0%nat = j (T - 1)%nat)%Z); [ | lia ]. specialize (Sm (T - 1) ltac:(lia)).
    replace (T - 1 + 1) with T in Sm by lia. rewrite Nat.mod_same in Sm by lia.
    apply (same_lift c (F 0) (F (T - 1))); [ exact Hc | exact Sm | ]. rewrite (Ef 0), (Ef (T - 1)) in N0 by lia.
    rewrite per_add. fold (per c (k 0)) in N0.
    setoid_replace (F 0%nat + (per c (j 0%nat) + per c (k 0%nat)) - (F (T - 1)%nat + per c (j (T - 1)%nat)))%Q with
      (F 0%nat + per c (j 0%nat) + per c (k 0%nat) - (F (T - 1)%nat + per c (j (T - 1)%nat)))%Q by ring. exact N0.
  - specialize (IH ltac:(lia)). assert (E : (j (S Z) + k (S Z) = j Z + k Z)%Z); [ | lia ].
    specialize (Sm Z ltac:(lia)). rewrite Nat.mod_small in Sm by lia. specialize (N1 Z ltac:(lia)). rewrite !Nat.add_1_r in *.
    apply (same_lift c (F (S Z)) (F Z)); [ exact Hc | exact Sm | ]. rewrite (Ef (S Z)), (Ef Z) in N1 by lia.
    rewrite !per_add. fold (per c (k Z)) in N1. fold (per c (k (S Z))) in N1.
    setoid_replace (F (S Z) + (per c (j (S Z)) + per c (k (S Z))) - (F Z + (per c (j Z) + per c (k Z))))%Q with
      (F (S Z) + per c (j (S Z)) + per c (k (S Z)) - (F Z + per c (j Z) + per c (k Z)))%Q by ring. exact N1.
Qed.
Lemma plane_inj : forall L step x y x' y', 0 < step -> 0 < L -> L mod step = 0 -> x < L -> x' < L -> y < L -> y' < L ->
  planeSite L step x y = planeSite L step x' y' -> x = x' /\ y = y'.
Proof.
  intros L step x y x' y' Hs HL Hm Hx Hx' Hy Hy' E. destruct (grid L step Hs HL Hm) as [HY Hd]. unfold planeSite in E. set (YC := L / step) in *.
  assert (A : forall y, y < L -> y / YC < step).
  { intros y0 H0. apply Nat.div_lt_upper_bound; [ lia | ]. rewrite Nat.mul_comm, <- Hd. exact H0. }
  pose proof (A y Hy) as A1. pose proof (A y' Hy') as A2. clear A.
  assert (B : forall x k, x < L -> k < step -> x * step + k < L * step).
  { intros x0 k0 H1 H2. assert ((x0 + 1) * step <= L * step) by (apply Nat.mul_le_mono_r; lia). lia. }
  destruct (Nat.div_mod_unique (L * step) (y mod YC) (y' mod YC) (x * step + y / YC) (x' * step + y' / YC)) as [E1 E2];
    [ now apply B | now apply B | lia | ].
  destruct (Nat.div_mod_unique step x x' (y / YC) (y' / YC)) as [E3 E4]; [ exact A1 | exact A2 | lia | ].
  split; [ exact E3 | ]. rewrite (Nat.div_mod y YC), (Nat.div_mod y' YC) by lia. rewrite E1, E4. reflexivity.
Qed.
Lemma plane_lt : forall L step x y, 0 < step -> 0 < L -> L mod step = 0 -> x < L -> y < L -> planeSite L step x y < L * L.
Proof.
  intros L step x y Hs HL Hm Hx Hy. destruct (grid L step Hs HL Hm) as [HY Hd]. unfold planeSite. set (YC := L / step) in *.
  assert (A : y / YC < step) by (apply Nat.div_lt_upper_bound; [ lia | ]; rewrite Nat.mul_comm, <- Hd; exact Hy).
  pose proof (Nat.mod_upper_bound y YC ltac:(lia)) as B.
  assert (E : L * L = YC * (L * step)) by (rewrite Hd at 1; lia). rewrite E.
  assert ((y mod YC + 1) * (L * step) <= YC * (L * step)) by (apply Nat.mul_le_mono_r; lia).
  assert ((x + 1) * step <= L * step) by (apply Nat.mul_le_mono_r; lia). lia.
Qed.
Lemma plane_00 : forall L step, planeSite L step 0 0 = 0.
Proof.
  intros L step. unfold planeSite. destruct (Nat.eq_dec (L / step) 0) as [E | E]; [ rewrite E; reflexivity | ].
  rewrite Nat.mod_0_l, Nat.div_0_l by exact E. reflexivity.
Qed.
Lemma moved_trans : forall c q a b a1 b1 a2 b2 i j k, moved c q a b a1 b1 i -> moved c q a1 b1 a2 b2 j -> k = (i + j)%Z -> moved c q a b a2 b2 k.
Proof.
  intros c q a b a1 b1 a2 b2 i j k [A1 A2] [B1 B2] ->. unfold moved. rewrite B1, B2, A1, A2, inject_Z_plus. split; ring.
Qed.

(** one rank *)
Lemma rank_smooth : forall c q L Lz step NN t m v n0 (F : nat -> nat -> nat -> Q) (j : nat -> nat -> nat -> Z) n,
  (0 < c)%Q -> 0 < step -> L mod step = 0 -> 4 <= L -> goodThreads L Lz step NN t ->
  (forall y z, y < L -> z < Lz -> smoothRow c L (fun x => F x y z)) -> (forall z, z < Lz -> smoothRow c L (fun y => F 0 y z)) ->
  (forall x y z, x < L -> y < L -> z < Lz -> (m ((z + NN) * (L * L) + planeSite L step x y)%nat == F x y z + per c (j x y z))%Q) ->
  (forall z, z < Lz -> j 0 0 z = n) ->
  exists m' v' n' sd' N, (forall fuel, N <= fuel ->
    mendRank Masks fuel c q L Lz step NN (t_bs t) (t_order t) (t_bv t) (t_vorder t) (t_sd t) (m, v, n0) = Some (m', v', n', sd')) /\
    (forall x y z, x < L -> y < L -> z < Lz ->
      moved c q (m ((z + NN) * (L * L) + planeSite L step x y)) (v (z * (L * L) + planeSite L step x y))
        (m' ((z + NN) * (L * L) + planeSite L step x y)) (v' (z * (L * L) + planeSite L step x y)) (n - j x y z)).
Proof.
  intros c q L Lz step NN t m v n0 F j n Hc Hs Hm HL (O1 & O2 & O3 & O4) SmX SmY Ef Hn.
  destruct (mend_slices c q L Lz step NN (t_bs t) (t_order t) m v Hc Hs Hm HL O1 O2) as (m1 & v1 & cnt & N1 & E1 & R1 & F1 & F2).
  destruct (mend_volume_partial c q L Lz step (t_bv t) (t_vorder t) (fun p => m1 (NN * (L * L) + p)) v1 (t_sd t) Hc Hs ltac:(lia) Hm O3 O4)
    as (st & cnt2 & N2 & E2 & R2 & _ & _).
  do 4 eexists. exists (Nat.max N1 N2). split.
  { intros fuel Hf. unfold mendRank. rewrite E1 by lia. cbn [bind]. rewrite E2 by lia. cbn [bind]. reflexivity. }
  assert (Idx : forall z p, (z + NN) * (L * L) + p = NN * (L * L) + (z * (L * L) + p)) by (intros; lia).
  (* after the slices *)
  assert (S1 : forall y z, y < L -> z < Lz -> moved c q (m ((z + NN) * (L * L) + planeSite L step 0 y)) (v (z * (L * L) + planeSite L step 0 y))
     (m1 ((z + NN) * (L * L) + planeSite L step 0 y)) (v1 (z * (L * L) + planeSite L step 0 y)) (n - j 0 y z)).
  { intros y z Hy Hz. rewrite <- (Hn z Hz).
    apply (row_smooth c q (noJump c) L (fun y => m ((z + NN) * (L * L) + planeSite L step 0 y)) (fun y => v (z * (L * L) + planeSite L step 0 y))
             (fun y => m1 ((z + NN) * (L * L) + planeSite L step 0 y)) (fun y => v1 (z * (L * L) + planeSite L step 0 y)) (cnt z) (fun y => F 0 y z) (fun y => j 0 y z)).
    - exact Hc.
    - lia.
    - apply strict_C.
    - now apply R1.
    - now apply SmY.
    - intros y' Hy'. apply Ef; lia.
    - exact Hy. }
  assert (S2 : forall x y z, 0 < x -> x < L -> y < L -> z < Lz -> m1 ((z + NN) * (L * L) + planeSite L step x y) = m ((z + NN) * (L * L) + planeSite L step x y) /\
     v1 (z * (L * L) + planeSite L step x y) = v (z * (L * L) + planeSite L step x y)).
  { intros x y z Hx0 Hx Hy Hz. split.
    - apply F1. intros z' y' Hz' Hy' C.
      destruct (Nat.div_mod_unique (L * L) (z + NN) (z' + NN) (planeSite L step x y) (planeSite L step 0 y')) as [_ C2];
        [ apply plane_lt; (assumption || lia) | apply plane_lt; (assumption || lia) | lia | ].
      apply plane_inj in C2; (assumption || lia).
    - apply F2. intros z' y' Hz' Hy' C.
      destruct (Nat.div_mod_unique (L * L) z z' (planeSite L step x y) (planeSite L step 0 y')) as [_ C2];
        [ apply plane_lt; (assumption || lia) | apply plane_lt; (assumption || lia) | lia | ].
      apply plane_inj in C2; (assumption || lia). }
  set (j1 := fun x y z => if x =? 0 then n else j x y z).
  intros x y z Hx Hy Hz.
  assert (M : moved c q (m1 (NN * (L * L) + (z * (L * L) + planeSite L step x y))) (v1 (z * (L * L) + planeSite L step x y))
     (k_m st (z * (L * L) + planeSite L step x y)) (k_v st (z * (L * L) + planeSite L step x y)) (n - j1 x y z)).
  { change (n - j1 x y z)%Z with (j1 0%nat y z - j1 x y z)%Z.
    apply (row_smooth c q (noJumpHalf c) L (fun x => m1 (NN * (L * L) + (z * (L * L) + planeSite L step x y))) (fun x => v1 (z * (L * L) + planeSite L step x y))
             (fun x => k_m st (z * (L * L) + planeSite L step x y)) (fun x => k_v st (z * (L * L) + planeSite L step x y)) (cnt2 y z) (fun x => F x y z) (fun x => j1 x y z)).
    - exact Hc.
    - lia.
    - apply strict_H.
    - now apply R2.
    - now apply SmX.
    - intros x' Hx'. rewrite <- Idx. unfold j1. destruct (Nat.eqb_spec x' 0) as [-> | D].
      + destruct (S1 y z Hy Hz) as [M1 _]. rewrite M1, (Ef 0 y z) by lia. fold (per c (n - j 0 y z)).
        unfold Z.sub. rewrite per_add, per_opp. ring.
      + destruct (S2 x' y z ltac:(lia) Hx' Hy Hz) as [-> _]. now apply Ef.
    - exact Hx. }
  assert (Sh : (if (z + NN) * (L * L) + planeSite L step x y <? NN * (L * L) then m1 ((z + NN) * (L * L) + planeSite L step x y)
                else k_m st ((z + NN) * (L * L) + planeSite L step x y - NN * (L * L))) = k_m st (z * (L * L) + planeSite L step x y)).
  { destruct (Nat.ltb_spec ((z + NN) * (L * L) + planeSite L step x y) (NN * (L * L))) as [C | C]; [ exfalso; rewrite Idx in C; lia | ].
    f_equal. rewrite Idx. lia. }
  cbv beta. rewrite Sh. rewrite <- Idx in M. unfold j1 in M. destruct (Nat.eqb_spec x 0) as [-> | D].
  - apply (moved_trans c q _ _ _ _ _ _ (n - j 0 y z) (n - n) _ (S1 y z Hy Hz) M). lia.
  - destruct (S2 x y z ltac:(lia) Hx Hy Hz) as [E3 E4]. rewrite E3, E4 in M. exact M.
Qed.

(** A field that is smooth up to whole periods, for every number of ranks, sharing among
    threads, contents of buffers: mending ends and makes it smooth. F is a smooth periodic angle
    (neighbours along x, along y in the plane x = 0, and along z on the line x = y = 0, differ by less than half a period c),
    stored up to j periods. Afterwards every rank stores F plus one common number n of
    periods, and the velocities are shifted accordingly. *)
Theorem mend_theta_smooth_partial : forall c q P L Lz step NN th ms vs (F : nat -> nat -> nat -> Q) (j : nat -> nat -> nat -> Z),
  (0 < c)%Q -> 0 < P -> 0 < Lz -> 0 < NN -> 0 < step -> L mod step = 0 -> 4 <= L ->
  (forall r, r < P -> goodThreads L Lz step NN (th r)) ->
  (forall y Z, y < L -> Z < P * Lz -> smoothRow c L (fun x => F x y Z)) ->
  (forall Z, Z < P * Lz -> smoothRow c L (fun y => F 0 y Z)) ->
  smoothRow c (P * Lz) (fun Z => F 0 0 Z) ->
  (forall r x y z, r < P -> x < L -> y < L -> z < Lz ->
    (ms r ((z + NN) * (L * L) + planeSite L step x y)%nat == F x y (r * Lz + z)%nat + inject_Z (j x y (r * Lz + z)%nat) * (2 * c))%Q) ->
  exists n st count N, (forall fuel, N <= fuel -> mendTheta Masks fuel c q P L Lz step NN th ms vs = Some (st, count)) /\
    forall r x y z, r < P -> x < L -> y < L -> z < Lz ->
      let '(m', v', _) := st r in
      (m' ((z + NN) * (L * L) + planeSite L step x y)%nat == F x y (r * Lz + z)%nat + inject_Z n * (2 * c) /\
       v' (z * (L * L) + planeSite L step x y)%nat == vs r (z * (L * L) + planeSite L step x y)%nat + inject_Z (n - j x y (r * Lz + z)%nat) * q)%Q.
Proof.
  intros c q P L Lz step NN th ms vs F j Hc HP HLz HN Hs Hm HL Hth SmX SmY SmZ Ef.
  destruct (mend_line c q P Lz (L * L) NN ms vs Hc HP HLz ltac:(nia) HN) as (k & ln & N1 & E1 & K1 & K2 & _ & _ & R1).
  assert (T0 : 0 < P * Lz) by nia.
  assert (KZ : forall Z, Z < P * Lz -> (k Z = j 0%nat 0%nat (P * Lz - 1)%nat - j 0%nat 0%nat Z)%Z).
  { apply (line_smooth c (lineAt Lz (L * L) NN ms) k (P * Lz) (fun Z => F 0 0 Z) (fun Z => j 0 0 Z)); try assumption.
    intros Z HZ. unfold lineAt. assert (Hr : Z / Lz < P) by (apply Nat.div_lt_upper_bound; lia).
    pose proof (Nat.mod_upper_bound Z Lz ltac:(lia)) as Hz.
    specialize (Ef (Z / Lz) 0 0 (Z mod Lz) Hr ltac:(lia) ltac:(lia) Hz). rewrite plane_00, Nat.add_0_r in Ef.
    replace (Z / Lz * Lz + Z mod Lz) with Z in Ef by (rewrite (Nat.div_mod Z Lz) at 1 by lia; lia).
    replace (L * L * (NN + Z mod Lz)) with ((Z mod Lz + NN) * (L * L)) by lia. exact Ef. }
  set (n := j 0 0 (P * Lz - 1)) in *. exists n.
  (* the ranks *)
  assert (Hrk : forall r, r < P -> exists m' v' n' sd' N, (forall fuel, N <= fuel ->
     mendRank Masks fuel c q L Lz step NN (t_bs (th r)) (t_order (th r)) (t_bv (th r)) (t_vorder (th r)) (t_sd (th r)) (ln r) = Some (m', v', n', sd')) /\
     (forall x y z, x < L -> y < L -> z < Lz -> moved c q (ms r ((z + NN) * (L * L) + planeSite L step x y)) (vs r (z * (L * L) + planeSite L step x y))
        (m' ((z + NN) * (L * L) + planeSite L step x y)) (v' (z * (L * L) + planeSite L step x y)) (n - j x y (r * Lz + z)%nat))).
  { intros r Hr. destruct (R1 r Hr) as (m0 & v0 & E0 & M0 & F0 & G0). rewrite E0.
    set (j0 := fun x y z => if (x =? 0) && (y =? 0) then n else j x y (r * Lz + z)).
    assert (HZ : forall z, z < Lz -> r * Lz + z < P * Lz).
    { intros z Hz. assert ((r + 1) * Lz <= P * Lz) by (apply Nat.mul_le_mono_r; lia). lia. }
    assert (Site : forall x y z, x < L -> y < L -> z < Lz -> x <> 0 \/ y <> 0 ->
      m0 ((z + NN) * (L * L) + planeSite L step x y) = ms r ((z + NN) * (L * L) + planeSite L step x y) /\
      v0 (z * (L * L) + planeSite L step x y) = vs r (z * (L * L) + planeSite L step x y)).
    { intros x y z Hx Hy Hz D. pose proof (plane_lt L step x y Hs ltac:(lia) Hm Hx Hy) as PL.
      assert (P0 : planeSite L step x y <> 0).
      { intros C. rewrite <- (plane_00 L step) in C. apply plane_inj in C; (assumption || lia). }
      split.
      - apply F0.
        + intros i Hi C. destruct (Nat.div_mod_unique (L * L) (z + NN) (NN + i) (planeSite L step x y) 0); lia.
        + intros C. destruct (Nat.div_mod_unique (L * L) (z + NN) (NN - 1) (planeSite L step x y) 0); lia.
      - apply G0. intros i Hi C. destruct (Nat.div_mod_unique (L * L) z i (planeSite L step x y) 0); lia. }
    assert (Org : forall z, z < Lz -> moved c q (ms r ((z + NN) * (L * L) + planeSite L step 0 0)) (vs r (z * (L * L) + planeSite L step 0 0))
       (m0 ((z + NN) * (L * L) + planeSite L step 0 0)) (v0 (z * (L * L) + planeSite L step 0 0)) (n - j 0%nat 0%nat (r * Lz + z)%nat)).
    { intros z Hz. rewrite plane_00, !Nat.add_0_r. rewrite <- KZ by now apply HZ. replace ((z + NN) * (L * L)) with (L * L * (NN + z)) by lia. now apply M0. }
    destruct (rank_smooth c q L Lz step NN (th r) m0 v0 (list_sum (map (fun i => Z.abs_nat (k (r * Lz + i))) (seq 0 Lz)))
                (fun x y z => F x y (r * Lz + z)) j0 n Hc Hs Hm HL (Hth r Hr)) as (m' & v' & n' & sd' & N & E & M).
    - intros y z Hy Hz. apply SmX; [ exact Hy | now apply HZ ].
    - intros z Hz. apply SmY. now apply HZ.
    - intros x y z Hx Hy Hz. unfold j0. destruct (Nat.eqb_spec x 0) as [-> | Dx]; [ destruct (Nat.eqb_spec y 0) as [-> | Dy] | ]; cbn [andb].
      + destruct (Org z Hz) as [O1 _]. rewrite O1, (Ef r 0 0 z) by lia. unfold Z.sub. rewrite inject_Z_plus, inject_Z_opp. unfold per. ring.
      + destruct (Site 0 y z Hx Hy Hz ltac:(lia)) as [-> _]. now apply Ef.
      + destruct (Site x y z Hx Hy Hz ltac:(lia)) as [-> _]. now apply Ef.
    - intros z Hz. reflexivity.
    - exists m', v', n', sd', N. split; [ exact E | ]. intros x y z Hx Hy Hz. specialize (M x y z Hx Hy Hz). unfold j0 in M.
      destruct (Nat.eqb_spec x 0) as [-> | Dx]; [ destruct (Nat.eqb_spec y 0) as [-> | Dy] | ]; cbn [andb] in M.
      + apply (moved_trans c q _ _ _ _ _ _ _ _ _ (Org z Hz) M). lia.
      + destruct (Site 0 y z Hx Hy Hz ltac:(lia)) as [E3 E4]. rewrite E3, E4 in M. exact M.
      + destruct (Site x y z Hx Hy Hz ltac:(lia)) as [E3 E4]. rewrite E3, E4 in M. exact M. }
  (* all ranks, one after another in the model *)
  assert (All : forall a, a <= P -> exists st count N, (forall fuel, N <= fuel ->
     foldM (fun st r => let t := th r in
       bind (mendRank Masks fuel c q L Lz step NN (t_bs t) (t_order t) (t_bv t) (t_vorder t) (t_sd t) (fst st r))
         (fun o => Some (updR (fst st) r (fst o), snd st + snd (fst o)))) (seq 0 a) (ln, 0) = Some (st, count)) /\
     (forall r, a <= r -> st r = ln r) /\
     (forall r, r < a -> exists m' v' n', st r = (m', v', n') /\
        (forall x y z, x < L -> y < L -> z < Lz -> moved c q (ms r ((z + NN) * (L * L) + planeSite L step x y)) (vs r (z * (L * L) + planeSite L step x y))
        (m' ((z + NN) * (L * L) + planeSite L step x y)) (v' (z * (L * L) + planeSite L step x y)) (n - j x y (r * Lz + z)%nat)))).
  { induction a as [ | a IH ]; intros Ha.
    - exists ln, 0, 0. split; [ reflexivity | ]. split; [ reflexivity | intros r Hr; lia ].
    - destruct (IH ltac:(lia)) as (st & count & N & E & I1 & I2). destruct (Hrk a ltac:(lia)) as (m' & v' & n' & sd' & N' & E' & M').
      exists (updR st a (m', v', n')), (count + n'), (Nat.max N N'). split; [ | split ].
      + intros fuel Hf. rewrite seq_S, foldM_snoc, E by lia. cbn [bind plus fst snd]. cbv zeta. rewrite I1, E' by lia. reflexivity.
      + intros r Hr. unfold updR. destruct (Nat.eqb_spec r a); [ lia | apply I1; lia ].
      + intros r Hr. unfold updR. destruct (Nat.eqb_spec r a) as [-> | D]; [ exists m', v', n'; split; [ reflexivity | exact M' ] | apply I2; lia ]. }
  destruct (All P ltac:(lia)) as (st & count & N & E & _ & I2). exists st, count, (Nat.max N1 N). split.
  - intros fuel Hf. unfold mendTheta. rewrite E1 by lia. cbn [bind]. apply E. lia.
  - intros r x y z Hr Hx Hy Hz. destruct (I2 r Hr) as (m' & v' & n' & -> & M). destruct (M x y z Hx Hy Hz) as [M1 M2].
    split; [ | exact M2 ]. rewrite M1, (Ef r x y z) by assumption. unfold Z.sub. rewrite inject_Z_plus, inject_Z_opp. ring.
Qed.

(** ** C28 refuted for AVX-512 in double precision *)
Lemma stale_stuck : forall c q step p n ref a b, (0 < c)%Q -> a < step -> b < step -> p a = p b -> n a = n b ->
  forall fuel m v count, (2 * c <= m b - ref b - (m a - ref a))%Q -> vecLoopStale fuel c q step p n ref m v count = None.
Proof.
  intros c q step p n ref a b Hc Ha Hb Hp Hn. induction fuel as [ | fuel IH ]; intros m v count D.
  all: assert (X : existsb (orM (maskP c ref m) (maskM c ref m)) (seq 0 step) = true).
  1,3: apply existsb_exists; destruct (orM (maskP c ref m) (maskM c ref m) a) eqn:Ea; [ exists a; split; [ apply in_seq; lia | exact Ea ] | ];
    exists b; split; [ apply in_seq; lia | ]; unfold orM, maskP, maskM, Qleb in *; apply Bool.orb_false_elim in Ea; destruct Ea as [E1 E2];
    apply Bool.orb_true_iff; left; rewrite Bool.negb_true_iff; apply Bool.not_true_is_false; intros E3;
    rewrite Qltb_iff in E3; apply Bool.not_true_iff_false in E2; rewrite Qltb_iff in E2; apply Qnot_lt_le in E2; revert E2 E3 D; clear; intros; lra.
  all: cbn [vecLoopStale]; rewrite X.
  1: reflexivity.
  apply IH. unfold moveLanes. rewrite Hp, Hn. destruct (p b), (n b); revert D; clear; intros; lra.
Qed.
(** If two values of one vector at x = 1 exceed the values at x = 0 by a jump each, and one jump is larger by
    a period or more, the first round of the volume pass never ends, however long it is left running. *)
Theorem avx512_mend_refuted : forall fuel c q step bs m v sd a b, (0 < c)%Q -> 2 <= step -> a < step -> b < step ->
  (c <= m (step + a)%nat - m a)%Q -> (m (step + a)%nat - m a + 2 * c <= m (step + b)%nat - m b)%Q ->
  mendVolume Avx512d fuel c q step 1 step bs [(0, 0)] m v sd = None.
Proof.
  intros fuel c q step bs m v sd a b Hc Hs Ha Hb Da Db. unfold mendVolume. rewrite foldM_cons.
  assert (V : volLine Avx512d fuel c q step step (bs (0, 0)) (KS m v (fun i => if i <? step * step * 1 then false else sd i) 0) (0, 0) = None); [ | rewrite V; reflexivity ].
  unfold volLine. cbn [k_m k_v k_sd]. replace (step - 1) with (S (step - 2)) by lia. cbn [seq]. cbv zeta. rewrite foldM_cons. cbn [Nat.mul Nat.add].
  match goal with |- bind (bind ?x _) _ = None => assert (W : x = None); [ | rewrite W; reflexivity ] end.
  unfold volScan. cbv beta iota zeta. cbn [mendVec]. rewrite !Nat.mul_0_l, !Nat.add_0_l.
  assert (LV : forall k, k < step -> loadV (storeV step (storeV step (bs (0, 0)) 0 (loadV m 0)) (2 * (step * step)) (loadV m 0)) 0 k = m k).
  { intros k Hk. unfold loadV, storeV. cbn [Nat.add]. destruct (Nat.leb_spec (2 * (step * step)) k) as [C | _]; [ exfalso; nia | ]. cbn [andb].
    destruct (Nat.ltb_spec k step); [ | lia ]. cbn [Nat.leb andb]. now rewrite Nat.sub_0_r. }
  rewrite (stale_stuck c q step _ _ _ a b Hc Ha Hb).
  - reflexivity.
  - unfold maskP, Qleb. rewrite !LV by assumption. unfold loadV.
    transitivity true; [ | symmetry ]; rewrite Bool.negb_true_iff; apply Bool.not_true_is_false; intros E; rewrite Qltb_iff in E; revert E Da Db Hc; clear; intros; lra.
  - unfold maskM. rewrite !LV by assumption. unfold loadV.
    transitivity false; [ | symmetry ]; apply Bool.not_true_is_false; intros E; rewrite Qltb_iff in E; revert E Da Db Hc; clear; intros; lra.
  - rewrite !LV by assumption. unfold loadV. revert Da Db; clear; intros; lra.
Qed.
(** an angle that is smooth up to periods of 2 (zero everywhere, stored with one period too many
    at (1, 0) and two at (1, 1)) on which this build hangs; the other builds mend it *)
Definition twoLanes (i : nat) : Q := if i =? 8 then 2 else if i =? 9 then 4 else 0.
Example avx512_mend_refuted_case : forall fuel, mendVolume Avx512d fuel 1 1 8 1 8 (fun _ _ => 0%Q) [(0, 0)] twoLanes (fun _ => 0%Q) (fun _ => false) = None.
Proof. intros fuel. apply (avx512_mend_refuted fuel 1 1 8 _ _ _ _ 0 1); cbv; (lia || discriminate || reflexivity). Qed.
Example other_builds_case : exists st, mendVolume Masks 3 1 1 8 1 8 (fun _ _ => 0%Q) [(0, 0)] twoLanes (fun _ => 0%Q) (fun _ => false) = Some st /\
  k_count st = 2 /\ forall i, i < 64 -> Qeq_bool (k_m st i) 0 = true.
Proof.
  eexists. split; [ vm_compute; reflexivity | ]. split; [ reflexivity | ]. intros i Hi.
  assert (X : forallb (fun i => Qeq_bool (k_m (match mendVolume Masks 3 1 1 8 1 8 (fun _ _ => 0%Q) [(0, 0)] twoLanes (fun _ => 0%Q) (fun _ => false) with Some st => st | None => KS twoLanes twoLanes (fun _ => false) 0 end) i) 0) (seq 0 64) = true) by (vm_compute; reflexivity).
  rewrite forallb_forall in X. specialize (X i ltac:(apply in_seq; lia)). exact X.
Qed.

(** ** A case for the theorems above: 2 ranks, 4 x 4 x 4 sites, 2 lanes, 1 ghost slice *)
Definition exTh : threads := TH (fun _ _ => 0%Q) [2; 1] (fun _ _ => 7%Q) [(1, 1); (0, 0); (1, 0); (0, 1)] (fun _ => true).
Definition exF (x y w : nat) : Q := if (x =? 2) && (y =? 3) then 1 # 2 else 0.
Definition exJ (x y w : nat) : Z := if (x =? 1) && (w =? 3) then 2%Z else if (x =? 0) && (y =? 0) && (w =? 1) then (-1)%Z else 0%Z.
Definition exM (r p : nat) : Q :=
  let z := p / 16 - 1 in let y := p mod 16 / 8 + 2 * (p mod 2) in let x := (p mod 8) / 2 in
  (exF x y (r * 2 + z) + inject_Z (exJ x y (r * 2 + z)) * (2 * 1))%Q.
Lemma small_all : forall (P : nat -> bool) n, forallb P (seq 0 n) = true -> forall i, i < n -> P i = true.
Proof. intros P n H i Hi. rewrite forallb_forall in H. apply H. apply in_seq. lia. Qed.
Example mend_theta_smooth_case :
  (forall r, r < 2 -> goodThreads 4 2 2 1 exTh) /\
  (forall y Z, y < 4 -> Z < 2 * 2 -> smoothRow 1 4 (fun x => exF x y Z)) /\
  (forall Z, Z < 2 * 2 -> smoothRow 1 4 (fun y => exF 0 y Z)) /\ smoothRow 1 (2 * 2) (fun Z => exF 0 0 Z) /\
  (forall r x y z, r < 2 -> x < 4 -> y < 4 -> z < 2 ->
    (exM r ((z + 1) * (4 * 4) + planeSite 4 2 x y)%nat == exF x y (r * 2 + z)%nat + inject_Z (exJ x y (r * 2 + z)%nat) * (2 * 1))%Q) /\
  exJ 1 0 3 = 2%Z /\ exJ 0 0 1 = (-1)%Z /\ (exF 2 3 0 == 1 # 2)%Q.
Proof.
  split; [ | split; [ | split; [ | split; [ | split ] ] ] ].
  - intros _ _. split; [ | split; [ | split ] ].
    + repeat constructor; cbn; intuition discriminate.
    + intros z. cbn. lia.
    + repeat constructor; cbn; intuition discriminate.
    + intros z yl. cbn. change (4 / 2) with 2. split.
      * intros H. repeat destruct H as [H | H]; try (injection H; intros; lia). destruct H.
      * intros [Hz Hy]. destruct z as [ | [ | z ] ]; destruct yl as [ | [ | yl ] ]; auto 6; lia.
  - intros y Z _ _ x Hx. unfold exF. destruct (y =? 3); do 4 (destruct x as [ | x ]; [ vm_compute; reflexivity | ]); lia.
  - intros Z _ y Hy. unfold exF. do 4 (destruct y as [ | y ]; [ vm_compute; reflexivity | ]); lia.
  - intros Z HZ. vm_compute. reflexivity.
  - intros r x y z Hr Hx Hy Hz. apply Qeq_bool_eq.
    do 2 (destruct r as [ | r ]; [ do 2 (destruct z as [ | z ]; [ do 4 (destruct x as [ | x ]; [ do 4 (destruct y as [ | y ]; [ vm_compute; reflexivity | ]); lia | ]); lia | ]); lia | ]); lia.
  - split; [ reflexivity | split; [ reflexivity | vm_compute; reflexivity ] ].
Qed.
(** and mending it ends with the jumps removed *)
Example mend_theta_runs : match mendTheta Masks 5 1 3 2 4 2 2 1 (fun _ => exTh) exM (fun _ _ => 0%Q) with
  | Some (st, count) => (0 < count) /\ Qeq_bool (fst (fst (st 1)) (2 * 16 + planeSite 4 2 1 0)) 0 = true | None => False end.
Proof. vm_compute. split; [ lia | reflexivity ]. Qed.

Print Assumptions mend_line.
Print Assumptions mend_slices.
Print Assumptions mend_volume_partial.
Print Assumptions mended_row_smooth.
Print Assumptions mended_row_untouched.
Print Assumptions mend_theta_smooth_partial.
Print Assumptions avx512_mend_refuted.
