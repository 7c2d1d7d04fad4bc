(** The theorems about binned spectra (C32, C33). *)
From Coq Require Import List Arith ZArith QArith Lia Lqa Permutation Bool Qfield.
From Verif Require Import PowModel PowSpec PowProofs.
Import ListNotations.
Local Open Scope nat_scope.

(** a grid of even length whose side is divided evenly among the ranks *)
Definition evenGrid (g : sgeom) : Prop :=
  1 <= nbins g /\ 1 <= sR g /\ 1 <= sLz g /\ sLy g mod sR g = 0 /\ exists n, 1 <= n /\ sLy g = 2 * n.
(** any division of the modes among the threads, done in any order *)
Definition anyWork (g : sgeom) (owner : nat -> nat -> nat) (order : nat -> list nat) : Prop :=
  (forall r i, owner r i < sT g) /\ (forall r, r < sR g -> Permutation (order r) (seq 0 (nModeshc g))).

Section Fill.
Variables (g : sgeom) (c : sconst) (st : stype) (pw : nat -> nat -> Q) (owner : nat -> nat -> nat) (order : nat -> list nat).
Hypothesis HG : evenGrid g.
Hypothesis HW : anyWork g owner order.

Lemma local_ok bn r : r < sR g -> exists tb, binModes g c st r (pw r) (owner r) (order r) = Some tb /\
  forall b j, j < nbins g -> merged st b = true ->
    (merge g c st tb (clear st (bn r)) b j == clear st (bn r) b j +
      sumQ (nModeshc g) (fun idx => if (mybin g r idx =? j)%nat then term g c st r (pw r) idx b else 0) * normOf c st)%Q.
Proof.
  intros Hr. destruct HG as (HB & HR & HZ & HD & n & Hn & HL). destruct HW as [HO HP].
  destruct (rank_sum g c st r (pw r) (owner r) (order r) (HP r Hr)) as (tb & T1 & T2).
  - intros idx Hi. apply mybin_small; try assumption. lia.
  - apply HO.
  - exists tb. split; [exact T1|]. intros b j Hj HM. unfold merge. rewrite HM. rewrite sumQ_scal, (T2 b j Hj). reflexivity.
Qed.

Lemma merge_other tb bn b j : merged st b = false -> merge g c st tb (clear st bn) b j = bn b j.
Proof.
  intros H. unfold merge. rewrite H. unfold clear. destruct (cleared st b) eqn:E; [|reflexivity].
  destruct st, b; discriminate.
Qed.

Lemma fill_total bn : exists bn', fillBins g c st pw owner order bn = Some bn' /\
  forall b j, j < nbins g ->
    (merged st b = false -> forall r, r < sR g -> bn' r b j = bn r b j) /\
    (reduced st b = true -> forall r, (bn' r b j == sumQ (sR g) (fun r => clear st (bn r) b j) + total g c st pw b j * normOf c st)%Q) /\
    (merged st b = true -> reduced st b = false ->
       (sumQ (sR g) (fun r => bn' r b j) == sumQ (sR g) (fun r => clear st (bn r) b j) + total g c st pw b j * normOf c st)%Q).
Proof.
  unfold fillBins.
  assert (HF : forallb (fun r => match match binModes g c st r (pw r) (owner r) (order r) with
       | Some tb => Some (merge g c st tb (clear st (bn r))) | None => None end with Some _ => true | None => false end) (seq 0 (sR g)) = true).
  { apply forallb_forall. intros r Hr. apply in_seq in Hr. destruct (local_ok bn r ltac:(lia)) as (tb & E & _). rewrite E. reflexivity. }
  rewrite HF. eexists. split; [reflexivity|]. intros b j Hj.
  assert (HT : merged st b = true -> (sumQ (sR g) (fun r => match match binModes g c st r (pw r) (owner r) (order r) with
       | Some tb => Some (merge g c st tb (clear st (bn r))) | None => None end with Some b => b | None => bn r end b j)
     == sumQ (sR g) (fun r => clear st (bn r) b j) + total g c st pw b j * normOf c st)%Q).
  { intros HM. unfold total. rewrite <- sumQ_scal, <- sumQ_plus. apply sumQ_ext. intros r Hr.
    destruct (local_ok bn r Hr) as (tb & E & K). rewrite E. apply K; assumption. }
  split; [|split].
  - intros HM r Hr. assert (HD : reduced st b = false) by (unfold reduced; destruct st; try exact HM; reflexivity).
    rewrite HD. destruct (local_ok bn r Hr) as (tb & E & _). rewrite E. apply merge_other. exact HM.
  - intros HD r. rewrite HD. apply HT. unfold reduced in HD. destruct st; try exact HD; discriminate.
  - intros HM HD. rewrite <- HT by exact HM. apply sumQ_ext. intros r Hr. rewrite HD. reflexivity.
Qed.

(** With the tables of the model: a reduced vector gets, on every rank, the sum of what the ranks had and the
    terms of all modes of the full grid in the bin; the other vectors are kept. *)
Lemma fill_model P bn : spread g P pw -> realPower g P ->
  exists bn', fillBins g c st pw owner order bn = Some bn' /\
  forall b j, j < nbins g ->
    (merged st b = false -> forall r, r < sR g -> bn' r b j = bn r b j) /\
    (reduced st b = true -> forall r, (bn' r b j == sumQ (sR g) (fun r => clear st (bn r) b j) + normOf c st * shellSum g j (modeTermM g c st b P))%Q) /\
    (merged st b = true -> reduced st b = false ->
       (sumQ (sR g) (fun r => bn' r b j) == sumQ (sR g) (fun r => clear st (bn r) b j) + normOf c st * shellSum g j (modeTermM g c st b P))%Q).
Proof.
  intros HS HP. destruct (fill_total bn) as (bn' & F & K). exists bn'. split; [exact F|]. intros b j Hj.
  destruct (K b j Hj) as (K1 & K2 & K3).
  assert (E : (total g c st pw b j == shellSum g j (modeTermM g c st b P))%Q).
  { destruct HG as (HB & HR & HZ & HD & n & Hn & HL). apply (total_full g HB HR) with (n := n); try assumption. lia. }
  split; [exact K1|]. split.
  - intros HD r. rewrite (K2 HD r), E. ring.
  - intros HM HD. rewrite (K3 HM HD), E. ring.
Qed.

(** the tables of the model against those of the specification *)
Lemma merged_target b : merged st b = target st b || alsoSummed st b.
Proof. destruct st, b; reflexivity. Qed.
Lemma reduced_target b : st <> SGaSadd -> reduced st b = target st b || alsoSummed st b.
Proof. intros H. rewrite <- merged_target. unfold reduced. destruct st; try reflexivity. congruence. Qed.
Lemma modeTerm_eq P b x y z : target st b = true -> (modeTermM g c st b P x y z == modeTerm g c st b P x y z)%Q.
Proof.
  intros H.
  assert (K : inject_Z (Z.of_nat (ksq (Z.abs (freq (sLy g) x), Z.abs (freq (sLy g) y), Z.abs (freq (sTz g) z)))) = ksquare g x y z).
  { unfold ksq, ksquare. rewrite Z2Nat.id by (pose proof (Z.square_nonneg (Z.abs (freq (sLy g) x)));
      pose proof (Z.square_nonneg (Z.abs (freq (sLy g) y))); pose proof (Z.square_nonneg (Z.abs (freq (sTz g) z))); lia).
    rewrite <- !Z.abs_mul, !Z.abs_eq by apply Z.square_nonneg. reflexivity. }
  unfold modeTermM, kvec, contrib. rewrite K.
  destruct st, b; try discriminate H; cbn [modeTerm modulus2]; try ring; try reflexivity;
    unfold along; destruct (ctl c) as [|[|[|n]]]; rewrite ?Z.abs_involutive; reflexivity.
Qed.
Lemma modeTerm_none P b x y z : alsoSummed st b = true -> (modeTermM g c st b P x y z == 0)%Q.
Proof. intros H. unfold modeTermM, kvec, contrib. destruct st, b; try discriminate H; reflexivity. Qed.
Lemma shellSum_ext j f h : (forall x y z, (f x y z == h x y z)%Q) -> (shellSum g j f == shellSum g j h)%Q.
Proof.
  intros H. unfold shellSum. apply sumQ_ext. intros z Hz. apply sumQ_ext. intros y Hy. apply sumQ_ext. intros x Hx.
  destruct (inShellb g (kvec g x y z) j); [apply H|reflexivity].
Qed.
Lemma shellSum_0 j f : (forall x y z, (f x y z == 0)%Q) -> (shellSum g j f == 0)%Q.
Proof.
  intros H. unfold shellSum. apply sumQ_zero. intros z Hz. apply sumQ_zero. intros y Hy. apply sumQ_zero. intros x Hx.
  destruct (inShellb g (kvec g x y z) j); [apply H|reflexivity].
Qed.

(** Filling never fails. A vector that is asked for gets, on every rank, the terms of all modes of the full
    grid in the bin, added to what the ranks had (counts start afresh and have no norm). One direction of a
    gradient is left divided among the ranks. Three combinations sum a vector over the ranks although nothing
    is added to it. Every other vector is kept. *)
Theorem spectrum_fill_partial P bn : spread g P pw -> realPower g P ->
  exists bn', fillBins g c st pw owner order bn = Some bn' /\
  forall b j, j < nbins g ->
    (target st b = true -> st <> SGaSadd -> forall r,
       (bn' r b j == (if isCount st then 0 else sumQ (sR g) (fun r => bn r b j)) +
                     (if isCount st then 1 else snorm c) * shellSum g j (modeTerm g c st b P))%Q) /\
    (target st b = true -> st = SGaSadd ->
       (sumQ (sR g) (fun r => bn' r b j) == sumQ (sR g) (fun r => bn r b j) + snorm c * shellSum g j (modeTerm g c st b P))%Q) /\
    (alsoSummed st b = true -> forall r, (bn' r b j == sumQ (sR g) (fun r => bn r b j))%Q) /\
    (target st b = false -> alsoSummed st b = false -> forall r, r < sR g -> bn' r b j = bn r b j).
Proof.
  intros HS HP. destruct (fill_model P bn HS HP) as (bn' & F & K). exists bn'. split; [exact F|]. intros b j Hj.
  destruct (K b j Hj) as (K1 & K2 & K3). split; [|split; [|split]].
  - intros HT HN r. rewrite (K2 ltac:(rewrite reduced_target, HT by exact HN; reflexivity) r).
    rewrite (shellSum_ext j _ (modeTerm g c st b P)) by (intros; apply modeTerm_eq; exact HT).
    destruct st, b; try discriminate HT; cbn [isCount normOf]; unfold clear; cbn [cleared]; try reflexivity;
      rewrite (sumQ_zero (sR g)) by (intros; reflexivity); reflexivity.
  - intros HT HN. rewrite K3 by (rewrite ?merged_target, ?HT, ?HN; reflexivity).
    rewrite (shellSum_ext j _ (modeTerm g c st b P)) by (intros; apply modeTerm_eq; exact HT).
    rewrite HN in *. destruct b; try discriminate HT. reflexivity.
  - intros HA r.
    assert (HN : st <> SGaSadd) by (intros E; rewrite E in HA; destruct b; discriminate HA).
    rewrite (K2 ltac:(rewrite reduced_target, HA, orb_true_r by exact HN; reflexivity) r).
    rewrite (shellSum_0 j) by (intros; apply modeTerm_none; exact HA).
    destruct st, b; try discriminate HA; unfold clear; cbn [cleared]; ring.
  - intros HT HA r Hr. apply K1; [|exact Hr]. rewrite merged_target, HT, HA. reflexivity.
Qed.
End Fill.

(** ** C32: the number of modes *)
Lemma sum_shells g x y z : evenGrid g -> x < sLy g -> y < sLy g -> z < sTz g ->
  (sumQ (nbins g) (fun j => if inShellb g (kvec g x y z) j then 1 else 0) == 1)%Q.
Proof.
  intros HG Hx Hy Hz. destruct HG as (HB & HR & HZ & HD & n & Hn & HL).
  rewrite (sumQ_single _ _ (binOf g (ksq (kvec g x y z)))).
  - rewrite <- (shell_bin g HB), Nat.eqb_refl. reflexivity.
  - unfold kvec. apply bin_small; [exact HB|..]; apply freq_bound; assumption.
  - intros i Hi Hne. rewrite <- (shell_bin g HB). replace (binOf g (ksq (kvec g x y z)) =? i) with false; [reflexivity|].
    symmetry. apply Nat.eqb_neq. intros E. apply Hne. symmetry. exact E.
Qed.

Lemma sumQ_const n a : (sumQ n (fun _ => a) == inject_Z (Z.of_nat n) * a)%Q.
Proof.
  induction n as [|n IH]; cbn [sumQ]; [reflexivity|]. rewrite IH. replace (Z.of_nat (S n)) with (Z.of_nat n + 1)%Z by lia.
  rewrite inject_Z_plus. ring.
Qed.

(** The count of bin j is the number of modes of the full grid in it, on every rank, and all bins together
    hold every one of the Ly*Ly*Tz modes once. *)
Theorem mode_count_partial g c pw owner order bn : evenGrid g -> anyWork g owner order ->
  exists bn', fillBins g c SNN pw owner order bn = Some bn' /\
  (forall j r, j < nbins g -> (bn' r BNN j == shellSum g j (fun _ _ _ => 1%Q))%Q) /\
  (forall r, (sumQ (nbins g) (bn' r BNN) == inject_Z (Z.of_nat (sLy g * sLy g * sTz g)))%Q).
Proof.
  intros HG HW.
  destruct (fill_total g c SNN pw owner order HG HW bn) as (bn' & F & K). exists bn'. split; [exact F|].
  assert (KC : forall j r, j < nbins g -> (bn' r BNN j == shellSum g j (fun _ _ _ => 1%Q))%Q).
  { intros j r Hj. destruct (K BNN j Hj) as (_ & K2 & _). rewrite (K2 eq_refl r).
    cbn [normOf]. unfold clear; cbn [cleared]. rewrite sumQ_zero by reflexivity.
    change (total g c SNN pw BNN j) with (total g c SNN (fun _ _ => 1%Q) BNN j).
    destruct HG as (HB & HR & HZ & HD & n & Hn & HL).
    rewrite (total_full g HB HR ltac:(lia) HZ HD c SNN (fun _ _ => 1%Q) BNN j (fun _ _ _ => 1%Q) n HL).
    - ring_simplify. unfold shellSum. apply sumQ_ext. intros z Hz. apply sumQ_ext. intros y Hy. apply sumQ_ext. intros x Hx. reflexivity.
    - intros r' x y z _ _ _ _. reflexivity.
    - intros x y z _ _ _. reflexivity. }
  split; [exact KC|]. intros r.
  rewrite (sumQ_ext _ _ (fun j => shellSum g j (fun _ _ _ => 1%Q))) by (intros j Hj; apply KC, Hj).
  unfold shellSum. rewrite sumQ_swap.
  rewrite (sumQ_ext _ _ (fun _ => inject_Z (Z.of_nat (sLy g)) * (inject_Z (Z.of_nat (sLy g)) * 1))%Q).
  - rewrite sumQ_const. rewrite !Nat2Z.inj_mul, !inject_Z_mult. ring.
  - intros z Hz. rewrite sumQ_swap.
    rewrite (sumQ_ext _ _ (fun _ => inject_Z (Z.of_nat (sLy g)) * 1)%Q); [apply sumQ_const|].
    intros y Hy. rewrite sumQ_swap. rewrite (sumQ_ext _ _ (fun _ => 1%Q)); [apply sumQ_const|].
    intros x Hx. apply sum_shells; assumption.
Qed.

Lemma ksq_square g x y z : inject_Z (Z.of_nat (ksq (kvec g x y z))) = ksquare g x y z.
Proof.
  unfold ksq, kvec, ksquare. rewrite Z2Nat.id; [reflexivity|].
  pose proof (Z.square_nonneg (freq (sLy g) x)). pose proof (Z.square_nonneg (freq (sLy g) y)). pose proof (Z.square_nonneg (freq (sTz g) z)). lia.
Qed.

(** The averages of k^2 add the squares of the frequencies of the modes in the bin. *)
Theorem mode_squares_partial g c pw owner order bn : evenGrid g -> anyWork g owner order ->
  exists bn', fillBins g c SAK pw owner order bn = Some bn' /\
  forall j r, j < nbins g -> (bn' r BAK j == shellSum g j (ksquare g))%Q.
Proof.
  intros HG HW.
  destruct (fill_total g c SAK pw owner order HG HW bn) as (bn' & F & K). exists bn'. split; [exact F|].
  intros j r Hj. destruct (K BAK j Hj) as (_ & K2 & _). rewrite (K2 eq_refl r).
  cbn [normOf]. unfold clear; cbn [cleared]. rewrite sumQ_zero by reflexivity.
  change (total g c SAK pw BAK j) with (total g c SAK (fun _ _ => 1%Q) BAK j).
  destruct HG as (HB & HR & HZ & HD & n & Hn & HL).
  rewrite (total_full g HB HR ltac:(lia) HZ HD c SAK (fun _ _ => 1%Q) BAK j (fun _ _ _ => 1%Q) n HL).
  - ring_simplify. unfold shellSum. apply sumQ_ext. intros z Hz. apply sumQ_ext. intros y Hy. apply sumQ_ext. intros x Hx.
    destruct (inShellb g (kvec g x y z) j); [|reflexivity]. unfold modeTermM, kvec. unfold contrib.
    change (Z.abs (freq (sLy g) x), Z.abs (freq (sLy g) y), Z.abs (freq (sTz g) z)) with (absk (freq (sLy g) x, freq (sLy g) y, freq (sTz g) z)).
    rewrite ksq_abs. fold (kvec g x y z). rewrite ksq_square. cbn [modulus2]. ring.
  - intros r' x y z _ _ _ _. reflexivity.
  - intros x y z _ _ _. reflexivity.
Qed.

(** Odd lengths: the modes with the largest kx are counted once instead of twice. *)
Theorem mode_count_odd_refuted : exists g owner order bn',
  sLy g = 3 /\ anyWork g owner order /\ fillBins g (SConst 1 1 1 (fun _ => 1%Q) 1 0) SNN (fun _ _ => 0%Q) owner order zeroBins = Some bn' /\
  ~ (sumQ (nbins g) (bn' 0%nat BNN) == inject_Z (Z.of_nat (sLy g * sLy g * sTz g)))%Q.
Proof.
  set (g := SGeom 3 2 1 1 None). set (owner := fun _ _ : nat => 0). set (order := fun _ : nat => seq 0 (nModeshc g)).
  destruct (fillBins g (SConst 1 1 1 (fun _ => 1%Q) 1 0) SNN (fun _ _ => 0%Q) owner order zeroBins) as [bn'|] eqn:E.
  - exists g, owner, order, bn'. split; [reflexivity|]. split.
    + split; [intros r i; unfold owner; cbn; lia|intros r Hr; apply Permutation_refl].
    + split; [exact E|].
      assert (K : match fillBins g (SConst 1 1 1 (fun _ => 1%Q) 1 0) SNN (fun _ _ => 0%Q) owner order zeroBins with
                  | Some b => Qeq_bool (sumQ (nbins g) (b 0%nat BNN)) (12 # 1) | None => false end = true) by (vm_compute; reflexivity).
      rewrite E in K. apply Qeq_bool_eq in K. rewrite K. vm_compute. discriminate.
  - exfalso.
    assert (K : match fillBins g (SConst 1 1 1 (fun _ => 1%Q) 1 0) SNN (fun _ _ => 0%Q) owner order zeroBins with
                | Some _ => true | None => false end = true) by (vm_compute; reflexivity).
    rewrite E in K. discriminate.
Qed.

(** ** C33: spectra of fields *)
(** What one evaluation from cleared bins gives: the terms of all modes of the full grid. Kinetic spectrum: *)
Theorem spectrum_kinetic_partial g c pw owner order P : evenGrid g -> anyWork g owner order -> spread g P pw -> realPower g P ->
  exists bn', fillBins g c SK pw owner order zeroBins = Some bn' /\
  forall j r, j < nbins g -> (bn' r BK j == snorm c * shellSum g j P)%Q.
Proof.
  intros HG HW HS HP. destruct (fill_model g c SK pw owner order HG HW P zeroBins HS HP) as (bn' & F & K).
  exists bn'. split; [exact F|]. intros j r Hj. destruct (K BK j Hj) as (_ & K2 & _). rewrite (K2 eq_refl r).
  unfold clear; cbn [cleared]. rewrite sumQ_zero by reflexivity. rewrite Qplus_0_l. reflexivity.
Qed.
(** gradient and potential spectra of the angle: *)
Theorem spectrum_gv_partial g c pw owner order P : evenGrid g -> anyWork g owner order -> spread g P pw -> realPower g P ->
  exists bn', fillBins g c SGV pw owner order zeroBins = Some bn' /\
  forall j r, j < nbins g ->
    (bn' r BG j == snorm c * shellSum g j (fun x y z => P x y z * (ksquare g x y z * kfac c)))%Q /\
    (bn' r BV j == snorm c * shellSum g j (fun x y z => P x y z * mass2 c))%Q.
Proof.
  intros HG HW HS HP. destruct (fill_model g c SGV pw owner order HG HW P zeroBins HS HP) as (bn' & F & K).
  exists bn'. split; [exact F|]. intros j r Hj. split.
  - destruct (K BG j Hj) as (_ & K2 & _). rewrite (K2 eq_refl r).
    unfold clear; cbn [cleared]. rewrite sumQ_zero by reflexivity. rewrite Qplus_0_l. cbn [normOf]. apply Qmult_comp; [reflexivity|].
    unfold shellSum. apply sumQ_ext. intros z Hz. apply sumQ_ext. intros y Hy. apply sumQ_ext. intros x Hx.
    destruct (inShellb g (kvec g x y z) j); [|reflexivity]. unfold modeTermM, kvec. unfold contrib.
    change (Z.abs (freq (sLy g) x), Z.abs (freq (sLy g) y), Z.abs (freq (sTz g) z)) with (absk (freq (sLy g) x, freq (sLy g) y, freq (sTz g) z)).
    rewrite ksq_abs. fold (kvec g x y z). rewrite ksq_square. reflexivity.
  - destruct (K BV j Hj) as (_ & K2 & _). rewrite (K2 eq_refl r).
    unfold clear; cbn [cleared]. rewrite sumQ_zero by reflexivity. rewrite Qplus_0_l. reflexivity.
Qed.

(** The same field on other numbers of ranks and threads gives the same spectrum. *)
Theorem spectrum_division_partial g g' c pw pw' owner owner' order order' st P :
  evenGrid g -> evenGrid g' -> sLy g = sLy g' -> sTz g = sTz g' -> sUser g = sUser g' ->
  anyWork g owner order -> anyWork g' owner' order' -> spread g P pw -> spread g' P pw' -> realPower g P ->
  exists bn bn', fillBins g c st pw owner order zeroBins = Some bn /\ fillBins g' c st pw' owner' order' zeroBins = Some bn' /\
  forall b j r r', j < nbins g -> target st b = true -> st <> SGaSadd -> (bn r b j == bn' r' b j)%Q.
Proof.
  intros HG HG' E1 E2 E3 HW HW' HS HS' HP.
  assert (HP' : realPower g' P) by (unfold realPower in *; rewrite <- E1, <- E2; exact HP).
  destruct (fill_model g c st pw owner order HG HW P zeroBins HS HP) as (bn & F & K).
  destruct (fill_model g' c st pw' owner' order' HG' HW' P zeroBins HS' HP') as (bn' & F' & K').
  exists bn, bn'. split; [exact F|]. split; [exact F'|]. intros b j r r' Hj HT HN.
  assert (HR : reduced st b = true) by (rewrite reduced_target, HT by exact HN; reflexivity).
  assert (EN : nbins g = nbins g') by (unfold nbins, powMax; rewrite E1, E2, E3; reflexivity).
  destruct (K b j Hj) as (_ & K2 & _). destruct (K' b j ltac:(lia)) as (_ & K2' & _).
  rewrite (K2 HR r), (K2' HR r').
  assert (Z1 : forall g, (sumQ (sR g) (fun r => clear st (zeroBins r) b j) == 0)%Q).
  { intros g0. apply sumQ_zero. intros i Hi. unfold clear, zeroBins. destruct (cleared st b); reflexivity. }
  rewrite !Z1.
  assert (ES : shellSum g j (modeTermM g c st b P) = shellSum g' j (modeTermM g' c st b P)).
  { unfold shellSum, modeTermM, kvec, inShellb, nbins, powMax. rewrite E1, E2, E3. reflexivity. }
  rewrite ES. reflexivity.
Qed.

(** Counting modes again, whatever the vectors held, gives the same. *)
Theorem mode_count_again g c pw owner order bn bn' b1 b2 : evenGrid g -> anyWork g owner order ->
  fillBins g c SNN pw owner order bn = Some b1 -> fillBins g c SNN pw owner order bn' = Some b2 ->
  forall j r, j < nbins g -> (b1 r BNN j == b2 r BNN j)%Q.
Proof.
  intros HG HW F1 F2 j r Hj.
  destruct (mode_count_partial g c pw owner order bn HG HW) as (x1 & G1 & K1 & _).
  destruct (mode_count_partial g c pw owner order bn' HG HW) as (x2 & G2 & K2 & _).
  rewrite F1 in G1. rewrite F2 in G2. inversion G1; subst x1. inversion G2; subst x2.
  rewrite (K1 j r Hj), (K2 j r Hj). reflexivity.
Qed.

(** The three gradient directions, filled one after another as nRun does (two without sum over ranks, the
    last with it), give the sum of the three spectra, each corrected by its own table entry. *)
Definition withCtl (c : sconst) (k : nat) : sconst := SConst (kfac c) (mass2 c) (mass2Sax c) (cosT2 c) (snorm c) k.
Theorem spectrum_gradient_partial g c pw0 pw1 pw2 ow0 ow1 ow2 or0 or1 or2 P0 P1 P2 : evenGrid g ->
  anyWork g ow0 or0 -> anyWork g ow1 or1 -> anyWork g ow2 or2 ->
  spread g P0 pw0 -> spread g P1 pw1 -> spread g P2 pw2 -> realPower g P0 -> realPower g P1 -> realPower g P2 ->
  exists b0 b1 b2, fillBins g (withCtl c 0) SGaSadd pw0 ow0 or0 zeroBins = Some b0 /\
    fillBins g (withCtl c 1) SGaSadd pw1 ow1 or1 b0 = Some b1 /\
    fillBins g (withCtl c 2) SGaS pw2 ow2 or2 b1 = Some b2 /\
  forall j r, j < nbins g ->
    (b2 r BG j == snorm c * shellSum g j (fun x y z =>
        P0 x y z / cosT2 c (Z.to_nat (Z.abs (freq (sLy g) x))) +
        P1 x y z / cosT2 c (Z.to_nat (Z.abs (freq (sLy g) y))) +
        P2 x y z / cosT2 c (Z.to_nat (Z.abs (freq (sTz g) z)))))%Q.
Proof.
  intros HG W0 W1 W2 S0 S1 S2 R0 R1 R2.
  destruct (fill_model g (withCtl c 0) SGaSadd pw0 ow0 or0 HG W0 P0 zeroBins S0 R0) as (b0 & F0 & K0).
  destruct (fill_model g (withCtl c 1) SGaSadd pw1 ow1 or1 HG W1 P1 b0 S1 R1) as (b1 & F1 & K1).
  destruct (fill_model g (withCtl c 2) SGaS pw2 ow2 or2 HG W2 P2 b1 S2 R2) as (b2 & F2 & K2).
  exists b0, b1, b2. split; [exact F0|]. split; [exact F1|]. split; [exact F2|]. intros j r Hj.
  destruct (K0 BG j Hj) as (_ & _ & A0). destruct (K1 BG j Hj) as (_ & _ & A1). destruct (K2 BG j Hj) as (_ & A2 & _).
  specialize (A0 eq_refl eq_refl). specialize (A1 eq_refl eq_refl). specialize (A2 eq_refl r).
  unfold clear in *; cbn [cleared] in *. rewrite A2, A1, A0. rewrite sumQ_zero by reflexivity. cbn [normOf withCtl snorm].
  rewrite Qplus_0_l, <- !Qmult_plus_distr_r. apply Qmult_comp; [reflexivity|].
  unfold shellSum.
  rewrite <- !sumQ_plus. apply sumQ_ext. intros z Hz. rewrite <- !sumQ_plus. apply sumQ_ext. intros y Hy. rewrite <- !sumQ_plus. apply sumQ_ext. intros x Hx.
  destruct (inShellb g (kvec g x y z) j); [|ring].
  unfold modeTermM, kvec, contrib. cbn [withCtl ctl cosT2 modulus2]. rewrite !Z.abs_involutive. reflexivity.
Qed.

(** Filling a vector again without clearing it does not give the spectrum: (R+1) times it. *)
Theorem spectrum_again_refuted g c pw owner order P b1 b2 : evenGrid g -> anyWork g owner order -> spread g P pw -> realPower g P ->
  fillBins g c SK pw owner order zeroBins = Some b1 -> fillBins g c SK pw owner order b1 = Some b2 ->
  forall j r, j < nbins g -> (b2 r BK j == inject_Z (Z.of_nat (sR g) + 1) * b1 r BK j)%Q.
Proof.
  intros HG HW HS HP F1 F2 j r Hj.
  destruct (spectrum_kinetic_partial g c pw owner order P HG HW HS HP) as (x1 & G1 & K1).
  destruct (fill_model g c SK pw owner order HG HW P b1 HS HP) as (x2 & G2 & K2).
  rewrite F1 in G1. inversion G1; subst x1. rewrite F2 in G2. inversion G2; subst x2.
  destruct (K2 BK j Hj) as (_ & K & _). rewrite (K eq_refl r). unfold clear; cbn [cleared].
  rewrite (sumQ_ext _ _ (fun _ => snorm c * shellSum g j P)%Q) by (intros i Hi; apply K1, Hj).
  rewrite sumQ_const, (K1 j r Hj), inject_Z_plus. cbn [normOf].
  change (modeTermM g c SK BK P) with (fun x y z => P x y z).
  replace (shellSum g j (fun x y z => P x y z)) with (shellSum g j P) by reflexivity. ring.
Qed.

(** The potential spectrum taken after the gradient spectrum multiplies the latter by the number of ranks. *)
Theorem spectrum_other_refuted g c pw pw' owner order P P' : evenGrid g -> anyWork g owner order ->
  spread g P pw -> realPower g P -> spread g P' pw' -> realPower g P' ->
  exists b1 b2, fillBins g c SG pw owner order zeroBins = Some b1 /\ fillBins g c SV pw' owner order b1 = Some b2 /\
  forall j r, j < nbins g -> (b2 r BG j == inject_Z (Z.of_nat (sR g)) * b1 r BG j)%Q.
Proof.
  intros HG HW HS HP HS' HP'.
  destruct (spectrum_fill_partial g c SG pw owner order HG HW P zeroBins HS HP) as (b1 & F1 & K1).
  destruct (spectrum_fill_partial g c SV pw' owner order HG HW P' b1 HS' HP') as (b2 & F2 & K2).
  exists b1, b2. split; [exact F1|]. split; [exact F2|]. intros j r Hj.
  destruct (K1 BG j Hj) as (A & _). assert (N : SG <> SGaSadd) by discriminate. specialize (A eq_refl N).
  destruct (K2 BG j Hj) as (_ & _ & B & _). rewrite (B eq_refl r).
  rewrite (sumQ_ext _ _ (fun _ => b1 r BG j)) by (intros i Hi; rewrite (A i), (A r); reflexivity).
  apply sumQ_const.
Qed.

(** reset0 forgets one vector: the nonlinear potential spectrum taken after it adds to the one before. *)
Theorem reset0_refuted : exists g owner order b1 b2, evenGrid g /\ anyWork g owner order /\
  let c := SConst 1 1 1 (fun _ => 1%Q) 1 0 in
  let pw := fun _ _ : nat => 1%Q in
  fillBins g c SVNL pw owner order zeroBins = Some b1 /\
  fillBins g c SVNL pw owner order (reset0 b1) = Some b2 /\
  ~ (b2 0%nat BVnl 0%nat == b1 0%nat BVnl 0%nat)%Q.
Proof.
  set (g := SGeom 2 2 1 1 None). set (owner := fun _ _ : nat => 0). set (order := fun _ : nat => seq 0 (nModeshc g)).
  set (c := SConst 1 1 1 (fun _ => 1%Q) 1 0). set (pw := fun _ _ : nat => 1%Q).
  assert (HG : evenGrid g) by (repeat split; try (vm_compute; lia); exists 1; split; [lia|reflexivity]).
  assert (HW : anyWork g owner order) by (split; [intros r i; unfold owner; cbn; lia|intros r Hr; apply Permutation_refl]).
  destruct (fill_total g c SVNL pw owner order HG HW zeroBins) as (b1 & E1 & K1).
  destruct (fill_total g c SVNL pw owner order HG HW (reset0 b1)) as (b2 & E2 & K2).
  exists g, owner, order, b1, b2. split; [exact HG|]. split; [exact HW|]. cbv zeta. fold c. fold pw.
  split; [exact E1|]. split; [exact E2|].
  destruct (K2 BVnl 0 ltac:(vm_compute; lia)) as (_ & A2 & _). destruct (K1 BVnl 0 ltac:(vm_compute; lia)) as (_ & A1 & _).
  rewrite (A2 eq_refl 0). change (sumQ (sR g) (fun r => clear SVNL (reset0 b1 r) BVnl 0)) with (0 + b1 0%nat BVnl 0%nat)%Q.
  rewrite (A1 eq_refl 0). vm_compute. discriminate.
Qed.

(** ** Cases *)
Definition gEx := SGeom 4 2 2 3 (Some 5).
Example even_case : evenGrid gEx.
Proof. repeat split; try (vm_compute; lia). exists 2. split; [lia|reflexivity]. Qed.
Example work_case : anyWork gEx (fun _ i => i mod 3) (fun r => rev (seq 0 (nModeshc gEx))).
Proof.
  split; [intros r i; cbn [sT gEx]; apply Nat.mod_upper_bound; lia|].
  intros r _. apply Permutation_sym, Permutation_rev.
Qed.
Definition PEx (x y z : nat) : Q := inject_Z (Z.of_nat (ksq (kvec gEx x y z)) + 1).
Example power_case : realPower gEx PEx.
Proof.
  intros x y z Hx Hy Hz. unfold PEx. rewrite <- (ksq_abs (kvec gEx x y z)), <- (ksq_abs (kvec gEx (negate (sLy gEx) x) (negate (sLy gEx) y) (negate (sTz gEx) z))).
  unfold kvec, absk. rewrite !freq_negate by assumption. reflexivity.
Qed.
Definition pwEx (r i : nat) : Q := PEx (i mod 3) (r * 2 + i / 3 / 4) ((i / 3) mod 4).
Example spread_case : spread gEx PEx pwEx.
Proof.
  intros r x y z Hr Hx Hy Hz. cbn [sR sLy gEx] in *. change (sLx gEx) with 3 in *. change (sTz gEx) with 4 in *.
  unfold pwEx.
  rewrite (Nat.mul_comm 3 (z + 4 * y)), Nat.mod_add, Nat.div_add, (Nat.mul_comm 4 y) by lia.
  rewrite (Nat.mod_small x 3), (Nat.div_small x 3) by exact Hx. cbn [Nat.add].
  rewrite Nat.mod_add, Nat.div_add by lia. rewrite (Nat.mod_small z 4), (Nat.div_small z 4) by exact Hz. reflexivity.
Qed.
Example count_case : (shellSum gEx 0 (fun _ _ _ => 1%Q) == 1)%Q.
Proof. vm_compute. reflexivity. Qed.

Print Assumptions spectrum_fill_partial.
Print Assumptions mode_count_partial.
Print Assumptions mode_squares_partial.
Print Assumptions mode_count_odd_refuted.
Print Assumptions spectrum_kinetic_partial.
Print Assumptions spectrum_gv_partial.
Print Assumptions spectrum_division_partial.
Print Assumptions mode_count_again.
Print Assumptions spectrum_gradient_partial.
Print Assumptions spectrum_again_refuted.
Print Assumptions reset0_refuted.
Print Assumptions spectrum_other_refuted.
