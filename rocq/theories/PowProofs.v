(** Proofs about the binning of modes. *)
From Coq Require Import List Arith ZArith QArith Lia Lqa Permutation Bool Qfield.
From Verif Require Import PowModel PowSpec.
Import ListNotations.
Local Open Scope nat_scope.

(** ** Sums *)
(** what one full mode adds, with the tables of the model *)
Definition modeTermM (g : sgeom) (c : sconst) (st : stype) (b : bvec) (P : nat -> nat -> nat -> Q) (x y z : nat) : Q :=
  let '(kx, ky, kz) := kvec g x y z in
  contrib c st (Z.abs kx, Z.abs ky, Z.abs kz) (modulus2 st (P x y z)) b.

Lemma sumQ_ext n f h : (forall i, i < n -> (f i == h i)%Q) -> (sumQ n f == sumQ n h)%Q.
Proof. induction n as [|n IH]; intros H; cbn [sumQ]; [reflexivity|]. rewrite IH, (H n); [reflexivity|lia|intros; apply H; lia]. Qed.
Lemma sumQ_plus n f h : (sumQ n (fun i => f i + h i) == sumQ n f + sumQ n h)%Q.
Proof. induction n as [|n IH]; cbn [sumQ]; [ring|]. rewrite IH. ring. Qed.
Lemma sumQ_scal n f a : (sumQ n (fun i => f i * a) == sumQ n f * a)%Q.
Proof. induction n as [|n IH]; cbn [sumQ]; [ring|]. rewrite IH. ring. Qed.
Lemma sumQ_zero n f : (forall i, i < n -> (f i == 0)%Q) -> (sumQ n f == 0)%Q.
Proof. induction n as [|n IH]; intros H; cbn [sumQ]; [reflexivity|]. rewrite IH, (H n); [ring|lia|intros; apply H; lia]. Qed.
Lemma sumQ_swap n m f : (sumQ n (fun i => sumQ m (fun j => f i j)) == sumQ m (fun j => sumQ n (fun i => f i j)))%Q.
Proof.
  induction n as [|n IH]; cbn [sumQ].
  - symmetry. apply sumQ_zero. reflexivity.
  - rewrite IH. rewrite <- sumQ_plus. reflexivity.
Qed.
Lemma sumQ_add a b f : (sumQ (a + b) f == sumQ a f + sumQ b (fun i => f (a + i)%nat))%Q.
Proof.
  induction b as [|b IH]; [rewrite Nat.add_0_r; cbn [sumQ]; ring|].
  rewrite Nat.add_succ_r. cbn [sumQ]. rewrite IH. ring.
Qed.
Lemma sumQ_mul a b f : (sumQ (b * a) f == sumQ b (fun q => sumQ a (fun r => f (q * a + r)%nat)))%Q.
Proof.
  induction b as [|b IH]; [reflexivity|].
  replace (S b * a) with (b * a + a) by lia. rewrite sumQ_add, IH. reflexivity.
Qed.
Lemma sumQ_head n f : (sumQ (S n) f == f 0%nat + sumQ n (fun i => f (S i)))%Q.
Proof. change (S n) with (1 + n). rewrite sumQ_add. cbn [sumQ Nat.add]. ring. Qed.
Lemma sumQ_rev n : forall f, (sumQ n f == sumQ n (fun i => f (n - 1 - i)%nat))%Q.
Proof.
  induction n as [|n IH]; intros f; [reflexivity|].
  rewrite (sumQ_head n (fun i => f (S n - 1 - i)%nat)). cbn [sumQ]. rewrite IH.
  replace (S n - 1 - 0) with n by lia.
  rewrite Qplus_comm. apply Qplus_comp; [reflexivity|].
  apply sumQ_ext. intros i Hi. replace (S n - 1 - S i) with (n - 1 - i) by lia. reflexivity.
Qed.
Lemma sumQ_single n f i0 : i0 < n -> (forall i, i < n -> i <> i0 -> (f i == 0)%Q) -> (sumQ n f == f i0)%Q.
Proof.
  induction n as [|n IH]; intros H0 H; [lia|]. cbn [sumQ].
  destruct (Nat.eq_dec i0 n) as [->|Hn].
  - rewrite sumQ_zero; [ring|]. intros i Hi. apply H; lia.
  - rewrite IH, (H n); [ring|lia|lia|lia|]. intros i Hi Hne. apply H; lia.
Qed.
Lemma sumQ_neg L f : (sumQ L (fun n => f (negate L n)) == sumQ L f)%Q.
Proof.
  destruct L as [|L]; [reflexivity|]. rewrite !sumQ_head. cbn [negate Nat.eqb].
  apply Qplus_comp; [reflexivity|].
  rewrite (sumQ_rev L (fun i => f (S i))). apply sumQ_ext. intros i Hi.
  unfold negate. cbn [Nat.eqb]. replace (S L - S i) with (S (L - 1 - i)) by lia. reflexivity.
Qed.

(** half-complex weights *)
Lemma half_full n S : 1 <= n -> (forall x, x < 2 * n -> (S x == S (negate (2 * n) x))%Q) ->
  (sumQ (n + 1) (fun x => if (x =? 0)%nat || (x =? n)%nat then S x else 2 * S x) == sumQ (2 * n) S)%Q.
Proof.
  intros Hn HS. destruct n as [|n]; [lia|]. clear Hn.
  replace (Datatypes.S n + 1) with (1 + n + 1) by lia.
  replace (2 * Datatypes.S n) with (1 + n + 1 + n) by lia.
  rewrite !sumQ_add. cbn [sumQ].
  assert (E1 : (sumQ n (fun i => if (1 + i =? 0)%nat || (1 + i =? Datatypes.S n)%nat then S (1 + i)%nat else 2 * S (1 + i)%nat)
               == sumQ n (fun i => S (1 + i)%nat) + sumQ n (fun i => S (1 + i)%nat))%Q).
  { rewrite <- sumQ_plus. apply sumQ_ext. intros i Hi.
    replace ((1 + i =? 0) || (1 + i =? Datatypes.S n)) with false; [ring|].
    symmetry. apply orb_false_iff. split; apply Nat.eqb_neq; lia. }
  rewrite E1.
  assert (E2 : (sumQ n (fun i => S (1 + n + 1 + i)%nat) == sumQ n (fun i => S (1 + i)%nat))%Q).
  { rewrite (sumQ_rev n (fun i => S (1 + i)%nat)). apply sumQ_ext. intros i Hi.
    rewrite (HS (1 + n + 1 + i)) by lia. unfold negate.
    replace (1 + n + 1 + i =? 0) with false by (symmetry; apply Nat.eqb_neq; lia).
    replace (2 * Datatypes.S n - (1 + n + 1 + i)) with (1 + (n - 1 - i)) by lia. reflexivity. }
  rewrite E2. cbn [Nat.eqb orb].
  replace (1 + n + 0 =? Datatypes.S n) with true by (symmetry; apply Nat.eqb_eq; lia).
  replace (1 + n + 0 =? 0) with false by (symmetry; apply Nat.eqb_neq; lia). cbn [orb]. ring.
Qed.

(** sums over lists *)
Definition lsum (f : nat -> Q) (l : list nat) : Q := fold_right (fun i s => (f i + s)%Q) 0%Q l.
Lemma lsum_perm f l l' : Permutation l l' -> (lsum f l == lsum f l')%Q.
Proof. induction 1; cbn [lsum fold_right] in *; [reflexivity|rewrite IHPermutation; reflexivity|ring|etransitivity; eassumption]. Qed.
Lemma lsum_app f l k : (lsum f (l ++ k) == lsum f l + lsum f k)%Q.
Proof. unfold lsum. induction l as [|a l IH]; cbn [app fold_right]; [symmetry; apply Qplus_0_l|]. rewrite IH. ring. Qed.
Lemma lsum_seq n f : (lsum f (seq 0 n) == sumQ n f)%Q.
Proof. induction n as [|n IH]; [reflexivity|]. rewrite seq_S, lsum_app, IH. cbn. ring. Qed.

(** ** Frequencies and bins *)
Lemma freq_bound L n : n < L -> (Z.abs (freq L n) <= Z.of_nat (L / 2))%Z.
Proof.
  intros H. unfold freq. pose proof (Nat.div_mod L 2 ltac:(lia)). pose proof (Nat.mod_upper_bound L 2 ltac:(lia)).
  destruct (L / 2 <? n) eqn:E; [apply Nat.ltb_lt in E|apply Nat.ltb_ge in E]; lia.
Qed.
Lemma freq_negate L n : n < L -> Z.abs (freq L (negate L n)) = Z.abs (freq L n).
Proof.
  intros H. unfold freq, negate. pose proof (Nat.div_mod L 2 ltac:(lia)). pose proof (Nat.mod_upper_bound L 2 ltac:(lia)).
  destruct (n =? 0) eqn:E0; [apply Nat.eqb_eq in E0|apply Nat.eqb_neq in E0].
  - subst n. reflexivity.
  - destruct (L / 2 <? L - n) eqn:E1; [apply Nat.ltb_lt in E1|apply Nat.ltb_ge in E1];
    destruct (L / 2 <? n) eqn:E; [apply Nat.ltb_lt in E|apply Nat.ltb_ge in E| apply Nat.ltb_lt in E|apply Nat.ltb_ge in E]; lia.
Qed.
Definition absk (k : Z * Z * Z) : Z * Z * Z := let '(x, y, z) := k in (Z.abs x, Z.abs y, Z.abs z).
Lemma ksq_abs k : ksq (absk k) = ksq k.
Proof. destruct k as [[x y] z]. cbn [absk ksq]. rewrite <- !Z.abs_mul. rewrite !Z.abs_eq by apply Z.square_nonneg. reflexivity. Qed.
Lemma contrib_abs c st x y z m b : (0 <= x)%Z -> contrib c st (x, y, z) m b = contrib c st (absk (x, y, z)) m b.
Proof.
  intros H. unfold contrib. cbn [absk].
  assert (K : ksq (Z.abs x, Z.abs y, Z.abs z) = ksq (x, y, z)) by apply (ksq_abs (x, y, z)).
  rewrite K. rewrite !Z.abs_involutive. rewrite (Z.abs_eq x H). reflexivity.
Qed.

Section Geo.
Variable g : sgeom.
Hypothesis HB : 1 <= nbins g.

Lemma powMax_pos : 1 <= powMax g.
Proof. unfold powMax. lia. Qed.
Lemma binOf_shell k j : binOf g (ksq k) = j <-> inShell g k j.
Proof.
  unfold binOf, inShell. change (normSq k) with (ksq k). pose proof powMax_pos as HP. set (a := nbins g * nbins g * ksq k). set (d := powMax g * powMax g).
  assert (HD : 1 <= d) by (unfold d; nia). clearbody a d.
  pose proof (Nat.div_mod a d ltac:(lia)) as D. pose proof (Nat.mod_upper_bound a d ltac:(lia)) as U.
  pose proof (Nat.sqrt_spec (a / d) ltac:(lia)) as [S1 S2].
  set (q := a / d) in *. clearbody q. set (r := a mod d) in *. clearbody r.
  split.
  - intros <-. set (s := Nat.sqrt q) in *. clearbody s. split.
    + assert (s * s * d <= q * d) by (apply Nat.mul_le_mono_r; exact S1). lia.
    + assert (S3 : q + 1 <= (s + 1) * (s + 1)) by lia. assert ((q + 1) * d <= (s + 1) * (s + 1) * d) by (apply Nat.mul_le_mono_r; exact S3). lia.
  - intros [H1 H2]. apply Nat.sqrt_unique. split.
    + assert (j * j * d < (q + 1) * d) by lia. assert (j * j < q + 1) by (revert H; clear; nia). lia.
    + assert (q * d < (j + 1) * (j + 1) * d) by lia. assert (q < (j + 1) * (j + 1)) by (revert H; clear; nia). lia.
Qed.
Lemma inShellb_iff k j : inShellb g k j = true <-> inShell g k j.
Proof. unfold inShellb, inShell. rewrite andb_true_iff, Nat.leb_le, Nat.ltb_lt. reflexivity. Qed.
Lemma shell_bin k j : (binOf g (ksq k) =? j) = inShellb g k j.
Proof.
  apply eq_true_iff_eq. rewrite Nat.eqb_eq, inShellb_iff. apply binOf_shell.
Qed.
Lemma inShellb_abs k j : inShellb g (absk k) j = inShellb g k j.
Proof. unfold inShellb. change normSq with ksq. rewrite ksq_abs. reflexivity. Qed.
Lemma bin_small x y z : (Z.abs x <= Z.of_nat (sLy g / 2))%Z -> (Z.abs y <= Z.of_nat (sLy g / 2))%Z ->
  (Z.abs z <= Z.of_nat (sTz g / 2))%Z -> binOf g (ksq (x, y, z)) < nbins g.
Proof.
  intros HX HY HZ.
  assert (K : ksq (x, y, z) <= 2 * (sLy g / 2) * (sLy g / 2) + (sTz g / 2) * (sTz g / 2)).
  { cbn [ksq]. generalize dependent (sLy g / 2). generalize dependent (sTz g / 2). clear. intros t HZ l HX HY.
    assert (x * x <= Z.of_nat l * Z.of_nat l)%Z by nia. assert (y * y <= Z.of_nat l * Z.of_nat l)%Z by nia.
    assert (z * z <= Z.of_nat t * Z.of_nat t)%Z by nia. nia. }
  unfold binOf. set (k := ksq (x, y, z)) in *. clearbody k. unfold powMax.
  set (M := 2 * (sLy g / 2) * (sLy g / 2) + (sTz g / 2) * (sTz g / 2)) in *. clearbody M. clear HX HY HZ.
  pose proof (Nat.sqrt_spec M ltac:(lia)) as [_ S2]. set (s := Nat.sqrt M) in *. clearbody s.
  set (nb := nbins g) in *. clearbody nb.
  assert (H : nb * nb * k / ((s + 1) * (s + 1)) < nb * nb).
  { apply Nat.div_lt_upper_bound; [nia|]. assert (k < (s + 1) * (s + 1)) by lia. 
    rewrite (Nat.mul_comm ((s + 1) * (s + 1))). apply Nat.mul_lt_mono_pos_l; [nia|exact H]. }
  set (q := nb * nb * k / ((s + 1) * (s + 1))) in *. clearbody q.
  pose proof (Nat.sqrt_spec q ltac:(lia)) as [S1 _]. revert H S1. generalize (Nat.sqrt q). clear. intros. nia.
Qed.
End Geo.

Lemma cell_uniq j i m o nb : j < nb -> m < nb -> j + i * nb = m + nb * o -> j = m /\ i = o.
Proof.
  intros H1 H2 H. destruct (Nat.lt_trichotomy i o) as [K|[K|K]].
  - assert ((i + 1) * nb <= o * nb) by (apply Nat.mul_le_mono_r; lia). lia.
  - subst o. split; [lia|reflexivity].
  - assert ((o + 1) * nb <= i * nb) by (apply Nat.mul_le_mono_r; lia). lia.
Qed.

(** ** The loop over the modes of one rank *)
Section Loop.
Variables (g : sgeom) (c : sconst) (st : stype) (r : nat) (pw : nat -> Q) (owner : nat -> nat).
Definition term (idx : nat) (b : bvec) : Q :=
  contrib c st (modeOf g r idx) (weighted g (fst (fst (modeOf g r idx))) (modulus2 st (pw idx))) b.
Definition mybin (idx : nat) : nat := binOf g (ksq (modeOf g r idx)).

Lemma binModes_fold order : forall tb,
  (forall idx, In idx order -> mybin idx < nbins g) -> (forall idx, In idx order -> owner idx < sT g) ->
  exists tb', fold_left (binMode g c st r pw owner) order (Some tb) = Some tb' /\
    forall b i, (tb' b i == tb b i + lsum (fun idx => if i =? mybin idx + nbins g * owner idx then term idx b else 0) order)%Q.
Proof.
  induction order as [|idx order IH]; intros tb HB HO.
  - exists tb. split; [reflexivity|]. intros b i. cbn [lsum fold_right]. ring.
  - cbn [fold_left].
    assert (E : binMode g c st r pw owner (Some tb) idx = Some (tadd (term idx) (mybin idx + nbins g * owner idx) tb)).
    { unfold binMode. fold (mybin idx). pose proof (HB idx (or_introl eq_refl)) as H1. pose proof (HO idx (or_introl eq_refl)) as H2.
      replace (nbins g <? mybin idx) with false by (symmetry; apply Nat.ltb_ge; lia).
      replace (mybin idx + nbins g * owner idx <? nbins g * sT g) with true; [reflexivity|].
      symmetry. apply Nat.ltb_lt. revert H1 H2. generalize (mybin idx) (nbins g) (owner idx) (sT g). clear. intros. nia. }
    rewrite E. destruct (IH (tadd (term idx) (mybin idx + nbins g * owner idx) tb)) as (tb' & F1 & F2).
    + intros i Hi. apply HB. right. exact Hi.
    + intros i Hi. apply HO. right. exact Hi.
    + exists tb'. split; [exact F1|]. intros b i. rewrite F2. unfold lsum. cbn [fold_right]. unfold tadd.
      destruct (i =? mybin idx + nbins g * owner idx); ring.
Qed.

Lemma thread_sum (T nb j : nat) (F : nat -> Q) (order : list nat) (f : nat -> nat -> Q) :
  (sumQ T (fun i => lsum (fun idx => f i idx) order) == lsum (fun idx => sumQ T (fun i => f i idx)) order)%Q.
Proof.
  induction order as [|a order IH]; unfold lsum; cbn [fold_right].
  - apply sumQ_zero. reflexivity.
  - rewrite sumQ_plus. apply Qplus_comp; [reflexivity|exact IH].
Qed.
Lemma lsum_ext f h l : (forall i, In i l -> (f i == h i)%Q) -> (lsum f l == lsum h l)%Q.
Proof.
  unfold lsum. induction l as [|a l IH]; intros H; cbn [fold_right]; [reflexivity|].
  rewrite IH, (H a); [reflexivity|left; reflexivity|intros; apply H; right; assumption].
Qed.

Lemma rank_sum order : Permutation order (seq 0 (nModeshc g)) ->
  (forall idx, idx < nModeshc g -> mybin idx < nbins g) -> (forall idx, owner idx < sT g) ->
  exists tb, binModes g c st r pw owner order = Some tb /\
    forall b j, j < nbins g ->
      (sumQ (sT g) (fun i => tb b (j + i * nbins g)%nat) == sumQ (nModeshc g) (fun idx => if (mybin idx =? j)%nat then term idx b else 0))%Q.
Proof.
  intros HP HB HO. unfold binModes.
  assert (HI : forall idx, In idx order -> idx < nModeshc g).
  { intros idx H. apply (Permutation_in _ HP), in_seq in H. lia. }
  destruct (binModes_fold order (fun _ _ => 0%Q)) as (tb & F1 & F2).
  - intros idx H. apply HB, HI, H.
  - intros idx _. apply HO.
  - exists tb. split; [exact F1|]. intros b j Hj.
    rewrite (sumQ_ext _ _ (fun i => lsum (fun idx => if (j + i * nbins g =? mybin idx + nbins g * owner idx)%nat then term idx b else 0%Q) order)).
    2:{ intros i Hi. rewrite F2. apply Qplus_0_l. }
    rewrite (thread_sum (sT g) (nbins g) j (fun _ => 0%Q)).
    rewrite <- lsum_seq. rewrite (lsum_perm _ _ _ (Permutation_sym HP)). apply lsum_ext. intros idx Hin.
    pose proof (HB idx (HI idx Hin)) as H1.
    destruct (mybin idx =? j) eqn:E; [apply Nat.eqb_eq in E|apply Nat.eqb_neq in E].
    + rewrite (sumQ_single _ _ (owner idx)); [|apply HO|].
      * replace (j + owner idx * nbins g =? mybin idx + nbins g * owner idx) with true; [reflexivity|]. symmetry. apply Nat.eqb_eq. lia.
      * intros i Hi Hne. replace (j + i * nbins g =? mybin idx + nbins g * owner idx) with false; [reflexivity|].
        symmetry. apply Nat.eqb_neq. intros K. apply cell_uniq in K; [|exact Hj|exact H1]. destruct K as [_ K]. contradiction.
    + apply sumQ_zero. intros i Hi.
      replace (j + i * nbins g =? mybin idx + nbins g * owner idx) with false; [reflexivity|].
      symmetry. apply Nat.eqb_neq. intros K. apply cell_uniq in K; [|exact Hj|exact H1]. destruct K as [K _]. apply E. symmetry. exact K.
Qed.
End Loop.

(** ** All ranks: from entries to modes *)
Section Ranks.
Variable g : sgeom.
Hypothesis HB : 1 <= nbins g.
Hypothesis HR : 1 <= sR g.
Hypothesis HL : 1 <= sLy g.
Hypothesis HZ : 1 <= sLz g.
Hypothesis HD : sLy g mod sR g = 0.
Let B := sLy g / sR g.

Lemma LyB : sLy g = sR g * B.
Proof. unfold B. pose proof (Nat.div_mod (sLy g) (sR g) ltac:(lia)). lia. Qed.
Lemma Lx_pos : 1 <= sLx g.
Proof. unfold sLx. lia. Qed.
Lemma Tz_pos : 1 <= sTz g.
Proof. unfold sTz. nia. Qed.
Lemma nModes_split : nModeshc g = B * sTz g * sLx g.
Proof. unfold nModeshc, sTz. rewrite LyB at 1. lia. Qed.

Lemma divmod_mul a b q : b < q -> (a * q + b) / q = a.
Proof. intros H. rewrite Nat.div_add_l by lia. rewrite Nat.div_small by exact H. lia. Qed.

Lemma modeOf_at r x y z : x < sLx g -> z < sTz g -> r < sR g -> y < B ->
  modeOf g r ((y * sTz g + z) * sLx g + x) = (Z.of_nat x, freq (sLy g) (r * B + y), freq (sTz g) z).
Proof.
  intros Hx Hz Hr Hy. unfold modeOf. rewrite divmod_mul by exact Hx. rewrite divmod_mul by exact Hz.
  replace ((y * sTz g + z) * sLx g + x - (y * sTz g + z) * sLx g) with x by lia.
  replace (y * sTz g + z - y * sTz g) with z by lia. fold B.
  replace (y + B * r) with (r * B + y) by lia.
  assert (W : forall L n, wrapf (Z.of_nat (L / 2)) (Z.of_nat L) (Z.of_nat n) = freq L n).
  { intros L n. unfold wrapf, freq. destruct (L / 2 <? n) eqn:E.
    - apply Nat.ltb_lt in E. replace (Z.of_nat (L / 2) <? Z.of_nat n)%Z with true; [reflexivity|]. symmetry. apply Z.ltb_lt. lia.
    - apply Nat.ltb_ge in E. replace (Z.of_nat (L / 2) <? Z.of_nat n)%Z with false; [reflexivity|]. symmetry. apply Z.ltb_ge. lia. }
  rewrite !W. reflexivity.
Qed.

Lemma mybin_small r idx : r < sR g -> idx < nModeshc g -> mybin g r idx < nbins g.
Proof.
  intros Hr Hi. unfold mybin. pose proof Lx_pos as HX. pose proof Tz_pos as HT.
  set (x := idx mod sLx g). set (q := idx / sLx g). set (z := q mod sTz g). set (y := q / sTz g).
  assert (Hx : x < sLx g) by (apply Nat.mod_upper_bound; lia).
  assert (Hz : z < sTz g) by (apply Nat.mod_upper_bound; lia).
  assert (E1 : q * sLx g + x = idx) by (pose proof (Nat.div_mod idx (sLx g) ltac:(lia)); unfold q, x; lia).
  assert (E2 : y * sTz g + z = q) by (pose proof (Nat.div_mod q (sTz g) ltac:(lia)); unfold y, z; lia).
  assert (Hy : y < B).
  { rewrite nModes_split in Hi. unfold y. apply Nat.div_lt_upper_bound; [lia|]. unfold q. apply Nat.div_lt_upper_bound; [lia|]. lia. }
  rewrite <- E1, <- E2. rewrite modeOf_at by assumption. apply bin_small; [exact HB|..].
  - rewrite Z.abs_eq by lia. unfold sLx in Hx. lia.
  - apply freq_bound. rewrite LyB. revert Hr Hy. generalize (sR g) B. clear. intros. nia.
  - apply freq_bound. exact Hz.
Qed.

Section Fill.
Variables (c : sconst) (st : stype) (pw : nat -> nat -> Q) (b : bvec) (j : nat).
(** the total of all ranks for bin j *)
Definition total : Q := sumQ (sR g) (fun r => sumQ (nModeshc g) (fun idx => if mybin g r idx =? j then term g c st r (pw r) idx b else 0%Q)).

Lemma total_modes P : spread g P pw ->
  (total == sumQ (sTz g) (fun z => sumQ (sLy g) (fun y => sumQ (sLx g) (fun x =>
     if inShellb g (Z.of_nat x, freq (sLy g) y, freq (sTz g) z) j
     then contrib c st (Z.of_nat x, freq (sLy g) y, freq (sTz g) z) (weighted g (Z.of_nat x) (modulus2 st (P x y z))) b else 0))))%Q.
Proof.
  intros HS. unfold total.
  assert (CW : forall k x m m', (m == m')%Q -> (contrib c st k (weighted g x (modulus2 st m)) b == contrib c st k (weighted g x (modulus2 st m')) b)%Q).
  { intros k x m m' E.
    assert (E2 : (weighted g x (modulus2 st m) == weighted g x (modulus2 st m'))%Q).
    { unfold weighted. assert (E3 : (modulus2 st m == modulus2 st m')%Q) by (destruct st; cbn [modulus2]; try exact E; reflexivity).
      destruct ((x =? 0)%Z || (x =? Z.of_nat (sLx g) - 1)%Z); rewrite E3; reflexivity. }
    destruct k as [[kx ky] kz]. unfold contrib. destruct st, b; try reflexivity; rewrite E2; reflexivity. }
  rewrite (sumQ_ext (sR g) _ (fun r => sumQ B (fun y => sumQ (sTz g) (fun z => sumQ (sLx g) (fun x =>
     if inShellb g (Z.of_nat x, freq (sLy g) (r * B + y)%nat, freq (sTz g) z) j
     then contrib c st (Z.of_nat x, freq (sLy g) (r * B + y)%nat, freq (sTz g) z) (weighted g (Z.of_nat x) (modulus2 st (P x (r * B + y)%nat z))) b else 0%Q))))).
  2:{ intros r Hr. rewrite nModes_split, sumQ_mul, sumQ_mul.
      apply sumQ_ext. intros y Hy. apply sumQ_ext. intros z Hz. apply sumQ_ext. intros x Hx.
      unfold mybin, term. rewrite modeOf_at by assumption. rewrite (shell_bin g HB).
      destruct (inShellb g (Z.of_nat x, freq (sLy g) (r * B + y), freq (sTz g) z) j); [|reflexivity].
      cbn [fst]. apply CW. replace ((y * sTz g + z) * sLx g + x) with (x + sLx g * (z + sTz g * y)) by lia.
      apply HS; assumption. }
  rewrite <- (sumQ_mul B (sR g) (fun y => sumQ (sTz g) (fun z => sumQ (sLx g) (fun x =>
     if inShellb g (Z.of_nat x, freq (sLy g) y, freq (sTz g) z) j
     then contrib c st (Z.of_nat x, freq (sLy g) y, freq (sTz g) z) (weighted g (Z.of_nat x) (modulus2 st (P x y z))) b else 0%Q)))).
  rewrite <- LyB. apply sumQ_swap.
Qed.

Lemma total_full P n : sLy g = 2 * n -> spread g P pw -> realPower g P ->
  (total == shellSum g j (modeTermM g c st b P))%Q.
Proof.
  intros Hn HS HP. rewrite (total_modes P HS). unfold shellSum.
  assert (N1 : 1 <= n) by lia.
  assert (LX : sLx g = n + 1).
  { unfold sLx. rewrite Hn. rewrite (Nat.mul_comm 2 n), Nat.div_mul by lia. reflexivity. }
  assert (HH : sLy g / 2 = n) by (rewrite Hn, (Nat.mul_comm 2 n), Nat.div_mul by lia; reflexivity).
  set (Phi := fun x y z => if inShellb g (kvec g x y z) j then modeTermM g c st b P x y z else 0%Q).
  assert (HPhi : forall x y z, x < sLy g -> y < sLy g -> z < sTz g ->
            (Phi x y z == Phi (negate (sLy g) x) (negate (sLy g) y) (negate (sTz g) z))%Q).
  { intros x y z Hx Hy Hz. unfold Phi, modeTermM.
    rewrite <- (inShellb_abs g (kvec g x y z)), <- (inShellb_abs g (kvec g (negate (sLy g) x) (negate (sLy g) y) (negate (sTz g) z))).
    unfold kvec, absk. rewrite !freq_negate by assumption.
    destruct (inShellb g (Z.abs (freq (sLy g) x), Z.abs (freq (sLy g) y), Z.abs (freq (sTz g) z)) j); [|reflexivity].
    assert (E : (modulus2 st (P x y z) == modulus2 st (P (negate (sLy g) x) (negate (sLy g) y) (negate (sTz g) z)))%Q).
    { pose proof (HP x y z Hx Hy Hz) as E. destruct st; cbn [modulus2]; try exact E; reflexivity. }
    unfold contrib. destruct st, b; try reflexivity; rewrite E; reflexivity. }
  (* bring x outside *)
  rewrite (sumQ_ext (sTz g) _ (fun z => sumQ (sLx g) (fun x => sumQ (sLy g) (fun y =>
     if (x =? 0)%nat || (x =? n)%nat then Phi x y z else (2 * Phi x y z)%Q)))).
  2:{ intros z Hz. rewrite sumQ_swap. apply sumQ_ext. intros x Hx. apply sumQ_ext. intros y Hy. unfold Phi, modeTermM, kvec.
      assert (FX : freq (sLy g) x = Z.of_nat x).
      { unfold freq. rewrite HH. replace (n <? x) with false; [reflexivity|]. symmetry. apply Nat.ltb_ge. lia. }
      rewrite FX. destruct (inShellb g (Z.of_nat x, freq (sLy g) y, freq (sTz g) z) j); [|destruct (_ || _); ring].
      rewrite contrib_abs by lia. cbn [absk]. unfold weighted. rewrite LX.
      replace ((Z.of_nat x =? 0)%Z || (Z.of_nat x =? Z.of_nat (n + 1) - 1)%Z) with ((x =? 0) || (x =? n)).
      2:{ apply eq_true_iff_eq. rewrite !orb_true_iff, !Nat.eqb_eq, !Z.eqb_eq. split; intros [H|H]; lia. }
      destruct ((x =? 0) || (x =? n)); [reflexivity|].
      unfold contrib. destruct st, b; try ring; unfold Qdiv; ring. }
  rewrite sumQ_swap.
  rewrite (sumQ_ext (sLx g) _ (fun x => if (x =? 0) || (x =? n) then sumQ (sTz g) (fun z => sumQ (sLy g) (fun y => Phi x y z))
     else (2 * sumQ (sTz g) (fun z => sumQ (sLy g) (fun y => Phi x y z)))%Q)).
  2:{ intros x Hx. destruct ((x =? 0) || (x =? n)); [reflexivity|].
      rewrite Qmult_comm, <- sumQ_scal. apply sumQ_ext. intros z Hz. rewrite <- sumQ_scal. apply sumQ_ext. intros y Hy. ring. }
  rewrite LX. rewrite half_full with (S := fun x => sumQ (sTz g) (fun z => sumQ (sLy g) (fun y => Phi x y z))); [|exact N1|].
  - rewrite <- Hn. rewrite sumQ_swap. apply sumQ_ext. intros z Hz. rewrite sumQ_swap. reflexivity.
  - intros x Hx. rewrite <- Hn in *.
    rewrite <- (sumQ_neg (sTz g) (fun z => sumQ (sLy g) (fun y => Phi (negate (sLy g) x) y z))).
    apply sumQ_ext. intros z Hz.
    rewrite <- (sumQ_neg (sLy g) (fun y => Phi (negate (sLy g) x) y (negate (sTz g) z))).
    apply sumQ_ext. intros y Hy. apply HPhi; assumption.
Qed.
End Fill.
End Ranks.
