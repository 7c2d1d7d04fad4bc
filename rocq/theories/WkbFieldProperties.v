(** The WKB transport: which momentum each mode gets, the table of phases, and the field as a whole. *)
From Coq Require Import Reals List Arith ZArith Bool Lia Lra.
From Verif Require Import CosmoModel SplineModel SplineSpec SplineProperties WkbModel WkbSpec WkbProofs WkbPhaseProofs WkbProperties WkbPhaseProperties.
Import ListNotations.
Ltac Zify.zify_post_hook ::= idtac.
Local Open Scope R_scope.

(** ** C100: momenta and table *)
Lemma around_sq n y : (y < n)%nat -> let k := if (n / 2 <? y)%nat then (Z.of_nat y - Z.of_nat n)%Z else Z.of_nat y in (k * k)%Z = Z.of_nat (around n y * around n y).
Proof.
  intros H. cbv zeta. unfold around. pose proof (Nat.div_mod n 2 ltac:(discriminate)) as D. pose proof (Nat.mod_upper_bound n 2 ltac:(discriminate)) as U. set (h := (n / 2)%nat) in *. set (m := (n mod 2)%nat) in *. clearbody h m.
  destruct (Nat.ltb_spec h y) as [A|A].
  - replace (Nat.min y (n - y)) with (n - y)%nat by lia. rewrite Nat2Z.inj_mul, Nat2Z.inj_sub by lia. ring.
  - replace (Nat.min y (n - y)) with y by lia. rewrite Nat2Z.inj_mul. ring.
Qed.
Lemma around_half n y : (y < n)%nat -> (around n y <= n / 2)%nat.
Proof.
  intros H. unfold around. pose proof (Nat.div_mod n 2 ltac:(discriminate)) as D. pose proof (Nat.mod_upper_bound n 2 ltac:(discriminate)) as U. set (h := (n / 2)%nat) in *. set (m := (n mod 2)%nat) in *. clearbody h m. lia.
Qed.
Lemma mom_at g r yl z x : (0 < wT g)%nat -> (z < wT g)%nat -> (x < wL g / 2 + 1)%nat ->
  modeMom g r ((yl * wT g + z) * (wL g / 2 + 1) + x) =
  (Z.of_nat x * Z.of_nat x + (let y := (yl + wLz g * r)%nat in let k := if (wL g / 2 <? y)%nat then (Z.of_nat y - Z.of_nat (wL g))%Z else Z.of_nat y in k * k)
   + (let k := if (wT g / 2 <? z)%nat then (Z.of_nat z - Z.of_nat (wT g))%Z else Z.of_nat z in k * k))%Z.
Proof.
  intros T Z X. unfold modeMom, rLx. cbv zeta. set (q := (wL g / 2 + 1)%nat) in *.
  assert (D : (((yl * wT g + z) * q + x) / q = yl * wT g + z)%nat) by (rewrite Nat.div_add_l by lia; rewrite (Nat.div_small x q) by lia; lia).
  rewrite D. replace ((yl * wT g + z) * q + x - (yl * wT g + z) * q)%nat with x by lia.
  assert (D2 : ((yl * wT g + z) / wT g = yl)%nat) by (rewrite Nat.div_add_l by lia; rewrite (Nat.div_small z (wT g)) by lia; lia).
  rewrite D2. replace (yl * wT g + z - yl * wT g)%nat with z by lia. reflexivity.
Qed.
(** The modes come in planes of y, rows of z and x: in a cube, or on one rank, each gets its own momentum, folded around the box *)
Theorem momenta_partial : forall g r yl z x, wL g = wT g \/ wRanks g = 1%nat -> (wL g mod wRanks g = 0)%nat -> (r < wRanks g)%nat -> (yl < wL g / wRanks g)%nat -> (z < wT g)%nat -> (x <= wL g / 2)%nat ->
  modeMom g r ((yl * wT g + z) * (wL g / 2 + 1) + x) =
  Z.of_nat (x * x + around (wL g) (r * (wL g / wRanks g) + yl) * around (wL g) (r * (wL g / wRanks g) + yl) + around (wT g) z * around (wT g) z).
Proof.
  intros g r yl z x C D Hr Hy Hz Hx. rewrite mom_at by lia. cbv zeta.
  assert (E : (yl + wLz g * r = r * (wL g / wRanks g) + yl)%nat).
  { unfold wLz. destruct C as [C|C]; [rewrite <- C; ring|]. assert (r = 0)%nat by lia. subst r. lia. }
  rewrite E. set (y := (r * (wL g / wRanks g) + yl)%nat).
  assert (Y : (y < wL g)%nat).
  { unfold y. pose proof (Nat.div_mod (wL g) (wRanks g) ltac:(lia)) as Q. rewrite D, Nat.add_0_r in Q. set (w := (wL g / wRanks g)%nat) in *. rewrite Q. apply Nat.lt_le_trans with (r * w + w)%nat; [lia|]. replace (r * w + w)%nat with ((r + 1) * w)%nat by ring. apply Nat.mul_le_mono_r. lia. }
  pose proof (around_sq (wL g) y Y) as A. pose proof (around_sq (wT g) z Hz) as B. cbv zeta in A, B. rewrite A, B. rewrite !Nat2Z.inj_add, (Nat2Z.inj_mul x x). reflexivity.
Qed.
(** No mode is left out *)
Theorem momenta_all : forall g i, wL g = wT g \/ wRanks g = 1%nat -> (0 < wT g)%nat -> (i < nModes g)%nat ->
  exists yl z x, i = ((yl * wT g + z) * (wL g / 2 + 1) + x)%nat /\ (yl < wL g / wRanks g)%nat /\ (z < wT g)%nat /\ (x <= wL g / 2)%nat.
Proof.
  intros g i C T H. set (q := (wL g / 2 + 1)%nat). exists (i / q / wT g)%nat, ((i / q) mod wT g)%nat, (i mod q)%nat.
  pose proof (Nat.div_mod i q ltac:(unfold q; lia)) as A. pose proof (Nat.div_mod (i / q) (wT g) ltac:(lia)) as B. pose proof (Nat.mod_upper_bound i q ltac:(unfold q; lia)). pose proof (Nat.mod_upper_bound (i / q) (wT g) ltac:(lia)).
  assert (Q : (q * (wT g * (i / q / wT g)) <= i)%nat).
  { rewrite A at 2. apply Nat.le_trans with (q * (i / q))%nat; [|lia]. apply Nat.mul_le_mono_l. lia. }
  split; [|split; [|split]].
  - rewrite (Nat.mul_comm _ (wT g)), <- B, Nat.mul_comm. exact A.
  - assert (H' : (i < q * (wT g * (wL g / wRanks g)))%nat).
    { unfold nModes, rLx, wLz in H. fold q in H. destruct C as [C|C]; [|rewrite C, !Nat.div_1_r in *; lia]. rewrite <- C in *. lia. }
    apply Nat.nle_gt. intros L. assert (q * (wT g * (wL g / wRanks g)) <= q * (wT g * (i / q / wT g)))%nat by (apply Nat.mul_le_mono_l, Nat.mul_le_mono_l, L). lia.
  - assumption.
  - unfold q in *. lia.
Qed.
(** In a long box shared between ranks, they are wrong: in a 4 x 4 x 8 box on two ranks the second rank takes its first plane, y = 2, for y = 4 *)
Theorem momenta_refuted : exists g r, (wL g mod wRanks g = 0)%nat /\ (wT g mod wRanks g = 0)%nat /\ (r < wRanks g)%nat /\
  modeMom g r 0 = 0%Z /\ around (wL g) (r * (wL g / wRanks g)) = 2%nat.
Proof. exists (WGrid 4 8 2 1), 1%nat. vm_compute. repeat split; lia. Qed.

(** The table reaches beyond the last mode *)
Theorem table_covers : forall L g r yl z x, 0 < L -> wL g = wT g \/ wRanks g = 1%nat -> (wL g mod wRanks g = 0)%nat -> (r < wRanks g)%nat -> (yl < wL g / wRanks g)%nat -> (z < wT g)%nat -> (x <= wL g / 2)%nat ->
  0 <= modeK2 L g r ((yl * wT g + z) * (wL g / 2 + 1) + x) <= knot L (powMax g) * knot L (powMax g).
Proof.
  intros L g r yl z x HL C D Hr Hy Hz Hx. unfold modeK2. rewrite (momenta_partial g r yl z x C D Hr Hy Hz Hx).
  set (y := (r * (wL g / wRanks g) + yl)%nat).
  assert (Y : (y < wL g)%nat).
  { unfold y. pose proof (Nat.div_mod (wL g) (wRanks g) ltac:(lia)) as Q. rewrite D, Nat.add_0_r in Q. set (w := (wL g / wRanks g)%nat) in *. rewrite Q. apply Nat.lt_le_trans with (r * w + w)%nat; [lia|]. replace (r * w + w)%nat with ((r + 1) * w)%nat by ring. apply Nat.mul_le_mono_r. lia. }
  pose proof (around_half (wL g) y Y) as AY. pose proof (around_half (wT g) z Hz) as AZ. set (ay := around (wL g) y) in *. set (az := around (wT g) z) in *. clearbody ay az.
  set (h := (wL g / 2)%nat) in *. set (t := (wT g / 2)%nat) in *.
  assert (S : (x * x + ay * ay + az * az <= powMax g * powMax g)%nat).
  { apply Nat.le_trans with (2 * h * h + t * t)%nat.
    - pose proof (Nat.mul_le_mono x h x h Hx Hx). pose proof (Nat.mul_le_mono ay h ay h AY AY). pose proof (Nat.mul_le_mono az t az t AZ AZ). replace (2 * h * h)%nat with (h * h + h * h)%nat by ring. lia.
    - unfold powMax. fold h t. pose proof (Nat.sqrt_spec (2 * h * h + t * t) (Nat.le_0_l _)) as [_ Q]. rewrite (Nat.add_1_r (Nat.sqrt _)). apply Nat.lt_le_incl. exact Q. }
  assert (M : 0 < minmom2 L). { unfold minmom2. pose proof PI_RGT_0. apply Rdiv_lt_0_compat; [|apply Rmult_lt_0_compat; assumption]. apply Rmult_lt_0_compat; [lra|assumption]. }
  rewrite <- INR_IZR_INZ. split; [apply Rmult_le_pos; [apply pos_INR|lra]|].
  replace (knot L (powMax g) * knot L (powMax g)) with (INR (powMax g * powMax g) * minmom2 L) by (rewrite mult_INR; unfold knot, minmom2; field; lra).
  apply Rmult_le_compat_r; [lra|]. apply le_INR, S.
Qed.
Lemma table_length L n : length (k2Table L n) = (n + 1)%nat.
Proof. unfold k2Table. rewrite map_length, seq_length. reflexivity. Qed.
Lemma super_length F c L a b n : length (superTable F c L a b n) = (n + 1)%nat.
Proof. unfold superTable. rewrite map_length, seq_length. reflexivity. Qed.
Lemma nth_seq_map (f : nat -> R) n i : (i < n)%nat -> nth i (map f (seq 0 n)) 0 = f i.
Proof. intros H. rewrite (nth_indep _ 0 (f 0%nat)) by (rewrite map_length, seq_length; exact H). rewrite map_nth, seq_nth by exact H. reflexivity. Qed.
Lemma k2Entry_knot L i : k2Entry L i = knot L i * knot L i.
Proof. destruct i; [unfold knot; cbn [k2Entry INR]; ring|reflexivity]. Qed.
Lemma knots_rise L i : 0 < L -> knot L i * knot L i < knot L (S i) * knot L (S i).
Proof.
  intros HL. unfold knot. set (u := 2 * PI / L). assert (U : 0 < u) by (unfold u; pose proof PI_RGT_0; apply Rdiv_lt_0_compat; lra). rewrite S_INR. pose proof (pos_INR i).
  assert (0 < u * u) by (apply Rmult_lt_0_compat; assumption). assert (0 <= u * u * INR i) by (apply Rmult_le_pos; lra).
  replace (u * (INR i + 1) * (u * (INR i + 1))) with (u * INR i * (u * INR i) + 2 * (u * u * INR i) + u * u) by ring. lra.
Qed.
(** The interpolation never aborts on a box of two sites or more *)
Theorem table_made : forall F c L zI zE g, 0 < L -> (2 <= wL g)%nat -> exists p, phaseSpline F c L zI zE (powMax g) = Some p.
Proof.
  intros F c L zI zE g HL HG. unfold phaseSpline. apply table_accepted.
  assert (P : (2 <= powMax g)%nat).
  { unfold powMax. assert (1 <= wL g / 2)%nat by (apply Nat.div_le_lower_bound; lia). assert (1 <= 2 * (wL g / 2) * (wL g / 2) + wT g / 2 * (wT g / 2))%nat by (pose proof (Nat.mul_le_mono 1 (wL g / 2) 1 (wL g / 2)); lia).
    pose proof (Nat.sqrt_le_mono _ _ H0). change (Nat.sqrt 1) with 1%nat in *. lia. }
  unfold tableOf. rewrite table_length, super_length. split; [reflexivity|]. split; [lia|].
  unfold increasing. rewrite ?table_length. intros i j Hi. unfold k2Table. rewrite !nth_seq_map by lia. rewrite !k2Entry_knot. destruct Hi as [Hi _]. induction Hi as [|j Hi IH]; [apply knots_rise, HL|]. eapply Rlt_trans; [exact IH|apply knots_rise, HL].
Qed.
(** At every tabulated momentum the phase used is the tabulated one *)
Theorem table_at_knots : forall F c L zI zE n p ik, phaseSpline F c L zI zE n = Some p -> (ik <= n)%nat -> eval p (knot L ik * knot L ik) = phaseEntry F c L zI zE ik.
Proof.
  intros F c L zI zE n p ik H K. unfold phaseSpline in H. pose proof (through_points _ _ _ _ _ _ _ _ ik H) as T. rewrite table_length in T. specialize (T ltac:(lia)).
  unfold k2Table, superTable in T. rewrite !nth_seq_map in T by lia. rewrite k2Entry_knot in T. exact T.
Qed.
(** So such a mode may be moved in two steps or in one *)
Theorem steps_compose_partial : forall F c L zI zM zE n p q r ik M D, phaseSpline F c L zI zM n = Some p -> phaseSpline F c L zM zE n = Some q -> phaseSpline F c L zI zE n = Some r -> (ik <= n)%nat ->
  -2 < nQcd c -> 0 < zThRes c -> 0 < zI <= zM -> zM <= zE -> zM <> zThRes c \/ nQcd c = 0 -> let k2 := knot L ik * knot L ik in
  0 < freq c k2 zI -> 0 < freq c k2 zM -> 0 < freq c k2 zE ->
  modeInplace c (eval q) zM zE k2 (fst (modeInplace c (eval p) zI zM k2 M D)) (snd (modeInplace c (eval p) zI zM k2 M D)) = modeInplace c (eval r) zI zE k2 M D.
Proof.
  intros F c L zI zM zE n p q r ik M D P Q T K N ZC A B Nz k2 W1 W2 W3. apply mode_composes_partial; try assumption; [lra|].
  unfold k2. rewrite (table_at_knots _ _ _ _ _ _ _ _ P K), (table_at_knots _ _ _ _ _ _ _ _ Q K), (table_at_knots _ _ _ _ _ _ _ _ T K). apply turns_add; assumption.
Qed.

(** ** C101: the whole field *)
(** A saxion field is refused and left alone *)
Theorem saxion_refused : forall F fwd bck c L g ghost jM jV two z s, construct fwd g ghost jM jV two true s = (WObject (wtZ s), s) /\
  forall o, transport F bck c L g two true o z s = WDone s.
Proof. intros. split; reflexivity. Qed.
(** After a transport the field is at the time asked for, unfolded, and the modes it started from are kept *)
Theorem transport_end : forall F bck c L g two o zE s s', transport F bck c L g two false o zE s = WDone s' ->
  wtZ s' = zE /\ wtFolded s' = false /\ wtA s' = wtA s /\ wtB s' = wtB s.
Proof.
  intros F bck c L g two o zE s s' H. unfold transport in H. cbv zeta in H. destruct two; [|destruct (phaseSpline F c L (obIni o) zE (powMax g)); [|discriminate]]; destruct (existsb _ _); try discriminate; inversion H; repeat split.
Qed.
(** A transport depends on the kept modes alone: what was done to the field since the object was made, or where it was moved before, does not matter *)
Theorem transport_forgets_partial : forall F bck c L g o zE s s', wtA s = wtA s' -> wtB s = wtB s' -> transport F bck c L g false false o zE s = transport F bck c L g false false o zE s'.
Proof. intros F bck c L g o zE s s' A B. unfold transport. rewrite A, B. reflexivity. Qed.
Theorem second_transport_partial : forall F bck c L g o z1 z2 s s1, transport F bck c L g false false o z1 s = WDone s1 ->
  transport F bck c L g false false o z2 s1 = transport F bck c L g false false o z2 s.
Proof. intros F bck c L g o z1 z2 s s1 H. apply transport_end in H. destruct H as [_ [_ [A B]]]. apply transport_forgets_partial; assumption. Qed.
(** With two fields and more than one ghost slice, the last slices of each rank are not moved *)
Theorem last_slices_refuted : forall F bck c L g o zE s s', transport F bck c L g true false o zE s = WDone s' -> (1 < wNg g)%nat ->
  forall r i, (wL g * wL g * (wT g / wRanks g) <= i + (wNg g - 1) * (wL g * wL g))%nat -> wtM s' r i = wtM s r i.
Proof.
  intros F bck c L g o zE s s' H N r i Hi. unfold transport in H. cbv zeta in H. destruct (existsb _ _); try discriminate. inversion H. cbn [wtM]. unfold writeTwo, early, wLz.
  destruct (Nat.ltb_spec (i + (wNg g - 1) * (wL g * wL g)) (wL g * wL g * (wT g / wRanks g))); [lia|reflexivity].
Qed.
Lemma mom_zero g : modeMom g 0 0 = 0%Z.
Proof.
  unfold modeMom, rLx. cbv zeta. rewrite Nat.mul_0_r. rewrite Nat.div_0_l by lia. cbn [Nat.mul Nat.sub Nat.add].
  assert (E : (0 / wT g = 0)%nat) by (destruct (wT g); [reflexivity|apply Nat.div_0_l; discriminate]). rewrite E. cbn [Nat.mul Nat.sub Nat.add].
  destruct (Nat.ltb_spec (wL g / 2) 0); [lia|]. destruct (Nat.ltb_spec (wT g / 2) 0); [lia|]. reflexivity.
Qed.
Lemma isZero_true x : x = 0 -> isZero x = true.
Proof. intros ->. unfold isZero. destruct (Req_EM_T 0 0); [reflexivity|contradiction]. Qed.
(** A massless field turns into NaN: the still mode is divided by its frequency *)
Theorem massless_refuted : forall F bck c L g two o zE s, indi3 c = 0 -> (0 < wRanks g)%nat -> (0 < nModes g)%nat -> 0 < L -> (2 <= wL g)%nat -> transport F bck c L g two false o zE s = WNaN.
Proof.
  intros F bck c L g two o zE s I R N HL HG. unfold transport. cbv zeta.
  assert (M2 : forall z, AxionMass2 c z = 0) by (intros z; unfold AxionMass2; rewrite I; repeat match goal with |- context [if ?d then _ else _] => destruct d end; ring).
  assert (M : forall z, mass c z = 0) by (intros z; unfold mass; rewrite M2; apply sqrt_0).
  assert (X : existsb (fun r => existsb (fun i => isZero (freq c (modeK2 L g r i) (obIni o)) || isZero (freq c (modeK2 L g r i) zE)) (seq 0 (nModes g))) (seq 0 (wRanks g)) = true).
  { apply existsb_exists. exists 0%nat. split; [apply in_seq; lia|]. apply existsb_exists. exists 0%nat. split; [apply in_seq; lia|]. apply orb_true_iff. left. apply isZero_true.
    unfold freq, modeK2. rewrite mom_zero, M. transitivity (sqrt 0); [f_equal; ring|apply sqrt_0]. }
  rewrite X. destruct two; [reflexivity|]. destruct (table_made F c L (obIni o) zE g HL HG) as [p ->]. reflexivity.
Qed.
Lemma freq_massive c k2 z : 0 <= k2 -> 0 < mass c z -> 0 < z -> 0 < freq c k2 z.
Proof.
  intros K M Z. unfold freq. apply sqrt_lt_R0. assert (0 < mass c z * z) by (apply Rmult_lt_0_compat; assumption). assert (0 < mass c z * z * (mass c z * z)) by (apply Rmult_lt_0_compat; assumption). lra.
Qed.
Lemma mom_pos g r i : (0 <= modeMom g r i)%Z.
Proof. unfold modeMom. cbv zeta. repeat apply Z.add_nonneg_nonneg; [apply Z.mul_nonneg_nonneg; lia| |]; apply Z.square_nonneg. Qed.
Lemma k2_pos L g r i : 0 < L -> 0 <= modeK2 L g r i.
Proof.
  intros HL. unfold modeK2. apply Rmult_le_pos; [apply IZR_le, mom_pos|]. unfold minmom2. pose proof PI_RGT_0. left. apply Rdiv_lt_0_compat; [|apply Rmult_lt_0_compat; assumption]. apply Rmult_lt_0_compat; [lra|assumption].
Qed.
Lemma no_zero c L g zI zE : 0 < L -> 0 < zI -> 0 < zE -> 0 < mass c zI -> 0 < mass c zE ->
  existsb (fun r => existsb (fun i => isZero (freq c (modeK2 L g r i) zI) || isZero (freq c (modeK2 L g r i) zE)) (seq 0 (nModes g))) (seq 0 (wRanks g)) = false.
Proof.
  intros HL ZI ZE MI ME. apply not_true_is_false. intros X. apply existsb_exists in X. destruct X as [r [_ X]]. apply existsb_exists in X. destruct X as [i [_ X]].
  pose proof (freq_massive c (modeK2 L g r i) zI (k2_pos L g r i HL) MI ZI). pose proof (freq_massive c (modeK2 L g r i) zE (k2_pos L g r i HL) ME ZE).
  unfold isZero in X. destruct (Req_EM_T _ 0), (Req_EM_T _ 0); (discriminate || lra).
Qed.
(** A massive field is always moved *)
Theorem transport_defined : forall F bck c L g two o zE s, 0 < L -> (2 <= wL g)%nat -> 0 < obIni o -> 0 < zE -> 0 < mass c (obIni o) -> 0 < mass c zE -> exists s', transport F bck c L g two false o zE s = WDone s'.
Proof.
  intros F bck c L g two o zE s HL HG ZI ZE MI ME. unfold transport. cbv zeta. rewrite no_zero by assumption. destruct two; [eexists; reflexivity|]. destruct (table_made F c L (obIni o) zE g HL HG) as [p ->]. eexists; reflexivity.
Qed.
Lemma flat_table F c L z n p x : 0 < z -> phaseSpline F c L z z n = Some p -> eval p x = 0.
Proof.
  intros Z H. unfold phaseSpline in H. destruct (cubics_reproduced _ _ _ _ _ _ _ 0 0 0 0 H) as [_ [_ Q]].
  - intros i Hi. rewrite table_length in Hi. unfold superTable. rewrite nth_seq_map by lia. rewrite no_turn_at_once by exact Z. unfold cubicAt. ring.
  - replace (Curvature 0) with (Curvature (cubicCurv 0 0 (first (k2Table L n)))) by (f_equal; unfold cubicCurv; ring). constructor.
  - replace (Curvature 0) with (Curvature (cubicCurv 0 0 (final (k2Table L n)))) by (f_equal; unfold cubicCurv; ring). constructor.
  - rewrite Q by reflexivity. unfold cubicAt. ring.
Qed.
Lemma modeTwo_still F c z st k2 M D : 0 < k2 + AxionMass2 c z * z * z -> modeTwo F c z z st k2 M D = (M, D).
Proof.
  intros P. unfold modeTwo. cbv zeta. assert (E : phiTwo F c st k2 z z = 0) by (unfold phiTwo; destruct st; ring). rewrite E. unfold cis. rewrite cos_0, sin_0. apply modeStep_still, sqrt_lt_R0, P.
Qed.
Lemma mass_pos_sq c z : 0 < mass c z -> 0 < AxionMass2 c z.
Proof. intros M. unfold mass in M. destruct (Rle_or_lt (AxionMass2 c z) 0) as [Q|Q]; [|exact Q]. rewrite sqrt_neg_0 in M by exact Q. lra. Qed.
(** Moved over no time, the field comes back as it was, unless the mass freezes at that very time and there is only one field *)
Theorem no_time_partial : forall F fwd bck c L g ghost jM jV two s, transformPair fwd bck g -> 0 < L -> (2 <= wL g)%nat -> (0 < wT g)%nat -> 0 < wtZ s -> 0 < mass c (wtZ s) -> two = true \/ wtZ s <> zThRes c \/ nQcd c = 0 ->
  let (o, s1) := construct fwd g ghost jM jV two false s in
  exists s2, transport F bck c L g two false o (wtZ s) s1 = WDone s2 /\ sameField g (wtM s2) (wtM s) /\ sameField g (wtV s2) (wtV s).
Proof.
  intros F fwd bck c L g ghost jM jV two s [Inv Only] HL HG HT Z M N. unfold construct. unfold transport. cbn [obIni wtA wtB wtM wtV]. cbv zeta. rewrite no_zero by assumption.
  assert (N0 : INR (wL g * wL g * wT g) <> 0) by (apply not_0_INR; apply Nat.neq_mul_0; split; [apply Nat.neq_mul_0|]; lia).
  pose proof (mass_pos_sq c (wtZ s) M) as MP. assert (MZ : 0 < AxionMass2 c (wtZ s) * wtZ s * wtZ s) by (apply Rmult_lt_0_compat; [apply Rmult_lt_0_compat|]; assumption).
  destruct two.
  - eexists. split; [reflexivity|]. cbn [wtM wtV]. split.
    + intros r i Hr Hi. unfold writeTwo, wLz. destruct (Nat.ltb_spec (i + early g) (wL g * wL g * (wT g / wRanks g))) as [Q|Q]; [|reflexivity].
      rewrite (Only _ (fwd (readTwo g ghost (wtM s)))).
      * rewrite Inv by assumption. unfold readTwo. destruct (Nat.ltb_spec (i + early g) (early g)); [lia|]. replace (i + early g - early g)%nat with i by lia. field. exact N0.
      * intros r' i' _ _. rewrite modeTwo_still; [reflexivity|]. pose proof (k2_pos L g r' i' HL). lra.
    + intros r i Hr Hi. rewrite (Only _ (fwd (wtV s))); [rewrite Inv by assumption; field; exact N0|]. intros r' i' _ _. rewrite modeTwo_still; [reflexivity|]. pose proof (k2_pos L g r' i' HL). lra.
  - destruct N as [N|N]; [discriminate|]. destruct (table_made F c L (wtZ s) (wtZ s) g HL HG) as [p Hp]. rewrite Hp. eexists. split; [reflexivity|]. cbn [wtM wtV].
    split; intros r i Hr Hi; [rewrite (Only _ (fwd (wtM s)))|rewrite (Only _ (fwd (wtV s)))]; try (rewrite Inv by assumption; field; exact N0);
      intros r' i' _ _; rewrite mode_still_partial; try reflexivity; try exact N; try (apply freq_massive; (assumption || apply k2_pos, HL)); apply (flat_table F c L (wtZ s) (powMax g)); assumption.
Qed.

(** ** Room *)
(** The padded modes fit the arrays exactly when a rank is no longer than wide (v) or than Ng widths (m, the halves of m2) *)
Theorem room_iff : forall L Lz Ng, (0 < L)%nat ->
  ((endV L Lz <= roomV L Lz)%nat <-> (Lz <= L)%nat) /\
  ((endM L Lz <= roomM L Lz Ng)%nat <-> (Lz <= Ng * L)%nat) /\
  ((endFirstHalf L Lz <= startSecondHalf L Lz Ng)%nat <-> (Lz <= Ng * L)%nat) /\
  ((endSecondHalf L Lz Ng <= roomM2 L Lz Ng false)%nat <-> (Lz <= Ng * L)%nat).
Proof.
  intros L Lz Ng H. unfold endV, endM, endFirstHalf, startSecondHalf, endSecondHalf, roomM2, roomV, roomM, padded.
  replace ((L + 2) * L * Lz)%nat with (L * L * Lz + 2 * (L * Lz))%nat by ring. replace (L * L * (Lz + 2))%nat with (L * L * Lz + 2 * (L * L))%nat by ring. replace (L * L * (Lz + 2 * Ng))%nat with (L * L * Lz + 2 * (L * (Ng * L)))%nat by ring.
  assert (A : (L * Lz <= L * L <-> Lz <= L)%nat) by (symmetry; apply Nat.mul_le_mono_pos_l, H). assert (B : (L * Lz <= L * (Ng * L) <-> Lz <= Ng * L)%nat) by (symmetry; apply Nat.mul_le_mono_pos_l, H).
  set (u := (L * L * Lz)%nat) in *. set (v := (L * Lz)%nat) in *. set (w := (L * (Ng * L))%nat) in *. set (q := (L * L)%nat) in *. set (x := (Ng * L)%nat) in *. clearbody u v w q x. lia.
Qed.
(** In the low-memory mode of a GPU the second half of m2 does not exist *)
Theorem low_memory_refuted : forall L Lz Ng, (0 < L)%nat -> (0 < Lz)%nat -> (roomM2 L Lz Ng true <= startSecondHalf L Lz Ng)%nat /\ (roomM2 L Lz Ng true < endSecondHalf L Lz Ng)%nat.
Proof.
  intros L Lz Ng HL HZ. unfold roomM2, startSecondHalf, endSecondHalf. split; [lia|]. assert (0 < padded L Lz)%nat by (unfold padded; repeat apply Nat.mul_pos_pos; lia). lia.
Qed.
(** With two fields, and more than one ghost slice, the velocity is read past its end *)
Theorem velocity_overread_iff : forall L Lz Ng, (0 < L)%nat -> ((readV L Lz Ng <= roomV L Lz)%nat <-> (Ng <= 1)%nat).
Proof.
  intros L Lz Ng H. unfold readV, roomM, roomV. rewrite <- Nat.mul_le_mono_pos_l by (apply Nat.mul_pos_pos; exact H). lia.
Qed.

(** A field of two sites a side on one rank: a transform that keeps the sites in the order of the modes *)
Definition egFwd (f : nat -> nat -> R) (r i : nat) : cx := (8 * f r i, 0).
Definition egBck (a : nat -> nat -> cx) (r i : nat) : R := if (r <? 1)%nat && (i <? 8)%nat then fst (a r i) else 0.
Example transform_case : transformPair egFwd egBck (WGrid 2 2 1 2).
Proof.
  split; cbn.
  - intros f r i Hr Hi. unfold egBck, egFwd. destruct (Nat.ltb_spec r 1); [|lia]. destruct (Nat.ltb_spec i 8); [|lia]. cbn. lra.
  - intros A B H r i. unfold egBck. destruct (Nat.ltb_spec r 1) as [Q|Q]; [|reflexivity]. destruct (Nat.ltb_spec i 8) as [W|W]; [|reflexivity]. cbn. rewrite H by lia. reflexivity.
Qed.
Example no_time_case : forall F ghost jM jV m v, let s := WState m v (fun _ _ => (0, 0)) (fun _ _ => (0, 0)) 1 true in
  let (o, s1) := construct egFwd (WGrid 2 2 1 2) ghost jM jV false false s in
  exists s2, transport F egBck (Cosmo 1 0 1 4 0 10 0 1 0) 1 (WGrid 2 2 1 2) false false o 1 s1 = WDone s2 /\ sameField (WGrid 2 2 1 2) (wtM s2) m /\ sameField (WGrid 2 2 1 2) (wtV s2) v.
Proof.
  intros F ghost jM jV m v s. apply (no_time_partial F egFwd egBck (Cosmo 1 0 1 4 0 10 0 1 0) 1 (WGrid 2 2 1 2) ghost jM jV false s transform_case); cbn; try lra; try lia.
  assert (E : AxionMass2 (Cosmo 1 0 1 4 0 10 0 1 0) 1 = 1).
  { unfold AxionMass2. rewrite scale_radiation by (lra || (split; cbn; lra)). cbn [zThRes zRestore indi3 nQcd]. destruct (Rle_dec 10 0); [lra|]. destruct (Rlt_dec 1 10); [|lra]. unfold Rpower; rewrite ln_1, Rmult_0_r, exp_0. ring. }
  unfold mass. rewrite E, sqrt_1. lra.
Qed.
Example momenta_case : modeMom (WGrid 4 4 2 1) 1 ((1 * 4 + 2) * (4 / 2 + 1) + 1) = 6%Z.
Proof. reflexivity. Qed.

Print Assumptions momenta_partial.
Print Assumptions momenta_all.
Print Assumptions momenta_refuted.
Print Assumptions table_covers.
Print Assumptions table_made.
Print Assumptions table_at_knots.
Print Assumptions steps_compose_partial.
Print Assumptions saxion_refused.
Print Assumptions transport_end.
Print Assumptions transport_forgets_partial.
Print Assumptions second_transport_partial.
Print Assumptions last_slices_refuted.
Print Assumptions massless_refuted.
Print Assumptions transport_defined.
Print Assumptions no_time_partial.
Print Assumptions room_iff.
Print Assumptions low_memory_refuted.
Print Assumptions velocity_overread_iff.
