(** C117: initial conditions in momentum space. *)
From Coq Require Import Reals ZArith Lra Lia List Arith Permutation Bool.
From Verif Require Import ConserveProofs PaxProofs.
From Verif Require Import MomModel MomSpec MomProofs.
Import ListNotations.
Local Open Scope R_scope.
Ltac Zify.zify_post_hook ::= idtac.

(** Every momentum the box tells apart has one place, on one rank; and every place of the arrays is that of one. *)
Theorem mom_places g : sane g ->
  (forall px py pz, inBox g (px, py, pz) -> (gC g = true \/ 0 <= px)%Z -> exists rank, (rank < gN g)%nat /\ (exists i, (i < rows g * gT g * maxLx g)%nat /\ placed g (px, py, pz) rank i) /\
     forall rank', (exists i, placed g (px, py, pz) rank' i) -> rank' = rank) /\
  (forall rank i, (rank < gN g)%nat -> (i < rows g * gT g * maxLx g)%nat -> exists p, inBox g p /\ placed g p rank i /\ forall p', inBox g p' -> placed g p' rank i -> p' = p).
Proof.
  intros S. pose proof (rows_all g S) as RA. split.
  - intros px py pz [PX [PY PZ]] H. destruct S as [L [T [N _]]].
    set (wy := Z.to_nat (py mod Z.of_nat (gL g))). assert (WY : (wy < gL g)%nat) by (pose proof (Z.mod_pos_bound py (Z.of_nat (gL g)) ltac:(lia)); unfold wy; lia).
    assert (R0 : rows g <> 0%nat) by (intros E; rewrite E in RA; lia).
    pose proof (Nat.div_mod wy (rows g) R0) as D. pose proof (Nat.mod_upper_bound wy (rows g) R0) as M. set (r := (wy / rows g)%nat) in *.
    assert (WX : (Z.to_nat (px mod Z.of_nat (gL g)) < maxLx g)%nat).
    { pose proof (Z.mod_pos_bound px (Z.of_nat (gL g)) ltac:(lia)). unfold maxLx. destruct (gC g); [lia|]. destruct H as [H|H]; [discriminate|]. unfold inZone in PX.
      pose proof (Nat.div_mod (gL g) 2 ltac:(lia)). pose proof (Nat.mod_upper_bound (gL g) 2 ltac:(lia)).
      pose proof (Z.mod_le px (Z.of_nat (gL g)) H ltac:(lia)). lia. }
    assert (WZ : (Z.to_nat (pz mod Z.of_nat (gT g)) < gT g)%nat) by (pose proof (Z.mod_pos_bound pz (Z.of_nat (gT g)) ltac:(lia)); lia).
    assert (RN : (r < gN g)%nat).
    { apply Nat.nle_gt. intros Q. apply (Nat.mul_le_mono_l _ _ (rows g)) in Q. lia. }
    assert (Y1 : (r * rows g <= wy < (r + 1) * rows g)%nat) by (rewrite Nat.mul_add_distr_r, (Nat.mul_comm r); lia).
    exists r. split; [exact RN|]. split.
    + eexists. split; [|unfold placed; cbv zeta beta; fold (rows g); fold wy; split; [reflexivity|split; [exact Y1|exact WX]]].
      set (a := (wy - r * rows g)%nat). assert (A : (a < rows g)%nat) by (unfold a; lia). clearbody a.
      set (z := Z.to_nat (pz mod _)) in *. set (x := Z.to_nat (px mod _)) in *. set (m := maxLx g) in *. clearbody z x m.
      apply Nat.lt_le_trans with ((a * gT g + z + 1) * m)%nat; [rewrite !Nat.mul_add_distr_r; lia|]. apply Nat.mul_le_mono_r.
      apply Nat.le_trans with ((a + 1) * gT g)%nat; [lia|apply Nat.mul_le_mono_r; lia].
    + intros r' [i [_ [Y2 _]]]. fold (rows g) in Y2. fold wy in Y2. clear - Y1 Y2. destruct (Nat.lt_total r' r) as [Q|[Q|Q]]; [exfalso|exact Q|exfalso].
      * assert ((r' + 1) * rows g <= r * rows g)%nat by (apply Nat.mul_le_mono_r; lia). lia.
      * assert ((r + 1) * rows g <= r' * rows g)%nat by (apply Nat.mul_le_mono_r; lia). lia.
  - intros rank i K I. set (m := maxLx g) in *.
    assert (M0 : m <> 0%nat) by (intros E; rewrite E in I; lia). assert (T0 : gT g <> 0%nat) by (destruct S; lia).
    set (x := (i mod m)%nat). set (z := ((i / m) mod gT g)%nat). set (y := (i / m / gT g)%nat).
    assert (X : (x < m)%nat) by (apply Nat.mod_upper_bound; exact M0). assert (Z : (z < gT g)%nat) by (apply Nat.mod_upper_bound; exact T0).
    assert (Y : (y < rows g)%nat). { unfold y. apply Nat.div_lt_upper_bound; [exact T0|]. apply Nat.div_lt_upper_bound; [exact M0|]. rewrite (Nat.mul_comm (gT g)), Nat.mul_comm. exact I. }
    assert (P : place g (y, z, x) = i).
    { rewrite place_alt. fold m. pose proof (Nat.div_mod i m M0) as D1. pose proof (Nat.div_mod (i / m) (gT g) T0) as D2. fold x in D1. fold y z in D2.
      rewrite (Nat.mul_comm y), <- D2, (Nat.mul_comm _ m), <- D1. reflexivity. }
    assert (IT : In (y, z, x) (turns g)) by (rewrite in_turns; fold m; repeat split; assumption).
    destruct (placed_exists g rank _ S K IT) as [B L]. exists (momentum g rank (y, z, x)). rewrite P in L. split; [exact B|]. split; [exact L|].
    intros p' B' L'. destruct (turnOf_ok g p' rank i S B' L') as [I' [P' M']]. rewrite <- M'. f_equal. apply (place_inj g); [exact I'|exact IT|congruence].
Qed.

(** What is written: within the cut the amplitude of the kind times a random phase (and size); beyond it nothing. The velocity is left as it was. *)
Lemma amp_plain g m q d P : plain m -> (0 <= P)%Z -> kCrt q <> 0 ->
  amp g m q d P = Some (scaC (shape g q m (sqrt (IZR P) / kCrt q) * (if randommom q then sz d else 1)) (expI (ph d)), None).
Proof.
  intros H Z K. assert (S : sqrt (IZR P) / kCrt q * (sqrt (IZR P) / kCrt q) = IZR P / (kCrt q * kCrt q)).
  { rewrite <- (sqrt_sqrt (IZR P)) at 3 by (apply IZR_le; exact Z). field. exact K. }
  assert (N : P = 0%Z <-> sqrt (IZR P) / kCrt q = 0).
  { split; [intros ->; rewrite sqrt_0; field; exact K|]. intros E. apply eq_IZR. apply sqrt_eq_0; [apply IZR_le; exact Z|].
    apply (f_equal (fun x => x * kCrt q)) in E. unfold Rdiv in E. rewrite Rmult_assoc, Rinv_l, Rmult_0_l, Rmult_1_r in E by exact K. exact E. }
  assert (M : marsa q d = scaC (if randommom q then sz d else 1) (expI (ph d))).
  { unfold marsa. destruct (randommom q); [reflexivity|]. unfold scaC, expI. cbn [fst snd]. rewrite !Rmult_1_l. reflexivity. }
  assert (G : forall a, scaC a (marsa q d) = scaC (a * (if randommom q then sz d else 1)) (expI (ph d))).
  { intros a. rewrite M. unfold scaC. cbn [fst snd]. f_equal; ring. }
  unfold amp, shape. cbv zeta. set (k := sqrt (IZR P) / kCrt q) in *. destruct (Z.eqb_spec P 0) as [E|E].
  - pose proof (proj1 N E) as E2. destruct m; try contradiction; rewrite ?G; f_equal; f_equal; f_equal; try (f_equal; rewrite E2).
    + rewrite M. unfold scaC. cbn [fst snd]. rewrite Rmult_1_l. reflexivity.
    + destruct (Req_EM_T 0 0); [reflexivity|congruence].
    + rewrite Ropp_0, exp_0. reflexivity.
    + rewrite Rmult_0_l, Ropp_0, exp_0. reflexivity.
    + rewrite Rmult_0_l, Rmult_0_r, Ropp_0, exp_0, Rplus_0_l. unfold Rpower. rewrite ln_1, Rmult_0_r, exp_0. field.
  - destruct m; try contradiction; rewrite ?G; f_equal; f_equal; f_equal; try f_equal.
    + rewrite M. unfold scaC. cbn [fst snd]. rewrite Rmult_1_l. reflexivity.
    + destruct (Req_EM_T k 0) as [Q|Q]; [apply N in Q; contradiction|reflexivity].
    + rewrite S. reflexivity.
    + rewrite S. f_equal. f_equal. lra.
Qed.
Lemma modP_pos p : (0 <= modP p)%Z.
Proof. destruct p as [[a b] c]. unfold modP. pose proof (Z.square_nonneg a). pose proof (Z.square_nonneg b). pose proof (Z.square_nonneg c). lia. Qed.
Theorem mom_plain g m q dd phase order rank mode0 s mode0' s' p i : sane g -> plain m -> kCrt q <> 0 -> Permutation order (turns g) ->
  momConf g m q dd phase order rank mode0 s = Some (mode0', s') -> inBox g p -> placed g p rank i -> (rank <> 0 \/ i <> 0)%nat ->
  fV s' i = fV s i /\
  ((3 * Z.of_nat (kmax g q) * Z.of_nat (kmax g q) < modP p)%Z -> fM s' i = (0, 0)) /\
  ((modP p <= 3 * Z.of_nat (kmax g q) * Z.of_nat (kmax g q))%Z -> exists t, place g t = i /\
     fM s' i = scaC (shape g q m (sqrt (IZR (modP p)) / kCrt q) * (if randommom q then sz (dd t) else 1)) (expI (ph (dd t)))).
Proof.
  intros S PL K PE E B L Z. unfold momConf, momXeon in E. assert (KO : kernelOf m = m) by (destruct m; try reflexivity; contradiction). rewrite KO in E.
  destruct (fold_left _ order (Some s)) as [s1|] eqn:F; [|discriminate]. injection E as E.
  assert (E' : snd (adjust m rank phase mode0 s1) = s') by (rewrite E; reflexivity). clear E.
  destruct (adjust_other m rank phase mode0 s1 i ltac:(tauto)) as [A1 A2]. rewrite E' in A1, A2.
  destruct (loop_mode g m q dd rank order s s1 p i S PE B L F) as [t [a [ob [T1 [T2 [T3 [W [WM WV]]]]]]]]. rewrite A1, A2, WM, WV. clear A1 A2 WM WV.
  unfold wr in W. rewrite T3 in W. rewrite amp_plain in W by (try apply modP_pos; assumption).
  destruct (Z.leb_spec (modP p) (3 * (Z.of_nat (kmax g q) * Z.of_nat (kmax g q)))) as [H|H]; injection W as <- <-.
  - split; [reflexivity|]. split; [intros; lia|]. intros _. exists t. split; [exact T2|reflexivity].
  - split; [reflexivity|]. split; [reflexivity|]. intros; lia.
Qed.
(** It always ends, and leaves what is beyond the modes. *)
Theorem mom_ends g m q dd phase order rank mode0 s : m <> Spax -> exists r, momConf g m q dd phase order rank mode0 s = Some r.
Proof.
  intros N. unfold momConf, momXeon. destruct (loop_some g (kernelOf m) q dd rank order s) as [s1 ->]; [|eexists; reflexivity].
  intros t _. unfold wr. destruct (Z.leb _ _); [|discriminate]. destruct m; try discriminate; contradiction.
Qed.
Theorem mom_frame g m q dd phase order rank mode0 s mode0' s' i : sane g -> Permutation order (turns g) -> momConf g m q dd phase order rank mode0 s = Some (mode0', s') ->
  (rows g * gT g * maxLx g <= i)%nat -> (0 < i)%nat -> fM s' i = fM s i /\ fV s' i = fV s i.
Proof.
  intros S P E I I0. unfold momConf, momXeon in E. destruct (fold_left _ order (Some s)) as [s1|] eqn:F; [|discriminate]. injection E as E.
  assert (E' : snd (adjust (kernelOf m) rank phase mode0 s1) = s') by (rewrite E; reflexivity). clear E.
  destruct (adjust_other (kernelOf m) rank phase mode0 s1 i ltac:(lia)) as [A1 A2]. rewrite E' in A1, A2. rewrite A1, A2.
  apply (loop_other g (kernelOf m) q dd rank order s s1 i); [|exact F].
  intros [[y z] x] T Q. apply (Permutation_in _ P) in T. apply in_turns in T. destruct T as [Y [Z X]]. rewrite place_alt in Q.
  assert (H : ((y * gT g + z + 1) * maxLx g <= rows g * gT g * maxLx g)%nat).
  { apply Nat.mul_le_mono_r. apply Nat.le_trans with ((y + 1) * gT g)%nat; [lia|apply Nat.mul_le_mono_r; lia]. }
  rewrite Nat.mul_add_distr_r in H. lia.
Qed.

(** *** The cut *)
(** Asked for modes up to kMax, modes up to sqrt 3 times as long are made: the corner (k, k, k) is. *)
Theorem cut_refuted g q dd phase order rank mode0 s mode0' s' k i : sane g -> (gL g <= gT g)%nat -> kCrt q <> 0 -> Permutation order (turns g) ->
  (1 <= k)%nat -> kMax q = k -> (k <= gL g / 2 - 1)%nat -> randommom q = false -> momConf g MFlat q dd phase order rank mode0 s = Some (mode0', s') ->
  let p := (Z.of_nat k, Z.of_nat k, Z.of_nat k) in placed g p rank i -> (rank <> 0 \/ i <> 0)%nat ->
  (Z.of_nat (kMax q) * Z.of_nat (kMax q) < modP p)%Z /\ fM s' i <> (0, 0).
Proof.
  intros S LT K P K1 KM KL RM E p L Z. assert (KK : kmax g q = k). { unfold kmax. rewrite KM. destruct (Nat.ltb_spec (gL g / 2 - 1) k); lia. }
  pose proof (Nat.div_mod (gL g) 2 ltac:(lia)) as D.
  assert (B : inBox g p). { unfold p, inBox, inZone. repeat split; lia. }
  assert (MP : modP p = (3 * Z.of_nat k * Z.of_nat k)%Z) by (unfold p, modP; ring).
  split. { rewrite MP, KM. assert (0 < Z.of_nat k * Z.of_nat k)%Z by (apply Z.mul_pos_pos; lia). lia. }
  destruct (mom_plain g MFlat q dd phase order rank mode0 s mode0' s' p i S I K P E B L Z) as [_ [_ H]]. rewrite KK, MP, RM in H. destruct (H ltac:(lia)) as [t [_ ->]].
  unfold scaC, expI, shape. cbn [fst snd]. rewrite !Rmult_1_l. intros Q. injection Q as Q1 Q2. pose proof (sin2_cos2 (ph (dd t))) as SC. unfold Rsqr in SC. rewrite Q1, Q2 in SC. lra.
Qed.
(** With velocities, those of the modes beyond the cut are whatever the memory held. *)
Theorem cut_velocity_refuted g m q dd phase order rank mode0 s mode0' s' p i : sane g -> Permutation order (turns g) ->
  momConf g m q dd phase order rank mode0 s = Some (mode0', s') -> inBox g p -> placed g p rank i -> (rank <> 0 \/ i <> 0)%nat ->
  (3 * Z.of_nat (kmax g q) * Z.of_nat (kmax g q) < modP p)%Z -> fM s' i = (0, 0) /\ fV s' i = fV s i.
Proof.
  intros S PE E B L Z H. unfold momConf, momXeon in E. destruct (fold_left _ order (Some s)) as [s1|] eqn:F; [|discriminate]. injection E as E.
  assert (E' : snd (adjust (kernelOf m) rank phase mode0 s1) = s') by (rewrite E; reflexivity). clear E.
  destruct (adjust_other (kernelOf m) rank phase mode0 s1 i ltac:(tauto)) as [A1 A2]. rewrite E' in A1, A2.
  destruct (loop_mode g (kernelOf m) q dd rank order s s1 p i S PE B L F) as [t [a [ob [T1 [T2 [T3 [W [WM WV]]]]]]]]. rewrite A1, A2, WM, WV.
  unfold wr in W. rewrite T3 in W. destruct (Z.leb_spec (modP p) (3 * (Z.of_nat (kmax g q) * Z.of_nat (kmax g q)))); [lia|]. injection W as <- <-. split; reflexivity.
Qed.

(** *** The mode without momentum *)
Theorem mode0_set g m q dd phase order mode0 s mode0' s' : plain m -> mode0 < 3.141597 ->
  momConf g m q dd phase order 0 mode0 s = Some (mode0', s') -> mode0' = mode0 /\ fM s' 0 = (cos mode0, sin mode0).
Proof.
  intros P M. unfold momConf, momXeon. destruct (fold_left _ order (Some s)) as [s1|]; [|discriminate]. intros E. injection E as E. revert E.
  destruct m; try contradiction; cbn [kernelOf adjust Nat.eqb]; (destruct (Rlt_dec mode0 3.141597); [|lra]); intros E; injection E as <- <-; split; reflexivity.
Qed.
(** The angle of Tkachev's and thermal conditions is not set: that of the velocity is. *)
Theorem mode0_velocity_refuted g m q dd phase order mode0 s mode0' s' : m = MVSinCos \/ m = MVThermal -> sane g -> Permutation order (turns g) -> mode0 < 3.141597 ->
  momConf g m q dd phase order 0 mode0 s = Some (mode0', s') ->
  fV s' 0 = (cos mode0, sin mode0) /\ (m = MVThermal -> fM s' 0 = (0, 0)) /\ (m = MVSinCos -> exists t, fM s' 0 = scaC 1 (marsa q (dd t))).
Proof.
  intros MM S P M E. unfold momConf, momXeon in E. destruct (fold_left _ order (Some s)) as [s1|] eqn:F; [|discriminate]. injection E as E.
  assert (R : (0 < rows g)%nat) by (pose proof (rows_all g S) as RA; destruct S as [L _]; destruct (rows g); [cbn in RA; lia|lia]).
  assert (MX : (0 < maxLx g)%nat) by (destruct S as [L _]; unfold maxLx; destruct (gC g); lia).
  assert (T : In (0, 0, 0)%nat (turns g)) by (rewrite in_turns; destruct S as [_ [T _]]; repeat split; assumption).
  destruct (placed_exists g 0 _ S ltac:(destruct S as [_ [_ [N _]]]; exact N) T) as [B L].
  assert (PL : place g (0, 0, 0)%nat = 0%nat) by reflexivity. rewrite PL in L.
  assert (MO : momentum g 0 (0, 0, 0)%nat = (0, 0, 0)%Z) by (unfold momentum; rewrite Nat.mul_0_r; unfold signed; destruct (gL g / 2)%nat, (gT g / 2)%nat; reflexivity).
  rewrite MO in B, L. destruct (loop_mode g (kernelOf m) q dd 0 order s s1 _ 0 S P B L F) as [t [a [ob [_ [_ [T3 [W [WM _]]]]]]]].
  unfold wr in W. rewrite T3 in W. change (modP (0, 0, 0)%Z) with 0%Z in W. destruct (Z.leb_spec 0 (3 * (Z.of_nat (kmax g q) * Z.of_nat (kmax g q)))) as [_|Q]; [|pose proof (Z.square_nonneg (Z.of_nat (kmax g q))); lia].
  destruct MM as [-> | ->]; cbn [kernelOf adjust Nat.eqb] in E; (destruct (Rlt_dec mode0 3.141597); [|lra]); injection E as _ <-; cbn [fM fV];
  (split; [reflexivity|]); (split; [intros Q; try discriminate Q|intros Q; try discriminate Q]); rewrite WM; cbn [amp kernelOf Z.eqb] in W; cbv zeta in W; apply (f_equal (fun o => match o with Some v => fst v | None => a end)) in W; cbn [fst] in W; rewrite <- W; [exists t; reflexivity|reflexivity].
Qed.
(** An angle of 3.141597 or more is taken as not given, and only the first rank learns which one was drawn. *)
Theorem mode0_large_refuted g m q dd phase order rank mode0 s mode0' s' : plain m -> 3.141597 <= mode0 ->
  momConf g m q dd phase order rank mode0 s = Some (mode0', s') -> (rank = 0%nat -> mode0' = phase (fM s' 0%nat)) /\ (rank <> 0%nat -> mode0' = mode0).
Proof.
  intros P M. unfold momConf, momXeon. destruct (fold_left _ order (Some s)) as [s1|]; [|discriminate]. intros E. injection E as E. revert E.
  destruct m; try contradiction; cbn [kernelOf adjust]; (destruct (Nat.eqb_spec rank 0) as [->|N]; [|intros E; injection E as <- <-; split; [intros; contradiction|reflexivity]]);
  (destruct (Rlt_dec mode0 3.141597); [lra|]); intros E; injection E as <- <-; split; [reflexivity|congruence|reflexivity|congruence|reflexivity|congruence|reflexivity|congruence|reflexivity|congruence].
Qed.
(** The modes of opposite momenta of a real field are not conjugate: any constant phase but 0 and pi shows it. *)
Theorem conjugate_refuted g q phase order mode0 s mode0' s' i j : sane g -> gC g = false -> (gN g = 1)%nat -> (4 <= gL g)%nat -> (4 <= kMax q)%nat -> randommom q = false -> Permutation order (turns g) -> kCrt q <> 0 ->
  momConf g MFlat q (fun _ => Dice (PI / 2) 1 0 0) phase order 0 mode0 s = Some (mode0', s') -> placed g (0, 1, 0)%Z 0 i -> placed g (0, -1, 0)%Z 0 j -> i <> 0%nat -> j <> 0%nat ->
  snd (fM s' i) = 1 /\ snd (fM s' j) = 1.
Proof.
  intros S GC N L4 KM RM P K E LI LJ I0 J0.
  assert (KK : (1 <= kmax g q)%nat). { unfold kmax. assert (2 <= gL g / 2)%nat by (apply Nat.div_le_lower_bound; lia). destruct (Nat.ltb_spec (gL g / 2 - 1) (kMax q)); lia. }
  assert (KK2 : (1 <= Z.of_nat (kmax g q) * Z.of_nat (kmax g q))%Z) by (apply (Z.mul_le_mono_nonneg 1 _ 1 _); lia).
  assert (T : (0 < gT g)%nat) by (destruct S as [_ [T _]]; exact T).
  assert (G : forall y, (y = 1 \/ y = -1)%Z -> forall k, placed g (0, y, 0)%Z 0 k -> k <> 0%nat -> snd (fM s' k) = 1).
  { intros y Y k LK K0. assert (B : inBox g (0, y, 0)%Z) by (unfold inBox, inZone; lia).
    destruct (mom_plain g MFlat q _ phase order 0 mode0 s mode0' s' _ k S I K P E B LK (or_intror K0)) as [_ [_ H]].
    assert (MP : modP (0, y, 0)%Z = 1%Z) by (destruct Y as [-> | ->]; reflexivity). rewrite MP, RM in H. destruct (H ltac:(lia)) as [t [_ ->]].
    unfold scaC, expI, shape. cbn [fst snd ph]. rewrite sin_PI2. ring. }
  split; [apply (G 1%Z)|apply (G (-1)%Z)]; auto.
Qed.
(** The noise of the velocity asked for with the kind KCole has the amplitudes of another kind. *)
Theorem kcole_refuted g q d P : (0 < P)%Z -> 0 < kCrt q -> IZR P <> kCrt q * kCrt q -> amp g (kernelOf KCole) q d P <> amp g KCole q d P \/ marsa q d = (0, 0).
Proof.
  intros P0 K N. cbn [kernelOf amp]. destruct (Z.eqb_spec P 0); [lia|]. cbv zeta. set (z := marsa q d).
  assert (S : sqrt (IZR P) / kCrt q * (sqrt (IZR P) / kCrt q) = IZR P / (kCrt q * kCrt q)).
  { rewrite <- (sqrt_sqrt (IZR P)) at 3 by (apply IZR_le; lia). field. lra. }
  set (k := sqrt (IZR P) / kCrt q) in *. rewrite <- S.
  assert (KP : 0 < k). { apply Rdiv_lt_0_compat; [apply sqrt_lt_R0, IZR_lt; lia|exact K]. }
  assert (K1 : k <> 1). { intros E. rewrite E in S. apply N. replace (IZR P) with (IZR P / (kCrt q * kCrt q) * (kCrt q * kCrt q)) by (field; lra). rewrite <- S. ring. }
  destruct (Req_EM_T (fst z) 0) as [Z1|Z1]; [destruct (Req_EM_T (snd z) 0) as [Z2|Z2]; [right; rewrite (surjective_pairing z), Z1, Z2; reflexivity|]|];
  left; intros E; injection E as E1 E2; [apply Rmult_eq_reg_r in E2; [|exact Z2]; rename E2 into Q|apply Rmult_eq_reg_r in E1; [|exact Z1]; rename E1 into Q];
  apply exp_inv in Q; assert (QQ : k * (k - 1) = 0) by lra; apply Rmult_integral in QQ; destruct QQ; lra.
Qed.

(** *** Tkachev's conditions *)
(** The velocity of a mode, after the factors, is the rate of the field of the mode taken as a function of time. *)
Theorem tkachev_rate g q d P size z theta2 kcr : (0 < P)%Z -> 0 < size -> 0 < z -> kCrt q = kCritz size z ->
  let k := 2 * PI * sqrt (IZR P) / size in let '(nm, nv) := tkFactors theta2 kcr z in
  exists a b, amp g MVSinCos q d P = Some (a, Some b) /\ scaC nm a = scaC (nm * (sin (k * z) / (k * z))) (marsa q d) /\
    derivable_pt_lim (fun t => fst (scaC (nm * (sin (k * t) / (k * t))) (marsa q d))) z (fst (scaC nv b)) /\
    derivable_pt_lim (fun t => snd (scaC (nm * (sin (k * t) / (k * t))) (marsa q d))) z (snd (scaC nv b)).
Proof.
  intros P0 S Z K k. unfold tkFactors. cbv zeta. set (nm := PI / sqrt (3 * theta2 / kcr)). pose proof PI_RGT_0 as PI0.
  assert (SP : 0 < sqrt (IZR P)) by (apply sqrt_lt_R0, IZR_lt; exact P0).
  assert (KP : 0 < k). { unfold k. apply Rdiv_lt_0_compat; [|exact S]. apply Rmult_lt_0_compat; lra. }
  assert (KK : sqrt (IZR P) / kCrt q = k * z). { rewrite K. unfold kCritz, k. field. repeat split; lra. }
  assert (D : forall c, derivable_pt_lim (fun t => nm * (sin (k * t) / (k * t)) * c) z (nm / z * ((cos (k * z) - sin (k * z) / (k * z)) * c))).
  { intros c. assert (L : derivable_pt_lim (fun t => k * t) z k).
    { eapply dl_eq; [apply (dl_mult (fun _ => k) (fun t => t)); [apply dl_const|apply dl_idv]|ring]. }
    assert (KZ : k * z <> 0) by (apply Rgt_not_eq, Rmult_lt_0_compat; lra).
    eapply dl_eq.
    - apply dl_scal. apply (dl_mult (fun _ => nm) (fun t => sin (k * t) / (k * t))); [apply dl_const|].
      apply (dl_mult (fun t => sin (k * t)) (fun t => / (k * t))); [apply dl_sin; exact L|apply dl_inv; [exact L|exact KZ]].
    - cbv beta. field. repeat split; lra. }
  cbn [amp]. cbv zeta. destruct (Z.eqb_spec P 0); [lia|]. rewrite KK. eexists. eexists. split; [reflexivity|].
  unfold scaC. cbn [fst snd]. split; [f_equal; ring|]. split; apply D.
Qed.
(** The mean square of the angles is pi^2/3 times the factor asked for. *)
Theorem tkachev_size theta2 kcr z : 0 < theta2 -> 0 < kcr -> let '(nm, _) := tkFactors theta2 kcr z in nm * nm * theta2 = PI * PI / 3 * kcr.
Proof.
  intros T K. unfold tkFactors. cbv zeta. set (x := 3 * theta2 / kcr). assert (X : 0 < x) by (apply Rdiv_lt_0_compat; lra).
  pose proof (sqrt_lt_R0 x X) as SX. pose proof (sqrt_sqrt x (Rlt_le _ _ X)) as Q.
  replace (PI / sqrt x * (PI / sqrt x)) with (PI * PI / (sqrt x * sqrt x)) by (field; lra). rewrite Q. unfold x. field. split; lra.
Qed.
(** *** Thermal conditions *)
(** Each mode has the occupation of its energy, and the velocity its share. *)
Theorem thermal_shares g q d P : (0 < P)%Z -> 0 < k0 q -> 0 <= mass2 q -> 0 < kCrt q ->
  let w := sqrt (IZR P * (k0 q * k0 q) + mass2 q) in
  exists A B, amp g MVThermal q d P = Some (scaC A (marsa q d), Some (scaC B (scaC (sz2 d) (expI (ph2 d))))) /\
    A * A = 1 / (w * (exp (w / kCrt q) - 1)) /\ B = w * A.
Proof.
  intros P0 K0 M K w. assert (WW : 0 < IZR P * (k0 q * k0 q) + mass2 q).
  { assert (0 < IZR P * (k0 q * k0 q)); [|lra]. apply Rmult_lt_0_compat; [apply IZR_lt; exact P0|apply Rmult_lt_0_compat; exact K0]. }
  pose proof (sqrt_lt_R0 _ WW) as W. fold w in W. pose proof (sqrt_lt_R0 _ W) as SW. pose proof (sqrt_sqrt w (Rlt_le _ _ W)) as QW.
  assert (EX : 0 < exp (w / kCrt q) - 1). { assert (0 < w / kCrt q) by (apply Rdiv_lt_0_compat; assumption). pose proof (exp_ineq1 (w / kCrt q) ltac:(lra)). lra. }
  cbn [amp]. cbv zeta. destruct (Z.eqb_spec P 0); [lia|]. replace (IZR P * k0 q * k0 q + mass2 q) with (IZR P * (k0 q * k0 q) + mass2 q) by ring. fold w. rewrite QW.
  set (e := 1 / (exp (w / kCrt q) - 1)). assert (E : 0 < e) by (apply Rdiv_lt_0_compat; lra). pose proof (sqrt_sqrt e (Rlt_le _ _ E)) as QE.
  eexists. eexists. split; [reflexivity|]. split.
  - replace (sqrt e / sqrt w * (sqrt e / sqrt w)) with (sqrt e * sqrt e / (sqrt w * sqrt w)) by (field; lra). rewrite QE, QW. unfold e. field. split; lra.
  - rewrite <- QW at 2. field. lra.
Qed.
Theorem thermal_mass lamP Rs kcr : 0 <= lamP -> 0 <= mS2 lamP Rs kcr /\ (kcr * kcr = 3 -> mS2 lamP Rs kcr = 0).
Proof.
  intros L. unfold mS2. cbv zeta. pose proof (Rle_0_sqr Rs) as R2. unfold Rsqr in R2. split.
  - apply Rmult_le_pos; [exact L|]. destruct (Rlt_dec 3 (kcr * kcr)); [apply Rmult_le_pos; lra|]. apply Rmult_le_pos; lra.
  - intros E. rewrite E. destruct (Rlt_dec 3 3); [lra|]. lra.
Qed.

(** *** A table of amplitudes *)
(** A mode has the amplitude of the table, straight lines between its entries; with an entry just at it, that entry. *)
Theorem spax_table g q d P : (0 <= P)%Z -> (Z.sqrt P + 1 < Z.of_nat (length (tab q)))%Z ->
  exists c0 c1 b, Z.of_nat b = Z.sqrt P /\ INR b <= sqrt (IZR P) < INR b + 1 /\ nth_error (tab q) b = Some c0 /\ nth_error (tab q) (b + 1) = Some c1 /\
    amp g Spax q d P = Some (scaC (c0 + (c1 - c0) * (sqrt (IZR P) - INR b)) (marsa q d), None).
Proof.
  intros P0 H. set (b := Z.to_nat (Z.sqrt P)). pose proof (Z.sqrt_nonneg P) as SN. pose proof (Z.sqrt_spec P P0) as [S1 S2].
  assert (B : Z.of_nat b = Z.sqrt P) by (unfold b; lia).
  destruct (nth_error (tab q) b) as [c0|] eqn:E0; [|apply nth_error_None in E0; lia]. destruct (nth_error (tab q) (b + 1)) as [c1|] eqn:E1; [|apply nth_error_None in E1; lia].
  exists c0, c1, b. split; [exact B|]. split.
  - rewrite INR_IZR_INZ, B. split.
    + rewrite <- (sqrt_Rsqr (IZR (Z.sqrt P))) by (apply IZR_le; exact SN). apply sqrt_le_1_alt. unfold Rsqr. rewrite <- mult_IZR. apply IZR_le. exact S1.
    + replace (IZR (Z.sqrt P) + 1) with (IZR (Z.succ (Z.sqrt P))) by (rewrite succ_IZR; reflexivity). rewrite <- (sqrt_Rsqr (IZR (Z.succ (Z.sqrt P)))) by (apply IZR_le; lia).
      apply sqrt_lt_1_alt. split; [apply IZR_le; exact P0|]. unfold Rsqr. rewrite <- mult_IZR. apply IZR_lt. exact S2.
  - split; [exact E0|]. split; [exact E1|]. cbn [amp]. fold b. rewrite E0, E1. reflexivity.
Qed.
(** A table with an entry for each length up to half the box is too short: the corners are read past its end, on any rank that has one. *)
Theorem spax_short_refuted g q dd phase order rank mode0 s i : sane g -> (6 <= gL g <= gT g)%nat -> (gL g / 2 - 1 <= kMax q)%nat -> (length (tab q) <= gL g / 2 + 1)%nat -> Permutation order (turns g) ->
  let k := Z.of_nat (gL g / 2 - 1) in placed g (k, k, k) rank i -> momConf g Spax q dd phase order rank mode0 s = None.
Proof.
  intros S L6 KM LT PE k L. assert (H2 : (3 <= gL g / 2)%nat) by (apply Nat.div_le_lower_bound; lia). pose proof (Nat.div_mod (gL g) 2 ltac:(lia)) as D.
  assert (B : inBox g (k, k, k)) by (unfold inBox, inZone, k; lia). destruct (turnOf_ok g _ rank i S B L) as [I [Q M]].
  assert (KK : Z.of_nat (kmax g q) = k). { unfold kmax, k. destruct (Nat.ltb_spec (gL g / 2 - 1) (kMax q)); lia. }
  unfold momConf, momXeon. cbn [kernelOf]. rewrite (loop_none g Spax q dd rank order s (turnOf g (k, k, k) rank)); [reflexivity|apply (Permutation_in _ (Permutation_sym PE) I)|].
  unfold wr. rewrite M, KK. replace (modP (k, k, k)) with (3 * (k * k))%Z by (unfold modP; ring). rewrite Z.leb_refl. cbn [amp]. cbv zeta.
  assert (SQ : (k + 1 <= Z.sqrt (3 * (k * k)))%Z).
  { apply Z.sqrt_le_square; [pose proof (Z.square_nonneg k); lia|unfold k; lia|]. assert (2 <= k)%Z by (unfold k; lia). clearbody k. assert (0 <= (k - 2) * k)%Z by (apply Z.mul_nonneg_nonneg; lia).
    replace ((k + 1) * (k + 1))%Z with (k * k + 2 * k + 1)%Z by ring. replace ((k - 2) * k)%Z with (k * k - 2 * k)%Z in * by ring. lia. }
  destruct (nth_error (tab q) (Z.to_nat (Z.sqrt (3 * (k * k))))) as [c0|]; [|reflexivity].
  destruct (nth_error (tab q) (Z.to_nat (Z.sqrt (3 * (k * k))) + 1)) as [c1|] eqn:E; [|reflexivity].
  assert (N : nth_error (tab q) (Z.to_nat (Z.sqrt (3 * (k * k))) + 1) <> None) by congruence. apply nth_error_Some in N. unfold k in *. lia.
Qed.
(** The file is read whole; one that ends with a new line gives its last entry twice. *)
Theorem table_read {A} ends (l : list A) : (forall i, (i < length l)%nat -> nth_error (readTab ends l) i = nth_error l i) /\
  (ends = false -> readTab ends l = l) /\ (ends = true -> l <> [] -> length (readTab ends l) = S (length l) /\ nth_error (readTab ends l) (length l) = nth_error l (length l - 1)).
Proof.
  unfold readTab. destruct (rev l) as [|x r] eqn:E.
  - assert (l = []) as -> by (rewrite <- (rev_involutive l), E; reflexivity). split; [intros i I; cbn in I; lia|]. split; [reflexivity|]. intros _ N. contradiction.
  - assert (EL : l = rev r ++ [x]) by (rewrite <- (rev_involutive l), E; reflexivity). split; [|split].
    + intros i I. destruct ends; [rewrite nth_error_app1 by exact I|]; reflexivity.
    + intros ->. reflexivity.
    + intros -> _. split; [rewrite app_length; cbn; lia|]. rewrite nth_error_app2, Nat.sub_diag by lia. rewrite EL, app_length. cbn [length nth_error]. rewrite nth_error_app2 by lia.
      replace (length (rev r) + 1 - 1 - length (rev r))%nat with 0%nat by lia. reflexivity.
Qed.
(** All kinds with a kernel of their own, within the cut. *)
Theorem mom_modes g m q dd phase order rank mode0 s mode0' s' p i : sane g -> kernelOf m = m -> Permutation order (turns g) ->
  momConf g m q dd phase order rank mode0 s = Some (mode0', s') -> inBox g p -> placed g p rank i -> (rank <> 0 \/ i <> 0)%nat ->
  (modP p <= 3 * Z.of_nat (kmax g q) * Z.of_nat (kmax g q))%Z -> exists t a ob, place g t = i /\ amp g m q (dd t) (modP p) = Some (a, ob) /\
     fM s' i = a /\ fV s' i = match ob with Some b => b | None => fV s i end.
Proof.
  intros S KO PE E B L Z H. unfold momConf, momXeon in E. rewrite KO in E. destruct (fold_left _ order (Some s)) as [s1|] eqn:F; [|discriminate]. injection E as E.
  assert (E' : snd (adjust m rank phase mode0 s1) = s') by (rewrite E; reflexivity). clear E.
  destruct (adjust_other m rank phase mode0 s1 i ltac:(tauto)) as [A1 A2]. rewrite E' in A1, A2.
  destruct (loop_mode g m q dd rank order s s1 p i S PE B L F) as [t [a [ob [T1 [T2 [T3 [W [WM WV]]]]]]]].
  unfold wr in W. rewrite T3 in W. destruct (Z.leb_spec (modP p) (3 * (Z.of_nat (kmax g q) * Z.of_nat (kmax g q)))) as [_|Q]; [|lia].
  exists t, a, ob. split; [exact T2|]. split; [exact W|]. split; congruence.
Qed.
(** The cut is the one asked for, but not more than half the box less one. *)
Theorem cut_size g q : kmax g q = Nat.min (kMax q) (gL g / 2 - 1).
Proof. unfold kmax. destruct (Nat.ltb_spec (gL g / 2 - 1) (kMax q)); lia. Qed.

(** *** Cases *)
Definition g1 := Geo 8 8 2 true.
Lemma g1_sane : sane g1. Proof. repeat split; cbn; lia. Qed.
Definition q1 := Parms 2 3 0 1 [] false.
Definition s1 := Store (fun _ => (7, 7)) (fun _ => (9, 9)).
Definition zeroDice (_ : turn) := Dice 0 1 0 1.
Example placed_case : placed g1 (2, -3, -1)%Z 1 (1 * 64 + 7 * 8 + 2) /\ inBox g1 (2, -3, -1)%Z.
Proof. unfold placed, inBox, inZone. cbn. lia. Qed.
(** The mode (2, -3, -1) is beyond the cut 3 * 2^2 = 12 and (-2, -2, 2) is not. *)
Example mom_case : exists r, momConf g1 MFlat q1 zeroDice fst (turns g1) 1 10 s1 = Some r /\ fM (snd r) (1 * 64 + 7 * 8 + 2)%nat = (0, 0) /\ fM (snd r) (2 * 64 + 2 * 8 + 6)%nat = (1, 0) /\ fV (snd r) 0%nat = (9, 9).
Proof.
  destruct (mom_ends g1 MFlat q1 zeroDice fst (turns g1) 1 10 s1 ltac:(discriminate)) as [[m0 s'] E]. exists (m0, s'). split; [exact E|]. cbn [snd].
  assert (P : Permutation (turns g1) (turns g1)) by apply Permutation_refl.
  destruct (mom_plain g1 MFlat q1 zeroDice fst (turns g1) 1 10 s1 m0 s' (2, -3, -1)%Z _ g1_sane I ltac:(cbn; lra) P E (proj2 placed_case) (proj1 placed_case) ltac:(lia)) as [_ [A _]].
  split; [apply A; cbn; lia|].
  assert (L : placed g1 (-2, -2, 2)%Z 1 (2 * 64 + 2 * 8 + 6)) by (unfold placed; cbn; lia). assert (B : inBox g1 (-2, -2, 2)%Z) by (unfold inBox, inZone; cbn; lia).
  destruct (mom_plain g1 MFlat q1 zeroDice fst (turns g1) 1 10 s1 m0 s' _ _ g1_sane I ltac:(cbn; lra) P E B L ltac:(lia)) as [_ [_ C]]. destruct (C ltac:(cbn; lia)) as [t [_ ->]].
  split; [unfold scaC, expI, shape; cbn; rewrite cos_0, sin_0; f_equal; ring|].
  assert (L0 : placed g1 (0, 4, 0)%Z 1 0) by (unfold placed; cbn; lia). assert (B0 : inBox g1 (0, 4, 0)%Z) by (unfold inBox, inZone; cbn; lia).
  destruct (mom_plain g1 MFlat q1 zeroDice fst (turns g1) 1 10 s1 m0 s' _ _ g1_sane I ltac:(cbn; lra) P E B0 L0 ltac:(lia)) as [V _]. exact V.
Qed.
Example cut_case m0 s' : momConf g1 MFlat q1 zeroDice fst (turns g1) 0 10 s1 = Some (m0, s') -> fM s' (2 * 64 + 2 * 8 + 2)%nat <> (0, 0).
Proof.
  intros E. refine (proj2 (cut_refuted g1 q1 zeroDice fst (turns g1) 0 10 s1 m0 s' 2 (2 * 64 + 2 * 8 + 2) g1_sane _ _ (Permutation_refl _) _ eq_refl _ eq_refl E _ _)); clear E.
  - cbn; lia.
  - cbn; lra.
  - lia.
  - cbn; lia.
  - unfold placed; cbn; lia.
  - right; lia.
Qed.
Example mode0_case m0 s' : momConf g1 MFlat q1 zeroDice fst (turns g1) 0 0 s1 = Some (m0, s') -> fM s' 0 = (1, 0).
Proof. intros E. apply mode0_set in E; [|exact I|lra]. destruct E as [_ ->]. rewrite cos_0, sin_0. reflexivity. Qed.
Example short_case : exists q, length (tab q) = 5%nat /\ momConf g1 Spax q zeroDice fst (turns g1) 0 10 s1 = None.
Proof.
  exists (Parms 8 1 0 1 [1; 1; 1; 1; 1] true). split; [reflexivity|].
  refine (spax_short_refuted g1 _ zeroDice fst (turns g1) 0 10 s1 (3 * 64 + 3 * 8 + 3) g1_sane _ _ _ (Permutation_refl _) _).
  - cbn; lia.
  - cbn; lia.
  - cbn; lia.
  - unfold placed; cbn; lia.
Qed.
Example tkachev_case : let '(nm, nv) := tkFactors 3 1 2 in nm * nm * 3 = PI * PI / 3 * 1 /\ nv = nm / 2.
Proof. unfold tkFactors. cbv zeta. split; [apply (tkachev_size 3 1 2); lra|reflexivity]. Qed.
Example thermal_case : mS2 1 1 0 = 2. Proof. unfold mS2. cbv zeta. destruct (Rlt_dec 3 (0 * 0)); lra. Qed.
Example table_case : readTab true [4; 5]%nat = [4; 5; 5]%nat /\ readTab false [4; 5]%nat = [4; 5]%nat.
Proof. split; reflexivity. Qed.

Print Assumptions mom_places.
Print Assumptions mom_plain.
Print Assumptions mom_modes.
Print Assumptions mom_ends.
Print Assumptions mom_frame.
Print Assumptions cut_size.
Print Assumptions cut_refuted.
Print Assumptions cut_velocity_refuted.
Print Assumptions mode0_set.
Print Assumptions mode0_velocity_refuted.
Print Assumptions mode0_large_refuted.
Print Assumptions conjugate_refuted.
Print Assumptions kcole_refuted.
Print Assumptions tkachev_rate.
Print Assumptions tkachev_size.
Print Assumptions thermal_shares.
Print Assumptions thermal_mass.
Print Assumptions spax_table.
Print Assumptions spax_short_refuted.
Print Assumptions table_read.
