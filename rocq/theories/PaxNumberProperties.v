(** Theorems about what the update of the nonrelativistic field keeps: the sums over the box, the number, and its size. *)
From Coq Require Import Lqa Lra Reals List Arith Lia.
From Verif Require Import KernelModel LaneModel LaplModel ForceModel EnergyModel EnergySpec CosmoModel CosmoSpec CosmoProofs ConserveSpec ConserveProofs ConserveBoxProofs EnergyProofs SchemeModel PaxModel PaxSpec PaxProofs PaxModeProofs PaxProperties.
Import ListNotations.
Open Scope R_scope.
Ltac Zify.zify_post_hook ::= idtac.

(** ** The sums *)
(** Without self-interaction and gravity the sums of both parts over the box stay as they are, in any universe, with any
    scheme, any number of neighbours and any step *)
Theorem total_kept r cd last dz s s' : (0 < rn r)%nat -> (0 < rnz r)%nat -> rBeta r = 0 -> rPhi r = None ->
  pStep r cd last dz s = Some s' -> total r (tMf s') = total r (tMf s) /\ total r (tVf s') = total r (tVf s).
Proof.
  intros N Z B P H. unfold pStep in H. destruct (potSub r dz s) as [s1|] eqn:E1; [|discriminate]. destruct (stages r dz cd s1) as [s2|] eqn:E2; [|discriminate].
  assert (T : forall a b, (forall x, tMf b x = tMf a x /\ tVf b x = tVf a x) -> total r (tMf b) = total r (tMf a) /\ total r (tVf b) = total r (tVf a)).
  { intros a b Q. unfold total. split; apply sumOver_ext; intros x _; apply Q. }
  destruct (T s s1) as [A1 A2]; [apply (free_pot r dz s s1 B P E1)|]. destruct (stages_total r dz N Z cd s1 s2 E2) as [A3 A4].
  assert (K : forall s3, match last with None => Some s2 | Some c => kickSub r (dz * c) s2 end = Some s3 ->
    total r (tMf s3) = total r (tMf s2) /\ total r (tVf s3) = total r (tVf s2)).
  { intros s3 Q. destruct last as [c|]; [|injection Q as <-; split; reflexivity]. unfold kickSub in Q. destruct (driftW _ _) as [w|]; [|discriminate].
    injection Q as <-. cbn [tMf tVf]. split; [reflexivity|]. apply kick_total; assumption. }
  destruct (match last with None => Some s2 | Some c => kickSub r (dz * c) s2 end) as [s3|] eqn:E3; [|discriminate].
  destruct (K s3 eq_refl) as [A5 A6]. destruct (T s3 s') as [A7 A8]; [apply (free_pot r dz s3 s' B P H)|]. split; congruence.
Qed.

(** ** One mode in a box that does not expand *)
Lemma free_ok r dz s : still r -> 0 < tT s -> 0 < dz -> exists s', potSub r dz s = Some s' /\ tT s' = tT s /\ forall x, tMf s' x = tMf s x /\ tVf s' x = tVf s x.
Proof.
  intros (F & B & P & I) T D. destruct (potSub r dz s) as [s'|] eqn:E.
  - exists s'. split; [reflexivity|]. apply (free_pot r dz s s' B P E).
  - exfalso. unfold potSub in E. cbv zeta in E. rewrite still_phase in E by (try assumption; lra). discriminate E.
Qed.
Lemma step_mode r e lam t0 dz T m v a b : still r -> 0 < t0 -> 0 < T -> 0 < dz -> mode r e lam -> onMode r e a b m v ->
  exists s, pStep r rkn4Pairs None dz (PSt T m v) = Some s /\ tT s = T + dz /\
    onMode r e (fst (amp (angle r lam dz t0) rkn4Pairs (a, b))) (snd (amp (angle r lam dz t0) rkn4Pairs (a, b))) (tMf s) (tVf s).
Proof.
  intros ST T0 T1 D M O. pose proof ST as (F & B & P & I). unfold pStep.
  destruct (free_ok r dz (PSt T m v) ST T1 D) as ([T' m1 v1] & E1 & E2 & E3). rewrite E1. cbn [tT tMf tVf] in *. subst T'.
  assert (O1 : onMode r e a b m1 v1) by (intros x X; destruct (E3 x) as [-> ->]; apply O, X).
  destruct (stages_mode r e lam t0 dz F I T0 M rkn4Pairs T m1 v1 a b (rkn4_timesOk T dz T1 D) O1) as (s2 & S1 & S2 & S3). rewrite S1.
  rewrite (proj2 rkn4_sums), Rmult_1_r in S2. destruct (free_ok r dz s2 ST) as (s3 & Q1 & Q2 & Q3); [rewrite S2; lra|exact D|].
  exists s3. split; [exact Q1|]. split; [congruence|]. intros x X. destruct (Q3 x) as [-> ->]. exact (S3 x X).
Qed.
Lemma steps_mode r e lam t0 dz k : still r -> 0 < t0 -> 0 < dz -> mode r e lam -> forall T m v a b, 0 < T -> onMode r e a b m v ->
  exists s, pSteps r dz k (PSt T m v) = Some s /\ tT s = T + INR k * dz /\
    onMode r e (fst (ampN (angle r lam dz t0) k (a, b))) (snd (ampN (angle r lam dz t0) k (a, b))) (tMf s) (tVf s).
Proof.
  intros ST T0 D M. induction k as [|k IH]; intros T m v a b T1 O.
  - exists (PSt T m v). split; [reflexivity|]. split; [cbn; ring|]. exact O.
  - cbn [pSteps ampN]. destruct (step_mode r e lam t0 dz T m v a b ST T0 T1 D M O) as ([T' m' v'] & E1 & E2 & E3). rewrite E1. cbn [tT tMf tVf] in *. subst T'.
    destruct (IH (T + dz) m' v' _ _ ltac:(lra) E3) as (s & S1 & S2 & S3). exists s. split; [exact S1|]. split.
    + rewrite S2, S_INR. ring.
    + destruct (amp _ rkn4Pairs (a, b)). exact S3.
Qed.
Lemma number_mode r e a b m v : onMode r e a b m v -> number r m v = sq2 (a, b) * sumOver (fun x => e x * e x) (box (rn r) (rnz r)).
Proof.
  intros O. unfold number. rewrite Rmult_comm, <- sumOver_scale. apply sumOver_ext. intros x X. destruct (O x X) as [-> ->]. unfold sq2. cbn [fst snd]. ring.
Qed.
Lemma squares_pos r (e : fld) x : In x (box (rn r) (rnz r)) -> e x <> 0 -> 0 < sumOver (fun x => e x * e x) (box (rn r) (rnz r)).
Proof.
  intros X N. unfold sumOver. induction (box (rn r) (rnz r)) as [|y l IH]; [destruct X|]. cbn [fold_right].
  assert (G : forall l, 0 <= fold_right (fun y a => e y * e y + a) 0 l).
  { intros k. induction k as [|z k I]; cbn [fold_right]; [lra|]. pose proof (Rle_0_sqr (e z)) as Q. unfold Rsqr in Q. lra. }
  destruct X as [->|X].
  - pose proof (G l). pose proof (Rsqr_pos_lt _ N) as Q. unfold Rsqr in Q. lra.
  - pose proof (IH X). pose proof (Rle_0_sqr (e y)) as Q. unfold Rsqr in Q. lra.
Qed.
(** The number is not kept: on every mode that turns by no less than 0.01 in a step some state changes it *)
Theorem number_refuted r e lam t dz x : still r -> 0 < t -> 0 < dz -> mode r e lam -> In x (box (rn r) (rnz r)) -> e x <> 0 ->
  0.01 <= angle r lam dz t -> angle r lam dz t * angle r lam dz t <= 8 ->
  exists m v s, pStep r rkn4Pairs None dz (PSt t m v) = Some s /\ number r (tMf s) (tVf s) <> number r m v.
Proof.
  intros ST T D M X N L U. destruct (some_changes _ L U) as (a & b & AB).
  exists (fun y => a * e y), (fun y => b * e y). assert (O : onMode r e a b (fun y => a * e y) (fun y => b * e y)) by (intros y _; split; reflexivity).
  destruct (step_mode r e lam t dz t _ _ a b ST T T D M O) as (s & E1 & E2 & E3). exists s. split; [exact E1|].
  rewrite (number_mode _ _ _ _ _ _ O), (number_mode _ _ _ _ _ _ E3). pose proof (squares_pos r e x X N) as SP.
  intros Q. apply Rmult_eq_reg_r in Q; [|lra]. apply AB. rewrite <- Q. destruct (amp _ rkn4Pairs (a, b)); reflexivity.
Qed.
(** It stays bounded: however many steps are taken, on a mode that turns by no more than the root of 8 in a step the number is
    at most a constant times what it was *)
Theorem modes_bounded_partial r e lam t dz : still r -> 0 < t -> 0 < dz -> mode r e lam -> angle r lam dz t * angle r lam dz t <= 8 ->
  exists K, 0 <= K /\ forall k m v a b, onMode r e a b m v ->
    exists s, pSteps r dz k (PSt t m v) = Some s /\ tT s = t + INR k * dz /\ number r (tMf s) (tVf s) <= K * number r m v.
Proof.
  intros ST T D M U. destruct (bounded _ U) as (K & K0 & HK). exists K. split; [exact K0|]. intros k m v a b O.
  destruct (steps_mode r e lam t dz k ST T D M t m v a b T O) as (s & S1 & S2 & S3). exists s. split; [exact S1|]. split; [exact S2|].
  rewrite (number_mode _ _ _ _ _ _ O), (number_mode _ _ _ _ _ _ S3). pose proof (HK k (a, b)) as H.
  set (q := ampN _ k (a, b)) in *. replace (sq2 (fst q, snd q)) with (sq2 q) by (destruct q; reflexivity). rewrite <- Rmult_assoc. apply Rmult_le_compat_r; [|exact H].
  unfold sumOver. induction (box (rn r) (rnz r)) as [|y l I]; cbn [fold_right]; [lra|]. pose proof (Rle_0_sqr (e y)) as Q. unfold Rsqr in Q. lra.
Qed.

(** ** The step that the program takes *)
(** The largest |e| of a box *)
Lemma argmax (e : fld) (l : list cell) : l <> [] -> exists x, In x l /\ forall y, In y l -> Rabs (e y) <= Rabs (e x).
Proof.
  induction l as [|y l IH]; [easy|]. intros _. destruct l as [|z l].
  - exists y. split; [left; reflexivity|]. intros w [<-|[]]. lra.
  - destruct IH as (x & X & H); [discriminate|]. destruct (Rle_dec (Rabs (e x)) (Rabs (e y))) as [Q|Q].
    + exists y. split; [left; reflexivity|]. intros w [<-|W]; [lra|]. specialize (H w W). lra.
    + exists x. split; [right; exact X|]. intros w [<-|W]; [lra|]. apply H, W.
Qed.
Lemma lapAt_1 r f x : rNN r = 1%nat -> lapAt r f x =
  f (stepTo (rn r) (rnz r) 1 Xp x) + f (stepTo (rn r) (rnz r) 1 Xm x) + f (stepTo (rn r) (rnz r) 1 Yp x) + f (stepTo (rn r) (rnz r) 1 Ym x)
  + f (stepTo (rn r) (rnz r) 1 Zp x) + f (stepTo (rn r) (rnz r) 1 Zm x) - 6 * f x.
Proof. intros N. unfold lapAt, lapSum. rewrite N. unfold sumOver. cbn [seq fold_right setCO Nat.sub nth]. unfold shell. ring. Qed.
(** With one neighbour every mode is between 0 and 12/delta^2 *)
Lemma mode_range r e lam x : rNN r = 1%nat -> 0 < rOod2 r -> mode r e lam -> In x (box (rn r) (rnz r)) -> e x <> 0 -> 0 <= lam <= 12 * rOod2 r.
Proof.
  intros N O M X E. destruct (argmax e (box (rn r) (rnz r))) as (z & Z & H); [intros Q; rewrite Q in X; destruct X|].
  pose proof (mode_lapAt r e lam z M Z) as Q. rewrite lapAt_1 in Q by exact N.
  assert (EZ : 0 < Rabs (e z)) by (pose proof (H x X); pose proof (Rabs_pos_lt _ E); lra).
  assert (G : forall d, - (e z * e z) <= e (stepTo (rn r) (rnz r) 1 d z) * e z <= e z * e z).
  { intros d. pose proof (H _ (step_in (rn r) (rnz r) 1 d z Z)) as A. set (u := e (stepTo (rn r) (rnz r) 1 d z)) in *. clearbody u.
    assert (AB : Rabs (u * e z) <= e z * e z); [|pose proof (Rle_abs (u * e z)) as A3; pose proof (Rle_abs (- (u * e z))) as A4; rewrite Rabs_Ropp in A4; lra].
    rewrite Rabs_mult. replace (e z * e z) with (Rabs (e z) * Rabs (e z)); [apply Rmult_le_compat_r; lra|].
    rewrite <- Rabs_mult. apply Rabs_pos_eq. pose proof (Rle_0_sqr (e z)) as S1. exact S1. }
  pose proof (G Xp) as G1. pose proof (G Xm) as G2. pose proof (G Yp) as G3. pose proof (G Ym) as G4. pose proof (G Zp) as G5. pose proof (G Zm) as G6. clear G.
  assert (SQ : 0 < e z * e z). { apply Rsqr_pos_lt. intros Q0. rewrite Q0, Rabs_R0 in EZ. lra. }
  set (s := e (stepTo (rn r) (rnz r) 1 Xp z) + e (stepTo (rn r) (rnz r) 1 Xm z) + e (stepTo (rn r) (rnz r) 1 Yp z) + e (stepTo (rn r) (rnz r) 1 Ym z)
    + e (stepTo (rn r) (rnz r) 1 Zp z) + e (stepTo (rn r) (rnz r) 1 Zm z)) in *.
  assert (B : -6 * (e z * e z) <= s * e z <= 6 * (e z * e z)) by (unfold s; lra).
  assert (Q2 : lam * (e z * e z) = rOod2 r * (6 * (e z * e z) - s * e z)).
  { transitivity (- (- lam * e z) * e z); [ring|]. rewrite <- Q. ring. }
  assert (B1 : 0 <= rOod2 r * (6 * (e z * e z) - s * e z)) by (apply Rmult_le_pos; lra).
  assert (B2 : rOod2 r * (6 * (e z * e z) - s * e z) <= rOod2 r * (12 * (e z * e z))) by (apply Rmult_le_compat_l; lra).
  split; apply (Rmult_le_reg_r (e z * e z)); try exact SQ; lra.
Qed.
Lemma step_angle r pq w oodl hub t lam : still r -> 0 < t -> 0 < oodl -> 
  angle r lam (dzSize (rC r) pq w oodl hub StParaxial t) t
  = w * (sqrt (12 * oodl * oodl + axionMass (rC r) t * axionMass (rC r) t) + axionMass (rC r) t) / (2 * axionMass (rC r) t) * (lam / (12 * (oodl * oodl))).
Proof.
  intros (F & B & P & I) T O. pose proof (axionMass_pos (rC r) t T I) as M0. unfold angle, dzSize. cbv zeta.
  assert (A2 : AxionMass2 (rC r) t = axionMass (rC r) t * axionMass (rC r) t).
  { unfold axionMass. symmetry. apply sqrt_sqrt. destruct (Rle_lt_dec 0 (AxionMass2 (rC r) t)) as [Q|Q]; [exact Q|]. unfold axionMass in M0. rewrite sqrt_neg_0 in M0 by lra. lra. }
  match goal with |- ?X * lam / _ = _ => replace X with (rawStep (rC r) pq w oodl hub StParaxial t) end.
  2:{ destruct (Rlt_dec _ _); [|reflexivity]. destruct (Rlt_dec _ _); [|reflexivity]. destruct (Req_EM_T _ 0) as [Q|Q]; [reflexivity|contradiction]. }
  unfold rawStep. cbv zeta. rewrite still_scale by assumption. fold (axionMass (rC r) t). rewrite A2, !Rmult_1_r.
  set (M := axionMass (rC r) t) in *. assert (S0 : 0 <= sqrt (12 * oodl * oodl + M * M)) by apply sqrt_pos. set (S1 := sqrt _) in *. clearbody S1. field. lra.
Qed.
(** With one neighbour, the usual safety factor and sites not much smaller than the wavelength 1/mA (delta mA no less than
    0.59) the step that the program takes keeps every mode bounded *)
Theorem own_step_bounded_partial r pq w oodl hub t e lam x : still r -> rNN r = 1%nat -> rOod2 r = oodl * oodl -> 0 < oodl -> 0 < t -> 0 < w <= 0.8 ->
  12 * (oodl * oodl) <= 35 * (axionMass (rC r) t * axionMass (rC r) t) -> mode r e lam -> In x (box (rn r) (rnz r)) -> e x <> 0 ->
  let dz := dzSize (rC r) pq w oodl hub StParaxial t in 0 < dz /\
  exists K, 0 <= K /\ forall k m v a b, onMode r e a b m v ->
    exists s, pSteps r dz k (PSt t m v) = Some s /\ tT s = t + INR k * dz /\ number r (tMf s) (tVf s) <= K * number r m v.
Proof.
  intros ST N O2 O T [W0 W] L M X E dz. pose proof ST as (F & B & P & I). pose proof (axionMass_pos (rC r) t T I) as M0. pose proof (Rmult_lt_0_compat _ _ O O) as OO.
  assert (DZ : 0 < dz).
  { unfold dz, dzSize. cbv zeta. match goal with |- 0 < ?X => replace X with (rawStep (rC r) pq w oodl hub StParaxial t) end.
    2:{ destruct (Rlt_dec _ _); [|reflexivity]. destruct (Rlt_dec _ _); [|reflexivity]. destruct (Req_EM_T _ 0) as [Q|Q]; [reflexivity|contradiction]. }
    unfold rawStep. cbv zeta. rewrite still_scale by assumption. fold (axionMass (rC r) t). pose proof (sqrt_pos (12 * oodl * oodl + AxionMass2 (rC r) t * 1 * 1)) as S0.
    apply Rdiv_lt_0_compat; [exact W0|]. apply Rdiv_lt_0_compat; lra. }
  split; [exact DZ|]. apply (modes_bounded_partial r e lam t dz ST T DZ M). unfold dz. rewrite step_angle by assumption.
  destruct (mode_range r e lam x N) as [L0 L1]; try assumption; [rewrite O2; exact OO|]. rewrite O2 in L1. set (MA := axionMass (rC r) t) in *.
  assert (S6 : sqrt (12 * oodl * oodl + MA * MA) <= 6 * MA).
  { rewrite <- (sqrt_square (6 * MA)) by lra. apply sqrt_le_1_alt. lra. }
  pose proof (sqrt_pos (12 * oodl * oodl + MA * MA)) as S0. set (S1 := sqrt _) in *. clearbody S1.
  assert (A : 0 <= w * (S1 + MA) / (2 * MA) <= 2.8).
  { split; [apply Rle_mult_inv_pos; [apply Rmult_le_pos; lra|lra]|]. apply (Rmult_le_reg_r (2 * MA)); [lra|]. unfold Rdiv. rewrite Rmult_assoc, Rinv_l, Rmult_1_r by lra.
    apply Rle_trans with (0.8 * (7 * MA)); [apply Rmult_le_compat; lra|lra]. }
  assert (C : 0 <= lam / (12 * (oodl * oodl)) <= 1).
  { split; [apply Rle_mult_inv_pos; lra|]. apply (Rmult_le_reg_r (12 * (oodl * oodl))); [lra|]. unfold Rdiv. rewrite Rmult_assoc, Rinv_l, Rmult_1_r by lra. lra. }
  set (u := w * (S1 + MA) / (2 * MA)) in *. set (c := lam / _) in *. clearbody u c. destruct A as [A1 A2], C as [C1 C2].
  assert (Q1 : 0 <= u * c) by (apply Rmult_le_pos; assumption). assert (Q2 : u * c <= 2.8 * 1) by (apply Rmult_le_compat; assumption).
  apply Rle_trans with ((2.8 * 1) * (2.8 * 1)); [apply Rmult_le_compat; assumption|lra].
Qed.

(** The alternating field *)
Lemma even_mod n a : Nat.even n = true -> (0 < n)%nat -> Nat.even (a mod n) = Nat.even a.
Proof.
  intros E N. rewrite (Nat.div_mod a n) at 2 by lia. rewrite Nat.even_add, Nat.even_mul, E. cbn [orb]. destruct (Nat.even (a mod n)); reflexivity.
Qed.
Lemma sgn_flip a b : Nat.even a = negb (Nat.even b) -> sgn a = - sgn b.
Proof. intros H. unfold sgn. rewrite H. destruct (Nat.even b); cbn; lra. Qed.
Lemma alt_step n z d x : (0 < n)%nat -> (0 < z)%nat -> Nat.even n = true -> Nat.even z = true -> alt (stepTo n z 1 d x) = - alt x.
Proof.
  intros N Z EN EZ. destruct x as [[i j] k]. unfold alt, stepTo.
  assert (P : forall q, (0 < q)%nat -> Nat.even q = true -> Nat.even (q - 1) = false).
  { intros q Q E. destruct q as [|q]; [lia|]. replace (S q - 1)%nat with q by lia. rewrite Nat.even_succ, <- Nat.negb_even in E. destruct (Nat.even q); [discriminate E|reflexivity]. }
  pose proof (P n N EN) as PN. pose proof (P z Z EZ) as PZ. rewrite !Nat.mul_1_r.
  destruct d; apply sgn_flip; rewrite !Nat.even_add, even_mod by assumption; rewrite Nat.even_add, ?PN, ?PZ;
    destruct (Nat.even i), (Nat.even j), (Nat.even k); reflexivity.
Qed.
Lemma alt_mode r : rNN r = 1%nat -> (0 < rn r)%nat -> (0 < rnz r)%nat -> Nat.even (rn r) = true -> Nat.even (rnz r) = true -> mode r alt (12 * rOod2 r).
Proof.
  intros NN N Z EN EZ x X. unfold boxLap. cbn [fst snd]. rewrite lap_sum, Rinv_inv. change (rOod2 r * lapAt r alt x = - (12 * rOod2 r) * alt x).
  rewrite lapAt_1 by exact NN. rewrite !alt_step by assumption. ring.
Qed.
(** With finer sites it does not: at delta mA = 0.302 the number of the alternating field grows without bound *)
Theorem own_step_bounded_refuted r pq oodl hub t : still r -> rNN r = 1%nat -> rOod2 r = oodl * oodl -> 0 < oodl -> 0 < t ->
  (0 < rn r)%nat -> (0 < rnz r)%nat -> Nat.even (rn r) = true -> Nat.even (rnz r) = true ->
  12 * (oodl * oodl) = 131.25 * (axionMass (rC r) t * axionMass (rC r) t) ->
  let dz := dzSize (rC r) pq 0.8 oodl hub StParaxial t in 0 < dz /\
  forall k, exists s, pSteps r dz (S k) (PSt t (fun _ => 0) alt) = Some s /\ 0.01 * 4 ^ k * number r (fun _ => 0) alt <= number r (tMf s) (tVf s).
Proof.
  intros ST N O2 O T BN BZ EN EZ L dz. pose proof ST as (F & B & P & I). pose proof (axionMass_pos (rC r) t T I) as M0. pose proof (Rmult_lt_0_compat _ _ O O) as OO.
  assert (TH : angle r (12 * rOod2 r) dz t = 5).
  { unfold dz. rewrite step_angle by assumption. rewrite O2. set (MA := axionMass (rC r) t) in *.
    replace (12 * oodl * oodl + MA * MA) with ((11.5 * MA) * (11.5 * MA)) by lra. rewrite sqrt_square by lra.
    replace (12 * (oodl * oodl) / (12 * (oodl * oodl))) with 1 by (field; lra). rewrite Rmult_1_r.
    apply (Rmult_eq_reg_r (2 * MA)); [|lra]. unfold Rdiv. rewrite Rmult_assoc, Rinv_l by lra. lra. }
  assert (DZ : 0 < dz).
  { unfold angle in TH. rewrite O2 in TH. apply (Rmult_eq_compat_r (2 * axionMass (rC r) t)) in TH. unfold Rdiv in TH. rewrite Rmult_assoc, Rinv_l, Rmult_1_r in TH by lra.
    destruct (Rlt_le_dec 0 dz) as [Q|Q]; [exact Q|]. assert (dz * (12 * (oodl * oodl)) <= 0 * (12 * (oodl * oodl))) by (apply Rmult_le_compat_r; lra). lra. }
  split; [exact DZ|]. intros k. pose proof (alt_mode r N BN BZ EN EZ) as AM.
  assert (OM : onMode r alt 0 1 (fun _ => 0) alt) by (intros y _; split; ring).
  destruct (steps_mode r alt (12 * rOod2 r) t dz (S k) ST T DZ AM t _ _ 0 1 T OM) as (s & S1 & _ & S3). rewrite TH in S3. exists s. split; [exact S1|].
  rewrite (number_mode _ _ _ _ _ _ OM), (number_mode _ _ _ _ _ _ S3). destruct (grows k) as [G _]. set (q := ampN 5 (S k) (0, 1)) in *.
  set (X := sumOver _ _). assert (X0 : 0 <= X).
  { unfold X, sumOver. induction (box (rn r) (rnz r)) as [|y l J]; cbn [fold_right]; [lra|]. pose proof (Rle_0_sqr (alt y)) as Q. unfold Rsqr in Q. lra. }
  rewrite <- Rmult_assoc. apply Rmult_le_compat_r; [exact X0|]. unfold sq2. cbn [fst snd].
  assert (P2 : 0 < 2 ^ k) by (apply pow_lt; lra).
  assert (SQ : 0.1 * 2 ^ k * (0.1 * 2 ^ k) <= fst q * fst q).
  { replace (fst q * fst q) with (Rabs (fst q) * Rabs (fst q)) by (rewrite <- Rabs_mult; apply Rabs_pos_eq, Rle_0_sqr). apply Rmult_le_compat; try exact G; lra. }
  replace (4 ^ k) with (2 ^ k * 2 ^ k) by (rewrite <- Rpow_mult_distr; f_equal; lra).
  pose proof (Rle_0_sqr (snd q)) as SS. unfold Rsqr in SS. lra.
Qed.

(** ** Cases *)
Definition stillRun (o : R) : prun := PRun (Cosmo 0 0 1 0 0 2 5 1 0) 1 2 2 o 0 1 None.
Lemma still_case o : still (stillRun o). Proof. unfold still. cbn. repeat split; lra. Qed.
Lemma still_ma o : axionMass (rC (stillRun o)) 1 = 1.
Proof.
  unfold axionMass, AxionMass2. cbv zeta. rewrite still_scale by (try reflexivity; lra). cbn [rC stillRun zThRes zRestore indi3 nQcd].
  destruct (Rle_dec 2 5); [|lra]. destruct (Rlt_dec 1 2); [|lra]. rewrite Rpower_O by lra. rewrite !Rmult_1_r. apply sqrt_1.
Qed.
Lemma alt_case o : mode (stillRun o) alt (12 * o). Proof. apply alt_mode; try reflexivity; cbn; lia. Qed.
Example total_kept_case : let r := stillRun 1 in exists s, pStep r rkn4Pairs None 0.1 (PSt 1 (fun x => 1 * alt x) (fun x => 2 * alt x)) = Some s /\
  total r (tMf s) = 0 /\ number r (fun x => 1 * alt x) (fun x => 2 * alt x) = 40.
Proof.
  cbv zeta. destruct (step_mode (stillRun 1) alt (12 * 1) 1 0.1 1 (fun x => 1 * alt x) (fun x => 2 * alt x) 1 2 (still_case 1)) as (s & A & _); try lra; [apply alt_case|intros x _; split; reflexivity|].
  exists s. split; [exact A|]. destruct (total_kept (stillRun 1) _ _ _ _ _ ltac:(cbn; lia) ltac:(cbn; lia) eq_refl eq_refl A) as [-> _]. cbn [tMf]. unfold total, number. rewrite !box_sum. unfold sumOver. cbn -[IZR Rplus Rmult]. unfold sgn. cbn -[IZR Rplus Rmult]. split; lra.
Qed.
Example number_refuted_case : let r := stillRun 1 in still r /\ mode r alt 12 /\ 0.01 <= angle r 12 0.1 1 /\ angle r 12 0.1 1 * angle r 12 0.1 1 <= 8.
Proof.
  cbv zeta. split; [apply still_case|]. split; [replace 12 with (12 * 1) by ring; apply alt_case|]. unfold angle. rewrite still_ma. replace (0.1 * 12 / (2 * 1)) with (6 / 10) by lra. split; lra.
Qed.
Example own_step_case : let r := stillRun 1 in still r /\ rOod2 r = 1 * 1 /\ 12 * (1 * 1) <= 35 * (axionMass (rC r) 1 * axionMass (rC r) 1) /\ mode r alt (12 * 1) /\ In (0, 0, 0)%nat (box (rn r) (rnz r)) /\ alt (0, 0, 0)%nat <> 0.
Proof.
  cbv zeta. rewrite still_ma. split; [apply still_case|]. split; [cbn; lra|]. split; [lra|]. split; [apply alt_case|]. split; [left; reflexivity|]. unfold alt, sgn. cbn. lra.
Qed.
Example own_step_refuted_case : let o := sqrt (131.25 / 12) in let r := stillRun (o * o) in still r /\ 0 < o /\ 12 * (o * o) = 131.25 * (axionMass (rC r) 1 * axionMass (rC r) 1).
Proof.
  cbv zeta. rewrite still_ma. split; [apply still_case|]. split; [apply sqrt_lt_R0; lra|]. rewrite sqrt_sqrt by lra. lra.
Qed.

Print Assumptions total_kept.
Print Assumptions number_refuted.
Print Assumptions modes_bounded_partial.
Print Assumptions own_step_bounded_partial.
Print Assumptions own_step_bounded_refuted.
