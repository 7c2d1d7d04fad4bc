(** C115: evolution of an initial condition up to the start. C116: the older way. *)
From Coq Require Import Reals Lra Lia List Arith.
From Verif Require Import PrepModel PrepSpec.
Local Open Scope R_scope.
Ltac Zify.zify_post_hook ::= idtac.

(** *** The loop *)
Lemma evolve_enough step size z d s n : keepsTime step -> 0 < d -> (forall s, d <= size s) -> zz s <= z -> (z - zz s) <= INR n * d ->
  exists s', evolve step size z n s = Some s' /\ zz s' = z /\ bk s' = bk s.
Proof.
  intros K D B. revert s. induction n as [|n IH]; intros s Z H.
  - cbn [INR] in H. exists s. cbn [evolve]. destruct (Rlt_dec (zz s) z); [lra|]. split; [reflexivity|]. split; [lra|reflexivity].
  - cbn [evolve]. destruct (Rlt_dec (zz s) z) as [L|L]; [|exists s; split; [reflexivity|split; [lra|reflexivity]]]. cbv zeta.
    rewrite S_INR in H. set (dz := if Rlt_dec z (zz s + size s) then z - zz s else size s).
    destruct (K s dz) as [K1 K2]. pose proof (B s) as Bs.
    destruct (IH (step s dz)) as [s' [E [E1 E2]]].
    + rewrite K1. unfold dz. destruct (Rlt_dec z (zz s + size s)); lra.
    + rewrite K1. unfold dz. pose proof (pos_INR n). assert (0 <= INR n * d) by (apply Rmult_le_pos; lra). destruct (Rlt_dec z (zz s + size s)); lra.
    + exists s'. split; [exact E|]. split; [exact E1|congruence].
Qed.
Lemma evolve_within step size z n s s' : keepsTime step -> zz s <= z -> evolve step size z n s = Some s' -> zz s' = z /\ bk s' = bk s.
Proof.
  intros K. revert s. induction n as [|n IH]; intros s Z; cbn [evolve]; destruct (Rlt_dec (zz s) z) as [L|L]; try discriminate.
  - intros E. injection E as <-. split; [lra|reflexivity].
  - cbv zeta. intros E. set (dz := if Rlt_dec z (zz s + size s) then z - zz s else size s) in *. destruct (K s dz) as [K1 K2].
    destruct (IH (step s dz)) as [A B]; [rewrite K1; unfold dz; destruct (Rlt_dec z (zz s + size s)); lra|exact E|]. split; [exact A|congruence].
  - intros E. injection E as <-. split; [lra|reflexivity].
Qed.
(** Whatever the sizes of the steps, as long as they are no shorter than some length, the evolution ends, exactly at the time of the start; and however it
    goes, when it ends it ends there. The coupling, its type and its exponent are then what they were. *)
Theorem prep_ends_partial scale core step size c s d n : keepsTime step -> 0 < d -> (forall s, d <= size s) -> zz s = zi c -> 0 < zi c -> 1 < prepcoe c ->
  (zi c - zi c / prepcoe c) / d <= INR n ->
  exists s', prepropa2 scale core step size c n s = Some s' /\ zz s' = zi c /\ lam (bk s') = lam (bk s) /\ ltype (bk s') = ltype (bk s) /\ lz2e (bk s') = lz2e (bk s).
Proof.
  intros K D B Z P C N. unfold prepropa2, toComoving. cbv zeta. cbn [zz fm fv bk]. rewrite Z.
  assert (Q : zi c / prepcoe c < zi c). { apply Rmult_lt_reg_r with (prepcoe c); [lra|]. unfold Rdiv. rewrite Rmult_assoc, Rinv_l by lra. pose proof (Rmult_lt_compat_l (zi c) 1 (prepcoe c) P C). lra. }
  assert (N' : zi c - zi c / prepcoe c <= INR n * d). { apply (Rmult_le_compat_r d) in N; [|lra]. unfold Rdiv at 1 in N. rewrite Rmult_assoc, Rinv_l, Rmult_1_r in N by lra. exact N. }
  set (s1 := St _ _ _ (preBg _ _ _)).
  destruct (evolve_enough step size (zi c) d s1 n K D B) as [s' [E [E1 E2]]]; [unfold s1; cbn [zz]; lra|unfold s1; cbn [zz]; exact N'|].
  rewrite E. eexists. split; [reflexivity|]. cbn [zz bk lam ltype lz2e postBg]. repeat split. exact E1.
Qed.
Theorem prep_restores scale core step size c s n s' : keepsTime step -> zz s / prepcoe c <= zi c -> prepropa2 scale core step size c n s = Some s' ->
  zz s' = zi c /\ lam (bk s') = lam (bk s) /\ ltype (bk s') = ltype (bk s) /\ lz2e (bk s') = lz2e (bk s).
Proof.
  intros K Z. unfold prepropa2, toComoving. cbv zeta. cbn [zz fm fv bk]. set (s1 := St _ _ _ (preBg _ _ _)).
  destruct (evolve step size (zi c) n s1) as [s2|] eqn:E; [|discriminate]. intros Q. injection Q as <-. cbn [zz bk postBg lam ltype lz2e].
  destruct (evolve_within step size (zi c) n s1 s2 K ltac:(unfold s1; cbn [zz]; exact Z) E) as [E1 _]. repeat split. exact E1.
Qed.
(** The damping stays that of the evolution. *)
Theorem prep_damping_refuted scale core step size c s n s' : keepsTime step -> zz s / prepcoe c <= zi c -> 0 < pregam c -> pregam c <> gam (bk s) ->
  prepropa2 scale core step size c n s = Some s' -> gam (bk s') = pregam c /\ gam (bk s') <> gam (bk s).
Proof.
  intros K Z G N. unfold prepropa2, toComoving. cbv zeta. cbn [zz fm fv bk]. set (s1 := St _ _ _ (preBg _ _ _)).
  destruct (evolve step size (zi c) n s1) as [s2|] eqn:E; [|discriminate]. intros Q. injection Q as <-. cbn [zz bk postBg gam].
  destruct (evolve_within step size (zi c) n s1 s2 K ltac:(unfold s1; cbn [zz]; exact Z) E) as [_ E2].
  assert (A : gam (bk s2) = pregam c). { rewrite E2. unfold s1. cbn [bk preBg gam]. destruct (Rlt_dec 0 (pregam c)); [reflexivity|contradiction]. }
  destruct (Rlt_dec 0 (pregam c)); [|contradiction]. split; [exact A|congruence].
Qed.
(** Without damping asked for, the background is all restored. *)
Theorem prep_background scale core step size c s n s' : keepsTime step -> zz s / prepcoe c <= zi c -> ~ 0 < pregam c -> prepropa2 scale core step size c n s = Some s' -> bk s' = bk s.
Proof.
  intros K Z G. unfold prepropa2, toComoving. cbv zeta. cbn [zz fm fv bk]. set (s1 := St _ _ _ (preBg _ _ _)).
  destruct (evolve step size (zi c) n s1) as [s2|] eqn:E; [|discriminate]. intros Q. injection Q as <-. cbn [bk].
  destruct (evolve_within step size (zi c) n s1 s2 K ltac:(unfold s1; cbn [zz]; exact Z) E) as [_ E2]. unfold postBg.
  assert (A : gam (bk s2) = gam (bk s)). { rewrite E2. unfold s1. cbn [bk preBg gam]. destruct (Rlt_dec 0 (pregam c)); [contradiction|reflexivity]. }
  rewrite A. destruct (Rlt_dec 0 (pregam c)); destruct (bk s); reflexivity.
Qed.

(** *** The coupling *)
(** At the start the coupling of the evolution is that of the run, for both types, any exponents and any history of the scale; before, it follows the power of the
    scale asked for. A fixed coupling has exponent 0. *)
Theorem prep_coupling scale c b ct : 0 < scale ct -> 0 < scale (zi c) -> (ltype b = Fixed -> lz2e b = 0) ->
  lambdaP scale (preBg scale c b) (zi c) = lambdaP scale b (zi c) /\
  lambdaP scale (preBg scale c b) ct = lambdaP scale b (zi c) * Rpower (scale (zi c) / scale ct) (prelz2e c).
Proof.
  intros P Q F. set (r := scale (zi c)) in *.
  assert (L : forall x p, 0 < Rpower x p) by (intros; apply exp_pos).
  assert (K : preLambda scale c b = lambdaP scale b (zi c) * Rpower r (prelz2e c)).
  { unfold preLambda, lambdaP. cbv zeta. fold r. destruct (ltype b); [rewrite (F eq_refl), Rpower_O by exact Q; field|reflexivity]. }
  unfold lambdaP at 1 3. cbn [preBg lam lz2e]. rewrite K. fold r. split.
  - field. pose proof (L r (prelz2e c)). lra.
  - assert (E : Rpower (r / scale ct) (prelz2e c) = Rpower r (prelz2e c) / Rpower (scale ct) (prelz2e c)).
    { unfold Rdiv. rewrite <- Rpower_Ropp. unfold Rpower. rewrite <- exp_plus. f_equal. rewrite ln_mult, ln_Rinv by (try apply Rinv_0_lt_compat; assumption). ring. }
    rewrite E. field. pose proof (L (scale ct) (prelz2e c)). lra.
Qed.
(** The evolution is made of steps from the earlier time to the start, the coupling being throughout that of the run at the start times the power asked for of the
    scale, and the damping the one asked for; it begins with the field made (its cores made with that coupling if asked for), times the scale at the earlier time,
    and with that field as velocity. *)
Theorem prep_steps scale core step size c s n s' : keepsTime step -> 0 < scale (zi c) -> (ltype (bk s) = Fixed -> lz2e (bk s) = 0) -> zz s / prepcoe c <= zi c ->
  prepropa2 scale core step size c n s = Some s' ->
  let law := fun ct => lambdaP scale (bk s) (zi c) * Rpower (scale (zi c) / scale ct) (prelz2e c) in
  exists made first last,
    (normcore c = false -> made = fm s) /\
    (normcore c = true -> exists s0, made = core s0 /\ zz s0 = zz s / prepcoe c /\ fm s0 = fm s /\ couples scale (bk s0) law) /\
    zz first = zz s / prepcoe c /\ (forall j, fm first j = (scale (zz first) * fst (made j), scale (zz first) * snd (made j))) /\ fv first = made /\
    couples scale (bk first) law /\ (0 < pregam c -> gam (bk first) = pregam c) /\ (pregam c <= 0 -> gam (bk first) = gam (bk s)) /\
    steps step size (zi c) first last /\ zz s' = zz last /\ fm s' = fm last /\ fv s' = fv last.
Proof.
  intros K P F Z. unfold prepropa2. cbv zeta. cbn [zz fm fv bk].
  set (s0 := St (zz s / prepcoe c) (fm s) (fv s) (Bg _ _ _ _)). set (s1 := toComoving scale core c s0). set (s2 := St _ _ _ (preBg _ _ _)).
  destruct (evolve step size (zi c) n s2) as [l|] eqn:E; [|discriminate]. intros Q. injection Q as <-.
  assert (C : forall b, lam b = preLambda scale c (bk s) -> lz2e b = prelz2e c -> couples scale b (fun ct => lambdaP scale (bk s) (zi c) * Rpower (scale (zi c) / scale ct) (prelz2e c))).
  { intros b B1 B2 ct H. destruct (prep_coupling scale c (bk s) ct H P F) as [_ <-]. unfold lambdaP. rewrite B1, B2. reflexivity. }
  exists (if normcore c then core s0 else fm s), s2, l. split; [intros ->; reflexivity|]. split.
  { intros ->. exists s0. split; [reflexivity|]. split; [reflexivity|]. split; [reflexivity|]. apply C; reflexivity. }
  split; [reflexivity|]. split; [intros j; reflexivity|]. split; [reflexivity|]. split; [apply C; reflexivity|].
  split; [intros H; unfold s2; cbn [bk preBg gam]; destruct (Rlt_dec 0 (pregam c)); [reflexivity|contradiction]|].
  split; [intros H; unfold s2; cbn [bk preBg gam]; destruct (Rlt_dec 0 (pregam c)); [lra|reflexivity]|].
  split; [|cbn [zz fm fv]; repeat split].
  assert (Z2 : zz s2 <= zi c) by exact Z. clearbody s2. clear s1. revert s2 Z2 E. induction n as [|n IH]; intros t Zt; cbn [evolve]; destruct (Rlt_dec (zz t) (zi c)) as [L|L]; try discriminate.
  - intros Q. injection Q as <-. constructor. lra.
  - cbv zeta. intros Q. apply steps_more; [exact L|].
    replace (if Rlt_dec (zi c) (zz t + size t) then zi c - zz t else size t) with (Rmin (size t) (zi c - zz t)) in Q
      by (unfold Rmin; destruct (Rlt_dec _ _), (Rle_dec _ _); lra).
    apply IH; [|exact Q]. rewrite (proj1 (K _ _)). unfold Rmin. destruct (Rle_dec _ _); lra.
  - intros Q. injection Q as <-. constructor. lra.
Qed.
(** The number of strings of the initial condition is taken for the coupling the evolution begins with. *)
Theorem prep_start_coupling scale c b : 0 < scale (zi c / prepcoe c) -> 0 < scale (zi c) -> (ltype b = Fixed -> lz2e b = 0) ->
  preLambdaP scale c b = lambdaP scale (preBg scale c b) (zi c / prepcoe c).
Proof.
  intros P Q F. destruct (prep_coupling scale c b (zi c / prepcoe c) P Q F) as [_ ->]. unfold preLambdaP, lambdaP. cbv zeta.
  set (r := scale (zi c)) in *. set (t := scale (zi c / prepcoe c)) in *.
  assert (E : / Rpower (t / r) (prelz2e c) = Rpower (r / t) (prelz2e c)).
  { rewrite <- Rpower_Ropp. unfold Rpower. f_equal. unfold Rdiv. rewrite !ln_mult, !ln_Rinv by (try apply Rinv_0_lt_compat; assumption). ring. }
  unfold Rdiv at 1. rewrite E. f_equal. destruct (ltype b); [rewrite (F eq_refl), Rpower_O by exact Q; field|reflexivity].
Qed.

(** *** The field at the beginning *)
(** With a scale equal to the time the physical field is the one made and at rest. *)
Theorem prep_field_at_rest core c s j : 0 < zz s -> normcore c = false ->
  let s' := toComoving (fun t => t) core c s in physical (fun t => t) s' j = fm s j /\ rate (fun t => t) 1 s' j = (0, 0).
Proof.
  intros P N s'. unfold s', toComoving. rewrite N. unfold rate, physical, scaled. cbn [zz fm fv fst snd]. split.
  - rewrite (surjective_pairing (fm s j)) at 3. f_equal; field; lra.
  - f_equal; field; lra.
Qed.
(** With any other growth it is not at rest: the velocity put is that of a scale growing as time. *)
Theorem prep_rest_refuted scale r' core c s j : 0 < scale (zz s) -> normcore c = false -> r' <> 1 -> fst (fm s j) <> 0 ->
  rate scale r' (toComoving scale core c s) j <> (0, 0).
Proof.
  intros P N R F E. apply (f_equal fst) in E. unfold toComoving, rate, physical, scaled in E. rewrite N in E. cbn [zz fm fv fst snd] in E.
  apply (f_equal (fun v => v * scale (zz s))) in E. unfold Rdiv in E. rewrite Rmult_assoc, Rinv_l, Rmult_1_r, Rmult_0_l in E by lra.
  replace (scale (zz s) * fst (fm s j) * / scale (zz s)) with (fst (fm s j)) in E by (field; lra).
  assert (E' : (1 - r') * fst (fm s j) = 0) by lra. apply Rmult_integral in E'. destruct E'; [lra|contradiction].
Qed.

(** *** The older way *)
(** Going back in time keeps the physical field and, with a scale growing as time, its rate. *)
Theorem back_keeps scale z s j : 0 < scale z -> 0 < scale (zz s) ->
  let s' := travelBack scale z s in zz s' = z /\ bk s' = bk s /\ physical scale s' j = physical scale s j /\ rate scale 1 s' j = rate scale 1 s j.
Proof.
  intros P Q s'. unfold s', travelBack. cbv zeta. unfold rate, physical, scaled. cbn [zz fm fv bk fst snd]. split; [reflexivity|]. split; [reflexivity|].
  set (a := scale z) in *. set (b := scale (zz s)) in *. clearbody a b. split; f_equal; field; lra.
Qed.
(** With another growth the rate changes. *)
Theorem back_rate_refuted scale r1 r2 z s j : 0 < scale z -> 0 < scale (zz s) -> fst (fm s j) <> 0 -> r1 <> 1 + scale z / scale (zz s) * (r2 - 1) ->
  fst (rate scale r1 (travelBack scale z s) j) <> fst (rate scale r2 s j).
Proof.
  intros P Q F N E. unfold travelBack, rate, physical, scaled in E. cbv zeta in E. cbn [zz fm fv fst snd] in E.
  set (a := scale z) in *. set (b := scale (zz s)) in *. set (m := fst (fm s j)) in *. set (v := fst (fv s j)) in *. clearbody a b m v.
  apply (f_equal (fun x => x * a * b)) in E. 
  replace ((a * / b * v + / b * (1 - a * / b) * m - r1 * (a * / b * m / a)) / a * a * b) with (a * v + (1 - a / b) * m - r1 * m) in E by (field; lra).
  replace ((v - r2 * (m / b)) / b * a * b) with (a * v - r2 * (a / b) * m) in E by (field; lra).
  assert (E' : (1 + a / b * (r2 - 1) - r1) * m = 0) by (unfold Rdiv in *; lra).
  apply Rmult_integral in E'. destruct E'; [lra|contradiction].
Qed.
(** The older loop ends past its time or one step after the strings were few enough. *)
Theorem older_ends_partial step size density zstop goal d n s : keepsTime step -> 0 < d -> (forall s, d <= size s) -> zstop - zz s <= INR n * d ->
  exists s', older step size density zstop goal n s = Some s' /\ (zstop <= zz s' \/ exists s1, density s1 < goal /\ s' = step s1 (size s1)).
Proof.
  intros K D B. revert s. induction n as [|n IH]; intros s H; cbn [older]; destruct (Rlt_dec (zz s) zstop) as [L|L]; try (exists s; split; [reflexivity|left; lra]).
  - cbn [INR] in H. lra.
  - cbv zeta. destruct (Rlt_dec (density s) goal) as [G|G]; [exists (step s (size s)); split; [reflexivity|right; exists s; split; [exact G|reflexivity]]|].
    apply IH. rewrite (proj1 (K s (size s))). rewrite S_INR in H. pose proof (B s). lra.
Qed.
(** The relaxation need not end: if the strings stay more than asked for, it never does. *)
Theorem relax_refuted step size density cta goal : (forall s, goal < density s) -> forall n t s, goal < t -> relax step size density cta goal n t s = None.
Proof.
  intros H n. induction n as [|n IH]; intros t s T; cbn [relax]; destruct (Rlt_dec goal t); try lra; [reflexivity|]. cbv zeta. apply IH. apply H.
Qed.
(** When it ends, the strings counted before the last step were few enough, and the time is not past cta. *)
Theorem relax_partial step size density cta goal n t s s' : zz s <= cta -> relax step size density cta goal n t s = Some s' ->
  zz s' <= cta /\ (s' = s /\ t <= goal \/ exists s1, density s1 <= goal /\ (s' = step s1 (size s1) \/ s' = St cta (fm (step s1 (size s1))) (fv (step s1 (size s1))) (bk (step s1 (size s1))))).
Proof.
  revert t s. induction n as [|n IH]; intros t s Z; cbn [relax]; destruct (Rlt_dec goal t) as [G|G]; try discriminate; try (intros E; injection E as <-; split; [exact Z|left; split; [reflexivity|lra]]).
  cbv zeta. intros E. set (s2 := if Rlt_dec cta (zz (step s (size s))) then _ else _) in E.
  assert (Z2 : zz s2 <= cta) by (unfold s2; destruct (Rlt_dec cta (zz (step s (size s)))); cbn [zz]; lra).
  destruct (IH (density s) s2 Z2 E) as [A [[B C]|B]]; (split; [exact A|right]); [|exact B].
  exists s. split; [exact C|]. rewrite B. unfold s2. destruct (Rlt_dec cta (zz (step s (size s)))); [right|left]; reflexivity.
Qed.

(** *** The time the strings are as many as asked for *)
Lemma xit_le l : 0 <= l -> xit l <= 1 + l.
Proof.
  intros L. unfold xit. assert (D : 0 < 21775.3 + 3665.11 * l) by lra. apply Rmult_le_reg_r with (21775.3 + 3665.11 * l); [exact D|].
  unfold Rdiv. rewrite Rmult_assoc, Rinv_l, Rmult_1_r by lra. assert (0 <= l * l) by (apply Rmult_le_pos; exact L).
  replace ((1 + l) * (21775.3 + 3665.11 * l)) with (21775.3 + (21775.3 + 3665.11) * l + 3665.11 * (l * l)) by ring.
  replace (1086.06 * l * l) with (1086.06 * (l * l)) by ring. lra.
Qed.
Lemma ln_le_pred x : 0 < x -> 1 + ln x <= x.
Proof. intros P. pose proof (exp_ineq1_le (ln x)) as H. rewrite exp_ln in H by exact P. exact H. Qed.
Lemma nN3_small msa delta ct : 0 < msa -> 0 < delta -> 0 < ct -> delta / msa <= ct -> nN3 msa delta ct <= 6 * msa * delta / ct.
Proof.
  intros M D C H. unfold nN3. set (x := msa / delta * ct).
  assert (X : 1 <= x). { unfold x. apply (Rmult_le_compat_l (msa / delta)) in H; [|apply Rlt_le, Rdiv_lt_0_compat; assumption]. replace (msa / delta * (delta / msa)) with 1 in H by (field; lra). exact H. }
  assert (L : 0 <= ln x). { destruct X as [X| <-]; [apply Rlt_le; rewrite <- ln_1; apply ln_increasing; lra|rewrite ln_1; lra]. }
  assert (Y : xit (ln x) <= x). { eapply Rle_trans; [apply xit_le; exact L|apply ln_le_pred; lra]. }
  assert (Q : 0 < (delta / ct) ^ 2) by (apply pow_lt, Rdiv_lt_0_compat; assumption).
  replace (6 * msa * delta / ct) with (6 * x * (delta / ct) ^ 2) by (unfold x; field; lra).
  apply Rmult_le_compat_r; lra.
Qed.
Lemma INR_ub x : exists n, x < INR n.
Proof.
  destruct (archimed x) as [A _]. exists (Z.to_nat (up x)). rewrite INR_IZR_INZ. destruct (Z.le_gt_cases 0 (up x)) as [H|H]; [rewrite Z2Nat.id by exact H; lra|].
  apply Rlt_trans with (IZR (up x)); [lra|]. apply IZR_lt. rewrite Z2Nat.inj_neg || idtac. lia.
Qed.
Lemma grows n : 1 + INR n / 20 <= (21 / 20) ^ n.
Proof.
  induction n as [|n IH]; [cbn; lra|]. rewrite S_INR. cbn [pow]. pose proof (pos_INR n). lra.
Qed.
Lemma findct2_first msa delta goal n ct ct' : findct2 msa delta goal n ct = Some ct' ->
  exists k, (k <= n)%nat /\ ct' = ct * (21 / 20) ^ k /\ nN3 msa delta ct' <= goal /\ forall i, (i < k)%nat -> goal < nN3 msa delta (ct * (21 / 20) ^ i).
Proof.
  revert ct. induction n as [|n IH]; intros ct; cbn [findct2]; destruct (Rlt_dec goal (nN3 msa delta ct)) as [G|G]; try discriminate.
  - intros E. injection E as <-. exists 0%nat. cbn [pow]. rewrite Rmult_1_r. split; [lia|]. split; [reflexivity|]. split; [lra|lia].
  - intros E. destruct (IH _ E) as [k [K [Q [A B]]]]. exists (S k). split; [lia|]. split; [rewrite Q; cbn [pow]; field|]. split; [exact A|].
    intros [|i] I; [cbn [pow]; rewrite Rmult_1_r; exact G|]. replace (ct * (21 / 20) ^ S i) with ((ct + ct / 20) * (21 / 20) ^ i) by (cbn [pow]; field). apply B. lia.
  - intros E. injection E as <-. exists 0%nat. cbn [pow]. rewrite Rmult_1_r. split; [lia|]. split; [reflexivity|]. split; [lra|lia].
Qed.
Lemma findct2_none msa delta goal n ct : findct2 msa delta goal n ct = None -> goal < nN3 msa delta (ct * (21 / 20) ^ n).
Proof.
  revert ct. induction n as [|n IH]; intros ct; cbn [findct2]; destruct (Rlt_dec goal (nN3 msa delta ct)) as [G|G]; try discriminate.
  - intros _. cbn [pow]. rewrite Rmult_1_r. exact G.
  - intros E. replace (ct * (21 / 20) ^ S n) with ((ct + ct / 20) * (21 / 20) ^ n) by (cbn [pow]; field). apply IH, E.
Qed.
(** The search ends for any masses, spacings, times and goals above zero, on the first of the times tried (each 21/20 of the one before) with few enough strings. *)
Theorem findct2_ends msa delta goal ct : 0 < msa -> 0 < delta -> 0 < goal -> 0 < ct ->
  exists n ct', findct2 msa delta goal n ct = Some ct' /\ nN3 msa delta ct' <= goal /\
    exists k, ct' = ct * (21 / 20) ^ k /\ forall i, (i < k)%nat -> goal < nN3 msa delta (ct * (21 / 20) ^ i).
Proof.
  intros M D G C. set (t := delta / msa + 6 * msa * delta / goal).
  assert (T1 : 0 < delta / msa) by (apply Rdiv_lt_0_compat; assumption).
  assert (T2 : 0 < 6 * msa * delta / goal) by (apply Rdiv_lt_0_compat; [apply Rmult_lt_0_compat; [lra|assumption]|assumption]).
  destruct (INR_ub (20 * (t / ct))) as [n N]. exists n.
  destruct (findct2 msa delta goal n ct) as [ct'|] eqn:E.
  - exists ct'. split; [reflexivity|]. destruct (findct2_first _ _ _ _ _ _ E) as [k [_ [Q [A B]]]]. split; [exact A|]. exists k. split; assumption.
  - exfalso. apply findct2_none in E. pose proof (grows n) as W. set (u := ct * (21 / 20) ^ n) in *.
    assert (U : t <= u). { apply Rle_trans with (ct * (t / ct)); [right; field; lra|]. unfold u. apply Rmult_le_compat_l; lra. }
    assert (P : 0 < u) by (unfold t in U; lra).
    pose proof (nN3_small msa delta u M D P ltac:(unfold t in U; lra)) as S.
    assert (F : 6 * msa * delta / u <= goal).
    { apply Rmult_le_reg_r with u; [exact P|]. unfold Rdiv. rewrite Rmult_assoc, Rinv_l, Rmult_1_r by lra.
      apply Rle_trans with (goal * (6 * msa * delta / goal)); [right; field; lra|]. apply Rmult_le_compat_l; unfold t in U; lra. }
    lra.
Qed.

(** *** Cases *)
Definition drift (s : st) (dz : R) : st := St (zz s + dz) (fun j => (fst (fm s j) + dz * fst (fv s j), snd (fm s j) + dz * snd (fv s j))) (fv s) (bk s).
Definition ic1 := Icd 2 4 (-1) 3 false.
Definition s1 := St 2 (fun _ => (1, 0)) (fun _ => (0, 0)) (Bg 10 Z2 2 0.5).
Lemma drift_keeps : keepsTime drift. Proof. intros s dz. split; reflexivity. Qed.
Example prep_case : exists s', prepropa2 (fun t => t) fm drift (fun _ => 1) ic1 2 s1 = Some s' /\ zz s' = 2 /\ lam (bk s') = 10 /\ lz2e (bk s') = 2.
Proof.
  destruct (prep_ends_partial (fun t => t) fm drift (fun _ => 1) ic1 s1 1 2 drift_keeps) as [s' [E [A [B [_ C]]]]]; cbn; try lra; [intros; lra|].
  exists s'. split; [exact E|]. cbn in *. repeat split; assumption.
Qed.
Example prep_damping_case : exists s', prepropa2 (fun t => t) fm drift (fun _ => 1) ic1 2 s1 = Some s' /\ gam (bk s') = 3 /\ gam (bk s1) = 0.5.
Proof.
  destruct prep_case as [s' [E _]]. exists s'. split; [exact E|].
  split; [|reflexivity]. apply (prep_damping_refuted (fun t => t) fm drift (fun _ => 1) ic1 s1 2 s' drift_keeps ltac:(cbn; lra) ltac:(cbn; lra) ltac:(cbn; lra) E).
Qed.
(** The run's coupling goes as R^-2, the evolution's as R: from 5/8 at R = 1/2 to 5/2 at R = 2. *)
Example prep_coupling_case : lambdaP (fun t => t) (preBg (fun t => t) ic1 (bk s1)) 2 = 10 / 4 /\ lambdaP (fun t => t) (preBg (fun t => t) ic1 (bk s1)) (1 / 2) = 10 / 4 * Rpower 4 (-1).
Proof.
  destruct (prep_coupling (fun t => t) ic1 (bk s1) (1 / 2) ltac:(lra) ltac:(cbn; lra) ltac:(discriminate)) as [A B].
  assert (E : lambdaP (fun t => t) (bk s1) 2 = 10 / 4). { unfold lambdaP. cbn [bk s1 lam lz2e]. replace 2 with (INR 2) at 2 by (cbn; lra). rewrite Rpower_pow by lra. cbn [pow]. lra. }
  cbn [zi ic1] in A, B. rewrite E in A, B. split; [exact A|]. rewrite B. cbn [prelz2e ic1]. f_equal. f_equal. lra.
Qed.
Example back_case : rate (fun t => t) 1 (travelBack (fun t => t) 1 s1) 0 = rate (fun t => t) 1 s1 0 /\ fst (rate (fun t => t) 1 s1 0) = - (1 / 4).
Proof. split; [apply (back_keeps (fun t => t) 1 s1 0); cbn; lra|]. unfold rate, physical. cbn. lra. Qed.
Example relax_case n : relax drift (fun _ => 1) (fun _ => 2) 5 1 n 3 s1 = None.
Proof. apply relax_refuted; intros; lra. Qed.
Example findct2_case : exists n ct', findct2 1 (1 / 10) (1 / 1000) n 1 = Some ct' /\ nN3 1 (1 / 10) ct' <= 1 / 1000.
Proof. destruct (findct2_ends 1 (1 / 10) (1 / 1000) 1) as [n [c [A [B _]]]]; try lra. exists n, c. split; assumption. Qed.

Print Assumptions prep_ends_partial.
Print Assumptions prep_restores.
Print Assumptions prep_damping_refuted.
Print Assumptions prep_background.
Print Assumptions prep_coupling.
Print Assumptions prep_steps.
Print Assumptions prep_start_coupling.
Print Assumptions prep_field_at_rest.
Print Assumptions prep_rest_refuted.
Print Assumptions back_keeps.
Print Assumptions back_rate_refuted.
Print Assumptions older_ends_partial.
Print Assumptions relax_refuted.
Print Assumptions relax_partial.
Print Assumptions findct2_ends.
