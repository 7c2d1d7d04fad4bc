(** Claims C11-C14. *)
From Coq Require Import Reals List Arith Lra Lia FunctionalExtensionality.
From Verif Require Import SchemeModel SchemeSpec.
Import ListNotations.
Open Scope R_scope.

Ltac run := cbv beta iota zeta delta [step sRunCpu tRunCpu lowCpu nRunCpu pRunCpu sSpecCpu tSpecCpu sFpecCpu tFpecCpu
  leap mleap om2 om4 rkn4 setCoeff firstn Nat.add isLast isFirst isNotNormal firstDrift cD nSt lastS cc dd rd nth_error bind
  loop by2 by1 seq map fold_left Nat.div fst snd Nat.divmod Nat.mul Nat.sub
  call advance setPar driftM fresh s_z s_Rz s_par s_x s_log sLoad tLoad lowLoad nLoad pLoad
  ld_massA2 ld_massA ld_R ld_Rpp ld_lambda ld_Rp ld_ct ld_n noParms p_massA2 p_massA p_R p_Rpp p_lambda p_Rp p_ct p_n].
Ltac each H := cbn [In schemes palindromes] in H; repeat (destruct H as [H|H]; [subst; cbv beta zeta|]); [..|contradiction].

(** C13: which steps stay inside the coefficient arrays, for every kernel, field,
    step size and starting state. *)
Theorem coefficients_exist_partial (X : Type) kern drift co r dz (s : st X) :
  In co schemes ->
  step X kern drift r co dz s <> None <->
  (co = rkn4 \/ r = SRun \/ r = TRun \/ r = SFpec \/ r = TFpec).
Proof.
  intros H. split.
  - intros Hs. each H; destruct r; auto; exfalso; apply Hs; run; reflexivity.
  - intros Hr. each H; destruct Hr as [Hr|Hr];
      try (destruct Hr as [Hr|[Hr|[Hr|Hr]]]; subst r; run; discriminate);
      try (exfalso; apply (f_equal nSt) in Hr; discriminate Hr);
      try (exfalso; apply (f_equal lastS) in Hr; discriminate Hr).
    destruct r; run; discriminate.
Qed.
Print Assumptions coefficients_exist_partial.

(** C13 fails: e.g. the leapfrog step of a Naxion field reads past the end of c. *)
Theorem coefficients_exist_refuted :
  exists co r, In co schemes /\ forall (X : Type) kern drift dz (s : st X), step X kern drift r co dz s = None.
Proof. exists leap, NRun. split; [left; reflexivity|]. intros. run. reflexivity. Qed.
Print Assumptions coefficients_exist_refuted.

(** C11, for the saxion and axion steps with every scheme and for all steps with
    RKN4: time advances by dz, and the scale factor is that of the new time.
    Partial: see the refutations. *)
Theorem step_advances_dz_partial (X : Type) kern drift co r dz (s : st X) :
  In co schemes -> (r = SRun \/ r = TRun \/ co = rkn4) ->
  exists s', step X kern drift r co dz s = Some s' /\ s_z X s' = s_z X s + dz /\ s_Rz X s' = s_z X s'.
Proof.
  intros H Hr. each H; destruct Hr as [Hr|[Hr|Hr]];
    try (subst r; run; eexists; split; [reflexivity|]; run; split; [lra|reflexivity]);
    try (exfalso; apply (f_equal nSt) in Hr; discriminate Hr);
    try (exfalso; apply (f_equal lastS) in Hr; discriminate Hr).
  destruct r; run; (eexists; split; [reflexivity|]; run; split; [lra|reflexivity]).
Qed.
Print Assumptions step_advances_dz_partial.

(** Any number of such steps advances the time by the sum of their sizes. *)
Theorem run_advances_partial (X : Type) kern drift co r (dzs : list R) :
  In co schemes -> (r = SRun \/ r = TRun \/ co = rkn4) -> forall s : st X,
  exists s', fold_left (fun o dz => bind o (step X kern drift r co dz)) dzs (Some s) = Some s' /\
             s_z X s' = fold_right Rplus (s_z X s) dzs.
Proof.
  intros H Hr. induction dzs as [|dz l IH]; intros s; [exists s; auto|].
  destruct (step_advances_dz_partial X kern drift co r dz s H Hr) as (s1 & E1 & E2 & _).
  cbn [fold_left bind]. rewrite E1. destruct (IH s1) as (s' & F1 & F2). exists s'. split; [exact F1|].
  rewrite F2, E2. cbn [fold_right]. clear. induction l as [|a l IH]; cbn [fold_right]; lra.
Qed.
Print Assumptions run_advances_partial.

(** C11 fails for the full spectral steps with every scheme but RKN4: they run, and
    the time does not advance by dz. *)
Theorem step_advances_dz_refuted (X : Type) kern drift co r dz (s : st X) :
  In co palindromes -> (r = SFpec \/ r = TFpec) -> dz <> 0 ->
  exists s', step X kern drift r co dz s = Some s' /\ s_z X s' <> s_z X s + dz.
Proof.
  intros H [Hr|Hr] Hd; subst r; each H; run; eexists; (split; [reflexivity|]); run; intros E; apply Hd; lra.
Qed.
Print Assumptions step_advances_dz_refuted.

(** C12, for all steps but the axion one and the low memory one: in a step that
    starts with the scale factor of the current time, every kernel call gets every
    time dependent parameter it reads at the time of the call; the log of calls of
    the step is not empty. *)
Theorem background_current_partial (X : Type) kern drift co r dz (s s' : st X) :
  In co schemes -> r <> TRun -> r <> Low -> s_Rz X s = s_z X s ->
  step X kern drift r co dz s = Some s' ->
  s_Rz X s' = s_z X s' /\
  exists l, s_log X s' = s_log X s ++ l /\ (nSt co <= length l)%nat /\
            Forall (fun e => current (fst (fst e)) (snd (fst e)) (snd e)) l.
Proof.
  intros H H1 H2 HR Hs. destruct s as [z Rz p x lg]. cbn [s_z s_Rz] in HR. subst Rz.
  each H; destruct r; try congruence; revert Hs; run; intros Hs; try discriminate Hs;
  (injection Hs as <-; run; split; [reflexivity|];
   eexists; split; [rewrite <- ?app_assoc; reflexivity|]; cbn [app length]; split; [lia|];
   repeat apply Forall_cons; try apply Forall_nil; cbn; repeat split; reflexivity).
Qed.
Print Assumptions background_current_partial.

(** C12 fails for the axion step, with every scheme and every dz <> 0. *)
Theorem axion_background_refuted (X : Type) kern drift co dz (s : st X) :
  In co schemes -> dz <> 0 -> s_Rz X s = s_z X s ->
  exists s' l k p t, step X kern drift TRun co dz s = Some s' /\ s_log X s' = s_log X s ++ l /\
    In (k, p, t) l /\ ~ current k p t.
Proof.
  intros H Hd HR. destruct s as [z Rz p x lg]. cbn [s_z s_Rz] in HR. subst Rz.
  each H; run; eexists; eexists; do 3 eexists; (split; [reflexivity|]; run;
    split; [rewrite <- ?app_assoc; reflexivity|]).
  1-4: cbn [app]; split; [left; reflexivity|]; cbn; intros (E & _); injection E as E; apply Hd; lra.
  cbn [app]. split; [right; right; left; reflexivity|]. cbn. intros (E & _). injection E as E. apply Hd; lra.
Qed.
Print Assumptions axion_background_refuted.

(** C12 for the low memory step: R'/R is never given to the kernel; the other
    parameters are current. *)
Theorem lowmem_background_refuted (X : Type) kern drift dz (s : st X) : s_Rz X s = s_z X s ->
  exists s' l, step X kern drift Low rkn4 dz s = Some s' /\ s_log X s' = s_log X s ++ l /\ length l = 4%nat /\
    Forall (fun e => let p := snd (fst e) in let t := snd e in
      p_massA2 p = Some t /\ p_R p = Some t /\ p_Rpp p = Some t /\ p_lambda p = Some t /\ p_Rp p = None) l.
Proof.
  intros HR. destruct s as [z Rz p x lg]. cbn [s_z s_Rz] in HR. subst Rz.
  run. eexists. eexists. split; [reflexivity|]. run. split; [rewrite <- ?app_assoc; reflexivity|].
  cbn [app]. split; [reflexivity|]. repeat apply Forall_cons; try apply Forall_nil; cbn; repeat split; reflexivity.
Qed.
Print Assumptions lowmem_background_refuted.

(** The time reached is that of the field: counting the drift the field has made since
    the start of the step, at every kernel call and at the end the clock shows the
    starting time plus dz times that drift. Partial: all steps but the low memory one. *)
Theorem time_tracks_drift_partial co r dz z p lg s' : In co schemes -> r <> Low ->
  step (R * list R) count count_drift r co dz (St _ z z p (0, []) lg) = Some s' ->
  exists l, s_log _ s' = lg ++ l /\ Forall2 (fun e q => snd e = z + dz * q) l (snd (s_x _ s')) /\
    s_z _ s' = z + dz * fst (s_x _ s').
Proof.
  intros H Hr Hs.
  each H; destruct r; try congruence; revert Hs; run; intros Hs; try discriminate Hs;
  (injection Hs as <-; run; cbv beta iota zeta delta [count count_drift fst snd];
   eexists; split; [rewrite <- ?app_assoc; reflexivity|]; cbn [app]; split; [repeat constructor; cbn; lra|lra]).
Qed.
Print Assumptions time_tracks_drift_partial.

(** It is false of the low memory step: the second kernel call is made at a time the
    field has not reached. *)
Theorem lowmem_time_refuted dz z p lg : dz <> 0 ->
  exists s' e1 e2 e3 e4 q1 q2 q3 q4,
    step (R * list R) count count_drift Low rkn4 dz (St _ z z p (0, []) lg) = Some s' /\
    s_log _ s' = lg ++ [e1; e2; e3; e4] /\ snd (s_x _ s') = [q1; q2; q3; q4] /\ snd e2 <> z + dz * q2.
Proof.
  intros Hd. do 9 eexists. split; [run; reflexivity|]. run. split; [rewrite <- ?app_assoc; cbn [app]; reflexivity|].
  cbv beta iota zeta delta [count count_drift fst snd]. split; [cbn [app]; reflexivity|]. intros E. apply Hd. lra.
Qed.
Print Assumptions lowmem_time_refuted.

(** ** C14 *)
Lemma drift_cancel a b dz x : a = b -> driftonly (- dz) a (driftonly dz b x) = x.
Proof.
  intros ->. destruct x as [m v]. unfold driftonly. f_equal. apply functional_extensionality. intros i. ring.
Qed.
Lemma drift_kick F k p dz a b c x : a = b ->
  driftonly (- dz) a (kickdrift F k p dz c b x) = kickdrift F k p dz c 0 x.
Proof.
  intros ->. destruct x as [m v]. unfold kickdrift, driftonly. f_equal. apply functional_extensionality. intros i. ring.
Qed.
Lemma kick_cancel F k p p' dz a b d x : a = b -> p = p' ->
  kickdrift F k p (- dz) a d (kickdrift F k p' dz b 0 x) = driftonly (- dz) d x.
Proof.
  intros -> ->. destruct x as [m v]. unfold kickdrift, driftonly.
  assert (E : (fun i => m i + 0 * dz * (v i + b * dz * F p' m i)) = m) by (apply functional_extensionality; intros i; ring).
  rewrite E. f_equal; apply functional_extensionality; intros i; ring.
Qed.
Ltac samepar := f_equal; try reflexivity; f_equal; lra.

(** C14: the saxion step is time reversible with each palindromic scheme, for every
    force that depends on the whole field and on the (time dependent) background,
    but not on the velocity. Time, field and velocity are all restored. *)
Theorem saxion_step_reversible F co dz (s : st (field * field)) :
  In co palindromes -> s_Rz _ s = s_z _ s ->
  exists s1 s2, step _ (kickdrift F) driftonly SRun co dz s = Some s1 /\
    step _ (kickdrift F) driftonly SRun co (- dz) s1 = Some s2 /\
    s_z _ s2 = s_z _ s /\ s_x _ s2 = s_x _ s.
Proof.
  intros H HR. destruct s as [z Rz p x lg]. cbn [s_z s_Rz s_x] in *. subst Rz.
  each H; run; eexists; eexists; (split; [reflexivity|]; run; split; [reflexivity|]; run; split; [lra|]).
  all: repeat (rewrite drift_kick by lra; rewrite kick_cancel by (try lra; samepar)).
  all: apply drift_cancel; lra.
Qed.
Print Assumptions saxion_step_reversible.

(** The same for the axion step, whose stale parameters break it for a time
    dependent background; with a force that does not depend on the parameters it
    is reversible. *)
Theorem axion_step_reversible (F : field -> field) co dz (s : st (field * field)) :
  In co palindromes ->
  exists s1 s2, step _ (kickdrift (fun _ => F)) driftonly TRun co dz s = Some s1 /\
    step _ (kickdrift (fun _ => F)) driftonly TRun co (- dz) s1 = Some s2 /\
    s_z _ s2 = s_z _ s /\ s_x _ s2 = s_x _ s.
Proof.
  intros H. destruct s as [z Rz p x lg]. cbn [s_z s_Rz s_x] in *.
  assert (K : forall k p p' dz a b d x, a = b ->
    kickdrift (fun _ => F) k p (- dz) a d (kickdrift (fun _ => F) k p' dz b 0 x) = driftonly (- dz) d x).
  { intros. change (kickdrift (fun _ => F) k p' dz0 b 0 x0) with (kickdrift (fun _ => F) k p0 dz0 b 0 x0).
    apply kick_cancel; auto. }
  each H; run; eexists; eexists; (split; [reflexivity|]; run; split; [reflexivity|]; run; split; [lra|]).
  all: repeat (rewrite drift_kick by lra; rewrite K by lra).
  all: apply drift_cancel; lra.
Qed.
Print Assumptions axion_step_reversible.

(** Without the hypothesis on the scheme it fails: RKN4 is not reversible. *)
Theorem rkn4_reversible_refuted :
  exists F dz (s s1 s2 : st (field * field)), s_Rz _ s = s_z _ s /\
    step _ (kickdrift F) driftonly SRun rkn4 dz s = Some s1 /\
    step _ (kickdrift F) driftonly SRun rkn4 (- dz) s1 = Some s2 /\
    s_x _ s2 <> s_x _ s.
Proof.
  exists (fun p m i => match p_massA2 p with Some t => t * t * t * t * t | None => 0 end), 1,
    (St _ 0 0 noParms (fun _ => 1, fun _ => 0) []).
  eexists. eexists. split; [reflexivity|]. run. split; [reflexivity|]. run. split; [reflexivity|]. run.
  intros E. apply (f_equal (fun x => snd x 0%nat)) in E. cbn [kickdrift snd p_massA2] in E. lra.
Qed.
Print Assumptions rkn4_reversible_refuted.

(** And the axion step with a background that changes in time is not reversible,
    although its scheme is a palindrome: the mass it uses is that of another time. *)
Theorem axion_step_reversible_refuted :
  exists F dz (s s1 s2 : st (field * field)), s_Rz _ s = s_z _ s /\
    step _ (kickdrift F) driftonly TRun leap dz s = Some s1 /\
    step _ (kickdrift F) driftonly TRun leap (- dz) s1 = Some s2 /\
    s_x _ s2 <> s_x _ s.
Proof.
  exists (fun p m i => match p_massA2 p with Some t => t | None => 0 end), 1,
    (St _ 0 0 noParms (fun _ => 1, fun _ => 0) []).
  eexists. eexists. split; [reflexivity|]. run. split; [reflexivity|]. run. split; [reflexivity|]. run.
  intros E. apply (f_equal (fun x => snd x 0%nat)) in E. cbn [kickdrift driftonly snd p_massA2] in E. lra.
Qed.
Print Assumptions axion_step_reversible_refuted.

(** Low memory mode: the step kicks but never moves the field, so it does not give
    the result of the normal mode. *)
Definition kickonly (F : parms -> field -> field) (k : kind) (p : parms) (dz c d : R) (x : field * field) : field * field :=
  let '(m, v) := x in (m, fun i => v i + c * dz * F p m i).
Theorem lowmem_same_result_refuted :
  exists F dz (s s1 s2 : st (field * field)),
    step _ (kickdrift F) driftonly SRun rkn4 dz s = Some s1 /\
    step _ (kickonly F) driftonly Low rkn4 dz s = Some s2 /\
    fst (s_x _ s2) = fst (s_x _ s) /\ fst (s_x _ s1) <> fst (s_x _ s) /\ s_z _ s1 = s_z _ s2.
Proof.
  exists (fun p m i => 0), 1, (St _ 0 0 noParms (fun _ => 1, fun _ => 1) []).
  run. eexists. eexists. split; [reflexivity|]. split; [reflexivity|]. run. split; [reflexivity|]. split.
  - intros E. apply (f_equal (fun f => f 0%nat)) in E. cbn [kickdrift fst] in E. lra.
  - reflexivity.
Qed.
Print Assumptions lowmem_same_result_refuted.

(** Hypotheses met: a leapfrog step of a two-site field with a non-linear force and
    a time dependent mass, starting at time 1. *)
Example scheme_ex :
  let F := fun p (m : field) i => - (match p_massA2 p with Some t => t | None => 0 end) * (m i * m i) + m (1 - i)%nat in
  let s := St _ 1 1 noParms ((fun i => INR i), (fun _ => 1)) [] in
  In leap palindromes /\ s_Rz (field * field) s = s_z _ s /\
  exists s1, step _ (kickdrift F) driftonly SRun leap 0.5 s = Some s1 /\ s_z _ s1 = 1.5 /\ fst (s_x _ s1) 0%nat <> INR 0.
Proof.
  intros F s. split; [left; reflexivity|]. split; [reflexivity|]. unfold s, F.
  run. eexists. split; [reflexivity|]. run. split; [lra|].
  cbn [kickdrift driftonly fst INR p_massA2 Nat.sub]. lra.
Qed.
