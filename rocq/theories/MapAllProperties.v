(** The projections, and all the maps of one measurement together (C106). *)
From Coq Require Import List Arith Bool String ZArith QArith Lia.
From Verif Require Import Base FolderModel FolderSpec FolderProofs FolderProofs2 RedModel RedProperties
  MapModel MapSpec MapProofs.
Import ListNotations.
Ltac Zify.zify_post_hook ::= idtac.
Local Open Scope nat_scope.

Lemma total_sum n h : sumN n h = total n h.
Proof. induction n; cbn; [reflexivity|]. rewrite IHn. reflexivity. Qed.

Lemma total_ext n h h' : (forall i, i < n -> h i = h' i) -> total n h = total n h'.
Proof.
  induction n; intro H; cbn; [reflexivity|]. rewrite IHn, (H n) by (intros; try apply H; lia). reflexivity.
Qed.

Lemma surf_back g c : wf_geom g -> 0 < c -> g_n2 g <= c * mBack g.
Proof.
  intros (_ & _ & HN) Hc. unfold mBack.
  assert (g_n2 g * 1 <= g_n2 g * g_Ng g) by (apply Nat.mul_le_mono_l; exact HN).
  assert (1 * (g_n2 g * g_Ng g + g_n3 g) <= c * (g_n2 g * g_Ng g + g_n3 g)) by (apply Nat.mul_le_mono_r; lia). lia.
Qed.

(** What the front ghost of the first rank holds after a projection. *)
Lemma projected g R c filter m2 m x y :
  wf_geom g -> 0 < g_Lz g -> 0 < R -> 0 < c -> x < g_n1 g -> y < g_n1 g ->
  projectField g R c false M2Energy filter m2 m 0 (y * g_n1 g + x) ==
  meanDepth (g_Lz g * R) (fun z => filter (boxE g m2 x y z)).
Proof.
  intros Hg HL HR Hc Hx Hy. unfold projectField.
  destruct (projection_mean_partial (g_n2 g) (g_Lz g) R (c * mBack g) filter m2 m HL HR (surf_back g c Hg Hc)) as (P & _).
  cbn zeta in P. rewrite P by (exact (plain_pos_lt g x y Hx Hy)). unfold meanDepth. rewrite total_sum.
  rewrite (total_ext _ _ (fun z => filter (boxE g m2 x y z))); [reflexivity|].
  intros z _. unfold boxE, g_n2. f_equal. f_equal. ring.
Qed.

Lemma p_shows g name (m : nat -> nat -> Q) f f' pic :
  shows f' name (g_n1 g) (g_n1 g) 1 (fun x y _ => m 0 (y * g_n1 g + x)) -> f = f' ->
  (forall x y, x < g_n1 g -> y < g_n1 g -> (m 0%nat (y * g_n1 g + x)%nat == pic x y)%Q) ->
  showsQ f name (g_n1 g) (g_n1 g) pic.
Proof.
  intros (d & E & Es & Ev) -> H. exists d. split; [exact E|]. split; [lia|].
  intros x y Hx Hy. exists (m 0 (y * g_n1 g + x)). split; [|apply H; assumption].
  specialize (Ev x y 0 Hx Hy Nat.lt_0_1). replace ((y * g_n1 g + x) * 1 + 0) with (y * g_n1 g + x) in Ev by lia. exact Ev.
Qed.

(** The map of a projection shows the mean over the depth of the whole box of the filtered energy. *)
Theorem map_projection_partial : forall g R c filter m2 m name f,
  wf_geom g -> 0 < g_Lz g -> 0 < R -> 0 < c -> f name = None ->
  exists f', writeP g true name (projectField g R c false M2Energy filter m2 m) f = Done f' /\
    showsQ f' name (g_n1 g) (g_n1 g) (fun x y => meanDepth (g_Lz g * R) (fun z => filter (boxE g m2 x y z))) /\
    sameBut f f' [name].
Proof.
  intros g R c filter m2 m name f Hg HL HR Hc Hf.
  destruct (p_written g name (projectField g R c false M2Energy filter m2 m) f Hf) as (f' & E & Sh & Fr).
  exists f'. split; [exact E|]. split; [|exact Fr]. apply (p_shows g name _ f' f' _ Sh eq_refl).
  intros. apply projected; assumption.
Qed.

(** Refuted: with low memory the projection is refused, and what is written under its name is the ghost
    of the field. *)
Theorem map_projection_lowmem_refuted : forall g R c filter m2 m name f,
  f name = None ->
  exists f', writeP g true name (projectField g R c true M2Energy filter m2 m) f = Done f' /\
    shows f' name (g_n1 g) (g_n1 g) 1 (fun x y _ => m 0 (y * g_n1 g + x)).
Proof.
  intros g R c filter m2 m name f Hf.
  destruct (p_written g name (projectField g R c true M2Energy filter m2 m) f Hf) as (f' & E & Sh & Fr).
  exists f'. split; [exact E|exact Sh].
Qed.

(** All the maps of one measurement, in any combination but the two projections together, from a file that
    has none of them: each one asked for is there and shows what it says, none that was not asked for is
    there, the rest of the file and the field stay as they were. [energyOf] may be any function of the field
    at its sites. Partial: slices of the first rank for the energy; not the nonrelativistic field. *)
Definition mapNames : list string := ["/map/m"; "/map/v"; "/mapp/m"; "/mapp/v"; "/map/E"; "/map/P"]%string.

Theorem maps_together_partial : forall g R k jS jP order (energyOf : ranks Q -> nat -> nat -> Q) q s (rs : ranks Q) f,
  wf_geom g -> 0 < R -> (forall r, f_gpu (rs r) = false) -> k <> Naxion ->
  s < g_Lz g -> s < g_n1 g -> g_Lz g <= g_Ng g * g_n1 g -> allRows R (g_Lz g) order ->
  (forall a b, fieldKept g a b -> forall r i, energyOf b r i = energyOf a r i) ->
  (forall n, In n mapNames -> f n = None) ->
  askP q && askP2 q = false ->
  exists rs' f', writeMaps g R k false jS jP order energyOf q s rs f = Done (rs', f') /\
    (askXY q = true ->
       shows f' "/map/m" (g_n1 g) (g_n1 g) (nComp k) (fun x y j => boxM g rs x y s j) /\
       shows f' "/map/v" (g_n1 g) (g_n1 g) (nComp k) (fun x y j => boxV g rs x y s j)) /\
    (askYZ q = true ->
       shows f' "/mapp/m" (g_n1 g) (g_Lz g * R) (nComp k) (fun y z j => boxM g rs s y z j) /\
       shows f' "/mapp/v" (g_n1 g) (g_Lz g * R) (nComp k) (fun y z j => boxV g rs s y z j)) /\
    (askE q = true -> shows f' "/map/E" (g_n1 g) (g_n1 g) 1 (fun x y _ => boxE g (energyOf rs) x y s)) /\
    (askP q = true -> showsQ f' "/map/P" (g_n1 g) (g_n1 g)
       (fun x y => meanDepth (g_Lz g * R) (fun z => boxE g (energyOf rs) x y z))) /\
    (askP2 q = true -> showsQ f' "/map/P" (g_n1 g) (g_n1 g)
       (fun x y => meanDepth (g_Lz g * R) (fun z => (boxE g (energyOf rs) x y z * boxE g (energyOf rs) x y z)%Q))) /\
    (forall n, f' n <> None -> f n = None ->
       (askXY q = true /\ In n ["/map/m"; "/map/v"]%string) \/ (askYZ q = true /\ In n ["/mapp/m"; "/mapp/v"]%string) \/
       (askE q = true /\ n = "/map/E"%string) \/ (askP q || askP2 q = true /\ n = "/map/P"%string)) /\
    (forall n d, f n = Some d -> f' n = Some d) /\
    fieldKept g rs rs'.
Proof.
  intros g R k jS jP order energyOf q s rs f Hg HR Hd Hk Hs HsL Hdeep Ho Hen Hfree Hq.
  assert (HL : 0 < g_Lz g) by lia.
  pose proof (comp_pos k) as Hc.
  assert (HsR : s < g_Lz g * R).
  { assert (g_Lz g * 1 <= g_Lz g * R) by (apply Nat.mul_le_mono_l; lia). lia. }
  unfold writeMaps.
  (* the plane xy *)
  assert (S1 : exists rs1 f1,
    (forall T (next : ranks Q * file Q -> outcome T), andThen (if askXY q then writeXY g R k true jS jP s rs f else Ignored) (rs, f) next = next (rs1, f1)) /\
    (askXY q = true ->
       shows f1 "/map/m" (g_n1 g) (g_n1 g) (nComp k) (fun x y j => boxM g rs x y s j) /\
       shows f1 "/map/v" (g_n1 g) (g_n1 g) (nComp k) (fun x y j => boxV g rs x y s j)) /\
    sameBut f f1 (if askXY q then ["/map/m"; "/map/v"]%string else []) /\ fieldKept g rs rs1 /\ (forall r, f_gpu (rs1 r) = false)).
  { destruct (askXY q) eqn:Eq.
    - destruct (xy_written g R k jS jP s rs f Hg Hd HsR Hk) as (rs1 & f1 & E & A1 & A2 & A3 & A4 & A5);
        [apply Hfree; cbn; auto|apply Hfree; cbn; auto|].
      exists rs1, f1. split; [intros; rewrite E; reflexivity|]. auto.
    - exists rs, f. split; [reflexivity|]. split; [discriminate|]. split; [intros n _; reflexivity|].
      split; [apply kept_refl|exact Hd]. }
  destruct S1 as (rs1 & f1 & E1 & XY & F1 & K1 & D1). rewrite E1. clear E1. cbn [fst snd].
  (* the plane yz *)
  assert (S2 : exists rs2 f2,
    (forall T (next : ranks Q * file Q -> outcome T), andThen (if askYZ q then writeYZ g R k true order s rs1 f1 else Ignored) (rs1, f1) next = next (rs2, f2)) /\
    (askYZ q = true ->
       shows f2 "/mapp/m" (g_n1 g) (g_Lz g * R) (nComp k) (fun y z j => boxM g rs s y z j) /\
       shows f2 "/mapp/v" (g_n1 g) (g_Lz g * R) (nComp k) (fun y z j => boxV g rs s y z j)) /\
    sameBut f1 f2 (if askYZ q then ["/mapp/m"; "/mapp/v"]%string else []) /\ fieldKept g rs rs2).
  { destruct (askYZ q) eqn:Eq.
    - assert (N1 : f1 "/mapp/m"%string = None).
      { rewrite F1; [apply Hfree; cbn; auto|]. destruct (askXY q); cbn; intuition discriminate. }
      assert (N2 : f1 "/mapp/v"%string = None).
      { rewrite F1; [apply Hfree; cbn; auto|]. destruct (askXY q); cbn; intuition discriminate. }
      destruct (yz_written g R k order s rs1 f1 Hg D1 HsL Hdeep HR Hk Ho N1 N2) as (rs2 & f2 & E & A1 & A2 & A3 & A4 & A5).
      exists rs2, f2. split; [intros; rewrite E; reflexivity|]. split; [|split; [exact A3|exact (kept_trans _ _ _ _ K1 A4)]].
      intros _. split.
      + apply (shows_ext f2 f2 _ _ _ _ _ _ eq_refl) with (2 := A1). intros y z j Hy _ _.
        rewrite (proj1 (box_kept g rs rs1 s y z HL K1 HsL Hy)). reflexivity.
      + apply (shows_ext f2 f2 _ _ _ _ _ _ eq_refl) with (2 := A2). intros y z j Hy _ _.
        rewrite (proj2 (box_kept g rs rs1 s y z HL K1 HsL Hy)). reflexivity.
    - exists rs1, f1. split; [reflexivity|]. split; [discriminate|]. split; [intros n _; reflexivity|exact K1]. }
  destruct S2 as (rs2 & f2 & E2 & YZ & F2 & K2). rewrite E2. clear E2. cbn [fst snd]. cbv zeta.
  set (m2 := energyOf rs2). set (m := fun r i => numbers (nComp k) (rs2 r) 0 i).
  assert (EB : forall x y z, boxE g m2 x y z = boxE g (energyOf rs) x y z).
  { intros. unfold boxE, m2. apply Hen. exact K2. }
  clearbody m2 m.
  (* the energy *)
  assert (S3 : exists f3,
    (forall T (next : file Q -> outcome T), andThen (if askE q then writeE g true M2Energy s "/map/E" m2 f2 else Ignored) f2 next = next f3) /\
    (askE q = true -> shows f3 "/map/E" (g_n1 g) (g_n1 g) 1 (fun x y _ => boxE g (energyOf rs) x y s)) /\
    sameBut f2 f3 (if askE q then ["/map/E"]%string else [])).
  { destruct (askE q) eqn:Eq.
    - assert (N : f2 "/map/E"%string = None).
      { rewrite F2 by (destruct (askYZ q); cbn; intuition discriminate). rewrite F1 by (destruct (askXY q); cbn; intuition discriminate).
        apply Hfree; unfold mapNames; cbn [In]; tauto. }
      destruct (e_written g M2Energy s "/map/E"%string m2 f2 I N) as (f3 & E & Sh & Fr).
      exists f3. split; [intros; rewrite E; reflexivity|]. split; [|exact Fr]. intros _.
      apply (shows_ext f3 f3 _ _ _ _ _ _ eq_refl) with (2 := Sh). intros x y j _ _ _. rewrite <- EB.
      unfold boxE, g_n2. rewrite Nat.div_small, Nat.mod_small by exact Hs. f_equal. ring.
    - exists f2. split; [reflexivity|]. split; [discriminate|]. intros n _; reflexivity. }
  destruct S3 as (f3 & E3 & EE & F3). rewrite E3. clear E3.
  assert (NP : f3 "/map/P"%string = None).
  { rewrite F3 by (destruct (askE q); cbn; intuition discriminate).
    rewrite F2 by (destruct (askYZ q); cbn; intuition discriminate).
    rewrite F1 by (destruct (askXY q); cbn; intuition discriminate).
    apply Hfree; unfold mapNames; cbn [In]; tauto. }
  (* the projections *)
  set (m1 := projectField g R (nComp k) false M2Energy (fun x => x) m2 m).
  set (m3 := projectField g R (nComp k) false M2Energy (fun x => (x * x)%Q) m2 (if askP q then m1 else m)).
  assert (S4 : exists f4,
    andThen (if askP q then writeP g true "/map/P" m1 f3 else Ignored) f3 (fun f =>
      andThen (if askP2 q then writeP g true "/map/P" m3 f else Ignored) f (fun f => Done (rs2, f))) = Done (rs2, f4) /\
    (askP q = true -> showsQ f4 "/map/P" (g_n1 g) (g_n1 g)
       (fun x y => meanDepth (g_Lz g * R) (fun z => boxE g (energyOf rs) x y z))) /\
    (askP2 q = true -> showsQ f4 "/map/P" (g_n1 g) (g_n1 g)
       (fun x y => meanDepth (g_Lz g * R) (fun z => (boxE g (energyOf rs) x y z * boxE g (energyOf rs) x y z)%Q))) /\
    sameBut f3 f4 (if askP q || askP2 q then ["/map/P"]%string else [])).
  { assert (EM : forall h x y, meanDepth (g_Lz g * R) (fun z => h (boxE g m2 x y z)) = meanDepth (g_Lz g * R) (fun z => h (boxE g (energyOf rs) x y z))).
    { intros h x y. unfold meanDepth. f_equal. apply total_ext. intros i _. rewrite EB. reflexivity. }
    destruct (askP q) eqn:E1, (askP2 q) eqn:E2; try discriminate Hq.
    - destruct (p_written g "/map/P"%string m1 f3 NP) as (f4 & E & Sh & Fr). exists f4. rewrite E. cbn [andThen].
      split; [reflexivity|]. split; [|split; [discriminate|exact Fr]]. intros _.
      apply (p_shows g _ m1 f4 f4 _ Sh eq_refl). intros x y Hx Hy. unfold m1.
      rewrite (projected g R (nComp k) (fun x => x) m2 m x y Hg HL HR Hc Hx Hy). rewrite (EM (fun x => x)). reflexivity.
    - destruct (p_written g "/map/P"%string m3 f3 NP) as (f4 & E & Sh & Fr). exists f4. cbn [andThen]. rewrite E. cbn [andThen].
      split; [reflexivity|]. split; [discriminate|]. split; [|exact Fr]. intros _.
      apply (p_shows g _ m3 f4 f4 _ Sh eq_refl). intros x y Hx Hy. unfold m3.
      rewrite (projected g R (nComp k) (fun x => (x * x)%Q) m2 m x y Hg HL HR Hc Hx Hy).
      rewrite (EM (fun x => (x * x)%Q)). reflexivity.
    - exists f3. split; [reflexivity|]. split; [discriminate|]. split; [discriminate|]. intros n _. reflexivity. }
  destruct S4 as (f4 & E4 & P1 & P2 & F4).
  exists rs2, f4. split; [exact E4|]. clear E4.
  assert (X4 : forall n, n <> "/map/P"%string -> f4 n = f3 n).
  { intros n Hn. apply F4. destruct (askP q || askP2 q); cbn; intuition. }
  assert (X3 : forall n, n <> "/map/E"%string -> f3 n = f2 n).
  { intros n Hn. apply F3. destruct (askE q); cbn; intuition. }
  assert (X2 : forall n, n <> "/mapp/m"%string -> n <> "/mapp/v"%string -> f2 n = f1 n).
  { intros n Hn Hn'. apply F2. destruct (askYZ q); cbn; intuition. }
  split; [|split; [|split; [|split; [|split; [|split; [|split]]]]]].
  - intro H. destruct (XY H) as [A1 A2]. split; (eapply shows_app; [|eassumption]);
      rewrite X4, X3, X2 by discriminate; reflexivity.
  - intro H. destruct (YZ H) as [A1 A2]. split; (eapply shows_app; [|eassumption]);
      rewrite X4, X3 by discriminate; reflexivity.
  - intro H. eapply shows_app; [|exact (EE H)]. rewrite X4 by discriminate. reflexivity.
  - exact P1.
  - exact P2.
  - intros n Hn Hf.
    destruct (in_dec string_dec n (if askXY q then ["/map/m"; "/map/v"]%string else [])) as [I1|I1].
    { left. destruct (askXY q); [auto|contradiction]. }
    destruct (in_dec string_dec n (if askYZ q then ["/mapp/m"; "/mapp/v"]%string else [])) as [I2|I2].
    { right; left. destruct (askYZ q); [auto|contradiction]. }
    destruct (in_dec string_dec n (if askE q then ["/map/E"]%string else [])) as [I3|I3].
    { right; right; left. destruct (askE q); [|contradiction]. destruct I3 as [<-|[]]. auto. }
    destruct (in_dec string_dec n (if askP q || askP2 q then ["/map/P"]%string else [])) as [I4|I4].
    { right; right; right. destruct (askP q || askP2 q); [|contradiction]. destruct I4 as [<-|[]]. auto. }
    exfalso. apply Hn. rewrite F4, F3, F2, F1 by assumption. exact Hf.
  - intros n d Hn.
    assert (G : ~ In n mapNames) by (intro Hi; rewrite (Hfree n Hi) in Hn; discriminate).
    rewrite F4, F3, F2, F1; [exact Hn| | | |];
      intro Hi; apply G;
      [destruct (askXY q)|destruct (askYZ q)|destruct (askE q)|destruct (askP q || askP2 q)];
      cbn in Hi |- *; intuition.
  - exact K2.
Qed.

(** Refuted: the energy projection and the projection of its square go to the same name, so a measurement
    asked for both stops the program. *)
Theorem maps_both_projections_refuted : forall g R k lowMem jS jP order energyOf q s rs f,
  askP q = true -> askP2 q = true ->
  writeMaps g R k lowMem jS jP order energyOf q s rs f = Stopped.
Proof.
  intros g R k lowMem jS jP order energyOf q s rs f H1 H2. unfold writeMaps, andThen. rewrite H1, H2. cbv zeta.
  destruct (if askXY q then _ else _) as [| |[rs1 f1]]; [| |]; try reflexivity;
  cbn [fst snd];
  (destruct (if askYZ q then _ else _) as [| |[rs2 f2]]; try reflexivity; cbn [fst snd]);
  (destruct (if askE q then _ else _) as [| |f3]; try reflexivity);
  unfold writeP; cbn [negb];
  match goal with |- context [create ?F "/map/P"%string ?z] => destruct (F "/map/P"%string) as [d|] eqn:E;
    [rewrite (create_taken F _ z d E); reflexivity|rewrite (create_free F _ z E)] end;
  match goal with |- context [writeSlab ?F ?n ?o ?l ?h] =>
    destruct (slab_same F n o l h _ (put_same _ _ _)) as (d & Ed & _); rewrite (create_taken _ _ _ d Ed); reflexivity end.
Qed.

Print Assumptions map_projection_partial.
Print Assumptions map_projection_lowmem_refuted.
Print Assumptions maps_together_partial.
Print Assumptions maps_both_projections_refuted.

(** The hypotheses of the theorem on all the maps hold for two ranks and an energy that is the square of
    the field at each site; the request of four maps is made. *)
Example together_ex :
  let g := Geom 4 3 1 2 false in
  let rs : ranks Q := fun r => FState (fun l j => inject_Z (Z.of_nat (1000 * r + 10 * snd l + j))) false false false in
  wf_geom g /\ (forall r, f_gpu (rs r) = false) /\ 2 < g_Lz g /\ 2 < g_n1 g /\ g_Lz g <= g_Ng g * g_n1 g /\
  allRows 2 (g_Lz g) [(1, 2); (0, 1); (0, 0); (1, 1); (1, 0); (0, 2)] /\
  askP (Maps true true true true false) && askP2 (Maps true true true true false) = false.
Proof.
  cbn zeta. split; [vm_compute; lia|]. split; [reflexivity|]. split; [cbn; lia|]. split; [cbn; lia|].
  split; [cbn; lia|]. split; [|reflexivity].
  intros r y. cbn [In g_Lz]. split.
  + intros H. repeat (destruct H as [H|H]; [injection H as <- <-; lia|]). contradiction.
  + intros [Hr Hy]. destruct r as [|[|]]; [| |lia]; (destruct y as [|[|[|]]]; [auto 10| auto 10|auto 10|lia]).
Qed.
