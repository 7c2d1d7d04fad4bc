(** The two dimensional maps of a measurement file show what they say (C106). *)
From Coq Require Import List Arith Bool String ZArith QArith Lia.
From Verif Require Import Base FolderModel FolderSpec FolderProofs FolderProofs2 RedModel RedProperties
  MapModel MapSpec MapProofs.
Import ListNotations.
Ltac Zify.zify_post_hook ::= idtac.
Local Open Scope nat_scope.

(** The map of slice s in the plane xy shows the field and its velocity in slice s of the whole box,
    for every slice of the box, any number of ranks and either layout on each; the other data sets and the
    field stay as they were. Partial: not for the nonrelativistic field (below). *)
Theorem map_xy_partial : forall B g R k jS jP s (rs : ranks B) f,
  wf_geom g -> (forall r, f_gpu (rs r) = false) -> s < g_Lz g * R -> k <> Naxion ->
  f "/map/m"%string = None -> f "/map/v"%string = None ->
  exists rs' f', writeXY g R k true jS jP s rs f = Done (rs', f') /\
    shows f' "/map/m" (g_n1 g) (g_n1 g) (nComp k) (fun x y j => boxM g rs x y s j) /\
    shows f' "/map/v" (g_n1 g) (g_n1 g) (nComp k) (fun x y j => boxV g rs x y s j) /\
    sameBut f f' ["/map/m"; "/map/v"]%string /\ fieldKept g rs rs' /\
    (forall r, f_gpu (rs' r) = false).
Proof. intros. apply xy_written; assumption. Qed.

(** For the nonrelativistic field only "/map/m" is written, and it is right provided two numbers that the
    code never sets happen not to be negative. *)
Theorem map_xy_naxion_partial : forall B g R jS jP s (rs : ranks B) f,
  wf_geom g -> (forall r, f_gpu (rs r) = false) -> s < g_Lz g * R -> (0 <= jS)%Z -> (0 <= jP)%Z ->
  f "/map/m"%string = None ->
  exists rs' f', writeXY g R Naxion true jS jP s rs f = Done (rs', f') /\
    shows f' "/map/m" (g_n1 g) (g_n1 g) 2 (fun x y j => boxM g rs x y s j) /\
    sameBut f f' ["/map/m"]%string /\ fieldKept g rs rs'.
Proof.
  intros B g R jS jP s rs f Hg Hd Hs H1 H2 Hm. destruct (split_z s (g_Lz g) R Hs) as (HL & Hz & HR).
  unfold writeXY. cbn [negb]. rewrite (create_free f _ _ Hm). cbn [negb andb].
  destruct (Z.ltb_spec jS 0); [lia|]. destruct (Z.ltb_spec jP 0); [lia|]. cbn [orb].
  destruct (Nat.ltb_spec (s / g_Lz g) R); [|lia].
  eexists; eexists; split; [reflexivity|].
  destruct (slice2D_correct g Hg (rs (s / g_Lz g)) (s mod g_Lz g) (Hd _) Hz) as (Hpic & _).
  split; [|split].
  - eapply shows_slab; [apply put_same|reflexivity|unfold g_n2; ring|].
    intros x y j Hx Hy Hj. unfold nComp. rewrite number_at by exact Hj. cbn [Nat.add].
    exact (f_equal (fun h => h j) (proj1 (Hpic x y Hx Hy))).
  - intros n Hn. cbn [In] in Hn. rewrite slab_other, put_other; [reflexivity| |]; intros <-; apply Hn; auto.
  - apply kept_folder; [exact Hg|exact I].
Qed.

(** Refuted: with a negative value in one of them the program stops. *)
Theorem map_xy_naxion_refuted : forall B g R s (rs : ranks B) f jS jP, (jS < 0 \/ jP < 0)%Z ->
  writeXY g R Naxion true jS jP s rs f = Stopped.
Proof.
  intros B g R s rs f jS jP H. unfold writeXY. cbn [negb]. destruct (create f _ _); [|reflexivity].
  assert (E : ((jS <? 0)%Z || (jP <? 0)%Z)%bool = true) by (apply Bool.orb_true_iff; destruct H as [H|H]; [left|right]; apply Z.ltb_lt; exact H).
  rewrite E. reflexivity.
Qed.

(** Refuted: a slice beyond the box is not refused. A map is made, and nothing is ever written in it. *)
Theorem map_xy_beyond_refuted : forall B g R jS jP s (rs : ranks B) f,
  0 < g_Lz g -> g_Lz g * R <= s -> f "/map/m"%string = None -> f "/map/v"%string = None ->
  exists rs' f' d, writeXY g R Saxion true jS jP s rs f = Done (rs', f') /\
    f' "/map/m"%string = Some d /\ forall i, d_val d i = None.
Proof.
  intros B g R jS jP s rs f HL Hs Hm Hv. unfold writeXY. cbn [negb]. rewrite (create_free f _ _ Hm).
  rewrite create_free; [|rewrite put_other by discriminate; exact Hv]. cbn [negb andb].
  destruct (Nat.ltb_spec (s / g_Lz g) R) as [G|_].
  - exfalso. assert (s < g_Lz g * R); [|lia].
    rewrite (Nat.div_mod s (g_Lz g)) by lia. pose proof (Nat.mod_upper_bound s (g_Lz g)).
    assert (g_Lz g * S (s / g_Lz g) <= g_Lz g * R) by (apply Nat.mul_le_mono_l; lia).
    rewrite Nat.mul_succ_r in *. lia.
  - eexists; eexists; eexists; split; [reflexivity|]. split.
    + rewrite put_other by discriminate. apply put_same.
    + reflexivity.
Qed.

(** A map is ignored while no measurement file is open, and the program stops if there is one already. *)
Theorem map_xy_closed : forall B g R k jS jP s (rs : ranks B) f,
  writeXY g R k false jS jP s rs f = Ignored /\
  (f "/map/m"%string <> None -> writeXY g R k true jS jP s rs f = Stopped).
Proof.
  intros. split; [reflexivity|]. intro H. unfold writeXY. cbn [negb].
  destruct (f "/map/m"%string) as [d|] eqn:E; [|congruence]. rewrite (create_taken f _ _ d E). reflexivity.
Qed.

(** The map of the plane yz at s shows the plane x = s of the whole box, whatever the order in which
    the rows reach the file. Partial: the slab must be no deeper than ghosts times length, and the field not
    the nonrelativistic one. *)
Theorem map_yz_partial : forall B g R k order s (rs : ranks B) f,
  wf_geom g -> (forall r, f_gpu (rs r) = false) -> s < g_n1 g -> g_Lz g <= g_Ng g * g_n1 g -> 0 < R ->
  k <> Naxion -> allRows R (g_Lz g) order ->
  f "/mapp/m"%string = None -> f "/mapp/v"%string = None ->
  exists rs' f', writeYZ g R k true order s rs f = Done (rs', f') /\
    shows f' "/mapp/m" (g_n1 g) (g_Lz g * R) (nComp k) (fun y z j => boxM g rs s y z j) /\
    shows f' "/mapp/v" (g_n1 g) (g_Lz g * R) (nComp k) (fun y z j => boxV g rs s y z j) /\
    sameBut f f' ["/mapp/m"; "/mapp/v"]%string /\ fieldKept g rs rs' /\
    (forall r, f_gpu (rs' r) = false).
Proof. intros. apply yz_written; assumption. Qed.

(** Refuted: for the nonrelativistic field the map has half the numbers. *)
Theorem map_yz_naxion_refuted : forall B g R order s (rs : ranks B) f pic,
  0 < g_n1 g * (g_Lz g * R) -> f "/mapp/m"%string = None -> f "/mapp/v"%string = None ->
  exists rs' f', writeYZ g R Naxion true order s rs f = Done (rs', f') /\
    ~ shows f' "/mapp/m" (g_n1 g) (g_Lz g * R) 2 pic.
Proof.
  intros B g R order s rs f pic Hp Hm Hv. unfold writeYZ. cbn [negb]. rewrite (create_free f _ _ Hm).
  rewrite create_free; [|rewrite put_other by discriminate; exact Hv].
  eexists; eexists; split; [reflexivity|]. intros (d & E & Es & _).
  set (f2 := putSet (putSet f _ _) _ _) in E.
  assert (E2 : f2 "/mapp/m"%string = Some (DSet (1 * (g_n1 g * (g_Lz g * R))) (fun _ => None))).
  { unfold f2. rewrite put_other by discriminate. apply put_same. }
  destruct (rows_size order (fun ry => fst ry * (1 * (g_n1 g * (g_Lz g * R)) / R) + snd ry * (1 * g_n1 g))
    (fun ry => fst ry * (1 * (g_n1 g * (g_Lz g * R)) / R) + snd ry * (1 * g_n1 g)) (1 * g_n1 g)
    "/mapp/m"%string "/mapp/v"%string
    (fun ry => numbers (nComp Naxion) (folder g (UNFOLD_SLICEYZ (if g_n1 g <? s then 0 else s)) (rs (fst ry))) (g_n1 g * snd ry))
    (fun ry => numbers (nComp Naxion) (folder g (UNFOLD_SLICEYZ (if g_n1 g <? s then 0 else s)) (rs (fst ry))) (mBack g + g_n1 g * snd ry))
    "/mapp/m"%string f2 _ E2) as (d' & E' & S').
  assert (d' = d).
  { assert (Some d' = Some d); [|congruence]. rewrite <- E, <- E'. reflexivity. }
  subst d'. rewrite S' in Es. cbn [d_size] in Es. set (n := g_n1 g * (g_Lz g * R)) in *. lia.
Qed.

(** Refuted: x = Length is not refused, and shows another row. *)
Definition oneG := Geom 2 1 1 2 false.
Definition oneRs : ranks nat := fun _ => FState (fun l _ => snd l) false false false.
Theorem map_yz_edge_refuted : exists f d,
  writeYZ oneG 1 OtherField true [(0, 0)] 2 oneRs (fun _ => None) = Done f /\
  snd f "/mapp/m"%string = Some d /\
  d_val d 0 = Some (boxM oneG oneRs 0 1 0 0).
Proof. eexists; eexists; split; [reflexivity|]. split; reflexivity. Qed.

(** The energy map of a slice of the first rank shows it. Partial: only for those slices. *)
Theorem map_energy_partial : forall B g s name (m2 : nat -> nat -> B) f,
  s < g_Lz g -> f name = None ->
  exists f', writeE g true M2Energy s name m2 f = Done f' /\
    shows f' name (g_n1 g) (g_n1 g) 1 (fun x y _ => boxE g m2 x y s) /\
    sameBut f f' [name].
Proof.
  intros B g s name m2 f Hs Hf. destruct (e_written g M2Energy s name m2 f I Hf) as (f' & E & Sh & Fr).
  exists f'. split; [exact E|]. split; [|exact Fr].
  apply (shows_ext f' f' name _ _ _ _ _ eq_refl) with (2 := Sh). intros x y j _ _ _.
  unfold boxE, g_n2. rewrite Nat.div_small, Nat.mod_small by exact Hs. f_equal. ring.
Qed.

(** Refuted: a slice of another rank is not shown, although it is one of the box. *)
Theorem map_energy_far_refuted :
  exists (m2 : nat -> nat -> nat) f' d, let g := Geom 2 1 1 2 false in
  1 < g_Lz g * 2 /\ writeE g true M2Energy 1 "/map/E" m2 (fun _ => None) = Done f' /\
  f' "/map/E"%string = Some d /\ d_val d 0 <> Some (boxE g m2 0 0 1).
Proof.
  exists (fun r _ => r). eexists; eexists. cbn zeta. split; [vm_compute; lia|]. split; [reflexivity|].
  split; [reflexivity|]. vm_compute. discriminate.
Qed.

(** It is refused unless m2 holds an energy or a mask. *)
Theorem map_energy_refused : forall B g o st s name (m2 : nat -> nat -> B) f,
  st = M2EnergySmooth \/ st = M2Other -> writeE g o st s name m2 f = Ignored.
Proof. intros. destruct H; subst; reflexivity. Qed.

Print Assumptions map_xy_partial.
Print Assumptions map_xy_naxion_partial.
Print Assumptions map_xy_naxion_refuted.
Print Assumptions map_xy_beyond_refuted.
Print Assumptions map_xy_closed.
Print Assumptions map_yz_partial.
Print Assumptions map_yz_naxion_refuted.
Print Assumptions map_yz_edge_refuted.
Print Assumptions map_energy_partial.
Print Assumptions map_energy_far_refuted.
Print Assumptions map_energy_refused.

(** Two ranks of a 4 x 4 x 3 slab each, folded, in any field: the hypotheses hold, and slice 4 is the
    second rank's slice 1. *)
Example maps_ex :
  let g := Geom 4 3 1 2 false in
  let rs : ranks nat := fun r => FState (fun l j => 1000 * r + 10 * snd l + j) true false false in
  wf_geom g /\ (forall r, f_gpu (rs r) = false) /\ 4 < g_Lz g * 2 /\ g_Lz g <= g_Ng g * g_n1 g /\
  allRows 2 (g_Lz g) [(1, 2); (0, 1); (0, 0); (1, 1); (1, 0); (0, 2)] /\
  boxM g rs 2 1 4 1 = 1000 + 10 * (16 + 16 + (8 + 2 * 2)) + 1 /\
  exists rs' f' d, writeXY g 2 Saxion true (-1) (-1) 4 rs (fun _ => None) = Done (rs', f') /\
    f' "/map/m"%string = Some d /\ d_val d ((1 * 4 + 2) * 2 + 1) = Some (1000 + 10 * (16 + 16 + (8 + 2 * 2)) + 1).
Proof.
  cbn zeta. split; [vm_compute; lia|]. split; [reflexivity|]. split; [cbn; lia|]. split; [cbn; lia|].
  split; [|split; [reflexivity|]].
  - intros r y. cbn [In g_Lz]. split.
    + intros H. repeat (destruct H as [H|H]; [injection H as <- <-; lia|]). contradiction.
    + intros [Hr Hy]. destruct r as [|[|]]; [| |lia]; (destruct y as [|[|[|]]]; [auto 10| auto 10|auto 10|lia]).
  - eexists; eexists; eexists; split; [reflexivity|]. split; reflexivity.
Qed.
