(** Proofs about the maps of the measurement file. *)
From Coq Require Import List Arith Bool String ZArith QArith Lia.
From Verif Require Import Base FolderModel FolderSpec FolderProofs FolderProofs2 RedModel MapModel MapSpec.
Import ListNotations.
Ltac Zify.zify_post_hook ::= idtac.
Local Open Scope nat_scope.

Lemma put_same {B} (f : file B) n d : putSet f n d n = Some d.
Proof. unfold putSet. rewrite String.eqb_refl. reflexivity. Qed.

Lemma put_other {B} (f : file B) n n' d : n <> n' -> putSet f n d n' = f n'.
Proof. intro H. unfold putSet. destruct (String.eqb_spec n n'); [contradiction|reflexivity]. Qed.

Lemma create_free {B} (f : file B) n sz :
  f n = None -> create f n sz = Some (putSet f n (DSet sz (fun _ => None))).
Proof. intro H. unfold create. rewrite H. reflexivity. Qed.

Lemma create_taken {B} (f : file B) n sz d : f n = Some d -> create f n sz = None.
Proof. intro H. unfold create. rewrite H. reflexivity. Qed.

Lemma slab_same {B} (f : file B) n off len (src : nat -> B) d : f n = Some d ->
  exists d', writeSlab f n off len src n = Some d' /\ d_size d' = d_size d /\
    (forall i, i < len -> d_val d' (off + i) = Some (src i)) /\
    (forall i, i < off \/ off + len <= i -> d_val d' i = d_val d i).
Proof.
  intro H. unfold writeSlab. rewrite H. rewrite put_same. eexists; split; [reflexivity|].
  split; [reflexivity|]. cbn [d_val]. split.
  - intros i Hi. destruct (Nat.leb_spec off (off + i)); [|lia].
    destruct (Nat.ltb_spec (off + i) (off + len)); [|lia]. cbn [andb].
    replace (off + i - off) with i by lia. reflexivity.
  - intros i Hi. destruct (Nat.leb_spec off i); cbn [andb]; [|reflexivity].
    destruct (Nat.ltb_spec i (off + len)); [lia|reflexivity].
Qed.

Lemma slab_other {B} (f : file B) n n' off len (src : nat -> B) :
  n <> n' -> writeSlab f n off len src n' = f n'.
Proof. intro H. unfold writeSlab. destruct (f n); [apply put_other; exact H|reflexivity]. Qed.

(** A whole data set written at once. *)
Lemma shows_slab {B} (f : file B) n w h c (pic : nat -> nat -> nat -> B) src sz d :
  f n = Some d -> d_size d = sz -> sz = w * h * c ->
  (forall col row j, col < w -> row < h -> j < c -> src ((row * w + col) * c + j) = pic col row j) ->
  shows (writeSlab f n 0 sz src) n w h c pic.
Proof.
  intros Hf Hd Hz Hs. destruct (slab_same f n 0 sz src d Hf) as (d' & E & Es & Ev & _).
  exists d'. split; [exact E|]. split; [congruence|].
  intros col row j Hc Hr Hj. specialize (Ev ((row * w + col) * c + j)). cbn [Nat.add] in Ev.
  rewrite Ev; [rewrite Hs by assumption; reflexivity|].
  rewrite Hz. assert (row * w + col < w * h).
  { assert (row * w + w <= h * w); [|lia]. rewrite <- Nat.mul_succ_l. apply Nat.mul_le_mono_r. lia. }
  assert (S (row * w + col) * c <= w * h * c) by (apply Nat.mul_le_mono_r; lia). cbn [Nat.mul] in *. lia.
Qed.

Lemma shows_put {B} (f : file B) n n' d w h c (pic : nat -> nat -> nat -> B) :
  n <> n' -> shows f n' w h c pic -> shows (putSet f n d) n' w h c pic.
Proof. intros H (d' & E & R). exists d'. split; [rewrite put_other by exact H; exact E|exact R]. Qed.

Lemma shows_slab_other {B} (f : file B) n n' off len src w h c (pic : nat -> nat -> nat -> B) :
  n <> n' -> shows f n' w h c pic -> shows (writeSlab f n off len src) n' w h c pic.
Proof. intros H (d' & E & R). exists d'. split; [rewrite slab_other by exact H; exact E|exact R]. Qed.

Lemma shows_ext {B} (f f' : file B) n w h c (pic pic' : nat -> nat -> nat -> B) :
  f' n = f n -> (forall x y j, x < w -> y < h -> j < c -> pic x y j = pic' x y j) ->
  shows f n w h c pic -> shows f' n w h c pic'.
Proof.
  intros E Hp (d & Ed & Es & Ev). exists d. split; [congruence|]. split; [exact Es|].
  intros. rewrite Ev by assumption. rewrite Hp by assumption. reflexivity.
Qed.

Lemma shows_app {B} (f f' : file B) n w h c (pic : nat -> nat -> nat -> B) :
  f' n = f n -> shows f n w h c pic -> shows f' n w h c pic.
Proof. intros E. apply shows_ext; [exact E|reflexivity]. Qed.

Lemma number_at {B} (c : nat) (st : fstate (nat -> B)) base p j :
  j < c -> numbers c st base (p * c + j) = f_mem st (ArrM, base + p) j.
Proof.
  intro Hj. unfold numbers. rewrite (Nat.mul_comm p c).
  replace ((c * p + j) / c) with p.
  - rewrite (Nat.add_comm (c * p)), (Nat.mul_comm c), Nat.mod_add, Nat.mod_small by lia. reflexivity.
  - apply (Nat.div_unique _ _ _ j); lia.
Qed.

Lemma comp_pos k : 0 < nComp k.
Proof. destruct k; cbn; lia. Qed.

Lemma split_z s Lz R : s < Lz * R -> 0 < Lz /\ s mod Lz < Lz /\ s / Lz < R.
Proof.
  intro H. assert (HL : 0 < Lz) by (destruct Lz; lia). split; [exact HL|].
  split; [apply Nat.mod_upper_bound; lia|]. apply Nat.div_lt_upper_bound; lia.
Qed.

Lemma kept_folder {B} (g : geom) (rs : ranks B) t :
  wf_geom g -> ok_request g t -> fieldKept g rs (fun r => folder g t (rs r)).
Proof.
  intros Hg Ht r x y z Hs. destruct (folder_sites g t (rs r) x y z Hg Ht Hs) as (A1 & A2 & _). split; assumption.
Qed.

Lemma kept_trans {B} (g : geom) (a b c : ranks B) : fieldKept g a b -> fieldKept g b c -> fieldKept g a c.
Proof.
  intros H1 H2 r x y z Hs. destruct (H1 r x y z Hs) as [A1 A2], (H2 r x y z Hs) as [B1 B2].
  split; congruence.
Qed.

Lemma kept_refl {B} (g : geom) (a : ranks B) : fieldKept g a a.
Proof. intros r x y z _. split; reflexivity. Qed.

Lemma box_kept {B} (g : geom) (a b : ranks B) x y z : 0 < g_Lz g -> fieldKept g a b -> x < g_n1 g -> y < g_n1 g ->
  boxM g b x y z = boxM g a x y z /\ boxV g b x y z = boxV g a x y z.
Proof.
  intros HL H Hx Hy. unfold boxM, boxV. apply H. split; [exact Hx|]. split; [exact Hy|].
  apply Nat.mod_upper_bound. lia.
Qed.

Lemma same_trans {B} (a b c : file B) l1 l2 l : sameBut a b l1 -> sameBut b c l2 ->
  (forall n, In n l1 -> In n l) -> (forall n, In n l2 -> In n l) -> sameBut a c l.
Proof.
  intros H1 H2 I1 I2 n Hn. rewrite H2, H1; [reflexivity| |]; intro Hi; apply Hn; auto.
Qed.

Lemma gpu_folder {B} (g : geom) (st : fstate (nat -> B)) t : wf_geom g -> f_gpu st = false ->
  match t with UNFOLD_SLICE _ | UNFOLD_SLICEYZ _ => True | _ => False end -> f_gpu (folder g t st) = false.
Proof.
  intros _ H Ht. destruct t; try contradiction; cbn [folder].
  - unfold unfoldField2D. destruct (_ || _); [exact H|]. destruct (negb _); exact H.
  - unfold unfoldField2DYZ. destruct (_ || _); [exact H|]. destruct (negb _); exact H.
Qed.

(** The xy map. *)
Lemma xy_written {B} (g : geom) R k jS jP s (rs : ranks B) f :
  wf_geom g -> (forall r, f_gpu (rs r) = false) -> s < g_Lz g * R -> k <> Naxion ->
  f "/map/m"%string = None -> f "/map/v"%string = None ->
  exists rs' f', writeXY g R k true jS jP s rs f = Done (rs', f') /\
    shows f' "/map/m" (g_n1 g) (g_n1 g) (nComp k) (fun x y j => boxM g rs x y s j) /\
    shows f' "/map/v" (g_n1 g) (g_n1 g) (nComp k) (fun x y j => boxV g rs x y s j) /\
    sameBut f f' ["/map/m"; "/map/v"]%string /\ fieldKept g rs rs' /\
    (forall r, f_gpu (rs' r) = false).
Proof.
  intros Hg Hd Hs Hk Hm Hv. destruct (split_z s (g_Lz g) R Hs) as (HL & Hz & HR).
  pose proof (comp_pos k) as Hc.
  assert (Esz : (if match k with OtherField => false | _ => true end then 2 else 1) * g_n2 g = g_n1 g * g_n1 g * nComp k).
  { unfold g_n2. destruct k; cbn [nComp]; lia. }
  unfold writeXY. cbn [negb]. rewrite Esz. set (sz := g_n1 g * g_n1 g * nComp k).
  rewrite (create_free f _ sz Hm).
  assert (EV : match k with Naxion => false | _ => true end = true) by (destruct k; congruence).
  rewrite EV. rewrite create_free; [|rewrite put_other by discriminate; exact Hv].
  cbn [negb andb]. destruct (Nat.ltb_spec (s / g_Lz g) R); [|lia].
  eexists; eexists; split; [reflexivity|].
  destruct (slice2D_correct g Hg (rs (s / g_Lz g)) (s mod g_Lz g) (Hd _) Hz) as (Hpic & _).
  split; [|split; [|split; [|split]]].
  - apply shows_slab_other; [discriminate|].
    eapply shows_slab; [rewrite put_other by discriminate; apply put_same|reflexivity|reflexivity|].
    intros x y j Hx Hy Hj. rewrite number_at by exact Hj. cbn [Nat.add].
    exact (f_equal (fun h => h j) (proj1 (Hpic x y Hx Hy))).
  - eapply shows_slab; [rewrite slab_other by discriminate; apply put_same|reflexivity|reflexivity|].
    intros x y j Hx Hy Hj. rewrite number_at by exact Hj.
    exact (f_equal (fun h => h j) (proj2 (Hpic x y Hx Hy))).
  - intros n Hn. cbn [In] in Hn.
    rewrite !slab_other, !put_other; try reflexivity; intros <-; apply Hn; auto.
  - apply kept_folder; [exact Hg|exact I].
  - intro r. apply gpu_folder; auto.
Qed.

(** The rows of the yz map, in any order. *)
Section Rows.
Variable B : Type.
Variables (slab Lz : nat) (srcM srcV : nat -> nat -> nat -> B) (nm nv : string).
Hypothesis Hn : nm <> nv.

Definition rowStep (f : file B) (ry : nat * nat) : file B :=
  let off := fst ry * (Lz * slab) + snd ry * slab in
  writeSlab (writeSlab f nm off slab (srcM (fst ry) (snd ry))) nv off slab (srcV (fst ry) (snd ry)).

Definition rowsIn (d d' : dset B) (src : nat -> nat -> nat -> B) (order : list (nat * nat)) : Prop :=
  d_size d' = d_size d /\
  forall r y i, y < Lz -> i < slab ->
    (In (r, y) order -> d_val d' ((r * Lz + y) * slab + i) = Some (src r y i)) /\
    (~ In (r, y) order -> d_val d' ((r * Lz + y) * slab + i) = d_val d ((r * Lz + y) * slab + i)).

Lemma row_of r y r' y' i i' : y < Lz -> y' < Lz -> i < slab ->
  (r' * Lz + y') * slab <= (r * Lz + y) * slab + i < (r' * Lz + y') * slab + slab -> i' = 0 -> r = r' /\ y = y'.
Proof.
  intros Hy Hy' Hi H _.
  assert (E : ((r * Lz + y) * slab + i) / slab = r * Lz + y).
  { symmetry. apply (Nat.div_unique _ _ _ i); lia. }
  assert (E' : ((r * Lz + y) * slab + i) / slab = r' * Lz + y').
  { symmetry. apply (Nat.div_unique _ _ _ ((r * Lz + y) * slab + i - (r' * Lz + y') * slab)); lia. }
  assert (Q : r * Lz + y = r' * Lz + y') by congruence.
  assert (r = r').
  { assert (A : (r * Lz + y) / Lz = r) by (symmetry; apply (Nat.div_unique _ _ _ y); lia).
    assert (A' : (r' * Lz + y') / Lz = r') by (symmetry; apply (Nat.div_unique _ _ _ y'); lia).
    rewrite Q in A. congruence. }
  subst. lia.
Qed.

Lemma slab_row (d d' : dset B) src r0 y0 : y0 < Lz ->
  d_size d' = d_size d ->
  (forall i, i < slab -> d_val d' ((r0 * Lz + y0) * slab + i) = Some (src r0 y0 i)) ->
  (forall i, i < (r0 * Lz + y0) * slab \/ (r0 * Lz + y0) * slab + slab <= i -> d_val d' i = d_val d i) ->
  rowsIn d d' src [(r0, y0)].
Proof.
  intros Hy0 Hsz Hin Hout. split; [exact Hsz|]. intros r y i Hy Hi. cbn [In]. split.
  - intros [E|[]]. injection E as -> ->. apply Hin. exact Hi.
  - intro Hni. apply Hout.
    destruct (Nat.lt_ge_cases ((r * Lz + y) * slab + i) ((r0 * Lz + y0) * slab)) as [|G]; [auto|].
    destruct (Nat.lt_ge_cases ((r * Lz + y) * slab + i) ((r0 * Lz + y0) * slab + slab)) as [G'|]; [|auto].
    exfalso. apply Hni. left. destruct (row_of r y r0 y0 i 0 Hy Hy0 Hi (conj G G') eq_refl). congruence.
Qed.

Lemma rowsIn_trans d1 d2 d3 src l1 l2 : rowsIn d1 d2 src l1 -> rowsIn d2 d3 src l2 -> rowsIn d1 d3 src (l1 ++ l2).
Proof.
  intros [S1 V1] [S2 V2]. split; [congruence|]. intros r y i Hy Hi.
  destruct (V1 r y i Hy Hi) as [A1 B1], (V2 r y i Hy Hi) as [A2 B2]. rewrite in_app_iff.
  assert (D : forall p q : nat * nat, {p = q} + {p <> q}) by (decide equality; apply Nat.eq_dec).
  destruct (in_dec D (r, y) l2) as [I|I].
  - split; [intros _; exact (A2 I)|intro Hni; exfalso; apply Hni; auto].
  - split.
    + intros [H|H]; [|contradiction]. rewrite B2 by exact I. exact (A1 H).
    + intro Hni. rewrite B2 by exact I. apply B1. intro; apply Hni; auto.
Qed.

Lemma rows_all order : (forall r y, In (r, y) order -> y < Lz) -> forall (f : file B) dm dv,
  f nm = Some dm -> f nv = Some dv ->
  let f' := fold_left rowStep order f in
  (exists dm', f' nm = Some dm' /\ rowsIn dm dm' srcM order) /\
  (exists dv', f' nv = Some dv' /\ rowsIn dv dv' srcV order) /\
  (forall n, n <> nm -> n <> nv -> f' n = f n).
Proof.
  induction order as [|[r0 y0] order IH]; intros Ho f dm dv Hm Hv; cbn [fold_left].
  - split; [|split; [|reflexivity]]; eexists; (split; [eassumption|]); (split; [reflexivity|]); cbn [In]; tauto.
  - assert (Hy0 : y0 < Lz) by (apply (Ho r0); left; reflexivity).
    set (f1 := rowStep f (r0, y0)).
    assert (Eo : r0 * (Lz * slab) + y0 * slab = (r0 * Lz + y0) * slab) by (rewrite Nat.mul_add_distr_r; lia).
    assert (M : exists d, f1 nm = Some d /\ rowsIn dm d srcM [(r0, y0)]).
    { unfold f1, rowStep. cbn [fst snd]. rewrite Eo. rewrite slab_other by congruence.
      destruct (slab_same f nm ((r0 * Lz + y0) * slab) slab (srcM r0 y0) dm Hm) as (d & E & S & V & F).
      exists d. split; [exact E|]. apply slab_row; assumption. }
    assert (V : exists d, f1 nv = Some d /\ rowsIn dv d srcV [(r0, y0)]).
    { unfold f1, rowStep. cbn [fst snd]. rewrite Eo.
      set (fm := writeSlab f nm _ _ _).
      assert (Hv' : fm nv = Some dv) by (unfold fm; rewrite slab_other by exact Hn; exact Hv).
      destruct (slab_same fm nv ((r0 * Lz + y0) * slab) slab (srcV r0 y0) dv Hv') as (d & E & S & V & F).
      exists d. split; [exact E|]. apply slab_row; assumption. }
    destruct M as (dm1 & Em & Rm), V as (dv1 & Ev & Rv).
    destruct (IH (fun r y H => Ho r y (or_intror H)) f1 dm1 dv1 Em Ev) as ((dm' & E1 & R1) & (dv' & E2 & R2) & F).
    split; [|split].
    + exists dm'. split; [exact E1|]. exact (rowsIn_trans _ _ _ _ [(r0, y0)] order Rm R1).
    + exists dv'. split; [exact E2|]. exact (rowsIn_trans _ _ _ _ [(r0, y0)] order Rv R2).
    + intros n H1 H2. rewrite F by assumption. unfold f1, rowStep.
      rewrite !slab_other by congruence. reflexivity.
Qed.
End Rows.

(** The yz map. *)
Lemma yz_written {B} (g : geom) R k order s (rs : ranks B) f :
  wf_geom g -> (forall r, f_gpu (rs r) = false) -> s < g_n1 g -> g_Lz g <= g_Ng g * g_n1 g -> 0 < R ->
  k <> Naxion -> allRows R (g_Lz g) order ->
  f "/mapp/m"%string = None -> f "/mapp/v"%string = None ->
  exists rs' f', writeYZ g R k true order s rs f = Done (rs', f') /\
    shows f' "/mapp/m" (g_n1 g) (g_Lz g * R) (nComp k) (fun y z j => boxM g rs s y z j) /\
    shows f' "/mapp/v" (g_n1 g) (g_Lz g * R) (nComp k) (fun y z j => boxV g rs s y z j) /\
    sameBut f f' ["/mapp/m"; "/mapp/v"]%string /\ fieldKept g rs rs' /\
    (forall r, f_gpu (rs' r) = false).
Proof.
  intros Hg Hd Hs Hdeep HR Hk Ho Hm Hv. unfold allRows in Ho. pose proof (comp_pos k) as Hc.
  assert (Etwo : match k with Saxion => 2 | _ => 1 end = nComp k) by (destruct k; cbn; congruence).
  unfold writeYZ. cbn [negb]. rewrite Etwo.
  set (c := nComp k) in *. set (L := g_n1 g) in *. set (Lz := g_Lz g) in *.
  destruct (Nat.ltb_spec L s) as [G|_]; [lia|].
  rewrite (create_free f _ _ Hm). rewrite create_free; [|rewrite put_other by discriminate; exact Hv].
  assert (Ep : c * (L * (Lz * R)) / R = Lz * (c * L)).
  { replace (c * (L * (Lz * R))) with (Lz * (c * L) * R) by ring. apply Nat.div_mul. lia. }
  rewrite Ep.
  set (f2 := putSet (putSet f _ _) _ _).
  pose (rsv := fun r => folder g (UNFOLD_SLICEYZ s) (rs r)). fold rsv.
  set (srcM := fun r y => numbers c (rsv r) (L * y)).
  set (srcV := fun r y => numbers c (rsv r) (mBack g + L * y)).
  destruct (rows_all B (c * L) Lz srcM srcV "/mapp/m"%string "/mapp/v"%string ltac:(discriminate) order
              ltac:(intros r y Hi; apply (Ho r y); exact Hi) f2 _ _
              ltac:(unfold f2; rewrite put_other by discriminate; apply put_same)
              ltac:(unfold f2; apply put_same)) as ((dm & Em & Sm & Vm) & (dv & Ev & Sv & Vv) & Fr).
  assert (Pic : forall y z j, y < L -> z < Lz * R -> j < c ->
     srcM (z / Lz) (z mod Lz) (y * c + j) = boxM g rs s y z j /\
     srcV (z / Lz) (z mod Lz) (y * c + j) = boxV g rs s y z j).
  { intros y z j Hy Hz Hj. destruct (split_z z Lz R Hz) as (HL & Hzm & Hzr).
    unfold srcM, srcV. rewrite !number_at by exact Hj.
    destruct (sliceYZ_correct g Hg (rs (z / Lz)) s (Hd _) Hs Hdeep) as (P & _).
    destruct (P y (z mod Lz) Hy Hzm) as [P1 P2].
    rewrite (Nat.mul_comm L). rewrite <- Nat.add_assoc.
    split; [exact (f_equal (fun h => h j) P1)|exact (f_equal (fun h => h j) P2)]. }
  assert (Idx : forall y z j, y < L -> z < Lz * R -> j < c ->
     (z * L + y) * c + j = ((z / Lz) * Lz + z mod Lz) * (c * L) + (y * c + j) /\
     z mod Lz < Lz /\ y * c + j < c * L /\ In (z / Lz, z mod Lz) order).
  { intros y z j Hy Hz Hj. destruct (split_z z Lz R Hz) as (HL & Hzm & Hzr).
    split; [|split; [exact Hzm|split]].
    - rewrite (Nat.mul_comm (z / Lz)). rewrite <- Nat.div_mod by lia. ring.
    - assert (S y * c <= L * c) by (apply Nat.mul_le_mono_r; lia). cbn [Nat.mul] in *. lia.
    - apply Ho. split; assumption. }
  eexists; eexists; split; [reflexivity|]. split; [|split; [|split; [|split]]].
  - exists dm. split; [exact Em|]. split; [rewrite Sm; cbn [d_size]; ring|].
    intros y z j Hy Hz Hj. destruct (Idx y z j Hy Hz Hj) as (E & I1 & I2 & I3). rewrite E.
    rewrite (proj1 (Vm (z / Lz) (z mod Lz) (y * c + j) I1 I2) I3).
    rewrite (proj1 (Pic y z j Hy Hz Hj)). reflexivity.
  - exists dv. split; [exact Ev|]. split; [rewrite Sv; cbn [d_size]; ring|].
    intros y z j Hy Hz Hj. destruct (Idx y z j Hy Hz Hj) as (E & I1 & I2 & I3). rewrite E.
    rewrite (proj1 (Vv (z / Lz) (z mod Lz) (y * c + j) I1 I2) I3).
    rewrite (proj2 (Pic y z j Hy Hz Hj)). reflexivity.
  - intros n Hn. cbn [In] in Hn. etransitivity; [apply Fr; intros ->; apply Hn; auto|].
    unfold f2. rewrite !put_other; [reflexivity| |]; intros <-; apply Hn; auto.
  - apply kept_folder; [exact Hg|]. split; assumption.
  - intro r. apply gpu_folder; auto.
Qed.

(** A map of one rank's numbers. *)
Lemma e_written {B} (g : geom) st s name (m2 : nat -> nat -> B) f :
  match st with M2Energy | M2MaskTest | M2AntiMask | M2Mask => True | _ => False end ->
  f name = None ->
  exists f', writeE g true st s name m2 f = Done f' /\
    shows f' name (g_n1 g) (g_n1 g) 1 (fun x y _ => m2 0 (g_n2 g * s + (y * g_n1 g + x))) /\
    sameBut f f' [name].
Proof.
  intros Hst Hf. unfold writeE. cbn [negb]. rewrite (create_free f name _ Hf).
  exists (writeSlab (putSet f name (DSet (g_n2 g) (fun _ => None))) name 0 (g_n2 g) (fun i => m2 0 (g_n2 g * s + i))).
  split; [destruct st; try contradiction; reflexivity|]. split.
  - eapply shows_slab; [apply put_same|reflexivity|unfold g_n2; ring|].
    intros x y j Hx Hy Hj. replace ((y * g_n1 g + x) * 1 + j) with (y * g_n1 g + x) by lia. reflexivity.
  - intros n Hn. cbn [In] in Hn. rewrite slab_other, put_other; [reflexivity| |]; intros <-; apply Hn; auto.
Qed.

Lemma p_written {B} (g : geom) name (m : nat -> nat -> B) f :
  f name = None ->
  exists f', writeP g true name m f = Done f' /\
    shows f' name (g_n1 g) (g_n1 g) 1 (fun x y _ => m 0 (y * g_n1 g + x)) /\
    sameBut f f' [name].
Proof.
  intros Hf. unfold writeP. cbn [negb]. rewrite (create_free f name _ Hf). eexists; split; [reflexivity|]. split.
  - eapply shows_slab; [apply put_same|reflexivity|unfold g_n2; ring|].
    intros x y j Hx Hy Hj. replace ((y * g_n1 g + x) * 1 + j) with (y * g_n1 g + x) by lia. reflexivity.
  - intros n Hn. cbn [In] in Hn. rewrite slab_other, put_other; [reflexivity| |]; intros <-; apply Hn; auto.
Qed.

Lemma slab_size {B} (f : file B) n n' off len src d : f n = Some d ->
  exists d', writeSlab f n' off len src n = Some d' /\ d_size d' = d_size d.
Proof.
  intro H. destruct (string_dec n' n) as [->|E].
  - destruct (slab_same f n off len src d H) as (d' & E1 & E2 & _). exists d'. auto.
  - exists d. rewrite slab_other by exact E. auto.
Qed.

Lemma rows_size {B X} (order : list X) (h1 h2 : X -> nat) len n1 n2 (s1 s2 : X -> nat -> B) n : forall (f : file B) d,
  f n = Some d ->
  exists d', fold_left (fun f ry => writeSlab (writeSlab f n1 (h1 ry) len (s1 ry)) n2 (h2 ry) len (s2 ry)) order f n = Some d'
    /\ d_size d' = d_size d.
Proof.
  induction order as [|x order IH]; intros f d H; cbn [fold_left]; [exists d; auto|].
  destruct (slab_size f n n1 (h1 x) len (s1 x) d H) as (d1 & E1 & S1).
  destruct (slab_size _ n n2 (h2 x) len (s2 x) d1 E1) as (d2 & E2 & S2).
  destruct (IH _ d2 E2) as (d3 & E3 & S3). exists d3. split; [exact E3|congruence].
Qed.
