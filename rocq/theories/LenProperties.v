(** Theorems about the length and the speed of strings (C64, C65, C66). *)
From Coq Require Import Reals List Arith ZArith QArith Qreals Lra Psatz Lia.
From Verif Require Import StrModel StrSpec StrFlux LenModel LenSpec LenProofs.
From Verif Require StrProperties.
Import ListNotations.
Local Open Scope R_scope.

(** ** C64: the point where a string passes a plaquette *)
(** A plaquette with a string gets one point, inside it. Corners in the order of the border: a, b, c, d *)
Theorem string_point_partial : forall a b c d,
  notOpposite a b -> notOpposite b c -> notOpposite c d -> notOpposite d a ->
  (turns a b c d = 2 \/ turns a b c d = -2)%Z ->
  exists x y, setCross (toC a) (toC b) (toC d) (toC c) = Some (x, y) /\ 0 <= x <= 1 /\ 0 <= y <= 1.
Proof.
  intros a b c d H1 H2 H3 H4 T. destruct (cross_square _ _ _ _ (strong_toC a b c d H1 H2 H3 H4 T)) as (x & y & E & U & V). eauto.
Qed.
(** If the field is linear over the plaquette and its corners are off the axes, the point is its zero *)
Theorem string_point_exact_partial : forall a b c d,
  notOpposite a b -> notOpposite b c -> notOpposite c d -> notOpposite d a ->
  (turns a b c d = 2 \/ turns a b c d = -2)%Z -> linearIn a b c d ->
  offAxes a -> offAxes b -> offAxes c -> offAxes d ->
  exists x y, setCross (toC a) (toC b) (toC d) (toC c) = Some (x, y) /\ 0 <= x <= 1 /\ 0 <= y <= 1 /\
    Q2R (re a) + x * (Q2R (re b) - Q2R (re a)) + y * (Q2R (re d) - Q2R (re a)) = 0 /\
    Q2R (im a) + x * (Q2R (im b) - Q2R (im a)) + y * (Q2R (im d) - Q2R (im a)) = 0.
Proof.
  intros a b c d H1 H2 H3 H4 T [L1 L2] [A1 A2] [B1 B2] [C1 C2] [D1 D2].
  assert (NZ : forall q, ~ (q == 0)%Q -> Q2R q <> 0) by (intros q N Z; apply N, Q2R_eq0, Z).
  apply Qeq_eqR in L1. apply Qeq_eqR in L2. rewrite !Q2R_plus in L1, L2.
  destruct (cross_linear _ _ _ _ (strong_toC a b c d H1 H2 H3 H4 T)) as (x & y & E & [U V] & Z1 & Z2);
    try (cbn [toC cre cim]; apply NZ; assumption); try (cbn [toC cre cim]; assumption).
  exists x, y. auto.
Qed.
Definition sqA := Cx (-1) (-1). Definition sqB := Cx 2 (-2). Definition sqC := Cx 1 1. Definition sqD := Cx (-2) 2.
Example string_point_case :
  notOpposite sqA sqB /\ notOpposite sqB sqC /\ notOpposite sqC sqD /\ notOpposite sqD sqA /\ turns sqA sqB sqC sqD = (-2)%Z /\
  linearIn sqA sqB sqC sqD /\ offAxes sqA /\ offAxes sqB /\ offAxes sqC /\ offAxes sqD.
Proof.
  split; [|split; [|split; [|split; [|split; [|split; [|split; [|split; [|split]]]]]]]].
  all: try (intros [H1 H2]; vm_compute in H1, H2; discriminate).
  all: try (split; vm_compute; first [reflexivity|intros K; discriminate K]).
Qed.
(** A plaquette marked as having a string, and no number for its point *)
Theorem string_point_refuted : exists a b c d, turns a b c d = (-2)%Z /\ setCross (toC a) (toC b) (toC d) (toC c) = None.
Proof.
  exists (Cx (-1) (-1)), (Cx 1 1), (Cx 1 1), (Cx (-1) (-1)). split; [vm_compute; reflexivity|].
  unfold setCross, toC, nodes. cbn [cre cim re im].
  assert (M1 : Q2R 1 = 1) by (unfold Q2R; cbn; lra). assert (M2 : Q2R (-1) = -1) by (unfold Q2R; cbn; lra). rewrite M1, M2.
  destruct (Rle_dec (-1 * 1) 0); [|lra]. destruct (Rle_dec (1 * 1) 0); [lra|]. destruct (Rle_dec (1 * -1) 0); [|lra]. destruct (Rle_dec (-1 * -1) 0); [lra|].
  cbn [app]. rewrite !fdiv_ok by lra. cbn [bind]. unfold meet. unfold fdiv at 1.
  destruct (Req_EM_T ((1 - 0) * (-1 / (-1 - 1) - -1 / (-1 - 1)) - (1 - 0) * (-1 / (-1 - 1) - -1 / (-1 - 1))) 0) as [Z|Z]; [reflexivity|].
  exfalso. apply Z. lra.
Qed.
(** A linear field with its zero in the plaquette and a corner on an axis: the point is the centre, not the zero *)
Theorem string_point_exact_refuted : exists a b c d,
  turns a b c d = 2%Z /\ linearIn a b c d /\ notOpposite a b /\ notOpposite b c /\ notOpposite c d /\ notOpposite d a /\
  setCross (toC a) (toC b) (toC d) (toC c) = Some (/ 2, / 2) /\
  Q2R (re a) + / 2 * (Q2R (re b) - Q2R (re a)) + / 2 * (Q2R (re d) - Q2R (re a)) <> 0.
Proof.
  exists (Cx 0 (-1)), (Cx (-3) 2), (Cx (-2) 5), (Cx 1 2).
  split; [vm_compute; reflexivity|]. split; [split; vm_compute; reflexivity|].
  split; [intros [H1 H2]; vm_compute in H1, H2; discriminate|]. split; [intros [H1 H2]; vm_compute in H1, H2; discriminate|].
  split; [intros [H1 H2]; vm_compute in H1, H2; discriminate|]. split; [intros [H1 H2]; vm_compute in H1, H2; discriminate|].
  cbn [re im toC].
  assert (Q0 : Q2R 0 = 0) by (unfold Q2R; cbn; lra). assert (Q1 : Q2R 1 = 1) by (unfold Q2R; cbn; lra). assert (Q3 : Q2R (-3) = -3) by (unfold Q2R; cbn; lra).
  assert (Q4 : Q2R (-2) = -2) by (unfold Q2R; cbn; lra). rewrite Q0, Q1, Q3. split; [|lra].
  unfold setCross, nodes, toC. cbn [cre cim re im]. rewrite Q0, Q1, Q3, Q4.
  destruct (Rle_dec (0 * -3) 0); [|lra]. destruct (Rle_dec (-3 * -2) 0); [lra|]. destruct (Rle_dec (-2 * 1) 0); [|lra]. destruct (Rle_dec (1 * 0) 0); [|lra].
  reflexivity.
Qed.

(** ** C65: the length *)
Lemma generic_notOpp a b : genericEdge a b -> notOpposite a b. Proof. intros (_ & _ & H). exact H. Qed.
Lemma marked_two h : marked h = true -> (h = 2 \/ h = -2)%Z.
Proof. unfold marked. intros H. apply Bool.orb_true_iff in H. destruct H as [H|H]; apply Z.eqb_eq in H; auto. Qed.
(** one face *)
Lemma face_point (b : bool) c (f : R -> R -> pos) (Q : pos -> Prop) :
  (b = true -> exists u v, c = Some (u, v) /\ Q (f u v)) ->
  exists l, (if b then [bind c (fun d => Some (f (fst d) (snd d)))] else []) = map Some l /\ Forall2 (fun q p => snd q p) (filter fst [(b, Q)]) l.
Proof.
  intros H. destruct b; [|exists []; split; [reflexivity|constructor]].
  destruct (H eq_refl) as (u & v & -> & W). exists [f u v]. split; [reflexivity|]. cbn. constructor; [exact W|constructor].
Qed.
Lemma faces_join (l1 l2 : list (option pos)) (f1 f2 : list (bool * (pos -> Prop))) :
  (exists l, l1 = map Some l /\ Forall2 (fun q p => snd q p) (filter fst f1) l) ->
  (exists l, l2 = map Some l /\ Forall2 (fun q p => snd q p) (filter fst f2) l) ->
  exists l, l1 ++ l2 = map Some l /\ Forall2 (fun q p => snd q p) (filter fst (f1 ++ f2)) l.
Proof.
  intros (a & -> & A) (b & -> & B). exists (a ++ b). split; [rewrite map_app; reflexivity|]. rewrite filter_app. apply Forall2_app; assumption.
Qed.
(** the point of a marked face *)
Lemma marked_point a b c d : genericEdge a b -> genericEdge b c -> genericEdge c d -> genericEdge d a -> marked (turns a b c d) = true ->
  exists u v, setCross (toC a) (toC b) (toC d) (toC c) = Some (u, v) /\ 0 <= u <= 1 /\ 0 <= v <= 1.
Proof. intros A B C D M. apply string_point_partial; try (apply generic_notOpp; assumption). apply marked_two, M. Qed.
Lemma marked_parity h : (h = -2 \/ h = 0 \/ h = 2)%Z -> exists k, (h = 2 * (if marked h then 1 else 0) + 4 * k)%Z.
Proof. intros [->|[->| ->]]; [exists (-1)%Z|exists 0%Z|exists 0%Z]; reflexivity. Qed.

(** the ends of a cube, given what is known of the point of each face *)
Definition edges4 (a b c d : cplx) : Prop := genericEdge a b /\ genericEdge b c /\ genericEdge c d /\ genericEdge d a.
Definition facePoint (a b c d : cplx) (f : R -> R -> pos) (Q : pos -> Prop) : Prop :=
  edges4 a b c d -> marked (turns a b c d) = true -> forall u v, setCross (toC a) (toC b) (toC d) (toC c) = Some (u, v) -> 0 <= u <= 1 -> 0 <= v <= 1 -> Q (f u v).
Lemma facePoint_ok a b c d f Q : edges4 a b c d -> facePoint a b c d f Q -> marked (turns a b c d) = true ->
  exists u v, setCross (toC a) (toC b) (toC d) (toC c) = Some (u, v) /\ Q (f u v).
Proof. intros E F M. destruct E as (A & B & C & D). destruct (marked_point a b c d A B C D M) as (u & v & S & U & V). exists u, v. split; [exact S|]. apply F; auto. repeat split; assumption || apply A || apply B || apply C || apply D. Qed.
Lemma ends_scheme F Lx Lz z0 ix iy iz (Q1 Q2 Q3 Q4 Q5 Q6 : pos -> Prop) :
  let phi := wrapXY Lx F in let z := INR (z0 + iz) in
  genericSites phi (fun z => z <= Lz)%nat -> (ix < Lx)%nat -> (iy < Lx)%nat -> (iz + 1 < Lz)%nat ->
  facePoint (phi ix iy iz) (phi (ix + 1)%nat iy iz) (phi (ix + 1)%nat (iy + 1)%nat iz) (phi ix (iy + 1)%nat iz) (fun u v => Pos (INR ix + u) (INR iy + v) z) Q1 ->
  facePoint (phi ix iy iz) (phi ix (iy + 1)%nat iz) (phi ix (iy + 1)%nat (iz + 1)%nat) (phi ix iy (iz + 1)%nat) (fun u v => Pos (INR ix) (INR iy + u) (z + v)) Q2 ->
  facePoint (phi ix iy iz) (phi ix iy (iz + 1)%nat) (phi (ix + 1)%nat iy (iz + 1)%nat) (phi (ix + 1)%nat iy iz) (fun u v => Pos (INR ix + v) (INR iy) (z + u)) Q3 ->
  facePoint (phi (ix + 1)%nat iy iz) (phi (ix + 1)%nat (iy + 1)%nat iz) (phi (ix + 1)%nat (iy + 1)%nat (iz + 1)%nat) (phi (ix + 1)%nat iy (iz + 1)%nat)
    (fun u v => Pos (INR ix + 1) (INR iy + u) (z + v)) Q4 ->
  facePoint (phi ix (iy + 1)%nat iz) (phi ix (iy + 1)%nat (iz + 1)%nat) (phi (ix + 1)%nat (iy + 1)%nat (iz + 1)%nat) (phi (ix + 1)%nat (iy + 1)%nat iz)
    (fun u v => Pos (INR ix + v) (INR iy + 1) (z + u)) Q5 ->
  facePoint (phi ix iy (iz + 1)%nat) (phi (ix + 1)%nat iy (iz + 1)%nat) (phi (ix + 1)%nat (iy + 1)%nat (iz + 1)%nat) (phi ix (iy + 1)%nat (iz + 1)%nat)
    (fun u v => Pos (INR ix + u) (INR iy + v) (z + 1)) Q6 ->
  (exists l, ends (fun x y z => toC (F x y z)) (fun x y z => marked (plaqXY phi x y z)) (fun x y z => marked (plaqYZ phi x y z))
      (fun x y z => marked (plaqZX phi x y z)) Lx Lz z0 ix iy iz = map Some l /\
    Forall2 (fun f p => snd f p) (filter fst [(marked (plaqXY phi ix iy iz), Q1); (marked (plaqYZ phi ix iy iz), Q2); (marked (plaqZX phi ix iy iz), Q3);
      (marked (plaqYZ phi (ix + 1)%nat iy iz), Q4); (marked (plaqZX phi ix (iy + 1)%nat iz), Q5); (marked (plaqXY phi ix iy (iz + 1)%nat), Q6)]) l) /\
  edges4 (phi ix iy iz) (phi (ix + 1)%nat iy iz) (phi (ix + 1)%nat (iy + 1)%nat iz) (phi ix (iy + 1)%nat iz) /\
  edges4 (phi ix iy (iz + 1)%nat) (phi (ix + 1)%nat iy (iz + 1)%nat) (phi (ix + 1)%nat (iy + 1)%nat (iz + 1)%nat) (phi ix (iy + 1)%nat (iz + 1)%nat) /\
  (forall x, edges4 (phi x iy iz) (phi x (iy + 1)%nat iz) (phi x (iy + 1)%nat (iz + 1)%nat) (phi x iy (iz + 1)%nat)) /\
  (forall y, edges4 (phi ix y iz) (phi ix y (iz + 1)%nat) (phi (ix + 1)%nat y (iz + 1)%nat) (phi (ix + 1)%nat y iz)).
Proof.
  intros phi zR G HX HY HZ T1 T2 T3 T4 T5 T6.
  assert (L0 : Lx <> 0%nat) by lia. set (xp := ((ix + 1) mod Lx)%nat). set (yp := ((iy + 1) mod Lx)%nat).
  assert (XP : (xp < Lx)%nat) by (apply Nat.mod_upper_bound; exact L0). assert (YP : (yp < Lx)%nat) by (apply Nat.mod_upper_bound; exact L0).
  assert (W : forall x y z, phi (x + 1)%nat y z = phi ((x + 1) mod Lx)%nat y z) by (intros; unfold phi, wrapXY; rewrite Nat.mod_mod by exact L0; reflexivity).
  assert (W' : forall x y z, phi x (y + 1)%nat z = phi x ((y + 1) mod Lx)%nat z) by (intros; unfold phi, wrapXY; rewrite Nat.mod_mod by exact L0; reflexivity).
  assert (IN : forall x y z, (x < Lx)%nat -> (y < Lx)%nat -> F x y z = phi x y z) by (intros x y k A B; unfold phi, wrapXY; rewrite !Nat.mod_small by assumption; reflexivity).
  assert (GX : forall x y z, (z <= Lz)%nat -> genericEdge (phi x y z) (phi (x + 1)%nat y z)) by (intros; apply (G x y z); assumption).
  assert (GY : forall x y z, (z <= Lz)%nat -> genericEdge (phi x y z) (phi x (y + 1)%nat z)) by (intros; apply (G x y z); assumption).
  assert (GZ : forall x y z, (z + 1 <= Lz)%nat -> genericEdge (phi x y z) (phi x y (z + 1)%nat)) by (intros; apply (G x y z); lia).
  assert (PXY : forall z, (z <= Lz)%nat -> let a := phi ix iy z in let b := phi (ix + 1)%nat iy z in let c := phi (ix + 1)%nat (iy + 1)%nat z in let d := phi ix (iy + 1)%nat z in
    genericEdge a b /\ genericEdge b c /\ genericEdge c d /\ genericEdge d a).
  { intros z1 Z. cbv zeta. repeat split; try apply (GX _ _ _ Z); try apply (GY _ _ _ Z); try (apply generic_sym, GX, Z); try (apply generic_sym, GY, Z). }
  assert (PYZ : forall x, let a := phi x iy iz in let b := phi x (iy + 1)%nat iz in let c := phi x (iy + 1)%nat (iz + 1)%nat in let d := phi x iy (iz + 1)%nat in
    genericEdge a b /\ genericEdge b c /\ genericEdge c d /\ genericEdge d a).
  { intros x. cbv zeta. split; [apply GY; lia|]. split; [apply GZ; lia|]. split; [apply generic_sym, GY; lia|apply generic_sym, GZ; lia]. }
  assert (PZX : forall y, let a := phi ix y iz in let b := phi ix y (iz + 1)%nat in let c := phi (ix + 1)%nat y (iz + 1)%nat in let d := phi (ix + 1)%nat y iz in
    genericEdge a b /\ genericEdge b c /\ genericEdge c d /\ genericEdge d a).
  { intros y. cbv zeta. split; [apply GZ; lia|]. split; [apply GX; lia|]. split; [apply generic_sym, GZ; lia|apply generic_sym, GX; lia]. }
  split; [|split; [apply PXY; lia|split; [apply PXY; lia|split; [exact PYZ|exact PZX]]]].
  { unfold ends. fold xp yp. cbv zeta. fold zR.
    assert (LT : (iz <? Lz - 1)%nat = true) by (apply Nat.ltb_lt; lia). rewrite LT.
    rewrite !IN by assumption.
    assert (EX : forall y k, phi xp y k = phi (ix + 1)%nat y k) by (intros; symmetry; apply W).
    assert (EY : forall x k, phi x yp k = phi x (iy + 1)%nat k) by (intros; symmetry; apply W').
    assert (E1 : plaqYZ phi xp iy iz = plaqYZ phi (ix + 1)%nat iy iz) by (unfold plaqYZ; rewrite !EX; reflexivity).
    assert (E2 : plaqZX phi ix yp iz = plaqZX phi ix (iy + 1)%nat iz) by (unfold plaqZX; rewrite !EY; reflexivity).
    rewrite E1, E2, !EX, !EY.
    match goal with |- exists l, _ ++ _ ++ _ ++ _ ++ _ ++ _ = _ /\ Forall2 _ (filter _ [?a; ?b; ?c; ?d; ?e; ?f]) _ => change [a; b; c; d; e; f] with ([a] ++ [b] ++ [c] ++ [d] ++ [e] ++ [f]) end.
    apply faces_join; [|apply faces_join; [|apply faces_join; [|apply faces_join; [|apply faces_join]]]].
    - apply (face_point _ _ (fun u v => Pos (INR ix + u) (INR iy + v) zR)). intros M. apply facePoint_ok; [apply PXY; lia|exact T1|exact M].
    - apply (face_point _ _ (fun u v => Pos (INR ix) (INR iy + u) (zR + v))). intros M. apply facePoint_ok; [apply PYZ|exact T2|exact M].
    - apply (face_point _ _ (fun u v => Pos (INR ix + v) (INR iy) (zR + u))). intros M. apply facePoint_ok; [apply PZX|exact T3|exact M].
    - apply (face_point _ _ (fun u v => Pos (INR ix + 1) (INR iy + u) (zR + v))). intros M. apply facePoint_ok; [apply PYZ|exact T4|exact M].
    - apply (face_point _ _ (fun u v => Pos (INR ix + v) (INR iy + 1) (zR + u))). intros M. apply facePoint_ok; [apply PZX|exact T5|exact M].
    - apply (face_point _ _ (fun u v => Pos (INR ix + u) (INR iy + v) (zR + 1))). intros M. apply facePoint_ok; [apply PXY; lia|exact T6|exact M]. }
Qed.
(** Every cube but those of the last slice of a rank: one end on each face with a string, none on the others, and an even number *)
Theorem cube_ends_partial : forall F Lx Lz z0 ix iy iz,
  let phi := wrapXY Lx F in
  genericSites phi (fun z => z <= Lz)%nat -> (ix < Lx)%nat -> (iy < Lx)%nat -> (iz + 1 < Lz)%nat ->
  let fs := faces phi ix iy iz (INR (z0 + iz)) in
  exists l, ends (fun x y z => toC (F x y z)) (fun x y z => marked (plaqXY phi x y z)) (fun x y z => marked (plaqYZ phi x y z))
      (fun x y z => marked (plaqZX phi x y z)) Lx Lz z0 ix iy iz = map Some l /\
    Forall2 (fun f p => snd f p) (filter fst fs) l /\ (length l = 0 \/ length l = 2 \/ length l = 4 \/ length l = 6)%nat.
Proof.
  intros F Lx Lz z0 ix iy iz phi G HX HY HZ fs.
  assert (FP : forall a b c d f (Q : pos -> Prop), (forall u v, 0 <= u <= 1 -> 0 <= v <= 1 -> Q (f u v)) -> facePoint a b c d f Q) by (intros a b c d f Q K E M u v _ U V; auto).
  destruct (ends_scheme F Lx Lz z0 ix iy iz _ _ _ _ _ _ G HX HY HZ
    (FP _ _ _ _ (fun u v => Pos (INR ix + u) (INR iy + v) (INR (z0 + iz))) (fun p => pz p = INR (z0 + iz) /\ INR ix <= px p <= INR ix + 1 /\ INR iy <= py p <= INR iy + 1) ltac:(intros u v U V; cbn [px py pz]; repeat split; lra))
    (FP _ _ _ _ (fun u v => Pos (INR ix) (INR iy + u) (INR (z0 + iz) + v)) (fun p => px p = INR ix /\ INR iy <= py p <= INR iy + 1 /\ INR (z0 + iz) <= pz p <= INR (z0 + iz) + 1) ltac:(intros u v U V; cbn [px py pz]; repeat split; lra))
    (FP _ _ _ _ (fun u v => Pos (INR ix + v) (INR iy) (INR (z0 + iz) + u)) (fun p => py p = INR iy /\ INR ix <= px p <= INR ix + 1 /\ INR (z0 + iz) <= pz p <= INR (z0 + iz) + 1) ltac:(intros u v U V; cbn [px py pz]; repeat split; lra))
    (FP _ _ _ _ (fun u v => Pos (INR ix + 1) (INR iy + u) (INR (z0 + iz) + v)) (fun p => px p = INR ix + 1 /\ INR iy <= py p <= INR iy + 1 /\ INR (z0 + iz) <= pz p <= INR (z0 + iz) + 1) ltac:(intros u v U V; cbn [px py pz]; repeat split; lra))
    (FP _ _ _ _ (fun u v => Pos (INR ix + v) (INR iy + 1) (INR (z0 + iz) + u)) (fun p => py p = INR iy + 1 /\ INR ix <= px p <= INR ix + 1 /\ INR (z0 + iz) <= pz p <= INR (z0 + iz) + 1) ltac:(intros u v U V; cbn [px py pz]; repeat split; lra))
    (FP _ _ _ _ (fun u v => Pos (INR ix + u) (INR iy + v) (INR (z0 + iz) + 1)) (fun p => pz p = INR (z0 + iz) + 1 /\ INR ix <= px p <= INR ix + 1 /\ INR iy <= py p <= INR iy + 1) ltac:(intros u v U V; cbn [px py pz]; repeat split; lra)))
    as ((l & E & FA) & PX0 & PX1 & PYZ & PZX).
  fold phi in E, FA, PX0, PX1, PYZ, PZX. exists l. split; [exact E|]. split; [exact FA|].
  assert (LEN : length l = length (filter fst fs)) by (symmetry; clear - FA; unfold fs, faces; cbv zeta; induction FA; [reflexivity|]; cbn; congruence). rewrite LEN. clear LEN FA E l.
  assert (V : forall a b c d, edges4 a b c d -> exists k, (turns a b c d = 2 * (if marked (turns a b c d) then 1 else 0) + 4 * k)%Z)
    by (intros a b c d (A & B & C & D); apply marked_parity, turns_values; assumption).
  assert (FLUX : (plaqXY phi ix iy iz - plaqXY phi ix iy (iz + 1) + plaqYZ phi ix iy iz - plaqYZ phi (ix + 1)%nat iy iz + plaqZX phi ix iy iz - plaqZX phi ix (iy + 1)%nat iz = 0)%Z).
  { pose proof (StrProperties.cube phi _ ix iy iz G) as Q. cbv beta in Q. specialize (Q ltac:(lia) ltac:(lia)). lia. }
  destruct (V _ _ _ _ PX0) as [k1 K1]. destruct (V _ _ _ _ (PYZ ix)) as [k2 K2]. destruct (V _ _ _ _ (PZX iy)) as [k3 K3].
  destruct (V _ _ _ _ (PYZ (ix + 1)%nat)) as [k4 K4]. destruct (V _ _ _ _ (PZX (iy + 1)%nat)) as [k5 K5]. destruct (V _ _ _ _ PX1) as [k6 K6].
  unfold fs, faces. cbv zeta. cbn [filter fst].
  fold (plaqXY phi ix iy iz) in K1. fold (plaqYZ phi ix iy iz) in K2. fold (plaqZX phi ix iy iz) in K3. fold (plaqYZ phi (ix + 1) iy iz) in K4.
  fold (plaqZX phi ix (iy + 1) iz) in K5. fold (plaqXY phi ix iy (iz + 1)) in K6.
  clear - FLUX K1 K2 K3 K4 K5 K6.
  destruct (marked (plaqXY phi ix iy iz)); destruct (marked (plaqYZ phi ix iy iz)); destruct (marked (plaqZX phi ix iy iz)); destruct (marked (plaqYZ phi (ix + 1) iy iz));
  destruct (marked (plaqZX phi ix (iy + 1) iz)); destruct (marked (plaqXY phi ix iy (iz + 1))); cbn [length]; lia.
Qed.
Lemma forall_faces (Q : pos -> Prop) (fs : list (bool * (pos -> Prop))) l p : Forall (fun f => snd f = Q) fs -> Forall2 (fun f p => snd f p) (filter fst fs) l -> In p l -> Q p.
Proof.
  intros H. revert l. induction H as [|[b q] fs HQ H IH]; intros l K I; cbn [filter fst] in K.
  - inversion K. subst. destruct I.
  - cbn [snd] in HQ. destruct b; [|apply (IH l); assumption]. inversion K as [|? y ? l' K1 K2]. subst. destruct I as [<-|I]; [exact K1|apply (IH l'); assumption].
Qed.
(** If the field varies linearly over the cube, with its corners off the axes, it vanishes at every end *)
Theorem cube_ends_exact_partial : forall F Lx Lz z0 ix iy iz A B C D,
  let phi := wrapXY Lx F in
  genericSites phi (fun z => z <= Lz)%nat -> (ix < Lx)%nat -> (iy < Lx)%nat -> (iz + 1 < Lz)%nat ->
  affineCube phi ix iy iz A B C D -> (forall i j k, (i <= 1 -> j <= 1 -> k <= 1 -> offAxes (phi (ix + i) (iy + j) (iz + k)))%nat) ->
  exists l, ends (fun x y z => toC (F x y z)) (fun x y z => marked (plaqXY phi x y z)) (fun x y z => marked (plaqYZ phi x y z))
      (fun x y z => marked (plaqZX phi x y z)) Lx Lz z0 ix iy iz = map Some l /\
    Forall (fun p => let dx := px p - INR ix in let dy := py p - INR iy in let dz := pz p - INR (z0 + iz) in
      affineValue (Q2R (re A)) (Q2R (re B)) (Q2R (re C)) (Q2R (re D)) dx dy dz = 0 /\
      affineValue (Q2R (im A)) (Q2R (im B)) (Q2R (im C)) (Q2R (im D)) dx dy dz = 0) l.
Proof.
  intros F Lx Lz z0 ix iy iz A B C D phi G HX HY HZ AF OFF.
  set (Q := fun p => affineValue (Q2R (re A)) (Q2R (re B)) (Q2R (re C)) (Q2R (re D)) (px p - INR ix) (py p - INR iy) (pz p - INR (z0 + iz)) = 0 /\
      affineValue (Q2R (im A)) (Q2R (im B)) (Q2R (im C)) (Q2R (im D)) (px p - INR ix) (py p - INR iy) (pz p - INR (z0 + iz)) = 0).
  assert (VAL : forall i j k, (i <= 1)%nat -> (j <= 1)%nat -> (k <= 1)%nat ->
    Q2R (re (phi (ix + i) (iy + j) (iz + k))%nat) = affineValue (Q2R (re A)) (Q2R (re B)) (Q2R (re C)) (Q2R (re D)) (INR i) (INR j) (INR k) /\
    Q2R (im (phi (ix + i) (iy + j) (iz + k))%nat) = affineValue (Q2R (im A)) (Q2R (im B)) (Q2R (im C)) (Q2R (im D)) (INR i) (INR j) (INR k)).
  { intros i j k I J K. destruct (AF i j k I J K) as [E1 E2]. cbv zeta in E1, E2. apply Qeq_eqR in E1, E2.
    assert (IN : forall n, Q2R (inject_Z (Z.of_nat n)) = INR n) by (intros n; rewrite INR_IZR_INZ; unfold Q2R, inject_Z; cbn; field).
    rewrite !Q2R_plus, !Q2R_mult, !IN in E1, E2. unfold affineValue. auto. }
  assert (FP : forall i0 j0 k0 i1 j1 k1 i2 j2 k2 i3 j3 k3 (f : R -> R -> pos),
    (i0 <= 1 /\ j0 <= 1 /\ k0 <= 1 /\ i1 <= 1 /\ j1 <= 1 /\ k1 <= 1 /\ i2 <= 1 /\ j2 <= 1 /\ k2 <= 1 /\ i3 <= 1 /\ j3 <= 1 /\ k3 <= 1)%nat ->
    (i0 + i2 = i1 + i3 /\ j0 + j2 = j1 + j3 /\ k0 + k2 = k1 + k3)%nat ->
    (forall u v, px (f u v) - INR ix = INR i0 + u * (INR i1 - INR i0) + v * (INR i3 - INR i0) /\
      py (f u v) - INR iy = INR j0 + u * (INR j1 - INR j0) + v * (INR j3 - INR j0) /\
      pz (f u v) - INR (z0 + iz) = INR k0 + u * (INR k1 - INR k0) + v * (INR k3 - INR k0)) ->
    facePoint (phi (ix + i0) (iy + j0) (iz + k0))%nat (phi (ix + i1) (iy + j1) (iz + k1))%nat (phi (ix + i2) (iy + j2) (iz + k2))%nat (phi (ix + i3) (iy + j3) (iz + k3))%nat f Q).
  { intros i0 j0 k0 i1 j1 k1 i2 j2 k2 i3 j3 k3 f (I0 & J0 & K0 & I1 & J1 & K1 & I2 & J2 & K2 & I3 & J3 & K3) (SI & SJ & SK) POS (E1 & E2 & E3 & E4) M u v S U V.
    destruct (VAL i0 j0 k0 I0 J0 K0) as [R0 M0]. destruct (VAL i1 j1 k1 I1 J1 K1) as [R1 M1]. destruct (VAL i2 j2 k2 I2 J2 K2) as [R2 M2]. destruct (VAL i3 j3 k3 I3 J3 K3) as [R3 M3].
    assert (AI : INR i2 = INR i1 + INR i3 - INR i0) by (rewrite <- plus_INR, <- SI, plus_INR; ring).
    assert (AJ : INR j2 = INR j1 + INR j3 - INR j0) by (rewrite <- plus_INR, <- SJ, plus_INR; ring).
    assert (AK : INR k2 = INR k1 + INR k3 - INR k0) by (rewrite <- plus_INR, <- SK, plus_INR; ring).
    destruct (string_point_exact_partial _ _ _ _ (generic_notOpp _ _ E1) (generic_notOpp _ _ E2) (generic_notOpp _ _ E3) (generic_notOpp _ _ E4) (marked_two _ M)) as (x & y & S' & _ & _ & Z1 & Z2);
      [|apply OFF; assumption|apply OFF; assumption|apply OFF; assumption|apply OFF; assumption|].
    - split; apply eqR_Qeq; rewrite !Q2R_plus, ?R0, ?R1, ?R2, ?R3, ?M0, ?M1, ?M2, ?M3; unfold affineValue; rewrite AI, AJ, AK; ring.
    - rewrite S in S'. injection S' as <- <-. destruct (POS u v) as (PX & PY & PZ). unfold Q. rewrite PX, PY, PZ.
      rewrite R0, R1, R3 in Z1. rewrite M0, M1, M3 in Z2. unfold affineValue in *. split; [etransitivity; [|exact Z1]|etransitivity; [|exact Z2]]; ring. }
  pose proof (FP 0 0 0 1 0 0 1 1 0 0 1 0 (fun u v => Pos (INR ix + u) (INR iy + v) (INR (z0 + iz))) ltac:(repeat split; lia) ltac:(lia) ltac:(intros; cbn; repeat split; ring))%nat as F1.
  pose proof (FP 0 0 0 0 1 0 0 1 1 0 0 1 (fun u v => Pos (INR ix) (INR iy + u) (INR (z0 + iz) + v)) ltac:(repeat split; lia) ltac:(lia) ltac:(intros; cbn; repeat split; ring))%nat as F2.
  pose proof (FP 0 0 0 0 0 1 1 0 1 1 0 0 (fun u v => Pos (INR ix + v) (INR iy) (INR (z0 + iz) + u)) ltac:(repeat split; lia) ltac:(lia) ltac:(intros; cbn; repeat split; ring))%nat as F3.
  pose proof (FP 1 0 0 1 1 0 1 1 1 1 0 1 (fun u v => Pos (INR ix + 1) (INR iy + u) (INR (z0 + iz) + v)) ltac:(repeat split; lia) ltac:(lia) ltac:(intros; cbn; repeat split; ring))%nat as F4.
  pose proof (FP 0 1 0 0 1 1 1 1 1 1 1 0 (fun u v => Pos (INR ix + v) (INR iy + 1) (INR (z0 + iz) + u)) ltac:(repeat split; lia) ltac:(lia) ltac:(intros; cbn; repeat split; ring))%nat as F5.
  pose proof (FP 0 0 1 1 0 1 1 1 1 0 1 1 (fun u v => Pos (INR ix + u) (INR iy + v) (INR (z0 + iz) + 1)) ltac:(repeat split; lia) ltac:(lia) ltac:(intros; cbn; repeat split; ring))%nat as F6.
  clear FP VAL. assert (N0 : forall n, (n + 0 = n)%nat) by apply Nat.add_0_r.
  repeat rewrite N0 in F1. repeat rewrite N0 in F2. repeat rewrite N0 in F3. repeat rewrite N0 in F4. repeat rewrite N0 in F5. repeat rewrite N0 in F6.
  destruct (ends_scheme F Lx Lz z0 ix iy iz Q Q Q Q Q Q G HX HY HZ F1 F2 F3 F4 F5 F6) as ((l & E & FA) & _).
  exists l. split; [exact E|]. cbv zeta. apply Forall_forall. intros p I.
  refine (forall_faces Q _ l p _ FA I). repeat constructor.
Qed.
Example cube_ends_case : let F := fun x y _ : nat => match x, y with O, O => sqA | O, _ => sqD | _, O => sqB | _, _ => sqC end in
  genericSites (wrapXY 2 F) (fun z => z <= 4)%nat /\ plaqXY (wrapXY 2 F) 0 0 0 = (-2)%Z.
Proof.
  cbv zeta. split; [|vm_compute; reflexivity]. intros x y z _. unfold wrapXY.
  assert (M : forall n, (n mod 2 = 0 \/ n mod 2 = 1)%nat) by (intros n; pose proof (Nat.mod_upper_bound n 2 ltac:(lia)); lia).
  destruct (M x) as [-> | ->]; destruct (M (x + 1)%nat) as [-> | ->]; destruct (M y) as [-> | ->]; destruct (M (y + 1)%nat) as [-> | ->];
    (split; [|split; [|intros _]]; (split; [intros K; vm_compute in K; discriminate K|split; [intros K; vm_compute in K; discriminate K|
      intros [H1 H2]; vm_compute in H1, H2; discriminate]])).
Qed.
Example cube_ends_exact_case : let F := fun x y _ : nat => match x, y with O, O => sqA | O, _ => sqD | _, O => sqB | _, _ => sqC end in
  affineCube (wrapXY 2 F) 0 0 0 sqA (Cx 3 (-1)) (Cx (-1) 3) (Cx 0 0) /\ (forall i j k, (i <= 1 -> j <= 1 -> k <= 1 -> offAxes (wrapXY 2 F (0 + i) (0 + j) (0 + k)))%nat).
Proof.
  cbv zeta. split.
  - intros i j k I J K. cbv zeta. destruct i as [|[|i]]; [| |lia]; (destruct j as [|[|j]]; [| |lia]); (destruct k as [|[|k]]; [| |lia]); split; vm_compute; reflexivity.
  - intros i j k I J K. destruct i as [|[|i]]; [| |lia]; (destruct j as [|[|j]]; [| |lia]); split; vm_compute; discriminate.
Qed.
(** The length in a cube with no, two or four ends of strings is the mean over all ways to join them *)
Theorem cube_length_partial : forall l, (length l = 2 \/ length l = 4)%nat -> cubeLength l = meanLength l.
Proof.
  intros l [H|H].
  - destruct l as [|a [|b [|c l]]]; try discriminate H. rewrite mean2. cbn. apply dist_euclid.
  - destruct l as [|a [|b [|c [|d [|e l]]]]]; try discriminate H. rewrite mean4. cbn [cubeLength]. rewrite !dist_euclid. reflexivity.
Qed.
Example cube_length_case : cubeLength [Pos 0 0 0; Pos 3 4 0] = 5 /\ meanLength [Pos 0 0 0; Pos 3 4 0] = 5.
Proof.
  assert (E : cubeLength [Pos 0 0 0; Pos 3 4 0] = 5). { cbn. unfold dist. cbn. replace ((3 - 0) * (3 - 0) + (4 - 0) * (4 - 0) + (0 - 0) * (0 - 0)) with (5 * 5) by ring. apply sqrt_square. lra. }
  split; [exact E|]. rewrite <- cube_length_partial by auto. exact E.
Qed.
(** With six ends it is always too short *)
Theorem cube_length_refuted : forall l, length l = 6%nat -> NoDup l -> cubeLength l < meanLength l.
Proof.
  intros l H N. destruct l as [|a [|b [|c [|d [|e [|f [|g l]]]]]]]; try discriminate H.
  unfold meanLength, pairings. cbn [length pairingsUpTo picks map flat_map fst snd app fold_right cubeLength]. rewrite !dist_euclid.
  replace (INR 15) with 15 by (cbn; lra).
  assert (S : 0 < euclid e f). { apply euclid_strict. intros ->. do 4 (apply NoDup_cons_iff in N; destruct N as [_ N]). apply NoDup_cons_iff in N. destruct N as [N _]. apply N. left. reflexivity. }
  pose proof (euclid_pos a b). pose proof (euclid_pos a c). pose proof (euclid_pos a d). pose proof (euclid_pos a e). pose proof (euclid_pos a f).
  pose proof (euclid_pos b c). pose proof (euclid_pos b d). pose proof (euclid_pos b e). pose proof (euclid_pos b f).
  pose proof (euclid_pos c d). pose proof (euclid_pos c e). pose proof (euclid_pos c f). pose proof (euclid_pos d e). pose proof (euclid_pos d f).
  lra.
Qed.
Example cube_length_refuted_case : NoDup (map (fun n => Pos (INR n) 0 0) (seq 0 6)).
Proof. apply FinFun.Injective_map_NoDup; [|apply seq_NoDup]. intros x y E. injection E as E. apply INR_eq, E. Qed.

(** Straight strings along z, the same in every slice: the box, periodic, has P*Lz slices, and every string is P*Lz long. Each
    rank loses one slice of each *)
Theorem straight_strings_refuted : forall P Lx Lz (phi : nat -> nat -> cpx) (k : nat -> nat -> bool), (0 < Lz)%nat ->
  (forall x y, (x < Lx)%nat -> (y < Lx)%nat -> k x y = true ->
    setCross (phi x y) (phi ((x + 1) mod Lx)%nat y) (phi x ((y + 1) mod Lx)%nat) (phi ((x + 1) mod Lx)%nat ((y + 1) mod Lx)%nat) <> None) ->
  stringLength P Lx Lz (fun _ x y _ => phi x y) (fun _ x y _ => k x y) (fun _ _ _ _ => false) (fun _ _ _ _ => false) =
    Some (INR P * (INR Lz - 1) * INR (countSites k Lx)).
Proof.
  intros P Lx Lz phi k HL HC.
  assert (RK : forall z0, rankLength (fun x y _ => phi x y) (fun x y _ => k x y) (fun _ _ _ => false) (fun _ _ _ => false) Lx Lz z0 =
    Some ((INR Lz - 1) * INR (countSites k Lx))).
  { intros z0. unfold rankLength.
    rewrite (flat_some _ (fun iz => flat_map (fun iy => map (fun ix => if k ix iy then if (iz <? Lz - 1)%nat then 1 else 0 else 0) (seq 0 Lx)) (seq 0 Lx))).
    2: { intros iz _. apply flat_some. intros iy IY. rewrite map_map. apply map_ext_in. intros ix IX. apply in_seq in IX, IY.
         unfold ends. cbn [app]. destruct (k ix iy) eqn:K.
         - specialize (HC ix iy ltac:(lia) ltac:(lia) K). destruct (setCross _ _ _ _) as [[u v]|]; [|congruence]. cbn [bind fst snd].
           destruct (iz <? Lz - 1)%nat; cbn [app allSome bind cubeLength]; [|reflexivity]. f_equal. unfold dist. cbn [px py pz].
           match goal with |- sqrt ?e = _ => replace e with (1 * 1) by ring end. apply sqrt_square. lra.
         - destruct (iz <? Lz - 1)%nat; reflexivity. }
    rewrite osum_some. f_equal. rewrite rsum_flat.
    assert (SL : forall c, rsum (flat_map (fun iy => map (fun ix => if k ix iy then c else 0) (seq 0 Lx)) (seq 0 Lx)) = c * INR (countSites k Lx)).
    { intros c. unfold countSites.
      assert (G : forall l1 l2, rsum (flat_map (fun iy => map (fun ix => if k ix iy then c else 0) l1) l2) =
        c * INR (length (filter (fun p => k (snd p) (fst p)) (list_prod l2 l1)))).
      { intros l1 l2. induction l2 as [|y l2 IH]; [cbn; ring|]. cbn [flat_map list_prod]. rewrite rsum_app, IH, filter_app, app_length, plus_INR, Rmult_plus_distr_l.
        f_equal. clear. induction l1 as [|x l1 IH]; [cbn; ring|]. cbn [map filter fst snd rsum fold_right] in *. fold (rsum (map (fun ix => if k ix y then c else 0) l1)).
        rewrite IH. destruct (k x y); cbn [length]; [rewrite S_INR|]; ring. }
      apply G. }
    assert (E : map (fun iz => rsum (flat_map (fun iy => map (fun ix => if k ix iy then if (iz <? Lz - 1)%nat then 1 else 0 else 0) (seq 0 Lx)) (seq 0 Lx))) (seq 0 Lz) =
      map (fun iz => (if (iz <? Lz - 1)%nat then 1 else 0) * INR (countSites k Lx)) (seq 0 Lz)) by (apply map_ext; intros iz; apply SL).
    rewrite E. clear E SL HC. set (n := INR (countSites k Lx)). clearbody n.
    destruct Lz as [|L]; [lia|]. rewrite seq_S, map_app, rsum_app. cbn [Nat.add map].
    replace (S L - 1)%nat with L by lia. rewrite Nat.ltb_irrefl.
    assert (F : map (fun iz => (if (iz <? L)%nat then 1 else 0) * n) (seq 0 L) = map (fun _ => n) (seq 0 L)).
    { apply map_ext_in. intros i I. apply in_seq in I. destruct (i <? L)%nat eqn:B; [ring|]. apply Nat.ltb_ge in B. lia. }
    rewrite F. replace (rsum [0 * n]) with 0 by (cbn; ring). rewrite rsum_const, seq_length, S_INR. ring. }
  unfold stringLength. rewrite (map_ext _ (fun _ : nat => Some ((INR Lz - 1) * INR (countSites k Lx)))) by (intros r; apply RK).
  rewrite <- (map_map (fun _ : nat => (INR Lz - 1) * INR (countSites k Lx)) Some), osum_some, rsum_const, seq_length. f_equal. ring.
Qed.
(** Two straight strings in a box of 2 x 2 sites and 8 slices: 16 long, 14 on one rank, 12 on two *)
Example straight_strings_case :
  let phi x y := Cp (if (x =? y)%nat then 1 else -1) (if (x =? 0)%nat then 2 else -3) in
  let k x y := (y =? 0)%nat in
  (forall x y, (x < 2)%nat -> (y < 2)%nat -> k x y = true ->
    setCross (phi x y) (phi ((x + 1) mod 2)%nat y) (phi x ((y + 1) mod 2)%nat) (phi ((x + 1) mod 2)%nat ((y + 1) mod 2)%nat) <> None) /\
  countSites k 2 = 2%nat.
Proof.
  split; [|reflexivity]. intros x y X Y K. apply Nat.eqb_eq in K. subst y. destruct x as [|[|x]]; [| |lia].
  - cbn. unfold setCross, nodes. cbn [cre cim].
    destruct (Rle_dec (1 * -1) 0); [|lra]. destruct (Rle_dec (-1 * 1) 0); [|lra]. destruct (Rle_dec (1 * -1) 0); [|lra]. cbn [app]. discriminate.
  - cbn. unfold setCross, nodes. cbn [cre cim].
    destruct (Rle_dec (-1 * 1) 0); [|lra]. destruct (Rle_dec (1 * -1) 0); [|lra]. cbn [app]. destruct (Rle_dec (-1 * 1) 0); [|lra]. cbn [app]. discriminate.
Qed.
(** A straight string over S slices is S long whatever the number of ranks; the code says S - P *)
Theorem length_by_ranks_refuted : forall P S phi, (0 < P)%nat -> (0 < S)%nat ->
  setCross (phi 0 0)%nat (phi 1 0)%nat (phi 0 1)%nat (phi 1 1)%nat <> None ->
  stringLength P 2 S (fun _ x y _ => phi x y) (fun _ x y _ => ((x =? 0) && (y =? 0))%nat) (fun _ _ _ _ => false) (fun _ _ _ _ => false) =
    Some (INR (P * S) - INR P).
Proof.
  intros P S phi HP HS H. rewrite (straight_strings_refuted P 2 S phi (fun x y => ((x =? 0) && (y =? 0))%nat) HS).
  - replace (countSites (fun x y : nat => ((x =? 0) && (y =? 0))%nat) 2) with 1%nat by reflexivity. f_equal. rewrite mult_INR. cbn [INR]. ring.
  - intros x y X Y K. apply Bool.andb_true_iff in K. destruct K as [K1 K2]. apply Nat.eqb_eq in K1, K2. subst. exact H.
Qed.

(** ** C66: the speed *)
Lemma sumR_nonneg l : Forall (fun x => 0 <= x) l -> 0 <= sumR l.
Proof. intros H. induction H as [|x l X _ IH]; cbn; [lra|]. unfold sumR in IH. lra. Qed.
Lemma fst_cons_pos (l : list R) : l <> [] -> Forall (fun x => 0 < x) l -> 0 < sumR l.
Proof.
  intros N H. destruct H as [|x l X H]; [congruence|]. cbn. pose proof (sumR_nonneg l) as K. unfold sumR in K. specialize (K ltac:(eapply Forall_impl; [|exact H]; cbn; intros; lra)). lra.
Qed.
Lemma cornerBoost_eq rs hc ms mv : rs <> 0 -> ms <> 0 -> g2v2 rs hc ms mv = cornerBoost rs hc ms mv.
Proof. intros H M. destruct mv as [m v]. unfold g2v2, cornerBoost, boost2, c0. cbn [fst snd]. cbv zeta. field. split; lra. Qed.
Lemma cornerBoost_pos rs hc ms mv : 0 < ms -> 0 <= cornerBoost rs hc ms mv.
Proof.
  intros M. unfold cornerBoost. set (phi := (_, _)). set (dphi := (_, _)). generalize phi dphi. clear phi dphi. intros [a b] [c d]. unfold boost2. cbn [fst snd].
  assert (S : forall x y : R, 0 <= x * x + y * y) by (intros; pose proof (Rle_0_sqr x); pose proof (Rle_0_sqr y); unfold Rsqr in *; lra).
  apply Rplus_le_le_0_compat; [apply Rmult_le_pos|].
  - apply Rmult_le_pos; [apply S|]. left. apply Rinv_0_lt_compat. apply Rmult_lt_0_compat; [exact M|]. apply pow_lt. lra.
  - apply Rplus_le_le_0_compat; [lra|]. apply Rmult_le_pos; [apply S|]. left. apply Rinv_0_lt_compat. apply Rmult_lt_0_compat; [lra|]. apply pow_lt. lra.
  - apply Rmult_le_pos; [apply pow2_ge_0|]. left. apply Rinv_0_lt_compat. apply Rmult_lt_0_compat; [lra|]. apply pow_lt. lra.
Qed.
Lemma squareBoost_eq rs hc ms p : rs <> 0 -> ms <> 0 -> plaqG rs hc ms p = squareBoost rs hc ms p.
Proof. intros H M. destruct p as [[[a b] c] d]. unfold plaqG, squareBoost. rewrite !cornerBoost_eq by assumption. reflexivity. Qed.
Lemma squareBoost_pos rs hc ms p : 0 < ms -> 0 <= squareBoost rs hc ms p.
Proof.
  intros M. destruct p as [[[a b] c] d]. unfold squareBoost. pose proof (cornerBoost_pos rs hc ms a M). pose proof (cornerBoost_pos rs hc ms b M).
  pose proof (cornerBoost_pos rs hc ms c M). pose proof (cornerBoost_pos rs hc ms d M). lra.
Qed.
(** the speed with a given (gamma v)^2 *)
Lemma speed_of x : 0 <= x -> let v := sqrt (x / (1 + x)) in
  0 <= v < 1 /\ lorentz v = sqrt (1 + x) /\ v * v = x / (1 + x) /\ lorentz v * lorentz v = 1 + x.
Proof.
  intros X v. assert (D : 0 <= x / (1 + x)) by (apply Rmult_le_pos; [exact X|left; apply Rinv_0_lt_compat; lra]).
  assert (V : v * v = x / (1 + x)) by (apply sqrt_sqrt, D). assert (P : 0 <= v) by apply sqrt_pos.
  assert (E : 1 - v * v = / (1 + x)) by (rewrite V; field; lra).
  assert (L : lorentz v = sqrt (1 + x)).
  { unfold lorentz. rewrite E; rewrite sqrt_inv. unfold Rdiv. rewrite Rinv_inv. apply Rmult_1_l. }
  assert (I : 0 < / (1 + x)) by (apply Rinv_0_lt_compat; lra).
  split; [split; [exact P|]|].
  - destruct (Rlt_le_dec v 1) as [O|O]; [exact O|]. exfalso. pose proof (Rmult_le_compat 1 v 1 v ltac:(lra) ltac:(lra) O O). lra.
  - split; [exact L|]. split; [exact V|]. rewrite L. apply sqrt_sqrt. lra.
Qed.

(** Mean speed, mean square and mean Lorentz factor are averages weighted by the Lorentz factor, over speeds below that of light *)
Theorem string_speeds_partial : forall rs hc ms ps, rs <> 0 -> 0 < ms -> ps <> [] ->
  exists vs, length vs = length ps /\
    Forall (fun v => 0 <= v < 1) vs /\
    Forall2 (fun v p => lorentz v * lorentz v * (v * v) = squareBoost rs hc ms p) vs ps /\
    let G := sumR (map lorentz vs) in
    stringSpeeds rs hc ms ps = Speeds G (Some (sumR (map (fun v => lorentz v * v) vs) / G)) (Some (sumR (map (fun v => lorentz v * (v * v)) vs) / G))
      (Some (sumR (map (fun v => lorentz v * lorentz v) vs) / G)).
Proof.
  intros rs hc ms ps HR HM HN. set (xs := map (squareBoost rs hc ms) ps).
  assert (X : map (plaqG rs hc ms) ps = xs) by (apply map_ext; intros p; apply squareBoost_eq; lra).
  assert (XP : Forall (fun x => 0 <= x) xs) by (apply Forall_forall; intros x I; apply in_map_iff in I; destruct I as (p & <- & _); apply squareBoost_pos, HM).
  exists (map (fun x => sqrt (x / (1 + x))) xs). split; [unfold xs; rewrite !map_length; reflexivity|]. split; [|split].
  - apply Forall_forall. intros v I. apply in_map_iff in I. destruct I as (x & <- & I). rewrite Forall_forall in XP. apply (speed_of x), XP, I.
  - unfold xs. rewrite map_map. clear - HM. induction ps as [|p ps IH]; cbn [map]; constructor; [|exact IH].
    destruct (speed_of (squareBoost rs hc ms p) (squareBoost_pos rs hc ms p HM)) as (_ & L & V & LL). rewrite LL, V. pose proof (squareBoost_pos rs hc ms p HM). field. lra.
  - cbv zeta. unfold stringSpeeds. rewrite X. rewrite !map_map.
    assert (M : forall f g : R -> R, (forall x, 0 <= x -> f x = g x) -> map f xs = map g xs) by (intros f g E; apply map_ext_in; intros x I; apply E; rewrite Forall_forall in XP; apply XP, I).
    assert (E1 : map (fun x => lorentz (sqrt (x / (1 + x)))) xs = map (fun x => sqrt (1 + x)) xs) by (apply M; intros x P; apply (speed_of x P)).
    assert (E2 : map (fun x => lorentz (sqrt (x / (1 + x))) * sqrt (x / (1 + x))) xs = map (fun x => sqrt (1 + x) * sqrt (x / (1 + x))) xs)
      by (apply M; intros x P; f_equal; apply (speed_of x P)).
    assert (E3 : map (fun x => lorentz (sqrt (x / (1 + x))) * (sqrt (x / (1 + x)) * sqrt (x / (1 + x)))) xs = map (fun x => sqrt (1 + x) * x / (1 + x)) xs).
    { apply M. intros x P. destruct (speed_of x P) as (_ & L & V & _). rewrite L, V. unfold Rdiv. ring. }
    assert (E4 : map (fun x => lorentz (sqrt (x / (1 + x))) * lorentz (sqrt (x / (1 + x)))) xs = map (fun x => 1 + x) xs) by (apply M; intros x P; apply (speed_of x P)).
    rewrite E1, E2, E3, E4. fold sumR.
    assert (GP : 0 < sumR (map (fun x => sqrt (1 + x)) xs)).
    { apply fst_cons_pos; [unfold xs; destruct ps; [congruence|discriminate]|]. apply Forall_forall. intros y I. apply in_map_iff in I. destruct I as (x & <- & I).
      rewrite Forall_forall in XP. specialize (XP x I). apply sqrt_lt_R0. lra. }
    unfold rsum. unfold sumR in *. rewrite !fdiv_ok by lra. reflexivity.
Qed.
(** so the mean speed is below that of light and its square at most the mean square, itself below one *)
Theorem speed_bounds_partial : forall rs hc ms ps, rs <> 0 -> 0 < ms -> ps <> [] ->
  exists g v v2 g2, stringSpeeds rs hc ms ps = Speeds g (Some v) (Some v2) (Some g2) /\
    INR (length ps) <= g /\ 0 <= v < 1 /\ v * v <= v2 < 1 /\ 1 <= g2.
Proof.
  intros rs hc ms ps HR HM HN. destruct (string_speeds_partial rs hc ms ps HR HM HN) as (vs & LE & RG & _ & E). cbv zeta in E.
  do 4 eexists. split; [exact E|]. rewrite <- LE. assert (NV : vs <> []) by (intros ->; destruct ps; [congruence|discriminate LE]). clear - RG NV.
  assert (LG : forall v, 0 <= v < 1 -> 1 <= lorentz v).
  { intros v V. unfold lorentz. pose proof (Rmult_le_pos v v ltac:(lra) ltac:(lra)) as A. pose proof (Rmult_lt_compat_r 1 v 1 ltac:(lra) ltac:(lra)).
    assert (B : v * v < 1) by (pose proof (Rmult_le_compat_l v v 1 ltac:(lra) ltac:(lra)); lra).
    assert (S : 0 < sqrt (1 - v * v) <= 1). { split; [apply sqrt_lt_R0; lra|]. rewrite <- sqrt_1 at 2. apply sqrt_le_1_alt. lra. }
    generalize dependent (sqrt (1 - v * v)). intros q Q. unfold Rdiv. rewrite Rmult_1_l. rewrite <- Rinv_1 at 1. apply Rinv_le_contravar; lra. }
  assert (K : forall l, Forall (fun v => 0 <= v < 1) l -> INR (length l) <= sumR (map lorentz l) /\ 0 <= sumR (map (fun v => lorentz v * v) l) /\
    sumR (map (fun v => lorentz v * v) l) <= sumR (map lorentz l) /\ (l <> [] -> sumR (map (fun v => lorentz v * v) l) < sumR (map lorentz l)) /\
    sumR (map (fun v => lorentz v * (v * v)) l) <= sumR (map (fun v => lorentz v * v) l) /\
    sumR (map lorentz l) <= sumR (map (fun v => lorentz v * lorentz v) l) /\
    forall t, 0 <= sumR (map (fun v => lorentz v * (v * v)) l) - 2 * sumR (map (fun v => lorentz v * v) l) * t + sumR (map lorentz l) * (t * t)).
  { intros l H. induction H as [|v l V H IH]; [cbn; repeat split; try lra; try congruence; intros; lra|].
    cbn [map]. unfold sumR in *. cbn [fold_right length]. rewrite S_INR. destruct IH as (I1 & I2 & I3 & _ & I4 & I5 & I6). specialize (LG v V).
    generalize dependent (lorentz v). intros g G.
    pose proof (Rmult_le_pos g v ltac:(lra) ltac:(lra)) as P1. pose proof (Rmult_lt_compat_l g v 1 ltac:(lra) ltac:(lra)) as P2.
    pose proof (Rmult_le_compat_l (g * v) v 1 P1 ltac:(lra)) as P3. pose proof (Rmult_le_compat_l g 1 g ltac:(lra) G) as P4.
    split; [lra|]. split; [lra|]. split; [lra|]. split; [intros _; lra|]. split; [lra|]. split; [lra|]. intros t. specialize (I6 t).
    pose proof (Rmult_le_pos g ((v - t) * (v - t)) ltac:(lra) (Rle_0_sqr (v - t))) as P5. lra. }
  destruct (K vs RG) as (K1 & K2 & _ & K3 & K4 & K5 & K6). specialize (K3 NV).
  assert (LN : 1 <= INR (length vs)) by (destruct vs; [congruence|]; cbn [length]; rewrite S_INR; pose proof (pos_INR (length vs)); lra).
  set (A := sumR (map lorentz vs)) in *. set (B := sumR (map (fun v => lorentz v * v) vs)) in *.
  set (C := sumR (map (fun v => lorentz v * (v * v)) vs)) in *. set (D := sumR (map (fun v => lorentz v * lorentz v) vs)) in *. clearbody A B C D.
  assert (AP : 0 < A) by lra. assert (LT : forall x, x < A -> x / A < 1) by (intros x H; apply Rmult_lt_reg_r with A; [exact AP|]; unfold Rdiv; rewrite Rmult_assoc, Rinv_l, Rmult_1_l by lra; lra).
  split; [exact K1|]. split; [split; [apply Rmult_le_pos; [exact K2|left; apply Rinv_0_lt_compat, AP]|apply LT, K3]|]. split; [split; [|apply LT; lra]|].
  - specialize (K6 (B / A)). apply Rmult_le_reg_r with A; [exact AP|]. replace (C / A * A) with C by (field; lra). 
    replace (B / A * (B / A) * A) with (B * B / A) by (field; lra). replace (C - 2 * B * (B / A) + A * (B / A * (B / A))) with (C - B * B / A) in K6 by (field; lra). lra.
  - apply Rmult_le_reg_r with A; [exact AP|]. unfold Rdiv. rewrite Rmult_assoc, Rinv_l by lra. lra.
Qed.
Example string_speeds_case : let p := (Cp 0 0, Cp 1 0) in [((p, p), p, p)] <> [] /\ 0 < squareBoost 1 0 1 ((p, p), p, p).
Proof.
  cbv zeta. split; [discriminate|]. unfold squareBoost, cornerBoost, boost2. cbv zeta; cbn [fst snd cre cim]. 
  assert (0 < / (1 * 0.41238 ^ 2)) by (apply Rinv_0_lt_compat; apply Rmult_lt_0_compat; [lra|apply pow_lt; lra]).
  match goal with |- 0 < (?a + _ + _ + _) / 4 => replace a with (/ (1 * 0.41238 ^ 2)) by (field; lra) end. lra.
Qed.
(** No strings, no numbers *)
Theorem string_speeds_refuted : forall rs hc ms, strVel (stringSpeeds rs hc ms []) = None /\ strVel2 (stringSpeeds rs hc ms []) = None /\ strGam (stringSpeeds rs hc ms []) = None.
Proof. intros. unfold stringSpeeds. cbn. unfold fdiv. destruct (Req_EM_T 0 0); [auto|lra]. Qed.

Print Assumptions string_point_partial.
Print Assumptions string_point_exact_partial.
Print Assumptions string_point_refuted.
Print Assumptions string_point_exact_refuted.
Print Assumptions cube_ends_partial.
Print Assumptions cube_ends_exact_partial.
Print Assumptions cube_length_partial.
Print Assumptions cube_length_refuted.
Print Assumptions straight_strings_refuted.
Print Assumptions length_by_ranks_refuted.
Print Assumptions string_speeds_partial.
Print Assumptions speed_bounds_partial.
Print Assumptions string_speeds_refuted.
