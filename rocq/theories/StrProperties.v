(** Theorems on the search for strings and walls (C22-C26, C52). *)
From Coq Require Import List Arith ZArith QArith Lia Lqa Permutation.
From Verif Require Import Base FolderModel FolderSpec KernelModel KernelSpec StrModel StrSpec StrProofs StrWind StrFlux.
Import ListNotations.
Local Open Scope nat_scope.
Ltac Zify.zify_post_hook ::= idtac.

(** ** C22: what a plaquette counts *)

(** Around corners in general position the count is -2, 0 or 2; the phase has exactly one
    winding number, and the count is minus twice that number. *)
Theorem plaquette_winding_partial : forall a b c d,
  genericEdge a b -> genericEdge b c -> genericEdge c d -> genericEdge d a ->
  (turns a b c d = -2 \/ turns a b c d = 0 \/ turns a b c d = 2)%Z /\
  (exists w, winds a b c d w) /\
  (forall w, winds a b c d w <-> turns a b c d = -2 * w)%Z.
Proof.
  intros a b c d G1 G2 G3 G4.
  assert (E : turns a b c d = stringHand a b c d).
  { rewrite stringHand_edges. unfold turns.
    rewrite !turn_edge by (apply G1 || apply G2 || apply G3 || apply G4). reflexivity. }
  destruct (winds_exists a b c d G1 G2 G3 G4) as [w0 W0].
  split; [ now apply turns_values | ]. split; [ now exists w0 | ].
  intros w. split; intros H.
  - rewrite E. now apply hand_winds.
  - assert (E0 : turns a b c d = (-2 * w0)%Z) by (rewrite E; now apply hand_winds).
    replace w with w0 by lia. exact W0.
Qed.
(** The scalar count needs no condition but that the winding number makes sense: real
    corner values are allowed. *)
Theorem scalar_winding : forall a b c d w, winds a b c d w ->
  stringHand a b c d = (-2 * w)%Z /\ (-1 <= w <= 1)%Z.
Proof. intros a b c d w H. split; [ now apply hand_winds | now apply winds_small in H ]. Qed.
(** Opposite neighbours: the count can be -4, and the plaquette is not flagged. *)
Theorem plaquette_range_refuted : exists a b c d,
  stringHand a b c d = (-4)%Z /\ turns a b c d = (-4)%Z.
Proof. exists (Cx 0 1), (Cx 0 (-1)), (Cx 0 1), (Cx 0 (-1)). vm_compute. auto. Qed.

(** ** C22, C52: the map *)

(** For every build but double precision AVX-512 and every order of the blocks: the seven
    flags of the word of each site say which of its three plaquettes carry a string (bits
    0-2), which an antistring (bits 3-5), and whether one of its three forward edges
    passes through the negative real axis (bit 6); words past the map are untouched; the
    counters are the numbers of strings, strings minus antistrings, and walls.
    Slice z of the map belongs to storage slice z + 1 of the field, which is slice z of the
    rank if there is one ghost slice. *)
Theorem string_map_partial : forall b g m Lz order mp, b <> AVX512d -> goodRun b g Lz order ->
  let phi := fieldAt g m in
  let r := stringRun b (g_n1 g) Lz m order mp in
  (forall x y z, x < g_n1 g -> y < g_n1 g -> z < Lz ->
    let w := wordAt g r x y z in
    (0 <= w < 128)%Z /\
    Z.testbit w 0 = (plaqXY phi x y (z + 1) =? 2)%Z /\ Z.testbit w 3 = (plaqXY phi x y (z + 1) =? -2)%Z /\
    Z.testbit w 1 = (plaqYZ phi x y (z + 1) =? 2)%Z /\ Z.testbit w 4 = (plaqYZ phi x y (z + 1) =? -2)%Z /\
    Z.testbit w 2 = (plaqZX phi x y (z + 1) =? 2)%Z /\ Z.testbit w 5 = (plaqZX phi x y (z + 1) =? -2)%Z /\
    (Z.testbit w 6 = true <->
      crossesNegative (phi x y (z + 1)) (phi (x + 1) y (z + 1)) \/
      crossesNegative (phi x y (z + 1)) (phi x (y + 1) (z + 1)) \/
      crossesNegative (phi x y (z + 1)) (phi x y (z + 2)))) /\
  (forall p, g_n1 g * g_n1 g * Lz <= p -> smap r p = mp p) /\
  nStr r = overAll (g_n1 g) Lz (fun x y z => let w := wordAt g r x y z in
    bit w 0 + bit w 1 + bit w 2 + bit w 3 + bit w 4 + bit w 5)%Z /\
  nChr r = overAll (g_n1 g) Lz (fun x y z => let w := wordAt g r x y z in chiXY w + chiYZ w + chiZX w)%Z /\
  nWll r = overAll (g_n1 g) Lz (fun x y z => bit (wordAt g r x y z) 6).
Proof.
  intros b g m Lz order mp Hb (Hw & H1 & Hd & P) phi r.
  destruct (kernel_events b g m Hb Hw H1 Hd Lz order mp P) as (ord & Pord & E).
  assert (M : forall x y z, x < g_n1 g -> y < g_n1 g -> z < Lz -> wordAt g r x y z = word g m x y (S z)).
  { intros x y z Hx Hy Hz. unfold wordAt, r. rewrite E. cbn [smap].
    change (x + y * g_n1 g + z * (g_n1 g * g_n1 g)) with (mapPos g x y z).
    rewrite (kernel_map b g m Hb Hw H1 Hd Lz ord _ x y z Pord Hx Hy Hz).
    assert (I : mapPos g x y z <? g_n1 g * g_n1 g * Lz = true).
    { apply Nat.ltb_lt. unfold mapPos. revert Hx Hy Hz. generalize (g_n1 g). clear. intros L Hx Hy Hz.
      assert (x + y * L < L * L) by nia. assert (z * (L * L) + L * L <= L * L * Lz) by nia. lia. }
    rewrite I. apply site_word. }
  assert (B : forall x y z, let w := word g m x y z in
    (0 <= w < 128)%Z /\
    Z.testbit w 0 = (plaqXY phi x y z =? 2)%Z /\ Z.testbit w 3 = (plaqXY phi x y z =? -2)%Z /\
    Z.testbit w 1 = (plaqYZ phi x y z =? 2)%Z /\ Z.testbit w 4 = (plaqYZ phi x y z =? -2)%Z /\
    Z.testbit w 2 = (plaqZX phi x y z =? 2)%Z /\ Z.testbit w 5 = (plaqZX phi x y z =? -2)%Z /\
    Z.testbit w 6 = wallAt g m x y z).
  { intros x y z. unfold word. fold phi. cbv zeta. unfold isTwo, isMinusTwo.
    destruct (plaqXY phi x y z =? 2)%Z, (plaqXY phi x y z =? -2)%Z, (plaqYZ phi x y z =? 2)%Z, (plaqYZ phi x y z =? -2)%Z,
      (plaqZX phi x y z =? 2)%Z, (plaqZX phi x y z =? -2)%Z, (wallAt g m x y z); cbn [b2z]; (split; [ lia | repeat split; reflexivity ]). }
  split; [ | split ].
  - intros x y z Hx Hy Hz. cbv zeta. rewrite (M x y z Hx Hy Hz). replace (z + 1) with (S z) by lia. replace (z + 2) with (S z + 1) by lia.
    destruct (B x y (S z)) as (B0 & B1 & B2 & B3 & B4 & B5 & B6 & B7).
    split; [ exact B0 | ]. do 6 (split; [ assumption | ]). rewrite B7. unfold wallAt. fold phi.
    rewrite !Bool.orb_true_iff, !wallb_iff. tauto.
  - intros p Hp. unfold r. rewrite E. cbn [smap]. rewrite (kernel_map_out b g m Hb Hw H1 Hd Lz ord _ p Pord Hp).
    apply Nat.ltb_ge in Hp. now rewrite Hp.
  - assert (N : nStr r = overSites g Lz (siteStr g m) /\ nChr r = overSites g Lz (siteChr g m) /\ nWll r = overSites g Lz (siteWll g m)).
    { unfold r. rewrite E. auto. }
    destruct N as (-> & -> & ->).
    assert (U : forall f f', (forall x y z, x < g_n1 g -> y < g_n1 g -> z < Lz -> f x y (S z) = f' x y z) ->
      overSites g Lz f = overAll (g_n1 g) Lz f').
    { intros f f' H. unfold overSites, overAll. apply zsum_ext. intros z Hz. apply zsum_ext. intros y Hy. apply zsum_ext. intros x Hx. now apply H. }
    split; [ | split ]; apply U; intros x y z Hx Hy Hz; cbv zeta; rewrite (M x y z Hx Hy Hz);
    destruct (B x y (S z)) as (B0 & B1 & B2 & B3 & B4 & B5 & B6 & B7).
    + unfold bit. rewrite B1, B2, B3, B4, B5, B6. unfold siteStr, nHand, isTwo, isMinusTwo. fold phi. lia.
    + unfold chiXY, chiYZ, chiZX, bit. rewrite B1, B2, B3, B4, B5, B6. unfold siteChr, cHand, isTwo, isMinusTwo. fold phi. lia.
    + unfold bit. rewrite B7. reflexivity.
Qed.

(** Double precision with AVX-512: a constant field is full of strings. *)
Theorem avx512_strings_refuted : exists g Lz order,
  goodRun AVX512d g Lz order /\
  let r := stringRun AVX512d (g_n1 g) Lz (fun _ => Cx 1 (-1)) order (fun _ => 0%Z) in
  nStr r = 8%Z.
Proof.
  exists (Geom 4 1 1 4 true), 1, (stringOrder AVX512d 4 1). split.
  - unfold goodRun. cbn [g_w g_n1 lanes]. repeat split; try lia. apply Permutation_refl.
  - vm_compute. reflexivity.
Qed.

(** With two ghost slices the map is shifted by one slice: a string of the first slice of
    the rank is not in the first slice of the map. *)
Theorem ghost_shift_refuted : exists b g Lz order m,
  b <> AVX512d /\ goodRun b g Lz order /\ g_Ng g = 2 /\ g_Lz g = Lz /\
  plaqXY (fun x y z => fieldAt g m x y (z + g_Ng g)) 0 0 0 = (-2)%Z /\
  let r := stringRun b (g_n1 g) Lz m order (fun _ => 0%Z) in
  wordAt g r 0 0 0 = 0%Z.
Proof.
  exists SSEd, (Geom 2 1 2 1 true), 1, (stringOrder SSEd 2 1).
  exists (fun i => if i =? 9 then Cx (-1) 1 else if i =? 10 then Cx 1 (-1) else if i =? 11 then Cx (-1) (-1) else Cx 1 1).
  split; [ discriminate | ]. split; [ | vm_compute; auto ].
  unfold goodRun. cbn [g_w g_n1 lanes]. repeat split; try lia. apply Permutation_refl.
Qed.

(** ** C25: the scalar and the vector count *)

(** Off the real axis both finders count the same around every plaquette, also for
    opposite neighbours. *)
Theorem finder_agreement_partial : forall a b c d,
  ~ (im a == 0)%Q -> ~ (im b == 0)%Q -> ~ (im c == 0)%Q -> ~ (im d == 0)%Q ->
  turns a b c d = stringHand a b c d.
Proof. intros. rewrite stringHand_edges. unfold turns. rewrite !turn_edge by assumption. reflexivity. Qed.
(** On the real axis they do not: here the phase winds once, the scalar finder flags the
    plaquette and the vector finder does not. *)
Theorem finder_agreement_refuted : exists a b c d,
  stringHand a b c d = (-2)%Z /\ turns a b c d = 0%Z /\ stringHand a b c d <> turns a b c d.
Proof. exists (Cx 1 0), (Cx 0 1), (Cx (-1) 0), (Cx 0 (-1)). vm_compute. intuition congruence. Qed.

(** ** C23: no ends inside a cube *)
Lemma chi_map : forall h w (p n : Z), Z.testbit w p = (h =? 2)%Z -> Z.testbit w n = (h =? -2)%Z ->
  (h = -2 \/ h = 0 \/ h = 2)%Z -> (2 * (bit w p - bit w n) = h)%Z.
Proof. intros h w p n Hp Hn [-> | [-> | ->]]; unfold bit; rewrite Hp, Hn; reflexivity. Qed.
Lemma generic_values : forall phi inside x y z, genericSites phi inside -> inside z -> inside (z + 1) ->
  (plaqXY phi x y z = -2 \/ plaqXY phi x y z = 0 \/ plaqXY phi x y z = 2)%Z /\
  (plaqYZ phi x y z = -2 \/ plaqYZ phi x y z = 0 \/ plaqYZ phi x y z = 2)%Z /\
  (plaqZX phi x y z = -2 \/ plaqZX phi x y z = 0 \/ plaqZX phi x y z = 2)%Z.
Proof.
  intros phi inside x y z G I0 I1.
  assert (X : forall x y z, inside z -> genericEdge (phi x y z) (phi (x + 1) y z)) by (intros; now apply G).
  assert (Y : forall x y z, inside z -> genericEdge (phi x y z) (phi x (y + 1) z)) by (intros; now apply G).
  assert (T : forall x y, genericEdge (phi x y z) (phi x y (z + 1))) by (intros; now apply G).
  split; [ | split ]; apply turns_values; (now auto) || (apply generic_sym; now auto).
Qed.
Lemma cube : forall phi inside x y z, genericSites phi inside -> inside z -> inside (z + 1) ->
  (plaqXY phi x y z - plaqXY phi x y (z + 1) + plaqYZ phi x y z - plaqYZ phi (x + 1) y z +
   plaqZX phi x y z - plaqZX phi x (y + 1) z = 0)%Z.
Proof.
  intros phi inside x y z G I0 I1.
  assert (X : forall x y z, inside z -> genericEdge (phi x y z) (phi (x + 1) y z)) by (intros; now apply G).
  assert (Y : forall x y z, inside z -> genericEdge (phi x y z) (phi x (y + 1) z)) by (intros; now apply G).
  assert (T : forall x y, genericEdge (phi x y z) (phi x y (z + 1))) by (intros; now apply G).
  unfold plaqXY, plaqYZ, plaqZX, turns.
  pose proof (turn_anti _ _ (X x y z I0)) as E0.
  pose proof (turn_anti _ _ (X x y (z + 1) I1)) as E1.
  pose proof (turn_anti _ _ (X x (y + 1) z I0)) as E2.
  pose proof (turn_anti _ _ (X x (y + 1) (z + 1) I1)) as E3.
  pose proof (turn_anti _ _ (Y x y z I0)) as E4.
  pose proof (turn_anti _ _ (Y x y (z + 1) I1)) as E5.
  pose proof (turn_anti _ _ (Y (x + 1) y z I0)) as E6.
  pose proof (turn_anti _ _ (Y (x + 1) y (z + 1) I1)) as E7.
  pose proof (turn_anti _ _ (T x y)) as E8.
  pose proof (turn_anti _ _ (T x (y + 1))) as E9.
  pose proof (turn_anti _ _ (T (x + 1) y)) as E10.
  pose proof (turn_anti _ _ (T (x + 1) (y + 1))) as E11.
  lia.
Qed.

Lemma fieldAt_mod : forall g m x y z, 0 < g_n1 g -> fieldAt g m (x mod g_n1 g) (y mod g_n1 g) z = fieldAt g m x y z.
Proof. intros g m x y z H. unfold fieldAt. now rewrite !Nat.mod_mod by lia. Qed.
Lemma fieldAt_modx : forall g m x y z, 0 < g_n1 g -> fieldAt g m (x mod g_n1 g + 1) y z = fieldAt g m (x + 1) y z.
Proof. intros g m x y z H. unfold fieldAt. now rewrite Nat.add_mod_idemp_l by lia. Qed.
Lemma fieldAt_mody : forall g m x y z, 0 < g_n1 g -> fieldAt g m x (y mod g_n1 g + 1) z = fieldAt g m x (y + 1) z.
Proof. intros g m x y z H. unfold fieldAt. now rewrite Nat.add_mod_idemp_l by lia. Qed.
Lemma fieldAt_px : forall g m x y z, 0 < g_n1 g -> fieldAt g m (x mod g_n1 g) y z = fieldAt g m x y z.
Proof. intros g m x y z H. unfold fieldAt. now rewrite Nat.mod_mod by lia. Qed.
Lemma fieldAt_py : forall g m x y z, 0 < g_n1 g -> fieldAt g m x (y mod g_n1 g) z = fieldAt g m x y z.
Proof. intros g m x y z H. unfold fieldAt. now rewrite Nat.mod_mod by lia. Qed.

(** Between two slices of a rank the strings marked on the map have no ends: what enters a
    cube through its six faces leaves it. *)
Theorem cube_flux : forall b g m Lz order mp x y z, b <> AVX512d -> goodRun b g Lz order ->
  genericSites (fieldAt g m) (fun z => 1 <= z <= Lz + 1) ->
  x < g_n1 g -> y < g_n1 g -> z + 1 < Lz ->
  let r := stringRun b (g_n1 g) Lz m order mp in
  let next i := (i + 1) mod g_n1 g in
  (chiXY (wordAt g r x y z) - chiXY (wordAt g r x y (z + 1)) +
   chiYZ (wordAt g r x y z) - chiYZ (wordAt g r (next x) y z) +
   chiZX (wordAt g r x y z) - chiZX (wordAt g r x (next y) z) = 0)%Z.
Proof.
  intros b g m Lz order mp x y z Hb HR G Hx Hy Hz r next.
  destruct (string_map_partial b g m Lz order mp Hb HR) as (W & _).
  assert (H1 : 0 < g_n1 g) by apply HR.
  assert (Nx : forall i, next i < g_n1 g) by (intros; apply Nat.mod_upper_bound; lia).
  assert (C : forall x y z, x < g_n1 g -> y < g_n1 g -> z < Lz ->
    (2 * chiXY (wordAt g r x y z) = plaqXY (fieldAt g m) x y (z + 1))%Z /\
    (2 * chiYZ (wordAt g r x y z) = plaqYZ (fieldAt g m) x y (z + 1))%Z /\
    (2 * chiZX (wordAt g r x y z) = plaqZX (fieldAt g m) x y (z + 1))%Z).
  { intros x' y' z' Hx' Hy' Hz'. destruct (W x' y' z' Hx' Hy' Hz') as (_ & A1 & A2 & A3 & A4 & A5 & A6 & _).
    destruct (generic_values (fieldAt g m) _ x' y' (z' + 1) G) as (V1 & V2 & V3); [ lia | lia | ].
    unfold chiXY, chiYZ, chiZX. split; [ exact (chi_map _ _ 0 3 A1 A2 V1) | ]; split; [ exact (chi_map _ _ 1 4 A3 A4 V2) | exact (chi_map _ _ 2 5 A5 A6 V3) ]. }
  destruct (C x y z Hx Hy ltac:(lia)) as (C1 & C2 & C3).
  destruct (C x y (z + 1) Hx Hy ltac:(lia)) as (C4 & _).
  destruct (C (next x) y z (Nx x) Hy ltac:(lia)) as (_ & C5 & _).
  destruct (C x (next y) z Hx (Nx y) ltac:(lia)) as (_ & _ & C6).
  assert (Q := cube (fieldAt g m) _ x y (z + 1) G). cbv beta in Q. specialize (Q ltac:(lia) ltac:(lia)).
  assert (E5 : plaqYZ (fieldAt g m) (next x) y (z + 1) = plaqYZ (fieldAt g m) (x + 1) y (z + 1)).
  { unfold plaqYZ, next. now rewrite !fieldAt_px by assumption. }
  assert (E6 : plaqZX (fieldAt g m) x (next y) (z + 1) = plaqZX (fieldAt g m) x (y + 1) (z + 1)).
  { unfold plaqZX, next. now rewrite !fieldAt_py by assumption. }
  rewrite E5 in C5. rewrite E6 in C6. lia.
Qed.
(** Opposite neighbours: a string ends inside a cube. *)
Theorem cube_flux_refuted : exists b g m Lz order,
  b <> AVX512d /\ goodRun b g Lz order /\ Lz = 2 /\ g_n1 g = 2 /\
  (forall p, ~ (im (m p) == 0)%Q) /\
  let r := stringRun b (g_n1 g) Lz m order (fun _ => 0%Z) in
  (chiXY (wordAt g r 0 0 0) - chiXY (wordAt g r 0 0 1) +
   chiYZ (wordAt g r 0 0 0) - chiYZ (wordAt g r 1 0 0) +
   chiZX (wordAt g r 0 0 0) - chiZX (wordAt g r 0 1 0) = 1)%Z.
Proof.
  exists SSEd, (Geom 2 2 1 1 true).
  exists (fun p => nth p [Cx 1 1; Cx 1 1; Cx 1 1; Cx 1 1;
    Cx 0 1; Cx (-1) 1; Cx (-1) (-1); Cx 1 1; Cx (-1) 1; Cx 0 (-1); Cx 1 (-1)] (Cx 0 1)).
  exists 2, (stringOrder SSEd 2 2).
  split; [ discriminate | ]. split; [ | split; [ reflexivity | split; [ reflexivity | split ] ] ].
  - unfold goodRun. cbn [g_w g_n1 lanes]. repeat split; try lia. apply Permutation_refl.
  - intros p. do 11 (destruct p as [ | p ]; [ cbn; intros C; discriminate C | ]). intros C.
    rewrite nth_overflow in C by (cbn; lia). discriminate C.
  - vm_compute. reflexivity.
Qed.

(** ** C24: no net chirality *)
Lemma periodic_x : forall L T F y z, periodic L T F L y z = periodic L T F 0 y z.
Proof.
  intros L T F y z. unfold periodic. destruct L as [ | L ]; [ reflexivity | ].
  now rewrite Nat.mod_same, Nat.mod_0_l by lia.
Qed.
Lemma periodic_y : forall L T F x z, periodic L T F x L z = periodic L T F x 0 z.
Proof.
  intros L T F x z. unfold periodic. destruct L as [ | L ]; [ reflexivity | ].
  now rewrite Nat.mod_same, Nat.mod_0_l by lia.
Qed.
Lemma periodic_z : forall L T F x y, periodic L T F x y T = periodic L T F x y 0.
Proof.
  intros L T F x y. unfold periodic. destruct T as [ | T ]; [ reflexivity | ].
  now rewrite Nat.mod_same, Nat.mod_0_l by lia.
Qed.

(** A generic field that is periodic in the whole box: on every lattice plane the signed
    string numbers read off the maps of all ranks add up to zero; so the total chirality
    reported is zero. *)
Theorem plane_chirality_partial : forall b g P Lz F ms orders mps,
  b <> AVX512d -> (forall r, r < P -> goodRun b g Lz (orders r)) ->
  holdsGlobal g P Lz F ms ->
  genericSites (periodic (g_n1 g) (P * Lz) F) (fun _ => True) ->
  let L := g_n1 g in
  let res r := stringRun b L Lz (ms r) (orders r) (mps r) in
  (forall r z, r < P -> z < Lz -> zsum L (fun y => zsum L (fun x => chiXY (wordAt g (res r) x y z))) = 0%Z) /\
  (forall x, x < L -> zsum P (fun r => zsum Lz (fun z => zsum L (fun y => chiYZ (wordAt g (res r) x y z)))) = 0%Z) /\
  (forall y, y < L -> zsum P (fun r => zsum Lz (fun z => zsum L (fun x => chiZX (wordAt g (res r) x y z)))) = 0%Z) /\
  snd (fst (allStr (map res (seq 0 P)))) = 0%Z.
Proof.
  intros b g P Lz F ms orders mps Hb HR HG G L res.
  set (per := periodic L (P * Lz) F) in *.
  assert (GX : forall x y z, genericEdge (per x y z) (per (x + 1) y z)) by (intros; now apply G).
  assert (GY : forall x y z, genericEdge (per x y z) (per x (y + 1) z)) by (intros; now apply G).
  assert (GZ : forall x y z, genericEdge (per x y z) (per x y (z + 1))) by (intros; now apply G).
  assert (C : forall r x y z, r < P -> x < L -> y < L -> z < Lz ->
    (2 * chiXY (wordAt g (res r) x y z) = plaqXY per x y (r * Lz + z))%Z /\
    (2 * chiYZ (wordAt g (res r) x y z) = plaqYZ per x y (r * Lz + z))%Z /\
    (2 * chiZX (wordAt g (res r) x y z) = plaqZX per x y (r * Lz + z))%Z).
  { intros r x y z Hr Hx Hy Hz.
    destruct (string_map_partial b g (ms r) Lz (orders r) (mps r) Hb (HR r Hr)) as (W & _).
    destruct (W x y z Hx Hy Hz) as (_ & A1 & A2 & A3 & A4 & A5 & A6 & _).
    assert (T0 : forall x y, fieldAt g (ms r) x y (z + 1) = per x y (r * Lz + z)) by (intros; apply HG; lia).
    assert (T1 : forall x y, fieldAt g (ms r) x y (z + 1 + 1) = per x y (r * Lz + z + 1)).
    { intros. rewrite (HG r x0 y0 (z + 1) Hr ltac:(lia)). unfold per. f_equal. lia. }
    assert (E1 : plaqXY (fieldAt g (ms r)) x y (z + 1) = plaqXY per x y (r * Lz + z)) by (unfold plaqXY; now rewrite !T0).
    assert (E2 : plaqYZ (fieldAt g (ms r)) x y (z + 1) = plaqYZ per x y (r * Lz + z)) by (unfold plaqYZ; now rewrite !T0, !T1).
    assert (E3 : plaqZX (fieldAt g (ms r)) x y (z + 1) = plaqZX per x y (r * Lz + z)) by (unfold plaqZX; now rewrite !T0, !T1).
    rewrite E1 in A1, A2. rewrite E2 in A3, A4. rewrite E3 in A5, A6.
    destruct (generic_values per _ x y (r * Lz + z) G I I) as (V1 & V2 & V3).
    unfold chiXY, chiYZ, chiZX.
    split; [ exact (chi_map _ _ 0 3 A1 A2 V1) | ]; split; [ exact (chi_map _ _ 1 4 A3 A4 V2) | exact (chi_map _ _ 2 5 A5 A6 V3) ]. }
  assert (SXY : forall r z, r < P -> z < Lz -> zsum L (fun y => zsum L (fun x => chiXY (wordAt g (res r) x y z))) = 0%Z).
  { intros r z Hr Hz.
    enough (2 * zsum L (fun y => zsum L (fun x => chiXY (wordAt g (res r) x y z))) = 0)%Z by lia.
    rewrite zsum_swap, <- zsum_scale.
    rewrite (zsum_ext L _ (fun x => zsum L (fun y => plaqXY per x y (r * Lz + z)))).
    - apply (torus_sum L L (fun x y => per x y (r * Lz + z))); intros; [ apply periodic_x | apply periodic_y | apply GX | apply GY ].
    - intros x Hx. rewrite <- zsum_scale. apply zsum_ext. intros y Hy. now apply C. }
  assert (SYZ : forall x, x < L -> zsum P (fun r => zsum Lz (fun z => zsum L (fun y => chiYZ (wordAt g (res r) x y z)))) = 0%Z).
  { intros x Hx.
    enough (2 * zsum P (fun r => zsum Lz (fun z => zsum L (fun y => chiYZ (wordAt g (res r) x y z)))) = 0)%Z by lia.
    rewrite <- zsum_scale.
    rewrite (zsum_ext P _ (fun r => zsum Lz (fun z => zsum L (fun y => plaqYZ per x y (r * Lz + z))))).
    - pose proof (sum_split (fun Z => zsum L (fun y => plaqYZ per x y Z)) P Lz) as S. rewrite <- !zsum_lsum in S.
      change (zsum (P * Lz) (fun Z => zsum L (fun y => plaqYZ per x y Z)) = zsum P (fun r => zsum Lz (fun z => zsum L (fun y => plaqYZ per x y (r * Lz + z))))) in S.
      rewrite <- S, zsum_swap.
      apply (torus_sum L (P * Lz) (fun y z => per x y z)); intros; [ apply periodic_y | apply periodic_z | apply GY | apply GZ ].
    - intros r Hr. rewrite <- zsum_scale. apply zsum_ext. intros z Hz. rewrite <- zsum_scale. apply zsum_ext. intros y Hy. now apply C. }
  assert (SZX : forall y, y < L -> zsum P (fun r => zsum Lz (fun z => zsum L (fun x => chiZX (wordAt g (res r) x y z)))) = 0%Z).
  { intros y Hy.
    enough (2 * zsum P (fun r => zsum Lz (fun z => zsum L (fun x => chiZX (wordAt g (res r) x y z)))) = 0)%Z by lia.
    rewrite <- zsum_scale.
    rewrite (zsum_ext P _ (fun r => zsum Lz (fun z => zsum L (fun x => plaqZX per x y (r * Lz + z))))).
    - pose proof (sum_split (fun Z => zsum L (fun x => plaqZX per x y Z)) P Lz) as S. rewrite <- !zsum_lsum in S.
      change (zsum (P * Lz) (fun Z => zsum L (fun x => plaqZX per x y Z)) = zsum P (fun r => zsum Lz (fun z => zsum L (fun x => plaqZX per x y (r * Lz + z))))) in S.
      rewrite <- S.
      apply (torus_sum (P * Lz) L (fun z x => per x y z)); intros; [ apply periodic_z | apply periodic_x | apply GZ | apply GX ].
    - intros r Hr. rewrite <- zsum_scale. apply zsum_ext. intros z Hz. rewrite <- zsum_scale. apply zsum_ext. intros x Hx. now apply C. }
  split; [ exact SXY | ]. split; [ exact SYZ | ]. split; [ exact SZX | ].
  assert (Fold : forall l acc, snd (fst (fold_left (fun acc d => let '(s, c, w) := acc in (s + nStr d, c + nChr d, w + nWll d)%Z) l acc)) =
    (snd (fst acc) + fold_right Z.add 0 (map nChr l))%Z).
  { induction l as [ | d l IH ]; intros [[s c] w]; cbn [fold_left map fold_right]; [ cbn; lia | ]. rewrite IH. cbn. lia. }
  unfold allStr. rewrite Fold. cbn [fst snd]. rewrite map_map. change (zsum P (fun r => nChr (res r)) = 0%Z).
  rewrite (zsum_ext P _ (fun r => zsum Lz (fun z => zsum L (fun y => zsum L (fun x => chiXY (wordAt g (res r) x y z)))) +
    (zsum L (fun x => zsum Lz (fun z => zsum L (fun y => chiYZ (wordAt g (res r) x y z)))) +
     zsum L (fun y => zsum Lz (fun z => zsum L (fun x => chiZX (wordAt g (res r) x y z))))))%Z).
  - rewrite !zsum_plus.
    rewrite (zsum_zero P (fun r => zsum Lz _)) by (intros r Hr; apply zsum_zero; intros z Hz; now apply SXY).
    rewrite (zsum_swap P L (fun r x => zsum Lz (fun z => zsum L (fun y => chiYZ (wordAt g (res r) x y z))))).
    rewrite (zsum_zero L) by exact SYZ.
    rewrite (zsum_swap P L (fun r y => zsum Lz (fun z => zsum L (fun x => chiZX (wordAt g (res r) x y z))))).
    rewrite (zsum_zero L) by exact SZX. reflexivity.
  - intros r Hr. destruct (string_map_partial b g (ms r) Lz (orders r) (mps r) Hb (HR r Hr)) as (_ & _ & _ & N & _).
    fold L in N. fold (res r) in N. rewrite N. unfold overAll.
    rewrite (zsum_swap L Lz (fun x z => zsum L (fun y => chiYZ (wordAt g (res r) x y z)))).
    rewrite (zsum_swap L Lz (fun y z => zsum L (fun x => chiZX (wordAt g (res r) x y z)))).
    rewrite <- !zsum_plus. apply zsum_ext. intros z Hz.
    rewrite (zsum_swap L L (fun x y => chiYZ (wordAt g (res r) x y z))).
    rewrite <- !zsum_plus. apply zsum_ext. intros y Hy. rewrite <- !zsum_plus. apply zsum_ext. intros x Hx. lia.
Qed.

(** Opposite neighbours: the planes and the total do not cancel. *)
Theorem plane_chirality_refuted : exists b g P Lz F ms orders,
  b <> AVX512d /\ (forall r, r < P -> goodRun b g Lz (orders r)) /\ holdsGlobal g P Lz F ms /\
  (forall x y z, ~ (im (F x y z) == 0)%Q) /\
  let res r := stringRun b (g_n1 g) Lz (ms r) (orders r) (fun _ => 0%Z) in
  zsum (g_n1 g) (fun y => zsum (g_n1 g) (fun x => chiXY (wordAt g (res 0) x y 0))) = (-4)%Z /\
  snd (fst (allStr (map res (seq 0 P)))) <> 0%Z.
Proof.
  exists SSEd, (Geom 2 1 1 1 true), 1, 1.
  exists (fun x y _ => if (x =? 1) && (y =? 1) then Cx 0 (-1) else Cx 0 1).
  exists (fun _ p => if p mod 4 =? 3 then Cx 0 (-1) else Cx 0 1).
  exists (fun _ => stringOrder SSEd 2 1).
  split; [ discriminate | ]. split; [ | split; [ | split ] ].
  - intros _ _. unfold goodRun. cbn [g_w g_n1 lanes]. repeat split; try lia. apply Permutation_refl.
  - intros r x y z Hr Hz. unfold fieldAt, periodic, cell, vector_pos, g_n2. cbn [g_n1 g_w].
    assert (Hx : x mod 2 < 2) by (apply Nat.mod_upper_bound; lia).
    assert (Hy : y mod 2 < 2) by (apply Nat.mod_upper_bound; lia).
    destruct (x mod 2) as [ | [ | ? ] ]; [ | | lia ]; (destruct (y mod 2) as [ | [ | ? ] ]; [ | | lia ]);
    destruct z as [ | [ | ? ] ]; try lia; reflexivity.
  - intros x y z. destruct ((x =? 1) && (y =? 1)); intros C; discriminate C.
  - vm_compute. split; [ reflexivity | discriminate ].
Qed.

(** ** C26: recorded positions *)
Lemma hits_cases : forall w, (0 <= w < 128)%Z ->
  hits w 9 = (Z.testbit w 0 || Z.testbit w 3) /\ hits w 18 = (Z.testbit w 1 || Z.testbit w 4) /\
  hits w 36 = (Z.testbit w 2 || Z.testbit w 5) /\ hits w 63 = (hits w 9 || hits w 18 || hits w 36).
Proof.
  intros w Hw.
  assert (A : forallb (fun n => let w := Z.of_nat n in
    Bool.eqb (hits w 9) (Z.testbit w 0 || Z.testbit w 3) && Bool.eqb (hits w 18) (Z.testbit w 1 || Z.testbit w 4) &&
    Bool.eqb (hits w 36) (Z.testbit w 2 || Z.testbit w 5) && Bool.eqb (hits w 63) (hits w 9 || hits w 18 || hits w 36)) (seq 0 128) = true) by (vm_compute; reflexivity).
  rewrite forallb_forall in A. specialize (A (Z.to_nat w)). cbv zeta in A. rewrite Z2Nat.id in A by lia.
  rewrite !Bool.andb_true_iff, !Bool.eqb_true_iff in A. destruct A as [[[A1 A2] A3] A4]; [ apply in_seq; lia | ]. auto.
Qed.
Lemma tri_inj : forall a b c a' b' c' : Z, (a, b, c) = (a', b', c') -> a = a' /\ b = b' /\ c = c'.
Proof. intros a b c a' b' c' H. now injection H. Qed.
Lemma u16_small : forall n, (Z.of_nat n < 65536)%Z -> u16 n = Z.of_nat n.
Proof. intros n H. unfold u16. apply Z.mod_small. lia. Qed.
Lemma NoDup_flat_map : forall (A B : Type) (f : A -> list B) l, NoDup l -> (forall a, In a l -> NoDup (f a)) ->
  (forall a a' x, In a l -> In a' l -> In x (f a) -> In x (f a') -> a = a') -> NoDup (flat_map f l).
Proof.
  intros A B f l. induction l as [ | a l IH ]; intros N D S; [ constructor | ].
  inversion N; subst. cbn [flat_map].
  assert (App : forall l1 l2 : list B, NoDup l1 -> NoDup l2 -> (forall x, In x l1 -> ~ In x l2) -> NoDup (l1 ++ l2)).
  { clear. induction l1 as [ | x l1 IH ]; intros l2 N1 N2 H; [ exact N2 | ]. inversion N1; subst. cbn. constructor.
    - rewrite in_app_iff. intros [C | C]; [ contradiction | ]. apply (H x); [ now left | exact C ].
    - apply IH; try assumption. intros y Hy. apply H. now right. }
  apply App.
  - apply D. now left.
  - apply IH; [ assumption | intros; apply D; now right | intros a1 a2 x I1 I2; apply S; now right ].
  - intros x Hx C. apply in_flat_map in C as (a' & Ha' & Hx'). assert (a = a') by (eapply S; eauto; [ now left | now right ]). subst. contradiction.
Qed.

(** Recorded positions in half steps: a string of plaquette XY at (x,y,z) is at
    (2x+1, 2y+1, 2z), and so on, with z counted over the whole box. *)
Definition recorded (g : geom) (phi : nat -> nat -> nat -> cplx) (Lz rank : nat) (p : Z * Z * Z) : Prop :=
  exists x y z, x < g_n1 g /\ y < g_n1 g /\ z < Lz /\
    let X := (2 * Z.of_nat x)%Z in let Y := (2 * Z.of_nat y)%Z in let Zc := (2 * Z.of_nat (z + rank * Lz))%Z in
    (p = (X + 1, Y + 1, Zc)%Z /\ Z.abs (plaqXY phi x y (z + 1)) = 2%Z \/
     p = (X, Y + 1, Zc + 1)%Z /\ Z.abs (plaqYZ phi x y (z + 1)) = 2%Z \/
     p = (X + 1, Y, Zc + 1)%Z /\ Z.abs (plaqZX phi x y (z + 1)) = 2%Z).

(** Boxes of up to 32768 sites a side: whatever the order of the blocks and of the sites,
    every plaquette with a string is recorded exactly once, nothing else is recorded, and
    the number of positions is the number of strings. *)
Theorem string_positions_partial : forall b g m Lz order mp rank sites, b <> AVX512d -> goodRun b g Lz order ->
  (Z.of_nat (g_n1 g) <= 32768)%Z -> (Z.of_nat ((rank + 1) * Lz) <= 32768)%Z ->
  Permutation sites (seq 0 (g_n1 g * g_n1 g * Lz)) ->
  let r := stringRun b (g_n1 g) Lz m order mp in
  let pos := stringPos (g_n1 g) Lz rank (smap r) sites in
  (forall p, In p pos <-> recorded g (fieldAt g m) Lz rank p) /\ NoDup pos /\ Z.of_nat (length pos) = nStr r.
Proof.
  intros b g m Lz order mp rank sites Hb HR HL HZ PS r pos.
  destruct (string_map_partial b g m Lz order mp Hb HR) as (W & _ & N & _). fold r in W, N.
  set (L := g_n1 g) in *. set (phi := fieldAt g m) in *.
  assert (H1 : 0 < L) by apply HR.
  set (P1 := fun x y z => (Z.abs (plaqXY phi x y (z + 1)) =? 2)%Z).
  set (P2 := fun x y z => (Z.abs (plaqYZ phi x y (z + 1)) =? 2)%Z).
  set (P3 := fun x y z => (Z.abs (plaqZX phi x y (z + 1)) =? 2)%Z).
  set (X := fun x : nat => (2 * Z.of_nat x)%Z). set (Zc := fun z => (2 * Z.of_nat (z + rank * Lz))%Z).
  assert (Abs : forall h, ((h =? 2) || (h =? -2) = (Z.abs h =? 2))%Z).
  { intros h. apply Bool.eq_iff_eq_true. rewrite Bool.orb_true_iff, !Z.eqb_eq. lia. }
  assert (S : forall x y z, x < L -> y < L -> z < Lz -> sitePos L Lz rank (smap r) (z * (L * L) + (y * L + x)) =
    (if P1 x y z then [(X x + 1, X y + 1, Zc z)%Z] else []) ++
    (if P2 x y z then [(X x, X y + 1, Zc z + 1)%Z] else []) ++
    (if P3 x y z then [(X x + 1, X y, Zc z + 1)%Z] else [])).
  { intros x y z Hx Hy Hz. destruct (W x y z Hx Hy Hz) as (Bw & A1 & A2 & A3 & A4 & A5 & A6 & _).
    unfold wordAt in Bw, A1, A2, A3, A4, A5, A6. fold L in Bw, A1, A2, A3, A4, A5, A6.
    replace (x + y * L + z * (L * L)) with (z * (L * L) + (y * L + x)) in Bw, A1, A2, A3, A4, A5, A6 by lia.
    set (i := z * (L * L) + (y * L + x)) in *.
    destruct (hits_cases _ Bw) as (E1 & E2 & E3 & E4).
    rewrite A1, A2, Abs in E1. rewrite A3, A4, Abs in E2. rewrite A5, A6, Abs in E3.
    fold (P1 x y z) in E1. fold (P2 x y z) in E2. fold (P3 x y z) in E3.
    unfold sitePos. rewrite E4, E1, E2, E3.
    assert (D1 : i / L = z * L + y).
    { unfold i. symmetry. apply Nat.div_unique with x; [ exact Hx | ]. lia. }
    assert (D2 : (z * L + y) / L = z) by (symmetry; apply Nat.div_unique with y; [ exact Hy | lia ]).
    rewrite D1, D2.
    replace (z * L + y - z * L) with y by lia. replace (i - (z * L + y) * L) with x by (unfold i; lia).
    assert (Bz : (Z.of_nat (z + rank * Lz) < 32768)%Z).
    { assert (z + rank * Lz < (rank + 1) * Lz) by lia. lia. }
    rewrite !u16_small by lia.
    unfold X, Zc.
    replace (Z.of_nat (x * 2 + 1)) with (2 * Z.of_nat x + 1)%Z by lia. replace (Z.of_nat (y * 2 + 1)) with (2 * Z.of_nat y + 1)%Z by lia.
    replace (Z.of_nat ((z + rank * Lz) * 2)) with (2 * Z.of_nat (z + rank * Lz))%Z by lia.
    replace (Z.of_nat ((z + rank * Lz) * 2 + 1)) with (2 * Z.of_nat (z + rank * Lz) + 1)%Z by lia.
    replace (Z.of_nat (x * 2)) with (2 * Z.of_nat x)%Z by lia. replace (Z.of_nat (y * 2)) with (2 * Z.of_nat y)%Z by lia.
    destruct (P1 x y z), (P2 x y z), (P3 x y z); reflexivity. }
  assert (Dec : forall i, In i sites -> exists x y z, x < L /\ y < L /\ z < Lz /\ i = z * (L * L) + (y * L + x)).
  { intros i Hi. apply (Permutation_in _ PS), in_seq in Hi.
    exists (i mod L), ((i / L) mod L), (i / L / L).
    split; [ apply Nat.mod_upper_bound; lia | ]. split; [ apply Nat.mod_upper_bound; lia | ]. split.
    - apply Nat.div_lt_upper_bound; [ lia | ]. apply Nat.div_lt_upper_bound; lia.
    - rewrite (Nat.div_mod i L) at 1 by lia. rewrite (Nat.div_mod (i / L) L) at 1 by lia. ring. }
  assert (Enc : forall x y z, x < L -> y < L -> z < Lz -> In (z * (L * L) + (y * L + x)) sites).
  { intros x y z Hx Hy Hz. apply (Permutation_in _ (Permutation_sym PS)), in_seq.
    assert (y * L + x < L * L) by (revert Hx Hy; clear; nia).
    assert (z * (L * L) + L * L <= L * L * Lz) by (revert Hz; clear; nia). lia. }
  assert (InS : forall x y z p, x < L -> y < L -> z < Lz -> In p (sitePos L Lz rank (smap r) (z * (L * L) + (y * L + x))) <->
    (p = (X x + 1, X y + 1, Zc z)%Z /\ P1 x y z = true \/ p = (X x, X y + 1, Zc z + 1)%Z /\ P2 x y z = true \/
     p = (X x + 1, X y, Zc z + 1)%Z /\ P3 x y z = true)).
  { intros x y z p Hx Hy Hz. rewrite S by assumption. rewrite !in_app_iff.
    destruct (P1 x y z), (P2 x y z), (P3 x y z); cbn [In]; intuition congruence. }
  split; [ | split ].
  - intros p. unfold pos, stringPos. rewrite in_flat_map. split.
    + intros (i & Hi & Hp). destruct (Dec i Hi) as (x & y & z & Hx & Hy & Hz & ->).
      apply InS in Hp; try assumption. exists x, y, z. do 3 (split; [ assumption | ]). cbv zeta.
      unfold P1, P2, P3, X, Zc in Hp. rewrite !Z.eqb_eq in Hp. exact Hp.
    + intros (x & y & z & Hx & Hy & Hz & Hp). exists (z * (L * L) + (y * L + x)). split; [ now apply Enc | ].
      apply InS; try assumption. unfold P1, P2, P3, X, Zc. rewrite !Z.eqb_eq. exact Hp.
  - apply NoDup_flat_map.
    + apply (Permutation_NoDup (Permutation_sym PS)), seq_NoDup.
    + intros i Hi. destruct (Dec i Hi) as (x & y & z & Hx & Hy & Hz & ->). rewrite S by assumption.
      destruct (P1 x y z), (P2 x y z), (P3 x y z); cbn [app]; repeat constructor; cbn [In];
      intros C; repeat (destruct C as [C | C]); try contradiction; injection C; unfold X, Zc; lia.
    + intros i i' p Hi Hi' Hp Hp'.
      destruct (Dec i Hi) as (x & y & z & Hx & Hy & Hz & ->). destruct (Dec i' Hi') as (x' & y' & z' & Hx' & Hy' & Hz' & ->).
      apply InS in Hp; try assumption. apply InS in Hp'; try assumption.
      assert (E : x = x' /\ y = y' /\ z = z').
      { unfold X, Zc in Hp, Hp'. destruct p as [[a b'] c].
        destruct Hp as [[Hp _] | [[Hp _] | [Hp _]]]; destruct Hp' as [[Hp' _] | [[Hp' _] | [Hp' _]]];
        rewrite Hp in Hp'; apply tri_inj in Hp' as (? & ? & ?); lia. }
      destruct E as (-> & -> & ->). reflexivity.
  - rewrite N. unfold pos, stringPos.
    assert (Len : forall l, Z.of_nat (length (flat_map (sitePos L Lz rank (smap r)) l)) = lsum (fun i => Z.of_nat (length (sitePos L Lz rank (smap r) i))) l).
    { induction l as [ | i l IH ]; [ reflexivity | ]. cbn [flat_map]. rewrite app_length, Nat2Z.inj_add, IH, lsum_cons. reflexivity. }
    rewrite Len, (lsum_perm _ _ _ _ PS). replace (L * L * Lz) with (Lz * (L * L)) by lia. rewrite sum_split.
    unfold overAll. fold L. apply zsum_ext. intros z Hz. rewrite sum_split. apply zsum_ext. intros y Hy. apply zsum_ext. intros x Hx.
    rewrite S by assumption. destruct (W x y z Hx Hy Hz) as (_ & A1 & A2 & A3 & A4 & A5 & A6 & _).
    cbv zeta. unfold bit. rewrite A1, A2, A3, A4, A5, A6.
    assert (Two : forall h, (b2z (h =? 2) + b2z (h =? -2) = b2z (Z.abs h =? 2))%Z).
    { intros h. destruct (Z.eqb_spec h 2), (Z.eqb_spec h (-2)), (Z.eqb_spec (Z.abs h) 2); cbn [b2z]; lia. }
    pose proof (Two (plaqXY phi x y (z + 1))) as T1. pose proof (Two (plaqYZ phi x y (z + 1))) as T2. pose proof (Two (plaqZX phi x y (z + 1))) as T3.
    fold (P1 x y z) in T1. fold (P2 x y z) in T2. fold (P3 x y z) in T3.
    rewrite !app_length. destruct (P1 x y z), (P2 x y z), (P3 x y z); cbn [length b2z Nat.add] in *; lia.
Qed.

(** In a box of more than 32768 sites a side two different plaquettes get the same
    recorded position. *)
Theorem string_positions_refuted : exists (L x : nat) (mp : nat -> Z) p, 0 < x < L /\
  sitePos L 1 0 mp 0 = [p] /\ sitePos L 1 0 mp x = [p].
Proof.
  exists (Z.to_nat 40000), (Z.to_nat 32768), (fun _ => 1%Z), (1, 1, 0)%Z.
  split; [ lia | ]. unfold sitePos. change (hits 1 63) with true. change (hits 1 9) with true. change (hits 1 18) with false. change (hits 1 36) with false.
  cbv iota. rewrite !Nat.div_small by lia.
  split; cbn [app]; f_equal.
Qed.

(** ** Concrete cases *)

(** Four corners around the origin: they are generic and the phase winds once. *)
Example winding_example :
  let a := Cx 1 2 in let b := Cx (-2) 1 in let c := Cx (-1) (-1) in let d := Cx 3 (-1) in
  genericEdge a b /\ genericEdge b c /\ genericEdge c d /\ genericEdge d a /\ turns a b c d = (-2)%Z /\ stringHand a b c d = (-2)%Z.
Proof. unfold genericEdge. cbn [re im]. repeat split; try (intros C; discriminate C); try (intros [C _]; discriminate C). Qed.

(** Side 4, AVX double (two lanes), two ranks of two slices, blocks in reverse order in
    the first rank: the hypotheses of the theorems hold, there are 24 strings, their
    chirality adds up to 0, and 20 sites have walls. *)
Definition exF (x y z : nat) : cplx :=
  Cx (inject_Z (3 * Z.of_nat x - 4)) (inject_Z (3 * Z.of_nat y - 5 + 4 * (Z.of_nat z mod 2) * (Z.of_nat x mod 2)) + (1 # 3)).
Definition exG : geom := Geom 4 2 1 2 true.
Definition exM (r : nat) (p : nat) : cplx :=
  let z := p / 16 in let q := p mod 16 in
  let row := q / 8 in let col := (q mod 8) / 2 in let lane := q mod 2 in
  exF col (row + 2 * lane) ((r * 2 + z + 3) mod 4).
Definition exOrd (r : nat) : list nat := if r =? 0 then rev (stringOrder AVXd 4 2) else stringOrder AVXd 4 2.
Lemma ex_runs : forall r, goodRun AVXd exG 2 (exOrd r).
Proof.
  intros r. unfold goodRun, exOrd. cbn [g_w g_n1 lanes exG]. repeat split; try lia.
  destruct (r =? 0); [ apply Permutation_sym, Permutation_rev | apply Permutation_refl ].
Qed.
Lemma mod4_cases : forall x, x mod 4 = 0 \/ x mod 4 = 1 \/ x mod 4 = 2 \/ x mod 4 = 3.
Proof. intros x. assert (x mod 4 < 4) by (apply Nat.mod_upper_bound; lia). lia. Qed.
Lemma mod4_next : forall x, (x + 1) mod 4 = (x mod 4 + 1) mod 4.
Proof. intros x. now rewrite Nat.add_mod_idemp_l by lia. Qed.
Lemma ex_holds : holdsGlobal exG 2 2 exF exM.
Proof.
  intros r x y z Hr Hz. unfold fieldAt, periodic, cell, vector_pos, g_n2, exG. cbn [g_n1 g_w].
  destruct (mod4_cases x) as [E | [E | [E | E]]]; rewrite E; clear E;
  destruct (mod4_cases y) as [E | [E | [E | E]]]; rewrite E; clear E;
  (destruct r as [ | [ | ? ] ]; [ | | lia ]); (destruct z as [ | [ | [ | ? ] ] ]; [ | | | lia ]); vm_compute; reflexivity.
Qed.
Lemma ex_generic : genericSites (periodic 4 4 exF) (fun _ => True).
Proof.
  intros x y z _. unfold periodic. rewrite (mod4_next x), (mod4_next y), (mod4_next z).
  destruct (mod4_cases x) as [E | [E | [E | E]]]; rewrite E; clear E;
  destruct (mod4_cases y) as [E | [E | [E | E]]]; rewrite E; clear E;
  destruct (mod4_cases z) as [E | [E | [E | E]]]; rewrite E; clear E;
  unfold genericEdge; (split; [ | split ]); try intros _; (split; [ | split ]); intros C; vm_compute in C;
  (discriminate C || (destruct C as [C C']; (discriminate C || discriminate C'))).
Qed.
Example string_map_example :
  let res r := stringRun AVXd 4 2 (exM r) (exOrd r) (fun _ => 0%Z) in
  map (fun x => wordAt exG (res 0) x 1 0) [0; 1; 2; 3] = [64; 76; 0; 33]%Z /\
  allStr (map res (seq 0 2)) = (24, 0, 20)%Z /\
  firstn 3 (stringPos 4 2 1 (smap (res 1)) (seq 0 32)) = [(3, 3, 4); (3, 2, 5); (7, 3, 4)]%Z.
Proof. vm_compute. auto. Qed.

Print Assumptions plaquette_winding_partial.
Print Assumptions scalar_winding.
Print Assumptions string_map_partial.
Print Assumptions avx512_strings_refuted.
Print Assumptions ghost_shift_refuted.
Print Assumptions finder_agreement_partial.
Print Assumptions cube_flux.
Print Assumptions plane_chirality_partial.
Print Assumptions string_positions_partial.
