(** Specification vocabulary for the string claims (C22-C26, C52). *)
From Coq Require Import List Arith ZArith QArith Qreals Reals Permutation.
From Verif Require Import FolderModel FolderSpec KernelModel KernelSpec StrModel.
Import ListNotations.
Local Open Scope nat_scope.

(** The field at site (x,y) of storage slice z (periodic in x and y). *)
Definition fieldAt (g : geom) (m : nat -> cplx) (x y z : nat) : cplx :=
  m (cell g (x mod g_n1 g) (y mod g_n1 g) z).

(** Signed passages of the real axis: going from a to b the segment passes from the upper
    to the lower half plane (strictly) or back; +1 if it turns clockwise about 0, else -1. *)
Definition turn (a b : cplx) : Z :=
  if Qltb (im a * im b) 0 then (if Qltb 0 (im a * re b - re a * im b) then 1 else -1)%Z else 0%Z.
(** Sum around a quadrilateral. *)
Definition turns (a b c d : cplx) : Z := (turn a b + turn b c + turn c d + turn d a)%Z.
(** The three plaquettes at a site. *)
Definition plaqXY (phi : nat -> nat -> nat -> cplx) (x y z : nat) : Z :=
  turns (phi x y z) (phi (x + 1) y z) (phi (x + 1) (y + 1) z) (phi x (y + 1) z).
Definition plaqYZ (phi : nat -> nat -> nat -> cplx) (x y z : nat) : Z :=
  turns (phi x y z) (phi x (y + 1) z) (phi x (y + 1) (z + 1)) (phi x y (z + 1)).
Definition plaqZX (phi : nat -> nat -> nat -> cplx) (x y z : nat) : Z :=
  turns (phi x y z) (phi x y (z + 1)) (phi (x + 1) y (z + 1)) (phi (x + 1) y z).

(** The segment from a to b passes through the negative real axis, coming from one open
    half plane and going to the other. *)
Definition crossesNegative (a b : cplx) : Prop :=
  ((im a < 0 /\ 0 < im b) \/ (0 < im a /\ im b < 0))%Q /\
  exists t, (0 < t /\ t < 1 /\ im a + t * (im b - im a) == 0 /\ re a + t * (re b - re a) < 0)%Q.

(** Generic values: none is real, and no two neighbours on opposite sides of the real axis
    are opposite in phase. *)
Definition genericEdge (a b : cplx) : Prop :=
  ~ (im a == 0)%Q /\ ~ (im b == 0)%Q /\ ~ (im a * re b - re a * im b == 0 /\ im a * im b < 0)%Q.

(** Phases around a closed quadrilateral: t0 .. t4 are phases of a, b, c, d and again a,
    chosen so that each step is less than half a turn. Then w is the winding number. *)
Definition hasPhase (a : cplx) (t : R) : Prop :=
  exists r : R, (0 < r)%R /\ Q2R (re a) = (r * cos t)%R /\ Q2R (im a) = (r * sin t)%R.
Definition winds (a b c d : cplx) (w : Z) : Prop :=
  exists t0 t1 t2 t3 t4 : R,
    hasPhase a t0 /\ hasPhase b t1 /\ hasPhase c t2 /\ hasPhase d t3 /\ hasPhase a t4 /\
    (Rabs (t1 - t0) < PI /\ Rabs (t2 - t1) < PI /\ Rabs (t3 - t2) < PI /\ Rabs (t4 - t3) < PI)%R /\
    (t4 = t0 + 2 * PI * IZR w)%R.

(** Sums. *)
Definition zsum (n : nat) (f : nat -> Z) : Z := fold_right Z.add 0%Z (map f (seq 0 n)).
Definition b2z (b : bool) : Z := if b then 1%Z else 0%Z.
Definition isTwo (h : Z) : Z := b2z (h =? 2)%Z.
Definition isMinusTwo (h : Z) : Z := b2z (h =? -2)%Z.

(** Shape of the field and of the run: the lanes of build b divide the side, and the
    threads do every block once, in any order. *)
Definition goodRun (b : isa) (g : geom) (Lz : nat) (order : list nat) : Prop :=
  g_w g = lanes b /\ 0 < g_n1 g /\ g_n1 g mod g_w g = 0 /\ Permutation order (stringOrder b (g_n1 g) Lz).
(** The word of the map for site (x,y,z). *)
Definition wordAt (g : geom) (r : sdata) (x y z : nat) : Z := smap r (x + y * g_n1 g + z * (g_n1 g * g_n1 g)).
(** Signed string numbers of the three plaquettes, read off a word of the map. *)
Definition bit (w i : Z) : Z := b2z (Z.testbit w i).
Definition chiXY (w : Z) : Z := (bit w 0 - bit w 3)%Z.
Definition chiYZ (w : Z) : Z := (bit w 1 - bit w 4)%Z.
Definition chiZX (w : Z) : Z := (bit w 2 - bit w 5)%Z.
Definition overAll (L Lz : nat) (f : nat -> nat -> nat -> Z) : Z :=
  zsum Lz (fun z => zsum L (fun y => zsum L (fun x => f x y z))).

(** Generic field on a grid: all edges in x, y and z between the given slices. *)
Definition genericSites (phi : nat -> nat -> nat -> cplx) (inside : nat -> Prop) : Prop :=
  forall x y z, inside z ->
    genericEdge (phi x y z) (phi (x + 1) y z) /\ genericEdge (phi x y z) (phi x (y + 1) z) /\
    (inside (z + 1) -> genericEdge (phi x y z) (phi x y (z + 1))).

(** A global periodic field of side L and depth T. *)
Definition periodic (L T : nat) (F : nat -> nat -> nat -> cplx) (x y z : nat) : cplx :=
  F (x mod L) (y mod L) (z mod T).
(** Rank r of P holds slices r Lz .. of a global field, with one ghost slice on each side. *)
Definition holdsGlobal (g : geom) (P Lz : nat) (F : nat -> nat -> nat -> cplx) (ms : nat -> nat -> cplx) : Prop :=
  forall r x y z, r < P -> z <= Lz ->
    fieldAt g (ms r) x y (z + 1) = periodic (g_n1 g) (P * Lz) F x y (r * Lz + z).
