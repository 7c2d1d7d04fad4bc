(** What the gravitational potential should be. *)
From Coq Require Import Reals List Arith ZArith.
From Verif Require Import KernelModel GravModel.
Import ListNotations.
Local Open Scope R_scope.

(** A grid whose planes are shared evenly, before and after the transform *)
Definition shared (g : gbox) : Prop := (0 < bL g)%nat /\ (0 < bT g)%nat /\ (0 < bRanks g)%nat /\ (bL g mod bRanks g = 0)%nat /\ (bT g mod bRanks g = 0)%nat.
Definition distance0 (n y : nat) : nat := Nat.min y (n - y).
(** After the transform rank r keeps planes of y, each with rows of x for every z: place of a mode, and its momentum squared in units of 2 pi / L *)
Definition modePlace (g : gbox) (yl z x : nat) : nat := ((yl * bT g + z) * (bL g / 2 + 1) + x)%nat.
Definition modeHere (g : gbox) (r yl z x : nat) : Prop := (r < bRanks g /\ yl < bL g / bRanks g /\ z < bT g /\ x <= bL g / 2)%nat.
Definition momentum2 (g : gbox) (r yl z x : nat) : nat :=
  let y := (r * (bL g / bRanks g) + yl)%nat in
  (x ^ 2 + distance0 (bL g) y ^ 2 + distance0 (bT g) z ^ 2)%nat.
Definition times (a : R) (c : cpx) : cpx := (a * fst c, a * snd c).
(** Transforms to and from Fourier space: weighting the modes of a real field by a function of their momentum squared gives
    the modes of a real field; there and back multiplies by the number of sites *)
Definition fourierPair (fwd : (nat -> nat -> R) -> nat -> nat -> cpx) (bck : (nat -> nat -> cpx) -> nat -> nat -> R) (g : gbox) : Prop :=
  forall f (h : nat -> R) A,
    (forall r yl z x, modeHere g r yl z x -> A r (modePlace g yl z x) = times (h (momentum2 g r yl z x)) (fwd f r (modePlace g yl z x))) ->
    forall r yl z x, modeHere g r yl z x ->
      fwd (bck A) r (modePlace g yl z x) = times (INR (bL g * bL g * bT g) * h (momentum2 g r yl z x)) (fwd f r (modePlace g yl z x)).
(** Sum over all sites of all ranks *)
Fixpoint total (n : nat) (f : nat -> R) : R := match n with O => 0 | S k => f k + total k f end.
Definition boxSum (g : gbox) (f : nat -> nat -> R) : R := total (bRanks g) (fun r => total (bL g * bL g * (bT g / bRanks g)) (f r)).
(** Place in m2 of the site (x,y) of slice z in vectors of w: rows y, y + L/w, y + 2L/w ... of the same x side by side *)
Definition vectorPlace (g : gbox) (w x y z : nat) : nat :=
  let rows := (bL g / w)%nat in (bNg g * (bL g * bL g) + z * (bL g * bL g) + (y mod rows) * (bL g * w) + x * w + y / rows)%nat.
(** The points of a slice of the reduced grid, each once, in any order *)
Definition everyPoint (n : nat) (l : list (nat * nat)) : Prop := NoDup l /\ forall y x, In (y, x) l <-> (y < n /\ x < n)%nat.
(** The sum over neighbours at distance 1, 2, ... of a periodic box: the discrete Laplacian with coefficients PC *)
Definition ring (L T d : nat) (f : gsite -> R) (s : gsite) : R :=
  let '(x, y, z) := s in
  f ((x + d) mod L, y, z)%nat + f ((x + (L - d mod L)) mod L, y, z)%nat + f (x, (y + d) mod L, z)%nat + f (x, (y + (L - d mod L)) mod L, z)%nat
  + f (x, y, (z + d) mod T)%nat + f (x, y, (z + (T - d mod T)) mod T)%nat - 6 * f s.
Fixpoint laplacian (L T d : nat) (PC : list R) (f : gsite -> R) (s : gsite) : R :=
  match PC with [] => 0 | c :: q => c * ring L T d f s + laplacian L T (S d) q f s end.
(** A plane wave on the full grid, at real coordinates *)
Definition wave (L T : nat) (kx ky kz : Z) (x y z : R) : cpx :=
  let a := 2 * PI * (IZR kx * x / INR L + IZR ky * y / INR L + IZR kz * z / INR T) in (cos a, sin a).
Definition timesC (a b : cpx) : cpx := (fst a * fst b - snd a * snd b, fst a * snd b + snd a * fst b).
(** Place of a site in rows with two elements to spare, as the transform wants them *)
Definition rowPlace (n x y z : nat) : nat := ((n + 2) * (z * n + y) + x)%nat.
(** Vectors of w sites fit in the rows, there are ghosts, and the factor is a real one *)
Definition fits (g : gbox) (w ref : nat) : Prop := (0 < bL g /\ 0 < w /\ bL g mod w = 0 /\ 1 <= bNg g /\ 2 <= ref)%nat.
