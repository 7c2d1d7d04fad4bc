(** What the length and the speed of strings should be (C64-C66). *)
From Coq Require Import Reals List Arith ZArith QArith Qreals Permutation.
From Verif Require Import StrModel StrSpec LenModel.
Import ListNotations.
Local Open Scope R_scope.

(** The rational field values of the search for strings, as real numbers *)
Definition toC (a : cplx) : cpx := Cp (Q2R (re a)) (Q2R (im a)).
(** No two neighbouring corners on opposite sides of the real axis are opposite in phase *)
Definition notOpposite (a b : cplx) : Prop := ~ (im a * re b - re a * im b == 0 /\ im a * im b < 0)%Q.

(** Points (x, y) of the border of the unit square at which the value, interpolated along the side between its corners, is zero.
    Corner values: p at (0,0), u at (1,0), v at (0,1), w at (1,1) *)
Definition zeroOnBorder (p u v w x y : R) : Prop :=
  (y = 0 /\ 0 <= x <= 1 /\ p + x * (u - p) = 0) \/ (x = 1 /\ 0 <= y <= 1 /\ u + y * (w - u) = 0) \/
  (y = 1 /\ 0 <= x <= 1 /\ v + x * (w - v) = 0) \/ (x = 0 /\ 0 <= y <= 1 /\ p + y * (v - p) = 0).
(** (x, y) is on the line through two different points *)
Definition onLine (x0 y0 x1 y1 x y : R) : Prop :=
  (x0 <> x1 \/ y0 <> y1) /\ (x - x0) * (y1 - y0) = (y - y0) * (x1 - x0).

(** All ways to join the points of a list in pairs *)
Fixpoint picks {A} (l : list A) : list (A * list A) :=
  match l with [] => [] | x :: l => (x, l) :: map (fun p => (fst p, x :: snd p)) (picks l) end.
Fixpoint pairingsUpTo {A} (n : nat) (l : list A) : list (list (A * A)) :=
  match n, l with
  | S n, x :: l => flat_map (fun p => map (cons (x, fst p)) (pairingsUpTo n (snd p))) (picks l)
  | _, [] => [[]]
  | _, _ => []
  end.
Definition pairings {A} (l : list A) : list (list (A * A)) := pairingsUpTo (length l) l.
Definition euclid (a b : pos) : R := sqrt (Rsqr (px a - px b) + Rsqr (py a - py b) + Rsqr (pz a - pz b)).
(** the mean over all pairings of the total length *)
Definition meanLength (l : list pos) : R :=
  fold_right Rplus 0 (map (fun m => fold_right Rplus 0 (map (fun ab => euclid (fst ab) (snd ab)) m)) (pairings l)) / INR (length (pairings l)).

(** The field varies linearly over the plaquette with corners a, b, c, d in the order of the border *)
Definition linearIn (a b c d : cplx) : Prop := (re a + re c == re b + re d /\ im a + im c == im b + im d)%Q.
Definition offAxes (a : cplx) : Prop := (~ re a == 0 /\ ~ im a == 0)%Q.

(** Number of sites (x, y) of a slice for which [k] holds; the list holds the pairs (y, x) *)
Definition countSites (k : nat -> nat -> bool) (Lx : nat) : nat :=
  length (filter (fun p => k (snd p) (fst p)) (list_prod (seq 0 Lx) (seq 0 Lx))).

(** Lorentz factor of a speed *)
Definition lorentz (v : R) : R := 1 / sqrt (1 - v * v).
(** The estimate of (gamma v)^2 at a corner: phi = field over scale factor, dot phi its rate of change in time, M^2 the saxion
    mass squared, k the constant 0.41238:
    |dot phi|^2 / (M^2 k^2) (1 + |phi|^2 / (8 k^2)) + (phi . dot phi)^2 / (4 M^2 k^4) *)
Definition boost2 (k M2 : R) (phi dphi : R * R) : R :=
  let n2 z := fst z * fst z + snd z * snd z in let dot a b := fst a * fst b + snd a * snd b in
  n2 dphi / (M2 * k ^ 2) * (1 + n2 phi / (8 * k ^ 2)) + (dot phi dphi) ^ 2 / (4 * M2 * k ^ 4).
(** phi = m/R and, with conformal velocity v and conformal rate H: dot phi = (v - H m)/R^2 *)
Definition cornerBoost (R_ H M2 : R) (mv : cpx * cpx) : R :=
  boost2 0.41238 M2 (cre (fst mv) / R_, cim (fst mv) / R_)
    ((cre (snd mv) - H * cre (fst mv)) / (R_ * R_), (cim (snd mv) - H * cim (fst mv)) / (R_ * R_)).
(** Mean over the corners *)
Definition squareBoost (R_ H M2 : R) (p : plaq) : R :=
  match p with (a, b, c, d) => (cornerBoost R_ H M2 a + cornerBoost R_ H M2 b + cornerBoost R_ H M2 c + cornerBoost R_ H M2 d) / 4 end.
Definition sumR (l : list R) : R := fold_right Rplus 0 l.

(** The field [F], periodic in x and y with period L *)
Definition wrapXY (L : nat) (F : nat -> nat -> nat -> cplx) (x y z : nat) : cplx := F (x mod L)%nat (y mod L)%nat z.
(** A plaquette is marked if a string passes it *)
Definition marked (h : Z) : bool := ((h =? 2) || (h =? -2))%Z.
(** The six faces of the cube at (x, y, z) of a field, marked or not, with the points of space on each; [Z] is the height of
    slice z in the box *)
Definition faces (phi : nat -> nat -> nat -> cplx) (x y z : nat) (Z : R) : list (bool * (pos -> Prop)) :=
  let inX p := INR x <= px p <= INR x + 1 in let inY p := INR y <= py p <= INR y + 1 in let inZ p := Z <= pz p <= Z + 1 in
  [ (marked (plaqXY phi x y z), fun p => pz p = Z /\ inX p /\ inY p);
    (marked (plaqYZ phi x y z), fun p => px p = INR x /\ inY p /\ inZ p);
    (marked (plaqZX phi x y z), fun p => py p = INR y /\ inX p /\ inZ p);
    (marked (plaqYZ phi (x + 1) y z), fun p => px p = INR x + 1 /\ inY p /\ inZ p);
    (marked (plaqZX phi x (y + 1) z), fun p => py p = INR y + 1 /\ inX p /\ inZ p);
    (marked (plaqXY phi x y (z + 1)), fun p => pz p = Z + 1 /\ inX p /\ inY p) ].

(** Over the cube at (x, y, z) the field is A + (i, j, k) . (B, C, D) at corner (x+i, y+j, z+k) *)
Definition affineCube (phi : nat -> nat -> nat -> cplx) (x y z : nat) (A B C D : cplx) : Prop :=
  forall i j k, (i <= 1)%nat -> (j <= 1)%nat -> (k <= 1)%nat ->
    let q n := inject_Z (Z.of_nat n) in
    (re (phi (x + i)%nat (y + j)%nat (z + k)%nat) == re A + q i * re B + q j * re C + q k * re D)%Q /\
    (im (phi (x + i)%nat (y + j)%nat (z + k)%nat) == im A + q i * im B + q j * im C + q k * im D)%Q.
(** and its value at a distance (dx, dy, dz) from that corner *)
Definition affineValue (A B C D : R) (dx dy dz : R) : R := A + dx * B + dy * C + dz * D.
