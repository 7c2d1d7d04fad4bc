(** What the named initial configurations are supposed to be. *)
From Coq Require Import Reals ZArith Arith.
From Verif Require Import ForceSpec ConserveSpec InitModel InitSpec RandModel.
Open Scope R_scope.

(** The signed distance from a corner, along a side of n points: the nearest image. *)
Definition image (n : nat) (i : nat) (d : Z) : Prop :=
  (exists k : Z, Z.of_nat i = d + k * Z.of_nat n)%Z /\ (2 * Z.abs d <= Z.of_nat n)%Z.
(** Distance squared in physical units between a point and a centre, in a box of side [side]
    with n points. *)
Definition farFrom (side : R) (n : nat) (dx dy dz : Z) : R := (side / INR n) ^ 2 * IZR (dx * dx + dy * dy + dz * dz).
(** Lumps: a Gaussian of width sigma, and the same with long tails. *)
Definition gaussLump (a sigma d2 : R) : R := a * exp (- d2 / (2 * sigma ^ 2)).
Definition tailLump (a sigma d2 : R) : R := a / (1 + d2 / (2 * sigma ^ 2)).
(** The whole box is a cube and every rank has the same number of slices. *)
Definition cube (g : grid) : Prop := (gL g = gRanks g * gZ g)%nat.
(** A loop of string of radius a. In the plane through its axis one sees it as two points;
    the phase at a point is given by the angle between the directions to the two: 0 far
    away, one half turn in the disc. *)
Definition cosSeen (a rho z : R) : R :=
  ((rho + a) * (rho - a) + z * z) / (sqrt ((rho + a) ^ 2 + z ^ 2) * sqrt ((rho - a) ^ 2 + z ^ 2)).
Definition ringPhase (a rho z : R) : R := 3.14159265 * ((1 - cosSeen a rho z) / 2).
(** Signed distance between slice z and height h in a periodic box of n slices. *)
Definition above (n : nat) (z : nat) (h d : R) : Prop := (exists k : Z, d = INR z - h + IZR k * INR n) /\ Rabs d < INR n / 2.
(** A plane wave along x and y (or along three axes). *)
Definition ripple (n : nat) (kx ky kz : R) (x y z : nat) : R := cos (6.2831853 * (kx * INR x + ky * INR y + kz * INR z) / INR n).
