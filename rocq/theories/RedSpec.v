(** What a reduced grid and a projection should be. *)
From Coq Require Import List Arith ZArith QArith Qabs Qminmax.
From Verif Require Import RedModel.
Local Open Scope nat_scope.

(** linear interpolation: the weight of a site at distance d (in sites) *)
Definition tent (d : Q) : Q := Qmax 0 (1 - Qabs d).
(** the position of coarse site i among L fine sites when L is reduced to n *)
Definition place (L n i : nat) : Q := (inject_Z (Z.of_nat i) * (inject_Z (Z.of_nat L) / inject_Z (Z.of_nat n)))%Q.
Definition weight (L n i p : nat) : Q := tent (place L n i - inject_Z (Z.of_nat p)).
(** the reduced value at (ix,iy,iz): sum over all fine sites *)
Definition reducedAt (Lx Lz nLx nLz : nat) (f : nat -> Q) (ix iy iz : nat) : Q :=
  sumN Lz (fun z => sumN Lx (fun y => sumN Lx (fun x =>
    weight Lx nLx ix x * weight Lx nLx iy y * weight Lz nLz iz z * f (x + Lx * (y + Lx * z))%nat)))%Q.
