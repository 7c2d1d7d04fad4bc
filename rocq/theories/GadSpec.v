(** What the Gadget writer should put into its file. *)
From Coq Require Import Reals List Arith ZArith.
From Verif Require Import GadModel.
Import ListNotations.
Open Scope R_scope.

(** The sites of a cubic grid, x fastest. *)
Definition cubeSites (n : nat) : list (nat * nat * nat) :=
  flat_map (fun z => flat_map (fun y => map (fun x => (x, y, z)) (seq 0 n)) (seq 0 n)) (seq 0 n).
Definition sumL {A} (f : A -> R) (l : list A) : R := fold_right (fun x a => f x + a) 0 l.
(** The particle of a site: at the site, with the part of the mass of the box that the density
    of the site gives it. *)
Definition siteParticle (n : nat) (L M : R) (den : nat * nat * nat -> R) (c : nat * nat * nat) : gpart :=
  let '(x, y, z) := c in
  {| gX := INR x * L / INR n; gY := INR y * L / INR n; gZ := INR z * L / INR n; gM := M * den c / sumL den (cubeSites n) |}.
(** A run that makes sense: an even cube shared equally among the ranks, and some matter in it. *)
Definition fairVoid (v : vrun) : Prop :=
  (0 < vRanks v)%nat /\ (0 < vN v)%nat /\ Nat.Even (vN v) /\ (vN v mod vRanks v = 0)%nat /\ 0 < vBox v /\ sumL (vDen v) (cubeSites (vN v)) <> 0.
(** The product of the three sides fits in 32 bits. *)
Definition smallCube (n : nat) : Prop := (Z.of_nat n * Z.of_nat n * Z.of_nat n < 2 ^ 32)%Z.
(** Mass in the file. *)
Definition fileMass (f : list (option gpart)) : R := sumL (fun p => match p with Some q => gM q | None => 0 end) f.
(** The sites a list of counts stands for, from site a on. *)
Definition expandAll (n : nat) (cnt : nat -> nat) (a m : nat) : list (nat * nat * nat) :=
  flat_map (fun j => repeat (coordOf n j) (cnt j)) (seq a m).
(** A coordinate inside the box, and the one it stands for in the periodic box. *)
Definition inBox (L x : R) : Prop := 0 <= x <= L.
Definition sameMod (L x y : R) : Prop := exists k : Z, x = y + IZR k * L.
(** The site one step up in the directions asked for, in a box periodic in x and y. *)
Definition upSite (n x y z : nat) (a b c : bool) : nat :=
  (((x + if a then 1 else 0) mod n) + n * (((y + if b then 1 else 0) mod n) + n * (z + if c then 1 else 0)))%nat.
(** The velocity, in km/s, of matter whose phase grows by k per unit of comoving length at
    scale factor a and mass m: v = k / (a m) c. *)
Definition truVel (k a m : R) : R := k / (a * m) * 299792.458.
