(** What reading into a finer grid should give. *)
From Coq Require Import Reals List Arith.
From Verif Require Import ExpandModel.
Import ListNotations.
Local Open Scope R_scope.

(** The field of the file: slice z is with rank z/nz. *)
Definition fileField (nx nz : nat) (s : nat -> nat -> R) (x y z : nat) : R := s (z / nz)%nat (x + nx * (y + nx * (z mod nz)))%nat.
(** n values around a circle, taken linear between them, at place i of N: at i*n/N. *)
Definition linear (n N : nat) (f : nat -> R) (i : nat) : R :=
  let c := (i * n / N)%nat in let t := INR ((i * n) mod N) / INR N in (1 - t) * f c + t * f ((c + 1) mod n)%nat.
Definition trilinear (nx Nx nz Nz : nat) (G : nat -> nat -> nat -> R) (ix iy iz : nat) : R :=
  linear nz Nz (fun z => linear nx Nx (fun y => linear nx Nx (fun x => G x y z) ix) iy) iz.
(** All cells of nx*nx*nz, each once, in some order. *)
Definition allCells (nx nz : nat) (order : list (nat * nat * nat)) : Prop :=
  NoDup order /\ forall x y z, In (x, y, z) order <-> (x < nx /\ y < nx /\ z < nz)%nat.
(** The order of the loop, but slices in order zs: a thread takes whole slices. *)
Definition bySlices (nx : nat) (zs : list nat) : list (nat * nat * nat) :=
  flat_map (fun z => flat_map (fun y => map (fun x => (x, y, z)) (seq 0 nx)) (seq 0 nx)) zs.
(** The finer field is the coarser one between its sites, whatever the sizes and the order. *)
Definition expandRight : Prop := forall K nx nz Nx Nz Ng s m2 order p ix iy iz, (1 <= nx < Nx)%nat -> (1 <= nz < Nz)%nat -> (1 <= Ng)%nat -> (p < K)%nat -> allCells nx nz order ->
  (ix < Nx)%nat -> (iy < Nx)%nat -> (iz < Nz)%nat ->
  expandField K nx nz Nx Nz Ng s m2 order p (ix + Nx * (iy + Nx * iz))%nat = trilinear nx Nx (K * nz) (K * Nz) (fileField nx nz s) ix iy (p * Nz + iz).
