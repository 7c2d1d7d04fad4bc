(** Clusters of dense points. *)
From Coq Require Import Arith Relations.

(** Sites (x,y,z) of the local box, numbered row by row. x and y close on themselves; z does not. *)
Definition number (L x y z : nat) : nat := x + L * (y + L * z).
Inductive step1 (L : nat) : nat -> nat -> Prop :=
| step_x x y z : x < L -> y < L -> step1 L (number L x y z) (number L ((x + 1) mod L) y z)
| step_y x y z : x < L -> y < L -> step1 L (number L x y z) (number L x ((y + 1) mod L) z)
| step_z x y z : x < L -> y < L -> step1 L (number L x y z) (number L x y (z + 1)).
(** p and q are neighbours, both dense sites of the box of V sites *)
Definition linked (L V : nat) (dense : nat -> bool) (p q : nat) : Prop :=
  p < V /\ q < V /\ dense p = true /\ dense q = true /\ (step1 L p q \/ step1 L q p).
Definition sameCluster (L V : nat) (dense : nat -> bool) : nat -> nat -> Prop := clos_refl_trans nat (linked L V dense).
