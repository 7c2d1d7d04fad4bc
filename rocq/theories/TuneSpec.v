(** Specification for the tuner: divisors and legal blocks. *)
From Coq Require Import List Arith.
From Verif Require Import TuneModel.
Import ListNotations.

(** The divisors of n greater than k, in increasing order. *)
Definition divisors_above (n k : nat) : list nat := filter (fun d => n mod d =? 0) (seq (k + 1) (n - k)).

(** The blocks to be tried on the CPU, in order, for x = xs, y up to ys and z up to zs:
    with z = 1, y = 2 and then every divisor of ys above 2; with every other divisor z of zs, every divisor
    of ys above 3. *)
Definition cpu_blocks (xs ys zs : nat) : list block :=
  (xs, 2, 1) :: map (fun y => (xs, y, 1)) (divisors_above ys 2)
  ++ flat_map (fun z => map (fun y => (xs, y, z)) (divisors_above ys 3)) (divisors_above zs 1).

(** A block that fits in a grid. *)
Definition inside (b : block) (xs ys zs : nat) : Prop :=
  let '(x, y, z) := b in 1 <= x <= xs /\ 1 <= y <= ys /\ 1 <= z <= zs.
