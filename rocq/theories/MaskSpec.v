(** Specification vocabulary for the masking claims (C29, C30). *)
From Coq Require Import List Arith ZArith NArith Permutation.
From Verif Require Import MaskModel.
Import ListNotations.
Local Open Scope nat_scope.

Definition site (L z y x : nat) : nat := L * L * z + L * y + x.
(** Site (x, y, z) of rank r is within the radius of a defect somewhere in the box of P ranks of Lz slices of
    L x L sites, periodic in all directions. *)
Definition within (R2 : Z) (dx dy dz : Z) : Prop := (dx * dx + dy * dy + dz * dz <= R2)%Z.
Definition reaches (n a : nat) (d : Z) (b : nat) : Prop := ((Z.of_nat a + d) mod Z.of_nat n = Z.of_nat b)%Z.
Definition isDefect (D : N) (f : N) : Prop := N.land f D <> 0%N.
Definition nearDefect (P L Lz : nat) (R2 : Z) (D : N) (sds : nat -> nat -> N) (r z y x : nat) : Prop :=
  exists r' z' y' x' dx dy dz, r' < P /\ z' < Lz /\ y' < L /\ x' < L /\ isDefect D (sds r' (site L z' y' x')) /\
    within R2 dx dy dz /\ reaches L x' dx x /\ reaches L y' dy y /\ reaches (P * Lz) (r' * Lz + z') dz (r * Lz + z).
(** The same, with a defect on the same rank and without going around in z. *)
Definition nearOwnDefect (L Lz : nat) (R2 : Z) (D : N) (sd : nat -> N) (z y x : nat) : Prop :=
  exists z' y' x' dx dy dz, z' < Lz /\ y' < L /\ x' < L /\ isDefect D (sd (site L z' y' x')) /\
    within R2 dx dy dz /\ reaches L x' dx x /\ reaches L y' dy y /\ (Z.of_nat z' + dz = Z.of_nat z)%Z.

(** The slices of the two loops and the cells are shared out completely among the threads of a rank. *)
Definition sharing (L Lz : nat) (R2 : Z) (tm : timing) : Prop :=
  Permutation (concat (tm_border tm)) (borderRange Lz (Z.sqrt R2)) /\
  Permutation (concat (tm_bulk tm)) (bulkRange Lz (Z.sqrt R2)) /\
  Permutation (tm_cells tm) (seq 0 (L * L)).
(** No thread is interrupted between reading and writing a counter: before every step all threads but the one
    chosen have nothing pending. *)
Fixpoint calm (L : nat) (D M : N) (ball : nat -> nat -> nat -> list instr) (s : mstate * (nat -> thread)) (sched : list nat) : Prop :=
  match sched with
  | [] => True
  | i :: sched => (forall j, j <> i -> snd (snd s j) = None) /\ calm L D M ball (step L D M ball s i) sched
  end.
Definition calmBorder (L Lz : nat) (R2 : Z) (D M : N) (tm : timing) (sd : nat -> N) : Prop :=
  calm L D M (ballBorder L Lz R2 (Z.sqrt R2))
    (MS sd (fun _ => 0) (fun _ => 0), (fun i => (program L (fun liz => liz mod Lz) (nth i (tm_border tm) []), None)) : nat -> thread) (tm_bsched tm).
