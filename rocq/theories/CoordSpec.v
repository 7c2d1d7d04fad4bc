(** What the file of coordinates should hold. *)
From Coq Require Import List Arith NArith.
From Verif Require Import CoordModel.
Import ListNotations.
(** The coordinates a rank found. *)
Definition coords (r : holder) : list nat := firstn (3 * cnt r) (buf r).
(** Memory of one size on all ranks, enough for what each found. *)
Definition sound (size : nat) (ranks : list holder) : Prop := ranks <> [] /\ forall r, In r ranks -> length (buf r) = size /\ 3 * cnt r <= size.
(** Messages below 2^31 bytes. *)
Definition fits (r : holder) : Prop := (N.of_nat (6 * cnt r) < 2 ^ 31)%N.
(** To write again gives the same. *)
Definition repeatable : Prop := forall size blank ranks f a, sound size ranks -> Forall fits ranks -> writeCo true true true blank ranks = Wrote f a ->
  exists a', writeCo true true true blank a = Wrote f a'.
