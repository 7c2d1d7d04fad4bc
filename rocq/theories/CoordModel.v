(** Model of writeStringCo (lib/io/readWrite.pHdf5.cpp:2474-2648): the coordinates of strings of all ranks, written by rank 0.

    Memory is a list of unsigned shorts. HDF5 is an array addressed by offset, messages arrive unchanged. Left out: attributes, profiling, files opened on some ranks only.
    A file has one data set of this name: each call here writes to a new file. *)
From Coq Require Import List Arith NArith Bool.
Import ListNotations.

(** What a rank holds: m2 or the string data, and strDen_local (:2488-2514). *)
Record holder := Holder { buf : list nat; cnt : nat }.
Inductive outcome := Nothing | Bad | Wrote (file : list nat) (after : list holder).

(** MPI_Recv into the start of the memory (:2606), H5Dwrite of a slab (:2627). *)
Definition receive (b d : list nat) : list nat := d ++ skipn (length d) b.
Definition writeSlab (file : list nat) (off : nat) (d : list nat) : list nat := firstn off file ++ d ++ skipn (off + length d) file.
(** :2508-2521 and :2609-2613: counts of all ranks, and the sum of those before. *)
Definition total (ranks : list holder) : nat := fold_left (fun t r => t + cnt r) ranks 0.
(** :2591, :2603: the size of a message in bytes is an int. From 2^31 on it is negative, or less than the data: Bad. *)
Definition messageFits (n : nat) : bool := (N.of_nat (6 * n) <? 2 ^ 31)%N.
(** :2588-2629, one turn of the loop. [mem]: the memory of rank 0. None: an error, or memory read or written behind its end. *)
Definition turn (ranks : list holder) (st : option (list nat * list nat)) (i : nat) : option (list nat * list nat) :=
  match st, nth_error ranks i with
  | Some (file, mem), Some r =>
    let n := 3 * cnt r in
    let mem' := if i =? 0 then Some mem
                else if (n <=? length (buf r)) && (n <=? length mem) && messageFits (cnt r) then Some (receive mem (firstn n (buf r))) else None in
    match mem' with
    | None => None
    | Some mem => if n <=? length mem then Some (writeSlab file (3 * total (firstn i ranks)) (firstn n mem), mem) else None
    end
  | _, _ => None
  end.
(** :2474-2648. [ready]: the status of the memory (:2491-2506). [opened]: a file with header (:2535). [blank]: what a new data set holds. *)
Definition writeCo (ready opened rData : bool) (blank : nat) (ranks : list holder) : outcome :=
  if negb ready then Nothing else if negb opened then Nothing else if negb rData then Nothing else
  match ranks with
  | [] => Bad
  | r0 :: others =>
    match fold_left (turn ranks) (seq 0 (length ranks)) (Some (repeat blank (3 * total ranks), buf r0)) with
    | Some (file, mem) => Wrote file (Holder mem (cnt r0) :: others)
    | None => Bad
    end
  end.
