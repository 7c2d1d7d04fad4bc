(** Specification vocabulary for C09. A slab is Ng front ghost slices, Lz owned
    slices and Ng back ghost slices of [sl] bytes. *)
From Coq Require Import Arith.
From Verif Require Import GhostModel.

(** Byte i of slice z of the slab of rank r. *)
Definition slab (sl r z i : nat) : bloc := (r, z * sl + i).

(** [m'] is [m] with the k ghost slices next to the owned ones on each side of each
    of the n ranks refreshed from the neighbouring ranks, and nothing else changed.
    The rank before rank r is r-1 (the last rank for r = 0); the one after is r+1
    (rank 0 for the last). *)
Definition ghosts_refreshed {A} (n sl Ng Lz k : nat) (m m' : gmem A) : Prop :=
  (forall r z i, r < n -> z < k -> i < sl ->
     m' (slab sl r (Ng - k + z) i) = m (slab sl (if r =? 0 then n - 1 else r - 1) (Ng + Lz - k + z) i) /\
     m' (slab sl r (Ng + Lz + z) i) = m (slab sl (if r =? n - 1 then 0 else r + 1) (Ng + z) i)) /\
  (forall l, (forall r z i, r < n -> z < k -> i < sl ->
                l <> slab sl r (Ng - k + z) i /\ l <> slab sl r (Ng + Lz + z) i) -> m' l = m l).
