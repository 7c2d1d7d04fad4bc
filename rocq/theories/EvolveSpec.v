(** Specification for C10: the update of the whole box, which knows nothing about
    ranks, layouts, blocks or messages. A field is a function of (x, y, z) on a box
    of size L x L x T, periodic in the three directions. *)
From Coq Require Import Arith List.
From Verif Require Import Base FolderModel FolderSpec KernelModel KernelSpec EvolveModel.

Definition box (A : Type) := nat -> nat -> nat -> A.

Definition box_nbr {A} (L T : nat) (M : box A) (x y z : nat) (n : nat) (d : dir) : A :=
  match d with
  | Xp => M ((x + n) mod L) y z
  | Xm => M ((x + L - n) mod L) y z
  | Yp => M x ((y + n) mod L) z
  | Ym => M x ((y + L - n) mod L) z
  | Zp => M x y ((z + n) mod T)
  | Zm => M x y ((z + T - n) mod T)
  end.

(** Kick and drift of every site of the box at once. *)
Definition box_update {A} (L T : nat) (F : pointfun A) (MV : box A * box A) : box A * box A :=
  let '(M, V) := MV in
  let r x y z := F (M x y z) (box_nbr L T M x y z) (V x y z) in
  (fun x y z => snd (r x y z), fun x y z => fst (r x y z)).
(** Kick only. *)
Definition box_kick {A} (L T : nat) (F : pointfun A) (MV : box A * box A) : box A * box A :=
  let '(M, V) := MV in
  (M, fun x y z => fst (F (M x y z) (box_nbr L T M x y z) (V x y z))).
(** Drift only. *)
Definition box_drift {A} (D : A -> A -> A) (MV : box A * box A) : box A * box A :=
  let '(M, V) := MV in (fun x y z => D (M x y z) (V x y z), V).

Definition box_run {A} (L T : nat) (first : option (A -> A -> A))
    (stages : list (pointfun A * pointfun A)) (last : option (pointfun A)) (MV : box A * box A) :=
  let MV := match first with Some D => box_drift D MV | None => MV end in
  let MV := fold_left (fun s p => box_update L T (snd p) (box_update L T (fst p) s)) stages MV in
  match last with Some F => box_kick L T F MV | None => MV end.

(** The n ranks, each with g_Lz slices, hold the box in the vector layout: rank r
    owns slices r*Lz .. r*Lz + Lz - 1. *)
Definition holds {A} (n : nat) (g : geom) (MV : box A * box A) (s : sys A) : Prop :=
  forall r x y z, r < n -> x < g_n1 g -> y < g_n1 g -> z < g_Lz g ->
    sm s r (cell g x y (g_Ng g + z)) = fst MV x y (r * g_Lz g + z) /\
    sv s r (cell g x y z) = snd MV x y (r * g_Lz g + z).

(** Slabs the code can run on: at least two stencil widths of slices per rank, or
    exactly one; and a row of vectors at least two stencil widths long. *)
Definition good_slab (n : nat) (g : geom) : Prop :=
  wf_geom g /\ 0 < n /\ 2 * g_Ng g <= g_n1 g / g_w g /\
  (2 * g_Ng g <= g_Lz g \/ g_Lz g = g_Ng g).
