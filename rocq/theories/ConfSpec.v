(** What saving and restoring a field should do. *)
From Coq Require Import List Arith Permutation.
Local Open Scope nat_scope.

(** A box of n x n sites and d slices per rank, w numbers per site, held by the ranks one slab after another;
    the data of a rank start at [beg] of its array. The number [c] of site (x,y) in slice Z of the whole box: *)
Definition inBox {A} (n d w beg : nat) (a : nat -> nat -> A) (c x y Z : nat) : A :=
  a (Z / d) (beg + ((Z mod d) * (n * n) + y * n + x) * w + c).
(** Two boxes, on possibly different numbers of ranks, hold the same field *)
Definition sameField {A} (n w total d beg d' beg' : nat) (a a' : nat -> nat -> A) : Prop :=
  forall c x y Z, c < w -> x < n -> y < n -> Z < total ->
    inBox n d' w beg' a' c x y Z = inBox n d w beg a c x y Z.
(** Nothing outside the data of the ranks changed (ghosts, other ranks' arrays are not data) *)
Definition restSame {A} (n w d beg ranks : nat) (a a' : nat -> nat -> A) : Prop :=
  forall r p, r < ranks -> (p < beg \/ beg + n * n * w * d <= p) -> a' r p = a r p.
(** every slice of every rank, once, in any order *)
Definition anyOrder (ranks d : nat) (l : list (nat * nat)) : Prop :=
  Permutation l (list_prod (seq 0 ranks) (seq 0 d)).
