(** What a list of the largest peaks is, independently of the code. *)
From Coq Require Import Arith List Bool QArith Permutation Sorted.
Import ListNotations.
Local Open Scope nat_scope.

(** [kept] are the [K] best of the candidates [l] (contrast and position), in
    descending order of contrast, and nothing left out is better than anything
    kept. *)
Definition Best (K : nat) (l kept : list (Q * nat)) : Prop :=
  length kept = Nat.min K (length l) /\
  StronglySorted (fun a b => (fst b <= fst a)%Q) kept /\
  exists rest, Permutation l (kept ++ rest) /\
    forall a b, In a kept -> In b rest -> (fst b <= fst a)%Q.

(** Sites of a periodic box of side [n] and depth [d]. *)
Definition site (n x y w : nat) : nat := x + y * n + w * (n * n).

(** A strict local maximum of [C] among its six nearest sites. *)
Definition Peak (n d : nat) (C : nat -> Q) (x y w : nat) : Prop :=
  let v := C (site n x y w) in
  (C (site n ((x + 1) mod n) y w) < v)%Q /\ (C (site n ((x + n - 1) mod n) y w) < v)%Q /\
  (C (site n x ((y + 1) mod n) w) < v)%Q /\ (C (site n x ((y + n - 1) mod n) w) < v)%Q /\
  (C (site n x y ((w + 1) mod d)) < v)%Q /\ (C (site n x y ((w + d - 1) mod d)) < v)%Q.

(** What the finder's tests amount to: not above any of the four sites beside
    it in its plane, not below the two sites in front and behind. *)
Definition Saddle (n d : nat) (C : nat -> Q) (x y w : nat) : Prop :=
  let v := C (site n x y w) in
  (v <= C (site n ((x + 1) mod n) y w))%Q /\ (v <= C (site n ((x + n - 1) mod n) y w))%Q /\
  (v <= C (site n x ((y + 1) mod n) w))%Q /\ (v <= C (site n x ((y + n - 1) mod n) w))%Q /\
  (C (site n x y ((w + 1) mod d)) <= v)%Q /\ (C (site n x y ((w + d - 1) mod d)) <= v)%Q.

(** Where the field keeps the value of a site: in order, or, with vectors of [v] numbers, row y next to the
    rows n/v, 2n/v, ... further on. *)
Definition kept_at (n v : nat) (vectors : bool) (x y w : nat) : nat :=
  if vectors then w * (n * n) + ((y mod (n / v)) * n + x) * v + y / (n / v) else site n x y w.
