(** What the field of strings given by points should be. *)
From Coq Require Import Reals List Arith.
From Verif Require Import AnyModel.
Import ListNotations.
Local Open Scope R_scope.

(** The sum of the first n values. *)
Fixpoint sumTo (n : nat) (f : nat -> R) : R := match n with O => 0 | Datatypes.S n => sumTo n f + f n end.
(** The phase of a site by the path along z, through all the ranks before, then y, then x. *)
Definition pathSum (nz : nat) (Bx : nat -> nat -> nat -> nat -> R) (By : nat -> nat -> nat -> R) (Bz : nat -> nat -> R) (r iz iy ix : nat) : R :=
  sumTo r (fun r' => sumTo nz (Bz r')) + sumTo iz (Bz r) + sumTo iy (By r iz) + sumTo ix (Bx r iz iy).
(** The current element v at a distance (u, y, z) from a site: the first component of v x r / r^3. *)
Definition biotSavart (v : vec) (y z u : R) : R := (cy v * z - cz v * y) / sqrt (u * u + (y * y + z * z)) ^ 3.
(** F is a primitive of f. *)
Definition primitive (F f : R -> R) : Prop := forall u, derivable_pt_lim F u (f u).
Definition minus (p q : vec) : vec := (cx p - cx q, cy p - cy q, cz p - cz q).
Definition middle (p q : vec) : vec := ((cx p + cx q) / 2, (cy p + cy q) / 2, (cz p + cz q) / 2).
(** Site iz of rank r in a box of T slices on K ranks. *)
Definition trueHeight (T K r iz : nat) : nat := r * (T / K) + iz.
(** Points along a piece: from its end, back by tenths. *)
Definition along (p q : vec) (i : nat) : vec := (cx q - INR i / 10 * (cx q - cx p), cy q - INR i / 10 * (cy q - cy p), cz q - INR i / 10 * (cz q - cz p)).
(** The field everywhere a phase, at rest. *)
Definition fieldOf (th : R) : (R * R) * (R * R) := ((cos th, sin th), (0, 0)).
Definition anyRight : Prop := forall L nz K Bx By Bz r iz iy ix, (1 <= nz)%nat -> (nz * K = L)%nat -> (r < K)%nat -> (iz < nz)%nat -> (iy < L)%nat -> (ix < L)%nat ->
  exists f, anystring L nz K Bx By Bz (fun _ _ _ _ => 0) = Some f /\ f r iz iy ix = fieldOf (pathSum nz Bx By Bz r iz iy ix).
