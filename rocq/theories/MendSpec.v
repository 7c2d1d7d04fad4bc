(** Specification vocabulary for the mending claims (C27, C28). *)
From Coq Require Import List Arith ZArith QArith Qabs.
Import ListNotations.
Local Open Scope nat_scope.

(** f' and v' are f and v moved by k periods. *)
Definition moved (c q f v f' v' : Q) (k : Z) : Prop := (f' == f + inject_Z k * (2 * c) /\ v' == v + inject_Z k * q)%Q.
(** No jump between neighbouring values: at most half a period (lines and planes), or in
    the half open interval (volume). *)
Definition noJump (c d : Q) : Prop := (Qabs d <= c)%Q.
Definition noJumpHalf (c d : Q) : Prop := (- c <= d /\ d < c)%Q.

(** Value number y of a row moved by k y periods. *)
Definition lifted (c : Q) (f : nat -> Q) (k : nat -> Z) (y : nat) : Q := (f y + inject_Z (k y) * (2 * c))%Q.
(** A row f of L sites, closed periodically, with velocity v, was mended to f', v'. kF lifts
    the row without jumps going forward from site 0, kB going backward from site 0
    (arriving at site L - 1 first); a value that is already near the one before is not moved. Sites on which the two agree are moved, the others keep
    their values; count is the number of sites moved. *)
Definition rowMended (near : Q -> Prop) (L : nat) (c q : Q) (f v f' v' : nat -> Q) (count : nat) : Prop :=
  exists kF kB : nat -> Z,
    kF 0 = 0%Z /\ kB 0 = 0%Z /\
    (forall y, y + 1 < L -> near (lifted c f kF (y + 1) - lifted c f kF y)%Q) /\
    (forall y, 0 < y < L -> near (lifted c f kB y - lifted c f kB ((y + 1) mod L))%Q) /\
    (forall y, y + 1 < L -> near (f (y + 1)%nat - lifted c f kF y)%Q -> kF (y + 1) = 0%Z) /\
    (forall y, 0 < y < L -> near (f y - lifted c f kB ((y + 1) mod L))%Q -> kB y = 0%Z) /\
    (forall y, y < L -> (kF y = kB y -> moved c q (f y) (v y) (f' y) (v' y) (kF y)) /\
                        (kF y <> kB y -> f' y = f y /\ v' y = v y)) /\
    count = length (filter (fun y => (kF y =? kB y)%Z && negb (kF y =? 0)%Z) (seq 0 L)).

(** ** Where the sites are *)
(** site (0, 0) of global slice Z: rank Z / Lz, NN ghost slices of Sf sites below its field *)
Definition lineAt (Lz Sf NN : nat) (ms : nat -> nat -> Q) (Z : nat) : Q := ms (Z / Lz) (Sf * (NN + Z mod Lz)).
(** site (x, y) inside a slice of L x L sites stored for [step] lanes *)
Definition planeSite (L step x y : nat) : nat := (y mod (L / step)) * (L * step) + x * step + y / (L / step).

(** A smooth closed row: neighbours, also last and first, differ by less than c. *)
Definition smoothRow (c : Q) (L : nat) (F : nat -> Q) : Prop := forall y, y < L -> (Qabs (F ((y + 1) mod L) - F y) < c)%Q.
