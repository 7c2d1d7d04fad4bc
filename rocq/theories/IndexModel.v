(** Model of /repo/include/utils/index.h (namespace indexXeon). Values of type
    [size_t] are natural numbers. In [idx2VecNeigh] intermediate results such as
    [idx - S + L] can pass below zero, so there [size_t] arithmetic is done modulo
    the word size [W] (2^64 in the code), as C++ does. In the other functions no
    intermediate result leaves the range. *)
From Coq Require Import Arith Bool.

(** index.h:5-12 idx2Vec: (x0, x1, x2). *)
Definition idx2Vec (Lx idx : nat) : nat * nat * nat :=
  let tmp := idx / Lx in
  let x2 := tmp / Lx in
  let x1 := tmp - x2 * Lx in
  let x0 := idx - tmp * Lx in
  (x0, x1, x2).

(** index.h:14-22 idx2VecPad. *)
Definition idx2VecPad (Lx idx : nat) : nat * nat * nat :=
  let tmp := idx / (Lx + 2) in
  let x2 := tmp / Lx in
  let x1 := tmp - x2 * Lx in
  let x0 := idx - tmp * (Lx + 2) in
  (x0, x1, x2).

(** index.h:24-27 vec2Idx. *)
Definition vec2Idx (Lx : nat) (x : nat * nat * nat) : nat :=
  let '(x0, x1, x2) := x in x0 + Lx * (x1 + Lx * x2).

(** [size_t] addition and subtraction. *)
Definition uadd (W a b : nat) : nat := (a + b) mod W.
Definition usub (W a b : nat) : nat := (a + (W - b)) mod W.

(** index.h:29-65 idx2VecNeigh: coordinates and the four neighbours
    O = (iPx, iMx, iPy, iMy). *)
Definition idx2VecNeigh (W L idx : nat) : (nat * nat * nat) * (nat * nat * nat * nat) :=
  let tmp := idx / L in
  let S := L * L in
  let X2 := tmp / L in
  let X1 := tmp - X2 * L in
  let X0 := idx - tmp * L in
  let '(o0, o1) :=
    if X0 =? 0 then (uadd W idx 1, usub W (uadd W idx L) 1)
    else if X0 =? L - 1 then (uadd W (usub W idx L) 1, usub W idx 1)
    else (uadd W idx 1, usub W idx 1) in
  let '(o2, o3) :=
    if X1 =? 0 then (uadd W idx L, usub W (uadd W idx S) L)
    else if X1 =? L - 1 then (uadd W (usub W idx S) L, usub W idx L)
    else (uadd W idx L, usub W idx L) in
  ((X0, X1, X2), (o0, o1, o2, o3)).
