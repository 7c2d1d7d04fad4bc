(** Model of the axiton finder (lib/scalar/scalarField.cpp:1582-1730).

    Simplifications: contrasts and the field are exact rationals instead of
    floats; arrays are functions of the position; the printing of the list is
    left out. *)
From Coq Require Import Arith List Bool QArith Qabs.
Import ListNotations.
Local Open Scope nat_scope.

Definition Qlt_bool (a b : Q) : bool := negb (Qle_bool b a).

Definition upd {X} (f : nat -> X) (i : nat) (x : X) : nat -> X :=
  fun j => if j =? i then x else f j.

(** The two local arrays and the number of entries used
    (scalarField.cpp:1590-1612). *)
Record slots := mkSlots { ctL : nat -> Q; arL : nat -> nat; used : nat }.

Definition noSlots : slots := mkSlots (fun _ => 0%Q) (fun _ => 0%nat) 0.

(** The loop that makes room: while (pos > 0 && ct_local[pos-1] < val) pos--
    and move the entry up if there is a place for it
    (scalarField.cpp:1686-1695). *)
Fixpoint room (K : nat) (val : Q) (ct : nat -> Q) (ar : nat -> nat) (pos : nat)
  : nat * (nat -> Q) * (nat -> nat) :=
  match pos with
  | 0 => (0, ct, ar)
  | S p =>
    if Qlt_bool (ct p) val then
      if S p <? K then room K val (upd ct (S p) (ct p)) (upd ar (S p) (ar p)) p
      else room K val ct ar p
    else (S p, ct, ar)
  end.

(** Insertion of one site (scalarField.cpp:1685-1702). *)
Definition insertSite (K : nat) (s : slots) (val : Q) (fidx : nat) : slots :=
  let '(pos, ct, ar) := room K val (ctL s) (arL s) (used s) in
  let size := if used s <? K then S (used s) else used s in
  if pos <? size then mkSlots (upd ct pos val) (upd ar pos fidx) size
  else mkSlots ct ar size.

Section Finder.
Variables n1 Lz shift : nat.          (* side, depth, vector length *)
Variable folded : bool.
Variable C : nat -> Q.                (* mCONT, the contrast *)
Variable Th : nat -> Q.               (* m, with its ghost slice in front *)
Variable z thr : Q.

Let n2 := n1 * n1.

(** Position of the site in the field (scalarField.cpp:1630-1643). *)
Definition fieldPos (idx : nat) : nat :=
  let iz := idx / n2 in let iy := (idx mod n2) / n1 in let ix := (idx mod n2) mod n1 in
  if folded then
    let cues := n1 / shift in
    let sy := iy / cues in
    let iiy := iy - sy * cues in
    iz * n2 + iiy * n1 * shift + ix * shift + sy
  else idx.

(** The tests a site has to pass (scalarField.cpp:1619-1681); [true] means the
    site reaches the insertion. *)
Definition passes (idx : nat) : bool :=
  let val := C idx in
  let iz := idx / n2 in let iy := (idx mod n2) / n1 in let ix := (idx mod n2) mod n1 in
  Qlt_bool thr val &&
  negb (Qlt_bool (Qabs (Th (n2 + fieldPos idx) / z)) (314#100)) &&
  negb (Qlt_bool (C ((ix + 1) mod n1 + iy * n1 + iz * n2) - val) 0) &&
  negb (Qlt_bool (C ((ix + n1 - 1) mod n1 + iy * n1 + iz * n2) - val) 0) &&
  negb (Qlt_bool (C (ix + ((iy + 1) mod n1) * n1 + iz * n2) - val) 0) &&
  negb (Qlt_bool (C (ix + ((iy + n1 - 1) mod n1) * n1 + iz * n2) - val) 0) &&
  negb (Qlt_bool 0 (C (ix + iy * n1 + ((iz + 1) mod Lz) * n2) - val)) &&
  negb (Qlt_bool 0 (C (ix + iy * n1 + ((iz + Lz - 1) mod Lz) * n2) - val)).

(** One turn of the loop over the sites. *)
Definition visit (K : nat) (s : slots) (idx : nat) : slots :=
  if passes idx then insertSite K s (C idx) (fieldPos idx) else s.

(** The loop and the copy to the caller's array (scalarField.cpp:1616-1707,
    1724-1727); outside axion mode the caller's array is left alone
    (scalarField.cpp:1709-1713). *)
Definition axitonfinder (axionMode : bool) (K : nat) (idxbin : list nat) : list nat :=
  if axionMode then
    let s := fold_left (visit K) (seq 0 (n2 * Lz)) noSlots in
    map (arL s) (seq 0 K)
  else idxbin.
End Finder.
