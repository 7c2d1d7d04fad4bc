(** Model of the look-up of the string-core correction
    (lib/utils/kgvops.cpp, include/spectrum/LLUTs.h).

    Simplifications: numbers are exact rationals instead of floats; the
    square roots, dot products and quotients that make the four arguments A,
    B, e and cb out of the field and its gradients (kgvops.cpp:39-48) are not
    modelled, the arguments are inputs; a table is a total function together
    with its length, and a read outside the length is a distinct outcome. *)
From Coq Require Import ZArith QArith Qround List Bool.
Import ListNotations.

(** Extents of the table and of its planes (LLUTs.h:6-11). *)
Definition N_A : Z := 26.
Definition N_B : Z := 26.
Definition N_E : Z := 6.
Definition N_C : Z := 21.
Definition N_CE : Z := (N_C * N_E)%Z.
Definition N_CEB : Z := (N_C * N_E * N_B)%Z.

(** Number of entries of LUTc and LUTs (LLUTs.h:12). *)
Definition lutSize : Z := 85176.

(** Conversion of a non-negative number to int (kgvops.cpp:62-65): truncation,
    which is the floor there. *)
Definition toInt (x : Q) : Z := Qfloor x.

(** Scaled arguments (kgvops.cpp:62-65, 68-71). *)
Definition xA (A : Q) : Q := (A * inject_Z (N_A - 1) / inject_Z 5)%Q.
Definition xB (B : Q) : Q := (B * inject_Z (N_B - 1) / inject_Z 5)%Q.
Definition xE (e : Q) : Q := (e * inject_Z (N_E - 1))%Q.
Definition xC (cb : Q) : Q := ((cb + 1) * inject_Z (N_C - 1) / inject_Z 2)%Q.

(** Position of the cell in the table (kgvops.cpp:66). *)
Definition i0 (A B e cb : Q) : Z :=
  (toInt (xC cb) + N_C * toInt (xE e) + N_CE * toInt (xB B) + N_CEB * toInt (xA A))%Z.

(** A read of the table: [None] is a read outside it. *)
Definition rd (T : Z -> Q) (i : Z) : option Q :=
  if ((0 <=? i) && (i <? lutSize))%Z then Some (T i) else None.

(** One line of the first face: L = LUT[i]*dC1 + LUT[i+1]*dC
    (kgvops.cpp:78-85, 97-104). *)
Definition faceC (T : Z -> Q) (dC : Q) (i : Z) : option Q :=
  match rd T i, rd T (i + 1) with
  | Some u, Some w => Some (u * (1 - dC) + w * dC)%Q
  | _, _ => None
  end.

(** L = L*d1 + L'*d (kgvops.cpp:87-95, 106-114). *)
Definition mix (d : Q) (u w : option Q) : option Q :=
  match u, w with
  | Some u, Some w => Some (u * (1 - d) + w * d)%Q
  | _, _ => None
  end.

(** The interpolation, without the signs (kgvops.cpp:62-95 for LUTc and
    97-114 for LUTs). *)
Definition lookup (T : Z -> Q) (A B e cb : Q) : option Q :=
  let i := i0 A B e cb in
  let dA := (xA A - inject_Z (toInt (xA A)))%Q in
  let dB := (xB B - inject_Z (toInt (xB B)))%Q in
  let dE := (xE e - inject_Z (toInt (xE e)))%Q in
  let dC := (xC cb - inject_Z (toInt (xC cb)))%Q in
  let L000 := faceC T dC i in
  let L001 := faceC T dC (i + N_C) in
  let L010 := faceC T dC (i + N_E) in
  let L011 := faceC T dC (i + N_E + N_C) in
  let L100 := faceC T dC (i + N_B) in
  let L101 := faceC T dC (i + N_B + N_C) in
  let L110 := faceC T dC (i + N_B + N_E) in
  let L111 := faceC T dC (i + N_B + N_E + N_C) in
  let L000 := mix dE L000 L001 in
  let L010 := mix dE L010 L011 in
  let L100 := mix dE L100 L101 in
  let L110 := mix dE L110 L111 in
  let L000 := mix dB L000 L010 in
  let L100 := mix dB L100 L110 in
  mix dA L000 L100.

(** What the correction does with its arguments: it uses no table, it reads
    outside the table, or it gets the pair Lc, Ls. *)
Inductive corr := NoTable | OutOfTable | Got (lc ls : Q).

Definition Qltb (a b : Q) : bool := negb (Qle_bool b a).

(** Signs, range test and the two interpolations (kgvops.cpp:49-55, 95, 114). *)
Definition stringcorre (Tc Ts : Z -> Q) (A B e cb : Q) : corr :=
  let '(A, B, s1, s2) :=
    if Qltb A 0 then (- A, - B, -(1), -(1))%Q else (A, B, 1, 1)%Q in
  let '(B, cb, s2) :=
    if Qltb B 0 then (- B, - cb, - s2)%Q else (B, cb, s2) in
  if Qle_bool A 5 && Qle_bool B 5 && Qle_bool e 1 && Qle_bool cb 1 && Qle_bool (-(1)) cb
  then match lookup Tc A B e cb, lookup Ts A B e cb with
       | Some c, Some s => Got (s1 * c) (s2 * s)
       | _, _ => OutOfTable
       end
  else NoTable.
