(** What a look-up in a table over a four-dimensional grid should do, stated
    without the code's way of doing it. *)
From Coq Require Import ZArith QArith Qround List Bool.
Import ListNotations.

(** The table holds a function on the grid 0..25 x 0..25 x 0..5 x 0..20, with
    the last coordinate running fastest. *)
Definition Tabulates (T : Z -> Q) (F : Z -> Z -> Z -> Z -> Q) : Prop :=
  forall a b e c,
    (0 <= a < 26)%Z -> (0 <= b < 26)%Z -> (0 <= e < 6)%Z -> (0 <= c < 21)%Z ->
    (T (((a * 26 + b) * 6 + e) * 21 + c)%Z == F a b e c)%Q.

(** The four arguments are in the range the table covers. *)
Definition InRange (A B e cb : Q) : Prop :=
  (0 <= A <= 5)%Q /\ (0 <= B <= 5)%Q /\ (0 <= e <= 1)%Q /\ (-(1) <= cb <= 1)%Q.

(** Linear interpolation of [f] at the real position [x] between the integers
    below and above it. *)
Definition lin (f : Z -> Q) (x : Q) : Q :=
  let k := Qfloor x in
  ((inject_Z (k + 1) - x) * f k + (x - inject_Z k) * f (k + 1)%Z)%Q.

(** Interpolation of [F] between the sixteen grid points around the
    arguments: A and B range over [0,5] in 25 steps, e over [0,1] in 5 and cb
    over [-1,1] in 20. *)
Definition surrounding (F : Z -> Z -> Z -> Z -> Q) (A B e cb : Q) : Q :=
  lin (fun a => lin (fun b => lin (fun i => lin (fun c => F a b i c)
    ((cb + 1) * 10)) (e * 5)) (B * 5)) (A * 5).

(** The entries actually combined: from the cell of the arguments, steps of 26, 6, 21 and 1 for A, B, e and
    cb (a table of 26 x 26 x 6 x 21 would need 3276, 126, 21 and 1), with the weights of the position in the
    cell. *)
Definition frac (x : Q) : Q := (x - inject_Z (Qfloor x))%Q.
Definition between (t : Q) (f : Z -> Q) : Q := ((1 - t) * f 0%Z + t * f 1%Z)%Q.
Definition combined (T : Z -> Q) (A B e cb : Q) : Q :=
  let cell := (((Qfloor (A * 5) * 26 + Qfloor (B * 5)) * 6 + Qfloor (e * 5)) * 21 + Qfloor ((cb + 1) * 10))%Z in
  between (frac (A * 5)) (fun a => between (frac (B * 5)) (fun b => between (frac (e * 5)) (fun i =>
    between (frac ((cb + 1) * 10)) (fun c => T (cell + 26 * a + 6 * b + 21 * i + c)%Z)))).
