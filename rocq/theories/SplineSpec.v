(** What interpolation through a table means. *)
From Coq Require Import Reals List Arith.
From Verif Require Import SplineModel.
Import ListNotations.
Open Scope R_scope.

(** f 0 + ... + f (n-1) *)
Fixpoint sumTo (n : nat) (f : nat -> R) : R :=
  match n with 0%nat => 0 | S k => sumTo k f + f k end.
(** The matrix that a band matrix stands for: zero outside the band. *)
Definition entry (A : band) (i j : nat) : R := match at_ A i j with Some v => v | None => 0 end.
Definition solves (A : band) (b : list R) (x : nat -> R) : Prop :=
  forall i, (i < nDim A)%nat -> sumTo (nDim A) (fun j => entry A i j * x j) = nth i b 0.

(** ** Tables *)
Definition increasing (xs : list R) : Prop := forall i j, (i < j < length xs)%nat -> nth i xs 0 < nth j xs 0.
Definition tableOf (xs ys : list R) : Prop := length xs = length ys /\ (2 < length xs)%nat /\ increasing xs.
Definition first (xs : list R) : R := nth 0 xs 0.
Definition final (xs : list R) : R := nth (length xs - 1) xs 0.
(** A polynomial of degree three and its derivatives. *)
Definition cubicAt (a b c d x : R) : R := a * x ^ 3 + b * x ^ 2 + c * x + d.
Definition cubicSlope (a b c x : R) : R := 3 * a * x ^ 2 + 2 * b * x + c.
Definition cubicCurv (a b x : R) : R := 6 * a * x + 2 * b.
(** The reported first and second derivatives. *)
Definition slopeAt (s : spl) (x : R) : R := match deriv s 1 x with Some v => v | None => 0 end.
Definition curvAt (s : spl) (x : R) : R := match deriv s 2 x with Some v => v | None => 0 end.
(** The condition at an end. *)
Definition meets (s : spl) (e : ending) (x : R) : Prop :=
  match e with Slope v => slopeAt s x = v | Curvature v => curvAt s x = v end.
(** A piece of a cubic between every two neighbours of the table. *)
Definition pieceOf (s : spl) (lo hi : R) (a b c d : R) : Prop := forall x, lo <= x <= hi -> eval s x = cubicAt a b c d x.

(** ** Reference curves *)
(** The value of order 1 or 2 that a cubic has at a point, in the form that set_boundary takes. *)
Inductive agrees (a b c x : R) : ending -> Prop :=
| AgreeSlope : agrees a b c x (Slope (cubicSlope a b c x))
| AgreeCurvature : agrees a b c x (Curvature (cubicCurv a b x)).
(** Combination of two conditions of the same kind. *)
Inductive blended (p q : R) : ending -> ending -> ending -> Prop :=
| BlendSlope : forall v w, blended p q (Slope v) (Slope w) (Slope (p * v + q * w))
| BlendCurvature : forall v w, blended p q (Curvature v) (Curvature w) (Curvature (p * v + q * w)).
(** The condition for the table whose abscissas are k times larger. *)
Inductive stretched (k : R) : ending -> ending -> Prop :=
| StretchSlope : forall v, stretched k (Slope v) (Slope (v / k))
| StretchCurvature : forall v, stretched k (Curvature v) (Curvature (v / (k * k))).
(** The chord through two neighbours of the table. *)
Definition chord (xs ys : list R) (i : nat) (x : R) : R :=
  nth i ys 0 + (x - nth i xs 0) * ((nth (i + 1) ys 0 - nth i ys 0) / (nth (i + 1) xs 0 - nth i xs 0)).
(** What a default object holds: no curvature at the ends, free extrapolation. *)
Definition natural : ending := Curvature 0.
