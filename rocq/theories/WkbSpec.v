(** What the WKB transport should do. *)
From Coq Require Import Reals List Arith ZArith.
From Verif Require Import CosmoModel WkbModel.
Local Open Scope R_scope.

(** The rising factorial, and Gauss' series for a = 1/2, b = 1 (the one the code asks for) *)
Fixpoint poch (a : R) (n : nat) : R := match n with O => 1 | S m => poch a m * (a + INR m) end.
Definition gaussFunction (F : R -> R -> R -> R -> R) : Prop := forall c x, 1 <= c -> 0 <= x < 1 ->
  infinite_sum (fun n => poch (1 / 2) n * poch 1 n / (poch c n * INR (fact n)) * x ^ n) (F (1 / 2) 1 c x).

(** A background whose scale factor is the conformal time *)
Definition radiation (c : cosmo) : Prop := frw c = 1 /\ grav c <= 0.
(** Around the time z the mass is i z^(n/2): before it freezes, or once it is frozen *)
Definition inEra (c : cosmo) (i n z : R) : Prop :=
  (0 < z < zThRes c /\ i = indi3 c /\ n = nQcd c) \/
  (0 < zThRes c < z /\ (zThRes c <= zRestore c -> z < zRestore c) /\ i = indi3 c * Rpower (zThRes c) (nQcd c / 2) /\ n = 0).
(** Frequency, in conformal time, of a mode of momentum k (k2 its square) with that mass *)
Definition omega (i n k2 z : R) : R := sqrt (k2 + (i * Rpower z (n / 2) * z) ^ 2).
(** Both components of a pair of real functions *)
Definition derivC (f : R -> cx) (z : R) (l : cx) : Prop :=
  derivable_pt_lim (fun t => fst (f t)) z (fst l) /\ derivable_pt_lim (fun t => snd (f t)) z (snd l).
Definition scaleC (k : R) (a : cx) : cx := (k * fst a, k * snd a).
Definition addC (a b : cx) : cx := (fst a + fst b, snd a + snd b).
Definition subC (a b : cx) : cx := (fst a - fst b, snd a - snd b).
Definition mulC (a b : cx) : cx := (fst a * fst b - snd a * snd b, fst a * snd b + snd a * fst b).
Definition conjC (a : cx) : cx := (fst a, - snd a).
(** M1 D2 - M2 D1 of two solutions *)
Definition wronskian (p q : cx * cx) : cx := subC (mulC (fst p) (snd q)) (mulC (fst q) (snd p)).
(** What the transport adds to the square of the frequency, see [wkb_equation] *)
Definition extra (i n k2 z : R) : R :=
  let p := n / 2 + 1 in
  let x := (i * Rpower z (n / 2) * z) ^ 2 / (omega i n k2 z) ^ 2 in
  p * x * (4 * p * (1 - x) - 2 - p * x) / (4 * z ^ 2).
(** The distance of the index y to 0 on a circle of n points *)
Definition around (n y : nat) : nat := Nat.min y (n - y).
(** A transform over the grid: back and forth gives the number of sites times the field, and only the modes of the ranks matter *)
Definition transformPair (fwd : (nat -> nat -> R) -> nat -> nat -> cx) (bck : (nat -> nat -> cx) -> nat -> nat -> R) (g : wgrid) : Prop :=
  (forall f r i, (r < wRanks g)%nat -> (i < wL g * wL g * (wT g / wRanks g))%nat -> bck (fwd f) r i = INR (wL g * wL g * wT g) * f r i) /\
  (forall A B, (forall r i, (r < wRanks g)%nat -> (i < (wL g / 2 + 1) * (wT g / wRanks g) * wL g)%nat -> A r i = B r i) -> forall r i, bck A r i = bck B r i).
(** The sites the ranks own hold the same values *)
Definition sameField (g : wgrid) (f h : nat -> nat -> R) : Prop :=
  forall r i, (r < wRanks g)%nat -> (i < wL g * wL g * (wT g / wRanks g))%nat -> f r i = h r i.
