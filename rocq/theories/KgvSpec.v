(** What the spectra should be taken of. *)
From Coq Require Import Reals List Arith Permutation.
From Verif Require Import KgvModel.
Import ListNotations.
Local Open Scope R_scope.

(** A number rho exp(i th), and its change w: the modulus changes at rate rho', the angle at rate q. *)
Definition turns (rho th : R) (a w : cx) (q : R) : Prop :=
  0 < rho /\ a = (rho * cos th, rho * sin th) /\ exists rho', w = (rho' * cos th - rho * q * sin th, rho' * sin th + rho * q * cos th).
(** The complex field of the whole box, of K ranks; rank p has slices p*Lz on and Ng slices of both neighbours. *)
Definition holds (K p : nat) (g : grid) (m : nat -> cx) (phi : nat -> nat -> nat -> cx) : Prop :=
  forall x y z, (x < gL g)%nat -> (y < gL g)%nat -> (z < gLz g + 2 * gNg g)%nat ->
    m (x + gL g * (y + gL g * z))%nat = phi x y ((p * gLz g + z + (K * gLz g - gNg g)) mod (K * gLz g))%nat.
(** Next and previous place on a circle of n. *)
Definition next (n i : nat) : nat := if (i + 1 =? n)%nat then 0%nat else (i + 1)%nat.
Definition prev (n i : nat) : nat := match i with 0%nat => (n - 1)%nat | _ => (i - 1)%nat end.
Definition minus (a b : cx) : cx := (fst a - fst b, snd a - snd b).
(** Twice the gradient times the spacing, from both neighbours. *)
Definition alongX (L : nat) (phi : nat -> nat -> nat -> cx) x y z := minus (phi (next L x) y z) (phi (prev L x) y z).
Definition alongY (L : nat) (phi : nat -> nat -> nat -> cx) x y z := minus (phi x (next L y) z) (phi x (prev L y) z).
Definition alongZ (N : nat) (phi : nat -> nat -> nat -> cx) x y z := minus (phi x y (next N z)) (phi x y (prev N z)).
Definition shifted (sh : R) (a : cx) : cx := (fst a - sh, snd a).
(** No string here: one part of the field is larger than its change from one neighbour to the other along some axis. *)
Definition far (a ex ey ez : cx) : Prop := exists d, In d [ex; ey; ez] /\ (Rabs (fst d) < Rabs (fst a) \/ Rabs (snd d) < Rabs (snd a)).
(** All rows, each once. *)
Definition allRows (g : grid) (order : list (nat * nat)) : Prop :=
  NoDup order /\ forall y z, In (y, z) order <-> (y < gL g /\ z < gLz g)%nat.
(** The weight of a site in the masks, for modulus rho: none, the ball, a smooth one, that of the modulus, that of its square. *)
Definition weight (k : mask) (Rs rho : R) (masked : bool) (w : R) : R :=
  match k with
  | Flat | Saxi => 1
  | Redo | Ball => if masked then 0 else 1
  | Gaus | Diff => w
  | Vil => rho / Rs
  | Vil2 => (rho / Rs) ^ 2
  end.
(** Rows of a real transform are two longer. *)
Definition padded (L x y z : nat) : nat := (x + (L + 2) * (y + L * z))%nat.
Definition plain (L x y z : nat) : nat := (x + L * (y + L * z))%nat.
