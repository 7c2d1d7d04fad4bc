(** What initial conditions made in momentum space should be. *)
From Coq Require Import Reals ZArith List Permutation.
From Verif Require Import MomModel.
Local Open Scope R_scope.

(** The ranks share the box evenly. *)
Definition sane (g : geo) : Prop := (0 < gL g)%nat /\ (0 < gT g)%nat /\ (0 < gN g)%nat /\ (gL g mod gN g = 0)%nat.
(** A component of momentum a grid of n sites tells apart. *)
Definition inZone (n : nat) (p : Z) : Prop := (- Z.of_nat n < 2 * p <= Z.of_nat n)%Z.
Definition inBox (g : geo) (p : Z * Z * Z) : Prop := let '(px, py, pz) := p in inZone (gL g) px /\ inZone (gL g) py /\ inZone (gT g) pz.
(** The place the transform reads a momentum from: the components modulo the sizes, y slowest and over the ranks, x fastest. *)
Definition placed (g : geo) (p : Z * Z * Z) (rank i : nat) : Prop :=
  let '(px, py, pz) := p in
  let w := fun n k => Z.to_nat (k mod Z.of_nat n)%Z in
  (i = (w (gL g) py - rank * (gL g / gN g)) * (maxLx g * gT g) + w (gT g) pz * maxLx g + w (gL g) px)%nat /\
  (rank * (gL g / gN g) <= w (gL g) py < (rank + 1) * (gL g / gN g))%nat /\ (w (gL g) px < maxLx g)%nat.
Definition norm2 (z : C) : R := fst z * fst z + snd z * snd z.
(** Amplitudes of the kinds, by the length k of the momentum over the critical one. *)
Definition shape (g : geo) (q : parms) (m : moco) (k : R) : R :=
  match m with
  | MFlat => 1
  | MSin | MVSinCos => if Req_EM_T k 0 then 1 else sin k / k
  | MExp => exp (- k)
  | MExp2 => exp (- (k * k))
  | Cole => exp (- (4 * kCrt q * kCrt q / (INR (gL g) * INR (gL g)) * (k * k))) / Rpower (k * k + 1) (3 / 2)
  | KCole => exp (- (k * k))
  | _ => 0
  end.
Definition plain (m : moco) : Prop := match m with MFlat | MSin | MExp | MExp2 | Cole => True | _ => False end.
(** A straight piece of a string from a to b, seen by a mode: the integral over the piece of the plane wave. *)
Definition integral01 (f : R -> R) (v : R) : Prop := exists F, (forall s, derivable_pt_lim F s (f s)) /\ F 1 - F 0 = v.
Definition along (p : Z * Z * Z) (a b : pt) (s : R) : R := dotZ p a + s * dotZ p (minus b a).
Definition waveOver (k0N : R) (p : Z * Z * Z) (a b : pt) (w : C) : Prop :=
  integral01 (fun s => cos (k0N * along p a b s)) (fst w) /\ integral01 (fun s => - sin (k0N * along p a b s)) (snd w).
