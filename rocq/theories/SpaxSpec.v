(** Waves on top of strings: the field is R phi exp(i theta) with theta = psi/R, and the
    velocity is its derivative when phi is at rest. *)
From Coq Require Import Reals Arith List.
From Verif Require Import ForceSpec ConserveSpec SpaxModel.
Import ListNotations.
Open Scope R_scope.

Definition rotated (th : R) (a : R * R) : R * R := (cos th * fst a - sin th * snd a, sin th * fst a + cos th * snd a).
(** At time t the scale factor is Rf t and the wave at point i is psi i t. *)
Definition wavy (Rf : R -> R) (psi : nat -> R -> R) (phi : nat -> R * R) (i : nat) (t : R) : R * R :=
  times (Rf t) (rotated (psi i t / Rf t) (phi i)).
(** What the code should leave at point i. *)
Definition mergedRight (Rf : R -> R) (psi : nat -> R -> R) (phi : nat -> R * R) (t : R) (s : store) (i : nat) : Prop :=
  stM s i = wavy Rf psi phi i t /\ tangent (wavy Rf psi phi i) t (stV s (2 * i)%nat, stV s (2 * i + 1)%nat).
(** What it starts from: strings of modulus one in m, the waves in m2 and their velocities. *)
Definition mergeStart (Rf : R -> R) (psi : nat -> R -> R) (phi : nat -> R * R) (t Rp : R) (vol : nat) (fm : nat -> R) (s : store) : Prop :=
  0 < Rf t /\ derivable_pt_lim Rf t (Rp * Rf t) /\
  forall i, (i < vol)%nat -> fm i = psi i t /\ derivable_pt_lim (psi i) t (stV s i) /\ stM s i = phi i.
(** Nothing that is still to be read has been overwritten: every iteration comes before the
    one that writes over its velocity. *)
Definition safe (order : list nat) : Prop :=
  forall a i b j c, order = a ++ i :: b ++ j :: c -> (j <> 2 * i)%nat /\ (j <> 2 * i + 1)%nat.
