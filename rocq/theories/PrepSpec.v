(** What the evolution of an initial condition should do. *)
From Coq Require Import Reals.
From Verif Require Import PrepModel.
Local Open Scope R_scope.

(** The propagator: time goes on by the step, the background stays. *)
Definition keepsTime (step : st -> R -> st) : Prop := forall s dz, zz (step s dz) = zz s + dz /\ bk (step s dz) = bk s.
(** The physical field is the field over the scale; in a universe with scale R of derivative R' its rate is (v - R' m / R) / R. *)
Definition physical (scale : R -> R) (s : st) (j : nat) : R * R := (fst (fm s j) / scale (zz s), snd (fm s j) / scale (zz s)).
Definition rate (scale : R -> R) (r' : R) (s : st) (j : nat) : R * R :=
  ((fst (fv s j) - r' * fst (physical scale s j)) / scale (zz s), (snd (fv s j) - r' * snd (physical scale s j)) / scale (zz s)).
(** Steps from one state to another, all before the time z, each of the size of that state or of what is left. *)
Inductive steps (step : st -> R -> st) (size : st -> R) (z : R) : st -> st -> Prop :=
| steps_done s : zz s = z -> steps step size z s s
| steps_more s s' : zz s < z -> steps step size z (step s (Rmin (size s) (z - zz s))) s' -> steps step size z s s'.
(** A background whose coupling is a function of time. *)
Definition couples (scale : R -> R) (b : bg) (f : R -> R) : Prop := forall ct, 0 < scale ct -> lambdaP scale b ct = f ct.
