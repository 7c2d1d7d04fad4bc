(** What the background should do. *)
From Coq Require Import Reals.
From Verif Require Import CosmoModel.
Local Open Scope R_scope.

(** The law of the mass: it grows as a power of the scale factor r up to th, then stays, and (if re is not before th) grows
    again from re on *)
Definition massLaw (i n nr th re r : R) : R :=
  i * i * Rpower (Rmin r th) n * (if Rle_dec th re then Rpower (Rmax 1 (r / re)) nr else 1).
(** f' is the derivative of f at t *)
Notation "'deriv' f 'at' t 'is' l" := (derivable_pt_lim f t l) (at level 70, f at level 9, t at level 9).
(** rho minimises the first potential, cut along the direction of the vacuum: lam/4 (rho^2 - 1)^2 - m2 rho *)
Definition stationary (lam m2 rho : R) : Prop := lam * rho * (rho * rho - 1) - m2 = 0.
(** The scale factor is a power of the time (no matter term) *)
Definition plain (c : cosmo) : Prop := frw c <> 1 \/ grav c <= 0.
(** frequency of the fastest mode of the grid (12 = 4 per direction) of a field with mass squared m2, scale factor r *)
Definition fastest (m2 r oodl : R) : R := sqrt (m2 * r ^ 2 + 12 * oodl ^ 2).
(** what a stable step is, for each kind of field *)
Definition stableStep (c : cosmo) (pq : pqKind) (wDz oodl : R) (k : stepKind) (z d : R) : Prop :=
  let r := scale c z in
  match k with
  | StSaxion => d * fastest (AxionMass2 c z) r oodl <= wDz /\ d * fastest (SaxionMass2 c pq z) r oodl <= wDz
  | StAxion => d * fastest (AxionMass2 c z) r oodl <= wDz
  | StParaxial => d * (fastest (AxionMass2 c z) r oodl - sqrt (AxionMass2 c z) * r) <= wDz
  end.
(** the same with the second potential lam/4 (rho^4 - 1)^2 - m2 rho *)
Definition stationary2 (lam m2 rho : R) : Prop := 2 * lam * (rho * rho * rho) * (rho * rho * rho * rho - 1) - m2 = 0.
