(** Specification for C11-C14. *)
From Coq Require Import Reals List.
From Verif Require Import SchemeModel.
Import ListNotations.
Open Scope R_scope.

(** The schemes a user can select. *)
Definition schemes : list coeffs := [leap; mleap; om2; om4; rkn4].
(** Those that read the same backwards. *)
Definition palindromes : list coeffs := [leap; mleap; om2; om4].

(** The parameters [p] given to a kernel of kind [k] hold, for every quantity the
    kernel reads that varies in time, the value at time [t]. *)
Definition current (k : kind) (p : parms) (t : R) : Prop :=
  match k with
  | KSax | KLow => p_massA2 p = Some t /\ p_R p = Some t /\ p_Rpp p = Some t /\ p_lambda p = Some t /\ p_Rp p = Some t
  | KAx => p_massA2 p = Some t /\ p_R p = Some t /\ p_Rpp p = Some t
  | KNax => p_ct p = Some t /\ p_R p = Some t /\ p_massA p = Some t
  | KPaxPot | KPaxMV | KPaxVM => p_ct p = Some t /\ p_R p = Some t /\ p_massA p = Some t /\ p_n p = Some t
  | KSpecS => p_massA2 p = Some t /\ p_R p = Some t /\ p_Rpp p = Some t /\ p_lambda p = Some t
  | KSpecT => p_massA2 p = Some t /\ p_R p = Some t
  | KFpecS => p_massA2 p = Some t /\ p_R p = Some t /\ p_lambda p = Some t
  | KFpecT => p_massA2 p = Some t /\ p_R p = Some t /\ p_Rpp p = Some t /\ p_ct p = Some t
  end.

(** A field and its velocity, at every site. *)
Definition field := nat -> R.

(** Kick with the force [F] and drift in exact arithmetic, and drift alone. [F] is
    any function of the parameters and of the whole field, but not of the velocity. *)
Definition kickdrift (F : parms -> field -> field) (k : kind) (p : parms) (dz c d : R) (x : field * field) : field * field :=
  let '(m, v) := x in
  let v' := fun i => v i + c * dz * F p m i in
  (fun i => m i + d * dz * v' i, v').
Definition driftonly (dz d : R) (x : field * field) : field * field :=
  let '(m, v) := x in (fun i => m i + d * dz * v i, v).

(** Kernels that only count: the drift made so far, and its value at each call. *)
Definition count (k : kind) (p : parms) (dz c d : R) (x : R * list R) : R * list R := (fst x + d, snd x ++ [fst x]).
Definition count_drift (dz d : R) (x : R * list R) : R * list R := (fst x + d, snd x).
