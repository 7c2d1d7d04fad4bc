(** What the energies are: the complex field in units of its vacuum, phi = m/R, moves in
    conformal time in a box with lattice spacing delta; physical energy densities. *)
From Coq Require Import Reals List.
From Verif Require Import ForceModel EnergyModel.
Import ListNotations.
Open Scope R_scope.

Definition abs2 (a : R * R) : R := fst a ^ 2 + snd a ^ 2.
Definition phi (c : eparms) (m : R * R) : R * R := (fst m / eR c, snd m / eR c).
Definition minus (a b : R * R) : R * R := (fst a - fst b, snd a - snd b).
(** Derivative of phi when m has derivative v: (v - (R'/R) m)/R. *)
Definition phiDot (c : eparms) (m v : R * R) : R * R :=
  ((fst v - eRprime c / eR c * fst m) / eR c, (snd v - eRprime c / eR c * snd m) / eR c).
(** Densities. The gradient along a direction is the mean of the two one-sided ones. *)
Definition kineticDensity (c : eparms) (x : site) : R := abs2 (phiDot c (sM x) (sV x)) / 2 / eR c ^ 2.
Definition gradientDensity (c : eparms) (x : site) (next prev : R * R) : R :=
  (abs2 (minus (phi c next) (phi c (sM x))) + abs2 (minus (phi c (sM x)) (phi c prev))) / 2 / eDelta2 c / 2 / eR c ^ 2.
Definition saxionDensity (s : pq) (c : eparms) (r : R) : R :=
  match s with
  | PQ1 => eLam c / 4 * (r ^ 2 - 1) ^ 2
  | PQ2 => eLam c / 4 * (r ^ 4 - 1) ^ 2
  | PQ3 => if Rlt_dec r 1 then eLam c / 4 * (r ^ 2 - 1) ^ 2 else eLam c * (r - 1) ^ 2
  end.
(** Comments of enum-field.h:104-109 and energyXeon.cpp:435: density of the axion
    potential at modulus r (in units of R) and angle th between -pi and pi. *)
Definition axionDensity (q : qcd) (c : eparms) (r th : R) : R :=
  match q with
  | QCD0 => 0
  | QCD1 => eMa2 c * (1 - r * cos th)
  | QCDV => eMa2 c * ((1 - r * cos th) ^ 2 / 2 + (r * sin th) ^ 2 / 2)
  | QCD2 => eMa2 c * (sin th ^ 2 / 2)
  | QCDL => eMa2 c * (th ^ 2 / 2)
  | QCDC => eMa2 c * (1 - cos th)
  end.
(** The modulus rho R and the angle of the field change at rates rho' and th', while R
    changes at R': field and velocity of the site. *)
Definition moves (c : eparms) (x : site) (rho rho' th th' : R) : Prop :=
  sM x = (eR c * rho * cos th, eR c * rho * sin th) /\
  sV x = ((eRprime c * rho + eR c * rho') * cos th - eR c * rho * th' * sin th,
          (eRprime c * rho + eR c * rho') * sin th + eR c * rho * th' * cos th).

(** Mean over all sites of all ranks. *)
Definition sites (rs : list rank) : list site := concat (map rSites rs).
Definition sumOver {A} (f : A -> R) (l : list A) : R := fold_right (fun x a => f x + a) 0 l.
Definition mean {A} (f : A -> R) (l : list A) : R := sumOver f l / INR (length l).
(** Requests for averages over the box: EN_ENE, EN_MAP, EN_ENEMASK, EN_ENEMAPMASK; for
    averages over the mask: EN_MASK, EN_ENEMASK, EN_MAPMASK, EN_ENEMAPMASK. *)
Definition asksTotals (e : N) : Prop := In e [1%N; 3%N; 5%N; 7%N].
Definition asksMask (e : N) : Prop := In e [4%N; 5%N; 6%N; 7%N].

(** ** What the numbers of a reply mean, for the sites [l] they are averaged over *)
(** Two non-negative parts of a quantity. *)
Definition parts (a b : option R) (total : R) : Prop :=
  exists u v, a = Some u /\ b = Some v /\ 0 <= u /\ 0 <= v /\ u + v = total.
Definition gradientsRight (c : eparms) (E : nat -> option R) (l : list site) : Prop :=
  parts (E 0%nat) (E 5%nat) (mean (fun x => gradientDensity c x (sXp x) (sXm x)) l) /\
  parts (E 1%nat) (E 6%nat) (mean (fun x => gradientDensity c x (sYp x) (sYm x)) l) /\
  parts (E 2%nat) (E 7%nat) (mean (fun x => gradientDensity c x (sZp x) (sZm x)) l).
(** Kinetic energy: of the angle, of the modulus, and their sum. *)
Definition kineticRight (c : eparms) (E : nat -> option R) (l : list site) : Prop :=
  parts (E 3%nat) (E 8%nat) (mean (kineticDensity c) l) /\
  forall rho rho' th th', (forall x, In x l -> moves c x (rho x) (rho' x) (th x) (th' x)) ->
    E 3%nat = Some (mean (fun x => (rho x * th' x) ^ 2 / 2 / eR c ^ 2) l) /\
    E 8%nat = Some (mean (fun x => rho' x ^ 2 / 2 / eR c ^ 2) l).
(** Modulus and angle of the field, counted from the shifted centre. *)
Definition polar (c : eparms) (x : site) (r th : R) : Prop :=
  0 < r /\ - PI < th <= PI /\ sM x = (eShift c + eR c * r * cos th, eR c * r * sin th).
Definition saxionRight (s : pq) (c : eparms) (E : nat -> option R) (l : list site) : Prop :=
  forall r th, (forall x, In x l -> polar c x (r x) (th x)) -> E 9%nat = Some (mean (fun x => saxionDensity s c (r x)) l).
Definition axionRight (q : qcd) (c : eparms) (E : nat -> option R) (l : list site) : Prop :=
  forall r th, (forall x, In x l -> polar c x (r x) (th x)) -> E 4%nat = Some (mean (fun x => axionDensity q c (r x) (th x)) l).
Definition modulusRight (c : eparms) (E : nat -> option R) (l : list site) : Prop :=
  forall r th, (forall x, In x l -> polar c x (r x) (th x)) -> E 10%nat = Some (mean r l).
(** The numbers of a reply that belong to the mask, and the masked sites. *)
Definition maskPart (E : nat -> option R) (i : nat) : option R := E (11 + i)%nat.
Definition maskSites (rs : list rank) : list site := filter sMask (sites rs).
(** Nowhere zero. *)
Definition nonzero (l : list site) : Prop := forall x, In x l -> sM x <> (0, 0).
(** ** The map *)
(** Entry j of the first part and entry Vt + j of the second hold T and Rh of site j, on
    every rank. *)
Definition mapHolds (Vt : nat) (rs : list rank) (M : list (nat -> option R)) (T Rh : site -> R) : Prop :=
  Forall2 (fun r f => forall j x, nth_error (rSites r) j = Some x -> f j = Some (T x) /\ f (Vt + j)%nat = Some (Rh x)) rs M.
(** Density of all the energy. *)
Definition density (s : pq) (q : qcd) (c : eparms) (x : site) (r th : R) : R :=
  kineticDensity c x
  + (gradientDensity c x (sXp x) (sXm x) + gradientDensity c x (sYp x) (sYm x) + gradientDensity c x (sZp x) (sZm x))
  + saxionDensity s c r + axionDensity q c r th.
(** The first part of each rank's buffer holds as many entries as the rank has sites. *)
Definition fits (Vt : nat) (rs : list rank) : Prop := forall r, In r rs -> (length (rSites r) <= Vt)%nat.
(** All threads of every rank have counted their masked sites. *)
Definition counted (rs : list rank) : Prop := forall r, In r rs ->
  finished (snd (race (rSched r) (startRace (map (fun l => map ups (filter sMask l)) (rThreads r))))) = true.
