(** What the update of the nonrelativistic field should do. *)
From Coq Require Import Reals List Arith.
From Verif Require Import KernelModel LaneModel LaplModel ForceModel EnergyModel EnergySpec CosmoModel CosmoSpec ConserveSpec PaxModel.
Import ListNotations.
Open Scope R_scope.

(** [g] starts from 0 and has the rate [rate] at every h of the domain: it is the integral
    of [rate] over the step. *)
Definition integralOf (g rate : R -> R) (ok : R -> Prop) : Prop :=
  g 0 = 0 /\ forall h, ok h -> derivable_pt_lim g h (rate h).
(** The law of the mass does not change between the two times. *)
Definition sameEra (c : cosmo) (a b : R) : Prop :=
  (scale c a < zThRes c /\ scale c b < zThRes c)
  \/ (zThRes c <= scale c a /\ zThRes c <= scale c b /\ (zThRes c <= zRestore c -> scale c a <= zRestore c /\ scale c b <= zRestore c))
  \/ (zThRes c <= zRestore c /\ zRestore c < scale c a /\ zRestore c < scale c b).
(** Not at a change of the law. *)
Definition insideEra (c : cosmo) (t : R) : Prop :=
  scale c t <> zThRes c /\ (zThRes c <= zRestore c -> scale c t <> zRestore c).
Definition axionMass (c : cosmo) (t : R) : R := sqrt (AxionMass2 c t).
(** i psi' = - lap psi / (2 mA R) - (beta |psi|^2 / (8 R^2) - mA g phi) psi, psi = m + i v,
    with the Laplacian of NN neighbours. *)
Definition selfPhase (r : prun) (phi : cell -> R) (t : R) (m v : fld) (x : cell) : R :=
  rBeta r * (m x * m x + v x * v x) / (8 * scale (rC r) t ^ 2) - axionMass (rC r) t * rGrav r * phi x.
Definition lapOf (r : prun) (m v : fld) (x : cell) : R * R :=
  boxLap (rNN r) (rn r) (rnz r) (/ rOod2 r) (fun y => (m y, v y)) x.
Definition rateM (r : prun) (phi : cell -> R) (t : R) (m v : fld) (x : cell) : R :=
  - (snd (lapOf r m v x) / (2 * axionMass (rC r) t * scale (rC r) t)) - selfPhase r phi t m v x * v x.
Definition rateV (r : prun) (phi : cell -> R) (t : R) (m v : fld) (x : cell) : R :=
  fst (lapOf r m v x) / (2 * axionMass (rC r) t * scale (rC r) t) + selfPhase r phi t m v x * m x.
(** The gravitational potential is given: none, or one that the step does not change. *)
Definition fixedPhi (r : prun) (phi : cell -> R) : Prop :=
  (rPhi r = None /\ phi = (fun _ => 0)) \/ rPhi r = Some (fun _ _ => phi).
(** A background on which the weights of the step make sense. *)
Definition fineAt (r : prun) (t : R) : Prop :=
  plain (rC r) /\ frw (rC r) <> 1 / 2 /\ 0 < t /\ 0 < zThRes (rC r) /\ 0 < zRestore (rC r) /\ indi3 (rC r) <> 0 /\ rOod2 r <> 0.
(** Total number, and the two sums over the box. *)
Definition number (r : prun) (m v : fld) : R := sumOver (fun x => m x * m x + v x * v x) (box (rn r) (rnz r)).
Definition total (r : prun) (f : fld) : R := sumOver f (box (rn r) (rnz r)).
(** psi turned by the angle a. *)
Definition turned (a : R) (p q : R * R) : Prop :=
  fst q = fst p * cos a - snd p * sin a /\ snd q = fst p * sin a + snd p * cos a.
(** A box that does not expand, without self-interaction and gravity. *)
Definition still (r : prun) : Prop := frw (rC r) = 0 /\ rBeta r = 0 /\ rPhi r = None /\ indi3 (rC r) <> 0.
(** [e] is a mode of the box: the Laplacian multiplies it by - lam. *)
Definition mode (r : prun) (e : fld) (lam : R) : Prop :=
  forall x, In x (box (rn r) (rnz r)) -> fst (boxLap (rNN r) (rn r) (rnz r) (/ rOod2 r) (fun y => (e y, 0)) x) = - lam * e x.
(** The field is on the mode, with amplitudes a and b. *)
Definition onMode (r : prun) (e : fld) (a b : R) (m v : fld) : Prop :=
  forall x, In x (box (rn r) (rnz r)) -> m x = a * e x /\ v x = b * e x.
(** What the mode turns by in a step of a box that does not expand. *)
Definition angle (r : prun) (lam dz t : R) : R := dz * lam / (2 * axionMass (rC r) t).
(** The alternating field, the fastest mode of a box with even sides. *)
Definition sgn (k : nat) : R := if Nat.even k then 1 else -1.
Definition alt : fld := fun x => let '(i, j, k) := x in sgn (i + j + k).
(** The conformal mass. *)
Definition confMass (c : cosmo) (u : R) : R := axionMass c u * scale c u.
(** The relativistic field near t of a slowly varying psi = m + i v: an oscillation of
    frequency M and phase S, of amplitude |psi| sqrt(2/M). *)
Definition oscillation (M S : R -> R) (m v : R) : R -> R := fun u => sqrt (2 / M u) * (m * cos (S u) + v * sin (S u)).
