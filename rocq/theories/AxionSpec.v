(** What the axion-only field should do: its value is m = R th, its velocity the derivative
    of that in conformal time, with R' the derivative of R. *)
From Coq Require Import Reals List Arith ZArith Permutation.
From Verif Require Import KernelModel LaneModel LaplModel ForceModel EnergySpec ConserveSpec AxionModel.
Import ListNotations.
Open Scope R_scope.

(** ** Potentials *)
(** Energy density of the axion at angle th, comments of enum-field.h:106-113 at the
    modulus of the vacuum, and the derivative. *)
Definition angleDensity (q : qcd) (ma2 th : R) : R :=
  match q with
  | QCD0 => 0
  | QCD1 | QCDC => ma2 * (1 - cos th)
  | QCDV => ma2 * ((1 - cos th) ^ 2 / 2 + sin th ^ 2 / 2)
  | QCD2 => ma2 * (sin th ^ 2 / 2)
  | QCDL => ma2 * (th ^ 2 / 2)
  end.
(** The acceleration of one update is that of th'' = lap th - (2R'/R) th' - R^2 V'(th),
    written for m = R th: m'' = lap m + (R''/R) m - R^3 V'(m/R). V' is any derivative of
    the density. *)
Definition followsLaw (P : prec) (q : qcd) (c : tparms) : Prop :=
  forall lp mel vel m2 v' m' dV, tDzc c <> 0 -> derivable_pt_lim (angleDensity q (tMa2 c)) (mel / tR c) dV ->
    tStep false P q c lp mel vel m2 = (v', m') ->
    (v' - vel) / tDzc c = lp + tRpp c * mel - tR c ^ 3 * dV /\ m' = mel + v' * tDzd c.

(** ** Energies *)
(** Shortest way between two angles, for fields kept within a period; otherwise the
    difference. *)
Definition turn (wMod : bool) (d e : R) : Prop :=
  if wMod then (exists k : Z, e = d + IZR k * (2 * PI)) /\ Rabs e < PI else e = d.
Definition kineticOf (b : tback) (x : tsite) : R :=
  ((tV x - bD1 b / bR b * tM x) / bR b) ^ 2 / 2 / bR b ^ 2.
(** Mean of the squares of the two one-sided derivatives of the angle, d and e being the
    differences of angle to the neighbours. *)
Definition gradientOf (b : tback) (d e : R) : R := (d ^ 2 + e ^ 2) / 2 / bDelta2 b / 2 / bR b ^ 2.
Definition opposite (d : dir) : dir := match d with Xp => Xm | Xm => Xp | Yp => Ym | Ym => Yp | Zp => Zm | Zm => Zp end.
(** Differences of angle of a site are [dth], less than one turn and a half in modulus. *)
Definition turns (wMod : bool) (b : tback) (x : tsite) (dth : dir -> R) : Prop :=
  forall d, turn wMod ((tNb x d - tM x) / bR b) (dth d) /\ (wMod = true -> Rabs ((tNb x d - tM x) / bR b) < 3 * PI).
Definition tsites (rs : list (list (list tsite))) : list tsite := concat (concat rs).
Definition answers (r : treply) (E : nat -> option R) : Prop := (exists m2, r = TReply E m2) \/ r = TReplyNoMap E.

(** ** A periodic box *)
Definition tsiteAt (n z : nat) (m v : cell -> R) (x : cell) : tsite :=
  TSite (m x) (v x) (fun d => m (stepTo n z 1 d x)) (snd (fst x)).
Definition tBoxLap (wMod : bool) (NN n z : nat) (d2 r : R) (m : cell -> R) (x : cell) : R :=
  tLap wMod (setCO NN) NN (/ d2) (tPeriod r) (m x) (fun nv d => m (stepTo n z nv d x)).
(** Every value moves with its velocity, every velocity with the acceleration that the
    update applies. *)
Definition tObeys (wMod : bool) (P : prec) (q : qcd) (NN n z : nat) (c : tparms) (d2 : R) (m v : R -> cell -> R) (t : R) : Prop :=
  forall x, In x (box n z) -> derivable_pt_lim (fun u => m u x) t (v t x) /\
    exists m2 v' m', tStep wMod P q c (tBoxLap wMod NN n z d2 (tR c) (m t) x) (m t x) (v t x) m2 = (v', m') /\
      derivable_pt_lim (fun u => v u x) t ((v' - v t x) / tDzc c).
(** Sum of the five averages, the box being split in any way. *)
Definition tTotal (P : prec) (I : isa) (wMod : bool) (b : tback) (n z : nat) (m v : cell -> R) (e : R) : Prop :=
  exists rs E h, Permutation (tsites rs) (map (tsiteAt n z m v) (box n z)) /\
    answers (tEnergy P I wMod false n b 1 rs) E /\ (forall i, (i < 5)%nat -> E i = Some (h i)) /\ e = sumOver h (seq 0 5).
Definition tWorld (c : tparms) (b : tback) : Prop :=
  tR c = bR b /\ tMa2 c = bMa2 b /\ 0 < bR b.
(** Without expansion the reported energy is conserved (with periods: where no two
    neighbours are exactly opposite). *)
Definition tConserves (massless wMod : bool) (P : prec) (I : isa) (NN : nat) (q : qcd) : Prop :=
  forall n z c b m v t T, (0 < n)%nat -> (0 < z)%nat -> tWorld c b -> (massless = true -> tMa2 c = 0) ->
    tRpp c = 0 -> bFrw b = 0 -> 0 < bDelta2 b -> tDzc c <> 0 ->
    (wMod = true -> forall x d, In x (box n z) -> Rabs (m t (stepTo n z 1 d x) - m t x) <> PI * tR c) ->
    tObeys wMod P q NN n z c (bDelta2 b) m v t ->
    (forall u, tTotal P I wMod b n z (m u) (v u) (T u)) -> derivable_pt_lim T t 0.

(** ** Fields that stand for the same angles *)
Definition sameAngle (r a b : R) : Prop := exists k : Z, b = a + IZR k * (2 * PI * r).
(** A difference that the program reduces correctly. *)
Definition reducible (r d : R) : Prop := Rabs d < 3 * PI * r /\ Rabs d <> PI * r.
