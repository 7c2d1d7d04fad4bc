(** What a step with a spectral Laplacian should do. *)
From Coq Require Import Reals List Arith ZArith Bool.
From Verif Require Import GravModel LaneModel ForceModel ForceSpec FourModel FourSpec SlapModel.
Import ListNotations.
Local Open Scope R_scope.

(** The complex field and its velocity at place i of rank r; the axion and its velocity. *)
Definition field (g : geo) (M : mem) (r i : nat) : cpx :=
  (M AM r (2 * (gNg g * (gL g * gL g) + i))%nat, M AM r (2 * (gNg g * (gL g * gL g) + i) + 1)%nat).
Definition speed (M : mem) (r i : nat) : cpx := (M AV r (2 * i)%nat, M AV r (2 * i + 1)%nat).
Definition angle (g : geo) (M : mem) (r i : nat) : R := M AM r (gNg g * (gL g * gL g) + i)%nat.
Definition angleSpeed (g : geo) (M : mem) (r i : nat) : R := M AM r (gL g * gL g * (gLz g + 2 * gNg g) + i)%nat.

(** The square of the momentum of a mode in a box of side l, for a box as deep as long. *)
Definition kSquared (l : R) (g : geo) (r yl z x : nat) : R := (2 * PI / l) ^ 2 * INR (momentum2 g r yl z x).
(** The same for any depth: sites are l over L apart in all directions. *)
Definition kTrue (l : R) (g : geo) (r yl z x : nat) : R :=
  let dist n := l / INR (gL g) * INR n in
  (2 * PI / dist (gL g) * INR (distance0 (gL g) x)) ^ 2
  + (2 * PI / dist (gL g) * INR (distance0 (gL g) (r * (gL g / gK g) + yl))) ^ 2
  + (2 * PI / dist (gLz g * gK g)%nat * INR (distance0 (gLz g * gK g) z)) ^ 2.
(** G is the Laplacian of F: each mode of it is minus the momentum squared times that of F. *)
Definition isLaplacian (T : fft) (l : R) (g : geo) (F G : nat -> nat -> cpx) : Prop :=
  forall r yl z x, modeAt g r yl z x ->
    fC T G r (modePlace g yl z x) = FourSpec.times (- kSquared l g r yl z x) (fC T F r (modePlace g yl z x)).

(** For a real field half the modes are kept: rows of L/2+1. *)
Definition halfPlace (g : geo) (yl z x : nat) : nat := ((yl * (gLz g * gK g) + z) * (gL g / 2 + 1) + x)%nat.
Definition halfMode (g : geo) (r yl z x : nat) : Prop := (r < gK g /\ yl < gL g / gK g /\ z < gLz g * gK g /\ x <= gL g / 2)%nat.
Definition isLaplacianR (T : fft) (l : R) (g : geo) (F G : nat -> nat -> R) : Prop :=
  forall r yl z x, halfMode g r yl z x ->
    fR T G r (halfPlace g yl z x) = FourSpec.times (- kSquared l g r yl z x) (fR T F r (halfPlace g yl z x)).
(** Transforms of real fields: they see the sites and the modes of the box only and are linear; fields with the same modes are the same; the modes of a field
    weighted by a function of their momentum are, there and back, those times the number of sites. *)
Record realTransforms (T : fft) (g : geo) : Prop := {
  fR_local : forall f h, (forall r i, here g r i -> f r i = h r i) -> forall r yl z x, halfMode g r yl z x -> fR T f r (halfPlace g yl z x) = fR T h r (halfPlace g yl z x);
  fR_faithful : forall f h, (forall r yl z x, halfMode g r yl z x -> fR T f r (halfPlace g yl z x) = fR T h r (halfPlace g yl z x)) -> forall r i, here g r i -> f r i = h r i;
  fR_linear : forall c f h r yl z x, halfMode g r yl z x ->
    fR T (fun r i => f r i + c * h r i) r (halfPlace g yl z x) = FourSpec.plus (fR T f r (halfPlace g yl z x)) (FourSpec.times c (fR T h r (halfPlace g yl z x)));
  bR_local : forall A B, (forall r yl z x, halfMode g r yl z x -> A r (halfPlace g yl z x) = B r (halfPlace g yl z x)) -> forall r i, here g r i -> bR T A r i = bR T B r i;
  weighted : forall f (h : nat -> R) A,
    (forall r yl z x, halfMode g r yl z x -> A r (halfPlace g yl z x) = FourSpec.times (h (momentum2 g r yl z x)) (fR T f r (halfPlace g yl z x))) ->
    forall r yl z x, halfMode g r yl z x ->
      fR T (bR T A) r (halfPlace g yl z x) = FourSpec.times (sites g * h (momentum2 g r yl z x)) (fR T f r (halfPlace g yl z x)) }.

(** Minus the slope of each Peccei-Quinn potential (FourSpec.potential1, potential2). *)
Definition pqForce (p : ForceModel.pq) (lam Rr : R) (x : cpx) : cpx :=
  match p with ForceModel.PQ2 => slope2 lam Rr x | _ => FourSpec.slope lam Rr x end.
(** Minus the slope of the first axion potential, - ma2 R^3 x. *)
Definition qcdForce (q : qcd) (ma2 Rr : R) : cpx := match q with QCD1 => (ma2 * Rr ^ 3, 0) | _ => (0, 0) end.

(** The motion of a wave under kicks and drifts: each mode by itself. *)
Definition kickDrift (k2 dz : R) (y : cpx * cpx) (cd : R * R) : cpx * cpx :=
  let v := FourSpec.plus (snd y) (FourSpec.times (- (dz * fst cd * k2)) (fst y)) in
  (FourSpec.plus (fst y) (FourSpec.times (dz * snd cd) v), v).

(** The velocity given by the propagator with stencils (ForceModel) at the same site, with the same Laplacian. *)
Definition asStencil (P : prec) (I : isa) (v : ForceModel.pot) : Prop :=
  forall c junk p mel lap vel, 0 < pR c -> (p < lanesOf P I)%nat ->
    sNewVel P I v c junk p mel lap vel = newVel Fused P I v c p mel lap vel.
(** The angle obeys th'' = lap - mA^2 R^2 slope (see ForceSpec.feelsMass). *)
Definition feels (P : prec) (I : isa) (q : qcd) : Prop :=
  forall s c junk p th mel lap vel w, s <> ForceModel.PQ3 -> 0 < pR c -> (p < lanesOf P I)%nat ->
    - PI < th <= PI -> pairOf p mel = vacuum (pR c) th ->
    sNewVel P I (plain s q) c junk p mel lap vel = Some w ->
    tang th w - tang th (pairOf p vel) = pDzc c * (tang th (pairOf p lap) - pR c * (pMa2 c * pR c ^ 2 * ForceSpec.slope q th)).

(** What the velocity of the axion gains: m'' = lap m + (R''/R) m - mA^2 R^3 sin(m/R) (see AxionSpec). *)
Definition axionForce (b : back) (z lap m : R) : R := lap + kRpp b z * m - kMa2 b z * kR b z ^ 3 * sin (m / kR b z).
