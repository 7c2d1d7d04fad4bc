(** What a user means by the equations of motion of the complex field, in terms of
    complex numbers (pairs of reals) and of angles: no registers. *)
From Coq Require Import Reals.
From Verif Require Import LaneModel ForceModel.
Open Scope R_scope.

(** Scalar product, oriented product, square of the modulus. *)
Definition dot (a b : R * R) : R := fst a * fst b + snd a * snd b.
Definition cross (a b : R * R) : R := fst a * snd b - snd a * fst b.
Definition sq (a : R * R) : R := dot a a.
Definition times (k : R) (a : R * R) : R * R := (k * fst a, k * snd a).
Definition plus (a b : R * R) : R * R := (fst a + fst b, snd a + snd b).
(** The vacuum of angle th, and the component of a vector along growing angle there. *)
Definition vacuum (r th : R) : R * R := (r * cos th, r * sin th).
Definition tang (th : R) (a : R * R) : R := - sin th * fst a + cos th * snd a.

(** Slope of each axion potential, in units of the mass squared: the comments of
    enum-field.h:106-111 read on the vacuum circle. *)
Definition slope (q : qcd) (th : R) : R :=
  match q with
  | QCD0 => 0
  | QCD1 | QCDV | QCDC => sin th
  | QCD2 => sin (2 * th) / 2
  | QCDL => th
  end.
(** Options that change neither the velocity by damping nor its direction. *)
Definition plain (k : pq) (q : qcd) : pot := Pot k q NoDamp EvolAll.
(** An angle obeys th'' = lap - mA^2 R^2 slope: what one update of the velocity adds
    to its component along the angle, at any number p of a register. *)
Definition feelsMass (k : kern) (P : prec) (I : isa) (q : qcd) : Prop :=
  forall s c p th mel lap vel w, 0 < pR c -> (p < lanesOf P I)%nat ->
    - PI < th <= PI -> pairOf p mel = vacuum (pR c) th ->
    newVel k P I (plain s q) c p mel lap vel = Some w ->
    tang th w - tang th (pairOf p vel) = pDzc c * (tang th (pairOf p lap) - pR c * (pMa2 c * pR c ^ 2 * slope q th)).

(** Rate of the damping: gamma over R, or gamma R over the decoupling time. *)
Definition rate (c : parms) (G : R) : Prop :=
  (pDec c <= 0 -> G * pR c = pGamma c) /\ (0 < pDec c -> G * pDec c = pGamma c * pR c).
(** Motion of the modulus with respect to the vacuum: m.v - |m|^2 R'/R. *)
Definition radial (c : parms) (m x : R * R) : R := dot m x - sq m * pRp c.

(** ** Several updates at one site *)
(** What the surroundings supply to each update: the parameters and two registers, of
    the Laplacian and of the other numbers of the field and velocity registers. *)
Record visit := Visit { vParms : parms; vLap : rreg; vM : rreg; vV : rreg }.
(** A register whose number p is [x]. *)
Definition put (p : nat) (x : R * R) (r : rreg) : rreg := fun i =>
  if Nat.eqb i (2 * p) then fst x else if Nat.eqb i (2 * p + 1) then snd x else r i.
Fixpoint visits (k : kern) (P : prec) (I : isa) (v : pot) (p : nat) (l : list visit) (s : (R * R) * (R * R))
  : option ((R * R) * (R * R)) :=
  match l with
  | nil => Some s
  | cons x r =>
      match newVel k P I v (vParms x) p (put p (fst s) (vM x)) (vLap x) (put p (snd s) (vV x)) with
      | None => None
      | Some w => visits k P I v p r (newField (vParms x) (fst s) w, w)
      end
  end.

(** ** Claims *)
(** Damping of the modulus: the undamped update is followed half a step before and half
    a step after by the friction G; the angle does not feel it. *)
Definition dampsModulus (k : kern) (P : prec) (I : isa) (p : nat) : Prop :=
  forall s q c G mel lap vel w0, 0 < pR c -> rate c G -> G * pDzc c / 2 <> -1 -> pairOf p mel <> (0, 0) ->
    newVel k P I (Pot s q NoDamp EvolAll) c p mel lap vel = Some w0 ->
    exists w, newVel k P I (Pot s q DampRho EvolAll) c p mel lap vel = Some w
      /\ let m := pairOf p mel in
         cross m w = cross m w0
         /\ radial c m w - radial c m w0 = - (G * pDzc c / 2) * (radial c m (pairOf p vel) + radial c m w).
(** Damping of everything. *)
Definition dampsAll (k : kern) (P : prec) (I : isa) (p : nat) : Prop :=
  forall s q c G mel lap vel w0, 0 < pR c -> rate c G -> G * pDzc c / 2 <> -1 ->
    newVel k P I (Pot s q NoDamp EvolAll) c p mel lap vel = Some w0 ->
    exists w, newVel k P I (Pot s q DampAll EvolAll) c p mel lap vel = Some w
      /\ plus w (times (-1) w0) = times (- (G * pDzc c / 2)) (plus (pairOf p vel) w).
(** Only the modulus moves: after any number of updates the field is a multiple of what
    it was, and the velocity is a multiple of the field. *)
Definition keepsPhase (k : kern) (P : prec) (I : isa) (p : nat) : Prop :=
  forall s q d l m x m' x', visits k P I (Pot s q d EvolRho) p l (m, x) = Some (m', x') -> l <> nil ->
    exists a b, m' = times a m /\ x' = times b m.
(** Only the angle moves: along the field the velocity is that of the vacuum, across it
    the velocity gains what the surroundings and the axion potential give. *)
Definition onlyAngle (k : kern) (P : prec) (I : isa) (p : nat) : Prop :=
  forall s q c mel lap vel w0 w,
    newVel k P I (Pot s q NoDamp EvolAll) c p mel lap vel = Some w0 ->
    newVel k P I (Pot s q NoDamp EvolTheta) c p mel lap vel = Some w ->
    let m := pairOf p mel in
    dot m w = sq m * (pRp c + pRpp c * pDzc c) /\ cross m w = cross m w0.

(** What the program hands to the kernels as R'/R. *)
Definition given (k : kern) (junk : R) (c : parms) : parms :=
  Parms (pR c) (pLam c) (pMa2 c) (pRpp c) (rpGiven k (pRp c) junk) (pGamma c) (pDec c) (pDzc c) (pDzd c).
(** Two ways of running a simulation update the same site in the same way. *)
Definition agree (k : kern) (P : prec) (I : isa) (k' : kern) (P' : prec) (I' : isa) (v : pot) : Prop :=
  forall c junk junk' p p' mel lap vel mel' lap' vel',
    (p < lanesOf P I)%nat -> (p' < lanesOf P' I')%nat ->
    pairOf p mel = pairOf p' mel' -> pairOf p lap = pairOf p' lap' -> pairOf p vel = pairOf p' vel' ->
    newVel k P I v (given k junk c) p mel lap vel = newVel k' P' I' v (given k' junk' c) p' mel' lap' vel'.
