(** What the initial configurations are supposed to be, on the whole periodic box. *)
From Coq Require Import Reals List Arith Permutation.
From Verif Require Import KernelModel ForceSpec EnergySpec ConserveSpec GhostModel InitModel.
Import ListNotations.
Open Scope R_scope.

(** Grids and deliveries of messages that exist. *)
Definition sane (g : grid) : Prop :=
  (2 <= gL g /\ 1 <= gNg g /\ gNg g <= gZ g /\ 1 <= gRanks g /\ gL g * gL g * (gZ g + 2) <= gW g)%nat.
Definition delivery (g : grid) (order : list (bloc * bloc)) : Prop :=
  exists M C l, (0 < C)%nat /\ sendGhosts2 M C (gRanks g) (gL g * gL g) (gNg g) (gZ g) None = Some l /\ Permutation order l.
(** Slices of the whole box. *)
Definition depth (g : grid) : nat := (gRanks g * gZ g)%nat.
(** The ranks together hold the field M of the box (m), or its velocity V (v); rank r owns
    the slices from r Z on. *)
Definition spot (g : grid) (x y z : nat) : nat := (z * (gL g * gL g) + y * gL g + x)%nat.
Definition holds (g : grid) (M : ConserveSpec.cell -> R * R) (w : world) : Prop :=
  forall r x y z, (r < gRanks g)%nat -> (x < gL g)%nat -> (y < gL g)%nat -> (z < gZ g)%nat ->
    wM w r (spot g x y (gNg g + z)) = Some (M (x, y, r * gZ g + z)%nat).
Definition holdsV (g : grid) (V : ConserveSpec.cell -> R * R) (w : world) : Prop :=
  forall r x y z, (r < gRanks g)%nat -> (x < gL g)%nat -> (y < gL g)%nat -> (z < gZ g)%nat ->
    wV w r (spot g x y z) = Some (V (x, y, r * gZ g + z)%nat).
(** The ghost slices next to the owned ones hold the neighbouring slices of the box. *)
Definition ghostsHold (g : grid) (M : ConserveSpec.cell -> R * R) (w : world) : Prop :=
  forall r x y, (r < gRanks g)%nat -> (x < gL g)%nat -> (y < gL g)%nat ->
    wM w r (spot g x y (gNg g - 1)) = Some (M (x, y, (r * gZ g + (depth g - 1)) mod depth g)%nat) /\
    wM w r (spot g x y (gNg g + gZ g)) = Some (M (x, y, (r * gZ g + gZ g) mod depth g)%nat).
(** The box and its six directions. *)
Definition sites (g : grid) : list ConserveSpec.cell := ConserveSpec.box (gL g) (depth g).
Definition next (g : grid) (d : dir) (x : ConserveSpec.cell) : ConserveSpec.cell := stepTo (gL g) (depth g) 1 d x.
Definition around6 : list dir := [Xp; Xm; Yp; Ym; Zp; Zm].
(** One smoothing: alpha parts of the value and 1 - alpha parts of the mean of the six
    neighbours. *)
Definition mean6 (g : grid) (M : ConserveSpec.cell -> R * R) (x : ConserveSpec.cell) : R * R :=
  times (/ 6) (fold_right (fun d s => plus (M (next g d x)) s) (0, 0) around6).
Definition averaged (g : grid) (alpha : R) (M : ConserveSpec.cell -> R * R) (x : ConserveSpec.cell) : R * R :=
  plus (times alpha (M x)) (times (1 - alpha) (mean6 g M x)).
(** Roughness: sum of the squared differences between neighbours. *)
Definition roughness (g : grid) (M : ConserveSpec.cell -> R * R) : R :=
  sumOver (fun x => sumOver (fun d => sq (minus (M (next g d x)) (M x))) around6) (sites g).
(** A plane wave with p, q, s periods along the three sides. *)
Definition angle (g : grid) (p q s : nat) (x : ConserveSpec.cell) : R :=
  let '(i, j, k) := x in
  2 * PI * (INR p * INR i / INR (gL g) + INR q * INR j / INR (gL g) + INR s * INR k / INR (depth g)).
Definition planeWave (g : grid) (a : R) (p q s : nat) (x : ConserveSpec.cell) : R * R :=
  vacuum a (angle g p q s x).
(** Same direction in the complex plane *)
Definition samePhase (a b : R * R) : Prop := exists k, 0 < k /\ b = times k a.
Definition size (a : R * R) : R := sqrt (sq a).
Definition unitOf (a : R * R) : R * R := times (/ size a) a.
(** How much the phase turns around a point: the sum of the squares of the sines of the
    angles to the six neighbours, each weighted with the ratio of the moduli. *)
Definition twist (g : grid) (M : ConserveSpec.cell -> R * R) (x : ConserveSpec.cell) : R :=
  sumOver (fun d => (cross (M x) (M (next g d x)) / sq (M x)) ^ 2) around6.
(** Modulus given to a point with a given twist: that of a string at the distance from its
    core where the phase turns that much, in units of the size of the core. *)
Definition stringProfile (s : R) : R :=
  1 - (1 - s / 25 + 9 / 250 * s ^ 2) / (1 + 39 / 100 * s + s ^ 2 / 5 + 9 / 250 * s ^ 4).
Definition stringSize (LL R0 delta t : R) : R :=
  if Rle_dec t (1 / 10000000) then 1 else stringProfile (2 * sqrt LL * R0 * delta / sqrt t).
(** Velocity of phi = m/R when m moves with v and R'/R = Rp. *)
Definition phiVel (R0 Rp : R) (m v : R * R) : R * R := times (/ R0) (minus v (times Rp m)).
(** The field after n smoothings, normalisation and, if wanted, the core profile. *)
Definition prepared (g : grid) (q : ask) (R0 : R) (n : nat) (M : ConserveSpec.cell -> R * R) (x : ConserveSpec.cell) : R * R :=
  let S := Nat.iter n (averaged g (aAlpha q)) M in
  let N y := unitOf (S y) in
  if aCore q then times (stringSize (aLL q) R0 (aDelta q) (twist g N x)) (N x) else N x.
(** Everything outside the owned slices of m. *)
Definition outside (g : grid) (i : nat) : Prop := (i < mStart g \/ mStart g + vol g <= i)%nat.
