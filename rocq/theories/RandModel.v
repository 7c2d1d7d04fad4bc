(** Model of /repo/lib/gen/randXeon.cpp: the named initial configurations. Exact arithmetic;
    the decimals 6.2831853 and 3.14159265 are those of the code. *)
From Coq Require Import Reals List Arith ZArith Bool.
From Verif Require Import InitModel.
Import ListNotations.
Open Scope R_scope.

(** enum-field.h, ConfsubType; the kinds of randXeon.cpp:66-104. *)
Inductive conf := Rand | AxNoise | SaxNoise | Ax1Mode | MiniCluster | MiniCluster0 | Axiton
  | StringXY | StringYZ | ParRes | StrWave | ThetaVel | VelRand.
(** What the code reads: mode0, kcr, kMax of the initial conditions, the global kCrit, the
    physical size of the box, the wave vector (kMx, kMy, kMz; :44-61: from kkk.dat, or
    (kMax, 0, 0)). *)
Record wish := Wish { iMode0 : R; iKcr : R; iKMax : nat; iKCrit : R; iSide : R; iWave : R * R * R }.
(** :35: a comparison, converted to a number. *)
Definition mod0 (c : wish) : R := if Rlt_dec 0 (iMode0 c) then 1 else 0.
(** :40 *)
Definition kCri2 (c : wish) (Lx : nat) : R := iSide c * iSide c / (2 * INR (Lx * Lx) * iKcr c * iKcr c).
(** :49 *)
Definition strR (c : wish) : R := if Rlt_dec 0 (iMode0 c) then iMode0 c else 0.2501.
(** :27-32, :148-150: coordinates of element idx on a rank. *)
Definition cellAt (Lx ranks rank idx : nat) : nat * nat * nat :=
  let Sf := (Lx * Lx)%nat in
  (((idx mod Sf) mod Lx)%nat, ((idx mod Sf) / Lx)%nat, (idx / Sf + rank * (Lx / ranks))%nat).
(** :168-169 and like it: [iz > Lx/2] then z - Lx, as an int. *)
Definition fold0 (Lx i : nat) : Z := if (Lx / 2 <? i)%nat then (Z.of_nat i - Z.of_nat Lx)%Z else Z.of_nat i.
(** size_t arithmetic *)
Definition szt (a : Z) : Z := (a mod 2 ^ 64)%Z.
Definition usquare (a : Z) : Z := szt (szt a * szt a).
(** :170: x - Lx/2 is computed in size_t and may wrap around; so are its square and the
    sum. The product z*z is one of ints (exact: no overflow is modelled). *)
Definition far2 (Lx x y z : nat) : Z :=
  let h := Z.of_nat (Lx / 2) in
  let zz := fold0 Lx z in
  szt (szt (usquare (Z.of_nat x - h) + usquare (Z.of_nat y - h)) + szt (zz * zz)).
(** :187-190 *)
Definition near2 (Lx x y z : nat) : Z :=
  let q i := (fold0 Lx i * fold0 Lx i)%Z in (q x + q y + q z)%Z.
(** :231-250 and :276-283: angle of a loop of strings of radius aL, at distance rho from its
    axis and z from its plane, before the sign. None: not a number. *)
Definition loopAngle (aL rho z : R) : option R :=
  let d1 := (rho + aL) * (rho + aL) + z * z in
  let d2 := (rho - aL) * (rho - aL) + z * z in
  if Req_EM_T (sqrt (d1 * d2)) 0 then None
  else Some (3.14159265 * (0.5 + (4 * aL * aL - d1 - d2) / (4 * sqrt (d1 * d2)))).
(** :233-235 *)
Definition ringZ (c : wish) (Tz z : nat) : R :=
  let zis := INR z - iKCrit c in
  let zis := if Rlt_dec (INR Tz / 2) zis then zis - INR Tz else zis in
  if Rlt_dec (INR Tz / 2) (- zis) then zis + INR Tz else zis.
Definition polar (r : R) (th : R) : R * R := (r * cos th, r * sin th).
(** :118-330: the new value of one element. [u1], [u2]: the next two random numbers; [old]:
    what was there. *)
Definition value (k : conf) (c : wish) (Lx Tz : nat) (u1 u2 : R) (old : num) (p : nat * nat * nat) : num :=
  let '(x, y, z) := p in
  let '(kx, ky, kz) := iWave c in
  match k with
  | Rand => Some (u1, u2)
  | AxNoise => Some (polar 1 (mod0 c + u1 * iKcr c))
  | SaxNoise => Some (polar (u1 * iKcr c + 1) (mod0 c))
  | Ax1Mode => Some (polar 1 (mod0 c * cos (6.2831853 * INR (x * iKMax c + y) / INR Lx)))
  | MiniCluster => Some (polar 1 (exp (- IZR (far2 Lx x y z) * kCri2 c Lx) * mod0 c))
  | MiniCluster0 => Some (polar 1 (exp (- IZR (near2 Lx x y z) * kCri2 c Lx) * mod0 c))
  | Axiton => Some (polar 1 (mod0 c / (IZR (near2 Lx x y z) * kCri2 c Lx + 1)))
  | StringXY =>
      let zis := ringZ c Tz z in
      let h := Z.of_nat (Lx / 2) in
      let rho := sqrt (IZR (szt (usquare (Z.of_nat x - h) + usquare (Z.of_nat y - h)))) in
      match loopAngle (INR Lx * strR c) rho zis with
      | Some a => if Req_EM_T zis 0.01 then None else Some (polar 1 (a * (-0.01 + zis) / Rabs (-0.01 + zis)))
      | None => None
      end
  | StringYZ =>
      let h := Z.of_nat (Lx / 2) in
      let zz := fold0 Lx z in
      let rho := sqrt (IZR (szt (szt (zz * zz) + usquare (Z.of_nat y - h)))) in
      match loopAngle (INR Lx * strR c) rho (sqrt (IZR (usquare (Z.of_nat x - h)))) with
      | Some a => Some (polar 1 (if (Lx / 2 <? x)%nat then - a else a))
      | None => None
      end
  | ParRes => Some (polar (iKcr c) (mod0 c * cos (6.2831853 * (INR x * kx + INR y * ky + INR z * kz) / INR Lx)))
  | ThetaVel => Some (0, mod0 c * sin (2 * PI / INR Lx * (INR x * kx + INR y * ky + INR z * kz)))
  | VelRand => Some (0, mod0 c * u1)
  | StrWave => old
  end.
(** :334-375: a product of vortices, by which the first Lx/ranks slices are multiplied.
    [vortices]: the factor for each point of the plane. *)
Definition wave (Lx ranks : nat) (vortices : nat -> nat -> R * R) (old : num) (idx : nat) : num :=
  let Sf := (Lx * Lx)%nat in
  if (idx / Sf <? Lx / ranks)%nat then cmul old (Some (vortices ((idx mod Sf) mod Lx) ((idx mod Sf) / Lx)%nat)) else old.
(** randConf, :380-519: the instance that runs for a kind. *)
Definition dispatch (p : width) (k : conf) : conf :=
  match p, k with
  | Double, Axiton => ParRes
  | _, k => k
  end.
(** A whole field written on every rank, in the owned slices; [u1], [u2]: random numbers. *)
Definition written (p : width) (k : conf) (c : wish) (vortices : nat -> nat -> R * R) (g : grid) (u1 u2 : nat -> nat -> R) (old : nat -> nat -> num) (r i : nat) : num :=
  match dispatch p k with
  | StrWave => wave (gL g) (gRanks g) vortices (old r i) i
  | k' => value k' c (gL g) (gRanks g * gZ g) (u1 r i) (u2 r i) (old r i) (cellAt (gL g) (gRanks g) r i)
  end.
Definition randConf (p : width) (k : conf) (c : wish) (vortices : nat -> nat -> R * R) (g : grid) (u1 u2 : nat -> nat -> R) (w : world) : world :=
  World (fun r => putOwned g (written p k c vortices g u1 u2 (fun r i => wM w r (mStart g + i)%nat) r) (wM w r)) (wV w) (wM2 w).
