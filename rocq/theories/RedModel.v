(** Model of the reduction of grids, lib/reducer/reducer.cpp, and of the projection,
    lib/projector/projector.cpp.

    Numbers are rationals and arithmetic is exact; a complex field is reduced component by
    component with the same weights, so one component is modelled. The positions fX, fY, fZ are kept
    as numerators over newLx, newLx, newLz. The filtering in Fourier space is an arbitrary
    function of the array. Not modelled: rounding, GPU. *)
From Coq Require Import List Arith ZArith QArith.
Import ListNotations.
Local Open Scope nat_scope.

Definition qdiv (a b : nat) : Q := (inject_Z (Z.of_nat a) / inject_Z (Z.of_nat b))%Q.
Definition upd (f : nat -> Q) (p : nat) (v : Q) : nat -> Q := fun i => if i =? p then v else f i.

(** reducer.cpp:142-162: floor, ceil with the clamp, and the remainder of one coordinate *)
Definition cMin (num den : nat) : nat := num / den.
Definition cMax (num den L : nat) : nat := let c := (num + (den - 1)) / den in if L <=? c then L - 1 else c.
Definition cRem (num den : nat) : Q := qdiv (num mod den) den.

(** reducer.cpp:164-180: the value written at one coarse site *)
Definition interp (Lx Lz nLx nLz : nat) (f : nat -> Q) (nX nY nZ : nat) : Q :=
  let xMin := cMin nX nLx in let xMax := cMax nX nLx Lx in let rX := cRem nX nLx in
  let yMin := cMin nY nLx in let yMax := cMax nY nLx Lx in let rY := cRem nY nLx in
  let zMin := cMin nZ nLz in let zMax := cMax nZ nLz Lz in let rZ := cRem nZ nLz in
  let xyz := xMin + Lx * (yMin + Lx * zMin) in
  let Xyz := xMax + Lx * (yMin + Lx * zMin) in
  let xYz := xMin + Lx * (yMax + Lx * zMin) in
  let XYz := xMax + Lx * (yMax + Lx * zMin) in
  let xyZ := xMin + Lx * (yMin + Lx * zMax) in
  let XyZ := xMax + Lx * (yMin + Lx * zMax) in
  let xYZ := xMin + Lx * (yMax + Lx * zMax) in
  let XYZ := xMax + Lx * (yMax + Lx * zMax) in
  (f xyz * ((1 - rX) * (1 - rY) * (1 - rZ)) + f Xyz * (rX * (1 - rY) * (1 - rZ)) +
   f xYz * ((1 - rX) * rY * (1 - rZ)) + f XYz * (rX * rY * (1 - rZ)) +
   f xyZ * ((1 - rX) * (1 - rY) * rZ) + f XyZ * (rX * (1 - rY) * rZ) +
   f xYZ * ((1 - rX) * rY * rZ) + f XYZ * (rX * rY * rZ))%Q.

(** reducer.cpp:135-187: the loops, in place in f3, with the running positions *)
Definition redX (Lx Lz nLx nLz iy iz nY nZ : nat) (s : (nat -> Q) * nat) (ix : nat) : (nat -> Q) * nat :=
  let '(f, nX) := s in
  (upd f (ix + nLx * (iy + nLx * iz)) (interp Lx Lz nLx nLz f nX nY nZ), nX + Lx).
Definition redY (Lx Lz nLx nLz iz nZ : nat) (s : (nat -> Q) * nat * nat) (iy : nat) : (nat -> Q) * nat * nat :=
  let '(f, nX, nY) := s in
  let '(f, nX) := fold_left (redX Lx Lz nLx nLz iy iz nY nZ) (seq 0 nLx) (f, nX) in
  (f, 0, nY + Lx).
Definition redZ (Lx Lz nLx nLz : nat) (s : (nat -> Q) * nat * nat * nat) (iz : nat) : (nat -> Q) * nat * nat * nat :=
  let '(f, nX, nY, nZ) := s in
  let '(f, nX, nY) := fold_left (redY Lx Lz nLx nLz iz nZ) (seq 0 nLx) (f, nX, nY) in
  (f, nX, 0, nZ + Lz).
Definition reduceLoop (Lx Lz nLx nLz : nat) (f : nat -> Q) : nat -> Q :=
  let '(f, _, _, _) := fold_left (redZ Lx Lz nLx nLz) (seq 0 nLz) (f, 0, 0, 0) in f.

(** ** The whole reduction of m and v: reducer.cpp:191-283 *)
(** The data of a field object: m with ghosts, v, m2 *)
Record rfield := RField { rm : nat -> Q; rv : nat -> Q; rm2 : nat -> Q }.
(** memcpy (d + off, s, n) *)
Definition put (d : nat -> Q) (off : nat) (s : nat -> Q) (n : nat) : nat -> Q :=
  fun i => if (off <=? i) && (i <? off + n) then s (i - off) else d i.
Definition shift (f : nat -> Q) (off : nat) : nat -> Q := fun i => f (off + i).
(** [filt] is the transform, the filter and the transform back; the result is in m2. [fin] is the field,
    [out] the new one (ignored in place). Ng ghosts for both. The result: field, new field. *)
Definition runReduce (saxion inPlace : bool) (Lx Lz nLx nLz Ng : nat) (filt : (nat -> Q) -> nat -> Q)
  (fin out : rfield) : rfield * rfield :=
  let vol := nLx * nLx * nLz in
  let mOff := Lx * Lx * Ng in
  let nOff := nLx * nLx * Ng in
  let red := reduceLoop Lx Lz nLx nLz (filt (shift (rm fin) mOff)) in
  let '(fin, out) :=
    if inPlace then (RField (put (rm fin) nOff red vol) (rv fin) red, out)
    else if saxion then (RField (rm fin) (rv fin) red, RField (put (rm out) nOff red vol) (rv out) (rm2 out))
    (* :264-265: memcpy(mIn, fOut, volData): into the field, not the new one *)
    else (RField (put (rm fin) mOff red vol) (rv fin) red, out) in
  let redv := reduceLoop Lx Lz nLx nLz (filt (rv fin)) in
  if inPlace then (RField (rm fin) (put (rv fin) 0 redv vol) redv, out)
  else (RField (rm fin) (rv fin) redv, RField (rm out) (put (rv out) 0 redv vol) (rm2 out)).

(** ** Projection: projector.cpp:50-80 *)
(** projector.cpp:55-67. m of each rank holds the map (front ghost) and the partial sums (back ghost) *)
Fixpoint sumN (n : nat) (f : nat -> Q) : Q := match n with 0 => 0%Q | S n => (sumN n f + f n)%Q end.
Definition projLocal (Sf Lz back : nat) (filter : Q -> Q) (m2 m : nat -> Q) : nat -> Q :=
  fold_left (fun m pt =>
    let m := upd m pt 0%Q in
    let m := upd m (back + pt) 0%Q in
    fold_left (fun m zc => upd m (back + pt) (m (back + pt)%nat + filter (m2 (pt + Sf * zc)%nat))%Q) (seq 0 Lz) m)
    (seq 0 Sf) m.
(** projector.cpp:70-79: MPI_Reduce to rank 0, then the division on every rank *)
Definition project (Sf Lz nRanks back : nat) (filter : Q -> Q) (m2 m : nat -> nat -> Q) : nat -> nat -> Q :=
  let m := fun r => projLocal Sf Lz back filter (m2 r) (m r) in
  let m' := fun r i => if (r =? 0) && (i <? Sf) then sumN nRanks (fun r => m r (back + i)%nat) else m r i in
  fun r i => if i <? Sf then (m' r i * (1 / inject_Z (Z.of_nat (Lz * nRanks))))%Q else m' r i.
