(** The Gadget writer: lib/gadget/gadget_output.cpp, test/gadgetme.cpp.

    Simplifications, here and below: single precision values and the doubles of the header
    are real numbers; the HDF5 calls succeed and a hyperslab lands at its offset in the
    dataset; the grid is the cube of the caller (totlX = totlZ = realN, gadget_output.cpp
    434-436, test/gadgetme.cpp 75 and 85-86); the random generators are oracles. *)
From Coq Require Import Reals List Arith ZArith Bool.
Import ListNotations.
Open Scope R_scope.

(** ** Shared pieces *)
(** x, y, z of a local site: gadget_output.cpp 630-633, 1373-1377 (zC += myRank*Lz apart). *)
Definition coordOf (n i : nat) : nat * nat * nat :=
  let yC := (i / n)%nat in let zC := (yC / n)%nat in ((i - n * yC)%nat, (yC - zC * n)%nat, zC).
(** One step along the grid: gadget_output.cpp 744-746, 1457-1459, 1530-1533. *)
Definition stepCoord (n : nat) (c : nat * nat * nat) : nat * nat * nat :=
  let '(x, y, z) := c in
  let '(x, y) := if (S x =? n)%nat then (O, S y) else (S x, y) in
  if (y =? n)%nat then (x, O, S z) else (x, y, z).
(** zC += myRank*Lz: gadget_output.cpp 634, 1378; zC += Lz*rSend: 1500. *)
Definition lift (n lz r : nat) (c : nat * nat * nat) : nat * nat * nat :=
  let '(x, y, z) := c in (x, y, (z + r * lz)%nat).
(** Folding into the box, once: gadget_output.cpp 656-661, 1400-1406, 1433-1439, 1515-1521. *)
Definition wrapOnce (L x : R) : R :=
  let y := if Rlt_dec x 0 then x + L else x in if Rlt_dec L y then y - L else y.
(** A coordinate of a particle: gadget_output.cpp 652-654 ([off] the displacement, 0 without
    the flag), 1396-1398 and 1429-1431 ([off] = 0.5 + gauss). *)
Definition place1 (n : nat) (L off : R) (c : nat) : R := wrapOnce L ((INR c + off) * L / INR n).
(** 32-bit product totlX*totlX*totlZ of three uint: gadget_output.cpp 434-435, 527, 534, 978-979, 1058. *)
Definition cells32 (n : nat) : Z := ((Z.of_nat n * Z.of_nat n * Z.of_nat n) mod 2 ^ 32)%Z.

Fixpoint sumN (k : nat) (f : nat -> R) : R := match k with O => 0 | S j => sumN j f + f j end.
(** eMean_local: gadget_output.cpp 492-504, 518, 1023-1036, 1050: pairs of sites, then divided
    by their number. *)
Definition localMean (roff : nat) (d : nat -> R) : R :=
  sumN (roff / 2) (fun i => d (2 * i)%nat + d (2 * i + 1)%nat) / INR roff.
(** eMean_global: gadget_output.cpp 519-520, 1051-1052. *)
Definition globalMean (ranks roff : nat) (d : nat -> nat -> R) : R :=
  sumN ranks (fun r => localMean roff (d r)) / INR ranks.
(** neweMean: gadget_output.cpp 527, 1058. *)
Definition newMean (n ranks roff np : nat) (d : nat -> nat -> R) : R :=
  globalMean ranks roff d * IZR (cells32 n) / INR np.

(** ** The void mapping *)
(** A run of it: side of the grid, ranks, requested particles, box size and total mass in
    the units of the file, and |psi|^2 at every site of the grid. *)
Record vrun := { vN : nat; vRanks : nat; vParts : nat; vBox : R; vMass : R; vDen : nat * nat * nat -> R }.
Definition vLz (v : vrun) : nat := (vN v / vRanks v)%nat. (* gadget_output.cpp 436 *)
Definition vSlab (v : vrun) : nat := (vN v * vN v)%nat. (* gadget_output.cpp 446 *)
Definition vOff (v : vrun) : nat := (vN v * vN v * vLz v)%nat. (* gadget_output.cpp 447 *)
(** newEn on rank r: gadget_output.cpp 469-477. *)
Definition vLoc (v : vrun) (r i : nat) : R := vDen v (lift (vN v) (vLz v) r (coordOf (vN v) i)).
(** The mass left in m2 at site i of rank r: gadget_output.cpp 375-376, 527-529, 607-610. *)
Definition vSiteMass (v : vrun) (r i : nat) : R :=
  vLoc v r i * (1 / newMean (vN v) (vRanks v) (vOff v) (vParts v) (vLoc v)) * (vMass v / INR (vParts v)).
(** pp_grid; division by zero ends the program: gadget_output.cpp 534. *)
Definition ppGrid (v : vrun) : option nat :=
  if (cells32 (vN v) =? 0)%Z then None else Some (Z.to_nat (Z.of_nat (vParts v) / cells32 (vN v))).
(** Sites served for one slab of the file: the loop gadget_output.cpp 637-748, for one rank. A
    site is its index and its coordinates. *)
Definition gsite := (nat * (nat * nat * nat))%type.
Fixpoint fillVoid (n pp slab V fuel idx : nat) (c : nat * nat * nat) (t : nat) : list gsite * nat :=
  match fuel with
  | O => ([], idx)
  | S f => if ((idx <? V)%nat && (t <? slab)%nat)%bool then
             let (l, i) := fillVoid n pp slab V f (S idx) (stepCoord n c) (t + pp)%nat in (repeat (idx, c) pp ++ l, i)
           else ([], idx)
  end.
(** What a buffer of [slab] entries holds after the first ones were overwritten: what is not
    overwritten stays ([None]: never written). *)
Definition refill {A} (slab : nat) (buf : list (option A)) (l : list A) : list (option A) :=
  firstn slab (map Some l ++ skipn (length l) buf).
(** The slabs written by one rank: gadget_output.cpp 619-765. *)
Fixpoint voidSlabs (n pp slab V k lPos : nat) (buf : list (option gsite)) : list (option gsite) :=
  match k with
  | O => []
  | S j => let (l, i) := fillVoid n pp slab V V lPos (coordOf n lPos) 0 in
           let buf' := refill slab buf l in buf' ++ voidSlabs n pp slab V j i buf'
  end.
(** One entry of the file. *)
Record gpart := { gX : R; gY : R; gZ : R; gM : R }.
(** gadget_output.cpp 649-665 and 726-730 without displacement (the caller always passes
    disp_flag = false, test/gadgetme.cpp 50, 85). *)
Definition vPart (v : vrun) (r : nat) (s : gsite) : gpart :=
  let '(i, c) := s in let '(x, y, z) := lift (vN v) (vLz v) r c in
  {| gX := place1 (vN v) (vBox v) 0 x; gY := place1 (vN v) (vBox v) 0 y; gZ := place1 (vN v) (vBox v) 0 z; gM := vSiteMass v r i |}.
(** Nslabs: gadget_output.cpp 585, 1349. *)
Definition nSlabs (np slab ranks : nat) : nat := (np / slab / ranks)%nat.
(** The positions and masses of the file, in order ([None]: the entry holds whatever memory
    held, or was never written): gadget_output.cpp 619-765; the offset is (rank Nslabs + zDim) slab. *)
Definition voidFile (v : vrun) : option (list (option gpart)) :=
  match ppGrid v with
  | None => None
  | Some pp =>
      let k := nSlabs (vParts v) (vSlab v) (vRanks v) in
      Some (flat_map (fun r => map (option_map (vPart v r)) (voidSlabs (vN v) pp (vSlab v) (vSlab v * vLz v) k 0 (repeat None (vSlab v)))) (seq 0 (vRanks v))
            ++ repeat None (vParts v - vRanks v * k * vSlab v))
  end.
(** ParticleIDs: gadget_output.cpp 770-783, 1652-1676. *)
Definition idFile (np slab ranks : nat) : list (option nat) :=
  let k := nSlabs np slab ranks in
  map Some (flat_map (fun r => flat_map (fun z => map (fun i => ((r * k + z) * slab + i)%nat) (seq 0 slab)) (seq 0 k)) (seq 0 ranks))
  ++ repeat None (np - ranks * k * slab).

(** The share of a rank, in particles, and the normalised density of a site in the halo
    mapping: gadget_output.cpp 1058-1063. *)
Definition hShare (n ranks roff np : nat) (d : nat -> nat -> R) (r : nat) : R :=
  localMean roff (d r) * INR roff / newMean n ranks roff np d.
Definition hDen (n ranks roff np : nat) (d : nat -> nat -> R) (r i : nat) : R :=
  d r i * (1 / newMean n ranks roff np d).

(** ** Velocities of the void mapping *)
(** atan2 of the C library, on finite arguments without signed zeros. *)
Definition at2 (y x : R) : R :=
  if Rlt_dec 0 x then atan (y / x)
  else if Rlt_dec x 0 then (if Rlt_dec y 0 then atan (y / x) - PI else atan (y / x) + PI)
  else if Rlt_dec 0 y then PI / 2 else if Rlt_dec y 0 then - (PI / 2) else 0.
(** One component of grad_idx from the field at the site and its two neighbours:
    gadget_output.cpp 52-59. *)
Definition gradOf (re im reP imP reM imM : R) : R :=
  0.5 * (at2 (- reP * im + imP * re) (reP * re + imP * im) - at2 (- reM * im + imM * re) (reM * re + imM * im)).
(** The value written: gadget_output.cpp 683-686 (vel_conv 370). *)
Definition velOut (grad zV ma : R) : R := grad / (zV * ma) * 299792.458.
(** Where the velocities of a slab are collected, in reals from the start of v: vBackGhost()
    (scalarField.h 101: Ng slices, then the slices of the rank) plus slab (2 Lz + 1): gadget_output.cpp 643, 756;
    three slabs long. *)
Definition velocityPlace (n lz ng : nat) : nat := ((n * n * ng + n * n * lz) + n * n * (2 * lz + 1))%nat.
(** Where v ends for the nonrelativistic field: scalarField.cpp 151-153, 237-250: v3 reals. *)
Definition vEnd (n lz ng : nat) : nat := (n * n * (lz + 2 * ng))%nat.
(** Smoothed velocities along x stay in the second half of m2 (gadget_output.cpp 92, 115, 197-203)
    until the mean is taken, which keeps its sums of pairs there as doubles (494-504); the
    writer then reads them back as single precision velocities (691, 703). A word of memory is
    a velocity or one half of a double. *)
Inductive mword := Vel (v : R) | HalfOf (s : R).
Definition smoothX (vx : nat -> R) : nat -> mword := fun i => Vel (vx i).
Definition meanPass (roff : nat) (d : nat -> R) (m : nat -> mword) : nat -> mword :=
  fun i => if (i <? 2 * (roff / 2))%nat then HalfOf (d (2 * (i / 2))%nat + d (2 * (i / 2) + 1)%nat) else m i.
(** The options and the arguments of the writer: test/gadgetme.cpp 48-64, 85: velocities,
    smoothing, displacement. *)
Definition voidFlags (part_vel sm_vel part_disp : bool) : bool * bool * bool := (part_vel, (sm_vel || part_disp)%bool, false).

(** ** Interpolation of the displaced particles *)
(** iPx and iPy: utils/index.h 31-62 (idx2VecNeigh). The unsigned idx - L + 1 and idx - S + L wrap
    around zero and back, so the sums come first here. *)
Definition nbPx (n x i : nat) : nat := if (x =? 0)%nat then (i + 1)%nat else if (x =? n - 1)%nat then (i + 1 - n)%nat else (i + 1)%nat.
Definition nbPy (n y i : nat) : nat := if (y =? 0)%nat then (i + n)%nat else if (y =? n - 1)%nat then (i + n - n * n)%nat else (i + n)%nat.
(** The eight corners: gadget_output.cpp 231-247. *)
Definition corner (n i : nat) (a b c : bool) : nat :=
  let '(x, y, z) := coordOf n i in
  let Xyz := nbPx n x i in let xYz := nbPy n y i in let xyZ := (i + n * n)%nat in
  match a, b, c with
  | false, false, false => i
  | true, false, false => Xyz
  | false, true, false => xYz
  | false, false, true => xyZ
  | true, true, false => if (y =? n - 1)%nat then (xYz + 1)%nat else (Xyz + n)%nat
  | true, false, true => if (x =? n - 1)%nat then (xyZ + n)%nat else (xyZ + 1)%nat
  | false, true, true => if (y =? n - 1)%nat then (xYz + n * n)%nat else (xyZ + n)%nat
  | true, true, true => if (y =? n - 1)%nat then (xYz + 1 + n * n)%nat else (Xyz + n + n * n)%nat
  end.
(** CIC_interp: gadget_output.cpp 263-312. *)
Definition cicInterp (n i : nat) (f : nat -> R) (dx dy dz : R) : R :=
  f (corner n i false false false) * ((1 - dx) * (1 - dy) * (1 - dz))
  + f (corner n i true false false) * (dx * (1 - dy) * (1 - dz))
  + f (corner n i false true false) * ((1 - dx) * dy * (1 - dz))
  + f (corner n i true true false) * (dx * dy * (1 - dz))
  + f (corner n i false false true) * ((1 - dx) * (1 - dy) * dz)
  + f (corner n i true false true) * (dx * (1 - dy) * dz)
  + f (corner n i false true true) * ((1 - dx) * dy * dz)
  + f (corner n i true true true) * (dx * dy * dz).

(** ** The halo mapping: how many particles each site gets *)
(** round(eMean_local*rOff/neweMean) of a non-negative number; then rank 0 takes the difference: gadget_output.cpp 1063-1087. *)
Definition firstTarget (s : R) : Z := Int_part (s + 1 / 2).
Definition targets (np : Z) (s : nat -> R) (ranks r : nat) : Z :=
  let sum := fold_right Z.add 0%Z (map (fun q => firstTarget (s q)) (seq 0 ranks)) in
  if (r =? 0)%nat then (firstTarget (s r) + (np - sum))%Z else firstTarget (s r).
(** The first bunch: the whole part, and one more with probability the rest; [u] is what the
    binomial draw says, it cannot be one with probability 0: gadget_output.cpp 1235-1247. *)
Definition firstBunch (d : R) (u : bool) : Z :=
  (Int_part d + if u then (if Rlt_dec 0 (d - IZR (Int_part d)) then 1 else 0) else 0)%Z.
(** Memory while a rank is balanced: the counts axTmp (V of them and what lies behind them)
    and the total: gadget_output.cpp 1216-1218. *)
Record bal := { bCnt : nat -> Z; bTot : Z }.
Definition upd (f : nat -> Z) (i : nat) (x : Z) : nat -> Z := fun j => if (j =? i)%nat then x else f j.
(** One turn of the balancing loop, with the drawn site [i] (0 .. V, both ends possible) and the
    draw [u]: gadget_output.cpp 1263-1296. axData[V] is the place of axTmp[0], read as single
    precision ([bits]). *)
Definition balStep (V : nat) (d : nat -> R) (bits : Z -> R) (target : Z) (s : bal) (iu : nat * bool) : bal :=
  let (i, u) := iu in
  let cData := if (i =? V)%nat then bits (bCnt s O) else d i in
  let cPart := bCnt s i in
  if Rlt_dec (IZR cPart) cData then
    (if (bTot s <? target)%Z then (if u then {| bCnt := upd (bCnt s) i (cPart + 1)%Z; bTot := (bTot s + 1)%Z |} else s) else s)
  else if Rlt_dec cData (IZR cPart) then
    (if (target <? bTot s)%Z then (if u then {| bCnt := upd (bCnt s) i (cPart - 1)%Z; bTot := (bTot s - 1)%Z |} else s) else s)
  else s.
(** The loop, for the turns drawn before the total is the target ([None]: it is not there yet). *)
Fixpoint balance (V : nat) (d : nat -> R) (bits : Z -> R) (target : Z) (draws : list (nat * bool)) (s : bal) : option bal :=
  if (bTot s =? target)%Z then Some s
  else match draws with
       | [] => None
       | iu :: rest => balance V d bits target rest (balStep V d bits target s iu)
       end.
(** The state after the first bunch; [junk] is what lies behind the counts. *)
Fixpoint sumZ (k : nat) (f : nat -> Z) : Z := match k with O => 0%Z | S j => (sumZ j f + f j)%Z end.
Definition bunched (V : nat) (d : nat -> R) (u : nat -> bool) (junk : Z) : bal :=
  {| bCnt := fun i => if (i <? V)%nat then firstBunch (d i) (u i) else junk; bTot := sumZ V (fun i => firstBunch (d i) (u i)) |}.

(** ** The halo mapping: the slabs of one rank *)
(** The particles of one site that still fit: how many, and how many remain when the buffer is
    full: gadget_output.cpp 1427-1452. *)
Fixpoint placeSome (slab k t : nat) : nat * nat :=
  match k with
  | O => (O, O)
  | S k' => if (S t =? slab)%nat then (1%nat, k') else let (p, r) := placeSome slab k' (S t) in (S p, r)
  end.
(** gadget_output.cpp 1422-1460. *)
Fixpoint fillHalo (n slab V : nat) (cnt : nat -> nat) (fuel idx : nat) (c : nat * nat * nat) (t : nat) : list (nat * nat * nat) * nat * nat :=
  match fuel with
  | O => ([], idx, O)
  | S f => if ((idx <? V)%nat && (t <? slab)%nat)%bool then
             let (p, rem) := placeSome slab (cnt idx) t in
             if (t + p =? slab)%nat then (repeat c p, S idx, rem)
             else let '(l, i, rm) := fillHalo n slab V cnt f (S idx) (stepCoord n c) (t + p)%nat in (repeat c p ++ l, i, rm)
           else ([], idx, O)
  end.
(** All the slabs of a run on one rank ([None]: particles were written behind the buffer):
    gadget_output.cpp 1359-1460, 1634-1649. A particle is the site it is scattered around. *)
Fixpoint haloSlabs (n slab V : nat) (cnt : nat -> nat) (k lPos remain : nat) (buf : list (option (nat * nat * nat))) : option (list (option (nat * nat * nat))) :=
  match k with
  | O => Some []
  | S j => let left := repeat (coordOf n (lPos - 1)) remain in
           let '(l, i, rm) := fillHalo n slab V cnt V lPos (coordOf n lPos) remain in
           if (slab <? length (left ++ l))%nat then None
           else let buf' := refill slab buf (left ++ l) in
                match haloSlabs n slab V cnt j i rm buf' with Some rest => Some (buf' ++ rest) | None => None end
  end.

(** ** The halo mapping: particles sent to another rank *)
(** What the sending rank does with a request: nothing at all (break), reads behind its counts,
    or sends. *)
Inductive reply :=
| Silent
| Stray
| Sends (toSend iPos ePos : nat) (buf : list nat) (rest : list nat) (lPos : nat).
(** The do loop: gadget_output.cpp 1568-1593; [rest] are the counts from lPos on, [i] the next
    place of the send buffer. *)
Fixpoint prepare (slab toSend : nat) (rest : list nat) (lPos i pSent : nat) : option (list nat * nat * list nat * nat * nat) :=
  match rest with
  | [] => None
  | k :: tl =>
      let p := Nat.min k (toSend - pSent) in
      if (pSent + p <? toSend)%nat then
        if (S i =? slab)%nat then Some ([p], S i, tl, S lPos, (pSent + p)%nat)
        else match prepare slab toSend tl (S lPos) (S i) (pSent + p) with
             | Some (b, i', r', lp, ps) => Some (p :: b, i', r', lp, ps)
             | None => None
             end
      else Some ([p], i, (k - p)%nat :: tl, lPos, (pSent + p)%nat)
  end.
(** gadget_output.cpp 1539-1602, for a request of [missing] particles. *)
Definition sendTo (slab missing excess remain : nat) (rest : list nat) (lPos : nat) : reply :=
  let toSend := if (excess <? missing)%nat then excess else missing in
  let p0 := Nat.min remain toSend in
  let iPos := if (remain =? 0)%nat then lPos else (lPos - 1)%nat in
  let i0 := if (remain =? 0)%nat then O else 1%nat in
  if (p0 =? toSend)%nat then Silent
  else match prepare slab toSend rest lPos i0 p0 with
       | None => Stray
       | Some (b, i, r, lp, ps) =>
           let sent := if (i =? slab)%nat then ps else toSend in
           let ePos := if (i =? slab)%nat then lp else S lp in
           Sends sent iPos ePos ((if (remain =? 0)%nat then [] else [p0]) ++ b) r lp
       end.
(** The receiving rank: gadget_output.cpp 1487-1534. *)
Fixpoint receive (n : nat) (c : nat * nat * nat) (l : list nat) : list (nat * nat * nat) :=
  match l with [] => [] | k :: tl => repeat c k ++ receive n (stepCoord n c) tl end.
Definition received (n lz rSend iPos ePos : nat) (buf : list nat) : list (nat * nat * nat) :=
  map (lift n lz rSend) (receive n (coordOf n iPos) (firstn (ePos - iPos) buf)).
