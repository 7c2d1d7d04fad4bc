(** Model of the binning of Fourier modes: SpecBin in include/spectrum/spectrum.h and
    SpecBin::fillBins in lib/spectrum/spectrum.cpp.

    Exact arithmetic: floor(nbinmul*sqrt(k2)) with nbinmul = nbins/powMax is the integer square
    root of floor(nbins^2 k2 / powMax^2). The squared moduli of the transformed field are an arbitrary
    input per rank. Not modelled: the FFT itself, the extra number bins (USE_NN_BINS),
    SPECTRUM_GG (never used). *)
From Coq Require Import List Arith ZArith QArith.
Import ListNotations.
Local Open Scope nat_scope.

(** sites per side, slices per rank, ranks, threads per rank, bins asked by the user (None: natural) *)
Record sgeom := SGeom { sLy : nat; sLz : nat; sR : nat; sT : nat; sUser : option nat }.
Definition sTz (g : sgeom) := sLz g * sR g.
(** spectrum.h:86-90 *)
Definition powMax (g : sgeom) : nat := Nat.sqrt (2 * (sLy g / 2) * (sLy g / 2) + (sTz g / 2) * (sTz g / 2)) + 1.
Definition nbins (g : sgeom) : nat := match sUser g with None => powMax g | Some n => n end.
(** spectrum.h:140 and 160: half-complex transforms *)
Definition sLx (g : sgeom) := sLy g / 2 + 1.
Definition nModeshc (g : sgeom) := sLx g * sLy g * sLz g.

(** spectrum.cpp:151-164: the frequencies of entry idx of a rank *)
Definition wrapf (h L k : Z) : Z := if (h <? k)%Z then (k - L)%Z else k.
Definition modeOf (g : sgeom) (rank idx : nat) : Z * Z * Z :=
  let zBase := (sLy g / sR g) * rank in
  let tmp := idx / sLx g in
  let kx := idx - tmp * sLx g in
  let ky := tmp / sTz g in
  let kz := tmp - ky * sTz g in
  let ky := ky + zBase in
  (Z.of_nat kx,
   wrapf (Z.of_nat (sLy g / 2)) (Z.of_nat (sLy g)) (Z.of_nat ky),
   wrapf (Z.of_nat (sTz g / 2)) (Z.of_nat (sTz g)) (Z.of_nat kz)).
Definition ksq (k : Z * Z * Z) : nat := let '(x, y, z) := k in Z.to_nat (x * x + y * y + z * z).
(** spectrum.cpp:170 *)
Definition binOf (g : sgeom) (k2 : nat) : nat := Nat.sqrt ((nbins g * nbins g * k2) / (powMax g * powMax g)).

(** include/enum-field.h:574-594, and the vectors of bins *)
Inductive stype := SK | SG | SV | SGV | SP | SGaS | SGaSadd | SKS | SGS | SVS | SGVS | SPS | SNN | SAK | SKK | SVV | SVNL.
Inductive bvec := BK | BG | BV | BVnl | BP | BPS | BNN | BAK.

(** The constants of the binning: (2 pi/L)^2, the masses, the table cosTable2, the norm and controlxyz *)
Record sconst := SConst { kfac : Q; mass2 : Q; mass2Sax : Q; cosT2 : nat -> Q; snorm : Q; ctl : nat }.

(** spectrum.cpp:209-226 (power [m2], doubled by the caller where needed) and :232-356: what one mode adds *)
Definition contrib (c : sconst) (st : stype) (k : Z * Z * Z) (m2 : Q) (b : bvec) : Q :=
  let '(kx, ky, kz) := k in
  let k2 := inject_Z (Z.of_nat (ksq k)) in
  let k2p := (k2 * kfac c)%Q in
  let tmp := match ctl c with 1 => Z.to_nat (Z.abs ky) | 2 => Z.to_nat (Z.abs kz) | _ => Z.to_nat kx end in
  match st, b with
  | SKK, BK => m2
  | SVV, BV => m2
  | SGaS, BG | SGaSadd, BG => m2 / cosT2 c tmp
  | SK, BK | SKS, BK => m2
  | SG, BG | SGS, BG => m2 * k2p
  | SV, BV => m2 * mass2 c
  | SVNL, BVnl => m2 * mass2 c
  | SVS, BV => m2 * mass2Sax c
  | SGVS, BG => m2 * k2p
  | SGVS, BV => m2 * mass2Sax c
  | SGV, BG => m2 * k2p
  | SGV, BV => m2 * mass2 c
  | SP, BP => m2
  | SPS, BPS => m2
  | SNN, BNN => m2
  | SAK, BAK => m2 * k2
  | _, _ => 0
  end%Q.
(** spectrum.cpp:199-226: the modulus squared read, 1 for the counts; and the weight of half-complex modes *)
Definition modulus2 (st : stype) (p : Q) : Q := match st with SNN | SAK => 1%Q | _ => p end.
Definition weighted (g : sgeom) (kx : Z) (p : Q) : Q :=
  if (kx =? 0)%Z || (kx =? Z.of_nat (sLx g) - 1)%Z then p else (2 * p)%Q.

(** spectrum.cpp:361-419 and :422-494: vectors that get the sums of the threads, and those summed over ranks *)
Definition merged (st : stype) (b : bvec) : bool :=
  match st, b with
  | (SK | SKK | SKS), BK => true
  | (SG | SGaS | SGaSadd), BG => true
  | SVV, BV => true
  | SVNL, BVnl => true
  | SP, BP | SPS, BPS | SNN, BNN | SAK, BAK => true
  | (SV | SGV | SGS | SVS | SGVS), (BG | BV) => true
  | _, _ => false
  end.
Definition reduced (st : stype) (b : bvec) : bool := match st with SGaSadd => false | _ => merged st b end.
(** spectrum.cpp:93 and 99: cleared on entry *)
Definition cleared (st : stype) (b : bvec) : bool := match st, b with SNN, BNN | SAK, BAK => true | _, _ => false end.
(** no norm for the counts: :399-404 *)
Definition normOf (c : sconst) (st : stype) : Q := match st with SNN | SAK => 1%Q | _ => snorm c end.

(** the bins of the threads of one rank: vector, cell -> sum *)
Definition tbins := bvec -> nat -> Q.
Definition tadd (f : bvec -> Q) (cell : nat) (tb : tbins) : tbins :=
  fun b i => if i =? cell then (tb b i + f b)%Q else tb b i.
(** spectrum.cpp:150-357: one mode done by thread [t]. None: .at() throws. *)
Definition binMode (g : sgeom) (c : sconst) (st : stype) (rank : nat) (pw : nat -> Q) (owner : nat -> nat)
  (o : option tbins) (idx : nat) : option tbins :=
  match o with
  | None => None
  | Some tb =>
    let k := modeOf g rank idx in
    let myBin := binOf g (ksq k) in
    if nbins g <? myBin then Some tb
    else
      let cell := myBin + nbins g * owner idx in
      if cell <? nbins g * sT g
      then Some (tadd (contrib c st k (weighted g (fst (fst k)) (modulus2 st (pw idx)))) cell tb)
      else None
  end.
(** The loop of all threads of a rank, in the order [order] *)
Definition binModes g c st rank pw owner (order : list nat) : option tbins :=
  fold_left (binMode g c st rank pw owner) order (Some (fun _ _ => 0%Q)).

Fixpoint sumQ (n : nat) (f : nat -> Q) : Q := match n with 0 => 0%Q | S n => (sumQ n f + f n)%Q end.

(** The vectors of a rank *)
Definition rbins := bvec -> nat -> Q.
(** spectrum.cpp:361-419 *)
Definition merge (g : sgeom) (c : sconst) (st : stype) (tb : tbins) (bn : rbins) : rbins :=
  fun b j => if merged st b then (bn b j + sumQ (sT g) (fun i => tb b (j + i * nbins g)%nat * normOf c st))%Q else bn b j.
Definition clear (st : stype) (bn : rbins) : rbins := fun b j => if cleared st b then 0%Q else bn b j.

(** spectrum.cpp:41-504 on all ranks: bins of every rank before and after *)
Definition fillBins (g : sgeom) (c : sconst) (st : stype) (pw : nat -> nat -> Q) (owner : nat -> nat -> nat)
  (order : nat -> list nat) (bn : nat -> rbins) : option (nat -> rbins) :=
  let local r := match binModes g c st r (pw r) (owner r) (order r) with
                 | Some tb => Some (merge g c st tb (clear st (bn r)))
                 | None => None
                 end in
  if forallb (fun r => match local r with Some _ => true | None => false end) (seq 0 (sR g))
  then
    let loc r := match local r with Some b => b | None => bn r end in
    Some (fun r b j => if reduced st b then sumQ (sR g) (fun r => loc r b j) else loc r b j)
  else None.

(** pRun:792, nRun:1050-1066, nSRun:1894-1900: vectors cleared before filling *)
Definition zeroBins : nat -> rbins := fun _ _ _ => 0%Q.
(** spectrum.h:213-226 reset0 *)
Definition reset0 (bn : nat -> rbins) : nat -> rbins :=
  fun r b j => match b with BK | BG | BV | BP | BPS => 0%Q | _ => bn r b j end.
