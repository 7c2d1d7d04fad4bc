(** Model of the passage between position and momentum space, lib/scalar/fourier.cpp (FTfield), of the scaling it
    calls, lib/scalar/scaleXeon.cpp, and of the step of the full spectral propagators,
    include/propagator/propClass.h:859-1006, fsPropXeon.h and fsPropThetaXeon.h.

    The memory of every rank is an array of real numbers, with the sizes of lib/scalar/scalarField.cpp:201-290, so that a
    field of real numbers and the modes kept in its place share their numbers. None: memory that is not
    the field's is written. The transforms of FFTW are arguments; those of complex fields keep their
    input, while that of modes to real numbers may leave anything in it (FFTW manual, planner flags). Low
    memory and GPU are left out. Exact arithmetic. *)
From Coq Require Import Reals List Arith ZArith Bool.
From Verif Require Import GravModel.
Import ListNotations.
Local Open Scope R_scope.

(** The grid of a rank: length, depth of the rank, number of ranks, ghost slices. *)
Record geo := Geo { gL : nat; gLz : nat; gK : nat; gNg : nat }.
Definition surf (g : geo) : nat := (gL g * gL g)%nat.
Definition vol (g : geo) : nat := (surf g * gLz g)%nat.
Definition eSz (g : geo) : nat := (surf g * (gLz g + 2 * gNg g))%nat.
Definition nTot (g : geo) : nat := (vol g * gK g)%nat.
Definition depth (g : geo) : nat := (gLz g * gK g)%nat.

(** FIELD_SAXION and FIELD_AXION. *)
Inductive kind := Saxion | Axion.
Definition nums (k : kind) : nat := match k with Saxion => 2 | Axion => 1 end.

(** scalarField.cpp:201-230, 260-290: the complex field has three arrays; the real one has v in the array of m, behind
    it, and an m2 of twice the size. In real numbers. *)
Inductive arr := AM | AV | AM2.
Definition arr_eq (a b : arr) : {a = b} + {a <> b}.
Proof. decide equality. Defined.
Definition room (k : kind) (g : geo) (a : arr) : nat :=
  match k, a with
  | Saxion, AM => 2 * eSz g
  | Saxion, AV => 2 * (surf g * (gLz g + 2))
  | Axion, AM => eSz g + surf g * (gLz g + 2)
  | Axion, AV => 0
  | _, AM2 => 2 * eSz g
  end%nat.

Definition mem := arr -> nat -> nat -> R.
Definition place := (arr * nat)%type.
(** scalarField.h: mCpu, mStart, vCpu, m2Cpu. *)
Definition mCpu : place := (AM, 0%nat).
Definition mStart (k : kind) (g : geo) : place := (AM, nums k * (gNg g * surf g))%nat.
Definition vCpu (k : kind) (g : geo) : place := match k with Saxion => (AV, 0%nat) | Axion => (AM, eSz g) end.
Definition m2Cpu : place := (AM2, 0%nat).

Definition putR (M : mem) (p : place) (len : nat) (f : nat -> nat -> R) : mem :=
  fun a r i => if arr_eq a (fst p) then if ((snd p <=? i) && (i <? snd p + len))%nat then f r (i - snd p)%nat else M a r i
               else M a r i.
Definition getC (M : mem) (p : place) (r i : nat) : cpx := (M (fst p) r (snd p + 2 * i)%nat, M (fst p) r (snd p + 2 * i + 1)%nat).
Definition putC (M : mem) (p : place) (len : nat) (F : nat -> nat -> cpx) : mem :=
  putR M p (2 * len) (fun r j => if Nat.even j then fst (F r (j / 2)%nat) else snd (F r (j / 2)%nat)).

(** scaleXeon.cpp:7-80: the array is taken for one of complex numbers whatever the field. *)
Definition scale (k : kind) (g : geo) (p : place) (c : R) (M : mem) : option mem :=
  if (snd p + 2 * eSz g <=? room k g (fst p))%nat
  then Some (putR M p (2 * eSz g) (fun r j => c * M (fst p) r (snd p + j)%nat)) else None.

(** What FFTW does: complex fields forth and back, a real field to its modes and back, and what is left of the modes
    after the latter. *)
Record fft := FFT {
  fC : (nat -> nat -> cpx) -> nat -> nat -> cpx;
  bC : (nat -> nat -> cpx) -> nat -> nat -> cpx;
  fR : (nat -> nat -> R) -> nat -> nat -> cpx;
  bR : (nat -> nat -> cpx) -> nat -> nat -> R;
  left : (nat -> nat -> cpx) -> nat -> nat -> cpx }.

(** The place of number j of a real field in rows with two to spare. *)
Definition padded (g : geo) (j : nat) : nat := (j / gL g * (gL g + 2) + j mod gL g)%nat.
(** fourier.cpp:197-223 padtom2. *)
Definition padtom2 (g : geo) (p : place) (M : mem) : mem :=
  fun a r i =>
    if arr_eq a AM2 then
      let sl := (i / (gL g + 2))%nat in let x := (i mod (gL g + 2))%nat in
      if ((sl <? gL g * gLz g) && (x <? gL g))%nat then M (fst p) r (snd p + (sl * gL g + x))%nat else M a r i
    else M a r i.
(** fourier.cpp:225-252 unpadfromm2. *)
Definition unpadfromm2 (g : geo) (p : place) (M : mem) : mem :=
  putR M p (vol g) (fun r j => M AM2 r (padded g j)).
(** Modes of a real field in a rank, and the transforms of fftCode.cpp between the rows of m2 and a place; the modes of
    m are at mCpu, not mStart (fftCode.cpp:298-316). *)
Definition modes (g : geo) : nat := ((gL g / 2 + 1) * depth g * (gL g / gK g))%nat.
Definition toModes (T : fft) (g : geo) (p : place) (M : mem) : mem :=
  putC M p (modes g) (fR T (fun r j => M AM2 r (padded g j))).
Definition toRows (T : fft) (g : geo) (p : place) (M : mem) : mem :=
  let F := getC M p in
  let M1 := putC M p (modes g) (left T F) in
  fun a r i =>
    if arr_eq a AM2 then
      let sl := (i / (gL g + 2))%nat in let x := (i mod (gL g + 2))%nat in
      if ((sl <? gL g * gLz g) && (x <? gL g))%nat then bR T F r (sl * gL g + x)%nat else M1 a r i
    else M1 a r i.

(** The field: memory, the two flags of momentum space, folded. *)
Record st := St { mm : mem; sM : bool; sV : bool; sF : bool }.
(** What is to be transformed: bits of FieldIndex, include/enum-field.h:28-36. *)
Record want := Want { wM : bool; wV : bool; wM2 : bool; wMto2 : bool }.
Definition theMV := Want true true false false.
Definition theM := Want true false false false.
Definition theM2 := Want false false true false.
Definition mToM2 := Want false false false true.

Definition onMem (s : st) (o : option mem) (next : mem -> option st) : option st :=
  match o with None => None | Some M => next M end.

(** fourier.cpp:26-113 ftField. [unf] is what unfolding does (Folder). A field already transformed ends the call
    at once (44, 53, 78, 91), whatever else was asked. *)
Definition ftField (T : fft) (unf : mem -> mem) (k : kind) (g : geo) (w : want) (s : st) : option st :=
  let s := if sF s then St (unf (mm s)) (sM s) (sV s) false else s in
  let sc := 1 / INR (nTot g) in
  let doM2 (s : st) :=
    if wM2 w then
      let M := match k with
               | Saxion => putC (mm s) m2Cpu (vol g) (fC T (getC (mm s) m2Cpu))
               | Axion => toModes T g m2Cpu (mm s)
               end in
      onMem s (scale k g m2Cpu sc M) (fun M => Some (St M (sM s) (sV s) (sF s)))
    else Some s in
  let doV (s : st) :=
    if wV w then
      if sV s then Some s else
      let M := match k with
               | Saxion => putC (mm s) (vCpu k g) (vol g) (fC T (getC (mm s) (vCpu k g)))
               | Axion => toModes T g (vCpu k g) (padtom2 g (vCpu k g) (mm s))
               end in
      onMem s (scale k g (vCpu k g) sc M) (fun M => doM2 (St M (sM s) true (sF s)))
    else doM2 s in
  if wM w then
    if sM s then Some s else
    let M := match k with
             | Saxion => putC (mm s) (mStart k g) (vol g) (fC T (getC (mm s) (mStart k g)))
             | Axion => toModes T g mCpu (padtom2 g (mStart k g) (mm s))
             end in
    onMem s (scale k g mCpu sc M) (fun M => doV (St M true (sV s) (sF s)))
  else doV s.

(** fourier.cpp:116-195 iftField. The complex field is marked unfolded (191); for the axion there is no break (187)
    and the call ends before. *)
Definition iftField (T : fft) (k : kind) (g : geo) (w : want) (s : st) : option st :=
  let fin (s : st) := Some (match k with Saxion => St (mm s) (sM s) (sV s) false | Axion => s end) in
  let doMto2 (s : st) :=
    if wMto2 w then
      if negb (sM s) then Some s else
      fin (St (match k with
               | Saxion => putC (mm s) m2Cpu (vol g) (bC T (getC (mm s) (mStart k g)))
               | Axion => toRows T g mCpu (mm s)
               end) (sM s) (sV s) (sF s))
    else fin s in
  let doV (s : st) :=
    if wV w then
      if negb (sV s) then Some s else
      doMto2 (St (match k with
                  | Saxion => putC (mm s) (vCpu k g) (vol g) (bC T (getC (mm s) (vCpu k g)))
                  | Axion => unpadfromm2 g (vCpu k g) (toRows T g (vCpu k g) (mm s))
                  end) (sM s) false (sF s))
    else doMto2 s in
  if wM w then
    if negb (sM s) then Some s else
    doV (St (match k with
             | Saxion => putC (mm s) (mStart k g) (vol g) (bC T (getC (mm s) (mStart k g)))
             | Axion => unpadfromm2 g (mStart k g) (toRows T g mCpu (mm s))
             end) false (sV s) (sF s))
  else doV s.

(** The background during a step of the complex field: coupling, scale factor, and the integrals of the axion force over
    a time (IAxionMassSqn, IIAxionMassSqn with power 3). *)
Record bgd := Bgd { lamP : R -> R; Rof : R -> R; i3 : R -> R -> R; ii3 : R -> R -> R }.
Inductive pot := PQ1 | PQ2 | QCDV.

(** fsPropXeon.h:229-292 fsAccKernelXeon in single precision: the force of the complex field at a site. [junk]: what was
    in the register, never set for V_QCDV_PQ1. Damping is not used. *)
Definition force (p : pot) (lam Rr : R) (junk phi : cpx) : cpx :=
  let n := fst phi * fst phi + snd phi * snd phi in
  let z2 := Rr * Rr in let z4 := z2 * z2 in
  match p with
  | PQ1 => (fst phi * ((z2 - n) * lam), snd phi * ((z2 - n) * lam))
  | PQ2 => (fst phi * ((z4 - n * n) * (lam * 2 / z4)), snd phi * ((z4 - n * n) * (lam * 2 / z4)))
  | QCDV => junk
  end.

(** fsPropXeon.h:398-424: the momentum of the mode x of a row, taken in vectors of [w]; of the row and of the plane. *)
Definition kxOf (w L x : nat) : Z :=
  let b := (w * (x / w))%nat in
  ((if (L / 2 <=? b)%nat then Z.of_nat b - Z.of_nat L else Z.of_nat b) + Z.of_nat (x - b))%Z.
Definition kFold (n k : nat) : Z := (if (n / 2 <? k)%nat then Z.of_nat k - Z.of_nat n else Z.of_nat k)%Z.
Definition momS (w : nat) (g : geo) (r i : nat) : Z :=
  let x := (i mod gL g)%nat in
  let oz := (i / gL g mod depth g)%nat in
  let oy := (i / (gL g * depth g))%nat in
  momSq (kxOf w (gL g) x, kFold (gL g) (oy + gL g / gK g * r), kFold (depth g) oz).

(** fsPropXeon.h:428-450 and fsPropThetaXeon.h:240-262: one number of a mode. [p]: momentum, [t]: time of the drift, [a]: what
    the kick adds to the velocity. *)
Definition turn (p t a m v : R) : R * R :=
  let u := (v + a) / p in
  (m * cos (p * t) + u * sin (p * t), (u * cos (p * t) - m * sin (p * t)) * p).
Definition turnC (p t : R) (a m v : cpx) : cpx * cpx :=
  let x := turn p t (fst a) (fst m) (fst v) in let y := turn p t (snd a) (snd m) (snd v) in
  ((fst x, fst y), (snd x, snd y)).

(** fsPropXeon.h:306-496 fsPropKernelXeon: m is read one slice behind its start; the mode without momentum is
    redone at the end, on rank 0; nothing is done in double precision. [w] divides the length (with another each row runs
    into the next, which is left out). *)
Definition fsProp (single : bool) (w : nat) (g : geo) (f1 dz c d im iim : R) (M : mem) : mem :=
  if negb single then M else
  let n := (gL g * depth g * (gL g / gK g))%nat in
  let mp : place := (AM, 2 * surf g)%nat in
  let vp : place := (AV, 0%nat) in
  let new r i :=
    let a := getC M m2Cpu r i in let m := getC M mp r i in let v := getC M vp r i in
    if ((r =? 0) && (i =? 0))%nat then
      let s0 := fst v + fst a * (dz * c) in let s1 := snd v + snd a * (dz * c) in
      ((fst m + s0 * (dz * d) + iim, snd m + s1 * (dz * d)), (s0 + im, s1))
    else turnC (f1 * sqrt (IZR (momS w g r i))) (dz * d) (fst a * (dz * c), snd a * (dz * c)) m v in
  putC (putC M mp n (fun r i => fst (new r i))) vp n (fun r i => snd (new r i)).

(** propClass.h:890-920: a stage of sFpecCpu. *)
Definition sFStage (T : fft) (unf : mem -> mem) (single : bool) (w : nat) (p : pot) (junk : nat -> nat -> cpx) (b : bgd)
    (g : geo) (f1 dz : R) (cd : R * R) (zs : R * st) : option (R * st) :=
  let '(c, d) := cd in let '(z, s) := zs in
  match iftField T Saxion g mToM2 s with
  | None => None
  | Some s =>
    let M := putC (mm s) m2Cpu (vol g) (fun r i => force p (lamP b z) (Rof b z) (junk r i) (getC (mm s) m2Cpu r i)) in
    match ftField T unf Saxion g theM2 (St M (sM s) (sV s) (sF s)) with
    | None => None
    | Some s =>
      let z' := z + dz * d in
      Some (z', St (fsProp single w g f1 dz c d (i3 b z z') (ii3 b z z') (mm s)) (sM s) (sV s) (sF s))
    end
  end.

(** propClass.h:862-930 sFpecCpu: [cds] the coefficients of the stages. *)
Definition sFpec (T : fft) (unf : mem -> mem) (single : bool) (w : nat) (p : pot) (junk : nat -> nat -> cpx) (b : bgd)
    (g : geo) (f1 dz : R) (cds : list (R * R)) (z : R) (s : st) : option (R * st) :=
  let s := if sF s then St (unf (mm s)) (sM s) (sV s) false else s in
  match (if negb (sM s) || negb (sV s) then ftField T unf Saxion g theMV s else Some s) with
  | None => None
  | Some s => fold_left (fun o cd => match o with None => None | Some zs => sFStage T unf single w p junk b g f1 dz cd zs end)
                        cds (Some (z, s))
  end.

(** fsPropThetaXeon.h:143-285 fsPropKernelThetaXeon: as above, of the modes of a real field in the order of GravModel.momOf. *)
Definition tProp (single : bool) (g : geo) (f1 dz c d : R) (m v a : nat -> nat -> cpx) (r i : nat) : cpx * cpx :=
  if negb single then (m r i, v r i) else
  if ((r =? 0) && (i =? 0))%nat then
    let s0 := fst (v r i) + fst (a r i) * (dz * c) in let s1 := snd (v r i) + snd (a r i) * (dz * c) in
    ((fst (m r i) + s0 * (dz * d), snd (m r i) + s1 * (dz * d)), (s0, s1))
  else turnC (f1 * sqrt (IZR (momSq (momOf (gL g / 2 + 1) (depth g) (gL g) (gL g / gK g * r) i)))) (dz * d)
             (fst (a r i) * (dz * c), snd (a r i) * (dz * c)) (m r i) (v r i).

(** propClass.h:946-961: the start of tFpecCpu. *)
Definition tFpecStart (T : fft) (unf : mem -> mem) (g : geo) (s : st) : option st :=
  let s := if sF s then St (unf (mm s)) (sM s) (sV s) false else s in
  if negb (sM s) || negb (sV s) then ftField T unf Axion g theMV s else Some s.
