(** Model of the propagator with a spectral Laplacian (--spec): lib/propagator/laplacian.cpp, sSpecCpu and tSpecCpu of
    include/propagator/propClass.h, and the kernels of sPropXeon.h and sPropThetaXeon.h.

    Memory, transforms and registers are those of FourModel, LaneModel and ForceModel. Exact arithmetic; low memory, which
    exits (laplacian.cpp:41-44), and GPU are left out. *)
From Coq Require Import Reals List Arith ZArith Bool.
From Verif Require Import GravModel LaneModel ForceModel FourModel.
Import ListNotations.
Local Open Scope R_scope.

(** laplacian.cpp:72-100: the square of the momentum of place idx. [hx]: length of a row of modes (maxLx). *)
Definition lapMom (g : geo) (hx r idx : nat) : Z :=
  let ox := (idx mod hx)%nat in
  let oz := (idx / hx mod depth g)%nat in
  let oy := (idx / (hx * depth g))%nat in
  momSq (kFold (gL g) ox, kFold (gL g) (oy + gL g / gK g * r), kFold (depth g) oz).

(** laplacian.cpp:64-107 with the plan SpSx (fftCode.cpp:236-248): from the field to m2, there times the momenta, and back in m2. *)
Definition sLaplacian (T : fft) (g : geo) (M : mem) : mem :=
  let F := fC T (getC M (mStart Saxion g)) in
  putC M m2Cpu (vol g) (bC T (fun r i => let k := IZR (lapMom g (gL g) r i) in (k * fst (F r i), k * snd (F r i)))).
(** The same with the plan pSpecAx (fftCode.cpp:226-234), in place in m2. *)
Definition tLaplacian (T : fft) (g : geo) (M : mem) : mem :=
  let M1 := toModes T g m2Cpu M in
  toRows T g m2Cpu (putC M1 m2Cpu (modes g) (fun r i =>
    let k := IZR (lapMom g (gL g / 2 + 1) r i) in let F := getC M1 m2Cpu r i in (k * fst F, k * snd F))).

(** propClass.h:595, :812. [l]: PhysSize. *)
Definition fMom (l : R) (g : geo) : R := - (4 * PI * PI) / (l * l * INR (nTot g)).

(** ** The complex field *)
(** sPropXeon.h:154-172, :375-393. V_PQ3 has no case: [junk] is what the register held. *)
Definition sBase (v : ForceModel.pot) (c : parms) (n2 mel lap junk : rreg) : rreg :=
  match pPq v with
  | ForceModel.PQ3 => junk
  | _ => pqPart v c n2 mel lap
  end.
(** sPropXeon.h:174-194, :395-415 *)
Definition sQcd (P : prec) (I : isa) (v : ForceModel.pot) (c : parms) (n2 mel a : rreg) : rreg :=
  match pQcd v with
  | QCD1 => add2 a (zQVec c)
  | ForceModel.QCDV => fun i => a i + zQ c * (zRVec c i - mel i)
  | QCD2 => fun i => a i - zNVec QCD2 c i * mel i
  | QCDC => cosinePart P I v c n2 mel a
  | QCD0 | QCDL => a
  end.
(** sPropXeon.h:83-87, :311-315: no decoupling time. *)
Definition sMola (c : parms) : R := pGamma c / pR c * pDzc c / 2.
(** sPropXeon.h:196-247, :417-472 *)
Definition sKick (P : prec) (I : isa) (v : ForceModel.pot) (c : parms) (n2 mel a vel : rreg) : rreg :=
  match pDamp v with
  | NoDamp => fun i => a i * pDzc c + vel i
  | DampRho => fun i =>
      (a i * pDzc c + vel i)
      - (sMola c / (1 + sMola c) * (mel i / n2 i)) * ((dotMV P I mel vel i - n2 i / pR c) * 2 + dotMV P I mel a i * pDzc c)
  | DampAll => fun i => vel i * ((1 - sMola c) * (1 / (1 + sMola c))) + a i * (1 / (1 + sMola c) * pDzc c)
  end.
(** sPropXeon.h:131-259, :355-487: the new velocity of a register; V_EVOL_THETA has no case. *)
Definition sVelocity (P : prec) (I : isa) (v : ForceModel.pot) (c : parms) (junk mel lap vel : rreg) : rreg :=
  let n2 := norm2 P I mel in
  onlyRho P I v mel (sKick P I v c n2 mel (sQcd P I v c n2 mel (sBase v c n2 mel lap junk)) vel).
(** sPropXeon.h:260-266, :488-494: and the new field. *)
Definition sDrift (c : parms) (mel w : rreg) : rreg := fun i => w i * pDzd c + mel i.

(** New velocity at number p of a register; None is not-a-number: division by a field that vanishes. *)
Definition sDivides (v : ForceModel.pot) : bool :=
  match pEvol v with EvolRho => true | _ => false end || match pDamp v with DampRho => true | _ => false end
  || match pQcd v with QCDC => true | _ => false end.
Definition sNewVel (P : prec) (I : isa) (v : ForceModel.pot) (c : parms) (junk : rreg) (p : nat) (mel lap vel : rreg) : option (R * R) :=
  if sDivides v && vanishes (pairOf p mel) then None else Some (pairOf p (sVelocity P I v c junk mel lap vel)).

(** Lane l of the register that holds site i, and the site's number in its register. *)
Definition regAt (P : prec) (I : isa) (M : mem) (p : place) (r i : nat) : rreg :=
  fun l => M (fst p) r (snd p + (2 * (i - i mod lanesOf P I) + l))%nat.
(** sPropXeon.h:126-268, :350-496, called with S, V+S (propClass.h:834, :851). m is one slice behind mCpu, whatever the ghosts. None: the end of m
    is passed. The vectors fill the slices. Division by zero is left to [sNewVel]. *)
Definition sKernel (P : prec) (I : isa) (v : ForceModel.pot) (c : parms) (fm : R) (junk : nat -> nat -> rreg) (g : geo) (M : mem) : option mem :=
  let mp : place := (AM, 2 * surf g)%nat in
  let vp : place := (AV, 0%nat) in
  let w r i := sVelocity P I v c (junk r i) (regAt P I M mp r i) (fun l => fm * regAt P I M m2Cpu r i l) (regAt P I M vp r i) in
  let n i := (i mod lanesOf P I)%nat in
  if (2 * (surf g + vol g) <=? room Saxion g AM)%nat then
    Some (putC (putC M vp (vol g) (fun r i => pairOf (n i) (w r i)))
               mp (vol g) (fun r i => pairOf (n i) (sDrift c (regAt P I M mp r i) (w r i))))
  else None.

(** The background: what LambdaP, AxionMassSq, RV (after updateR), Rpp give at a time. *)
Record back := Back { kLam : R -> R; kMa2 : R -> R; kR : R -> R; kRpp : R -> R; kGamma : R }.
(** propClass.h:823-834: the parameters of a stage. Rp and the decoupling time are not set. *)
Definition sParms (b : back) (dz c d z junkRp junkDec : R) : parms :=
  Parms (kR b z) (kLam b z) (kMa2 b z) (kRpp b z) junkRp (kGamma b) junkDec (dz * c) (dz * d).
Definition sStage (T : fft) (P : prec) (I : isa) (v : ForceModel.pot) (b : back) (l : R) (junk : nat -> nat -> rreg) (jr jd : R)
    (g : geo) (dz : R) (cd : R * R) (zM : R * mem) : option (R * mem) :=
  let '(c, d) := cd in let '(z, M) := zM in
  match sKernel P I v (sParms b dz c d z jr jd) (fMom l g) junk g (sLaplacian T g M) with
  | None => None
  | Some M' => Some (z + dz * d, M')
  end.
Definition each {A B} (f : A -> B -> option B) (l : list A) (x : B) : option B :=
  fold_left (fun o a => match o with None => None | Some y => f a y end) l (Some x).
(** propClass.h:799-856 sSpecCpu: [cds] the coefficients of the stages; a last one has d = 0, which leaves the time. [unf]: what unfolding does. *)
Definition sSpec (T : fft) (unf : mem -> mem) (P : prec) (I : isa) (v : ForceModel.pot) (b : back) (l : R) (junk : nat -> nat -> rreg) (jr jd : R)
    (g : geo) (dz : R) (cds : list (R * R)) (z : R) (s : st) : option (R * st) :=
  let M := if sF s then unf (mm s) else mm s in
  match each (sStage T P I v b l junk jr jd g dz) cds (z, M) with
  | None => None
  | Some (z', M') => Some (z', St M' (sM s) (sV s) false)
  end.

(** ** The axion *)
(** sPropThetaXeon.h:75-102, :152-180, called with S, V+S (propClass.h:617, :635). m and v are in one array (scalarField.cpp:226). None:
    without ghosts the last slice of m is the first of v, and the result depends on the order of the threads. *)
Definition tAccel (ma2 Rr fm m lap : R) : R := fm * lap - ma2 * Rr * Rr * Rr * sin (m * (1 / Rr)).
Definition tKernel (ma2 Rr fm dzc dzd : R) (g : geo) (M : mem) : option mem :=
  let vp := vCpu Axion g in
  let w r i := M (fst vp) r (snd vp + i)%nat + tAccel ma2 Rr fm (M AM r (surf g + i)%nat) (M AM2 r (padded g i)) * dzc in
  if (surf g + vol g <=? snd vp)%nat
  then Some (putR (putR M vp (vol g) w) (AM, surf g) (vol g) (fun r i => M AM r (surf g + i)%nat + w r i * dzd))
  else None.
(** propClass.h:602-621: a stage of tSpecCpu. *)
Definition tStage (T : fft) (b : back) (l : R) (g : geo) (dz : R) (cd : R * R) (zM : R * mem) : option (R * mem) :=
  let '(c, d) := cd in let '(z, M) := zM in
  match tKernel (kMa2 b z) (kR b z) (fMom l g) (dz * c) (dz * d) g (tLaplacian T g (padtom2 g (AM, surf g) M)) with
  | None => None
  | Some M' => Some (z + dz * d, M')
  end.
(** propClass.h:579-640 tSpecCpu *)
Definition tSpec (T : fft) (unf : mem -> mem) (b : back) (l : R) (g : geo) (dz : R) (cds : list (R * R)) (z : R) (s : st) : option (R * st) :=
  let M := if sF s then unf (mm s) else mm s in
  match each (tStage T b l g dz) cds (z, M) with
  | None => None
  | Some (z', M') => Some (z', St M' (sM s) (sV s) false)
  end.

(** ** The options *)
(** parse.cpp:664, :2326-2331, :2445-2455, :2493-2500: --spec together with --lap n ([None]: not given) is refused if n > 0. *)
Definition specGhosts (lap : option Z) : option nat :=
  match lap with
  | None => Some 1%nat
  | Some n => if (n <? 0)%Z || (6 <? n)%Z then None else if (0 <? n)%Z then None else Some (Z.to_nat n)
  end.
