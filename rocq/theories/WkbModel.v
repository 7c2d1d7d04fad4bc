(** Model of the WKB transport of an axion field: class WKB of include/WKB/WKB.h and lib/WKB/WKB.cpp.

    Numbers are real (the code keeps the masses and the modes in the precision of the field and the
    rest in double). pow(x,y) is Rpower, right for x > 0. The hypergeometric function of GSL is an
    argument [F a b c x]. The transforms are arguments too: [fwd] takes the field of all ranks to
    the modes of all ranks, [bck] back, both without normalisation. The padding of rows is not
    repeated here (it is that of PadModel); log output and the table written to out/ are left out. *)
From Coq Require Import Reals List Arith ZArith Bool.
From Verif Require Import CosmoModel SplineModel.
Import ListNotations.
Local Open Scope R_scope.

(** std::complex<double> *)
Definition cx := (R * R)%type.
Definition cadd (a b : cx) : cx := (fst a + fst b, snd a + snd b).
Definition csub (a b : cx) : cx := (fst a - fst b, snd a - snd b).
Definition cmul (a b : cx) : cx := (fst a * fst b - snd a * snd b, fst a * snd b + snd a * fst b).
Definition cdiv (a b : cx) : cx :=
  let d := fst b * fst b + snd b * snd b in
  ((fst a * fst b + snd a * snd b) / d, (snd a * fst b - fst a * snd b) / d).
Definition cbar (a : cx) : cx := (fst a, - snd a).
Definition cr (x : R) : cx := (x, 0).
(** WKB.h:24 *)
Definition im : cx := (0, 1).
(** exp(im*x) *)
Definition cis (x : R) : cx := (cos x, sin x).

(** ** The phase *)
(** WKB.cpp:32-41 *)
Definition v2h2F1 (F : R -> R -> R -> R -> R) (a b c z : R) : R := if Rlt_dec (Rabs z) 1 then z * F a b c (1 - z) else 0.
(** :43-52 *)
Definition con2F1 (F : R -> R -> R -> R -> R) (a b c x : R) : R := if Rlt_dec (Rabs x) 1 then F a b c x else 0.
(** :54-122 *)
Definition calculatePhi (F : R -> R -> R -> R -> R) (zIni zEnd k nqcd i3 : R) : R :=
  if Req_EM_T k 0 then 0
  else if Req_EM_T i3 0 then k * (zEnd - zIni)
  else
    let k2 := k * k in
    if Req_EM_T nqcd 0 then
      let mIni := i3 * zIni in
      let mEnd := i3 * zEnd in
      let wIni := sqrt (k2 + mIni * mIni) in
      let wEnd := sqrt (k2 + mEnd * mEnd) in
      1 / 2 * k * (ln ((mEnd + wEnd) / (mIni + wIni)) + mEnd / (wEnd + mEnd) - mIni / (wIni + mIni)) / i3
    else
      let mIni := i3 * Rpower zIni (nqcd / 2 + 1) in
      let mEnd := i3 * Rpower zEnd (nqcd / 2 + 1) in
      let wIni := sqrt (k2 + mIni * mIni) in
      let wEnd := sqrt (k2 + mEnd * mEnd) in
      let v12 := k2 / (k2 + mIni * mIni) in
      let v22 := k2 / (k2 + mEnd * mEnd) in
      let phiBase1 := 2 * zIni / (4 + nqcd) in
      let phiBase2 := 2 * zEnd / (4 + nqcd) in
      let n2p1 := 1 + nqcd / 2 in
      let nn2 := 1 / (2 + nqcd) + 1 in
      phiBase2 * wEnd * v22 * (wEnd / (wEnd + mEnd) + n2p1 * con2F1 F (1 / 2) 1 nn2 (1 - v22))
      - phiBase1 * wIni * v12 * (wIni / (wIni + mIni) + n2p1 * con2F1 F (1 / 2) 1 nn2 (1 - v12)).

(** :126-175. Entry ik of superTable; [L]: the physical size *)
Definition phaseEntry (F : R -> R -> R -> R -> R) (c : cosmo) (L zIni zEnd : R) (ik : nat) : R :=
  match ik with
  | O => 0
  | S _ =>
      let k := 2 * PI / L * INR ik in
      let zCri := zThRes c in
      let aux := indi3 c * Rpower zCri (nQcd c / 2) in
      if Rle_dec zIni zCri then
        if Rlt_dec zCri zEnd then calculatePhi F zIni zCri k (nQcd c) (indi3 c) + calculatePhi F zCri zEnd k 0 aux
        else if Rle_dec zCri zIni then calculatePhi F zIni zEnd k 0 aux
        else calculatePhi F zIni zEnd k (nQcd c) (indi3 c)
      else calculatePhi F zIni zEnd k 0 aux
  end.
(** entry ik of k2Table *)
Definition k2Entry (L : R) (ik : nat) : R :=
  match ik with O => 0 | S _ => let k := 2 * PI / L * INR ik in k * k end.
Definition superTable (F : R -> R -> R -> R -> R) (c : cosmo) (L zIni zEnd : R) (powMax : nat) : list R := map (phaseEntry F c L zIni zEnd) (seq 0 (powMax + 1)).
Definition k2Table (L : R) (powMax : nat) : list R := map (k2Entry L) (seq 0 (powMax + 1)).
(** :416-417, a new tk::spline: zero curvature at both ends, no forced linear extrapolation *)
Definition phaseSpline (F : R -> R -> R -> R -> R) (c : cosmo) (L zIni zEnd : R) (powMax : nat) : option spl :=
  setPoints (Curvature 0) (Curvature 0) false (fun _ => 0) true (k2Table L powMax) (superTable F c L zIni zEnd powMax).

(** :613-626, :729-739. The phase of the version with two fields; [still]: mom == 0 *)
Definition nTwo (c : cosmo) (zIni zEnd : R) : R :=
  if Rlt_dec (zThRes c) zEnd then if Rlt_dec (zThRes c) zIni then 0 else nQcd c else nQcd c.
Definition phiTwo (F : R -> R -> R -> R -> R) (c : cosmo) (still : bool) (k2 zIni zEnd : R) : R :=
  let n := nTwo c zIni zEnd in
  let w1 := sqrt (k2 + AxionMass2 c zIni * zIni * zIni) in
  let w2 := sqrt (k2 + AxionMass2 c zEnd * zEnd * zEnd) in
  let phiBase1 := 2 * zIni / (4 + n) in
  let phiBase2 := 2 * zEnd / (4 + n) in
  let n2p1 := 1 + n / 2 in
  let nn2 := 1 / (2 + n) + 1 in
  if still then phiBase2 * w2 - phiBase1 * w1
  else phiBase2 * w2 * (1 + n2p1 * v2h2F1 F (1 / 2) 1 nn2 (k2 / (w2 * w2)))
       - phiBase1 * w1 * (1 + n2p1 * v2h2F1 F (1 / 2) 1 nn2 (k2 / (w1 * w1))).

(** ** One mode *)
(** :513-533, :742-792. [M], [D]: the mode of the field and of its velocity *)
Definition modeStep (w1 w2 zeta1 zeta2 : R) (pha : cx) (M D : cx) : cx * cx :=
  let ooI := sqrt (w1 / w2) in
  let D0 := cdiv D (cmul im (cr w1)) in
  let ap := cmul (cr (1 / 2)) (cadd (cmul M (csub (cr 1) (cmul im (cr zeta1)))) D0) in
  let am := cmul (cr (1 / 2)) (csub (cmul M (cadd (cr 1) (cmul im (cr zeta1)))) D0) in
  let ap := cmul ap (cmul (cr ooI) pha) in
  let am := cmul am (cmul (cr ooI) (cbar pha)) in
  let M0 := cadd ap am in
  let D1 := cadd (csub ap am) (cmul (cmul im (cr zeta2)) M0) in
  (M0, cmul D1 (cmul im (cr w2))).

(** :421-428 *)
Definition nIni (c : cosmo) (zIni : R) : R := if Rle_dec (zThRes c) zIni then 0 else nQcd c.
Definition nEnd (c : cosmo) (zEnd : R) : R := if Rlt_dec (zThRes c) zEnd then 0 else nQcd c.
(** scalarField.h: AxionMass(z) *)
Definition mass (c : cosmo) (z : R) : R := sqrt (AxionMass2 c z).
(** :443-451: the common phase *)
Definition massPhase (c : cosmo) (zIni zEnd : R) : R :=
  let zC := zThRes c in
  2 * zEnd / (4 + nEnd c zEnd) * mass c zEnd * zEnd
  + - 2 * zIni / (4 + nIni c zIni) * mass c zIni * zIni
  + (if Rlt_dec zIni zC then
       if Rlt_dec zC zEnd then - 2 * zC / (4 + nEnd c zEnd) * mass c zC * zC + 2 * zC / (4 + nIni c zIni) * mass c zC * zC
       else 0
     else 0).
(** :430-441, :501-506 *)
Definition freq (c : cosmo) (k2 z : R) : R := sqrt (k2 + mass c z * z * (mass c z * z)).
Definition zeta (c : cosmo) (n k2 z : R) : R :=
  / 4 * (n + 2) * (mass c z * z * (mass c z * z) / z) / (freq c k2 z * freq c k2 z * freq c k2 z).
(** :495-533 for a mode of momentum squared k2; [phase]: the interpolation of the table *)
Definition modeInplace (c : cosmo) (phase : R -> R) (zIni zEnd k2 : R) (M D : cx) : cx * cx :=
  modeStep (freq c k2 zIni) (freq c k2 zEnd) (zeta c (nIni c zIni) k2 zIni) (zeta c (nEnd c zEnd) k2 zEnd)
    (cmul (cis (phase k2)) (cis (massPhase c zIni zEnd))) M D.
(** :613-621, :717-792 *)
Definition modeTwo (F : R -> R -> R -> R -> R) (c : cosmo) (zIni zEnd : R) (still : bool) (k2 : R) (M D : cx) : cx * cx :=
  let n := nTwo c zIni zEnd in
  let a1 := AxionMass2 c zIni * zIni * zIni in
  let a2 := AxionMass2 c zEnd * zEnd * zEnd in
  let w1 := sqrt (k2 + a1) in
  let w2 := sqrt (k2 + a2) in
  modeStep w1 w2 (/ 4 * (n + 2) * (a1 / zIni) / (w1 * w1 * w1)) (/ 4 * (n + 2) * (a2 / zEnd) / (w2 * w2 * w2))
    (cis (phiTwo F c still k2 zIni zEnd)) M D.

(** ** The modes of one rank *)
(** Sites per side, slices in all, ranks, ghost slices on each side of a rank *)
Record wgrid := WGrid { wL : nat; wT : nat; wRanks : nat; wNg : nat }.
Definition wLz (g : wgrid) : nat := (wT g / wRanks g)%nat.
Definition rLx (g : wgrid) : nat := (wL g / 2 + 1)%nat.
(** :190-192 *)
Definition nModes (g : wgrid) : nat := (rLx g * wLz g * wL g)%nat.
(** :194; floor(sqrt(.)) *)
Definition powMax (g : wgrid) : nat := (Nat.sqrt (2 * (wL g / 2) * (wL g / 2) + (wT g / 2) * (wT g / 2)) + 1)%nat.
(** :475, :483-496, :700-713 *)
Definition modeMom (g : wgrid) (rank idx : nat) : Z :=
  let zBase := (wLz g * rank)%nat in
  let kz := (idx / rLx g)%nat in
  let kx := (idx - kz * rLx g)%nat in
  let ky := (kz / wT g)%nat in
  let kz := (kz - ky * wT g)%nat in
  let ky := (ky + zBase)%nat in
  let ky := if (wL g / 2 <? ky)%nat then (Z.of_nat ky - Z.of_nat (wL g))%Z else Z.of_nat ky in
  let kz := if (wT g / 2 <? kz)%nat then (Z.of_nat kz - Z.of_nat (wT g))%Z else Z.of_nat kz in
  (Z.of_nat kx * Z.of_nat kx + ky * ky + kz * kz)%Z.
(** :460-461, :497-499 *)
Definition minmom2 (L : R) : R := 4 * PI * PI / (L * L).
Definition modeK2 (L : R) (g : wgrid) (rank idx : nat) : R := IZR (modeMom g rank idx) * minmom2 L.

(** ** The whole field *)
(** [wtM], [wtV]: owned sites of field and velocity, by rank and site. [wtA], [wtB]: the modes kept
    in the two halves of m2 (one field) or in the second field. *)
Record wstate := WState { wtM : nat -> nat -> R; wtV : nat -> nat -> R; wtA : nat -> nat -> cx; wtB : nat -> nat -> cx; wtZ : R; wtFolded : bool }.
(** A WKB object: the time it was made (member zIni) *)
Record wobject := WObject { obIni : R }.
(** :304, :664, :822: with a second field, m is read and written from its second slice on (m + Surf), not from its first own one (m + Ng*Surf):
    that many sites too early *)
Definition early (g : wgrid) : nat := ((wNg g - 1) * (wL g * wL g))%nat.
(** what is read; [ghost]: the sites before the first own one *)
Definition readTwo (g : wgrid) (ghost m : nat -> nat -> R) (r i : nat) : R := if (i <? early g)%nat then ghost r i else m r (i - early g)%nat.
(** what the own sites hold after [new] is written there *)
Definition writeTwo (g : wgrid) (old new : nat -> nat -> R) (r i : nat) : R := if (i + early g <? wL g * wL g * wLz g)%nat then new r (i + early g)%nat else old r i.
(** :190-351. [two]: whether a second field is given (else making the plans spoils m and v: [junk]).
    [saxion]: FIELD_SAXION, refused *)
Definition construct (fwd : (nat -> nat -> R) -> nat -> nat -> cx) (g : wgrid) (ghost junkM junkV : nat -> nat -> R) (two saxion : bool) (s : wstate) : wobject * wstate :=
  (WObject (wtZ s),
   if saxion then s
   else WState (if two then wtM s else junkM) (if two then wtV s else junkV) (fwd (if two then readTwo g ghost (wtM s) else wtM s)) (fwd (wtV s)) (wtZ s) false).
(** What a call leaves: the interpolation aborts the program, some mode is divided by a zero frequency and the
    transform spreads the NaN over the field, or a new state *)
Inductive wresult := WAborts | WNaN | WDone (s : wstate).
Definition isZero (x : R) : bool := if Req_EM_T x 0 then true else false.
(** :358-606, :609-869 *)
Definition transport (F : R -> R -> R -> R -> R) (bck : (nat -> nat -> cx) -> nat -> nat -> R)
    (c : cosmo) (L : R) (g : wgrid) (two saxion : bool) (o : wobject) (zEnd : R) (s : wstate) : wresult :=
  if saxion then WDone s
  else
    let N := INR (wL g * wL g * wT g) in
    let zIni := obIni o in
    let out step :=
      if existsb (fun r => existsb (fun i => isZero (freq c (modeK2 L g r i) zIni) || isZero (freq c (modeK2 L g r i) zEnd)) (seq 0 (nModes g))) (seq 0 (wRanks g))
      then WNaN
      else
        let modes r i := step (modeMom g r i) (modeK2 L g r i) (wtA s r i) (wtB s r i) in
        let newM r i := bck (fun r i => fst (modes r i)) r i / N in
        WDone (WState (if two then writeTwo g (wtM s) newM else newM) (fun r i => bck (fun r i => snd (modes r i)) r i / N)
                 (wtA s) (wtB s) zEnd false) in
    if two then out (fun mom k2 => modeTwo F c zIni zEnd (mom =? 0)%Z k2)
    else match phaseSpline F c L zIni zEnd (powMax g) with
         | None => WAborts
         | Some p => out (fun _ k2 => modeInplace c (eval p) zIni zEnd k2)
         end.

(** ** Room *)
(** Reals in the buffers of a field of L x L x Lz sites and Ng ghost slices (scalarField.cpp:169-182, :276-310),
    [low]: the low-memory mode of the GPU *)
Definition roomM (L Lz Ng : nat) : nat := (L * L * (Lz + 2 * Ng))%nat.
Definition roomV (L Lz : nat) : nat := (L * L * (Lz + 2))%nat.
Definition roomM2 (L Lz Ng : nat) (low : bool) : nat := if low then roomM L Lz Ng else (2 * roomM L Lz Ng)%nat.
(** The modes of one rank, in reals: 2*nModes *)
Definition padded (L Lz : nat) : nat := ((L + 2) * L * Lz)%nat.
(** :249-287, :464-537: first place past the end of each array used in place. m2 holds modes from 0 and from m2half,
    where :265 writes eSize reals; m and v hold the new modes *)
Definition endM (L Lz : nat) : nat := padded L Lz.
Definition endV (L Lz : nat) : nat := padded L Lz.
Definition endFirstHalf (L Lz : nat) : nat := padded L Lz.
Definition startSecondHalf (L Lz Ng : nat) : nat := roomM L Lz Ng.
Definition endSecondHalf (L Lz Ng : nat) : nat := (roomM L Lz Ng + Nat.max (roomM L Lz Ng) (padded L Lz))%nat.
(** :827: eSize reals are read from the start of v *)
Definition readV (L Lz Ng : nat) : nat := roomM L Lz Ng.
