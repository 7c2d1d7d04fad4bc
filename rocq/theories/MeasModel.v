(** Which spectra a measurement writes, under which names and of what: the block of masks and the block of
    number spectra of Measureme (lib/meas/measa.cpp:478-830), with the guards and the buffers of the routines
    they call (lib/spectrum/spectrum.cpp: nRun, nSRun, masker) and of writeArray.

    A spectrum is represented by where its numbers come from: the quantity transformed, the mask named in the
    call and the mask that was in the buffer read. Values are left out: for them see Pow, Mask and Energy.
    Left out as well: cumulative masks (off until a first measurement has asked for them), the bins of numbers
    (USE_NN_BINS), low memory (masker returns at once, spectrum.cpp:2745). *)
From Coq Require Import List Bool ZArith QArith.
Import ListNotations.

(** The masks a spectrum may have: SPMASK_*, include/enum-field.h:600-617, in the order of the table
    maskara, measa.cpp:571. *)
Inductive mk := Flat | Vi | Vi2 | Bal | Red | Gau | Dif | Axit | Axit2.
Definition mk_eq (a b : mk) : {a = b} + {a <> b}.
Proof. decide equality. Defined.

(** The kinds of field measured: FIELD_SAXION and FIELD_AXION. *)
Inductive fieldType := SaxionField | AxionField.

(** What is transformed and binned: kinetic, gradient, potential, nonlinear potential, their versions without
    correction (include/enum-field.h:619-634: NRUN_K ... NRUN_CS), the same three of the radial field (nSRun), and the
    mask itself and the energy. *)
Inductive qty := QK | QG | QV | QS | QCK | QCG | QCV | QCS | QKS | QGS | QVS | QMask | QP.
Definition qty_eq (a b : qty) : {a = b} + {a <> b}.
Proof. decide equality. Defined.

(** What an array of bins holds. [Stuff q k s]: quantity q computed for mask k, reading from the mask buffer
    the mask s. *)
Inductive bins := Zero | Stuff (q : qty) (k : mk) (s : option (mk * Q)) | Garbled.

(** A dataset: "/eSpectrum/s<q>_<mask>[_<radius>]", "/mSpectrum/W_<mask>[_<radius>]", and for the energy
    "/pSpectrum/sP" (without mask: Flat), "sPmasked_<radius>" (Axit) and "sPmasked2_<radius>" (Axit2). The radius is
    printed with two decimals (measa.cpp:594), so it is a number of hundredths. *)
Record name := Name { n_q : qty; n_k : mk; n_r : option Z }.
Definition name_eq (a b : name) : {a = b} + {a <> b}.
Proof. decide equality; [decide equality; apply Z.eq_dec|apply mk_eq|apply qty_eq]. Defined.

Definition file := name -> option bins.

(** writeArray, lib/io/readWrite.pHdf5.cpp:2922-3012: a name already there is an error that is reported and
    ignored: what was there first stays. *)
Definition writeArray (n : name) (b : bins) (f : file) : file :=
  fun n' => if name_eq n n' then match f n with Some b0 => Some b0 | None => Some b end else f n'.

(** The flags of NRUN asked for: info.nrt. *)
Record nrun := NRun { rK : bool; rG : bool; rV : bool; rS : bool; rCK : bool; rCG : bool; rCV : bool; rCS : bool }.

(** What these blocks read and change: the status of the string map (SD_MAP, SD_MASK, SD_AXITONMASK), whether the
    energy is in m2 or in its second half, the mask in the bits of the map, the mask in the second
    half of m2, the arrays of bins, the file. *)
Record st := St {
  sdMap : bool; sdMask : bool; sdAxi : bool;
  m2Energy : bool; m2hEnergy : bool;
  bits : option (mk * Q);
  half : option (mk * Q);
  bK : bins; bG : bins; bV : bins; bS : bins; bP : bins;
  out : file }.

Definition write (n : name) (b : bins) (s : st) : st :=
  St (sdMap s) (sdMask s) (sdAxi s) (m2Energy s) (m2hEnergy s) (bits s) (half s)
     (bK s) (bG s) (bV s) (bS s) (bP s) (writeArray n b (out s)).

(** masker, spectrum.cpp:2563-3757, for a mask of the complex field and for one of the axion. The masks on the strings
    need a string map (2753-2776) and those on axitons an energy (2786-2801). Of the complex field, Vi and Vi2 leave
    the bits alone, the others clear them and set those of the mask (2890, 3326-3370); all leave the mask
    in the second half of m2 and the transform of the mask in bP (3390-3420); the three string masks set the map and
    mask status (3442). Of the axion, the energy is copied to the second half (3462-3471), the bits are the mask's
    (3561, 3652), only Axit2 sets its status, and forgets the others (3613), and bP is of the masked energy, not of
    the mask (3577, 3671). With [M2_ENERGY] asked the energy is put back in m2 (3745), otherwise m2 is the mask. Flat does
    nothing (2568). *)
Definition masker (ft : fieldType) (energyOut : bool) (r : Q) (k : mk) (s : st) : st :=
  let sax (mapmask : bool) (b : option (mk * Q)) :=
    St (sdMap s) (if mapmask then true else sdMask s) (sdAxi s) false (m2hEnergy s) b (Some (k, r))
       (bK s) (bG s) (bV s) (bS s) (Stuff QMask k (Some (k, r))) (out s) in
  let axi :=
    if m2Energy s || m2hEnergy s then
      St (match k with Axit2 => false | _ => sdMap s end) (match k with Axit2 => false | _ => sdMask s end)
         (match k with Axit2 => true | _ => sdAxi s end) energyOut true (Some (k, r)) None
         (bK s) (bG s) (bV s) (bS s) (Stuff QP k (Some (k, r))) (out s)
    else s in
  match ft, k with
  | _, Flat => s
  | SaxionField, (Vi | Vi2) => sax false (bits s)
  | SaxionField, Bal => sax false (Some (k, r))
  | SaxionField, (Red | Gau | Dif) => if sdMap s then sax true (Some (k, r)) else s
  | AxionField, (Axit | Axit2) => axi
  | _, _ => s
  end.

(** Where a spectrum of the complex field reads its mask: the bits for Red and Bal, the second half of m2 for Gau and
    Dif, nowhere for the others, whose weight is the field (lib/utils/kgvops.cpp). *)
Definition source (k : mk) (s : st) : option (mk * Q) :=
  match k with
  | Red | Bal => bits s
  | Gau | Dif => half s
  | _ => None
  end.

(** The tests at the head of nRun, spectrum.cpp:1008-1046: without the status nothing is done. *)
Definition nRunReady (k : mk) (s : st) : bool :=
  match k with
  | Red | Gau | Dif => sdMask s
  | Axit2 => sdAxi s
  | _ => true
  end.

(** nRun of the complex field, spectrum.cpp:1048-1567: the bins are cleared, then K, CK, V, CV, G, CG in this order.
    The nonlinear potential is binned with V only (1159). V and G build their input in m2 and its
    second half, where Gau and Dif keep their mask (kgvops.cpp: buildc_v, buildc_gyz); the z gradient of
    Gau and Dif is laid out for another transform. CV has no case for Bal, Gau and Dif, and CG none for
    Bal: they bin what was in m2. *)
Definition nRunSax (mass : bool) (k : mk) (n : nrun) (s : st) : st :=
  if negb (nRunReady k s) then s else
  let src := source k s in
  let h0 := half s in
  let cK := if rCK n then Stuff QCK k src else if rK n then Stuff QK k src else Zero in
  let dirty := match k with Gau | Dif => true | _ => false end in
  let doV := rV n && mass in
  let cS := if doV then Stuff QS k src else Zero in
  let h1 := if doV then None else h0 in
  let cV := if rCV n && mass
            then match k with Bal | Gau | Dif => Garbled | _ => Stuff QCV k src end
            else if doV then Stuff QV k src else Zero in
  let cG := if rCG n then match k with Bal | Gau | Dif => Garbled | _ => Stuff QCG k src end
            else if rG n then (if dirty then Garbled else Stuff QG k src) else Zero in
  let h2 := if rG n || rCG n then None else h1 in
  St (sdMap s) (sdMask s) (sdAxi s) false (m2hEnergy s) (bits s) h2 cK cG cV cS Zero (out s).

(** nRun of the axion, spectrum.cpp:1571-1736. The gradient and the potential are binned together (1630). Axit
    reads m2 while it fills it, at other places (1611), and its kinetic term takes the field for its velocity (1659);
    Axit2 reads the bits. *)
Definition nRunAxi (mass : bool) (k : mk) (n : nrun) (s : st) : st :=
  if negb (nRunReady k s) then s else
  let of q := match k with
              | Flat => Stuff q k None
              | Axit => Garbled
              | _ => Stuff q k (bits s)
              end in
  let gv := rG n || rCG n || rV n || rCV n in
  let cG := if gv then of (if rCG n || rCV n then QCG else QG) else Zero in
  let cV := if gv then of (if rCG n || rCV n then QCV else QV) else Zero in
  let cK := if rK n || rCK n then of (if rCK n then QCK else QK) else Zero in
  let cS := if (rS n || rCS n) && mass then of (if rCS n then QCS else QS) else Zero in
  St (sdMap s) (sdMask s) (sdAxi s) false (m2hEnergy s) (bits s) (half s) cK cG cV cS Zero (out s).

Definition nRun (ft : fieldType) mass k n s :=
  match ft with SaxionField => nRunSax mass k n s | AxionField => nRunAxi mass k n s end.

(** nSRun, spectrum.cpp:1748-2036: not for Gau and Dif (1838); Red needs its status; K, and G with V, of the
    radial field; the second half of m2 is overwritten. *)
Definition nSRun (k : mk) (n : nrun) (s : st) : st :=
  match k with
  | Gau | Dif | Axit | Axit2 => s
  | _ => if match k with Red => negb (sdMask s) | _ => false end then s else
    let src := source k s in
    let cK := if rK n then Stuff QKS k src else Zero in
    let gv := rG n || rV n in
    St (sdMap s) (sdMask s) (sdAxi s) false (m2hEnergy s) (bits s) None
       cK (if gv then Stuff QGS k src else Zero) (if gv then Stuff QVS k src else Zero) (bS s) (bP s) (out s)
  end.

(** What is asked of a measurement: the flags NRUN, MEAS_MASK, MEAS_NSP_S, whether any of MEAS_NSP_A,
    MEAS_NSP_S and MEAS_NNSPEC is there, and onlymaskenergy. *)
Record ask := Ask { a_n : nrun; a_mask : bool; a_nspS : bool; a_nsp : bool; a_onlyE : bool }.

Definition when (b : bool) (f : st -> st) (s : st) : st := if b then f s else s.

(** The calls of one mask and one radius in the block of number spectra. First the mask and its spectrum,
    measa.cpp:601-611; [printed]: it is already there. prntmsk has eight values for nine masks (572): Axit2 has none. *)
Definition prntmsk (k : mk) : bool := match k with Flat | Axit2 => false | _ => true end.

Definition nspMask (ft : fieldType) (printed : bool) (k : mk) (r : Q) (l : option Z) (s : st) : st :=
  if prntmsk k then
    let s := masker ft false r k s in
    if printed then s else write (Name QMask k l) (bP s) s
  else s.

(** The spectra with correction, 646-688. *)
Definition nspPlain (ft : fieldType) (mass : bool) (n : nrun) (k : mk) (l : option Z) (s : st) : st :=
  if rK n || rG n || rV n || rS n then
    let s := nRun ft mass k (NRun (rK n) (rG n) (rV n) (rS n) false false false false) s in
    let s := when (rK n) (fun s => write (Name QK k l) (bK s) s) s in
    let s := when (rG n) (fun s => write (Name QG k l) (bG s) s) s in
    let s := when (rV n && mass) (fun s => write (Name QV k l) (bV s) s) s in
    when (rS n && mass) (fun s => write (Name QS k l) (bS s) s) s
  else s.

(** Those without, 691-731. *)
Definition nspPure (ft : fieldType) (mass : bool) (n : nrun) (k : mk) (l : option Z) (s : st) : st :=
  if rCK n || rCG n || rCV n || rCS n then
    let s := nRun ft mass k (NRun false false false false (rCK n) (rCG n) (rCV n) (rCS n)) s in
    let s := when (rCK n) (fun s => write (Name QCK k l) (bK s) s) s in
    let s := when (rCG n) (fun s => write (Name QCG k l) (bG s) s) s in
    let s := when (rCV n && mass) (fun s => write (Name QCV k l) (bV s) s) s in
    when (rCS n && mass) (fun s => write (Name QCS k l) (bS s) s) s
  else s.

(** Those of the radial field, 734-761. *)
Definition nspRadial (ft : fieldType) (a : ask) (k : mk) (l : option Z) (s : st) : st :=
  let n := a_n a in
  if match ft with SaxionField => a_nspS a | AxionField => false end then
    let s := nSRun k (NRun (rK n) (rG n) (rV n) false false false false false) s in
    let s := when (rK n) (fun s => write (Name QKS k l) (bK s) s) s in
    let s := when (rG n) (fun s => write (Name QGS k l) (bG s) s) s in
    when (rV n) (fun s => write (Name QVS k l) (bV s) s) s
  else s.

(** All of them; Red is left when only its energy is asked for, 639-642. *)
Definition nspStep (ft : fieldType) (mass : bool) (a : ask) (printed : bool) (k : mk) (r : Q) (l : option Z) (s : st) : st :=
  let s := nspMask ft printed k r l s in
  if match k with Red => a_onlyE a | _ => false end then s else
  nspRadial ft a k l (nspPure ft mass (a_n a) k l (nspPlain ft mass (a_n a) k l s)).

(** The calls of one mask and one radius in the block of masks, measa.cpp:516-523 (the projection is in Map). *)
Definition maskStep (ft : fieldType) (k : mk) (r : Q) (l : option Z) (s : st) : st :=
  let s := masker ft false r k s in write (Name QMask k l) (bP s) s.

(** The loop over the radii, measa.cpp:509-556 and 590-771: only the first for a mask without radius (mulmask).
    [lab] gives the two printed decimals of a radius. *)
Definition mulmask (k : mk) : bool := match k with Flat | Vi | Vi2 => false | _ => true end.

Fixpoint overRadii (lab : Q -> Z) (k : mk) (step : Q -> option Z -> st -> st) (labels : list Q) (tab : list Q) (s : st) {struct tab} : option st :=
  match tab with
  | [] => Some s
  | r :: tab =>
    if mulmask k then
      match labels with
      | [] => None (* rmasklabel[ii], read beyond its end *)
      | r0 :: labels => overRadii lab k step labels tab (step r (Some (lab r0)) s)
      end
    else Some (step r None s)
  end.

Fixpoint overMasks (ks : list mk) (on : mk -> bool) (body : mk -> st -> option st) (s : st) : option st :=
  match ks with
  | [] => Some s
  | k :: ks =>
    if on k then match body k s with None => None | Some s => overMasks ks on body s end
    else overMasks ks on body s
  end.

(** The masks kept for each field, measa.cpp:68-75. *)
Definition allowed (ft : fieldType) (k : mk) : bool :=
  match ft, k with
  | SaxionField, (Axit | Axit2) => false
  | AxionField, (Flat | Axit | Axit2) => true
  | AxionField, _ => false
  | _, _ => true
  end.

(** The tables of the two blocks, measa.cpp:489, 571. *)
Definition maskTable := [Vi; Vi2; Bal; Red; Gau; Dif; Axit; Axit2].
Definition nspTable := [Flat; Vi; Vi2; Bal; Red; Gau; Dif; Axit; Axit2].

(** The radii, measa.cpp:80-88 and 100-115: the labels are the radii as asked; the table is of the same in units of the
    lattice, and when none was asked it has one zero while the labels stay empty. [scale]
    is the conversion (identity for the axion). *)
Definition radii (scale : Q -> Q) (asked : list Q) : list Q :=
  match asked with [] => [scale 0%Q] | _ => map scale asked end.

(** Before: everything is marked dirty (measa.cpp:176-178) and a new set of bins is made (470). *)
Definition fresh (f : file) : st := St false false false false false None None Zero Zero Zero Zero Zero f.

(** The energy block, measa.cpp:216-324. [energyMap]: anything that needs the energy at every site was asked for; [psp]:
    MEAS_PSP_A (which does). The spectra of the energy outside axitons come first, and pRun last; pRun leaves its
    transform in m2. *)
Definition pspStep (k : mk) (r : Q) (l : option Z) (s : st) : st :=
  let s := masker AxionField true r k s in write (Name QP k l) (bP s) s.

Definition pRun (s : st) : st :=
  St (sdMap s) (sdMask s) (sdAxi s) false (m2hEnergy s) (bits s) (half s) (bK s) (bG s) (bV s) (bS s)
     (Stuff QP Flat None) (out s).

Definition setEnergy (s : st) : st :=
  St (sdMap s) (sdMask s) (sdAxi s) true (m2hEnergy s) (bits s) (half s) (bK s) (bG s) (bV s) (bS s) (bP s) (out s).

Definition energyBlock (ft : fieldType) (lab : Q -> Z) (asked tab : list Q) (on : mk -> bool) (energyMap psp : bool) (s : st) : option st :=
  if psp then
    let s := setEnergy s in
    let masked := match ft with
                  | AxionField => overMasks [Axit; Axit2] on (fun k => overRadii lab k (pspStep k) asked tab) s
                  | SaxionField => Some s
                  end in
    match masked with
    | None => None
    | Some s => let s := pRun s in Some (write (Name QP Flat None) (bP s) s)
    end
  else Some (if energyMap then setEnergy s else s).

(** The string block, measa.cpp:427-466: for the complex field a string map is always made, since the second half of its
    test is never zero; it marks the map status alone (stringXeon.cpp:1048). *)
Definition stringBlock (ft : fieldType) (s : st) : st :=
  match ft with
  | SaxionField => St true false false (m2Energy s) (m2hEnergy s) None (half s) (bK s) (bG s) (bV s) (bS s) (bP s) (out s)
  | AxionField => s
  end.

(** The set of bins is a new one in the spectrum block, measa.cpp:470. *)
Definition newBins (s : st) : st :=
  St (sdMap s) (sdMask s) (sdAxi s) (m2Energy s) (m2hEnergy s) (bits s) (half s) Zero Zero Zero Zero Zero (out s).

(** The spectrum block. *)
Definition spectrumBlock (ft : fieldType) (mass : bool) (lab : Q -> Z) (asked tab : list Q) (on : mk -> bool) (a : ask) (s : st) : option st :=
  match (if a_mask a then overMasks maskTable on (fun k => overRadii lab k (maskStep ft k) asked tab) s
         else Some s) with
  | None => None
  | Some s =>
    if a_nsp a then overMasks nspTable on
      (fun k => overRadii lab k (nspStep ft mass a (a_mask a) k) asked tab) s
    else Some s
  end.

(** A measurement, from the file it has opened. *)
Definition measure (ft : fieldType) (mass : bool) (lab : Q -> Z) (scale : Q -> Q) (asked : list Q)
    (mask : mk -> bool) (energyMap psp : bool) (a : ask) (f : file) : option file :=
  let on k := allowed ft k && mask k in
  let tab := radii scale asked in
  match energyBlock ft lab asked tab on energyMap psp (fresh f) with
  | None => None
  | Some s =>
    match spectrumBlock ft mass lab asked tab on a (newBins (stringBlock ft s)) with
    | None => None
    | Some s => Some (out s)
    end
  end.
