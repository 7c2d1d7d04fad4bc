(** Model of what a saved configuration says about the physics, and of how this is put together with the
    command line when a run goes on from a file: the potential options (lib/utils/parse.cpp:942-1013,
    1230-1300, 1584-1603, 2621-2622), createCosmos (:2742-2812), the header written by writeConf
    (lib/io/readWrite.pHdf5.cpp:400-503) and read by readConf (:836-1162).

    Numbers are rational. Texts are the texts. The attributes are assumed to be there (files of this version). *)
From Coq Require Import NArith QArith List Bool String.
From Verif Require Import FlagModel.
Import ListNotations.
Local Open Scope N_scope.
Local Open Scope bool_scope.

(** ** Command line *)
(** The options that touch the potential or are treated alike; in the order given *)
Inductive copt :=
| OQcdC | OQcdV | OQcdL | OQcd0 | OQcdN2                   (* parse.cpp:942-977 *)
| OPq (p : pqPot)                                          (* :979-998 *)
| OOnlyRho | OOnlyTheta                                    (* :1000-1012 *)
| OGam (x : Q) | ODectime (x : Q) | OGamAll (x : Q)        (* :1228-1300 *)
| OInd3 (x : Q)                                            (* :1584-1603 *)
| OFrw (x : Q) | OMink                                     (* :750-781 *)
| OQcdExp (x : Q)                                          (* :1640-1668, the numeric case *)
| OLambda (x : Q)                                          (* :1483-1503 *)
| OSize (x : Q) | OZth (x : Q) | OZrs (x : Q).             (* :1470-1481, 1513-1546 *)

(** The global variables set by the options, with their u... marks where there is one *)
Record globals := mkG {
  gUPot : bool; gQcd : N; gPq : N; gEvol : N; gDamp : N;
  gUI3 : bool; gI3 : Q; gUGam : bool; gGam : Q; gUDec : bool; gDec : Q;
  gFrw : Q; gUMink : bool;
  gUQcd : bool; gNQcd : Q; gULam : bool; gLam : Q;
  gUSize : bool; gSize : Q; gUZth : bool; gZth : Q; gUZrs : bool; gZrs : Q }.
(** parse.cpp:21-113 *)
Definition globals0 : globals :=
  mkG false 2 1024 0 0 false 1 false 0 false (-1) 1 false false 7 false 25000 false 4 false 1000 false (1000000000000000000000000000000).

Definition setPot (g : globals) (q p e d : N) : globals :=
  mkG true q p e d (gUI3 g) (gI3 g) (gUGam g) (gGam g) (gUDec g) (gDec g) (gFrw g) (gUMink g)
      (gUQcd g) (gNQcd g) (gULam g) (gLam g) (gUSize g) (gSize g) (gUZth g) (gZth g) (gUZrs g) (gZrs g).
Definition setI3 (g : globals) (x : Q) : globals :=
  mkG (gUPot g) (gQcd g) (gPq g) (gEvol g) (gDamp g) true x (gUGam g) (gGam g) (gUDec g) (gDec g) (gFrw g) (gUMink g)
      (gUQcd g) (gNQcd g) (gULam g) (gLam g) (gUSize g) (gSize g) (gUZth g) (gZth g) (gUZrs g) (gZrs g).
Definition setQcdOnly (g : globals) (q : N) : globals :=
  mkG (gUPot g) q (gPq g) (gEvol g) (gDamp g) (gUI3 g) (gI3 g) (gUGam g) (gGam g) (gUDec g) (gDec g) (gFrw g) (gUMink g)
      (gUQcd g) (gNQcd g) (gULam g) (gLam g) (gUSize g) (gSize g) (gUZth g) (gZth g) (gUZrs g) (gZrs g).
Definition setGam (g : globals) (x : Q) : globals :=
  mkG (gUPot g) (gQcd g) (gPq g) (gEvol g) (gDamp g) (gUI3 g) (gI3 g) true x (gUDec g) (gDec g) (gFrw g) (gUMink g)
      (gUQcd g) (gNQcd g) (gULam g) (gLam g) (gUSize g) (gSize g) (gUZth g) (gZth g) (gUZrs g) (gZrs g).
Definition setDec (g : globals) (x : Q) : globals :=
  mkG (gUPot g) (gQcd g) (gPq g) (gEvol g) (gDamp g) (gUI3 g) (gI3 g) (gUGam g) (gGam g) true x (gFrw g) (gUMink g)
      (gUQcd g) (gNQcd g) (gULam g) (gLam g) (gUSize g) (gSize g) (gUZth g) (gZth g) (gUZrs g) (gZrs g).
Definition setFrwMink (g : globals) (x : Q) (m : bool) : globals :=
  mkG (gUPot g) (gQcd g) (gPq g) (gEvol g) (gDamp g) (gUI3 g) (gI3 g) (gUGam g) (gGam g) (gUDec g) (gDec g) x m
      (gUQcd g) (gNQcd g) (gULam g) (gLam g) (gUSize g) (gSize g) (gUZth g) (gZth g) (gUZrs g) (gZrs g).
Definition setNQcd (g : globals) (x : Q) : globals :=
  mkG (gUPot g) (gQcd g) (gPq g) (gEvol g) (gDamp g) (gUI3 g) (gI3 g) (gUGam g) (gGam g) (gUDec g) (gDec g) (gFrw g) (gUMink g)
      true x (gULam g) (gLam g) (gUSize g) (gSize g) (gUZth g) (gZth g) (gUZrs g) (gZrs g).
Definition setLam (g : globals) (x : Q) : globals :=
  mkG (gUPot g) (gQcd g) (gPq g) (gEvol g) (gDamp g) (gUI3 g) (gI3 g) (gUGam g) (gGam g) (gUDec g) (gDec g) (gFrw g) (gUMink g)
      (gUQcd g) (gNQcd g) true x (gUSize g) (gSize g) (gUZth g) (gZth g) (gUZrs g) (gZrs g).
Definition setSize (g : globals) (x : Q) : globals :=
  mkG (gUPot g) (gQcd g) (gPq g) (gEvol g) (gDamp g) (gUI3 g) (gI3 g) (gUGam g) (gGam g) (gUDec g) (gDec g) (gFrw g) (gUMink g)
      (gUQcd g) (gNQcd g) (gULam g) (gLam g) true x (gUZth g) (gZth g) (gUZrs g) (gZrs g).
Definition setZth (g : globals) (x : Q) : globals :=
  mkG (gUPot g) (gQcd g) (gPq g) (gEvol g) (gDamp g) (gUI3 g) (gI3 g) (gUGam g) (gGam g) (gUDec g) (gDec g) (gFrw g) (gUMink g)
      (gUQcd g) (gNQcd g) (gULam g) (gLam g) (gUSize g) (gSize g) true x (gUZrs g) (gZrs g).
Definition setZrs (g : globals) (x : Q) : globals :=
  mkG (gUPot g) (gQcd g) (gPq g) (gEvol g) (gDamp g) (gUI3 g) (gI3 g) (gUGam g) (gGam g) (gUDec g) (gDec g) (gFrw g) (gUMink g)
      (gUQcd g) (gNQcd g) (gULam g) (gLam g) (gUSize g) (gSize g) (gUZth g) (gZth g) true x.

Definition applyOpt (g : globals) (o : copt) : globals :=
  match o with
  | OQcdC => setPot g 32 (gPq g) (gEvol g) (gDamp g)
  | OQcdV => setPot g 4 (gPq g) (gEvol g) (gDamp g)
  | OQcdL => setPot g 16 (gPq g) (gEvol g) (gDamp g)
  | OQcd0 => setI3 (setPot g 1 (gPq g) (gEvol g) (gDamp g)) 0
  | OQcdN2 => setPot g 8 (gPq g) (gEvol g) (gDamp g)
  | OPq p => setPot g (gQcd g) (pqCode p) (gEvol g) (gDamp g)
  | OOnlyRho => setPot g (gQcd g) (gPq g) V_EVOL_RHO (gDamp g)
  | OOnlyTheta => setPot g (gQcd g) (gPq g) V_EVOL_THETA (gDamp g)
  | OGam x => setGam (setPot g (gQcd g) (gPq g) (gEvol g) V_DAMP_RHO) x
  | ODectime x => setDec (setPot g (gQcd g) (gPq g) (gEvol g) V_DAMP_RHO) x
  | OGamAll x => setGam (setPot g (gQcd g) (gPq g) (gEvol g) V_DAMP_ALL) x
  | OInd3 x => let g1 := setI3 g x in if Qeq_bool x 0 then setQcdOnly g1 1 else g1
  | OFrw x => setFrwMink g x (gUMink g)
  | OMink => setFrwMink g 0 true
  | OQcdExp x => setNQcd g x
  | OLambda x => setLam g x
  | OSize x => setSize g x
  | OZth x => setZth g x
  | OZrs x => setZrs g x
  end.
(** The checks that end the program (:1241, 1266, 1289, 1472, 1494, 1516, 1537, 1600, 1662) *)
Definition optOk (o : copt) : bool :=
  match o with
  | OGam x | ODectime x | OGamAll x | OInd3 x | OQcdExp x => Qle_bool 0 x
  | OLambda x | OSize x | OZth x | OZrs x => negb (Qle_bool x 0)
  | _ => true
  end.
Definition offQ : Q := 100000000000000000000.
(** :2625-2629 *)
Definition switchOff (g : globals) : globals :=
  if negb (Qle_bool (gZth g) (gZrs g))
  then mkG (gUPot g) (gQcd g) (gPq g) (gEvol g) (gDamp g) (gUI3 g) (gI3 g) (gUGam g) (gGam g) (gUDec g) (gDec g) (gFrw g) (gUMink g)
      (gUQcd g) (gNQcd g) (gULam g) (gLam g) (gUSize g) (gSize g) (gUZth g) offQ (gUZrs g) offQ
  else g.
Definition parse (l : list copt) : option globals :=
  if forallb optOk l then Some (switchOff (fold_left applyOpt l globals0)) else None.
(** :2621-2622 *)
Definition finalPot (g : globals) : N := bor (bor (gQcd g) (gPq g)) (bor (gDamp g) (gEvol g)).

(** ** The background *)
(** include/cosmos/cosmos.h:15-37 (the members that matter here) *)
Record cosmos := mkC {
  cSize : Q; cLambda : Q; cLz2e : Q; cI3 : Q; cGamma : Q; cDec : Q; cNQcd : Q; cNQcdr : Q;
  cZth : Q; cZrs : Q; cPot : N; cFrw : Q; cMink : bool }.
Definition unset : Q := -100000000.
Definition orElse (b : bool) (x y : Q) : Q := if b then x else y.
(** createCosmos when reading from a file (parse.cpp:2750-2792). uFR (:82) is set nowhere *)
Definition fromCommandLine (g : globals) : cosmos :=
  mkC (orElse (gUSize g) (gSize g) 0) (orElse (gULam g) (gLam g) unset) (orElse (gULam g) 0 2)
      (orElse (gUI3 g) (gI3 g) unset) (orElse (gUGam g) (gGam g) unset) (orElse (gUDec g) (gDec g) (-1))
      (orElse (gUQcd g) (gNQcd g) unset) (orElse (gUQcd g) (gNQcd g) unset)
      (orElse (gUZth g) (gZth g) unset) (orElse (gUZrs g) (gZrs g) unset)
      (if gUPot g then finalPot g else 0) (orElse (gUMink g) 0 1) (gUMink g).
(** createCosmos for a fresh run (:2793-2808); Lambda given directly (LAMBDA_FIXED) *)
Definition freshCosmos (g : globals) : cosmos :=
  mkC (gSize g) (gLam g) 0 (gI3 g) (gGam g) (gDec g) (gNQcd g) (gNQcd g) (gZth g) (gZrs g) (finalPot g)
      (orElse (gUMink g) 0 (gFrw g)) (gUMink g).

(** ** The header *)
Inductive lamType := LFixed | LZ2.
Record header := mkH {
  hSize : Q; hFrw : Q; hLam : Q; hLType : string; hLz2e : Q; hVqcd : string; hVpq : string;
  hDamp : string; hEvol : string; hNQcd : Q; hNQcd2 : Q; hGamma : Q; hI3 : Q; hZth : Q; hZrs : Q }.
Local Open Scope string_scope.

(** readWrite.pHdf5.cpp:408-416 (caspr, :36-39: a case that prints the text and leaves the switch; default: goes to the next case) *)
Definition vqcdText (w : N) : string :=
  let b := band w V_QCD in
  if (b =? 32)%N then "VQcd Cos" else if (b =? 2)%N then "VQcd 1" else if (b =? 1)%N then "VQcd 0"
  else if (b =? 4)%N then "VQcd Variant" else if (b =? 16)%N then "VQcd Linear" else if (b =? 8)%N then "VQcd N = 2" else "VQcd Cos".
(** :418-423 *)
Definition vpqText (w : N) : string :=
  let b := band w V_PQ in
  if (b =? 1024)%N then "VPQ 1" else if (b =? 2048)%N then "VPQ 2" else if (b =? 512)%N then "VPQ 3" else "VPQ 1".
(** :425-430 *)
Definition dampText (w : N) : string :=
  let b := band w V_DAMP in if (b =? V_DAMP_RHO)%N then "Rho" else if (b =? V_DAMP_ALL)%N then "All" else "None".
(** :432-436 *)
Definition evolText (w : N) : string := if (band w V_EVOL_RHO =? V_EVOL_RHO)%N then "Only Rho" else "Full".

(** :384-400, 438-498 *)
Definition writeHeader (c : cosmos) (t : lamType) : header :=
  mkH (cSize c) (cFrw c) (cLambda c) (match t with LFixed => "Fixed" | LZ2 => "z2" end) (cLz2e c)
      (vqcdText (cPot c)) (vpqText (cPot c)) (dampText (cPot c)) (evolText (cPot c))
      (cNQcd c) (cNQcdr c) (cGamma c) (cI3 c) (cZth c) (cZrs c).

(** :1053-1075 *)
Definition vqcdOf (s : string) : N :=
  if String.eqb s "VQcd 1" then 2
  else if String.eqb s "VQcd Variant" || String.eqb s "VQcd 2" then 4
  else if String.eqb s "VQcd 0" then 1
  else if String.eqb s "VQcd Linear" then 16
  else if String.eqb s "VQcd Cos" then 32
  else if String.eqb s "VQcd N = 2" then 8
  else 2.
(** :1089-1099 *)
Definition vpqOf (s : string) : N :=
  if String.eqb s "VPQ 1" then 1024 else if String.eqb s "VPQ2" then 2048 else if String.eqb s "VPQ3" then 512 else 1024.
(** :1110-1119 *)
Definition dampOf (s : string) : N :=
  if String.eqb s "Rho" then V_DAMP_RHO else if String.eqb s "All" then V_DAMP_ALL else 0.
(** :1134-1141 *)
Definition evolOf (s : string) : N := if String.eqb s "Only Rho" then V_EVOL_RHO else 0.
Local Close Scope string_scope.

(** :1043-1159. [i3]: Indi3 after its own reading *)
Definition readPot (h : header) (i3 : Q) (pot : N) : N :=
  let zero := Qeq_bool i3 0 in
  let pot := if zero then bor 1 (band pot (bor (bor V_PQ V_TYPE) (bor V_EVOL V_DAMP))) else pot in
  let q := if zero then 1 else if band pot V_QCD =? 0 then vqcdOf (hVqcd h) else band pot V_QCD in
  let p := if band pot V_PQ =? 0 then vpqOf (hVpq h) else band pot V_PQ in
  let d := if band pot V_DAMP =? 0 then dampOf (hDamp h) else band pot V_DAMP in
  let e := if band pot (bor V_EVOL_RHO V_EVOL_THETA) =? 0 then evolOf (hEvol h)
           else if on (band pot V_EVOL_THETA) && on (band pot V_EVOL_RHO) then 0
           else if on (band pot V_EVOL_RHO) then band pot V_EVOL_RHO else band pot V_EVOL_THETA in
  bor (bor (bor q p) d) e.

Definition isUnset (x : Q) : bool := Qeq_bool x unset.
(** :864-1162: None: the program ends (unknown Lambda type, :1010-1013) *)
Definition readHeader (h : header) (c : cosmos) : option cosmos :=
  let mink := if negb (Qeq_bool (cFrw c) (hFrw h)) && Qeq_bool (cFrw c) 0 then true else cMink c in
  let size := if Qeq_bool (cSize c) 0 then hSize h else cSize c in
  let nq := if isUnset (cNQcd c) then hNQcd h else cNQcd c in
  let nqr := if isUnset (cNQcd c) then hNQcd2 h else cNQcdr c in
  let i3 := if isUnset (cI3 c) then hI3 h else cI3 c in
  let zth := if isUnset (cZth c) then hZth h else cZth c in
  let zrs := if isUnset (cZrs c) then hZrs h else cZrs c in
  let gam := if isUnset (cGamma c) then hGamma h else cGamma c in
  let lam := if isUnset (cLambda c) then hLam h else cLambda c in
  let fin := fun lz => Some (mkC size lam lz i3 gam (cDec c) nq nqr zth zrs (readPot h i3 (cPot c))
                                 (if mink then 0%Q else cFrw c) mink) in
  if isUnset (cLambda c)
  then if String.eqb (hLType h) "z2" then fin (hLz2e h)
       else if String.eqb (hLType h) "Fixed" then fin 0%Q
       else None
  else fin (cLz2e c).

(** A fresh run, and a run that goes on from what another run saved; None: the program ends *)
Definition startRun (l : list copt) : option cosmos := option_map freshCosmos (parse l).
Definition continue (l : list copt) (c : cosmos) (t : lamType) : option cosmos :=
  match parse l with Some g => readHeader (writeHeader c t) (fromCommandLine g) | None => None end.

(** ** How the field was made *)
Local Open Scope string_scope.
(** enum-field.h:297-330 *)
Inductive conf := CNone | CSmooth | CKmax | CVilgor | CVilgork | CVilgors | CTkachev | CRead | CLola | CCole | CSpax | CThermal | CString.
Inductive subconf := SRand | SStringXY | SStringYZ | SMini0 | SMini | SAxNoise | SSaxNoise | SAx1Mode | SParres | SAxiton | SStrWave | SThetaVel | SVelRand.
(** readWrite.pHdf5.cpp:503-568: the text written, if any *)
Definition confText (c : conf) : option string :=
  match c with
  | CSmooth => Some "Smooth" | CKmax => Some "kMax" | CVilgork | CVilgors | CVilgor => Some "VilGor"
  | CLola => Some "Lola" | CCole => Some "Cole" | CTkachev => Some "Tkachev" | CThermal => Some "Thermal"
  | CSpax => Some "Axion Spectrum" | CNone | CRead | CString => None
  end.
(** :570-620 *)
Definition subText (s : subconf) : string :=
  match s with
  | SRand => "Random" | SStringXY => "String XY" | SStringYZ => "String YZ" | SMini => "Minicluster"
  | SMini0 => "Minicluster 0" | SAxNoise => "Axion noise" | SSaxNoise => "Saxion noise" | SAx1Mode => "Axion one mode"
  | SAxiton => "Minicluster 0" | SParres => "Parametric Resonance" | SStrWave => "String + wave"
  | SThetaVel | SVelRand => "None"
  end.
(** :1181-1216. [s]: the contents of the buffer. [old]: the value of cType before *)
Definition confOf (s : string) (old : conf) : conf :=
  if String.eqb s "Smooth" then CSmooth else if String.eqb s "kMax" then CKmax else if String.eqb s "VilGor" then CVilgor
  else if String.eqb s "Lola" then CLola else if String.eqb s "Cole" then CCole else if String.eqb s "Tkachev" then CTkachev
  else if String.eqb s "Thermal" then CThermal else if String.eqb s "Axion Spectrum" then CSpax
  else if String.eqb s "Moore" then CSmooth else old.
(** :1220-1243 *)
Definition subOf (s : string) (old : subconf) : subconf :=
  if String.eqb s "Random" then SRand else if String.eqb s "String XY" then SStringXY else if String.eqb s "String YZ" then SStringYZ
  else if String.eqb s "Minicluster" then SMini else if String.eqb s "Minicluster 0" then SMini0
  else if String.eqb s "Axion noise" then SAxNoise else if String.eqb s "Saxion noise" then SSaxNoise
  else if String.eqb s "Axion one mode" then SAx1Mode else if String.eqb s "Parametric Resonance" then SParres
  else if String.eqb s "String + wave" then SStrWave else old.
(** :1179: a failed read leaves the buffer, which was never set ([junk]), as it is *)
Definition readConfType (c : conf) (junk : string) (old : conf) : conf :=
  confOf (match confText c with Some s => s | None => junk end) old.
Definition readSubType (s : subconf) (old : subconf) : subconf := subOf (subText s) old.

(** The buffers of writeConf (:228): what sprintf puts in, and how large they are. [None]: writes past the end *)
Definition bufferOf (s : string) (size : nat) : option string :=
  if (String.length s + 1 <=? size)%nat then Some s else None.
Definition smStrSize : nat := 16.
