(** Model of the two dimensional maps of the measurement file: lib/io/readWrite.pHdf5.cpp:3656-4353
    (writeMapHdf5s, writeMapHdf5s2, writeEMapHdf5s, writePMapHdf5s), and of the part of the
    measurement that asks for them, lib/meas/measa.cpp:206-285.

    Numbers are of an arbitrary type B. A site of the field holds [nComp] numbers, so an element of
    the buffers of the field is a function from the component to the number. A file is a function from
    names to data sets. The checks of the HDF5 library other than "the name is taken" are assumed to
    succeed; chunks, data types and profiling are not modelled. *)
From Coq Require Import List Arith Bool String ZArith QArith.
From Verif Require Import Base FolderModel RedModel.
Import ListNotations.
Local Open Scope nat_scope.

Inductive fieldKind := Saxion | Naxion | OtherField.

(** Numbers per site of m and v: the fields written with two numbers per site
    (readWrite.pHdf5.cpp:3685-3688). *)
Definition nComp (k : fieldKind) : nat := match k with Saxion | Naxion => 2 | OtherField => 1 end.

(** A data set created with H5D_FILL_TIME_NEVER: what is never written has no value. *)
Record dset (B : Type) := DSet { d_size : nat; d_val : nat -> option B }.
Arguments DSet {B}. Arguments d_size {B}. Arguments d_val {B}.

Definition file (B : Type) := string -> option (dset B).
Definition putSet {B} (f : file B) (n : string) (d : dset B) : file B :=
  fun n' => if String.eqb n n' then Some d else f n'.

(** H5Dcreate with a name that is taken fails. *)
Definition create {B} (f : file B) (n : string) (size : nat) : option (file B) :=
  match f n with Some _ => None | None => Some (putSet f n (DSet size (fun _ => None))) end.

(** H5Dwrite of [len] numbers at [off]. *)
Definition writeSlab {B} (f : file B) (n : string) (off len : nat) (src : nat -> B) : file B :=
  match f n with
  | None => f
  | Some d => putSet f n (DSet (d_size d)
      (fun i => if (off <=? i) && (i <? off + len) then Some (src (i - off)) else d_val d i))
  end.

(** The state of the run: one field per rank, and the file. *)
Definition ranks (B : Type) := nat -> fstate (nat -> B).
Inductive outcome (S : Type) :=
| Ignored              (* the request is refused and nothing is done *)
| Stopped              (* exit() *)
| Done (s : S).
Arguments Ignored {S}. Arguments Stopped {S}. Arguments Done {S}.

(** Number [k] of an array of elements. *)
Definition numbers {B} (c : nat) (st : fstate (nat -> B)) (base : nat) (k : nat) : B :=
  f_mem st (ArrM, base + k / c) (k mod c).

(** readWrite.pHdf5.cpp:3656-3841 writeMapHdf5s. [R] ranks; [junkSet] and [junkSpace] are what vSet_id
    and vSpace hold on entry: they are set only when the field is not FIELD_NAXION (:3770, :3783) but
    tested always (:3773, :3786). Only the printing rank selects something. *)
Definition writeXY {B} (g : geom) (R : nat) (k : fieldKind) (opened : bool) (junkSet junkSpace : Z)
  (s : nat) (rs : ranks B) (f : file B) : outcome (ranks B * file B) :=
  if negb opened then Ignored else
  let slb := (if match k with OtherField => false | _ => true end then 2 else 1) * g_n2 g in
  let slicenumber := s mod g_Lz g in
  let prank := s / g_Lz g in
  let rs := fun r => folder g (UNFOLD_SLICE slicenumber) (rs r) in
  match create f "/map/m"%string slb with
  | None => Stopped
  | Some f =>
    let withV := match k with Naxion => false | _ => true end in
    match (if withV then create f "/map/v"%string slb else Some f) with
    | None => Stopped
    | Some f =>
      if negb withV && ((junkSet <? 0)%Z || (junkSpace <? 0)%Z) then Stopped else
      let f := if prank <? R then writeSlab f "/map/m"%string 0 slb (numbers (nComp k) (rs prank) 0) else f in
      let f := if withV && (prank <? R)
               then writeSlab f "/map/v"%string 0 slb (numbers (nComp k) (rs prank) (mBack g)) else f in
      Done (rs, f)
    end
  end.

(** readWrite.pHdf5.cpp:3859-4026 writeMapHdf5s2. [order] is the order in which the rows of the ranks
    reach the file: pairs (rank, yDim). [total] and [slab] are doubled for FIELD_SAXION only (:3888). *)
Definition writeYZ {B} (g : geom) (R : nat) (k : fieldKind) (opened : bool) (order : list (nat * nat))
  (s : nat) (rs : ranks B) (f : file B) : outcome (ranks B * file B) :=
  if negb opened then Ignored else
  let two := match k with Saxion => 2 | _ => 1 end in
  let total := two * (g_n1 g * (g_Lz g * R)) in
  let slab := two * g_n1 g in
  let slicenumber := if g_n1 g <? s then 0 else s in
  let rs := fun r => folder g (UNFOLD_SLICEYZ slicenumber) (rs r) in
  match create f "/mapp/m"%string total with
  | None => Stopped
  | Some f =>
    match create f "/mapp/v"%string total with
    | None => Stopped
    | Some f =>
      let partial := total / R in
      Done (rs, fold_left (fun f ry =>
        let offset := fst ry * partial + snd ry * slab in
        let f := writeSlab f "/mapp/m"%string offset slab (numbers (nComp k) (rs (fst ry)) (g_n1 g * snd ry)) in
        writeSlab f "/mapp/v"%string offset slab (numbers (nComp k) (rs (fst ry)) (mBack g + g_n1 g * snd ry)))
        order f)
    end
  end.

(** The states of m2 that matter here (enum-field.h). *)
Inductive m2Stat := M2Energy | M2MaskTest | M2AntiMask | M2Mask | M2EnergySmooth | M2Other.

(** readWrite.pHdf5.cpp:4033-4197 writeEMapHdf5s: rank 0 writes Surf numbers of its m2 starting at
    slice [s]; the corrected slicenumber (:4075-4080) is not used. [m2 r i] is number i of m2 in rank r. *)
Definition writeE {B} (g : geom) (opened : bool) (st : m2Stat) (s : nat) (name : string)
  (m2 : nat -> nat -> B) (f : file B) : outcome (file B) :=
  match st with
  | M2Energy | M2MaskTest | M2AntiMask | M2Mask =>
    if negb opened then Ignored else
    match create f name (g_n2 g) with
    | None => Stopped
    | Some f => Done (writeSlab f name 0 (g_n2 g) (fun i => m2 0 (g_n2 g * s + i)))
    end
  | _ => Ignored
  end.

(** readWrite.pHdf5.cpp:4207-4348 writePMapHdf5s: rank 0 writes Surf numbers from the front ghost of m. *)
Definition writeP {B} (g : geom) (opened : bool) (name : string) (m : nat -> nat -> B) (f : file B)
  : outcome (file B) :=
  if negb opened then Ignored else
  match create f name (g_n2 g) with
  | None => Stopped
  | Some f => Done (writeSlab f name 0 (g_n2 g) (fun i => m 0 i))
  end.

(** projector.cpp:85-99: the refusals of projectField; the projection itself is RedModel.project *)
Definition projectField (g : geom) (R c : nat) (lowMem : bool) (st : m2Stat) (filter : Q -> Q)
  (m2 m : nat -> nat -> Q) : nat -> nat -> Q :=
  if lowMem then m else
  match st with
  | M2Energy | M2AntiMask | M2Mask | M2EnergySmooth => project (g_n2 g) (g_Lz g) R (c * mBack g) filter m2 m
  | _ => m
  end.

(** measa.cpp:206-281: the maps of one measurement. [maty] as five requests: m and v in the plane xy,
    in the plane yz, the energy, its projection, the projection of its square. [energyOf rs] is
    the energy map left in m2 by energy(EN_MAP) (:229). Everything in between that is not a map is left out. *)
Record maps := Maps { askXY : bool; askYZ : bool; askE : bool; askP : bool; askP2 : bool }.

(** After each writer: a refused request changes nothing and the measurement goes on. *)
Definition andThen {S T} (o : outcome S) (old : S) (next : S -> outcome T) : outcome T :=
  match o with Ignored => next old | Stopped => Stopped | Done s => next s end.

Definition writeMaps (g : geom) (R : nat) (k : fieldKind) (lowMem : bool) (junkSet junkSpace : Z)
  (order : list (nat * nat)) (energyOf : ranks Q -> nat -> nat -> Q) (q : maps) (s : nat)
  (rs : ranks Q) (f : file Q) : outcome (ranks Q * file Q) :=
  let start := (rs, f) in
  andThen (if askXY q then writeXY g R k true junkSet junkSpace s rs f else Ignored) start (fun p =>
  andThen (if askYZ q then writeYZ g R k true order s (fst p) (snd p) else Ignored) p (fun p =>
  let m2 := energyOf (fst p) in
  let m := fun r i => numbers (nComp k) (fst p r) 0 i in
  andThen (if askE q then writeE g true M2Energy s "/map/E"%string m2 (snd p) else Ignored) (snd p) (fun f =>
  let m1 := projectField g R (nComp k) lowMem M2Energy (fun x => x) m2 m in
  andThen (if askP q then writeP g true "/map/P"%string m1 f else Ignored) f (fun f =>
  let m2' := projectField g R (nComp k) lowMem M2Energy (fun x => (x * x)%Q) m2 (if askP q then m1 else m) in
  andThen (if askP2 q then writeP g true "/map/P"%string m2' f else Ignored) f (fun f =>
  Done (fst p, f)))))).
