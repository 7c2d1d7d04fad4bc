(** Model of the field data in a saved configuration: writeConf and readConf in
    lib/io/readWrite.pHdf5.cpp.

    A file is a function from positions to the value written there, [None] where nothing was written (the
    file is created with H5D_FILL_TIME_NEVER, :649). A read of a place never written gives an arbitrary
    value. Numbers are of an arbitrary type: the conversion of precision by HDF5 is not modelled, nor are
    failing calls, the transformation between field types after reading (:1497-1517, see ThetaModel), and the
    enlarging and reducing themselves (:1522-1560, see RedModel); the sizes these give are. *)
From Coq Require Import List Arith Bool String.
Import ListNotations.
Local Open Scope nat_scope.
Local Open Scope bool_scope.

Section Data.
Context {A : Type}.

(** Sites per side, slices per rank, ranks, numbers per site; first number of the data in the arrays m
    and v (mStart and vStart, include/scalar/scalarField.h:89-111) *)
Record cgeom := CGeom { cN : nat; cD : nat; cR : nat; cW : nat; mBeg : nat; vBeg : nat }.
(** readWrite.pHdf5.cpp:323-374: axion->Surf() times 2 for complex fields *)
Definition slab (g : cgeom) : nat := cN g * cN g * cW g.

Definition file := nat -> option A.
(** the array of each rank *)
Definition array := nat -> nat -> A.

(** H5Dwrite of [n] numbers from [from] to position [off] *)
Definition hwrite (f : file) (off n : nat) (from : nat -> A) : file :=
  fun p => if (off <=? p) && (p <? off + n) then Some (from (p - off)) else f p.
(** H5Dread of [n] numbers from position [off] to [dst]; [junk]: what comes from places never written *)
Definition hread (f : file) (off n dst : nat) (junk : nat -> A) (a : nat -> A) : nat -> A :=
  fun p => if (dst <=? p) && (p <? dst + n)
           then match f (off + (p - dst)) with Some x => x | None => junk (off + (p - dst)) end
           else a p.

(** :689-714: slice z of rank r, from [beg] in the array *)
Definition writeSlice (g : cgeom) (beg : nat) (a : array) (f : file) (rz : nat * nat) : file :=
  let '(r, z) := rz in hwrite f ((r * cD g + z) * slab g) (slab g) (fun i => a r (beg + slab g * z + i)).
(** The slices of all ranks, in the order [order] in which they reach the file *)
Definition writeData (g : cgeom) (beg : nat) (a : array) (order : list (nat * nat)) : file :=
  fold_left (writeSlice g beg a) order (fun _ => None).

(** The two datasets; FIELD_NAXION has no /v (:667, 694, 700) *)
Definition writeConf (g : cgeom) (hasV : bool) (m v : array) (order vorder : list (nat * nat)) : file * option file :=
  (writeData g (mBeg g) m order, if hasV then Some (writeData g (vBeg g) v vorder) else None).

(** :1430-1447: the loop over the slices of one rank. [nz] slices per rank *)
Definition readData (sl nz beg r : nat) (f : file) (junk : nat -> A) (a : nat -> A) : nat -> A :=
  fold_left (fun a z => hread f ((r * nz + z) * sl) sl (beg + sl * z) junk a) (seq 0 nz) a.

(** :1301-1307: the slices are divided evenly among the ranks or the program ends. [depth] is the total
    depth in the file *)
Inductive outcome (X : Type) := Exited | Loaded (x : X).
Definition readConf (depth : nat) (g : cgeom) (mf vf : file) (junk : nat -> A) (m v : array) : outcome (array * array) :=
  let nz := depth / cR g in
  if depth mod cR g =? 0
  then Loaded _ (fun r => readData (slab g) nz (mBeg g) r mf junk (m r),
                 fun r => readData (slab g) nz (vBeg g) r vf junk (v r))
  else Exited _.
End Data.

Local Open Scope string_scope.
(** ** The type of the field *)
(** include/enum-field.h: the types a field object can have when it is written *)
Inductive fkind := Saxion | SaxionRd | AxionMod | AxionModRd | Axion | AxionRd | WKB | Naxion | Paxion.
(** :321-374 *)
Definition kindName (k : fkind) : string :=
  match k with
  | Saxion | SaxionRd => "Saxion"
  | AxionMod | AxionModRd => "Axion Mod"
  | Axion | AxionRd | WKB => "Axion"
  | Naxion => "Naxion"
  | Paxion => "Paxion"
  end.
(** :1346-1382: None: the program ends *)
Definition kindRead (s : string) : option fkind :=
  if String.eqb s "Saxion" then Some Saxion
  else if String.eqb s "Axion" then Some Axion
  else if String.eqb s "Axion Mod" then Some AxionMod
  else if String.eqb s "Paxion" then Some Paxion
  else None.
(** numbers per site written (:321-374) and read (:1341-1382) *)
Definition widthWritten (k : fkind) : nat := match k with Saxion | SaxionRd | Naxion => 2 | _ => 1 end.
Definition widthRead (k : fkind) : nat := match k with Saxion => 2 | _ => 1 end.

Local Close Scope string_scope.
(** ** The size of the field *)
(** :1309-1333 and :1522-1560: the size the object is created with, and the size of the field at the end.
    [sN], [sZ]: asked for (sites per side, slices per rank); [nx], [nz]: in the file *)
Definition createdSize (sN sZ nx nz : nat) : nat * nat :=
  if (sN =? nx) && (sZ =? nz) then (nx, nz)
  else if (nx <? sN) && (nz <? sZ) then (sN, sZ)
  else (nx, nz).
Definition finalSize (sN sZ nx nz : nat) : nat * nat :=
  if (nx <? sN) && (nz <? sZ) then (sN, sZ)
  else if (sN <? nx) && (sZ <? nz) then (sN, sZ)
  else createdSize sN sZ nx nz.
