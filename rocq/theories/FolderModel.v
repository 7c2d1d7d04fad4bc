(** Model of the Folder class: /repo/lib/scalar/folder.cpp, and of the layout of
    the buffers of a field: /repo/include/scalar/scalarField.h:91-107. *)
From Coq Require Import List Arith Bool.
From Verif Require Import Base.

(** Sizes of a field (scalarField.h: n1, Lz, Ng; folder.cpp:29-30 [shift]).
    [g_vpad] is true for FIELD_PAXION, the only type whose v buffer has ghosts
    (scalarField.h:99). All sizes are in elements of the field's type, i.e. the
    common factor fSize of the byte offsets is dropped. *)
Record geom := Geom {
  g_n1 : nat;      (* Length()  *)
  g_Lz : nat;      (* Depth()   *)
  g_Ng : nat;      (* getNg()   *)
  g_w  : nat;      (* shift = DataAlign()/DataSize() *)
  g_vpad : bool
}.

(** scalarField.h: n2 = n1*n1, n3 = n2*nLz. *)
Definition g_n2 (g : geom) := g_n1 g * g_n1 g.
Definition g_n3 (g : geom) := g_n2 g * g_Lz g.
(** scalarField.h:91 mStart, :93 mBackGhost, :99 vStart, :106 m2Start
    (mFrontGhost, :92, and m2FrontGhost, :107, are at offset 0). *)
Definition mStart (g : geom) := g_n2 g * g_Ng g.
Definition mBack (g : geom) := g_n2 g * g_Ng g + g_n3 g.
Definition vStart (g : geom) := if g_vpad g then g_n2 g * g_Ng g else 0.
Definition m2Start (g : geom) := g_n2 g * g_Ng g.

(** The part of a field object the Folder works on. [f_gpu] is
    Device() == DEV_GPU. *)
Record fstate (A : Type) := FState {
  f_mem : mem A;
  f_folded : bool;
  f_m2folded : bool;
  f_gpu : bool
}.
Arguments FState {A}. Arguments f_mem {A}. Arguments f_folded {A}.
Arguments f_m2folded {A}. Arguments f_gpu {A}.

Definition set_mem {A} (s : fstate A) (m : mem A) : fstate A :=
  FState m (f_folded s) (f_m2folded s) (f_gpu s).

(** folder.cpp:35-53, body of the iz loop of foldField: the two memcpy into the
    ghost zones and the three nested loops. *)
Definition fold_slice {A} (g : geom) (iz : nat) (m : mem A) : mem A :=
  let n1 := g_n1 g in let n2 := g_n2 g in let shift := g_w g in
  let m := memcpy ArrM 0 ArrM (mStart g + n2 * iz) n2 m in
  let m := memcpy ArrM (mBack g) ArrV (vStart g + n2 * iz) n2 m in
  for_loop (n1 / shift) (fun iy =>
    for_loop n1 (fun ix =>
      for_loop shift (fun sy m =>
        let oIdx := (iy + sy * (n1 / shift)) * n1 + ix in
        let dIdx := iz * n2 + (iy * n1 * shift + ix * shift + sy) in
        let m := upd m (ArrM, mStart g + dIdx) (m (ArrM, oIdx)) in
        upd m (ArrV, vStart g + dIdx) (m (ArrM, mBack g + oIdx))))) m.

(** folder.cpp:21-59 foldField. Log output omitted. *)
Definition foldField {A} (g : geom) (s : fstate A) : fstate A :=
  if f_folded s || f_gpu s then s
  else FState (for_loop (g_Lz g) (fold_slice g) (f_mem s)) true (f_m2folded s) (f_gpu s).

(** folder.cpp:76-94, body of the iz loop of unfoldField. *)
Definition unfold_slice {A} (g : geom) (iz : nat) (m : mem A) : mem A :=
  let n1 := g_n1 g in let n2 := g_n2 g in let shift := g_w g in
  let m := memcpy ArrM 0 ArrM (mStart g + n2 * iz) n2 m in
  let m := memcpy ArrM (mBack g) ArrV (vStart g + n2 * iz) n2 m in
  for_loop (n1 / shift) (fun iy =>
    for_loop n1 (fun ix =>
      for_loop shift (fun sy m =>
        let oIdx := iy * n1 * shift + ix * shift + sy in
        let dIdx := iz * n2 + (iy + sy * (n1 / shift)) * n1 + ix in
        let m := upd m (ArrM, mStart g + dIdx) (m (ArrM, oIdx)) in
        upd m (ArrV, vStart g + dIdx) (m (ArrM, mBack g + oIdx))))) m.

(** folder.cpp:62-100 unfoldField. *)
Definition unfoldField {A} (g : geom) (s : fstate A) : fstate A :=
  if negb (f_folded s) || f_gpu s then s
  else FState (for_loop (g_Lz g) (unfold_slice g) (f_mem s)) false (f_m2folded s) (f_gpu s).

(** folder.cpp:106-145 unfoldField2D. The guard is the one in the code:
    [sZ > Depth()], not [>=]. *)
Definition unfoldField2D {A} (g : geom) (sZ : nat) (s : fstate A) : fstate A :=
  let n1 := g_n1 g in let n2 := g_n2 g in let shift := g_w g in
  if (g_Lz g <? sZ) || f_gpu s then s
  else if negb (f_folded s) then
    let m := memcpy ArrM 0 ArrM (mStart g + n2 * sZ) n2 (f_mem s) in
    set_mem s (memcpy ArrM (mBack g) ArrV (vStart g + n2 * sZ) n2 m)
  else
    set_mem s
      (for_loop (n1 / shift) (fun iy =>
        for_loop n1 (fun ix =>
          for_loop shift (fun sy m =>
            let oIdx := sZ * n2 + iy * n1 * shift + ix * shift + sy in
            let dIdx := (iy + sy * (n1 / shift)) * n1 + ix in
            let m := upd m (ArrM, dIdx) (m (ArrM, mStart g + oIdx)) in
            upd m (ArrM, mBack g + dIdx) (m (ArrV, vStart g + oIdx))))) (f_mem s)).

(** folder.cpp:153-218 unfoldField2DYZ. *)
Definition unfoldField2DYZ {A} (g : geom) (sX : nat) (s : fstate A) : fstate A :=
  let n1 := g_n1 g in let n2 := g_n2 g in let shift := g_w g in
  if (g_n1 g <? sX) || f_gpu s then s
  else if negb (f_folded s) then
    set_mem s
      (for_loop n1 (fun iy =>
        for_loop (g_Lz g) (fun iz m =>
          let oIdx := iz * n2 + iy * n1 + sX in
          let dIdx := iz * n1 + iy in
          let m := upd m (ArrM, dIdx) (m (ArrM, mStart g + oIdx)) in
          upd m (ArrM, mBack g + dIdx) (m (ArrV, vStart g + oIdx)))) (f_mem s))
  else
    set_mem s
      (for_loop (n1 / shift) (fun iy =>
        for_loop shift (fun sy =>
          for_loop (g_Lz g) (fun iz m =>
            let oIdx := iz * n2 + iy * n1 * shift + sX * shift + sy in
            let dIdx := iz * n1 + (iy + sy * (n1 / shift)) in
            let m := upd m (ArrM, dIdx) (m (ArrM, mStart g + oIdx)) in
            upd m (ArrM, mBack g + dIdx) (m (ArrV, vStart g + oIdx))))) (f_mem s)).

(** folder.cpp:238-252, body of the iz loop of foldM2. *)
Definition fold_m2_slice {A} (g : geom) (iz : nat) (m : mem A) : mem A :=
  let n1 := g_n1 g in let n2 := g_n2 g in let shift := g_w g in
  let m := memcpy ArrM 0 ArrM2 (m2Start g + n2 * iz) n2 m in
  for_loop (n1 / shift) (fun iy =>
    for_loop n1 (fun ix =>
      for_loop shift (fun sy m =>
        let oIdx := (iy + sy * (n1 / shift)) * n1 + ix in
        let dIdx := iz * n2 + (iy * n1 * shift + ix * shift + sy) in
        upd m (ArrM2, m2Start g + dIdx) (m (ArrM, oIdx))))) m.

(** folder.cpp:223-258 foldM2. *)
Definition foldM2 {A} (g : geom) (s : fstate A) : fstate A :=
  if f_m2folded s || f_gpu s then s
  else FState (for_loop (g_Lz g) (fold_m2_slice g) (f_mem s)) (f_folded s) true (f_gpu s).

(** folder.cpp:273-287, body of the iz loop of unfoldM2. *)
Definition unfold_m2_slice {A} (g : geom) (iz : nat) (m : mem A) : mem A :=
  let n1 := g_n1 g in let n2 := g_n2 g in let shift := g_w g in
  let m := memcpy ArrM 0 ArrM2 (m2Start g + n2 * iz) n2 m in
  for_loop (n1 / shift) (fun iy =>
    for_loop n1 (fun ix =>
      for_loop shift (fun sy m =>
        let oIdx := iy * n1 * shift + ix * shift + sy in
        let dIdx := iz * n2 + (iy + sy * (n1 / shift)) * n1 + ix in
        upd m (ArrM2, m2Start g + dIdx) (m (ArrM, oIdx))))) m.

(** folder.cpp:261-291 unfoldM2. *)
Definition unfoldM2 {A} (g : geom) (s : fstate A) : fstate A :=
  if negb (f_m2folded s) || f_gpu s then s
  else FState (for_loop (g_Lz g) (unfold_m2_slice g) (f_mem s)) (f_folded s) false (f_gpu s).

(** folder.cpp:294-330 unfoldM22D: as unfoldField2D for m2, into m2's own front
    ghost zone. *)
Definition unfoldM22D {A} (g : geom) (sZ : nat) (s : fstate A) : fstate A :=
  let n1 := g_n1 g in let n2 := g_n2 g in let shift := g_w g in
  if (g_Lz g <? sZ) || f_gpu s then s
  else if negb (f_m2folded s) then
    set_mem s (memcpy ArrM2 0 ArrM2 (m2Start g + n2 * sZ) n2 (f_mem s))
  else
    set_mem s
      (for_loop (n1 / shift) (fun iy =>
        for_loop n1 (fun ix =>
          for_loop shift (fun sy m =>
            let oIdx := sZ * n2 + iy * n1 * shift + ix * shift + sy in
            let dIdx := (iy + sy * (n1 / shift)) * n1 + ix in
            upd m (ArrM2, dIdx) (m (ArrM2, m2Start g + oIdx))))) (f_mem s)).

(** folder.cpp:333-end operator(): dispatch on the request. The element type
    switch is not modelled (the model is generic in the element type); field
    types not handled by the switch leave the field alone and are not modelled. *)
Inductive foldtype :=
  | FOLD_ALL | UNFOLD_ALL | UNFOLD_SLICE (cZ : nat) | UNFOLD_SLICEYZ (cX : nat)
  | FOLD_M2 | UNFOLD_M2 | UNFOLD_SLICEM2 (cZ : nat).

Definition folder {A} (g : geom) (t : foldtype) (s : fstate A) : fstate A :=
  match t with
  | FOLD_ALL => foldField g s
  | UNFOLD_ALL => unfoldField g s
  | UNFOLD_SLICE z => unfoldField2D g z s
  | UNFOLD_SLICEYZ x => unfoldField2DYZ g x s
  | FOLD_M2 => foldM2 g s
  | UNFOLD_M2 => unfoldM2 g s
  | UNFOLD_SLICEM2 z => unfoldM22D g z s
  end.
