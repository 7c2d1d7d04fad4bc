(** Model of the site printed along a run (test/vaxions.cpp:527-586, printsample; :1003-1016, unfoldidx; option --idxprint).

    Memory, folded or not, as in FolderModel, in elements of the field's type; [dev] is the memory of the device, which is never folded.
    Natural numbers for size_t: the difference of :540 is used only where it is not below 0. The other numbers of the line are left out. *)
From Coq Require Import Arith Bool.
From Verif Require Import Base FolderModel IndexModel.

(** vaxions.cpp:1003-1016 *)
Definition unfoldidx {A} (g : geom) (s : fstate A) (idx : nat) : nat :=
  if f_folded s then
    let '(x0, x1, x2) := idx2Vec (g_n1 g) idx in
    let XC := g_n1 g * g_w g in
    let YC := g_n1 g / g_w g in
    let iiy := x1 / YC in
    let iv := x1 - iiy * YC in
    x2 * g_n2 g + iv * XC + x0 * g_w g + iiy
  else idx.
(** vaxions.cpp:537-586: what the rank prints of m and v. [onDevice]: the first of the cases, saxion in single precision on a GPU (:550-554); all others read the host. *)
Definition printsample {A} (g : geom) (s : fstate A) (dev : mem A) (saxion single : bool) (rank idx : nat) : option (A * A) :=
  let zidx := idx / g_n2 g in
  let rankprint := zidx / g_Lz g in
  let idxa := idx - rankprint * g_n3 g in
  let idxp := unfoldidx g s idxa in
  if rank =? rankprint then
    if f_gpu s && saxion && single then Some (dev (ArrM, mStart g + idxa), dev (ArrV, idxa))
    else Some (f_mem s (ArrM, mStart g + idxp), f_mem s (ArrV, vStart g + idxp))
  else None.
