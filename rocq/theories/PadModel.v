(** Model of the padding of rows for real-to-complex transforms: SpecBin::pad and
    SpecBin::unpad in lib/spectrum/spectrum.cpp.

    Memory is counted in real numbers (the unit is field->Precision() bytes). The buffers m, v
    and m2 are separate allocations; the "half" of m2 lies inside m2. A memmove reads its whole
    source before it writes. The parallel loops run their rows in any order [order], one row
    after another. Not modelled: log output (only whether the warning is issued), sizes
    over which the int counters of some loops overflow. *)
From Coq Require Import List Arith ZArith Bool.
From Verif Require Import Base.
Import ListNotations.
Local Open Scope nat_scope.

(** include/enum-field.h:763-775 *)
Inductive pidx := PM | PMS | PV | PVS | PM2 | PM2S | PM2H | PM2HS.
Definition pcode (p : pidx) : Z :=
  match p with PM => 2 | PMS => 3 | PV => 8 | PVS => 9 | PM2 => 16 | PM2S => 17 | PM2H => 32 | PM2HS => 33 end%Z.

(** The sizes a field object fixes when it is built (lib/scalar/scalarField.cpp:46-54):
    [gLy] sites per side, [gLz] slices, [gNg] ghost slices, [gfs] reals per site (1 or 2),
    [gpax] whether the field is FIELD_PAXION. *)
Record geom := Geom { gLy : nat; gLz : nat; gNg : nat; gfs : nat; gpax : bool }.
Definition n2 (g : geom) := gLy g * gLy g.
Definition v3 (g : geom) := gLy g * gLy g * (gLz g + 2 * gNg g).
(** include/spectrum/spectrum.h:163-170 *)
Definition LyLz (g : geom) := gLy g * gLz g.
Definition dl (g : geom) := gLy g.
Definition pl (g : geom) := gLy g + 2.
Definition dataBare (g : geom) := gLy g * gLy g * gLz g.

(** lib/spectrum/spectrum.cpp:2382-2409 chosechar, with include/scalar/scalarField.h:89-111 *)
Definition chosechar (g : geom) (p : pidx) : arr * nat :=
  let start := gfs g * n2 g * gNg g in
  match p with
  | PM => (ArrM, 0)
  | PMS => (ArrM, start)
  | PV => (ArrV, 0)
  | PVS => (ArrV, if gpax g then start else 0)
  | PM2 => (ArrM2, 0)
  | PM2S => (ArrM2, start)
  | PM2H => (ArrM2, v3 g)
  | PM2HS => (ArrM2, v3 g + start)
  end.

(** One round of each loop: memmove (to + sl*sd, from + sl*so, len) *)
Definition moveRow {A} (to from : arr * nat) (sd so len : nat) (m : mem A) (sl : nat) : mem A :=
  memmove (fst to) (snd to + sl * sd) (fst from) (snd from + sl * so) len m.
Definition moveRows {A} (to from : arr * nat) (sd so len : nat) (rows : list nat) (m : mem A) : mem A :=
  fold_left (moveRow to from sd so len) rows m.

(** for (int sl = LyLz-1; sl >= 0; sl--) *)
Definition downto (n : nat) : list nat := rev (seq 0 n).

(** spectrum.cpp:2245-2305 *)
Definition pad {A} (g : geom) (order : list nat) (origin dest : pidx) (m : mem A) : nat * mem A :=
  let oR := chosechar g origin in
  let dE := chosechar g dest in
  let diff := (pcode origin - pcode dest)%Z in
  if (diff =? 0)%Z then (1, moveRows dE oR (pl g) (dl g) (dl g) (downto (LyLz g)) m)
  else if (diff =? 1)%Z then (1, moveRows dE oR (pl g) (dl g) (dl g) (downto (LyLz g)) m)
  else if (- diff =? 1)%Z then (1, moveRows dE oR (pl g) (dl g) (dl g) (downto (LyLz g)) m)
  else if (1 <? Z.abs diff)%Z then (1, moveRows dE oR (pl g) (dl g) (dl g) order m)
  else (0, m).

(** spectrum.cpp:2308-2380 *)
Definition unpad {A} (g : geom) (order : list nat) (origin dest : pidx) (m : mem A) : nat * mem A :=
  let oR := chosechar g origin in
  let dE := chosechar g dest in
  let diff := (pcode origin - pcode dest)%Z in
  if (diff =? 0)%Z then (1, moveRows dE oR (dl g) (pl g) (dl g) (seq 0 (LyLz g)) m)
  else if (diff =? 1)%Z then (1, moveRows dE oR (dl g) (pl g) (dl g) (seq 0 (LyLz g)) m)
  else if (- diff =? 1)%Z then
    let m := moveRows oR oR (dl g) (pl g) (dl g) (seq 1 (LyLz g - 1)) m in
    (1, memmove (fst dE) (snd dE) (fst oR) (snd oR) (dataBare g) m)
  else if (1 <? Z.abs diff)%Z then (1, moveRows dE oR (dl g) (pl g) (dl g) order m)
  else (0, m).

(** spectrum.cpp:2248-2261: whether pad warns that the destination is too small *)
Definition padWarns (g : geom) (dest : pidx) : bool :=
  let padVol := (gLy g + 2) * gLy g * gLz g in
  let fromSVol := gLy g * gLy g * (gLz g + gNg g) in
  (Z.odd (pcode dest)) && (padVol <? fromSVol).

(** lib/scalar/scalarField.cpp:209-305: reals allocated for m, and for m2 outside the low-memory modes
    (complex fields get mBytes, real ones 2*mBytes) *)
Definition capM (g : geom) : nat := v3 g * gfs g.
Definition capM2 (g : geom) : nat := if gfs g =? 2 then v3 g * gfs g else 2 * (v3 g * gfs g).
