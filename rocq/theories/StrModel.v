(** Model of the search for strings and domain walls: lib/strings/stringXeon.cpp,
    lib/strings/strings.cpp and the scalar count of lib/strings/stringCpu.cpp.

    Numbers: field values are rationals and arithmetic is exact. (Floats are rationals;
    the code only looks at signs of products and of a difference of two products.
    Underflow of a product to zero is not modelled.)
    Not modelled: maps smaller than the field (rLx < Lx), the GPU version, NaN. *)
From Coq Require Import List Arith ZArith QArith.
Import ListNotations.
Local Open Scope nat_scope.

(** std::complex *)
Record cplx := Cx { re : Q; im : Q }.
Definition Qltb (a b : Q) : bool := if Qlt_le_dec a b then true else false.

(** A vector register: its lanes, numbered from the lowest. *)
Definition reg := nat -> Q.

(** The builds of the kernel: instruction set and precision. *)
Inductive isa := AVX512d | AVXd | SSEd | AVX512s | AVX2s | AVXs | SSEs.

(** stringXeon.cpp:486-495 and 762-771: `step`, complex numbers per register *)
Definition lanes (b : isa) : nat :=
  match b with AVX512d => 4 | AVXd => 2 | SSEd => 1 | AVX512s => 8 | AVX2s => 4 | AVXs => 4 | SSEs => 2 end.

(** opCode(load_pd, &m[idx<<1]): complex numbers idx, idx+1, ... *)
Definition load (m : nat -> cplx) (idx : nat) : reg :=
  fun i => if Nat.even i then re (m (idx + i / 2)) else im (m (idx + i / 2)).

(** Lane operations. *)
Definition rmul (a b : reg) : reg := fun i => (a i * b i)%Q.
Definition radd (a b : reg) : reg := fun i => (a i + b i)%Q.
Definition rsub (a b : reg) : reg := fun i => (a i - b i)%Q.
(** the conjugating factor { 1, -1, 1, -1, ... } *)
Definition rconj : reg := fun i => if Nat.even i then 1%Q else (-1)%Q.
(** shuffle_epi32(_MM_PERM_BADC), permute_ps(0b10110001), permute_pd(0b0101),
    shuffle_pd(0b01), shuffle_ps(0b10110001): exchange real and imaginary lanes *)
Definition rswap (a : reg) : reg := fun i => if Nat.even i then a (S i) else a (pred i).
(** _mm512_permutexvar_ps, _mm256_permutevar8x32_ps: lane i takes lane l[i] *)
Definition rpick (l : list nat) (a : reg) : reg := fun i => a (nth i l 0).
(** _mm512_permute_pd: bit i of the constant picks one of the two doubles of the
    128-bit group of lane i *)
Definition rpermute_pd (c : nat) (a : reg) : reg := fun i => a (2 * (i / 2) + (c / 2 ^ i) mod 2).
(** _mm256_permute_ps and _mm_shuffle_ps(x,x): two bits of the constant pick one of the
    four floats of the 128-bit group *)
Definition rpermute_ps (c : nat) (a : reg) : reg := fun i => a (4 * (i / 4) + (c / 4 ^ (i mod 4)) mod 4).
(** _mm256_permute2f128_pd/ps(x,x,1): exchange the 128-bit halves; [h] lanes per half *)
Definition rhalves (h : nat) (a : reg) : reg := fun i => if i <? h then a (i + h) else a (i - h).
(** _mm256_blend_ps *)
Definition rblend (a b : reg) (c : nat) : reg := fun i => if Nat.odd (c / 2 ^ i) then b i else a i.

(** stringXeon.cpp:574-589 and 851-873: the registers of row 0 as neighbours of the last row *)
Definition wrap (b : isa) (r : reg) : reg :=
  match b with
  | AVX512d => rpermute_pd 57 r                                   (* 0b00111001 *)
  | AVXd => rhalves 2 r
  | SSEd => r
  | AVX512s => rpick [2;3;4;5;6;7;8;9;10;11;12;13;14;15;0;1] r
  | AVX2s => rpick [2;3;4;5;6;7;0;1] r
  | AVXs => let t := rpermute_ps 78 r in rblend t (rhalves 4 t) 204   (* 0b01001110, 0b11001100 *)
  | SSEs => rpermute_ps 78 r
  end.

(** stringXeon.cpp:29-56 and its other versions (stringHandD, stringHandS): lanes 2k+1 of
    the masks decide the count of complex number k. *)
Definition signs (s1 s2 : reg) : nat -> bool := fun i => Qltb (rmul s1 s2 i) 0.
Definition crossReg (s1 s2 : reg) : reg :=
  let tp3 := rmul s2 rconj in
  let tp2 := rswap tp3 in
  let tp3 := rmul s1 tp2 in
  radd tp3 (rswap tp3).
Definition stringHandV (s1 s2 : reg) (hand : nat -> Z) : nat -> Z :=
  fun k => (hand k + (if signs s1 s2 (2 * k + 1)%nat then if Qltb 0 (crossReg s1 s2 (2 * k + 1)%nat) then 1 else -1 else 0))%Z.
(** stringXeon.cpp:93-136 and other versions (stringWallD, stringWallS): the same count,
    and the wall mark. *)
Definition wallV (s1 s2 : reg) (wHand : nat -> bool) : nat -> bool :=
  fun k => wHand k || (Qltb (rmul (crossReg s1 s2) (rsub s1 s2) (2 * k + 1)) 0 && signs s1 s2 (2 * k + 1)).

(** enum-field.h:72-83 *)
Definition XYP := 1%Z. Definition YZP := 2%Z. Definition ZXP := 4%Z.
Definition XYN := 8%Z. Definition YZN := 16%Z. Definition ZXN := 32%Z.
Definition WALL := 64%Z.

(** The string map and the counters. *)
Record sdata := SD { smap : nat -> Z; nStr : Z; nChr : Z; nWll : Z }.
Definition orAt (mp : nat -> Z) (p : nat) (f : Z) : nat -> Z := fun q => if q =? p then Z.lor (mp q) f else mp q.

(** stringXeon.cpp:630-663 (and the same for YZ and ZX): the loop over lanes of one
    plaquette *)
Definition markLane (pos neg : Z) (hand : nat -> Z) (tIdx : nat -> nat) (st : sdata) (ih : nat) : sdata :=
  if (hand ih =? 2)%Z then SD (orAt (smap st) (tIdx ih) pos) (nStr st + 1) (nChr st + 1) (nWll st)
  else if (hand ih =? -2)%Z then SD (orAt (smap st) (tIdx ih) neg) (nStr st + 1) (nChr st - 1) (nWll st)
  else st.
(** stringXeon.cpp:746-749 *)
Definition markWall (wHand : nat -> bool) (tIdx : nat -> nat) (st : sdata) (ih : nat) : sdata :=
  if wHand ih then SD (orAt (smap st) (tIdx ih) WALL) (nStr st) (nChr st) (nWll st + 1) else st.

(** stringXeon.cpp:537-754 and 814-1024: the body of the loop over idx *)
Definition stringBlock (b : isa) (Lx Sf : nat) (m : nat -> cplx) (st : sdata) (idx : nat) : sdata :=
  let step := lanes b in
  let XC := Lx * step in
  let YC := Lx / step in
  let tmi := idx / XC in
  let X2 := tmi / YC in
  let X1 := tmi - X2 * YC in
  let X0 := idx - tmi * XC in
  let lastY := X1 =? YC - 1 in
  let lastX := X0 =? XC - step in
  let w := if lastY then wrap b else fun r => r in
  let idxPx := if lastX then idx - XC + step else idx + step in
  let idxPy := if lastY then idx - Sf + XC else idx + XC in
  let idxPz := idx + Sf in
  let idxXY := if lastY then (if lastX then idx - Sf + step else idx - Sf + XC + step)
               else (if lastX then idx + step else idx + XC + step) in
  let idxYZ := if lastY then idx + XC else idx + Sf + XC in
  let idxZX := if lastX then idx + Sf - XC + step else idx + Sf + step in
  let mel := load m idx in
  let mPx := load m idxPx in
  let mPz := load m idxPz in
  let mZX := load m idxZX in
  let mPy := w (load m idxPy) in
  let mXY := w (load m idxXY) in
  let mYZ := w (load m idxYZ) in
  (* sizes of the map equal to those of the field: both ratios are 1 *)
  let nIdx := X0 / step + X1 * Lx + (X2 - 1) * (Lx * Lx) in
  let tIdx := fun ih => nIdx + ih * YC * Lx in
  let zero := fun _ : nat => 0%Z in
  let hXY := stringHandV mPy mel (stringHandV mXY mPy (stringHandV mPx mXY (stringHandV mel mPx zero))) in
  let w1 := wallV mel mPx (fun _ => false) in
  let st := fold_left (markLane XYP XYN hXY tIdx) (seq 0 step) st in
  let hYZ := stringHandV mPz mel (stringHandV mYZ mPz (stringHandV mPy mYZ (stringHandV mel mPy zero))) in
  let w2 := wallV mel mPy w1 in
  let st := fold_left (markLane YZP YZN hYZ tIdx) (seq 0 step) st in
  let hZX := stringHandV mPx mel (stringHandV mZX mPx (stringHandV mPz mZX (stringHandV mel mPz zero))) in
  let w3 := wallV mel mPz w2 in
  fold_left (fun st ih => markWall w3 tIdx (markLane ZXP ZXN hZX tIdx st ih) ih) (seq 0 step) st.

(** stringXeon.cpp:536, 813: for (idx = Vo; idx < Vf; idx += step) *)
Definition blocks (Vo Vf step : nat) : list nat := map (fun i => Vo + i * step) (seq 0 ((Vf - Vo + step - 1) / step)).
(** stringXeon.cpp:476-1041 stringKernelXeon. The blocks are done by several threads in
    any order; [order] is that order. *)
Definition stringKernel (b : isa) (Lx Sf : nat) (m : nat -> cplx) (order : list nat) (mp : nat -> Z) : sdata :=
  fold_left (stringBlock b Lx Sf m) order (SD mp 0 0 0).
(** strings.cpp:26-29: the constructor clears the map; stringXeon.cpp:1043-1050 stringCpu:
    one slice is skipped, whatever the number of ghost slices. [m]: the field with its
    ghosts after exchangeGhosts. *)
Definition stringRun (b : isa) (Lx Lz : nat) (m : nat -> cplx) (order : list nat) (mp : nat -> Z) : sdata :=
  stringKernel b Lx (Lx * Lx) m order (fun p => if p <? Lx * Lx * Lz then 0%Z else mp p).
Definition stringOrder (b : isa) (Lx Lz : nat) : list nat := blocks (Lx * Lx) (Lx * Lx * Lz + Lx * Lx) (lanes b).
(** strings.cpp:139-141: the counters are summed over the ranks *)
Definition allStr (l : list sdata) : Z * Z * Z :=
  fold_left (fun acc d => let '(s, c, w) := acc in (s + nStr d, c + nChr d, w + nWll d)%Z) l (0, 0, 0)%Z.

(** stringCpu.cpp:10-50 stringHand *)
Definition stringHand (s1 s2 s3 s4 : cplx) : Z :=
  let up s := Qltb 0 (im s) in
  let e a b := if Bool.eqb (up a) (up b) then 0%Z
    else if Qltb 0 (im a * re b - re a * im b) then 1%Z else (-1)%Z in
  (e s1 s2 + e s2 s3 + e s3 s4 + e s4 s1)%Z.

(** enum-field.h:79-82: STRING_XY = 9, STRING_YZ = 18, STRING_ZX = 36, STRING_ONLY = 63.
    strings.cpp:264-321 strings2: the coordinates of the strings of the map, in order of
    idx (with several threads the order of sites changes: [order]); pos is a vector of
    unsigned short. *)
Definition hits (w f : Z) : bool := negb (Z.land w f =? 0)%Z.
Definition u16 (n : nat) : Z := (Z.of_nat n mod 65536)%Z.
Definition sitePos (Lx Lz rank : nat) (mp : nat -> Z) (idx : nat) : list (Z * Z * Z) :=
  if hits (mp idx) 63 then
    let tmp := idx / Lx in
    let x2 := tmp / Lx in
    let x1 := tmp - x2 * Lx in
    let x0 := idx - tmp * Lx in
    let x2 := (x2 + rank * Lz) * 2 in
    let x1 := x1 * 2 in
    let x0 := x0 * 2 in
    (if hits (mp idx) 9 then [(u16 (x0 + 1), u16 (x1 + 1), u16 x2)] else []) ++
    (if hits (mp idx) 18 then [(u16 x0, u16 (x1 + 1), u16 (x2 + 1))] else []) ++
    (if hits (mp idx) 36 then [(u16 (x0 + 1), u16 x1, u16 (x2 + 1))] else [])
  else [].
Definition stringPos (Lx Lz rank : nat) (mp : nat -> Z) (order : list nat) : list (Z * Z * Z) :=
  flat_map (sitePos Lx Lz rank mp) order.
