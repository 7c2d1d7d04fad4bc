(** Model of the life of a field: Scalar::Scalar, Scalar::~Scalar, setField and setDims
    of /repo/lib/scalar/scalarField.cpp, on the CPU. What is kept is the type, the sizes
    and the buffers (as addresses in the heap of AllocModel); buffer contents, the
    background, FFT plans and initial conditions are left out. Sizes are unbounded. *)
From Coq Require Import List Arith ZArith NArith Bool.
From Verif Require Import AllocModel.
Import ListNotations.

Notation "' p <- e ;; f" := (bindo e (fun x => match x with p => f end)) (at level 200, p pattern, e at level 100, f at level 200).

(** enum-field.h:9-23; the flag FIELD_MOD and FIELD_REDUCED are only used in masks. *)
Inductive ftype := SAXION | AXION | AXION_MOD | WKB | SX_RD | AX_RD | AX_MOD_RD | NAXION | PAXION | FAXION.
Definition fcode (t : ftype) : N :=
  match t with
  | SAXION => 1 | AXION => 2 | AXION_MOD => 130 | WKB => 6 | SX_RD => 257 | AX_RD => 258
  | AX_MOD_RD => 386 | NAXION => 512 | PAXION => 1024 | FAXION => 2048
  end.
(** t & f as a condition *)
Definition has (t f : ftype) : bool := negb (N.eqb (N.land (fcode t) (fcode f)) 0).
Definition ftype_eqb (a b : ftype) : bool := N.eqb (fcode a) (fcode b).

(** The members of Scalar (scalarField.h) that are kept. A null pointer is [None]; so
    is a pointer the constructor does not set. *)
Record scalar := Scalar {
  fType : ftype; prec : nat; mAlign : nat; fSize : nat; shift : nat;
  n1 : nat; n2 : nat; n3 : nat; Lz : nat; Ng : nat; v3 : nat;
  pm : option addr; pv : option addr; pm2 : option addr; pstr : option addr;
  pz : option addr; pR : option addr; prho : option addr; pvho : option addr; pg : option addr }.

(** Writing n bytes from an address (memset): inside a block in use or undefined. *)
Definition memset (a : option addr) (n : nat) (w : world) : outcome world :=
  match a with
  | Some (p, off) => match block_size w p with
                     | Some s => if off + n <=? s then Ok w else Undefined
                     | None => Undefined
                     end
  | None => Undefined
  end.

(** scalarField.cpp:138-160 *)
Definition nData (t : ftype) : nat :=
  match t with SAXION | SX_RD | NAXION => 2 | _ => 1 end.

(** scalarField.cpp:44-361, the part before the FFT plans, DEV_CPU. [pick k] is the
    block the system gives at the k-th place where memory is requested. [mAl] is
    mAlign, 64, 32 or 16 by instruction set; [pr] is the precision, 8 or 4. *)
Definition mv_buffers (pick : nat -> option nat) (t : ftype) (mBytes vBytes n3 : nat) (w : world)
    : outcome (addr * addr * addr * option (addr * addr * addr) * world) :=
  let faxion w :=
    '(m, w) <- alignAlloc (pick 3) mBytes w;;
    '(v, w) <- alignAlloc (pick 4) mBytes w;;
    '(rho, w) <- alignAlloc (pick 5) mBytes w;;
    '(vho, w) <- alignAlloc (pick 6) mBytes w;;
    '(g, w) <- alignAlloc (pick 7) (3 * mBytes) w;;
    '(str, w) <- trackAlloc (pick 8) n3 w;;
    Ok (m, v, str, Some (rho, vho, g), w) in
  match t with
  | SAXION | SX_RD =>
      '(m, w) <- alignAlloc (pick 0) mBytes w;;
      '(v, w) <- alignAlloc (pick 1) vBytes w;;
      '(str, w) <- trackAlloc (pick 2) n3 w;;
      Ok (m, v, str, None, w)
  | AXION_MOD | AX_MOD_RD | AXION | AX_RD | WKB =>
      '(m, w) <- alignAlloc (pick 0) (mBytes + vBytes) w;;
      let v := (fst m, snd m + mBytes) in
      '(str, w) <- trackAlloc (pick 2) n3 w;;
      Ok (m, v, str, None, w)
  | PAXION => (* no break: the case of FAXION follows *)
      '(_, w) <- alignAlloc (pick 0) mBytes w;;
      '(_, w) <- alignAlloc (pick 1) mBytes w;;
      '(_, w) <- trackAlloc (pick 2) n3 w;;
      faxion w
  | FAXION => faxion w
  | NAXION => Exit
  end.
(** scalarField.cpp:276-326 *)
Definition m2_buffer (pick : nat -> option nat) (t : ftype) (lowmem lowmemGPU : bool) (mBytes fSz n3 : nat) (w : world)
    : outcome (option addr * world) :=
  match t with
  | SAXION =>
      if lowmem then Ok (None, w)
      else '(a, w) <- alignAlloc (pick 9) mBytes w;;
           'w <- memset (Some a) mBytes w;; Ok (Some a, w)
  | AXION_MOD | AXION | FAXION | PAXION =>
      if lowmemGPU
      then '(a, w) <- alignAlloc (pick 9) mBytes w;;
           'w <- memset (Some a) (fSz * n3) w;; Ok (Some a, w)
      else '(a, w) <- alignAlloc (pick 9) (2 * mBytes) w;;
           'w <- memset (Some a) (2 * fSz * n3) w;; Ok (Some a, w)
  | SX_RD | AX_MOD_RD | AX_RD | WKB => Ok (None, w)
  | NAXION => Exit
  end.
Definition construct (pick : nat -> option nat) (mAl pr : nat) (lowmem lowmemGPU : bool) (t : ftype)
    (nLx nLz Ngg : nat) (w : world) : outcome (scalar * world) :=
  let n2 := nLx * nLx in
  let n3 := nLx * nLx * nLz in
  let v3 := nLx * nLx * (nLz + 2 * Ngg) in
  let fSz := pr * nData t in
  if negb (n2 * fSz mod mAl =? 0) then Exit
  else
    let mBytes := v3 * fSz in
    let vBytes := n2 * (nLz + 2) * fSz in
    '(m, v, str, rvg, w) <- mv_buffers pick t mBytes vBytes n3 w;;
    '(m2, w) <- m2_buffer pick t lowmem lowmemGPU mBytes fSz n3 w;;
    if negb lowmem && match m2 with None => true | _ => false end then Exit
    else
      'w <- memset (Some m) (fSz * v3) w;;
      'w <- memset (Some v) (fSz * (n2 * (nLz + 2))) w;;
      '(z, w) <- alignAlloc (pick 10) mAl w;;
      '(R, w) <- alignAlloc (pick 11) mAl w;;
      Ok (Scalar t pr mAl fSz (mAl / fSz) nLx n2 n3 nLz Ngg v3
            (Some m) (Some v) m2 (Some str) (Some z) (Some R)
            (option_map (fun x => fst (fst x)) rvg) (option_map (fun x => snd (fst x)) rvg) (option_map snd rvg), w).

(** scalarField.cpp:535-602, DEV_CPU; FFT clean-up left out. rho, vho and g are not freed. *)
Definition opt_free (a : option addr) (w : world) : outcome world :=
  match a with None => Ok w | Some _ => trackFree a w end.
Definition destroy (s : scalar) (w : world) : outcome world :=
  'w <- opt_free (pm s) w;;
  'w <- (if has (fType s) SAXION then opt_free (pv s) w else Ok w);;
  'w <- opt_free (pm2 s) w;;
  'w <- opt_free (pstr s) w;;
  'w <- opt_free (pz s) w;;
  opt_free (pR s) w.

Definition upd (s : scalar) (t : ftype) (fs sh : nat) : scalar :=
  Scalar t (prec s) (mAlign s) fs sh (n1 s) (n2 s) (n3 s) (Lz s) (Ng s) (v3 s)
    (pm s) (pv s) (pm2 s) (pstr s) (pz s) (pR s) (prho s) (pvho s) (pg s).
(** scalarField.cpp:1051-1121, DEV_CPU. Errors are only logged. In the case of NAXION
    the else has no braces: only the element size depends on the test. *)
Definition setField (s : scalar) (new : ftype) : scalar :=
  if ftype_eqb (fType s) WKB then s
  else match new with
  | AXION_MOD | AXION => if has (fType s) AXION then s else upd s new (fSize s / 2) (shift s * 2)
  | SAXION => if has (fType s) AXION then upd s new (fSize s * 2) (shift s / 2) else s
  | NAXION => upd s NAXION (if negb (has (fType s) AXION) then fSize s else fSize s * 2) (shift s / 2)
  | PAXION => if negb (has (fType s) AXION) then s else upd s PAXION (fSize s) (shift s)
  | _ => s
  end.

(** scalarField.cpp:1147-1161 *)
Definition setDims (s : scalar) (nx nz : nat) : scalar :=
  if (nx <? n1 s) && (nz <? Lz s)
  then Scalar (fType s) (prec s) (mAlign s) (fSize s) (shift s) nx (nx * nx) (nx * nx * nz) nz (Ng s) (nx * nx * (nz + 2 * Ng s))
    (pm s) (pv s) (pm2 s) (pstr s) (pz s) (pR s) (prho s) (pvho s) (pg s)
  else s.

(** The addresses handed out, scalarField.h:88-105 (byte offsets). *)
Definition off (a : option addr) (k : nat) : option addr := option_map (fun x => (fst x, snd x + k)) a.
Definition mStart s := off (pm s) (fSize s * n2 s * Ng s).
Definition mFrontGhost s := pm s.
Definition mBackGhost s := off (pm s) (fSize s * (n2 s * Ng s + n3 s)).
Definition vStart s := if ftype_eqb (fType s) PAXION then off (pv s) (fSize s * n2 s * Ng s) else pv s.
Definition vGhost s := off (pv s) (fSize s * n3 s).
Definition m2Start s := off (pm2 s) (fSize s * n2 s * Ng s).
Definition m2half s := off (pm2 s) (v3 s * prec s).
Definition m2hStart s := off (pm2 s) (v3 s * prec s + fSize s * n2 s * Ng s).

(** ** Transforms *)
(** The plans of /repo/lib/fft/fftCode.cpp:117-309 (single precision; 318-507 the same
    in double). FFT_SPAX is the same as FFT_PSPEC_AX and FFT_RDSX_M as FFT_SPSX. *)
Inductive plan := CtoC_MtoM | CtoC_VtoV | CtoC_M2toM2 | CtoC_MtoM2 | CtoC_M2toM | CtoC_VtoM2 | RDSX_V
  | PSPEC_AX | SPSX | RHO_SX | RtoC_M2StoM2S | RtoC_MtoM_WKB | RtoC_VtoV_WKB | RtoC_M2toM2_WKB | RtoC_M2toM | RtoC_M2toV.
Inductive pkind := C2C | R2C.
(** Kind of transform, and the addresses it reads and writes in its forward and
    backward directions: fftCode.cpp:119-133 for the pointers, then case by case. *)
Definition plan_access (p : plan) (s : scalar) : pkind * list (option addr * option addr) :=
  let m := mStart s in let v := pv s in let m2 := pm2 s in
  match p with
  | CtoC_MtoM => (C2C, [(m, m); (m, m)])
  | CtoC_VtoV => (C2C, [(v, v); (v, v)])
  | CtoC_M2toM2 => (C2C, [(m2, m2); (m2, m2)])
  | CtoC_MtoM2 => (C2C, [(m, m2); (m2, m)])
  | CtoC_M2toM => (C2C, [(m2, m); (m, m2)])
  | CtoC_VtoM2 => (C2C, [(v, m2); (m2, v)])
  | RDSX_V => (C2C, [(v, m2); (m2, m2)])
  | PSPEC_AX => (R2C, [(m2, m2); (m2, m2)])
  | SPSX => (C2C, [(m, m2); (m2, m2)])
  | RHO_SX => (R2C, [(m2half s, m2half s); (m2half s, m2half s)])
  | RtoC_M2StoM2S => (R2C, [(m2Start s, m2Start s); (m2Start s, m2Start s)])
  | RtoC_MtoM_WKB => (R2C, [(pm s, pm s); (pm s, pm s)])
  | RtoC_VtoV_WKB => (R2C, [(v, v); (v, v)])
  | RtoC_M2toM2_WKB => (R2C, [(m2, m2); (m2, m2)])
  | RtoC_M2toM => (R2C, [(m2, pm s); (pm s, m2)])
  | RtoC_M2toV => (R2C, [(m2, v); (v, m2)])
  end.
(** Bytes a slab of the transform occupies from its address: complex numbers for every
    site, or rows of Lx reals padded to Lx+2. FFTW's MPI slabs are taken to be the
    Lz slices of the rank, with no extra space for the transposition. *)
Definition plan_bytes (k : pkind) (s : scalar) : nat :=
  match k with
  | C2C => n3 s * (2 * prec s)
  | R2C => n1 s * (n1 s + 2) * Lz s * prec s
  end.
(** Plans made by the constructor, scalarField.cpp:461-495. *)
Definition constructor_plans (s : scalar) (lowmem fpectral : bool) : list plan :=
  if ftype_eqb (fType s) WKB || negb (N.eqb (N.land (fcode (fType s)) 256) 0) then []
  else [PSPEC_AX]
    ++ (if ftype_eqb (fType s) SAXION && negb lowmem then [SPSX; RDSX_V] else [])
    ++ (if fpectral then [CtoC_MtoM; CtoC_VtoV; CtoC_M2toM2; CtoC_M2toM; RtoC_MtoM_WKB; RtoC_VtoV_WKB; RtoC_M2toM; RtoC_M2toV] else []).
