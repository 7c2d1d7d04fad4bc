(** Model of the block tuner: /repo/include/utils/tunable.h and
    /repo/lib/propagator/propagator.cpp tunePropagator. Block sizes and grid sizes are
    numbers below 2^32 (unsigned int). *)
From Coq Require Import List Arith Bool.
Import ListNotations.

(** The loop  do { b++; } while ((size % b) != 0);  on an unsigned int below [W]:
    [None] is the division by zero that happens when b wraps around to 0. *)
Inductive count_up (W size : nat) : nat -> option nat -> Prop :=
| cu_wrap : forall b, b + 1 = W -> count_up W size b None
| cu_stop : forall b, b + 1 < W -> size mod (b + 1) = 0 -> count_up W size b (Some (b + 1))
| cu_next : forall b r, b + 1 < W -> size mod (b + 1) <> 0 -> count_up W size (b + 1) r -> count_up W size b r.

(** Its result (TuneProofs.count_up_next: this is what the loop computes). *)
Definition next (size b : nat) : option nat :=
  find (fun d => size mod d =? 0) (seq (b + 1) (max 1 (size - b))).

(** tunable.h:7-34, the members used for tuning *)
Record tun := Tun {
  xBlock : nat; yBlock : nat; zBlock : nat;
  xBest : nat; yBest : nat; zBest : nat;
  xMax : nat; yMax : nat; zMax : nat;
  xSize : nat; ySize : nat; zSize : nat;
  isTuned : bool; isGpu : bool }.

Definition block := (nat * nat * nat)%type.
Definition theBlock (t : tun) : block := (xBlock t, yBlock t, zBlock t).
Definition bestBlock (t : tun) : block := (xBest t, yBest t, zBest t).
(** tunable.h:59-61 SetBlockX, SetBlockY, SetBlockZ together *)
Definition setBlock (t : tun) (b : block) : tun :=
  let '(x, y, z) := b in
  Tun x y z (xBest t) (yBest t) (zBest t) (xMax t) (yMax t) (zMax t) (xSize t) (ySize t) (zSize t) (isTuned t) (isGpu t).
(** tunable.h:63 UpdateBestBlock *)
Definition updateBest (t : tun) : tun :=
  Tun (xBlock t) (yBlock t) (zBlock t) (xBlock t) (yBlock t) (zBlock t) (xMax t) (yMax t) (zMax t) (xSize t) (ySize t) (zSize t) (isTuned t) (isGpu t).
(** tunable.h:64 SetBestBlock *)
Definition setBest (t : tun) : tun := setBlock t (bestBlock t).
(** tunable.h:48 Tune *)
Definition setTuned (t : tun) : tun :=
  Tun (xBlock t) (yBlock t) (zBlock t) (xBest t) (yBest t) (zBest t) (xMax t) (yMax t) (zMax t) (xSize t) (ySize t) (zSize t) true (isGpu t).
(** tunable.h:57 TotalThreads: a product of unsigned ints. *)
Definition totalThreads (W : nat) (t : tun) : nat := (xBlock t * yBlock t * zBlock t) mod W.

(** tunable.h:160-206 InitBlockSize. [shift] is the loop of lines 169-172, the logarithm
    of alignSize/dataSize, which is a power of two. mTx, mTy: threads per dimension of the
    GPU. The error message about the z dimension is not modelled. *)
Definition initCpu (Lx Lz shift : nat) : tun :=
  let xs := Lx * 2 ^ shift in
  let ys := Lx / 2 ^ shift in
  Tun xs 2 1 xs 2 1 xs ys Lz xs ys Lz false false.
Definition initGpu (Lx Lz mTx mTy : nat) : tun :=
  let xs := Lx * Lx in
  Tun 4 1 1 4 1 1 (if mTx <? xs then mTx else xs) (if mTy <? Lz then mTy else Lz) 1 xs Lz 1 false true.

(** tunable.h:88-108 AdvanceBlockSize on the CPU; [None] is the division by zero. *)
Definition advanceCpu (t : tun) : option tun :=
  if yBlock t <? ySize t then
    match next (ySize t) (yBlock t) with
    | Some y => Some (setBlock t (xBlock t, y, zBlock t))
    | None => None
    end
  else
    match next (ySize t) 3 with
    | None => None
    | Some y =>
      let t := setBlock t (xBlock t, y, zBlock t) in
      if zBlock t <? zSize t then
        match next (zSize t) (zBlock t) with
        | Some z => Some (setBlock t (xBlock t, yBlock t, z))
        | None => None
        end
      else Some (setTuned t)
    end.

(** tunable.h:71-86, the body of the do loop on the GPU *)
Definition stepGpu (t : tun) : option tun :=
  if xBlock t <? xMax t then
    match next (xSize t) (xBlock t) with
    | Some x => Some (setBlock t (x, yBlock t, zBlock t))
    | None => None
    end
  else
    match next (xSize t) 7 with
    | None => None
    | Some x =>
      let t := setBlock t (x, yBlock t, zBlock t) in
      if yBlock t <? yMax t then
        match next (ySize t) (yBlock t) with
        | Some y => Some (setBlock t (xBlock t, y, zBlock t))
        | None => None
        end
      else Some (setTuned t)
    end.

(** tunable.h:67-109 AdvanceBlockSize, for unsigned ints below W and mTB threads per
    block. A finite derivation is a terminating execution. *)
Inductive advance (W mTB : nat) : tun -> option tun -> Prop :=
| adv_cpu : forall t, isGpu t = false -> advance W mTB t (advanceCpu t)
| adv_gpu_crash : forall t, isGpu t = true -> stepGpu t = None -> advance W mTB t None
| adv_gpu_stop : forall t t', isGpu t = true -> stepGpu t = Some t' ->
    isTuned t' = true \/ totalThreads W t' <= mTB -> advance W mTB t (Some t')
| adv_gpu_again : forall t t' r, isGpu t = true -> stepGpu t = Some t' ->
    isTuned t' = false -> mTB < totalThreads W t' -> advance W mTB t' r -> advance W mTB t r.

(** propagator.cpp:648-681: the loop. [time i] is the slowest rank's time (MPI_Allreduce
    with MPI_MAX) for the i-th block tried; an error on a GPU is a huge time. The list is the blocks
    timed. [None]: the program has crashed. *)
Inductive tuning (W mTB : nat) (time : nat -> nat) : nat -> nat -> tun -> list block -> option (nat * tun) -> Prop :=
| tn_end : forall i best t, isTuned t = true -> tuning W mTB time i best t [] (Some (best, t))
| tn_crash : forall i best t, isTuned t = false ->
    advance W mTB (if time i <? best then updateBest t else t) None ->
    tuning W mTB time i best t [theBlock t] None
| tn_step : forall i best t t' l r, isTuned t = false ->
    advance W mTB (if time i <? best then updateBest t else t) (Some t') ->
    tuning W mTB time (i + 1) (if time i <? best then time i else best) t' l r ->
    tuning W mTB time i best t (theBlock t :: l) r.

(** propagator.cpp:623-681: the first block is timed before the loop. *)
Inductive tuneLoop (W mTB : nat) (time : nat -> nat) (t : tun) : list block -> option (nat * tun) -> Prop :=
| tl_crash : advance W mTB t None -> tuneLoop W mTB time t [theBlock t] None
| tl_loop : forall t' l r, advance W mTB t (Some t') ->
    tuning W mTB time 1 (time 0) t' l r -> tuneLoop W mTB time t (theBlock t :: l) r.

(** ** The cache file, propagator.cpp:531-617 and 746-785 *)
(** The field types told apart by the cache; [FOther] is every other type, for which the
    code leaves its variable uninitialised. *)
Inductive fkind := FSaxion | FAxion | FNaxion | FPaxion | FAxionMod | FOther.
(** lines 547-554 and 772-779; [junk] is the content of the uninitialised variable. *)
Definition kindCode (k : fkind) (junk : nat) : nat :=
  match k with FSaxion => 0 | FAxion => 1 | FNaxion => 2 | FPaxion => 3 | FAxionMod => junk | FOther => junk end.
(** One line of the file *)
Record entry := Entry { eGpu : bool; eRanks : nat; eThreads : nat; eLx : nat; eLz : nat; eKind : nat; eBlock : block; eNg : nat }.
(** What the program knows of the run *)
Record config := Config { cGpu : bool; cRanks : nat; cThreads : nat; cLx : nat; cLz : nat; cKind : fkind; cNg : nat }.

(** line 564 *)
Definition keyMatches (c : config) (junk : nat) (e : entry) : bool :=
  (eRanks e =? cRanks c) && (eThreads e =? cThreads c) && (eLx e =? cLx c) && (eLz e =? cLz c)
  && (eKind e =? kindCode (cKind c) junk) && eqb (eGpu e) (cGpu c) && (eNg e =? cNg c).
(** lines 565-566; Surf = Lx*Lx *)
Definition blockFits (c : config) (t : tun) (b : block) : bool :=
  let '(x, y, z) := b in
  if cGpu c then (x <=? xMax t) && (y <=? yMax t) && (z <=? zMax t)
  else (x <=? xBlock t) && (y <=? cLx c * cLx c / xBlock t) && (z <=? cLz c).
(** lines 560-578. The block does not change before the entry is found. *)
Fixpoint lookup (c : config) (junk : nat) (t : tun) (file : list entry) : option block :=
  match file with
  | [] => None
  | e :: file => if keyMatches c junk e && blockFits c t (eBlock e) then Some (eBlock e) else lookup c junk t file
  end.

(** lines 524-527 *)
Definition initBlock (c : config) (shift mTx mTy : nat) : tun :=
  if cGpu c then initGpu (cLx c) (cLz c) mTx mTy else initCpu (cLx c) (cLz c) shift.

(** The state after tunePropagator: the tuner, the file, and the blocks timed. *)
Definition outcome := option (tun * list entry * list block).

(** tunePropagator on rank 0 (the other ranks get its cached block, lines 591-609, and
    take the same decisions when timing, the times being those of MPI_Allreduce).
    [file] is a readable cache of at least one line or absent; [junk] and [junk'] are the
    uninitialised variables when reading and when writing; [canWrite]: the file opens for
    writing (if it does not, the code goes on to write through a null pointer). *)
Inductive tunePropagator (W mTB : nat) (time : nat -> nat) (junk junk' : nat) (canWrite : bool)
    (c : config) (shift mTx mTy : nat) (file : list entry) : outcome -> Prop :=
| tp_cached : forall b, lookup c junk (initBlock c shift mTx mTy) file = Some b ->
    tunePropagator W mTB time junk junk' canWrite c shift mTx mTy file
      (Some (setTuned (updateBest (setBlock (initBlock c shift mTx mTy) b)), file, []))
| tp_crash : forall l, lookup c junk (initBlock c shift mTx mTy) file = None ->
    tuneLoop W mTB time (initBlock c shift mTx mTy) l None ->
    tunePropagator W mTB time junk junk' canWrite c shift mTx mTy file None
| tp_other : forall l best t, lookup c junk (initBlock c shift mTx mTy) file = None ->
    tuneLoop W mTB time (initBlock c shift mTx mTy) l (Some (best, t)) ->
    cKind c = FOther ->
    tunePropagator W mTB time junk junk' canWrite c shift mTx mTy file (Some (t, file, l))
| tp_tuned : forall l best t, lookup c junk (initBlock c shift mTx mTy) file = None ->
    tuneLoop W mTB time (initBlock c shift mTx mTy) l (Some (best, t)) ->
    cKind c <> FOther ->
    tunePropagator W mTB time junk junk' canWrite c shift mTx mTy file
      (if canWrite then
         Some (setBest t,
               file ++ [Entry (cGpu c) (cRanks c) (cThreads c) (cLx c) (cLz c) (kindCode (cKind c) junk') (bestBlock t) (cNg c)], l)
       else None).
