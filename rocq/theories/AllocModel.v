(** Model of the tracked allocator /repo/lib/utils/memAlloc.cpp. Sizes and totals are
    unbounded integers. An address is a block of the heap and an offset inside it. *)
From Coq Require Import List Arith ZArith Bool.
Import ListNotations.

(** enum-field.h:366-367 *)
Inductive atype := ALLOC_TRACK | ALLOC_ALIGN.
Definition addr := (nat * nat)%type.
Definition addr_eqb (a b : addr) : bool := (fst a =? fst b) && (snd a =? snd b).

(** The heap (blocks handed out by the system and not yet freed, with their sizes),
    allocTable and the two totals (memAlloc.cpp:8-10). *)
Record world := World {
  heap : list (nat * nat);
  table : list (addr * (atype * nat));
  trackAlignMem : Z;
  trackAllocMem : Z }.
Definition start : world := World [] [] 0 0.

(** What a call can do: return, end the program (exit), or be undefined. *)
Inductive outcome (A : Type) := Ok (a : A) | Exit | Undefined.
Arguments Ok {A}. Arguments Exit {A}. Arguments Undefined {A}.
Definition bindo {A B} (o : outcome A) (f : A -> outcome B) : outcome B :=
  match o with Ok a => f a | Exit => Exit | Undefined => Undefined end.

Definition live (w : world) (p : nat) : bool := existsb (fun b => fst b =? p) (heap w).
Definition block_size (w : world) (p : nat) : option nat :=
  option_map snd (find (fun b => fst b =? p) (heap w)).

(** unordered_map: insert keeps an existing entry; operator[] of an absent key
    inserts (ALLOC_TRACK, 0), which is what the default pair is; erase. *)
Definition tlookup (t : list (addr * (atype * nat))) (a : addr) : option (atype * nat) :=
  option_map snd (find (fun e => addr_eqb (fst e) a) t).
Definition tinsert (t : list (addr * (atype * nat))) (a : addr) (x : atype * nat) :=
  match tlookup t a with Some _ => t | None => (a, x) :: t end.
Definition terase (t : list (addr * (atype * nat))) (a : addr) :=
  filter (fun e => negb (addr_eqb (fst e) a)) t.

(** posix_memalign and malloc: the system returns a block [p] that is not in use,
    or fails ([None]). A block in use is never returned: such a choice of the
    system is not a behaviour, and is given the outcome Undefined. *)
Definition sys_alloc (p : option nat) (size : nat) (w : world) : outcome (nat * world) :=
  match p with
  | None => Exit
  | Some p => if live w p then Undefined
              else Ok (p, World ((p, size) :: heap w) (table w) (trackAlignMem w) (trackAllocMem w))
  end.
(** free: the null pointer is allowed; otherwise the start of a block in use. *)
Definition sys_free (a : option addr) (w : world) : outcome world :=
  match a with
  | None => Ok w
  | Some (p, off) =>
      if (off =? 0) && live w p
      then Ok (World (filter (fun b => negb (fst b =? p)) (heap w)) (table w) (trackAlignMem w) (trackAllocMem w))
      else Undefined
  end.

(** memAlloc.cpp:12-40 alignAlloc; [p] is the choice of the system. *)
Definition alignAlloc (p : option nat) (size : nat) (w : world) : outcome (addr * world) :=
  bindo (sys_alloc p size w) (fun pw =>
    let '(p, w) := pw in
    Ok ((p, 0), World (heap w) (tinsert (table w) (p, 0) (ALLOC_ALIGN, size))
                      (trackAlignMem w + Z.of_nat size) (trackAllocMem w))).
(** memAlloc.cpp:59-71 trackAlloc *)
Definition trackAlloc (p : option nat) (size : nat) (w : world) : outcome (addr * world) :=
  bindo (sys_alloc p size w) (fun pw =>
    let '(p, w) := pw in
    Ok ((p, 0), World (heap w) (tinsert (table w) (p, 0) (ALLOC_TRACK, size))
                      (trackAlignMem w) (trackAllocMem w + Z.of_nat size))).
(** memAlloc.cpp:42-57 trackFree. For the null pointer the key is not that of any
    block; its entry is created with size 0 and erased again. *)
Definition trackFree (a : option addr) (w : world) : outcome world :=
  let '(aType, bytes) :=
    match a with
    | Some a => match tlookup (table w) a with Some x => x | None => (ALLOC_TRACK, 0) end
    | None => (ALLOC_TRACK, 0)
    end in
  bindo (sys_free a w) (fun w =>
    Ok (World (heap w)
      (match a with Some a => terase (table w) a | None => table w end)
      (match aType with ALLOC_ALIGN => trackAlignMem w - Z.of_nat bytes | ALLOC_TRACK => trackAlignMem w end)
      (match aType with ALLOC_ALIGN => trackAllocMem w | ALLOC_TRACK => trackAllocMem w - Z.of_nat bytes end))).
