(** Model of the ghost exchange: /repo/lib/scalar/scalarField.cpp:713-1037
    (sendGeneral, sendGhosts2, sendGhosts, exchangeGhosts without its GPU copies).
    Memory is addressed in bytes, per rank. *)
From Coq Require Import List Arith Bool.
Import ListNotations.

(** A byte of a rank. *)
Definition bloc := (nat * nat)%type.
Definition bloc_eqb (a b : bloc) : bool := (fst a =? fst b) && (snd a =? snd b).
Definition gmem (A : Type) := bloc -> A.
Definition gupd {A} (m : gmem A) (l : bloc) (v : A) : gmem A :=
  fun l' => if bloc_eqb l l' then v else m l'.

(** A message endpoint, as in MPI_Send_init / MPI_Recv_init: peer rank, tag, offset
    of the buffer, length. *)
Record msg := Msg { peer : nat; tag : nat; off : nat; len : nat }.

(** scalarField.cpp:734-735, :908-909. *)
Definition fwdNeig (n rank : nat) := (rank + 1) mod n.
Definition bckNeig (n rank : nat) := (rank + n - 1) mod n.

(** The four buffers of an exchange: sB -> rF, sF -> rB. *)
Record bufs := Bufs { sB : nat; rF : nat; sF : nat; rB : nat }.

(** sendGhosts :915-938. [sl] = n2*fSize, [C] = MAX_CHUNK. Chunk n is sent from
    offset n*C, with the length given by :936-938. *)
Definition chunks1 (C bytes : nat) : list (nat * nat) :=
  let nchunks := 1 + bytes / C in
  let lastchunk := bytes - (nchunks - 1) * C in
  map (fun n => (n * C, if n =? nchunks - 1 then lastchunk else C)) (seq 0 nchunks).

(** sendGeneral :742-768. *)
Definition chunks2 (C bytes : nat) : list (nat * nat) :=
  let nchunks := if bytes mod C =? 0 then bytes / C else 1 + bytes / C in
  let lastchunk := bytes - (nchunks - 1) * C in
  map (fun n => (n * C, if (n =? nchunks - 1) && (0 <? lastchunk) then lastchunk else C)) (seq 0 nchunks).

(** scalarField.cpp:821-826 and :994-997: the sends and the receives rank [rank]
    starts for each chunk (offset, length). The relative order of the forward and
    the backward transfer of a chunk differs between the two functions; it is
    irrelevant because their tags differ. *)
Definition rank_sends (n rank : nat) (b : bufs) (chunks : list (nat * nat)) : list msg :=
  flat_map (fun c : nat * nat =>
    [Msg (fwdNeig n rank) (2 * rank) (sF b + fst c) (snd c);
     Msg (bckNeig n rank) (2 * rank + 1) (sB b + fst c) (snd c)]) chunks.
Definition rank_recvs (n rank : nat) (b : bufs) (chunks : list (nat * nat)) : list msg :=
  flat_map (fun c : nat * nat =>
    [Msg (fwdNeig n rank) (2 * fwdNeig n rank + 1) (rF b + fst c) (snd c);
     Msg (bckNeig n rank) (2 * bckNeig n rank) (rB b + fst c) (snd c)]) chunks.

(** MPI point-to-point semantics: messages from one source with one tag to one
    destination are matched in order. [chan] gives the unmatched sends of a
    source with a tag to this rank. A receive without matching send (deadlock) or
    with a different length (error) is [None]. Result: (source, source offset,
    destination offset, length). *)
Fixpoint match_recvs (chan : nat -> nat -> list msg) (rs : list msg) : option (list (nat * nat * nat * nat)) :=
  match rs with
  | [] => Some []
  | r :: rs' =>
    match chan (peer r) (tag r) with
    | [] => None
    | s :: q =>
      if len s =? len r then
        match match_recvs (fun p t => if (p =? peer r) && (t =? tag r) then q else chan p t) rs' with
        | Some l => Some ((peer r, off s, off r, len r) :: l)
        | None => None
        end
      else None
    end
  end.

Definition channel (sends : nat -> list msg) (rank : nat) : nat -> nat -> list msg :=
  fun p t => filter (fun s => (peer s =? rank) && (tag s =? t)) (sends p).

(** Byte copies (destination, source) performed for rank [rank]. *)
Definition rank_copies (rank : nat) (ts : list (nat * nat * nat * nat)) : list (bloc * bloc) :=
  flat_map (fun t : nat * nat * nat * nat => let '(src, so, d, l) := t in
    map (fun i => ((rank, d + i), (src, so + i))) (seq 0 l)) ts.

Fixpoint all_copies (n : nat) (b : bufs) (chunks : list (nat * nat)) (ranks : list nat) : option (list (bloc * bloc)) :=
  match ranks with
  | [] => Some []
  | r :: rs =>
    match match_recvs (channel (fun p => rank_sends n p b chunks) r) (rank_recvs n r b chunks), all_copies n b chunks rs with
    | Some ts, Some l => Some (rank_copies r ts ++ l)
    | _, _ => None
    end
  end.

(** Byte copies executed one after the other, in the given order. *)
Definition gcopies {A} (l : list (bloc * bloc)) (m : gmem A) : gmem A :=
  fold_left (fun m p => gupd m (fst p) (m (snd p))) l m.

(** :750-753 and :924-927: more chunks than NMPICHUNK ends the program. *)
Definition exchange (NMPICHUNK n : nat) (b : bufs) (chunks : list (nat * nat)) : option (list (bloc * bloc)) :=
  if NMPICHUNK <? length chunks then None else all_copies n b chunks (seq 0 n).

(** Buffers of sendGhosts :942-945 / sendGhosts2 :880-888 for a field whose owned
    slices start at [start], with front and back ghosts at [front] and [back];
    rNg slices are exchanged (Ng in sendGhosts). *)
Definition ghost_bufs (sl Ng Lz rNg start front back : nat) : bufs :=
  let ghostBytes := rNg * sl in
  Bufs start back (start + Lz * sl - ghostBytes) (front + (Ng - rNg) * sl).

(** m and m2 (scalarField.h:91-93, :106-108). *)
Definition m_bufs (sl Ng Lz rNg : nat) : bufs :=
  ghost_bufs sl Ng Lz rNg (Ng * sl) 0 (Ng * sl + Lz * sl).
(** v (scalarField.h:99-101): owned slices start at 0 unless FIELD_PAXION. *)
Definition v_bufs (pax : bool) (sl Ng Lz rNg : nat) : bufs :=
  ghost_bufs sl Ng Lz rNg (if pax then Ng * sl else 0) 0 (Ng * sl + Lz * sl).

(** :872-878: number of slices exchanged when [ng] are requested (None = -1). *)
Definition eff_Ng (Ng : nat) (ng : option nat) : nat :=
  match ng with None => Ng | Some k => if Ng <? k then Ng else k end.

(** sendGhosts (SDRV then WAIT) and sendGhosts2/exchangeGhosts. *)
Definition sendGhosts (NMPICHUNK C n sl Ng Lz : nat) : option (list (bloc * bloc)) :=
  exchange NMPICHUNK n (m_bufs sl Ng Lz Ng) (chunks1 C (Ng * sl)).
Definition sendGhosts2 (NMPICHUNK C n sl Ng Lz : nat) (ng : option nat) : option (list (bloc * bloc)) :=
  let r := eff_Ng Ng ng in
  exchange NMPICHUNK n (m_bufs sl Ng Lz r) (chunks2 C (r * sl)).
