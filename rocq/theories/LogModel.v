(** Model of log messages: /repo/include/utils/logger.h. *)
From Coq Require Import List Arith ZArith Bool.
Import ListNotations.

(** ** Packing (lines 27-112) *)
Definition byte := Z.
(** logger.h:27 and :32; ptrdiff_t has 8 bytes *)
Definition MSG_SIZE : nat := 2048.
Definition basePack : nat := 40.

(** LogLevel, include/enum-field.h:400-405 *)
Inductive level := LOG_MSG | LOG_DEBUG | LOG_ERROR.
Definition levelCode (l : level) : Z := match l with LOG_MSG => 1048576 | LOG_DEBUG => 2097152 | LOG_ERROR => 4194304 end.

(** logger.h:35-47: time in nanoseconds since the epoch; [size] repeats the length *)
Record msg := Msg { tIdx : Z; data : list byte; logLevel : Z; mRnk : Z; stamp : Z }.

(** The outcome of code that may read or write outside an array. *)
Inductive defined (A : Type) := Defined (a : A) | Outside.
Arguments Defined {A}. Arguments Outside {A}.

(** logger.h:51-62, the constructor from a format: [text] is the formatted text.
    vsnprintf stores at most MSG_SIZE-2-basePack characters and a zero, and returns the
    length the whole text would have; data.assign then takes that many characters from
    the buffer of MSG_SIZE-basePack. [junk] is what the buffer held before. *)
Definition buffer (text junk : list byte) : list byte :=
  let kept := firstn (MSG_SIZE - 2 - basePack) text in
  kept ++ [0%Z] ++ skipn (length kept + 1) (firstn (MSG_SIZE - basePack) (junk ++ repeat 0%Z (MSG_SIZE - basePack))).
Definition newMsg (lv : level) (thread rank now : Z) (text junk : list byte) : defined msg :=
  let size := length text in
  if size <=? MSG_SIZE - basePack then
    Defined (Msg thread (firstn size (buffer text junk)) (levelCode lv) rank now)
  else Outside.

(** A 64-bit little endian word in memory, and a 32-bit int made from it *)
Definition enc64 (z : Z) : list byte := map (fun i => (z / 256 ^ Z.of_nat i) mod 256)%Z (seq 0 8).
Definition dec64 (b : list byte) : Z :=
  let u := fold_right (fun x acc => x + 256 * acc)%Z 0%Z b in
  if (u <? 2 ^ 63)%Z then u else (u - 2 ^ 64)%Z.
Definition to_int (z : Z) : Z := ((z + 2 ^ 31) mod 2 ^ 32 - 2 ^ 31)%Z.

(** logger.h:101-112 pack: the bytes of [packed], which held [old]. time_point_cast
    rounds towards zero. *)
Definition pack (m : msg) (old : list byte) : defined (list byte) :=
  if basePack + length (data m) <=? MSG_SIZE then
    let head := enc64 (Z.quot (stamp m) 1000) ++ enc64 (tIdx m) ++ enc64 (logLevel m)
                ++ enc64 (Z.of_nat (length (data m))) ++ enc64 (mRnk m) in
    Defined (head ++ data m ++ skipn (basePack + length (data m)) old)
  else Outside.

(** word k of an array of ptrdiff_t *)
Definition word (b : list byte) (k : nat) : Z := dec64 (firstn 8 (skipn (8 * k) b)).
(** logger.h:68-76, the constructor from a packed message; [b] is the receiver's buffer. *)
Definition unpack (b : list byte) : defined msg :=
  let size := to_int (word b 3) in
  if (size <? 0)%Z || (length b <? basePack + Z.to_nat size) then Outside
  else Defined (Msg (to_int (word b 1)) (firstn (Z.to_nat size) (skipn basePack b))
                    (to_int (word b 2)) (to_int (word b 4)) (word b 0 * 1000)).

(** logger.h:345, 356 and 186-206: what a rank sends, basePack + length bytes, arrives
    at the beginning of a buffer of MSG_SIZE bytes that held [old]. *)
Definition transmit (m : msg) (packed : list byte) (old : list byte) : list byte :=
  firstn (basePack + length (data m)) packed ++ skipn (basePack + length (data m)) old.

(** ** The stack of messages waiting to be sent, lines 293-370 on ranks other than 0 *)
Section Stack.
Context {M : Type}.
(** The stack is a vector of messages, each with an MPI request: [None] is
    MPI_REQUEST_NULL, [Some k] the k-th send posted by the rank. *)
Record stack := Stack { slots : list (M * option nat); capacity : nat }.

(** push_back, :308 and :327-328. When the vector is full it is moved to a larger one
    with the move constructor, which resets the requests (:66-67). Capacity doubles as
    in libstdc++. *)
Definition push (s : stack) (m : M) : stack :=
  if length (slots s) =? capacity s then
    Stack (map (fun x => (fst x, None)) (slots s) ++ [(m, None)]) (max 1 (2 * capacity s))
  else Stack (slots s ++ [(m, None)]) (capacity s).

(** :352-366. The suffix of the stack from the iterator on is given as its messages and
    its requests: erase moves the messages down with operator= (:80-90), which does not
    move the requests, so the requests stay in place and the last one is dropped.
    [done k]: MPI_Test finds send k complete (and sets the request to null). [sent] is
    what has been posted so far. *)
Fixpoint sendLoop (done : nat -> bool) (ms : list M) (rs : list (option nat)) (sent : list M) : list (M * option nat) * list M :=
  match ms, rs with
  | m :: ms', None :: rs' =>
      let '(rest, sent') := sendLoop done ms' rs' (sent ++ [m]) in ((m, Some (length sent)) :: rest, sent')
  | m :: ms', Some k :: rs' =>
      if done k then sendLoop done ms' (None :: rs') sent
      else let '(rest, sent') := sendLoop done ms' rs' sent in ((m, Some k) :: rest, sent')
  | _, _ => ([], sent)
  end.
(** :341-349: on an error everything is sent and waited for; the iterator is always at
    the first slot. *)
Fixpoint sendAll (ms : list M) (req0 : option nat) (sent : list M) : list M :=
  match ms with
  | [] => sent
  | m :: ms' => sendAll ms' None (match req0 with None => sent ++ [m] | Some _ => sent end)
  end.

(** One call of the logger on a rank other than 0, with mpiType ALL_RANKS: :293-370 *)
Definition logMessage (done : nat -> bool) (m : M) (s : stack * list M) : stack * list M :=
  let st := push (fst s) m in
  let '(sl, sent) := sendLoop done (map fst (slots st)) (map snd (slots st)) (snd s) in
  (Stack sl (capacity st), sent).
Definition logError (m1 m2 : M) (s : stack * list M) : stack * list M :=
  let st := push (push (fst s) m1) m2 in
  (Stack [] (capacity st), sendAll (map fst (slots st)) (match slots st with (_, r) :: _ => r | [] => None end) (snd s)).
Definition noMessages : stack * list M := (Stack [] 0, []).
End Stack.
