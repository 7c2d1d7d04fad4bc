(** Model of the start of a run on several ranks (lib/comms/comms.cpp:94-247, initComms; lib/utils/misc.cpp:8-39, initAxions): the test of the number of ranks, the devices, the names of the hosts.

    Characters are numbers, 0 ends a string. [M]: HOST_NAME_MAX. gethostname writes a name that fits with its end, and the first M characters of one that does not; the array starts as zeros (comms.cpp:34).
    The devices of a host that cudaGetDeviceCount reports are an argument, and so is an error of that call.
    Left out: threads, the logger, properties of the device, access between devices. *)
From Coq Require Import List Arith Bool.
Import ListNotations.

(** comms.cpp:117-118 *)
Definition hostBuffer (M : nat) (name : list nat) : list nat := firstn (M - 1) (name ++ repeat 0 M) ++ [0].
(** strncmp(a, b, n) == 0 *)
Fixpoint same (n : nat) (a b : list nat) : bool :=
  match n with
  | 0 => true
  | S n' => match a, b with
            | x :: a', y :: b' => (x =? y) && ((x =? 0) || same n' a' b')
            | [], [] => true
            | _, _ => false
            end
  end.
(** comms.cpp:162-164: MPI_Allgather of the buffers, rank after rank. *)
Definition gathered (M : nat) (names : list (list nat)) : list nat := concat (map (hostBuffer M) names).
Definition nameAt (M : nat) (all : list nat) (i : nat) : list nat := skipn (M * i) all.
(** comms.cpp:169-174 *)
Definition idxAcc (M : nat) (names : list (list nat)) (rank : nat) : nat :=
  fold_left (fun c i => if same M (hostBuffer M (nth rank names [])) (nameAt M (gathered M names) i) then c + 1 else c) (seq 0 rank) 0.
(** comms.cpp:228-231, from 0 (:30) *)
Definition ranksPerNode (M : nat) (names : list (list nat)) (size rank : nat) : nat :=
  fold_left (fun c i => if same M (hostBuffer M (nth rank names [])) (nameAt M (gathered M names) i) then c + 1 else c) (seq 0 size) 0.

Inductive device := Cpu | Gpu.
(** What initComms does: exit(1) inside, -1 after MPI_Finalize, or a number of devices with MPI ended or not. *)
Inductive result := Quit | Minus1 | Accs (n : nat) (ended : bool).
(** comms.cpp:94-160. [built]: USE_GPU; [count]: what cudaGetDeviceCount gives, None an error. *)
Definition initComms (built : bool) (count : option nat) (realSize size : nat) (dev : device) : result :=
  if negb (realSize =? size) then Minus1
  else match dev with
       | Gpu => if built then match count with
                              | None => Minus1
                              | Some n => if (n =? 0) then Accs 0 true else Accs n false
                              end
                else Quit
       | Cpu => Accs 0 false
       end.
(** misc.cpp:20-24: only -1 stops. A run goes on with MPI ended or not. *)
Inductive start := Stopped | GoesOn (ended : bool).
Definition initAxions (built : bool) (count : option nat) (realSize size : nat) (dev : device) : start :=
  match initComms built count realSize size dev with
  | Quit | Minus1 => Stopped
  | Accs _ e => GoesOn e
  end.
