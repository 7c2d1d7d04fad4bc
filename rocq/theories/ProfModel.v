(** Model of the profiler (include/utils/profiler.h:12-50, include/utils/flopCounter.h:4-26, lib/utils/profiler.cpp:9-30, 86-110): the times of the parts of a run.

    The clock gives nanoseconds and does not go back where a theorem says so; times are kept in microseconds. Numbers of operations are exact.
    Names and kinds of profilers are numbers. Left out: the text printed. *)
From Coq Require Import Reals List Arith.
Import ListNotations.

(** flopCounter.h:8-15 *)
Record ctr := Ctr { cF : R; cB : R; cT : nat }.
Definition zero : ctr := Ctr 0 0 0.
(** profiler.h:16-19. sTime starts at the epoch; dTime is not set at first. *)
Record prof := Prof { pS : nat; pD : option nat; pC : list (nat * ctr) }.
Definition fresh : prof := Prof 0 None [].
Inductive ev := Start (t : nat) | Stop (t : nat) | Add (name : nat) (fl by_ : R) | Reset (name : nat).
(** prof[str]: the counter of that name, made if there is none. *)
Fixpoint at_ (name : nat) (f : ctr -> ctr) (l : list (nat * ctr)) : list (nat * ctr) :=
  match l with
  | [] => [(name, f zero)]
  | (n, c) :: l' => if (n =? name)%nat then (n, f c) :: l' else (n, c) :: at_ name f l'
  end.
(** profiler.h:33-36. None: a number that was not set is used. *)
Definition step (p : prof) (e : ev) : option prof :=
  match e with
  | Start t => Some (Prof t (pD p) (pC p))
  | Stop t => Some (Prof (pS p) (Some ((t - pS p) / 1000)%nat) (pC p))
  | Add n fl b => match pD p with
                  | None => None
                  | Some d => Some (Prof (pS p) (pD p) (at_ n (fun c => Ctr (cF c + fl)%R (cB c + b)%R (cT c)) (at_ n (fun c => Ctr (cF c) (cB c) (cT c + d)%nat) (pC p))))
                  end
  | Reset n => Some (Prof (pS p) (pD p) (at_ n (fun _ => zero) (pC p)))
  end.
Fixpoint run (p : prof) (l : list ev) : option prof :=
  match l with [] => Some p | e :: l' => match step p e with Some p' => run p' l' | None => None end end.
Fixpoint get (name : nat) (l : list (nat * ctr)) : ctr :=
  match l with [] => zero | (n, c) :: l' => if (n =? name)%nat then c else get name l' end.
(** flopCounter.h:21-23; None: a division by 0. Operations a microsecond here. *)
Definition dTime (p : prof) (name : nat) : nat := cT (get name (pC p)).
Definition rate (p : prof) (name : nat) : option R := if (dTime p name =? 0)%nat then None else Some (cF (get name (pC p)) / INR (dTime p name))%R.
(** profiler.cpp:16-29: the sum of the times. *)
Definition total (p : prof) : nat := fold_left (fun a nc => a + cT (snd nc))%nat (pC p) 0%nat.

(** profiler.cpp:11, 107-109: a profiler of each kind, made if there is none. *)
Definition world := nat -> prof.
Definition clean : world := fun _ => fresh.
Fixpoint wrun (w : world) (l : list (nat * ev)) : option world :=
  match l with
  | [] => Some w
  | (k, e) :: l' => match step (w k) e with Some p => wrun (fun j => if (j =? k)%nat then p else w j) l' | None => None end
  end.
(** profiler.cpp:86-105: the time that no profiler of the list accounts for; may be below 0, so as an integer. *)
Definition unaccounted (w : world) (kinds : list nat) (t0 t1 : nat) : BinInt.Z :=
  BinInt.Z.sub (BinInt.Z.of_nat ((t1 - t0) / 1000)) (BinInt.Z.of_nat (fold_left (fun a k => a + total (w k))%nat kinds 0%nat)).
