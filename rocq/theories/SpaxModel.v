(** Model of the end of CONF_SPAX in saxion mode, /repo/lib/gen/genConf.cpp:1079-1127: waves
    put on top of strings. One rank, exact arithmetic. The velocity of the waves (real
    numbers, f_v) and the velocity of the complex field (co_v) share one array: complex
    element i covers the real elements 2i and 2i+1. *)
From Coq Require Import Reals List Arith Bool.
From Verif Require Import InitModel.
Import ListNotations.
Open Scope R_scope.

(** co_m, f_v *)
Record store := Store { stM : nat -> R * R; stV : nat -> R }.
Definition times2 (a b : R * R) : R * R := (fst a * fst b - snd a * snd b, fst a * snd b + snd a * fst b).
Definition turnBy (th : R) : R * R := (cos th, sin th).
Definition set {A} (i : nat) (x : A) (f : nat -> A) : nat -> A := fun j => if (j =? i)%nat then x else f j.
(** :1098-1104 (single) and :1117-1123 (double): one iteration; [fm] is m2. *)
Definition mergeAt (Rs Rp : R) (fm : nat -> R) (s : store) (i : nat) : store :=
  let th := fm i / Rs in
  let thp := stV s i / Rs - th * Rp in
  let m := times2 (times2 (stM s i) (turnBy th)) (Rs, 0) in
  let v := times2 (Rp, thp) m in
  Store (set i m (stM s)) (set (2 * i + 1) (snd v) (set (2 * i) (fst v) (stV s))).
(** The iterations in the order in which they happen, each taken as one step. *)
Definition merge (Rs Rp : R) (fm : nat -> R) (order : list nat) (s : store) : store := fold_left (mergeAt Rs Rp fm) order s.
(** [schedule(static)]: every thread gets one range of pidx in growing order, and handles
    idx = vol - pidx - 1. *)
Definition handled (vol from n : nat) : list nat := map (fun p => (vol - p - 1)%nat) (seq from n).
(** Any interleaving of two threads. *)
Inductive mixed : list nat -> list nat -> list nat -> Prop :=
| mixed_nil : mixed [] [] []
| mixed_l x a b c : mixed a b c -> mixed (x :: a) b (x :: c)
| mixed_r x a b c : mixed a b c -> mixed a (x :: b) (x :: c).
