(** What a user expects of the profiler, for C131. *)
From Coq Require Import Reals List Arith.
From Verif Require Import ProfModel.
Import ListNotations.
(** A part of the program that is timed, or a counter set back. *)
Inductive item := Part (name begin finish : nat) (fl by_ : R) | Back (name : nat).
Definition events (i : item) : list ev := match i with Part n b f x y => [Start b; Stop f; Add n x y] | Back n => [Reset n] end.
Definition history (l : list item) : list ev := flat_map events l.
(** Microseconds of the parts of that name since it was set back; and their operations. *)
Fixpoint spent (name : nat) (l : list item) (a : nat) : nat :=
  match l with
  | [] => a
  | Part n b f _ _ :: l' => spent name l' (if Nat.eq_dec n name then a + (f - b) / 1000 else a)
  | Back n :: l' => spent name l' (if Nat.eq_dec n name then 0 else a)
  end.
Fixpoint done (name : nat) (l : list item) (a : R) : R :=
  match l with
  | [] => a
  | Part n _ _ x _ :: l' => done name l' (if Nat.eq_dec n name then (a + x)%R else a)
  | Back n :: l' => done name l' (if Nat.eq_dec n name then 0%R else a)
  end.
(** One part after another: each ends before the next begins, all from t0 to t1. *)
Fixpoint inOrder (t0 t1 : nat) (l : list item) : Prop :=
  match l with
  | [] => t0 <= t1
  | Part _ b f _ _ :: l' => t0 <= b /\ b <= f /\ inOrder f t1 l'
  | Back _ :: l' => inOrder t0 t1 l'
  end.
(** What happened to one of the profilers. *)
Definition of_ (k : nat) (l : list (nat * ev)) : list ev := map snd (filter (fun ke => fst ke =? k) l).
