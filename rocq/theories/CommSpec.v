(** What a user expects of the start, for C130. *)
From Coq Require Import List Arith.
Import ListNotations.
(** Ranks below q on the host of rank p. *)
Definition mates (names : list (list nat)) (p q : nat) : list nat := filter (fun i => if list_eq_dec Nat.eq_dec (nth i names []) (nth p names []) then true else false) (seq 0 q).
(** Names that can be told apart: with no 0 in them, and shorter than the room. *)
Definition fits (M : nat) (names : list (list nat)) : Prop := forall nm, In nm names -> length nm < M /\ ~ In 0 nm.
