(** What a list of measurements says: a table with named columns. *)
From Coq Require Import Reals Arith ZArith Ascii String List Bool.
Import ListNotations.

(** A blank is one of tab, line feed, vertical tab, form feed, carriage return and space. *)
Definition blank (c : ascii) : Prop := In c ["009"; "010"; "011"; "012"; "013"; " "]%char.
Definition aWord (w : list ascii) : Prop := w <> [] /\ Forall (fun c => ~ blank c) w.
(** The text [s] is the words [ws] with blanks before, between and behind. *)
Inductive spaced : list ascii -> list (list ascii) -> Prop :=
| sp_none b : Forall blank b -> spaced b []
| sp_last b w : Forall blank b -> aWord w -> spaced (b ++ w) [w]
| sp_more b w c s ws : Forall blank b -> aWord w -> blank c -> spaced s ws -> spaced (b ++ w ++ c :: s) (w :: ws).
(** The file [f] has the lines [ls], each ended by a line feed but perhaps the last. *)
Definition aLine (l : list ascii) : Prop := ~ In "010"%char l.
Definition lined (f : list ascii) (ls : list (list ascii)) : Prop :=
  Forall aLine ls /\
  (f = flat_map (fun l => l ++ ["010"%char]) ls \/ exists ls' l, ls = ls' ++ [l] /\ l <> [] /\ f = flat_map (fun l => l ++ ["010"%char]) ls' ++ l).

Inductive column := Ct | Kind | Maps | Masks | Spectra.
Definition nameOf (c : column) : string :=
  match c with Ct => "ct" | Kind => "meas" | Maps => "map" | Masks => "mask" | Spectra => "kgv" end.
Definition title (c : column) : list ascii := list_ascii_of_string (nameOf c).
(** Number [k] of what is asked at a time: kind, maps, masks, spectra. *)
Definition asks (e : R * list Z) (k : nat) : option Z := nth_error (snd e) k.
(** The word [w] in column [c] is what [e] asks there. *)
Definition shows (stof : list ascii -> option R) (stoi : list ascii -> option Z) (w : list ascii) (e : R * list Z) (c : column) : Prop :=
  match c with
  | Ct => stof w = Some (fst e)
  | Kind => exists v, stoi w = Some v /\ asks e 0 = Some v
  | Maps => exists v, stoi w = Some v /\ asks e 1 = Some v
  | Masks => exists v, stoi w = Some v /\ asks e 2 = Some v
  | Spectra => exists v, stoi w = Some v /\ asks e 3 = Some v
  end.
Definition nothing (e : R * list Z) (c : column) : Prop :=
  match c with Ct => False | Kind => asks e 0 = Some 0%Z | Maps => asks e 1 = Some 0%Z | Masks => asks e 2 = Some 0%Z | Spectra => asks e 3 = Some 0%Z end.
(** A row says, under each title, what is asked; nothing where there is no such title. *)
Definition says stof stoi (cols : list column) (ws : list (list ascii)) (e : R * list Z) : Prop :=
  length (snd e) = 4%nat /\
  (forall k c w, nth_error cols k = Some c -> nth_error ws k = Some w -> shows stof stoi w e c) /\
  (forall c, ~ In c cols -> nothing e c).
(** The words of a row are numbers. *)
Definition numeric (stof : list ascii -> option R) (stoi : list ascii -> option Z) (cols : list column) (ws : list (list ascii)) : Prop :=
  (length cols <= length ws)%nat /\
  forall k c w, nth_error cols k = Some c -> nth_error ws k = Some w -> match c with Ct => exists t, stof w = Some t | _ => exists v, stoi w = Some v end.
