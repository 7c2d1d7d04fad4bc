(** Model of the reading of the list of measurements, measfile.dat: mysplit, readheader, readmeasline2 and the loop of readmeasfile, test/vaxions.cpp:834-960.

    A text is a list of characters. What std::stof and std::stoi make of a word is an argument; [None]: they throw, which ends the program. What is done with the lines read
    is in RunModel. Left out: the log; a negative number for maps, masks or spectra (all bits set in the code) is taken for 0 by [lineOf]. *)
From Coq Require Import Reals Arith ZArith NArith Ascii String List Bool.
From Verif Require Import RunModel.
Import ListNotations.

Notation text := (list ascii).
Definition LF : ascii := "010"%char.
(** std::isspace in the C locale. *)
Definition isspace (c : ascii) : bool := let n := nat_of_ascii c in ((9 <=? n) && (n <=? 13) || (n =? 32))%nat.
(** vaxions.cpp:834-840 mysplit: words up to white space. [cur]: characters of the word read so far, backwards. *)
Definition flush (cur : text) : list text := match cur with [] => [] | _ => [rev cur] end.
Fixpoint split (cur : text) (s : text) : list text :=
  match s with
  | [] => flush cur
  | c :: s => if isspace c then flush cur ++ split [] s else split (c :: cur) s
  end.
Definition mysplit (s : text) : list text := split [] s.
(** std::getline: what follows the last line end is a line only if there is something. *)
Fixpoint getlines (cur : text) (s : text) : list text :=
  match s with
  | [] => flush cur
  | c :: s => if Ascii.eqb c LF then rev cur :: getlines [] s else getlines (c :: cur) s
  end.

(** vaxions.cpp:853-865: the number of a column. *)
Definition word (s : string) : text := list_ascii_of_string s.
Definition textEqb (a b : text) : bool := if list_eq_dec ascii_dec a b then true else false.
Definition columnOf (w : text) : option nat :=
  if textEqb w (word "ct") then Some 0 else if textEqb w (word "meas") then Some 1 else if textEqb w (word "map") then Some 2
  else if textEqb w (word "mask") then Some 3 else if textEqb w (word "kgv") then Some 4 else None.
Definition put {A} (l : list A) (k : nat) (v : A) : option (list A) :=
  if (k <? length l)%nat then Some (firstn k l ++ v :: skipn (Datatypes.S k) l) else None.
(** vaxions.cpp:842-868 readheader: names found, and the columns; [None]: a write past the end of perm. *)
Fixpoint readheader (k : nat) (ws : list text) (perm : list nat) : option (nat * list nat) :=
  match ws with
  | [] => Some (0, perm)
  | w :: ws =>
      match columnOf w with
      | None => readheader (Datatypes.S k) ws perm
      | Some c =>
          match put perm k c with
          | None => None
          | Some perm => match readheader (Datatypes.S k) ws perm with None => None | Some (n, perm) => Some (Datatypes.S n, perm) end
          end
      end
  end.

(** What is read of a line: ctime, [None] as long as it was never set, and lint. *)
Record raw := Raw { rCt : option R; rInt : list Z }.
(** vaxions.cpp:870-891 readmeasline2. [None]: an exception, or a read past the end of perm. *)
Fixpoint readwords (stof : text -> option R) (stoi : text -> option Z) (k : nat) (ws : list text) (perm : list nat) (r : raw) : option raw :=
  match ws with
  | [] => Some r
  | w :: ws =>
      match nth_error perm k with
      | None => None
      | Some 0 => match stof w with None => None | Some t => readwords stof stoi (Datatypes.S k) ws perm (Raw (Some t) (rInt r)) end
      | Some (Datatypes.S c) =>
          match stoi w with
          | None => None
          | Some v => match put (rInt r) c v with None => None | Some l => readwords stof stoi (Datatypes.S k) ws perm (Raw (rCt r) l) end
          end
      end
  end.
Definition readmeasline2 stof stoi (s : text) (ct : option R) (perm : list nat) (n_max : nat) : option raw :=
  readwords stof stoi 0 (firstn n_max (mysplit s)) perm (Raw ct [0; 0; 0; 0]%Z).
(** vaxions.cpp:932-960: the loop over lines. [None]: also the use of a time never set. *)
Fixpoint readlines stof stoi (ct : option R) (perm : list nat) (n : nat) (ls : list text) : option (list (R * list Z)) :=
  match ls with
  | [] => Some []
  | s :: ls =>
      match readmeasline2 stof stoi s ct perm n with
      | Some (Raw (Some t) l) => match readlines stof stoi (Some t) perm n ls with None => None | Some es => Some ((t, l) :: es) end
      | _ => None
      end
  end.
(** vaxions.cpp:912-960: the header, or the old form of two columns, where the file is read again from the start. *)
Definition readfile (stof : text -> option R) (stoi : text -> option Z) (file : text) : option (list (R * list Z)) :=
  let ls := getlines [] file in
  match readheader 0 (mysplit (hd [] ls)) [0; 1; 2; 3; 4] with
  | None => None
  | Some (0, perm) => readlines stof stoi None perm 2 ls
  | Some (n, perm) => readlines stof stoi None perm n (tl ls)
  end.
(** vaxions.cpp:937-945: a negative kind asks for the default. *)
Definition lineOf (e : R * list Z) : line :=
  let v k := nth k (snd e) 0%Z in
  LineOf (fst e) (if (v 0%nat <? 0)%Z then None else Some (Z.to_N (v 0%nat))) (Z.to_N (v 1%nat)) (Z.to_N (v 2%nat)) (Z.to_N (v 3%nat)).
