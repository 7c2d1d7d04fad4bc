(** Model of the histogram class: /repo/include/utils/binner.h. Values are exact rational
    numbers; infinities and NaN are not modelled. The filter has been applied to the
    data. *)
From Coq Require Import List Arith ZArith QArith Qround Qabs.
Import ListNotations.

Definition Qltb (a b : Q) : bool := if Qlt_le_dec a b then true else false.
Definition Qleb (a b : Q) : bool := Qle_bool a b.

(** binner.h:17-36: the members; [padded], [dataLen] are PaddedLength and DataLength *)
Record binner := Binner {
  bins : nat -> Q; maxVal : Q; minVal : Q; step : Q; baseVal : Q;
  padded : nat; dataLen : nat; setmaxmin : bool; unphysical : bool }.

(** binner.h:40-47 the constructor, and :78 setpad *)
Definition newBinner (pl dl : nat) : binner := Binner (fun _ => 0%Q) 0 0 0 0 pl dl false false.

(** binner.h:134 and 270: entry i is data, not padding. With PaddedLength below DataLength
    neither loop runs. *)
Definition isData (pl dl i : nat) : bool :=
  if pl =? dl then true else if dl <? pl then (i mod pl) <? dl else false.

(** binner.h:106-149, the loops of find on one rank. The reductions over threads combine
    maxima and minima and do not depend on the order; they are one pass here. *)
Definition rankMax (pl dl : nat) (l : list Q) : Q :=
  fold_left (fun car ic => let '(i, c) := ic in if isData pl dl i && Qltb car c then c else car)
    (combine (seq 1 (length l - 1)) (tl l)) (hd 0%Q l).
Definition rankMin (pl dl : nat) (l : list Q) : Q :=
  fold_left (fun cir ic => let '(i, c) := ic in if isData pl dl i && Qltb c cir then c else cir)
    (combine (seq 1 (length l - 1)) (tl l)) (hd 0%Q l).
(** MPI_Allreduce with MPI_MAX and MPI_MIN (:151-152) *)
Definition allMax (l : list Q) : Q := match l with [] => 0%Q | x :: l => fold_left (fun a c => if Qltb a c then c else a) l x end.
Definition allMin (l : list Q) : Q := match l with [] => 0%Q | x :: l => fold_left (fun a c => if Qltb c a then c else a) l x end.

(** binner.h:95-173 find; all ranks end with the same values. A rank without data
    returns before the collective calls; that case is excluded by the theorems. *)
Definition find (N : nat) (ranks : list (list Q)) (b : binner) : binner :=
  let mx := allMax (map (rankMax (padded b) (dataLen b)) ranks) in
  let mn := allMin (map (rankMin (padded b) (dataLen b)) ranks) in
  let st := ((mx - mn) / inject_Z (Z.of_nat N - 1))%Q in
  let close := Qltb (Qabs (mx - mn)) (1 # 10000000000) in
  Binner (if close then fun _ => mx else bins b) mx mn st (mn - st * (1 # 2)) (padded b) (dataLen b) true (close || unphysical b).

(** binner.h:230-247 and 273-290: the bin of a value *)
Definition assign (N : nat) (b : binner) (c : Q) : option nat :=
  if Qleb (minVal b) c && Qleb c (maxVal b) then
    if Qltb (Qabs (c - baseVal b)) (step b / 100) then Some 0%nat
    else
      let k := Qfloor ((c - baseVal b) / step b) in
      if (0 <=? k)%Z && (k <? Z.of_nat N)%Z then Some (Z.to_nat k) else None
  else None.

(** tBins: thread, bin *)
Definition upd (tb : nat -> nat -> nat) (t k : nat) : nat -> nat -> nat :=
  fun t' k' => if (t' =? t) && (k' =? k) then S (tb t' k') else tb t' k'.
(** the loop over the data of one rank; [th i] is the thread that does entry i *)
Definition countLoop (N : nat) (b : binner) (th : nat -> nat) (l : list Q) : nat -> nat -> nat :=
  fold_left (fun tb ic => let '(i, c) := ic in
    if isData (padded b) (dataLen b) i then
      match assign N b c with Some k => upd tb (th i) k | None => tb end
    else tb) (combine (seq 0 (length l)) l) (fun _ _ => 0%nat).
Definition nsum (l : list nat) : nat := fold_right plus 0%nat l.
Definition qsum (l : list Q) : Q := fold_right Qplus 0%Q l.
(** binner.h:220 and 260-261 *)
Definition totalSize (b : binner) (nRanks : nat) (l : list Q) : Q :=
  let n := (if padded b =? dataLen b then length l else (length l / padded b) * dataLen b)%nat in
  (inject_Z (Z.of_nat (n * nRanks)) * step b)%Q.
(** binner.h:252-255, 294-297: the bins of one rank, before the sum over ranks *)
Definition rankBins (N T : nat) (b : binner) (nRanks : nat) (th : nat -> nat) (l : list Q) : nat -> Q :=
  fun j => (bins b j + inject_Z (Z.of_nat (nsum (map (fun t => countLoop N b th l t j) (seq 0 T)))) / totalSize b nRanks l)%Q.

(** binner.h:180-318 run, on all ranks; T threads; [th r i] is the thread of entry i on
    rank r. *)
Definition run (N T : nat) (th : nat -> nat -> nat) (ranks : list (list Q)) (b : binner) : binner :=
  let b := if setmaxmin b then b else find N ranks b in
  if unphysical b then b
  else if Qltb (Qabs (maxVal b - minVal b)) (1 # 10000000000) then
    Binner (fun _ => maxVal b) (maxVal b) (minVal b) (step b) (baseVal b) (padded b) (dataLen b) (setmaxmin b) (unphysical b)
  else
    Binner (fun j => qsum (map (fun rl => rankBins N T b (length ranks) (th (fst rl)) (snd rl) j) (combine (seq 0 (length ranks)) ranks)))
      (maxVal b) (minVal b) (step b) (baseVal b) (padded b) (dataLen b) (setmaxmin b) (unphysical b).
