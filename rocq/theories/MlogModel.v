(** Model of the generator of a list of measurements (lib/utils/parse.cpp:193-251, createMeasLogList; option --measlistlog; :1726-1742, --dump).

    Real numbers for double. [fuel] bounds the passes of the loop: [None] means that it has not ended yet. The copy of each line on the screen and the type of measurement, the same in all lines, are left out; so is the rounding of the times to six decimals by the format of :233. *)
From Coq Require Import Reals List Arith.
Import ListNotations.
Local Open Scope R_scope.

(** The options that the generator reads (parse.cpp:16-60 and their defaults): [ml_fixed] is LAMBDA_FIXED, [ml_zi] is the value of --zi if it is given (uZin, zInit), [ml_dump] is the value of --dump, which is not negative (:1736). *)
Record mlopts := { ml_msa : R; ml_sizeL : R; ml_sizeN : R; ml_zFinl : R; ml_fixed : bool; ml_zi : option R; ml_dump : nat }.

(** What the program does: it refuses (:196-199), reads a variable that was never set (:237), or writes the times. All end in exit(0). *)
Inductive mlout := MlRefused | MlUnset | MlWrote (times : list R).

(** parse.cpp:206-215 *)
Definition ml_logf (o : mlopts) : R :=
  if ml_fixed o then ln (ml_msa o * ml_zFinl o * ml_zFinl o * ml_sizeN o / ml_sizeL o)
  else ln (ml_msa o * ml_zFinl o * ml_sizeN o / ml_sizeL o).
(** parse.cpp:203, 217-218 *)
Definition ml_z0 (o : mlopts) : R := match ml_zi o with Some z => z | None => 0 end.
(** parse.cpp:230-232 *)
Definition ml_zas (o : mlopts) (lo : R) : R :=
  let zas := exp lo * ml_sizeL o / ml_sizeN o / ml_msa o in
  if ml_fixed o then sqrt zas else zas.
(** parse.cpp:204, 229: the next value of lo. With --dump 0 the step is infinite: [None]. *)
Definition ml_next (o : mlopts) (lo : R) : option R :=
  if (ml_dump o =? 0)%nat then None else Some (lo + 1 / INR (ml_dump o)).
(** parse.cpp:229-235: the times written, and the last value of zas *)
Fixpoint ml_loop (fuel : nat) (o : mlopts) (lo : option R) (zas : option R) : option (list R * option R) :=
  match fuel with
  | O => None
  | S f =>
    match lo with
    | None => Some ([], zas)
    | Some x =>
      if Rlt_dec x (ml_logf o) then
        match ml_loop f o (ml_next o x) (Some (ml_zas o x)) with
        | Some (l, z) => Some (ml_zas o x :: l, z)
        | None => None
        end
      else Some ([], zas)
    end
  end.
(** parse.cpp:193-251; [found]: measfile.dat exists *)
Definition createMeasLogList (fuel : nat) (o : mlopts) (found : bool) : option mlout :=
  if found then Some MlRefused
  else
    match ml_loop fuel o (Some (ml_z0 o)) None with
    | None => None
    | Some (_, None) => Some MlUnset
    | Some (l, Some zas) => Some (MlWrote (if Req_EM_T zas (ml_zFinl o) then l else l ++ [ml_zFinl o]))
    end.
