(** Model of the first pass over the command line (lib/utils/parse.cpp:521-655, parseDims), which sets what the start of the run needs (lib/utils/misc.cpp:10-20).

    [num]: atoi; [scan]: what sscanf reads with %d, [None] if it reads nothing and leaves the variable as it was. Both are arbitrary functions of the word.
    The words printed on the screen are left out, but not the choice of :649, which reads four flags. *)
From Coq Require Import String List ZArith Bool.
Import ListNotations.
Local Open Scope string_scope.

(** include/enum-field.h:443-449 *)
Inductive verbosity := Silent | Normal | High | Paranoid.
Inductive device := Cpu | Gpu.
(** parse.cpp:18, 143 and the other defaults; [d_args] is procArgs (:524); the flags of :523, of which only the last is set at the start. *)
Record dims := { d_zGrid : Z; d_dev : device; d_zeroRank : bool; d_verb : verbosity; d_args : nat;
                 d_brank : option bool; d_bcdev : option bool; d_blog : option bool; d_bverb : option bool }.
(** How the pass ends: with exit, by reading a variable never set, or with the values *)
Inductive dout := DExit (code : Z) | DUnset | DDone (d : dims).

(** parse.cpp:609-611: [VERB_HIGH] is 2, [VERB_PARANOID] 3, [VERB_SILENT] 0 *)
Definition setVerb (mocho : Z) (v : verbosity) : verbosity :=
  let v := if (mocho >? 2)%Z then High else v in
  let v := if (mocho >? 3)%Z then Paranoid else v in
  if (mocho <? 0)%Z then Silent else v.

(** parse.cpp:531-646. [DUnset] for :607 if nothing is read. *)
Fixpoint dloop (num : string -> Z) (scan : string -> option Z) (argv : list string) (d : dims) {struct argv} : dout :=
  match argv with
  | [] => DDone d
  | a :: rest =>
    if String.eqb a "--zgrid" then
      match rest with
      | [] => DExit 1
      | x :: rest' =>
        if (num x <? 1)%Z then DExit 1
        else dloop num scan rest' {| d_zGrid := num x; d_dev := d_dev d; d_zeroRank := d_zeroRank d; d_verb := d_verb d; d_args := S (d_args d);
               d_brank := Some true; d_bcdev := d_bcdev d; d_blog := d_blog d; d_bverb := d_bverb d |}
      end
    else if String.eqb a "--device" then
      match rest with
      | [] => DExit 1
      | x :: rest' =>
        let go c := dloop num scan rest' {| d_zGrid := d_zGrid d; d_dev := c; d_zeroRank := d_zeroRank d; d_verb := d_verb d; d_args := S (d_args d);
               d_brank := d_brank d; d_bcdev := Some true; d_blog := d_blog d; d_bverb := d_bverb d |} in
        if String.eqb x "cpu" then go Cpu else if String.eqb x "gpu" then go Gpu else DExit 1
      end
    else if String.eqb a "--nologmpi" then
      dloop num scan rest {| d_zGrid := d_zGrid d; d_dev := d_dev d; d_zeroRank := true; d_verb := d_verb d; d_args := S (d_args d);
               d_brank := d_brank d; d_bcdev := d_bcdev d; d_blog := Some true; d_bverb := d_bverb d |}
    else if String.eqb a "--verbose" then
      match rest with
      | [] => DExit 1
      | x :: rest' =>
        match scan x with
        | None => DUnset
        | Some m => dloop num scan rest' {| d_zGrid := d_zGrid d; d_dev := d_dev d; d_zeroRank := d_zeroRank d; d_verb := setVerb m (d_verb d); d_args := S (d_args d);
               d_brank := d_brank d; d_bcdev := d_bcdev d; d_blog := d_blog d; d_bverb := Some true |}
        end
      end
    else if String.eqb a "--help" || String.eqb a "--icinfo" || String.eqb a "--gravinfo" || String.eqb a "--measinfo" then DExit 0
    else dloop num scan rest d
  end.

(** parse.cpp:649: whether it reads a flag never set; the operator stops at the first flag that is false. *)
Fixpoint readFlags (l : list (option bool)) : bool :=
  match l with
  | [] => false
  | None :: _ => true
  | Some false :: _ => false
  | Some true :: l' => readFlags l'
  end.
(** parse.cpp:521-655: the values, and whether the last message was chosen with a flag never set. The arguments are those after the name of the program. *)
Definition dims0 (dev : device) : dims :=
  {| d_zGrid := 1; d_dev := dev; d_zeroRank := false; d_verb := Normal; d_args := 0;
     d_brank := None; d_bcdev := None; d_blog := None; d_bverb := Some false |}.
Definition parseDims (num : string -> Z) (scan : string -> option Z) (dev : device) (argv : list string) : dout * bool :=
  match dloop num scan argv (dims0 dev) with
  | DDone d => (DDone d, readFlags [d_brank d; d_bcdev d; d_blog d; d_bverb d])
  | o => (o, false)
  end.
