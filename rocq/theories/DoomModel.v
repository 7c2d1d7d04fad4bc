(** Model of the search for the time at which domain walls destroy the strings (test/vaxions.cpp:590-642, findzdoom).

    [D]: 40 times the axion mass squared over twice lambda, as a function of the conformal time (:597, 600, 634); [z]: the time now. Exact arithmetic.
    Undefined: a logarithm or a power of a number that is not above 0, or a division by 0, where the doubles go on with an infinity or with what is not a number.
    The passes of the loop are counted, More: not ended yet. *)
From Coq Require Import Reals.
Local Open Scope R_scope.

Inductive doom := At (ct : R) | Never | NoMass | Undefined | More.
Fixpoint loop (D : R -> R) (z D0 : R) (n : nat) (ct ct2 : R) : doom :=
  (** :605 *)
  if Rlt_dec 0.001 (Rabs (D ct2 - 1)) then
    match n with
    | O => More
    | S n' =>
      if Rlt_dec 0 (D ct) then if Rlt_dec 0 (D ct2) then if Rlt_dec 0 ct then if Rlt_dec 0 ct2 then if Req_EM_T ct ct2 then Undefined else
        (** :615-616 *)
        let a := ln (D ct2 / D ct) / ln (ct2 / ct) in
        let k := D ct2 / Rpower ct2 a in
        if Req_EM_T a 0 then
          if Rlt_dec D0 (D ct2) then
            (** :618-628 *)
            if Rlt_dec 1 (D ct2) then loop D z D0 n' ct2 (sqrt (z * ct2)) else Never
          else Undefined
        else loop D z D0 n' ct2 (Rpower k (- 1 / a))
      else Undefined else Undefined else Undefined else Undefined
    end
  else At ct2.
(** :590-604, 639-641 *)
Definition findzdoom (D : R -> R) (frw indi3 z : R) (n : nat) : doom :=
  if Rlt_dec 0 indi3 then if Rlt_dec 0 frw then loop D z (D z) n z (z * 1.1) else NoMass else NoMass.
