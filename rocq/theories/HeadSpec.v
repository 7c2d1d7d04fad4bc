(** What the physics of a continued run should be: what the command line asks for, else what was saved. *)
From Coq Require Import NArith QArith List Bool.
From Verif Require Import FlagModel HeadModel.
Import ListNotations.
Local Open Scope Q_scope.

(** The last option that gives a value of the kind [f] reads *)
Definition asked {X} (f : copt -> option X) (l : list copt) : option X :=
  fold_left (fun a o => match f o with Some x => Some x | None => a end) l None.
Definition orSaved {X} (o : option X) (saved : X) : X := match o with Some x => x | None => saved end.

Definition oSize o := match o with OSize x => Some x | _ => None end.
Definition oLambda o := match o with OLambda x => Some x | _ => None end.
Definition oI3 o := match o with OInd3 x => Some x | OQcd0 => Some 0 | _ => None end.
Definition oGamma o := match o with OGam x | OGamAll x => Some x | _ => None end.
Definition oDec o := match o with ODectime x => Some x | _ => None end.
Definition oNQcd o := match o with OQcdExp x => Some x | _ => None end.
Definition oRc o := match o with OZth x => Some x | _ => None end.
Definition oRcOff o := match o with OZrs x => Some x | _ => None end.
(** does an option say something about the potential? *)
Definition saysPot o : bool :=
  match o with
  | OQcdC | OQcdV | OQcdL | OQcd0 | OQcdN2 | OPq _ | OOnlyRho | OOnlyTheta | OGam _ | ODectime _ | OGamAll _ => true
  | _ => false
  end.
Definition oQcd o : option qcdPot :=
  match o with
  | OQcdC => Some QCDC | OQcdV => Some QCDV | OQcdL => Some QCDL | OQcd0 => Some QCD0 | OQcdN2 => Some QCD2
  | OInd3 x => if Qeq_bool x 0 then Some QCD0 else None
  | _ => None
  end.
Definition oPq o : option pqPot := match o with OPq p => Some p | _ => None end.
(** only rho (true) or only theta (false) *)
Definition oEvol o : option bool := match o with OOnlyRho => Some true | OOnlyTheta => Some false | _ => None end.
(** damping of rho (true) or of all (false) *)
Definition oDamp o : option bool := match o with OGam _ | ODectime _ => Some true | OGamAll _ => Some false | _ => None end.
Definition isSome (b : bool) (o : option bool) : bool := match o with Some x => Bool.eqb x b | None => false end.

(** The potential of a fresh run *)
Definition askedPot (l : list copt) : potChoice :=
  mkPot (Some (orSaved (asked oQcd l) QCD1)) (Some (orSaved (asked oPq l) PQ1))
        (isSome false (asked oEvol l)) (isSome true (asked oEvol l)) (isSome true (asked oDamp l)) (isSome false (asked oDamp l)).
