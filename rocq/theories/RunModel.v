(** Model of the main program, test/vaxions.cpp: the measurements it makes, when, with which number and what is asked of
    them; the switch to the axion; the end of the run; what it does when told to stop.

    A field is of any type; what the library does to it is an argument. Times are real numbers. Left out: the axiton tracker,
    the text of the log, the transfer to a GPU, the timers. *)
From Coq Require Import Reals List Arith NArith Bool Lia.
Import ListNotations.
Local Open Scope R_scope.

(** The library as the program sees it: conformal time, one step, the step size, the number of strings, whether the field is a
    saxion, the change to the axion, and the transport of WKB to a time. *)
Record lib (S : Type) := Lib {
  zOf : S -> R; stepBy : S -> R -> S; dzSize : S -> R; strings : S -> nat; isSax : S -> bool; isAxion : S -> bool;
  toTheta : S -> S; wkbTo : S -> R -> S; doom : S -> R }.
Arguments zOf {S}. Arguments stepBy {S}. Arguments dzSize {S}. Arguments strings {S}. Arguments isSax {S}. Arguments isAxion {S}.
Arguments toTheta {S}. Arguments wkbTo {S}. Arguments doom {S}.

(** What is asked of a measurement, include/enum-field.h: bits. *)
Record info := Info { iMeas : N; iMap : N; iMask : N; iNrt : N }.
Definition withMeas (m : N) (i : info) : info := Info m (iMap i) (iMask i) (iNrt i).
Definition MEAS_3DMAP : N := 4096%N.
Definition MEAS_ENERGY3DMAP : N := 512%N.
Definition MEAS_REDENE3DMAP : N := 1024%N.
Definition MEAS_NNSPEC : N := 262144%N.

(** A line of the list of measurements (MeasFileParms). *)
Record entry := Entry { eCt : R; eInfo : info }.

Inductive dumpType := EveryN | FromList (l : list entry).

(** The options; flags of printconf one by one. *)
Record opts := Opts {
  oDump : dumpType; oEvery : nat; oSteps : nat; oAdapt : bool; oZInit : R; oZFinl : R;
  oSwitch : bool; oSafest : nat; oSaxNoise : bool; oRho2Theta : N; oDen : info; oDefault : N;
  oInitial : bool; oPre : bool; oPost : bool; oFinal : bool; oWkb : bool; oConFinal : bool; oConFinalWkb : bool;
  oEndRed : bool; oEndRedWkb : bool; oDwGamma : R; oWkb2z : R }.

(** The final time: vaxions.cpp:980 takes that of the last line of the list. *)
Definition zEnd (o : opts) : R :=
  match oDump o with FromList l => eCt (last l (Entry (oZFinl o) (oDen o))) | EveryN => oZFinl o end.

(** The place of the program a measurement was made at. *)
Inductive tag := First | Sched | Pre | Post | Final | Wkb.
Record made {S} := Made { mTag : tag; mIndex : nat; mInfo : info; mField : S; mStep : nat }.
Arguments made : clear implicits. Arguments Made {S}.

(** The variables of the loop. *)
Record loop {S} := Loop {
  fs : S; iM : nat; now : bool; index : nat; inf : info; dflt : N; strD : nat; strC : nat; coD : bool; damped : nat;
  out : list (made S) }.
Arguments loop : clear implicits. Arguments Loop {S}.

(** What a turn of the loop ends with. Fault: an element beyond the list is read or a number is divided by 0. *)
Inductive ending := ERestart (n : nat) | EAbort.
Inductive outcome {S} := Fault | Next (s : loop S) | Break (s : loop S) | Exit (e : ending) (s : loop S).
Arguments outcome : clear implicits. Arguments Fault {S}. Arguments Next {S}. Arguments Break {S}. Arguments Exit {S}.

(** vaxions.cpp: lm = Measureme (axion, ninfa), index++. The number of strings of a saxion is always found, as
    measa.cpp:428 asks for it whatever the bits (precedence); 0 without (measa.cpp:56). *)
Definition measure {S} (L : lib S) (t : tag) (iz : nat) (i : info) (s : loop S) : loop S :=
  Loop (fs s) (iM s) (now s) (index s + 1) i (dflt s) (if isSax L (fs s) then strings L (fs s) else 0) (strC s) (coD s) (damped s)
       (out s ++ [Made t (index s) i (fs s) iz]).

(** vaxions.cpp:264-307: the decision about measuring, and the length of the step. *)
Fixpoint passed (z : R) (l : list entry) : nat :=
  match l with [] => 0 | e :: l => ((if Rlt_dec (eCt e) z then 1 else 0) + passed z l)%nat end.
Definition decide {S} (L : lib S) (o : opts) (iz : nat) (s : loop S) : option (R * loop S) :=
  let z := zOf L (fs s) in
  let dz := if oAdapt o then dzSize L (fs s) else (zEnd o - oZInit o) / INR (oSteps o) in
  match oDump o with
  | EveryN =>
      if (oEvery o =? 0)%nat then None else
      Some (dz, if (iz mod oEvery o =? 0)%nat
                then Loop (fs s) (iM s) true (index s) (inf s) (dflt s) (strD s) (strC s) (coD s) (damped s) (out s) else s)
  | FromList l =>
      match nth_error l (iM s) with
      | None => None
      | Some e =>
          let i := (if Rlt_dec (eCt e) z then iM s + passed z (skipn (iM s) l) else iM s)%nat in
          match nth_error l i with
          | None => None
          | Some e =>
              let s := Loop (fs s) i (now s) (index s) (inf s) (dflt s) (strD s) (strC s) (coD s) (damped s) (out s) in
              if Rle_dec (eCt e) (z + dz) then
                if Rlt_dec z (eCt e) then
                  Some (eCt e - z, Loop (fs s) i (negb (i =? length l - 1)%nat) (index s) (eInfo e) (iMeas (eInfo e))
                                        (strD s) (strC s) (coD s) (damped s) (out s))
                else Some (dz, s)
              else Some (dz, s)
          end
      end
  end.

(** vaxions.cpp:318-386: the checks of a saxion. *)
Definition checks {S} (L : lib S) (o : opts) (zdoom : R) (iz : nat) (s : loop S) : loop S :=
  if isSax L (fs s) && oSwitch o then
    let d := if (strD s <? 1000)%nat then strings L (fs s) else strD s in
    let damp := if Rlt_dec 0 zdoom then if Rlt_dec (zdoom * 0.95) (zOf L (fs s)) then if Rlt_dec 0 (oDwGamma o) then coD s else false else false else false in
    let s := Loop (fs s) (iM s) (now s) (index s) (inf s) (dflt s) d (if (d =? 0)%nat then strC s + 1 else strC s)
                  (coD s && negb damp) (if damp then damped s + 1 else damped s)%nat (out s) in
    if oSaxNoise o then s else
    if (d =? 0)%nat && (oSafest o <? strC s)%nat then
      let m := if oPre o then N.lor (oRho2Theta o) MEAS_3DMAP else oRho2Theta o in
      let s := measure L Pre iz (Info m (iMap (oDen o)) (iMask (oDen o)) (iNrt (inf s))) s in
      let m := if oPre o then N.lxor m MEAS_3DMAP else m in
      let s := Loop (toTheta L (fs s)) (iM s) (now s) (index s) (inf s) (dflt s) (strD s) (strC s) (coD s) (damped s) (out s) in
      measure L Post iz (withMeas (if oPost o then N.lor m MEAS_3DMAP else m) (inf s)) s
    else s
  else s.

(** vaxions.cpp:645-746 checkTime: what a rank sees, and what all the ranks do. *)
Definition flagOf (late stop abort save : bool) : nat :=
  if save then 4 else if abort then 3 else if stop then 2 else if late then 1 else 0.
Fixpoint verdict (flags : list nat) : nat :=
  match flags with [] => 0 | f :: l => if (0 <? f)%nat then f else verdict l end.

(** vaxions.cpp:252-424: a turn of the loop. [flags]: what the ranks see at its end. *)
Definition turn {S} (L : lib S) (o : opts) (zdoom : R) (flags : list nat) (iz : nat) (s : loop S) : outcome S :=
  match decide L o iz s with
  | None => Fault
  | Some (dz, s) =>
    let s := Loop (stepBy L (fs s) dz) (iM s) (now s) (index s) (inf s) (dflt s) (strD s) (strC s) (coD s) (damped s) (out s) in
    let s := checks L o zdoom iz s in
    let z := zOf L (fs s) in
    let zF := zEnd o in
    if Rle_dec zF z then Break s else
    if Rlt_dec (Rabs (z - zF)) (/ 10 ^ 10) then Break s else
    let s := if now s then
               let s := measure L Sched iz (withMeas (dflt s) (inf s)) s in
               Loop (fs s) (iM s + 1) false (index s) (inf s) (dflt s) (strD s) (strC s) (coD s) (damped s) (out s)
             else s in
    match verdict flags with
    | 1 | 2 => Exit (ERestart (index s)) s
    | 3 => Exit EAbort s
    | _ => Next s
    end
  end.
Fixpoint turns {S} (L : lib S) (o : opts) (zdoom : R) (flags : nat -> list nat) (n iz : nat) (s : loop S) : outcome S :=
  match n with
  | O => Break s
  | Datatypes.S n => match turn L o zdoom (flags iz) iz s with Next s => turns L o zdoom flags n (iz + 1) s | x => x end
  end.

(** How the run begins: a new field, one read from the file of a number, or a restart, which takes its number from the file
    (readWrite.pHdf5.cpp:892-895). *)
Inductive begin := Fresh (n : nat) | FromFile (n : nat) | Restart (n : nat).
Definition starts (b : begin) : nat := match b with Fresh n | FromFile n | Restart n => n end.

(** vaxions.cpp:135-232: before the loop; [now] is false, 0 strings, damping to come. readmeasfile, :980-985, adds what the
    first line of the list asks; an empty list is read before its start. *)
Definition prepare {S} (L : lib S) (o : opts) (b : begin) (f : S) : option (loop S) :=
  let den := oDen o in
  match (match oDump o with
         | EveryN => Some den
         | FromList [] => None
         | FromList (e :: _) => Some (Info (N.lor (iMeas den) (iMeas (eInfo e))) (N.lor (iMap den) (iMap (eInfo e)))
                                           (N.lor (iMask den) (iMask (eInfo e))) (N.lor (iNrt den) (iNrt (eInfo e))))
         end) with
  | None => None
  | Some i =>
    let i := withMeas (N.lor (iMeas i) MEAS_NNSPEC) i in
    let s := Loop f 0 false (starts b) i (oDefault o) 0 0 true 0 [] in
    let s := match b with
             | Fresh _ => measure L First 0 (if oInitial o then withMeas (N.lor (iMeas i) MEAS_3DMAP) i else i) s
             | FromFile _ => measure L First 0 i s
             | Restart _ => s
             end in
    Some (match oDump o, b with
          | FromList (e :: _), (Fresh _ | FromFile _) =>
              if Rlt_dec (Rabs (1 - zOf L f / eCt e)) (1 / 10000)
              then Loop (fs s) 1 (now s) (index s) (inf s) (dflt s) (strD s) (strC s) (coD s) (damped s) (out s) else s
          | _, _ => s
          end)
  end.

(** vaxions.cpp:426-500: after the loop. *)
Definition finish {S} (L : lib S) (o : opts) (s : loop S) : loop S :=
  let red (b : bool) (m : N) := if b then N.lor m MEAS_REDENE3DMAP else m in
  let m := dflt s in
  let m := if oFinal o then N.lor m MEAS_3DMAP else m in
  let m := if oConFinal o then N.lor m MEAS_ENERGY3DMAP else m in
  let s := measure L Final 0 (withMeas (red (oEndRed o) m) (inf s)) s in
  if isAxion L (fs s) then
    if Rle_dec (zEnd o) (oWkb2z o) then
      let s := Loop (wkbTo L (fs s) (oWkb2z o)) (iM s) (now s) (index s) (inf s) (dflt s) (strD s) (strC s) (coD s) (damped s) (out s) in
      let m := dflt s in
      let m := if oWkb o then N.lor m MEAS_3DMAP else m in
      let m := if oConFinalWkb o then N.lor m MEAS_ENERGY3DMAP else m in
      measure L Wkb 0 (withMeas (red (oEndRedWkb o) (red (oEndRed o) m)) (inf s)) s
    else s
  else s.

(** The program. *)
Inductive run {S} := Crash | Stopped (e : ending) (s : loop S) | Done (s : loop S).
Arguments run : clear implicits. Arguments Crash {S}. Arguments Stopped {S}. Arguments Done {S}.
Definition program {S} (L : lib S) (o : opts) (flags : nat -> list nat) (b : begin) (f : S) : run S :=
  match prepare L o b f with
  | None => Crash
  | Some s =>
    match turns L o (doom L f) flags (oSteps o) 0 s with
    | Fault => Crash
    | Next s => Crash
    | Break s => Done (finish L o s)
    | Exit e s => Stopped e s
    end
  end.

(** *** The list of measurements *)

(** vaxions.cpp:932-960: lines read with their time; those before the field's are dropped. [none] asked of the measurement:
    the default. *)
Record line := LineOf { lCt : R; lMeas : option N; lMap : N; lMask : N; lNrt : N }.
Definition ofLine (o : opts) (l : line) : entry :=
  Entry (lCt l) (Info (match lMeas l with None => oDefault o | Some m => m end) (N.lor (lMap l) (iMap (oDen o)))
                      (N.lor (lMask l) (iMask (oDen o))) (N.lor (lNrt l) (iNrt (oDen o)))).
(** vaxions.cpp:962-975: equal neighbours, from the last: of the one dropped only the kind is kept. The loop goes down, so that
    what follows is already merged. *)
Fixpoint merge (l : list entry) : list entry :=
  match l with
  | [] => []
  | e :: l => match merge l with
              | [] => [e]
              | e' :: l' => if Req_EM_T (eCt e') (eCt e)
                            then Entry (eCt e) (Info (N.lor (iMeas (eInfo e)) (iMeas (eInfo e'))) (iMap (eInfo e)) (iMask (eInfo e)) (iNrt (eInfo e))) :: l'
                            else e :: e' :: l'
              end
  end.
Definition listOf (o : opts) (z : R) (ls : list line) : list entry :=
  merge (filter (fun e => if Rlt_dec (eCt e) z then false else true) (map (ofLine o) ls)).
