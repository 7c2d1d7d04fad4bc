(** Model of the integrator schemes and of the step functions of the CPU
    propagators: /repo/include/propagator/propClass.h and
    /repo/lib/propagator/propagator.cpp. The field is an abstract value of type [X]
    (both m and v); the kernels are an arbitrary function of the parameters they
    are given. The alternation of the buffers m and m2, the regions and the ghost
    exchange are modelled in EvolveModel.v and not here. *)
From Coq Require Import Reals List Arith.
Import ListNotations.
Open Scope R_scope.

(** enum-field.h, PropStage. *)
Inductive propstage := PROP_NORMAL | PROP_FIRST | PROP_LAST.

(** propClass.h:41 template parameters, :53-54 the arrays c and d. *)
Record coeffs := Coeffs { nSt : nat; lastS : propstage; cc : list R; dd : list R }.

Definition isFirst (l : propstage) : bool := match l with PROP_FIRST => true | _ => false end.
Definition isLast (l : propstage) : bool := match l with PROP_LAST => true | _ => false end.
(** [if (lastStage)] is true for every enumerator but PROP_NORMAL = 0. *)
Definition isNotNormal (l : propstage) : bool := match l with PROP_NORMAL => false | _ => true end.

(** propClass.h:53-54 sizes of the arrays and :61-63 setCoeff, which fills them. *)
Definition setCoeff (n : nat) (l : propstage) (nC nD : list R) : coeffs :=
  Coeffs n l (firstn (n + if isLast l then 1 else 0) nC) (firstn (n + if isFirst l then 1 else 0) nD).

(** propagator.cpp:20-31 PropLeap. *)
Definition leap : coeffs := setCoeff 2 PROP_FIRST [0.5; 0.5] [0.25; 0.5; 0.25].
(** propagator.cpp:58-69 PropMLeap. *)
Definition mleap : coeffs := setCoeff 4 PROP_FIRST [0.25; 0.25; 0.25; 0.25] [0.125; 0.25; 0.25; 0.25; 0.125].
(** propagator.cpp:97-109 PropOmelyan2. *)
Definition om2 : coeffs :=
  let chi := 0.19318332750378360 in
  setCoeff 2 PROP_FIRST [0.5; 0.5] [chi; 1 - 2 * chi; chi].
(** propagator.cpp:137-159 PropOmelyan4. *)
Definition om4 : coeffs :=
  let xi := 0.1786178958448091 in
  let lb := - 0.2123418310626054 in
  let chi := - 0.06626458266981849 in
  setCoeff 4 PROP_FIRST [0.5 * (1 - 2 * lb); lb; lb; 0.5 * (1 - 2 * lb)]
                        [xi; chi; 1 - 2 * (xi + chi); chi; xi].
(** propagator.cpp:195-205 PropRKN4. *)
Definition rkn4 : coeffs :=
  setCoeff 4 PROP_NORMAL
    [0.1344961992774310892; - 0.2248198030794208058; 0.7563200005156682911; 0.3340036032863214255]
    [0.5153528374311229364; - 0.085782019412973646; 0.4415830236164665242; 0.1288461583653841854].

(** PropParms (enum-field.h): for each quantity that depends on time, the conformal
    time at which the stored value was computed, None if the field of the struct
    has not been written. The other fields are constants of the run. *)
Record parms := Parms {
  p_massA2 : option R; p_massA : option R; p_R : option R; p_Rpp : option R;
  p_lambda : option R; p_Rp : option R; p_ct : option R; p_n : option R }.
Definition noParms : parms := Parms None None None None None None None None.

Definition ld_massA2 t p := Parms (Some t) (p_massA p) (p_R p) (p_Rpp p) (p_lambda p) (p_Rp p) (p_ct p) (p_n p).
Definition ld_massA t p := Parms (p_massA2 p) (Some t) (p_R p) (p_Rpp p) (p_lambda p) (p_Rp p) (p_ct p) (p_n p).
Definition ld_R t p := Parms (p_massA2 p) (p_massA p) (Some t) (p_Rpp p) (p_lambda p) (p_Rp p) (p_ct p) (p_n p).
Definition ld_Rpp t p := Parms (p_massA2 p) (p_massA p) (p_R p) (Some t) (p_lambda p) (p_Rp p) (p_ct p) (p_n p).
Definition ld_lambda t p := Parms (p_massA2 p) (p_massA p) (p_R p) (p_Rpp p) (Some t) (p_Rp p) (p_ct p) (p_n p).
Definition ld_Rp t p := Parms (p_massA2 p) (p_massA p) (p_R p) (p_Rpp p) (p_lambda p) (Some t) (p_ct p) (p_n p).
Definition ld_ct t p := Parms (p_massA2 p) (p_massA p) (p_R p) (p_Rpp p) (p_lambda p) (p_Rp p) (Some t) (p_n p).
Definition ld_n t p := Parms (p_massA2 p) (p_massA p) (p_R p) (p_Rpp p) (p_lambda p) (p_Rp p) (p_ct p) (Some t).

(** The kernels a step calls. *)
Inductive kind :=
  | KSax        (* propagateKernelXeon: kick v, drift into the other buffer *)
  | KAx         (* propThetaKernelXeon *)
  | KLow        (* updateVXeon: kick only *)
  | KNax        (* propagateNaxKernelXeon *)
  | KPaxPot     (* propagatePaxKernelXeon<KIDI_POT> *)
  | KPaxMV      (* propagatePaxKernelXeon<KIDI_LAP>, sign 1: v from m *)
  | KPaxVM      (* the same with sign -1: m from v *)
  | KSpecS      (* sPropKernelXeon *)
  | KSpecT      (* sPropThetaKernelXeon *)
  | KFpecS      (* fsAccKernelXeon and fsPropKernelXeon *)
  | KFpecT.     (* fsAccKernelThetaXeon and fsPropKernelThetaXeon *)

Section Step.
Variable X : Type.
(** kernel, parameters, step size, kick and drift coefficients *)
Variable kern : kind -> parms -> R -> R -> R -> X -> X.
(** updateMXeon, updateMThetaXeon: step size, drift coefficient *)
Variable drift : R -> R -> X -> X.

(** State of a step: conformal time *z; the time at which updateR last computed the
    scale factor (scalarField.cpp:1170-1174); the local PropParms; the field; the
    list of kernel calls so far with the parameters and the time at the call. *)
Record st := St { s_z : R; s_Rz : R; s_par : parms; s_x : X; s_log : list (kind * parms * R) }.

Definition setPar (f : st -> parms -> parms) (s : st) : st := St (s_z s) (s_Rz s) (f s (s_par s)) (s_x s) (s_log s).
Definition call (k : kind) (dz c d : R) (s : st) : st :=
  St (s_z s) (s_Rz s) (s_par s) (kern k (s_par s) dz c d (s_x s)) (s_log s ++ [(k, s_par s, s_z s)]).
(** [*z += dz*d; axion->updateR();] *)
Definition advance (dz d : R) (s : st) : st :=
  St (s_z s + dz * d) (s_z s + dz * d) (s_par s) (s_x s) (s_log s).
Definition driftM (dz d : R) (s : st) : st :=
  St (s_z s) (s_Rz s) (s_par s) (drift dz d (s_x s)) (s_log s).

(** Array read with the bounds of the array: None is undefined behaviour. *)
Definition rd (l : list R) (i : nat) : option R := nth_error l i.
Definition bind {A B} (o : option A) (f : A -> option B) : option B :=
  match o with Some a => f a | None => None end.
Notation "x <- o ;; e" := (bind o (fun x => e)) (at level 61, o at next level, right associativity).

Definition loop (ss : list nat) (body : nat -> st -> option st) (s : st) : option st :=
  fold_left (fun o i => bind o (body i)) ss (Some s).
(** for (int s = 0; s < nStages; s += 2) and s++ *)
Definition by2 (n : nat) : list nat := map (fun i => (2 * i)%nat) (seq 0 ((n + 1) / 2)).
Definition by1 (n : nat) : list nat := seq 0 n.

(** The declaration [PropParms ppar;] leaves the struct unset. *)
Definition fresh (s : st) : st := setPar (fun _ _ => noParms) s.

(** propClass.h:663-671: first drift. *)
Definition firstDrift (co : coeffs) (dz : R) (s : st) : option st :=
  if isFirst (lastS co) then
    d0 <- rd (dd co) 0 ;;
    Some (advance dz d0 (driftM dz d0 s))
  else Some s.
(** cD = d or cD = &(d[1]) *)
Definition cD (co : coeffs) (i : nat) : option R := rd (dd co) (if isFirst (lastS co) then i + 1 else i)%nat.

(** propClass.h:646-731 sRunCpu. *)
Definition sLoad (s : st) (p : parms) : parms :=
  ld_Rp (s_z s) (ld_Rpp (s_z s) (ld_R (s_Rz s) (ld_massA2 (s_z s) (ld_lambda (s_z s) p)))).
Definition sRunCpu (co : coeffs) (dz : R) (s : st) : option st :=
  s <- firstDrift co dz (fresh s) ;;
  s <- loop (by2 (nSt co)) (fun i s =>
    let s := setPar sLoad s in
    c1 <- rd (cc co) i ;; c2 <- rd (cc co) (i + 1) ;; d1 <- cD co i ;; d2 <- cD co (i + 1) ;;
    let s := advance dz d1 (call KSax dz c1 d1 s) in
    let s := setPar sLoad s in
    Some (advance dz d2 (call KSax dz c2 d2 s))) s ;;
  if isLast (lastS co) then
    c0 <- rd (cc co) (nSt co) ;;
    Some (call KSax dz c0 0 (setPar sLoad s))
  else Some s.

(** propClass.h:496-578 tRunCpu. *)
Definition tLoad (s : st) (p : parms) : parms :=
  ld_Rpp (s_z s) (ld_R (s_Rz s) (ld_massA2 (s_z s) p)).
Definition tRunCpu (co : coeffs) (dz : R) (s : st) : option st :=
  let s := setPar tLoad (fresh s) in
  s <- firstDrift co dz s ;;
  let s := if isFirst (lastS co) then setPar (fun s p => ld_Rpp (s_z s) (ld_R (s_Rz s) p)) s else s in
  s <- loop (by2 (nSt co)) (fun i s =>
    c1 <- rd (cc co) i ;; c2 <- rd (cc co) (i + 1) ;; d1 <- cD co i ;; d2 <- cD co (i + 1) ;;
    let s := advance dz d1 (call KAx dz c1 d1 s) in
    let s := setPar tLoad s in
    Some (advance dz d2 (call KAx dz c2 d2 s))) s ;;
  if isLast (lastS co) then
    c0 <- rd (cc co) (nSt co) ;;
    Some (call KAx dz c0 0 (setPar (fun s p => ld_Rpp (s_z s) (ld_R (s_Rz s) (ld_massA (s_z s) p))) s))
  else Some s.

(** propClass.h:739-793 lowCpu. *)
Definition lowLoad (s : st) (p : parms) : parms :=
  ld_Rpp (s_z s) (ld_R (s_Rz s) (ld_massA2 (s_z s) (ld_lambda (s_z s) p))).
Definition lowCpu (co : coeffs) (dz : R) (s : st) : option st :=
  s <- loop (by1 (nSt co)) (fun i s =>
    let s := setPar lowLoad s in
    c0 <- rd (cc co) i ;; d0 <- rd (dd co) i ;;
    Some (advance dz d0 (call KLow dz c0 0 s))) (fresh s) ;;
  if isNotNormal (lastS co) then
    c0 <- rd (cc co) (nSt co) ;;
    Some (call KLow dz c0 0 (setPar lowLoad s))
  else Some s.

(** propClass.h:1011-1070 nRunCpu. *)
Definition nLoad (s : st) (p : parms) : parms :=
  ld_massA (s_z s) (ld_R (s_Rz s) (ld_ct (s_z s) p)).
Definition nRunCpu (co : coeffs) (dz : R) (s : st) : option st :=
  s <- loop (by2 (nSt co)) (fun i s =>
    c1 <- rd (cc co) i ;; c2 <- rd (cc co) (i + 1) ;; d1 <- rd (dd co) i ;; d2 <- rd (dd co) (i + 1) ;;
    let s := advance dz d1 (call KNax dz c1 d1 (setPar nLoad s)) in
    Some (advance dz d2 (call KNax dz c2 d2 (setPar nLoad s)))) (fresh s) ;;
  if isNotNormal (lastS co) then
    c0 <- rd (cc co) (nSt co) ;;
    Some (call KNax dz c0 0 (setPar nLoad s))
  else Some s.

(** propClass.h:1079-1169 pRunCpu (with gravity the same calls are made, preceded by
    calculateGraviPotential). The two halves are kicks with dz*c and dz*d. *)
Definition pLoad (s : st) (p : parms) : parms :=
  ld_massA (s_z s) (ld_n (s_z s) (ld_R (s_Rz s) (ld_ct (s_z s) p))).
Definition pRunCpu (co : coeffs) (dz : R) (s : st) : option st :=
  let s := call KPaxPot dz 0.5 0 (setPar pLoad (fresh s)) in
  s <- loop (by1 (nSt co)) (fun i s =>
    c1 <- rd (cc co) i ;; d1 <- rd (dd co) i ;;
    let s := call KPaxMV dz c1 0 (setPar pLoad s) in
    let s := call KPaxVM dz 0 d1 (setPar pLoad s) in
    Some (advance dz d1 s)) s ;;
  s <- (if isNotNormal (lastS co) then
      c0 <- rd (cc co) (nSt co) ;;
      Some (call KPaxMV dz c0 0 (setPar pLoad s))
    else Some s) ;;
  Some (call KPaxPot dz 0.5 0 (setPar pLoad s)).

(** propClass.h:800-857 sSpecCpu. *)
Definition sSpecCpu (co : coeffs) (dz : R) (s : st) : option st :=
  s <- loop (by1 (nSt co)) (fun i s =>
    c0 <- rd (cc co) i ;; d0 <- rd (dd co) i ;;
    Some (advance dz d0 (call KSpecS dz c0 d0 (setPar lowLoad s)))) (fresh s) ;;
  if isNotNormal (lastS co) then
    c0 <- rd (cc co) (nSt co) ;;
    Some (call KSpecS dz c0 0 (setPar lowLoad s))
  else Some s.

(** propClass.h:582-636 tSpecCpu: the mass is read at the start of the stage, the
    scale factor through the pointer R. *)
Definition tSpecCpu (co : coeffs) (dz : R) (s : st) : option st :=
  let load := fun s p => ld_R (s_Rz s) (ld_massA2 (s_z s) p) in
  s <- loop (by1 (nSt co)) (fun i s =>
    c0 <- rd (cc co) i ;; d0 <- rd (dd co) i ;;
    Some (advance dz d0 (call KSpecT dz c0 d0 (setPar load s)))) (fresh s) ;;
  if isNotNormal (lastS co) then
    c0 <- rd (cc co) (nSt co) ;;
    Some (call KSpecT dz c0 0 (setPar load s))
  else Some s.

(** propClass.h:862-930 sFpecCpu: the odd stage only logs a warning. *)
Definition sFpecCpu (co : coeffs) (dz : R) (s : st) : option st :=
  let load := fun s p => ld_lambda (s_z s) (ld_R (s_Rz s) (ld_massA2 (s_z s) p)) in
  loop (by1 (nSt co)) (fun i s =>
    c0 <- rd (cc co) i ;; d0 <- rd (dd co) i ;;
    Some (advance dz d0 (call KFpecS dz c0 d0 (setPar load s)))) (fresh s).

(** propClass.h:936-1003 tFpecCpu. *)
Definition tFpecCpu (co : coeffs) (dz : R) (s : st) : option st :=
  let load := fun s p => ld_Rpp (s_z s) (ld_R (s_Rz s) (ld_ct (s_z s) (ld_massA2 (s_z s) p))) in
  loop (by1 (nSt co)) (fun i s =>
    c0 <- rd (cc co) i ;; d0 <- rd (dd co) i ;;
    Some (advance dz d0 (call KFpecT dz c0 d0 (setPar load s)))) (fresh s).

(** The step a PropClass object runs, chosen by field type, memory mode and
    propagator class: propClass.h:94-186. *)
Inductive runner := SRun | TRun | Low | NRun | PRun | SSpec | TSpec | SFpec | TFpec.
Definition step (r : runner) : coeffs -> R -> st -> option st :=
  match r with
  | SRun => sRunCpu | TRun => tRunCpu | Low => lowCpu | NRun => nRunCpu | PRun => pRunCpu
  | SSpec => sSpecCpu | TSpec => tSpecCpu | SFpec => sFpecCpu | TFpec => tFpecCpu
  end.
End Step.
