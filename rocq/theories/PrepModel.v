(** Model of lib/gen/prepropa.cpp and of its calls in genConf.cpp: the evolution of an initial condition from an earlier time up to
    the time of the start. Numbers are real numbers. A step of the propagator and the size of a step are arguments; measurements
    do not change the field (C96-C97 for what they do). *)
From Coq Require Import Reals Lra List Arith.
Local Open Scope R_scope.

Inductive lambdaT := Fixed | Z2.
(** The background, include/cosmos/cosmos.h: coupling, its exponent, damping; and the type kept by the field. *)
Record bg := Bg { lam : R; ltype : lambdaT; lz2e : R; gam : R }.
(** Initial conditions, IcData. *)
Record icd := Icd { zi : R; prepcoe : R; prelz2e : R; pregam : R; normcore : bool }.
(** The field: time, values and velocities at the sites (complex: two numbers), background. *)
Definition fld := nat -> R * R.
Record st := St { zz : R; fm : fld; fv : fld; bk : bg }.

(** cosmos.cpp:329-333 *)
Definition lambdaP (scale : R -> R) (b : bg) (ct : R) : R := lam b / Rpower (scale ct) (lz2e b).

(** prepropa.cpp:114-121, 125 *)
Definition preLambda (scale : R -> R) (c : icd) (b : bg) : R :=
  let rnow := scale (zi c) in
  let llp := match ltype b with Fixed => lam b | Z2 => lam b / Rpower rnow (lz2e b) end in
  llp * Rpower rnow (prelz2e c).
(** prepropa.cpp:125-128, 164-168: the background during the evolution. *)
Definition preBg (scale : R -> R) (c : icd) (b : bg) : bg :=
  Bg (preLambda scale c b) Z2 (prelz2e c) (if Rlt_dec 0 (pregam c) then pregam c else gam b).
(** prepropa.cpp:203-222: after; the damping is set to what it is. *)
Definition postBg (c : icd) (before now : bg) : bg :=
  Bg (lam before) (ltype before) (lz2e before) (if Rlt_dec 0 (pregam c) then gam now else gam now).
(** prepropa.cpp:133-136: the core is normalised, the velocity is the field, the field is scaled. *)
Definition scaled (k : R) (f : fld) : fld := fun j => (k * fst (f j), k * snd (f j)).
Definition toComoving (scale : R -> R) (core : st -> fld) (c : icd) (s : st) : st :=
  let m := if normcore c then core s else fm s in
  St (zz s) (scaled (scale (zz s)) m) m (bk s).

(** prepropa.cpp:175-195: the loop, with the length of the last step; at most n turns, None if it goes on. *)
Fixpoint evolve (step : st -> R -> st) (size : st -> R) (zi : R) (n : nat) (s : st) : option st :=
  if Rlt_dec (zz s) zi then
    match n with
    | O => None
    | S n => let dz := size s in
             evolve step size zi n (step s (if Rlt_dec zi (zz s + dz) then zi - zz s else dz))
    end
  else Some s.
(** genConf.cpp:407-417 (and :751-757, :843-850) and prepropa2 *)
Definition prepropa2 (scale : R -> R) (core : st -> fld) (step : st -> R -> st) (size : st -> R) (c : icd) (n : nat) (s : st) : option st :=
  let s := St (zz s / prepcoe c) (fm s) (fv s) (bk s) in
  let b := bk s in
  let s := St (zz s) (fm s) (fv s) (Bg (preLambda scale c b) Z2 (prelz2e c) (gam b)) in
  let s := toComoving scale core c s in
  let s := St (zz s) (fm s) (fv s) (preBg scale c b) in
  match evolve step size (zi c) n s with
  | None => None
  | Some s => Some (St (zz s) (fm s) (fv s) (postBg c b (bk s)))
  end.
(** genConf.cpp:784-791: the coupling at the earlier time the number of strings is taken for. *)
Definition preLambdaP (scale : R -> R) (c : icd) (b : bg) : R :=
  let rnow := scale (zi c) in let rpre := scale (zi c / prepcoe c) in
  let llp := match ltype b with Fixed => lam b | Z2 => lam b / Rpower rnow (lz2e b) end in
  llp / Rpower (rpre / rnow) (prelz2e c).

(** *** The older way: genConf.cpp:519-552 *)
(** prepropa.cpp:73-98, the loop; strings are counted before the step. *)
Fixpoint older (step : st -> R -> st) (size : st -> R) (density : st -> R) (zstop goal : R) (n : nat) (s : st) : option st :=
  if Rlt_dec (zz s) zstop then
    match n with
    | O => None
    | S n => let s' := step s (size s) in
             if Rlt_dec (density s) goal then Some s' else older step size density zstop goal n s'
    end
  else Some s.
(** genConf.cpp:524-550: back to the time asked for, z. *)
Definition travelBack (scale : R -> R) (z : R) (s : st) : st :=
  let rsave := / scale (zz s) in
  let ska := scale z * rsave in
  let k := rsave * (1 - ska) in
  St z (scaled ska (fm s)) (fun j => (ska * fst (fv s j) + k * fst (fm s j), ska * snd (fv s j) + k * snd (fm s j))) (bk s).
(** prepropa.cpp:226-249 findct2: the expected strings, and the loop. [goal], [ct], [msa], [delta] *)
Definition xit (l : R) : R := (249.48 + 38.8431 * l + 1086.06 * l * l) / (21775.3 + 3665.11 * l).
Definition nN3 (msa delta ct : R) : R := 6 * xit (ln (msa / delta * ct)) * (delta / ct) ^ 2.
Fixpoint findct2 (msa delta goal : R) (n : nat) (ct : R) : option R :=
  if Rlt_dec goal (nN3 msa delta ct) then match n with O => None | S n => findct2 msa delta goal n (ct + ct / 20) end else Some ct.
(** prepropa.cpp:283-309 relaxrho: the time is set back when it is past cta. *)
Fixpoint relax (step : st -> R -> st) (size : st -> R) (density : st -> R) (cta goal : R) (n : nat) (trala : R) (s : st) : option st :=
  if Rlt_dec goal trala then
    match n with
    | O => None
    | S n => let s' := step s (size s) in
             relax step size density cta goal n (density s) (if Rlt_dec cta (zz s') then St cta (fm s') (fv s') (bk s') else s')
    end
  else Some s.
