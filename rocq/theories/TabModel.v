(** Model of /repo/lib/cosmos/cosmos.cpp: the cosmology read from a table. Exact arithmetic.
    None: an assertion of spline.h fails, a quotient is no number, or the search has not
    ended. *)
From Coq Require Import Reals List Arith ZArith Bool.
From Verif Require Import SplineModel.
Import ListNotations.
Open Scope R_scope.

(** :54: one line of the table. *)
Record row := Row { rEta : R; rR : R; rT : R; rRpp : R; rChi : R; rPf : R }.
(** :54-71: the lines kept. [ended]: the file has a character after its last number. When it
    has none, reading the last line meets the end of the file and the line is dropped. *)
Definition readRows (ended : bool) (lines : list row) : list row := if ended then lines else removelast lines.
(** :94, :96: std::log10; :118: pow(10., x). *)
Definition log10 (x : R) : R := ln x / ln 10.
Definition pow10 (x : R) : R := exp (x * ln 10).
(** :93: for (int i; i < etav.size(); i++) with no initial value. [i0] is what i holds. A
    negative int, compared with a size_t, is not smaller. *)
Definition fromStart {A : Type} (i0 : Z) (l : list A) : list A := if (i0 <? 0)%Z then [] else skipn (Z.to_nat i0) l.
(** :135-139 *)
Definition divideFrom (i0 : Z) (u : R) (l : list R) : list R :=
  if (i0 <? 0)%Z then l else firstn (Z.to_nat i0) l ++ map (fun t => t / u) (skipn (Z.to_nat i0) l).
(** :104-116. [fuel] iterations; the loop has no bound. *)
Fixpoint search (fuel : nat) (s : spl) (lfA leta0 leta2 lfA0 lfA2 : R) : option R :=
  match fuel with
  | 0%nat => None
  | S fuel' =>
      if Req_EM_T (leta2 - leta0) 0 then None
      else let lslo := (lfA2 - lfA0) / (leta2 - leta0) in
      if Req_EM_T lslo 0 then None
      else let leta1 := leta0 + (lfA - lfA0) / lslo in
      let lfA1 := eval s leta1 in
      if Req_EM_T lfA 0 then None
      else let errr := 1 - lfA1 / lfA in
      if Rle_dec (Rabs errr) 0.00001 then Some leta1
      else if Rlt_dec (Rabs (lfA2 - lfA)) (Rabs (Rabs (lfA0 - lfA))) then search fuel' s lfA leta1 leta2 lfA1 lfA2
      else search fuel' s lfA leta0 leta1 lfA0 lfA1
  end.
(** :32 of cosmos.h: the four curves. *)
Record tab := Tab { tR : spl; tT : spl; tRpp : spl; tChi : spl }.
(** set_points on an object with the default ends; every call here is cubic, so that what the
    object held before is not read. *)
Definition curve (xs ys : list R) : option spl := setPoints (Curvature 0) (Curvature 0) false (fun _ => 0) true xs ys.
(** front(), back() *)
Definition front (l : list R) : R := nth 0 l 0.
Definition back (l : list R) : R := nth (length l - 1) l 0.
(** log10 gives a number. *)
Fixpoint allPositive (l : list R) : bool :=
  match l with [] => true | a :: t => (if Rlt_dec 0 a then true else false) && allPositive t end.
(** :86-127: the unit of time, and what R and chi are there. *)
Definition findUnit (i1 : Z) (fuel : nat) (rows : list row) (fA : R) : option (R * R * R) :=
  let etav := map rEta rows in
  let pfv := map rPf rows in
  let letav := fromStart i1 (map log10 etav) in
  if negb (allPositive (fA :: etav)) then None
  else match curve letav pfv with
  | None => None
  | Some s =>
      match search fuel s (log10 fA) (front letav) (back letav) (front pfv) (back pfv) with
      | None => None
      | Some leta1 =>
          let eta1 := pow10 leta1 in
          match curve etav (map rR rows), curve etav (map rChi rows) with
          | Some sr, Some sc => Some (eta1, eval sr eta1, eval sc eta1)
          | _, _ => None
          end
      end
  end.
(** :84-145 *)
Definition setup (i1 i2 : Z) (fuel : nat) (rows : list row) (fA : R) : option tab :=
  match findUnit i1 fuel rows fA with
  | None => None
  | Some (eta1, r1, chi1) =>
      if Req_EM_T r1 0 then None else if Req_EM_T chi1 0 then None
      else
        let etav := divideFrom i2 eta1 (map rEta rows) in
        match curve etav (divideFrom i2 r1 (map rR rows)), curve etav (map rT rows), curve etav (map rRpp rows), curve etav (divideFrom i2 chi1 (map rChi rows)) with
        | Some a, Some b, Some c, Some d => Some (Tab a b c d)
        | _, _, _, _ => None
        end
  end.
(** :208-221, :223-227, :171-174 and :229-235 with ueCosm *)
Definition tabR (t : tab) (ct : R) : R := eval (tR t) ct.
Definition tabT (t : tab) (ct : R) : R := eval (tT t) ct.
Definition tabMass2 (t : tab) (ct : R) : R := eval (tChi t) ct.
(** :176-180 *)
Definition tabRpp (t : tab) (ct : R) : R := eval (tRpp t) ct / (ct * ct).
(** :192-197 *)
Definition tabRp (t : tab) (ct : R) : R := (tabR t (ct + 0.001) - tabR t (ct - 0.001)) / (0.002 * tabR t ct).
(** :267-269 *)
Definition tabDMass2 (t : tab) (ct : R) : R := (tabMass2 t (ct + 0.000001) - tabMass2 t (ct - 0.000001)) / 0.000002.
(** :297-300: ct multiplies the first product only. *)
Definition tabDlog (t : tab) (ct : R) : R :=
  let e := 0.000001 in
  (ct * sqrt (tabMass2 t (ct + e)) * tabR t (ct + e) - sqrt (tabMass2 t (ct - e)) * tabR t (ct - e)) / (2 * e * sqrt (tabMass2 t ct) * tabR t ct).
