(** What a cosmology from a table is. *)
From Coq Require Import Reals List Arith.
From Verif Require Import SplineModel SplineSpec TabModel.
Import ListNotations.
Open Scope R_scope.

(** The smooth curve through a column of the table, with no curvature at the ends. *)
Definition columnCurve (rows : list row) (f : row -> R) (s : spl) : Prop :=
  setPoints natural natural false (fun _ => 0) true (map rEta rows) (map f rows) = Some s.
(** The same against the logarithm of the time. *)
Definition logCurve (rows : list row) (f : row -> R) (s : spl) : Prop :=
  setPoints natural natural false (fun _ => 0) true (map (fun r => ln (rEta r) / ln 10) rows) (map f rows) = Some s.
(** eta1 is where the last column is log10 fA, to one part in 10^5. *)
Definition unitOf (rows : list row) (fA eta1 : R) : Prop :=
  0 < eta1 /\ exists s, logCurve rows rPf s /\ Rabs (1 - eval s (ln eta1 / ln 10) / (ln fA / ln 10)) <= 1 / 100000.
(** The cosmology is the table in units of eta1, R(eta1) and chi(eta1). *)
Definition inUnits (rows : list row) (eta1 : R) (t : tab) : Prop :=
  exists sr st sp sc, columnCurve rows rR sr /\ columnCurve rows rT st /\ columnCurve rows rRpp sp /\ columnCurve rows rChi sc /\
    eval sr eta1 <> 0 /\ eval sc eta1 <> 0 /\
    forall ct, tabR t ct = eval sr (eta1 * ct) / eval sr eta1 /\ tabT t ct = eval st (eta1 * ct) /\
               tabRpp t ct = eval sp (eta1 * ct) / ct ^ 2 /\ tabMass2 t ct = eval sc (eta1 * ct) / eval sc eta1.
(** A table that can be used: rising positive times. *)
Definition usable (rows : list row) : Prop :=
  (2 < length rows)%nat /\ (forall r, In r rows -> 0 < rEta r) /\ increasing (map rEta rows).
(** sqrt(chi) R: the mass times the scale factor, in the units used. *)
Definition massR (t : tab) (u : R) : R := sqrt (tabMass2 t u) * tabR t u.
