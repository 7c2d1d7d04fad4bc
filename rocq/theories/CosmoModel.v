(** Model of the background (lib/cosmos/cosmos.cpp) and of the quantities derived from it in
    lib/scalar/scalarField.cpp: the expansion, the masses, their integrals, the time step and the shift of the
    vacuum.

    Numbers are real. pow(x,y) is Rpower, right for x > 0; times and thresholds are taken to be positive in what is
    proved. The tabulated cosmology (ueCosm) is a pair of arbitrary functions where it is modelled at all. *)
From Coq Require Import Reals.
Local Open Scope R_scope.

(** include/cosmos/cosmos.h:13-25 *)
Record cosmo := Cosmo {
  frw : R; grav : R; indi3 : R; nQcd : R; nQcdr : R; zThRes : R; zRestore : R; lambda : R; lz2e : R }.

(** cosmos.cpp:203-215, without tables *)
Definition scale (c : cosmo) (ct : R) : R :=
  if Req_EM_T (frw c) 1 then if Rlt_dec 0 (grav c) then ct * (1 + / 4 * ct * grav c) else Rpower ct (frw c)
  else Rpower ct (frw c).
(** :171-185: R''/R *)
Definition Rpp (c : cosmo) (ct : R) : R := frw c * (frw c - 1) / (ct * ct).
(** :187-201: R'/R *)
Definition Rp (c : cosmo) (ct : R) : R := frw c / ct.
(** scalarField.cpp:1200-1209: [whole] is the cast to int (towards zero) *)
Definition HubbleConformal (c : cosmo) (whole : R -> Z) (ct : R) : R :=
  if (Z.eqb (whole (frw c)) 0 || Z.eqb (whole (frw c)) 1)%bool then 0 else frw c / ct.

(** cosmos.cpp:225-255. The three tests of the first mode are exclusive and leave nothing out *)
Definition AxionMass2 (c : cosmo) (ct : R) : R :=
  let r := scale c ct in
  if Rle_dec (zThRes c) (zRestore c) then
    if Rlt_dec r (zThRes c) then indi3 c * indi3 c * Rpower r (nQcd c)
    else if Rle_dec r (zRestore c) then indi3 c * indi3 c * Rpower (zThRes c) (nQcd c)
    else indi3 c * indi3 c * Rpower (zThRes c) (nQcd c) * Rpower (r / zRestore c) (nQcdr c)
  else
    if Rlt_dec r (zThRes c) then indi3 c * indi3 c * Rpower r (nQcd c)
    else indi3 c * indi3 c * Rpower (zThRes c) (nQcd c).
(** :258-289 *)
Definition DAxionMass2Dct (c : cosmo) (ct : R) : R :=
  let r := scale c ct in
  if Rle_dec (zThRes c) (zRestore c) then
    if Rlt_dec r (zThRes c) then nQcd c * frw c * AxionMass2 c ct / ct
    else if Rle_dec r (zRestore c) then 0
    else nQcdr c * frw c * AxionMass2 c ct / ct
  else
    if Rlt_dec r (zThRes c) then nQcd c * frw c * AxionMass2 c ct / ct else 0.
(** :291-325 *)
Definition DlogMARDlogct (c : cosmo) (ct : R) : R :=
  let r := scale c ct in
  if Rle_dec (zThRes c) (zRestore c) then
    if Rlt_dec r (zThRes c) then frw c * (nQcd c / 2 + 1)
    else if Rle_dec r (zRestore c) then frw c
    else frw c * (nQcdr c / 2 + 1)
  else
    if Rlt_dec r (zThRes c) then frw c * (nQcd c / 2 + 1) else frw c.
(** :293-296, with tables [chi] and [rr] *)
Definition DlogMARtable (chi rr : R -> R) (ct : R) : R :=
  let e := / 1000000 in
  (ct * sqrt (chi (ct + e)) * rr (ct + e) - sqrt (chi (ct - e)) * rr (ct - e)) / (2 * e * sqrt (chi ct) * rr ct).
(** :327-331 *)
Definition LambdaP (c : cosmo) (ct : R) : R := lambda c / Rpower (scale c ct) (lz2e c).
Inductive pqKind := KPQ1 | KPQ2 | KPQ3 | KNone.
(** :333-354 *)
Definition SaxionMass2 (c : cosmo) (pq : pqKind) (ct : R) : R :=
  match pq with KPQ1 | KPQ3 => LambdaP c ct * 2 | KPQ2 => LambdaP c ct * 8 | KNone => LambdaP c ct * 0 end.
(** scalarField.cpp:1181-1186; [delta]: PhysSize()/Length() *)
Definition Msa (c : cosmo) (delta ct : R) : R := sqrt (2 * LambdaP c ct) * scale c ct * delta.

(** scalarField.cpp:1221-1267. [n]: the extra power of R. None: the function ends without a value *)
Definition IAxionMassSqn (c : cosmo) (z0 z n : R) : option R :=
  let i2 := indi3 c * indi3 c in
  let e1 := frw c * (nQcd c + n) + 1 in
  let e2 := frw c * n + 1 in
  let th := zThRes c in
  if Rlt_dec z0 z then
    if Rle_dec z th then Some ((Rpower z e1 - Rpower z0 e1) * i2 / e1)
    else if Rlt_dec z0 th then Some ((Rpower th e1 - Rpower z0 e1) * i2 / e1 + (Rpower z e2 - Rpower th e2) * i2 / e2)
    else Some ((Rpower z e2 - Rpower z0 e2) * i2 / e2)
  else
    if Rle_dec z0 th then Some ((Rpower z e1 - Rpower z0 e1) * i2 / e1)
    else if Rlt_dec z th then Some ((Rpower th e2 - Rpower z0 e2) * i2 / e2 + (Rpower z e1 - Rpower th e1) * i2 / e1)
    else Some ((Rpower z e2 - Rpower z0 e2) * i2 / e2).
(** :1269-1327 *)
Definition IIterm (i2 e z0 z : R) : R :=
  (Rpower z (e + 1) - Rpower z0 (e + 1)) * i2 / (e * (e + 1)) - Rpower z0 e * (z - z0) * i2 / e.
Definition IIAxionMassSqn (c : cosmo) (z0 z n : R) : option R :=
  let i2 := indi3 c * indi3 c in
  let e1 := frw c * (nQcd c + n) + 1 in
  let e2 := frw c * n + 1 in
  let th := zThRes c in
  if Rlt_dec z0 z then
    if Rle_dec z th then Some (IIterm i2 e1 z0 z)
    else if Rlt_dec z0 th then Some (IIterm i2 e1 z0 th + IIterm i2 e2 th z)
    else Some (IIterm i2 e2 z0 z)
  else
    if Rle_dec z0 th then Some (IIterm i2 e1 z0 z)
    else if Rlt_dec z th then Some (IIterm i2 e2 z0 th + IIterm i2 e1 th z)
    else if Rlt_dec th z then Some (IIterm i2 e2 z0 z)
    else None.

(** ** The time step, scalarField.cpp:1338-1407 *)
Inductive stepKind := StSaxion | StAxion | StParaxial.
(** [wDz]: the safety factor; [oodl]: sites per length; [hub]: HubbleMassSq *)
Definition rawStep (c : cosmo) (pq : pqKind) (wDz oodl hub : R) (k : stepKind) (z : R) : R :=
  let r := scale c z in
  let m2 := AxionMass2 c z in
  match k with
  | StSaxion =>
      let mA := Rmax (sqrt (m2 * (r * r) + 12 * oodl * oodl)) hub in
      let facto := match pq with KPQ2 => 2 | _ => 1 end in
      let mS := sqrt (2 * LambdaP c z * r * r * facto * facto + 12 * oodl * oodl) in
      wDz / Rmax mS mA
  | StAxion => wDz / sqrt (m2 * (r * r) + 12 * (oodl * oodl))
  | StParaxial => wDz / ((12 * oodl * oodl) / (sqrt (12 * oodl * oodl + m2 * r * r) + sqrt m2 * r))
  end.
Definition dzSize (c : cosmo) (pq : pqKind) (wDz oodl hub : R) (k : stepKind) (z : R) : R :=
  let d := rawStep c pq wDz oodl hub k z in
  let r := scale c z in
  let r' := scale c (z + d) in
  if Rlt_dec r (zThRes c) then
    if Rlt_dec (zThRes c) r' then
      if Req_EM_T (frw c) 0 then d
      else Rpower (zThRes c + / 1000 * (r' - zThRes c)) (1 / frw c) - z
    else d
  else d.

(** ** The shift of the vacuum, scalarField.cpp:1411-1416 *)
(** atan2 for y > 0 and x >= 0; atanh *)
Definition atan2pos (y x : R) : R := if Req_EM_T x 0 then PI / 2 else atan (y / x).
Definition atanhR (x : R) : R := / 2 * ln ((1 + x) / (1 - x)).
Definition SaxionShift (alpha : R) : R :=
  let discr := 4 / 3 - 9 * alpha * alpha in
  if Rlt_dec 0 discr then 2 / sqrt 3 * cos (atan2pos (sqrt discr) (3 * alpha) / 3) - 1
  else 2 / sqrt 3 * cosh (atanhR (sqrt (- discr) / (3 * alpha)) / 3) - 1.
(** include/scalar/scalarField.h:69-71 *)
Definition rsvPQ2 (a : R) : R :=
  let a2 := a * a in let a3 := a2 * a in let a4 := a2 * a2 in
  (0.125 * a + 0.30676113886283973 * a2 + 0.20762392505082639 * a3 + 0.03303541390146716 * a4) /
  (1 + 3.0165891109027165 * a + 2.857822775289389 * a2 + 0.8969613324856603 * a3 + 0.05640260585369341 * a4).
(** scalarField.cpp:1417-1453 and 1477-1513 with the first QCD potential: [now] is the field's own time, [asked] the argument of
    the second form, which does not use it (SaxionShift() and not SaxionShift(ct); *z and not ct) *)
Definition Saskia (c : cosmo) (pq : pqKind) (now : R) : R :=
  let alpha := AxionMass2 c now / LambdaP c now in
  match pq with KPQ1 | KPQ3 => SaxionShift alpha | KPQ2 => rsvPQ2 alpha | KNone => 0 end.
Definition SaskiaAt (c : cosmo) (pq : pqKind) (now asked : R) : R := Saskia c pq now.
