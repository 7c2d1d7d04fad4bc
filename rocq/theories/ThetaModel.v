(** Model of the conversions between complex, angle, Naxion and Paxion fields:
    /repo/lib/scalar/thetaXeon.cpp, theta2CmplxXeon.cpp, theta2NaxionXeon.cpp and
    theta2PaxionXeon.cpp. *)
From Coq Require Import List Arith Bool Reals.
Import ListNotations.

(** ** Memory: the buffers as arrays of floating point words *)
Section Mem.
Context {A : Type}.
Definition words := nat -> A.
Definition set (m : words) (i : nat) (x : A) : words := fun j => if j =? i then x else m j.
(** complex number j of an array of complex numbers at word b *)
Definition cread (m : words) (b j : nat) : A * A := (m (b + 2 * j), m (b + 2 * j + 1)).
(** memcpy of n words from s to d: the words, all read first. Undefined if the two
    regions overlap, which is left to the theorem that they do not. *)
Definition copy (src dst : words) (s d n : nat) : words :=
  fun j => if (d <=? j) && (j <? d + n) then src (s + (j - d)) else dst j.

(** thetaXeon.cpp:8-48 toThetaKernelXeon. [gm] and [gv] are the values computed from a
    complex number and its velocity (lines 40-44; see [toTheta_site]). The m buffer
    holds the scratch arrays in its ghost regions: aField1 at word 0, aField2 at
    mBackGhost, word 2*(S*NG+V). [ord cZ] is the order in which the threads happen to
    do the sites of slice cZ. The write of aField1 in two goes is one write here. *)
Definition toTheta_iter (gm : A * A -> A) (gv : A * A -> A * A -> A) (S NG V Vo : nat) (st : words * words) (lpc : nat) : words * words :=
  let '(m, v) := st in
  let mTmp := cread m (2 * (S * NG)) (Vo + lpc) in
  let vTmp := cread v 0 (Vo + lpc) in
  (set (set m lpc (gm mTmp)) (2 * (S * NG + V) + lpc) (gv mTmp vTmp), v).
Definition toTheta_slice (gm : A * A -> A) (gv : A * A -> A * A -> A) (S NG V : nat) (ord : nat -> list nat) (st : words * words) (cZ : nat) : words * words :=
  let Vo := cZ * S in
  let '(m, v) := fold_left (toTheta_iter gm gv S NG V Vo) (ord cZ) st in
  let m' := copy m m 0 (S * NG + Vo) S in
  (m', copy m' v (2 * (S * NG + V)) Vo S).
Definition toTheta (gm : A * A -> A) (gv : A * A -> A * A -> A) (S NG Lz : nat) (ord : nat -> list nat) (m v : words) : words * words :=
  fold_left (toTheta_slice gm gv S NG (S * Lz) ord) (seq 0 Lz) (m, v).

(** theta2PaxionXeon.cpp:8-41. [fm] scales the field, [fv] makes the velocity from the
    old velocity and the scaled field. The last step is memmove. *)
Definition toPaxion (fm : A -> A) (fv : A -> A -> A) (S NG V : nat) (ord : list nat) (m v : words) : words * words :=
  let '(m, v) := fold_left (fun (st : words * words) (lpc : nat) =>
    let '(m, v) := st in
    let x := fm (m (S * NG + lpc)) in
    (set m (S * NG + lpc) x, set v lpc (fv (v lpc) x))) ord (m, v) in
  (m, copy v v 0 (NG * S) V).

(** theta2NaxionXeon.cpp:7-67. m2 is written and then copied over m. *)
Definition toNaxion (f1 f2 : A -> A) (S NG V : nat) (ord : list nat) (m v m2 : words) : words * words :=
  let m2 := fold_left (fun (m2 : words) (lpc : nat) =>
    set (set m2 (2 * lpc) (f1 (m (S * NG + lpc)))) (2 * lpc + 1) (f2 (v lpc))) ord m2 in
  (copy m2 m 0 (2 * (S * NG)) (2 * V), m2).

(** theta2CmplxXeon.cpp:14-65 th2cxXeon: in place, site by site. [ge] and [gw] are the
    values computed (see [th2cx_site]). *)
Definition th2cx (ge : A -> A * A) (gw : A * A -> A -> A * A) (S NG V : nat) (ord : list nat) (m v : words) : words * words :=
  fold_left (fun (st : words * words) (lpc : nat) =>
    let '(m, v) := st in
    let x := ge (fst (cread m (2 * (S * NG)) lpc)) in
    let y := gw x (fst (cread v 0 lpc)) in
    (set (set m (2 * (S * NG) + 2 * lpc) (fst x)) (2 * (S * NG) + 2 * lpc + 1) (snd x),
     set (set v (2 * lpc) (fst y)) (2 * lpc + 1) (snd y))) ord (m, v).
End Mem.
Arguments words : clear implicits.

(** ** One site, in real numbers *)
Local Open Scope R_scope.
Definition cmul (a b : R * R) : R * R := (fst a * fst b - snd a * snd b, fst a * snd b + snd a * fst b).
Definition conj (a : R * R) : R * R := (fst a, - snd a).
Definition norm2 (a : R * R) : R := fst a * fst a + snd a * snd a.
(** std::arg: the angle in (-pi, pi]. *)
Definition arg (a : R * R) : R :=
  if Rle_dec 0 (snd a) then acos (fst a / sqrt (norm2 a)) else - acos (fst a / sqrt (norm2 a)).
(** thetaXeon.cpp:40-44; sh is the shift of the saxion. *)
Definition toTheta_m (sc sh : R) (m : R * R) : R := arg (fst m - sh, snd m) * sc.
Definition toTheta_v (sc F sh : R) (m v : R * R) : R :=
  let mTmp := (fst m - sh, snd m) in
  let iMod := sc / (fst mTmp * fst mTmp + snd mTmp * snd mTmp) in
  snd (cmul v (conj mTmp)) * iMod + F * arg mTmp.
(** theta2CmplxXeon.cpp:34-36 *)
Definition th2cx_m (r : R) (theta : R) : R * R := (r * cos theta, r * sin theta).
Definition th2cx_v (r : R) (phi : R * R) (theta' : R) : R * R := cmul phi (1 / r, theta').
(** thetaXeon.cpp:33 *)
Definition toTheta_F (frw sc z : R) : R := frw * sc / z.
