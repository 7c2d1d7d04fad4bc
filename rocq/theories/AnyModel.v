(** Model of lib/gen/anystringXeon.cpp: the phase of strings given by points in space, and confstring2 of lib/gen/genConf.cpp:1461-1545.

    Exact arithmetic. th, Bx, By and Bz of rank r are functions of the site: th[iz*Sf+iy*Lx+ix] is [th r iz iy ix], and iz may be nz, one slice more. The loops over sites are
    independent and done at once. Left out: sscanf, smoothing and normalisation after it. *)
From Coq Require Import Reals List Arith Bool ZArith.
Import ListNotations.
Local Open Scope R_scope.

(** anystringXeon.cpp:25-38 int0. None: a division by zero. *)
Definition quot (a b : R) : option R := if Req_EM_T b 0 then None else Some (a / b).
Definition int0 (dx dy dz : R) : option R :=
  let a2 := dy * dy + dz * dz in
  let ddx := 1 in
  if Req_EM_T dx (- (1 / 2)) then quot 1 (a2 * sqrt (a2 + 1 / 4))
  else let s1 := sqrt (dx * dx + a2) in
       let s2 := sqrt ((dx + ddx) * (dx + ddx) + a2) in
       quot (ddx * (ddx + 2 * dx)) (s1 * s2 * ((dx + ddx) * s1 + dx * s2)).
(** anystringXeon.cpp:40-69 mora, of the piece from p to q. Closer than one: ten samples. *)
Definition vec := (R * R * R)%type.
Definition cx (p : vec) : R := fst (fst p).
Definition cy (p : vec) : R := snd (fst p).
Definition cz (p : vec) : R := snd p.
Definition mora (p q site : vec) : option R :=
  let vx := cx q - cx p in let vy := cy q - cy p in let vz := cz q - cz p in
  let dx := cx site - 1 / 2 * (cx q + cx p) in let dy := cy site - 1 / 2 * (cy q + cy p) in let dz := cz site - 1 / 2 * (cz q + cz p) in
  if Rlt_dec (dx * dx + dy * dy + dz * dz) 1 then
    fold_left (fun res i =>
      let s := - (1 / 2) + INR i / 10 in
      let fdx := dx + vx * s in let fdy := dy + vy * s in let fdz := dz + vz * s in
      match res, int0 fdx fdy fdz with Some res, Some k => Some (res + 1 / 10 * (vy * fdz - vz * fdy) * k) | _, _ => None end) (seq 0 10) (Some 0)
  else match int0 dx dy dz with Some k => Some ((vy * dz - vz * dy) * k) | None => None end.
(** :119-157: y and z by cyclic order of the components. *)
Definition turn1 (p : vec) : vec := (cy p, cz p, cx p).
Definition turn2 (p : vec) : vec := (cz p, cx p, cy p).
(** :119-163: the sum over the pieces, half of it. [eps]: 1 for an end. None: also a point read behind the last. *)
Definition pieces (rot : vec -> vec) (pts : list vec) (eps : list nat) (site : vec) : option R :=
  match fold_left (fun res il =>
    match res with
    | None => None
    | Some b => if (nth (il mod length eps) eps 0 =? 1)%nat then Some b
                else match nth_error pts il, nth_error pts (il + 1) with
                     | Some p, Some q => match mora (rot p) (rot q) (rot site) with Some k => Some (b + k) | None => None end
                     | _, _ => None
                     end
    end) (seq 0 (length pts)) (Some 0) with Some b => Some (1 / 2 * b) | None => None end.
(** :97-114: the place of a site: its slice counts from rank*(Lx/ranks). *)
Definition siteOf (L K r iz iy ix : nat) : vec := (INR ix, INR iy, INR (iz + r * (L / K))).

(** The phase. *)
Definition phase := nat -> nat -> nat -> nat -> R.
Definition set (t : phase) (r iz iy ix : nat) (v : R) : phase :=
  fun r' z y x => if ((r' =? r) && (z =? iz) && (y =? iy) && (x =? ix))%nat then v else t r' z y x.
(** A line of values, each the one before plus the gradient: :220-224, :255-256, :270-273. *)
Definition upd (f : nat -> R) (i : nat) (v : R) : nat -> R := fun j => if (j =? i)%nat then v else f j.
Definition run (n : nat) (B : nat -> R) (f : nat -> R) : nat -> R := fold_left (fun f i => upd f (i + 1) (f i + B i)) (seq 0 n) f.
(** :219-224 *)
Definition zLine (nz c : nat) (Bz : nat -> nat -> R) (t : phase) : phase :=
  fun r iz iy ix => if ((r =? c) && (iy =? 0) && (ix =? 0))%nat then run nz (Bz r) (fun z => t r z 0%nat 0%nat) iz else t r iz iy ix.
(** :211-243: rank after rank; th[0] of a rank is received after its line is built. [th[0] == 0.] at :209 does nothing. *)
Definition zTurn (K nz : nat) (Bz : nat -> nat -> R) (t : phase) (c : nat) : phase :=
  let t := zLine nz c Bz t in
  if (K =? 1)%nat then set t 0 0 0 0 0 else set t c 0 0 0 (t ((c + K - 1) mod K)%nat nz 0%nat 0%nat).
Definition zAll (K nz : nat) (Bz : nat -> nat -> R) (t : phase) : phase := fold_left (zTurn K nz Bz) (seq 0 K) t.
(** :252-257 and :266-275 *)
Definition yLine (L nz : nat) (By : nat -> nat -> nat -> R) (t : phase) : phase :=
  fun r iz iy ix => if ((iz <? nz) && (ix =? 0))%nat then run (L - 1) (By r iz) (fun y => t r iz y 0%nat) iy else t r iz iy ix.
Definition xLine (L nz : nat) (Bx : nat -> nat -> nat -> nat -> R) (t : phase) : phase :=
  fun r iz iy ix => if ((iz <? nz) && (iy <? L))%nat then run (L - 1) (Bx r iz iy) (fun x => t r iz iy x) ix else t r iz iy ix.
(** :71-306. [t0]: what v held. By (iy + Lx*iz) and Bz (2*Sf + iz) are in one array: None if they overlap, as threads write both. The field is exp(i th), its
    velocity 0. *)
Definition anystring (L nz K : nat) (Bx : nat -> nat -> nat -> nat -> R) (By : nat -> nat -> nat -> R) (Bz : nat -> nat -> R) (t0 : phase)
    : option (nat -> nat -> nat -> nat -> (R * R) * (R * R)) :=
  if (2 * (L * L) <? L * nz)%nat then None else
  let th := xLine L nz Bx (yLine L nz By (zAll K nz Bz t0)) in
  Some (fun r iz iy ix => ((cos (th r iz iy ix), sin (th r iz iy ix)), (0, 0))).
(** genConf.cpp:1503-1529: the points and their copies. [T]: TotalDepth, of type size_t (scalarField.h:159), so that i * T is taken modulo 2^64 (:1525). *)
Definition shift (T : Z) (i : Z) : R := IZR ((i * T) mod 2 ^ 64).
Definition withCopies (T : Z) (pts : list vec) : list vec :=
  pts ++ flat_map (fun i => map (fun p => (cx p, cy p, cz p + shift T i)) pts) [-1; 1]%Z.
