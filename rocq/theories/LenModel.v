(** Model of the length and the speed of strings, lib/strings/length.cpp.

    Numbers are real. A quotient by zero is no number (None) and spreads, as NaN does. *)
From Coq Require Import Reals List Arith.
Import ListNotations.
Local Open Scope R_scope.

(** std::complex<double> *)
Record cpx := Cp { cre : R; cim : R }.
Definition fdiv (a b : R) : option R := if Req_EM_T b 0 then None else Some (a / b).
Definition bind {A B} (x : option A) (f : A -> option B) : option B := match x with Some a => f a | None => None end.

(** length.cpp:32-64: the points of the border of the unit square where a part [p] (at 0,0), [u] (1,0), [v] (0,1), [w] (1,1)
    vanishes. A coordinate can be no number. *)
Definition node := (option R * option R)%type.
Definition nodes (p u v w : R) : list node :=
  (if Rle_dec (p * u) 0 then [(fdiv p (p - u), Some 0)] else []) ++
  (if Rle_dec (u * w) 0 then [(Some 1, fdiv u (u - w))] else []) ++
  (if Rle_dec (w * v) 0 then [(fdiv v (v - w), Some 1)] else []) ++
  (if Rle_dec (v * p) 0 then [(Some 0, fdiv p (p - v))] else []).
(** :68-77: where the line through two points meets the line through two others *)
Definition meet (x0 y0 x1 y1 s0 t0 s1 t1 : R) : option (R * R) :=
  let Ar := x0 - x1 in let Br := y1 - y0 in let Cr := y0 * x1 - y1 * x0 in
  let Ai := s0 - s1 in let Bi := t1 - t0 in let Ci := t0 * s1 - t1 * s0 in
  bind (fdiv (- (Cr * Ai - Ci * Ar)) (Br * Ai - Bi * Ar)) (fun du =>
  bind (fdiv (- (Cr * Bi - Ci * Br)) (Ar * Bi - Ai * Br)) (fun dv => Some (du, dv))).
(** :17-86 setCross (m, mu, mv, muv) *)
Definition setCross (m mu mv muv : cpx) : option (R * R) :=
  match nodes (cre m) (cre mu) (cre mv) (cre muv), nodes (cim m) (cim mu) (cim mv) (cim muv) with
  | [(x0, y0); (x1, y1)], [(s0, t0); (s1, t1)] =>
      bind x0 (fun x0 => bind y0 (fun y0 => bind x1 (fun x1 => bind y1 (fun y1 =>
      bind s0 (fun s0 => bind t0 (fun t0 => bind s1 (fun s1 => bind t1 (fun t1 => meet x0 y0 x1 y1 s0 t0 s1 t1))))))))
  | _, _ => Some (/ 2, / 2)
  end.

(** A position: pos_x, pos_y, pos_z *)
Record pos := Pos { px : R; py : R; pz : R }.
Definition sq (x : R) : R := x * x.
Definition dist (a b : pos) : R := sqrt ((px b - px a) * (px b - px a) + (py b - py a) * (py b - py a) + (pz b - pz a) * (pz b - pz a)).

(** :153-235: the points where strings pass the sides of the cube at (ix, iy, iz).
    [m x y z]: the field, z counted from the first slice of the rank, slice Lz is the ghost.
    [fXY], [fYZ], [fZX]: the flags of the map of strings. [z0] = rank*Lz *)
Definition ends (m : nat -> nat -> nat -> cpx) (fXY fYZ fZX : nat -> nat -> nat -> bool) (Lx Lz z0 : nat) (ix iy iz : nat)
  : list (option pos) :=
  let xp := ((ix + 1) mod Lx)%nat in let yp := ((iy + 1) mod Lx)%nat in let zp := (iz + 1)%nat in
  let z := INR (z0 + iz) in
  let at_ (c : option (R * R)) (f : R -> R -> pos) := bind c (fun d => Some (f (fst d) (snd d))) in
  (if fXY ix iy iz then [at_ (setCross (m ix iy iz) (m xp iy iz) (m ix yp iz) (m xp yp iz)) (fun u v => Pos (INR ix + u) (INR iy + v) z)] else []) ++
  (if fYZ ix iy iz then [at_ (setCross (m ix iy iz) (m ix yp iz) (m ix iy zp) (m ix yp zp)) (fun u v => Pos (INR ix) (INR iy + u) (z + v))] else []) ++
  (if fZX ix iy iz then [at_ (setCross (m ix iy iz) (m ix iy zp) (m xp iy iz) (m xp iy zp)) (fun u v => Pos (INR ix + v) (INR iy) (z + u))] else []) ++
  (if fYZ xp iy iz then [at_ (setCross (m xp iy iz) (m xp yp iz) (m xp iy zp) (m xp yp zp)) (fun u v => Pos (INR ix + 1) (INR iy + u) (z + v))] else []) ++
  (if fZX ix yp iz then [at_ (setCross (m ix yp iz) (m ix yp zp) (m xp yp iz) (m xp yp zp)) (fun u v => Pos (INR ix + v) (INR iy + 1) (z + u))] else []) ++
  (if (iz <? Lz - 1)%nat then
     if fXY ix iy zp then [at_ (setCross (m ix iy zp) (m xp iy zp) (m ix yp zp) (m xp yp zp)) (fun u v => Pos (INR ix + u) (INR iy + v) (z + 1))] else []
   else []).

(** :237-299: the length in a cube. With six points the third distance of each way is computed and thrown away (a statement of
    its own after a stray semicolon) *)
Definition cubeLength (l : list pos) : R :=
  match l with
  | [p0; p1] => dist p0 p1
  | [p0; p1; p2; p3] =>
      ((dist p0 p1 + dist p2 p3) + (dist p0 p2 + dist p1 p3) + (dist p0 p3 + dist p1 p2)) / 3
  | [p0; p1; p2; p3; p4; p5] =>
      ((dist p0 p1 + dist p2 p3) + (dist p0 p1 + dist p2 p4) + (dist p0 p1 + dist p2 p5) +
       (dist p0 p2 + dist p1 p3) + (dist p0 p2 + dist p1 p4) + (dist p0 p2 + dist p1 p5) +
       (dist p0 p3 + dist p1 p2) + (dist p0 p3 + dist p1 p4) + (dist p0 p3 + dist p1 p5) +
       (dist p0 p4 + dist p1 p2) + (dist p0 p4 + dist p1 p3) + (dist p0 p4 + dist p1 p5) +
       (dist p0 p5 + dist p1 p2) + (dist p0 p5 + dist p1 p3) + (dist p0 p5 + dist p1 p4)) / 15
  | _ => 0
  end.
Fixpoint allSome {A} (l : list (option A)) : option (list A) :=
  match l with [] => Some [] | x :: l => bind x (fun x => bind (allSome l) (fun l => Some (x :: l))) end.
Definition osum (l : list (option R)) : option R := fold_right (fun x s => bind x (fun x => bind s (fun s => Some (x + s)))) (Some 0) l.
(** :139-312: all cubes of a rank. The threads add in any order *)
Definition rankLength (m : nat -> nat -> nat -> cpx) (fXY fYZ fZX : nat -> nat -> nat -> bool) (Lx Lz z0 : nat) : option R :=
  osum (flat_map (fun iz => flat_map (fun iy => map (fun ix =>
    bind (allSome (ends m fXY fYZ fZX Lx Lz z0 ix iy iz)) (fun l => Some (cubeLength l))) (seq 0 Lx)) (seq 0 Lx)) (seq 0 Lz)).
(** :314: the sum over ranks; each has its own field and map *)
Definition stringLength (P Lx Lz : nat) (m : nat -> nat -> nat -> nat -> cpx) (fXY fYZ fZX : nat -> nat -> nat -> nat -> bool) : option R :=
  osum (map (fun r => rankLength (m r) (fXY r) (fYZ r) (fZX r) Lx Lz (r * Lz)) (seq 0 P)).

(** ** Speeds *)
(** :321-342: gamma^2 v^2 from the field [m] and its velocity [v] at a corner; [rs]: scale factor, [hc]: conformal Hubble rate,
    [ms]: saxion mass squared *)
Definition c0 : R := 0.41238.
Definition g2v2 (rs hc ms : R) (mv : cpx * cpx) : R :=
  let (m, v) := mv in
  let pr := cre m / rs in let pi := cim m / rs in
  let dr := (cre v - hc * cre m) / (rs * rs) in let di := (cim v - hc * cim m) / (rs * rs) in
  let d2 := dr * dr + di * di in
  let s := 2 * (pr * dr + pi * di) in
  d2 * (1 + (pr * pr + pi * pi) / (8 * c0 * c0)) / (ms * c0 * c0) + s * s / (16 * ms * c0 * c0 * c0 * c0).
(** :344-366: one plaquette, four corners *)
Definition plaq := ((cpx * cpx) * (cpx * cpx) * (cpx * cpx) * (cpx * cpx))%type.
Definition plaqG (rs hc ms : R) (p : plaq) : R :=
  match p with (a, b, c, d) => (g2v2 rs hc ms a + g2v2 rs hc ms b + g2v2 rs hc ms c + g2v2 rs hc ms d) / 4 end.
Definition rsum (l : list R) : R := fold_right Rplus 0 l.
(** :415-430: strDeng, strVel, strVel2, strGam. [ps]: the flagged plaquettes of all ranks (the sums do not depend on their order) *)
Record speeds := Speeds { strDeng : R; strVel : option R; strVel2 : option R; strGam : option R }.
Definition stringSpeeds (rs hc ms : R) (ps : list plaq) : speeds :=
  let xs := map (plaqG rs hc ms) ps in
  let gamma := rsum (map (fun x => sqrt (1 + x)) xs) in
  let gamma2 := rsum (map (fun x => 1 + x) xs) in
  let vel := rsum (map (fun x => sqrt (1 + x) * sqrt (x / (1 + x))) xs) in
  let vel2 := rsum (map (fun x => sqrt (1 + x) * x / (1 + x)) xs) in
  Speeds gamma (fdiv vel gamma) (fdiv vel2 gamma) (fdiv gamma2 gamma).
