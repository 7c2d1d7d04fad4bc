(** Model of the arrays that nRun gives to the transform (lib/spectrum/spectrum.cpp:1075-1736): the move of the second half for the z gradient, the old potential and gradients of the complex
    field (CV, CG), and the axion.

    Exact arithmetic. Places and ranks as in KgvModel. [mass]: the square root of the mass squared. The transform writes the first half of m2 only (a real transform in place).
    Left out: the bins, logs, the profiler. *)
From Coq Require Import Reals List Arith Bool.
From Verif Require Import KgvModel.
From Verif Require ThetaModel.
Import ListNotations.
Local Open Scope R_scope.

(** spectrum.cpp:1314-1317 and 1531-1534: memmove of eSize = v3 numbers. *)
Definition moved (g : grid) (m2 : array) : array := fun i => if (i <? v3 g)%nat then m2 (v3 g + i)%nat else m2 i.
(** :1324-1333 and 1540-1549: one row, then all from the second on; with Gaus and Diff only. *)
Definition unpadRow (g : grid) (m2 : array) (sl : nat) : array :=
  fun i => if ((sl * gL g <=? i) && (i <? sl * gL g + gL g))%nat then m2 (sl * (gL g + 2) + (i - sl * gL g))%nat else m2 i.
Definition unpad (g : grid) (m2 : array) : array := fold_left (unpadRow g) (seq 1 (gL g * gLz g - 1)) m2.
Definition zInput (k : mask) (g : grid) (m2 : array) : array :=
  match k with Gaus | Diff => unpad g (moved g m2) | _ => moved g m2 end.

(** CV, :1190-1262. ma is that of :1090, one slice before the field, and idx counts from slice 0 (:1208): slice iz of ma. *)
Definition siteCV (mass : R) (k : mask) (g : grid) (r : rk) (m2 : array) (ix iy iz : nat) : array :=
  let b := ma g r (idx g ix iy iz) in
  let a := (fst b - rSh r, snd b) in
  let n := sqrt (fst a * fst a + snd a * snd a) in
  match k with
  | Flat => put m2 (odx g ix iy iz) (mass * rR r * ThetaModel.arg a)
  | Redo => put m2 (odx g ix iy iz) (if rS r (idx g ix iy iz) then 0 else mass * rR r * ThetaModel.arg a)
  | Vil => put m2 (odx g ix iy iz) (mass * n * ThetaModel.arg a)
  | Vil2 => put m2 (odx g ix iy iz) (mass * (n * n * (1 / rR r)) * ThetaModel.arg a)
  | Saxi | Ball | Gaus | Diff => m2
  end.
Definition buildCV mass k g r order m2 := rows g (siteCV mass k g r) order m2.

(** Imaginary part of (b-a)/(b+a-2s), :1390-1410. *)
Definition half (r : rk) (a b : cx) : R :=
  let p := sub2 b a in
  let q := (fst b + fst a - rSh r - rSh r, snd b + snd a) in
  (snd p * fst q - fst p * snd q) / (fst q * fst q + snd q * snd q).
(** CG, :1378-1421 and 1461-1516. The fields fac multiplies with: 2R/delta, and 2/delta for Vil and Vil2. Ball has no case. *)
Definition oldFac (k : mask) (g : grid) (r : rk) (m2 : array) (ix iy iz : nat) : R := fac k g r (2 * rR r / rD r) (2 / rD r) m2 ix iy iz.
Definition siteCX (k : mask) (g : grid) (r : rk) (m2 : array) (ix iy iz : nat) : array :=
  let a := ma g r (idx g ix iy (iz + 1)) in
  match k with
  | Ball => m2
  | Saxi => let v := rV r (idx g ix iy iz) in put (put m2 (odx g ix iy iz) (fst v)) (v3 g + odx g ix iy iz) (snd v)
  | _ => put m2 (odx g ix iy iz) (oldFac k g r m2 ix iy iz * half r a (ma g r (idx g ((ix + 1) mod gL g) iy (iz + 1))))
  end.
Definition buildCX k g r order m2 := rows g (siteCX k g r) order m2.
Definition siteCYZ (k : mask) (g : grid) (r : rk) (m2 : array) (ix iy iz : nat) : array :=
  let a := ma g r (idx g ix iy (iz + 1)) in
  match k with
  | Ball => m2
  | Saxi => let v := ma g r (idx g ix iy iz) in put (put m2 (odx g ix iy iz) (fst v)) (v3 g + odx g ix iy iz) (snd v)
  | _ =>
    let m2' := put m2 (odx g ix iy iz) (oldFac k g r m2 ix iy iz * half r a (ma g r (idx g ix ((iy + 1) mod gL g) (iz + 1)))) in
    let o := match k with Gaus | Diff => idx g ix iy iz | _ => odx g ix iy iz end in
    put m2' (v3 g + o) (oldFac k g r m2' ix iy iz * half r a (ma g r (idx g ix iy (iz + 2))))
  end.
Definition buildCYZ k g r order m2 := rows g (siteCYZ k g r) order m2.

(** ** The axion, :1571-1736 *)
(** m from mStart, v, and the bit STRING_MASK. *)
Record ax := Ax { aR : R; aM : array; aV : array; aS : nat -> bool }.
Inductive amask := AFlat | AAxit | AAxit2 | AOther.
(** 0.5*(1-tanh(5*w-1)) *)
Definition axWeight (w : R) : R := 0.5 * (1 - tanh (5 * w - 1)).
(** :1594-1600: rows copied, in any order; one row. *)
Definition copyRow (g : grid) (src : array) (m2 : array) (sl : nat) : array :=
  fun i => if ((sl * (gL g + 2) <=? i) && (i <? sl * (gL g + 2) + gL g))%nat then src (sl * gL g + (i - sl * (gL g + 2)))%nat else m2 i.
Definition copyRows (g : grid) (src : array) (order : list nat) (m2 : array) : array := fold_left (copyRow g src) order m2.
(** :1611-1625 and 1656-1670: with Axit both are of m, and the weight is read from m2 while it is written. *)
Definition siteAx (k : amask) (g : grid) (a : ax) (src : array) (m2 : array) (ix iy iz : nat) : array :=
  let i := idx g ix iy iz in
  match k with
  | AAxit => put m2 (odx g ix iy iz) (aM a i * axWeight (m2 i))
  | _ => put m2 (odx g ix iy iz) (if aS a i then 0 else src i)
  end.
Definition axGV (k : amask) (g : grid) (a : ax) (slices : list nat) (order : list (nat * nat)) (m2 : array) : array :=
  match k with AFlat => copyRows g (aM a) slices m2 | _ => rows g (siteAx k g a (aM a)) order m2 end.
Definition axK (k : amask) (g : grid) (a : ax) (slices : list nat) (order : list (nat * nat)) (m2 : array) : array :=
  match k with AFlat => copyRows g (aV a) slices m2 | _ => rows g (siteAx k g a (aV a)) order m2 end.
(** :1695-1727 *)
Definition siteNl (k : amask) (g : grid) (a : ax) (m2 : array) (ix iy iz : nat) : array :=
  let i := idx g ix iy iz in
  let R2 := aR a * 2 in
  let s := R2 * sin (aM a i * (1 / R2)) in
  match k with
  | AAxit => put m2 (odx g ix iy iz) (s * axWeight (m2 i))
  | AAxit2 => put m2 (odx g ix iy iz) (if aS a i then 0 else s)
  | AFlat | AOther => put m2 (odx g ix iy iz) s
  end.
Definition axNl (k : amask) (g : grid) (a : ax) (order : list (nat * nat)) (m2 : array) : array := rows g (siteNl k g a) order m2.
