(** Model of buildc_k, buildc_gx, buildc_gyz and buildc_v (lib/utils/kgvops.cpp): the velocity, gradient and potential of the axion that a spectrum of the complex field is taken of.

    Exact arithmetic. m counted from mCpu, m2 from m2Cpu; m2half is m2 + v3 (scalarField.h:109), v3 = L*L*(Lz + 2*Ng) (scalarField.cpp:54). abs is taken to be that of real numbers.
    The string-core correction (stringcorre) is an arbitrary function of what it is called with; its table is modelled in LutModel.
    Left out: logs, the profiler, the precisions, which do the same. *)
From Coq Require Import Reals List Arith Bool.
From Verif Require ThetaModel.
Import ListNotations.
Local Open Scope R_scope.

Notation cx := (R * R)%type.
(** SpectrumMaskType, enum-field.h, but those of the axion. *)
Inductive mask := Flat | Redo | Ball | Gaus | Diff | Vil | Vil2 | Saxi.
(** The choice of the template, kgvops.cpp:366-408, 570-612, 807-843 and 983-1005: Saxi goes to the default. *)
Definition pick (k : mask) : mask :=
  match k with Redo | Ball => Redo | Gaus | Diff => Diff | Vil => Vil | Vil2 => Vil2 | Flat | Saxi => Flat end.

Record grid := Grid { gL : nat; gLz : nat; gNg : nat }.
Definition v3 (g : grid) : nat := (gL g * gL g * (gLz g + 2 * gNg g))%nat.
(** What a rank knows: R, the lattice spacing, the shift of the saxion, m with its ghosts, v, the bit STRING_MASK of the string data. *)
Record rk := Rk { rR : R; rD : R; rSh : R; rM : nat -> cx; rV : nat -> cx; rS : nat -> bool }.

(** :197-201 and :224-239: ma is mCpu and Ng-1 slices; the site and its neighbours. *)
Definition ma (g : grid) (r : rk) (i : nat) : cx := rM r ((gNg g - 1) * (gL g * gL g) + i)%nat.
Definition odx (g : grid) (ix iy iz : nat) : nat := (ix + (gL g + 2) * iy + gL g * (gL g + 2) * iz)%nat.
Definition idx (g : grid) (ix iy iz : nat) : nat := (ix + gL g * iy + gL g * gL g * iz)%nat.
Definition sub2 (a b : cx) : cx := (fst a - fst b, snd a - snd b).
Definition at0 (g : grid) (r : rk) (ix iy iz : nat) : cx := let a := ma g r (idx g ix iy (iz + 1)) in (fst a - rSh r, snd a).
Definition dx (g : grid) (r : rk) (ix iy iz : nat) : cx :=
  sub2 (ma g r (idx g ((ix + 1) mod gL g) iy (iz + 1))) (ma g r (idx g ((gL g + ix - 1) mod gL g) iy (iz + 1))).
Definition dy (g : grid) (r : rk) (ix iy iz : nat) : cx :=
  sub2 (ma g r (idx g ix ((iy + 1) mod gL g) (iz + 1))) (ma g r (idx g ix ((gL g + iy - 1) mod gL g) (iz + 1))).
Definition dz (g : grid) (r : rk) (ix iy iz : nat) : cx := sub2 (ma g r (idx g ix iy (iz + 2))) (ma g r (idx g ix iy iz)).

(** :245-263: the correction is skipped if one of six tests finds the site far from a string. pre = 0.5*SIGMALUT, kgvops.h:13. *)
Definition pre : R := 0.5 * 0.4.
Definition below (a d : R) : bool := if Rle_dec (Rabs a) (Rabs (5 * (pre * d))) then true else false.
Definition nearString (g : grid) (r : rk) (ix iy iz : nat) : bool :=
  let a := at0 g r ix iy iz in
  let t d := below (fst a) (fst d) && below (snd a) (snd d) in
  t (dx g r ix iy iz) && t (dy g r ix iy iz) && t (dz g r ix iy iz).
(** stringcorre: the field, sigma times its gradients and the derivative. *)
Notation correction := (cx -> cx -> cx -> cx -> cx -> R).
Definition scale2 (s : R) (a : cx) : cx := (s * fst a, s * snd a).
(** :264-269, :466-471, :690-697: the rate of the angle, for a derivative w. *)
Definition turn (lut : option correction) (g : grid) (r : rk) (ix iy iz : nat) (w : cx) : R :=
  let a := at0 g r ix iy iz in
  let plain := (fst a * snd w - snd a * fst w) / (fst a * fst a + snd a * snd a) in
  match lut with
  | Some c => if nearString g r ix iy iz then c a (scale2 pre (dx g r ix iy iz)) (scale2 pre (dy g r ix iy iz)) (scale2 pre (dz g r ix iy iz)) w else plain
  | None => plain
  end.

Notation array := (nat -> R).
Definition put (s : array) (i : nat) (v : R) : array := fun j => if (j =? i)%nat then v else s j.
(** :278-303, :478-503 and :699-727: what multiplies the rate. f: R or R/delta/2, h: 1 or 1/delta/2. [w]: what m2half holds at the site. *)
Definition factor (k : mask) (r : rk) (f h : R) (a : cx) (masked : bool) (w : R) : R :=
  match k with
  | Flat | Saxi => f
  | Redo | Ball => if masked then 0 else f
  | Gaus | Diff => w * f
  | Vil => h * sqrt (fst a * fst a + snd a * snd a)
  | Vil2 => h * (fst a * fst a + snd a * snd a) / rR r
  end.
Definition fac (k : mask) (g : grid) (r : rk) (f h : R) (m2 : array) (ix iy iz : nat) : R :=
  factor k r f h (at0 g r ix iy iz) (rS r (idx g ix iy iz)) (m2 (v3 g + idx g ix iy iz)%nat).

(** Threads take the rows (iy, iz) in some order (:221-223), a row is done from left to right. *)
Definition rows (g : grid) (site : array -> nat -> nat -> nat -> array) (order : list (nat * nat)) (m2 : array) : array :=
  fold_left (fun m2 yz => fold_left (fun m2 ix => site m2 ix (fst yz) (snd yz)) (seq 0 (gL g)) m2) order m2.

(** buildc_k, :178-308. [padded]: false in buildc_k_map (:310-317). *)
Definition siteK (lut : option correction) (padded : bool) (k : mask) (g : grid) (r : rk) (m2 : array) (ix iy iz : nat) : array :=
  put m2 (if padded then odx g ix iy iz else idx g ix iy iz) (fac k g r (rR r) 1 m2 ix iy iz * turn lut g r ix iy iz (rV r (idx g ix iy iz))).
Definition buildK lut padded k g r order m2 := rows g (siteK lut padded (pick k) g r) order m2.
(** buildc_gx, :421-508 *)
Definition siteX (lut : option correction) (k : mask) (g : grid) (r : rk) (m2 : array) (ix iy iz : nat) : array :=
  put m2 (odx g ix iy iz) (fac k g r (rR r / rD r / 2) (1 / rD r / 2) m2 ix iy iz * turn lut g r ix iy iz (dx g r ix iy iz)).
Definition buildX lut k g r order m2 := rows g (siteX lut (pick k) g r) order m2.
(** buildc_gyz, :621-732. With Gaus and Diff the second half is written without padding (:713-714). *)
Definition siteYZ (lut : option correction) (k : mask) (g : grid) (r : rk) (m2 : array) (ix iy iz : nat) : array :=
  let f m2 := fac k g r (rR r / rD r / 2) (1 / rD r / 2) m2 ix iy iz in
  let m2' := put m2 (odx g ix iy iz) (f m2 * turn lut g r ix iy iz (dy g r ix iy iz)) in
  let o := match k with Gaus | Diff => idx g ix iy iz | _ => odx g ix iy iz end in
  put m2' (v3 g + o) (f m2' * turn lut g r ix iy iz (dz g r ix iy iz)).
Definition buildYZ lut k g r order m2 := rows g (siteYZ lut (pick k) g r) order m2.
(** buildc_v, :848-944: 2R sin of half the angle; in the second half R times atan2 of the real by the imaginary part, nothing for Gaus and Diff. *)
Definition siteV (k : mask) (g : grid) (r : rk) (m2 : array) (ix iy iz : nat) : array :=
  let a := at0 g r ix iy iz in
  let w := match k with
           | Flat | Saxi => 1
           | Redo | Ball => if rS r (idx g ix iy iz) then 0 else 1
           | Gaus | Diff => m2 (v3 g + idx g ix iy iz)%nat
           | Vil => sqrt (fst a * fst a + snd a * snd a) / rR r
           | Vil2 => (fst a * fst a + snd a * snd a) / rR r / rR r
           end in
  let m2' := put m2 (odx g ix iy iz) (w * 2 * rR r * sin (0.5 * ThetaModel.arg a)) in
  match k with
  | Gaus | Diff => m2'
  | _ => put m2' (v3 g + odx g ix iy iz) (w * rR r * ThetaModel.arg (snd a, fst a))
  end.
Definition buildV k g r order m2 := rows g (siteV (pick k) g r) order m2.
