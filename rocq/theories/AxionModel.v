(** Model of the field that holds only the axion (FIELD_AXION, and FIELD_AXION_MOD, which
    is kept within one period): the update of one site,
    /repo/include/propagator/propThetaXeon.h, and its energies,
    /repo/lib/energy/energyThetaXeon.cpp with the driver /repo/lib/energy/energy.cpp:96-209.
    Exact arithmetic, site by site; which sites a register holds and where neighbours are
    found is in IndexModel, KernelModel and GhostModel. The GPU is not modelled. *)
From Coq Require Import Reals List Arith NArith Bool.
From Verif Require Import KernelModel LaneModel LaplModel ForceModel EnergyModel.
Import ListNotations.
Open Scope R_scope.

(** mod_pd and mod_ps, triSimd.h:486-514, :873-901: of x + md, x - md and x all those of
    least square, added up (the three branches of the preprocessor are the same). *)
Definition modR (x md : R) : R :=
  let least := Rmin (Rmin ((x + md) * (x + md)) ((x - md) * (x - md))) (x * x) in
  (if Req_EM_T least ((x + md) * (x + md)) then x + md else 0)
  + (if Req_EM_T least ((x - md) * (x - md)) then x - md else 0)
  + (if Req_EM_T least (x * x) then x else 0).

(** ** The update: propThetaXeon.h *)
(** Fields of PropParms that the kernel reads, and dz*c, dz*d: propThetaXeon.h:33-44,
    :65-66. *)
Record tparms := TParms { tR : R; tMa2 : R; tRpp : R; tBeta : R; tDzc : R; tDzd : R }.
(** :69, :353 *)
Definition tPeriod (r : R) : R := 2 * PI * r.
(** :222-263, :495-536: one distance, with the difference to each neighbour reduced to
    one period (wMod) or not. *)
Definition tShell (wMod : bool) (md mel : R) (nb : dir -> R) : R :=
  if wMod then
    modR (nb Ym - mel) md + (modR (nb Yp - mel) md + (modR (nb Zm - mel) md + (modR (nb Zp - mel) md
      + (modR (nb Xm - mel) md + modR (nb Xp - mel) md))))
  else shell mel nb.
(** :161-270: sum over the distances 1..NN with the coefficients of setCO. *)
Definition tLap (wMod : bool) (PC : list R) (NN : nat) (ood2 md mel : R) (nb : nat -> dir -> R) : R :=
  fold_left (fun a nv => a + tShell wMod md mel (nb nv) * (nth (nv - 1) PC 0 * ood2)) (seq 1 NN) 0.
(** :739-805: which kernel runs. None: an error is logged and nothing is done. V_QCDS is
    never chosen ("sat" is false). *)
Definition tKernel (q : qcd) : option qcd :=
  match q with
  | QCD0 => Some QCD0
  | QCD1 | QCDV | QCDC => Some QCDC
  | QCDL => Some QCDL
  | QCD2 => None
  end.
(** :67, :351 *)
Definition tZQ (c : tparms) : R := tMa2 c * tR c * tR c * tR c.
(** :272-302 (double), :540-569 (single). 0.1666667 is a decimal literal. *)
Definition tAccel (P : prec) (k : qcd) (c : tparms) (lp mel : R) : R :=
  let th := mel * (1 / tR c) in
  match k with
  | QCD0 => lp + tRpp c * mel
  | QCDL =>
      match P with
      | Double => lp - (tZQ c * th - tRpp c * mel)
      | Single => let w := th * th * (0.1666667 * tBeta c) in
                  lp - (tZQ c * (th * (1 - (w - w * w * 0.3))) - tRpp c * mel)
      end
  | _ => lp - (tZQ c * sin th - tRpp c * mel)
  end.
(** :303-324, :576-595: new velocity, new value of the other buffer. [m2] is what that
    buffer held. *)
Definition tStep (wMod : bool) (P : prec) (q : qcd) (c : tparms) (lp mel vel m2 : R) : R * R :=
  match tKernel q with
  | None => (vel, m2)
  | Some k =>
      let v' := vel + tAccel P k c lp mel * tDzc c in
      let x := mel + v' * tDzd c in
      (v', if wMod then modR x (tPeriod (tR c)) else x)
  end.

(** ** The energies: energyThetaXeon.cpp *)
(** What the kernel reads at one site: field, velocity, nearest neighbours, and y. *)
Record tsite := TSite { tM : R; tV : R; tNb : dir -> R; tRow : nat }.
(** R, z, frw, delta2, aMass2 of energyThetaCpu, :471-487. *)
Record tback := TBack { bR : R; bZ : R; bFrw : R; bDelta2 : R; bMa2 : R }.
(** :59-67, :279-287, :474 *)
Definition bO2 (b : tback) : R := 0.25 / bDelta2 b * ((1 / bR b) * (1 / bR b)) * ((1 / bR b) * (1 / bR b)).
Definition bD1 (b : tback) : R := bFrw b * bR b / bZ b.
Definition bIz4 (b : tback) : R := ((1 / bR b) * (1 / bR b)) * ((1 / bR b) * (1 / bR b)).
(** :121-177: the neighbours in y. Lane l of a register holds the row X[1] + l*YC. With
    AVX-512 and double precision the neighbour across the edge of the folded rows gets
    the other neighbour added (:126, :150). *)
Definition tYs (P : prec) (I : isa) (n : nat) (x : tsite) : R * R :=
  let up := tNb x Yp in let down := tNb x Ym in
  match P, I with
  | Double, AVX512 =>
      let YC := (n / 8)%nat in
      let X1 := (tRow x mod YC)%nat in
      if (X1 =? 0)%nat then (up, down + up)
      else if (X1 =? YC - 1)%nat then (up + down, down)
      else (up, down)
  | _, _ => (up, down)
  end.
(** :185-233, :419-463 *)
Definition tDiff (wMod : bool) (b : tback) (a mel : R) : R :=
  if wMod then modR (a - mel) (tPeriod (bR b)) else a - mel.
Definition tSquares (wMod : bool) (b : tback) (mel p n : R) : R :=
  tDiff wMod b p mel * tDiff wMod b p mel + tDiff wMod b n mel * tDiff wMod b n mel.
(** :235-240, :471-477 *)
Definition tKin (b : tback) (x : tsite) : R :=
  let u := tV x - bD1 b * (tM x * (1 / bR b)) in u * u.
Definition tPot (b : tback) (x : tsite) : R :=
  let s := sin (0.5 * (tM x * (1 / bR b))) in s * s * 2.
(** The five sums, by index (enum-field.h:370-381: TH_GRX.. TH_POT), and their factors
    (:268, :506). *)
Definition tQuantity (P : prec) (I : isa) (wMod : bool) (n : nat) (b : tback) (i : nat) (x : tsite) : R :=
  match i with
  | 0%nat => tSquares wMod b (tM x) (tNb x Xp) (tNb x Xm)
  | 1%nat => tSquares wMod b (tM x) (fst (tYs P I n x)) (snd (tYs P I n x))
  | 2%nat => tSquares wMod b (tM x) (tNb x Zp) (tNb x Zm)
  | 3%nat => tKin b x
  | _ => tPot b x
  end.
Definition tFactor (b : tback) (i : nat) : R :=
  match i with
  | 0%nat | 1%nat | 2%nat => bO2 b
  | 3%nat => bIz4 b * 0.5
  | _ => bMa2 b
  end.
(** :260-263, :497-501 *)
Definition tMap (P : prec) (I : isa) (wMod : bool) (n : nat) (b : tback) (x : tsite) : R :=
  let h := fun i => tQuantity P I wMod n b i x in
  (h 0%nat + h 1%nat + h 2%nat) * bO2 b + h 3%nat * bIz4 b * 0.5 + h 4%nat * bMa2 b.
(** energy(): the threads of each rank add their sites (reduction of :95, :316), the ranks
    are added (energy.cpp:194) and the first five numbers divided by the number of sites;
    the other entries of the caller's array are not set. The map is written for every
    request that has a bit of EN_MAP, site by site of each rank. *)
Definition rsum (l : list R) : R := fold_right Rplus 0 l.
Inductive treply := TRefused | TReply (E : nat -> option R) (m2 : list (list R)) | TReplyNoMap (E : nat -> option R).
Definition tEnergy (P : prec) (I : isa) (wMod hasSd : bool) (n : nat) (b : tback) (e : N) (rs : list (list (list tsite))) : treply :=
  if hasMask e && negb hasSd then TRefused
  else
    let thread i l := rsum (map (tQuantity P I wMod n b i) l) in
    let rankSum i r := rsum (map (thread i) r) * tFactor b i in
    let E i := if (i <? 5)%nat then Some (rsum (map (rankSum i) rs) * (1 / INR (length (concat (concat rs))))) else None in
    if hasMap e then TReply E (map (fun r => map (tMap P I wMod n b) (concat r)) rs) else TReplyNoMap E.
