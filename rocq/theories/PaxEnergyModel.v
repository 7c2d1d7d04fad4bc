(** Model of the energies of the nonrelativistic field, /repo/lib/energy/energyPaxionXeon.cpp,
    with the driver /repo/lib/energy/energy.cpp:135-209. Exact arithmetic, site by site;
    which sites a register holds and where neighbours are found is in IndexModel, KernelModel
    and GhostModel. The GPU is not modelled. *)
From Coq Require Import Reals List Arith NArith Bool.
From Verif Require Import KernelModel LaneModel LaplModel ForceModel EnergyModel AxionModel ConserveSpec.
Import ListNotations.
Open Scope R_scope.

(** What the kernel reads at one site: its place in the box of its rank, psi = m + i v there
    and at the nearest neighbours, and v in the rows of the same x and z. *)
Record psite := PSite { qAt : cell; qPsi : R * R; qNb : dir -> R * R; qCol : nat -> R }.
(** R, AxionMass() and PhysSize()/Length() of energyPaxionCpu, :488-496. *)
Record pback := PBack { kR : R; kMa : R; kDelta : R }.
(** :508, and :35 once more. *)
Definition kO2 (b : pback) : R := 0.25 / kMa b / (kDelta b ^ 2) / kR b ^ 5 / kR b / kR b.
(** :509. The coupling of ICData is not read. *)
Definition kBeta (b : pback) : R := - 1 / 16 / kR b ^ 6.
(** :107-176 (double), :330-392 (single): the neighbours in y, up and down. Lane l of a
    register holds the row X[1] + l*YC. AVX-512, double: the neighbour across the edge of
    the folded rows gets the m of the other neighbour added, m and v alike (:115-116,
    :149-150). AVX-512, single: across the lower edge v's upper neighbour is replaced by
    the lower one, and the lower one is whatever the register held, [junk] (:337-339).
    AVX without AVX2, single: across the lower edge v is taken from other lanes, permute
    0b00000101, the halves swapped, blend 0b00010001 (:347-349). *)
Definition wrongLanes : list nat := [5; 1; 0; 0; 1; 5; 4; 4]%nat.
Definition pYs (P : prec) (I : isa) (n : nat) (junk : cell -> R) (x : psite) : (R * R) * (R * R) :=
  let up := qNb x Yp in let down := qNb x Ym in
  let row := snd (fst (qAt x)) in
  match P, I with
  | Double, AVX512 =>
      let YC := (n / 8)%nat in
      let X1 := (row mod YC)%nat in
      if (X1 =? 0)%nat then (up, (fst down + fst up, snd down + fst up))
      else if (X1 =? YC - 1)%nat then ((fst up + fst down, snd up + fst down), down)
      else (up, down)
  | Single, AVX512 =>
      let YC := (n / 16)%nat in
      if (row mod YC =? 0)%nat then ((fst up, snd down), (fst down, junk (qAt x))) else (up, down)
  | Single, AVX =>
      let YC := (n / 8)%nat in
      if (row mod YC =? 0)%nat then (up, (fst down, qCol x (YC - 1 + nth (row / YC) wrongLanes 0 * YC)%nat)) else (up, down)
  | _, _ => (up, down)
  end.
(** :187-225, :403-441 *)
Definition pSq (a b : R * R) : R := (fst a - fst b) * (fst a - fst b) + (snd a - snd b) * (snd a - snd b).
(** The five sums, by index (TH_GRX.. TH_POT; TH_KIN is the number), :227-240, :443-463, and
    their factors, :263, :478. *)
Definition pQuantity (P : prec) (I : isa) (n : nat) (junk : cell -> R) (i : nat) (x : psite) : R :=
  match i with
  | 0%nat => pSq (qNb x Xp) (qPsi x) + pSq (qNb x Xm) (qPsi x)
  | 1%nat => pSq (fst (pYs P I n junk x)) (qPsi x) + pSq (snd (pYs P I n junk x)) (qPsi x)
  | 2%nat => pSq (qNb x Zp) (qPsi x) + pSq (qNb x Zm) (qPsi x)
  | 3%nat => fst (qPsi x) * fst (qPsi x) + snd (qPsi x) * snd (qPsi x)
  | _ => let d := fst (qPsi x) * fst (qPsi x) + snd (qPsi x) * snd (qPsi x) in d * d
  end.
Definition pFactor (b : pback) (i : nat) : R :=
  match i with
  | 0%nat | 1%nat | 2%nat => kO2 b
  | 3%nat => 1
  | _ => kBeta b
  end.
(** :38, :254-258, :469-473: what is written to m2, with the places in reals; X[2] loses one
    slice in double precision (:93), Ng in single (:309). [nz]: slices of the rank. *)
Definition pMap (P : prec) (I : isa) (n nz Ng : nat) (junk : cell -> R) (b : pback) (x : psite) : list (nat * R) :=
  let '(i, j, k) := qAt x in
  let X2 := match P with Double => (k + Ng - 1)%nat | Single => k end in
  let iNx := (i + j * n + X2 * (n * n))%nat in
  let Vo := (Ng * (n * n))%nat in
  let Vh := (Vo + n * n * nz + Ng * Vo)%nat in
  let h := fun i => pQuantity P I n junk i x in
  [(iNx, h 3%nat); ((iNx + Vh)%nat, (h 0%nat + h 1%nat + h 2%nat) * kO2 b + h 4%nat * kBeta b)].
(** scalarField.cpp:300-303: reals of m2; scalarField.h:109: where its second half starts. *)
Definition m2Room (n nz Ng : nat) : nat := (2 * (n * n * (nz + 2 * Ng)))%nat.
Definition m2Half (n nz Ng : nat) : nat := (n * n * (nz + 2 * Ng))%nat.
(** energy(): as tEnergy of AxionModel; only the first five numbers are set. *)
Inductive preply := PRefused | PReply (E : nat -> option R) (m2 : list (list (nat * R))) | PReplyNoMap (E : nat -> option R).
Definition pEnergy (P : prec) (I : isa) (hasSd : bool) (n nz Ng : nat) (junk : cell -> R) (b : pback) (e : N) (rs : list (list (list psite))) : preply :=
  if hasMask e && negb hasSd then PRefused
  else
    let thread i l := rsum (map (pQuantity P I n junk i) l) in
    let rankSum i r := rsum (map (thread i) r) * pFactor b i in
    let E i := if (i <? 5)%nat then Some (rsum (map (rankSum i) rs) * (1 / INR (length (concat (concat rs))))) else None in
    if hasMap e then PReply E (map (fun r => flat_map (pMap P I n nz Ng junk b) (concat r)) rs) else PReplyNoMap E.
