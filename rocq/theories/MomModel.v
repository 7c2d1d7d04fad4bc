(** Model of lib/gen/momConf.cpp: initial conditions made in momentum space, and of what its callers in genConf.cpp give it.
    Numbers are real numbers; complex numbers are pairs. The random numbers are arguments: the generators are seeded from the machine
    (momConf.cpp:88-93), and the order in which the threads take the modes is any order. *)
From Coq Require Import Reals ZArith List Arith Permutation Bool.
Import ListNotations.
Local Open Scope R_scope.

Definition C := (R * R)%type.
Definition mulC (a b : C) : C := (fst a * fst b - snd a * snd b, fst a * snd b + snd a * fst b).
Definition scaC (k : R) (a : C) : C := (k * fst a, k * snd a).
Definition addC (a b : C) : C := (fst a + fst b, snd a + snd b).
Definition expI (x : R) : C := (cos x, sin x).

(** include/enum-field.h:332-345 *)
Inductive moco := MFlat | MSin | MVSinCos | MExp | MExp2 | Cole | KCole | Spax | MVThermal.
(** momConf.cpp:411-440: the kinds without a kernel of their own get the default one. *)
Definition kernelOf (m : moco) : moco := match m with KCole => MExp | _ => m end.

(** The box: length, depth, ranks; whether modes with negative first component are stored. *)
Record geo := Geo { gL : nat; gT : nat; gN : nat; gC : bool }.
(** momConf.cpp:96-102 *)
Definition rows (g : geo) : nat := gL g / gN g.
Definition maxLx (g : geo) : nat := if gC g then gL g else gL g / 2 + 1.
(** momConf.cpp:119-134: place in memory and momentum of a turn (oy, oz, ox) of the loop. *)
Definition turn := (nat * nat * nat)%type.
Definition place (g : geo) (t : turn) : nat := let '(oy, oz, ox) := t in (ox + oy * (maxLx g * gT g) + oz * maxLx g)%nat.
Definition signed (n o : nat) : Z := if (n / 2 <? o)%nat then (Z.of_nat o - Z.of_nat n)%Z else Z.of_nat o.
Definition momentum (g : geo) (rank : nat) (t : turn) : Z * Z * Z :=
  let '(oy, oz, ox) := t in (signed (gL g) ox, signed (gL g) (oy + rows g * rank), signed (gT g) oz).
(** momConf.cpp:136 *)
Definition modP (p : Z * Z * Z) : Z := let '(px, py, pz) := p in (pz * pz + py * py + px * px)%Z.
Definition turns (g : geo) : list turn := list_prod (list_prod (seq 0 (rows g)) (seq 0 (gT g))) (seq 0 (maxLx g)).

(** include/enum-field.h:878-895, without what is not used. *)
Record parms := Parms { kMax : nat; kCrt : R; mass2 : R; k0 : R; tab : list R; randommom : bool }.
(** momConf.cpp:69-80 *)
Definition kmax (g : geo) (q : parms) : nat := if (gL g / 2 - 1 <? kMax q)%nat then (gL g / 2 - 1)%nat else kMax q.
(** The random numbers of a turn: phase, size, and again (thermal). *)
Record dice := Dice { ph : R; sz : R; ph2 : R; sz2 : R }.
(** momConf.cpp:153-156 *)
Definition marsa (q : parms) (d : dice) : C := if randommom q then scaC (sz d) (expI (ph d)) else expI (ph d).
(** momConf.cpp:158-236: a mode within the cut; None: the table is read past its end. The second value is written in V if there is one. *)
Definition amp (g : geo) (m : moco) (q : parms) (d : dice) (P : Z) : option (C * option C) :=
  let z := marsa q d in
  let k := sqrt (IZR P) / kCrt q in
  let k2 := IZR P / (kCrt q * kCrt q) in
  let zero := (P =? 0)%Z in
  match m with
  | MFlat => Some (z, None)
  | Spax => let b := Z.to_nat (Z.sqrt P) in
            match nth_error (tab q) b, nth_error (tab q) (b + 1) with
            | Some c0, Some c1 => Some (scaC (c0 + (c1 - c0) * (sqrt (IZR P) - INR b)) z, None)
            | _, _ => None
            end
  | MSin => Some (scaC (if zero then 1 else sin k / k) z, None)
  | MVSinCos => let sc := if zero then 1 else sin k / k in Some (scaC sc z, Some (scaC (if zero then 0 else cos k - sc) z))
  | MVThermal => let mP := sqrt (sqrt (IZR P * k0 q * k0 q + mass2 q)) in
                 let mE := sqrt (1 / (exp (mP * mP / kCrt q) - 1)) in
                 let z2 := scaC (sz2 d) (expI (ph2 d)) in
                 Some (if zero then (0, 0) else scaC (mE / mP) z, Some (if zero then scaC (sqrt (kCrt q)) z2 else scaC (mE * mP) z2))
  | MExp => Some (scaC (if zero then 1 else exp (- k)) z, None)
  | MExp2 => Some (scaC (if zero then 1 else exp (- k2)) z, None)
  | Cole => Some (scaC (if zero then 1 else exp (- (4 * kCrt q * kCrt q / (INR (gL g) * INR (gL g)) * k2)) / Rpower (k2 + 1) 1.5) z, None)
  | KCole => Some (scaC (if zero then 1 else exp (- k2)) z, None)
  end.

Record store := Store { fM : nat -> C; fV : nat -> C }.
Definition set (i : nat) (x : C) (f : nat -> C) : nat -> C := fun j => if (j =? i)%nat then x else f j.
(** momConf.cpp:148-241: a turn. *)
Definition writeAt (g : geo) (m : moco) (q : parms) (dd : turn -> dice) (rank : nat) (s : option store) (t : turn) : option store :=
  match s with
  | None => None
  | Some s =>
      let P := modP (momentum g rank t) in
      if (P <=? 3 * (Z.of_nat (kmax g q) * Z.of_nat (kmax g q)))%Z then
        match amp g m q (dd t) P with
        | None => None
        | Some (a, None) => Some (Store (set (place g t) a (fM s)) (fV s))
        | Some (a, Some b) => Some (Store (set (place g t) a (fM s)) (set (place g t) b (fV s)))
        end
      else Some (Store (set (place g t) (0, 0) (fM s)) (fV s))
  end.
(** momConf.cpp:317-361: the mode without momentum, and the global mode0 of the rank. [phase]: atan2. *)
Definition adjust (m : moco) (rank : nat) (phase : C -> R) (mode0 : R) (s : store) : R * store :=
  match m with
  | Spax => (mode0, s)
  | _ =>
      if (rank =? 0)%nat then
        let inV := match m with MVSinCos | MVThermal => true | _ => false end in
        if Rlt_dec mode0 3.141597 then
          (mode0, if inV then Store (fM s) (set 0 (expI mode0) (fV s)) else Store (set 0 (expI mode0) (fM s)) (fV s))
        else (phase (if inV then fV s 0%nat else fM s 0%nat), s)
      else (mode0, s)
  end.
(** momXeon and momConf: the order of the turns is an argument. *)
Definition momXeon (g : geo) (m : moco) (q : parms) (dd : turn -> dice) (phase : C -> R) (order : list turn) (rank : nat) (mode0 : R) (s : store) : option (R * store) :=
  match fold_left (writeAt g m q dd rank) order (Some s) with
  | None => None
  | Some s => Some (adjust m rank phase mode0 s)
  end.
Definition momConf (g : geo) (m : moco) := momXeon g (kernelOf m).

(** *** What the callers do *)
(** genConf.cpp:953-966: a file read until its end is met; [ends] says that the last line ends with a new line, and then the
    last values are taken again. *)
Definition readTab {A} (ends : bool) (l : list A) : list A :=
  match rev l with [] => [] | x :: _ => if ends then l ++ [x] else l end.
(** genConf.cpp:1155, 1160-1167, 1219-1226 conftkac: critical momentum, and the two factors after the transforms. *)
Definition kCritz (size z : R) : R := size / (2 * PI * z).
Definition tkFactors (theta2 kcr z : R) : R * R := let norma := PI / sqrt (3 * theta2 / kcr) in (norma, norma / z).
(** genConf.cpp:1283-1285 confthermal *)
Definition mS2 (lamP Rs kcr : R) : R :=
  let T2 := kcr * kcr in let R2 := Rs * Rs in lamP * (if Rlt_dec 3 T2 then R2 * (T2 / 3 - 1) else 2 * R2 * (1 - T2 / 3)).

(** *** A string given by points: momConf.cpp:243-312 *)
Definition pt := (R * R * R)%type.
Definition dotZ (p : Z * Z * Z) (x : pt) : R := let '(px, py, pz) := p in let '(a, b, c) := x in IZR px * a + IZR py * b + IZR pz * c.
Definition minus (x y : pt) : pt := let '(a, b, c) := x in let '(d, e, f) := y in (a - d, b - e, c - f).
(** momConf.cpp:272-277: the comma makes the first value 0. *)
Definition aux (k0N pdx : R) : C := if Req_EM_T pdx 0 then (0, 0) else scaC (/ (k0N * pdx)) (sin (k0N * pdx), cos (k0N * pdx) - 1).
(** momConf.cpp:266-306: the factor of a piece, by the first component that is not zero. *)
Definition factor (p : Z * Z * Z) (d : pt) : R :=
  let '(px, py, pz) := p in let '(dx, dy, dz) := d in
  if (px =? 0)%Z then if (py =? 0)%Z then (IZR px * dy - IZR py * dx) / (IZR pz * IZR (modP p)) else (IZR pz * dx - IZR px * dz) / (IZR py * IZR (modP p))
  else (IZR py * dz - IZR pz * dy) / (IZR px * IZR (modP p)).
Definition piece (k0N : R) (p : Z * Z * Z) (a b : pt) : C :=
  scaC (factor p (minus b a)) (mulC (expI (- (k0N * dotZ p a))) (aux k0N (dotZ p (minus b a)))).
(** The turns il of the loop; None: a point past the last is read. *)
Fixpoint sumPieces (k0N : R) (p : Z * Z * Z) (pts : list pt) (n il : nat) (su : C) : option C :=
  match n with
  | O => Some su
  | S n => match nth_error pts il, nth_error pts (il + 1) with
           | Some a, Some b => sumPieces k0N p pts n (il + 1) (addC su (piece k0N p a b))
           | _, _ => None
           end
  end.
Definition stringMode (k0N ik02 : R) (p : Z * Z * Z) (pts : list pt) : option C :=
  let '(px, py, pz) := p in
  match (if negb (px =? 0)%Z then sumPieces k0N p pts (length pts - 1) 0 (0, 0)
         else if negb (py =? 0)%Z || negb (pz =? 0)%Z then sumPieces k0N p pts (length pts) 0 (0, 0)
         else Some (0, 0)) with
  | None => None
  | Some su => Some (scaC ik02 su)
  end.
