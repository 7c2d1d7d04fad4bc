(** What padding and unpadding should do, without reference to how it is done. *)
From Coq Require Import List Arith ZArith Bool.
From Verif Require Import Base PadModel.
Local Open Scope nat_scope.

Section Spec.
Context {A : Type}.
(** [len] numbers of row [sl] of the data that begins at [p] with rows [stride] apart *)
Definition rowCell (p : arr * nat) (stride sl j : nat) : loc := (fst p, snd p + sl * stride + j).
Definition inRows (p : arr * nat) (stride len rows : nat) (l : loc) : Prop :=
  exists sl j, sl < rows /\ j < len /\ l = rowCell p stride sl j.
(** every row of the source before is a row of the destination after *)
Definition rowsCopied (to : arr * nat) (sd : nat) (from : arr * nat) (so len rows : nat) (before after : mem A) : Prop :=
  forall sl j, sl < rows -> j < len -> after (rowCell to sd sl j) = before (rowCell from so sl j).
Definition restKept (touched : loc -> Prop) (before after : mem A) : Prop :=
  forall l, ~ touched l -> after l = before l.
End Spec.

(** Where the data named by each selector begin: the array, and the position in it. A selector with S skips the
    ghost slices in front; v has them only in the Paxion; H is the second half of m2. *)
Definition dataOf (g : geom) (p : pidx) : arr * nat :=
  match p with
  | PM => (ArrM, 0)
  | PMS => (ArrM, gfs g * (gLy g * gLy g) * gNg g)
  | PV => (ArrV, 0)
  | PVS => (ArrV, if gpax g then gfs g * (gLy g * gLy g) * gNg g else 0)
  | PM2 => (ArrM2, 0)
  | PM2S => (ArrM2, gfs g * (gLy g * gLy g) * gNg g)
  | PM2H => (ArrM2, gLy g * gLy g * (gLz g + 2 * gNg g))
  | PM2HS => (ArrM2, gLy g * gLy g * (gLz g + 2 * gNg g) + gfs g * (gLy g * gLy g) * gNg g)
  end.

(** Two stretches of memory with no common cell *)
Definition apart (p : arr * nat) (n : nat) (q : arr * nat) (k : nat) : Prop :=
  fst p <> fst q \/ snd p + n <= snd q \/ snd q + k <= snd p.

(** Cells spanned by all rows, bare and padded (the padding of the last row is not written) *)
Definition bareSpan (g : geom) : nat := gLy g * gLz g * gLy g.
Definition padSpan (g : geom) : nat := (gLy g * gLz g - 1) * (gLy g + 2) + gLy g.

(** The pairs for which the padding is claimed: in place, forward by the ghosts, or apart; and backward
    by the ghosts if the ghosts are long enough. *)
Definition padAllowed (g : geom) (o d : pidx) : Prop :=
  o = d
  \/ (o, d) = (PM, PMS) \/ (o, d) = (PV, PVS) \/ (o, d) = (PM2, PM2S) \/ (o, d) = (PM2H, PM2HS)
  \/ ((o, d) = (PVS, PV) /\ gpax g = false)
  \/ (((o, d) = (PMS, PM) \/ (o, d) = (PVS, PV) \/ (o, d) = (PM2S, PM2) \/ (o, d) = (PM2HS, PM2H))
      /\ padSpan g <= gfs g * (gLy g * gLy g) * gNg g)
  \/ ((1 < Z.abs (pcode o - pcode d))%Z /\
      apart (dataOf g o) (bareSpan g) (dataOf g d) (padSpan g)).
Definition unpadAllowed (g : geom) (o d : pidx) : Prop :=
  (Z.abs (pcode o - pcode d) <= 1)%Z
  \/ ((1 < Z.abs (pcode o - pcode d))%Z /\
      apart (dataOf g o) (padSpan g) (dataOf g d) (bareSpan g)).
