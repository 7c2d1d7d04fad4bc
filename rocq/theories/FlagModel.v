(** Model of the option and status words (include/enum-field.h).

    The enumerators are natural numbers below 2^31, so that the code's
    operations on int are the operations on natural numbers. *)
From Coq Require Import NArith List Bool.
Import ListNotations.
Local Open Scope N_scope.

(** operator & and operator | on an enumeration, and their use as a condition
    (enum-field.h:997-1008). *)
Definition band (a b : N) : N := N.land a b.
Definition bor (a b : N) : N := N.lor a b.
Definition on (a : N) : bool := negb (a =? 0).

(** A word put together from flags with |. *)
Definition orAll (l : list N) : N := fold_right bor 0 l.

(** *** String and wall flags of a site (enum-field.h:66-83) *)
Inductive strFlag :=
| XYp | YZp | ZXp | XYm | YZm | ZXm | Wall | Mask.

Definition strCode (f : strFlag) : N :=
  match f with
  | XYp => 1 | YZp => 2 | ZXp => 4 | XYm => 8 | YZm => 16 | ZXm => 32
  | Wall => 64 | Mask => 128
  end.

Definition STRING_XY := 9.
Definition STRING_YZ := 18.
Definition STRING_ZX := 36.
Definition STRING_ONLY := 63.
Definition STRING_DEFECT := 127.

Definition strWord (l : list strFlag) : N := orAll (map strCode l).

(** *** Potential words (enum-field.h:99-125) *)
Inductive qcdPot := QCD0 | QCD1 | QCDV | QCD2 | QCDL | QCDC.
Inductive pqPot := PQ1 | PQ2 | PQ3.

Definition qcdCode (q : qcdPot) : N :=
  match q with QCD0 => 1 | QCD1 => 2 | QCDV => 4 | QCD2 => 8 | QCDL => 16 | QCDC => 32 end.
Definition pqCode (p : pqPot) : N :=
  match p with PQ3 => 512 | PQ1 => 1024 | PQ2 => 2048 end.

Definition V_QCDS := 64.
Definition V_EVOL_THETA := 4096.
Definition V_EVOL_RHO := 8192.
Definition V_DAMP_RHO := 16384.
Definition V_DAMP_ALL := 32768.
Definition V_QCD := 63.
Definition V_PQ := 1024 + 2048 + 512.
Definition V_TYPE := 2048 + 1024 + 512 + 32 + 16 + 8 + 4 + 2 + 1.
Definition V_EVOL := 4096 + 8192.
Definition V_DAMP := 49152.

(** A choice of potential and the four flags; either family may be absent
    (V_NONE, enum-field.h:101). *)
Record potChoice := mkPot {
  qcd : option qcdPot; pq : option pqPot;
  evTheta : bool; evRho : bool; dRho : bool; dAll : bool }.

Definition optCode {X} (f : X -> N) (o : option X) : N := match o with Some x => f x | None => 0 end.
Definition flag (b : bool) (c : N) : N := if b then c else 0.

Definition potWord (c : potChoice) : N :=
  orAll [optCode qcdCode (qcd c); optCode pqCode (pq c);
         flag (evTheta c) V_EVOL_THETA; flag (evRho c) V_EVOL_RHO;
         flag (dRho c) V_DAMP_RHO; flag (dAll c) V_DAMP_ALL].

(** *** Propagator words (enum-field.h:523-566) *)
Inductive propKind := LEAP | OMELYAN2 | OMELYAN4 | RKN4 | MLEAP.
Definition kindCode (k : propKind) : N :=
  match k with LEAP => 16 | OMELYAN2 => 32 | OMELYAN4 => 64 | RKN4 => 128 | MLEAP => 256 end.
(** The bits that say how the Laplacian is done: the N-neighbour stencil, the
    spectral flags and the bit 8 of the PROP_N... values. *)
Inductive lapKind := BASE | SPEC | FSPEC | NNEIG.
Definition lapCode (k : lapKind) : N :=
  match k with BASE => 1 | SPEC => 2 | FSPEC => 4 | NNEIG => 8 end.
Definition PROP_MASK := 496.
Definition PROP_LAPMASK := 15.
Definition propWord (k : propKind) (l : lapKind) : N := bor (kindCode k) (lapCode l).

(** *** Requested analyses (enum-field.h:707-741) *)
Inductive meas :=
| BINTHETA | BINRHO | BINLOGTHETA2 | BINDELTA | AUX | STRING | STRINGMAP | STRINGCOO
| ENERGY | ENERGY3DMAP | REDENE3DMAP | MAP2D | MAP3D | MASK | PSP_A | PSP_S | NSP_A | NSP_S
| NNSPEC | MULTICON.
Definition measBit (m : meas) : N :=
  match m with
  | BINTHETA => 0 | BINRHO => 1 | BINLOGTHETA2 => 2 | BINDELTA => 3 | AUX => 4
  | STRING => 5 | STRINGMAP => 6 | STRINGCOO => 7 | ENERGY => 8 | ENERGY3DMAP => 9
  | REDENE3DMAP => 10 | MAP2D => 11 | MAP3D => 12 | MASK => 13 | PSP_A => 14 | PSP_S => 15
  | NSP_A => 16 | NSP_S => 17 | NNSPEC => 18 | MULTICON => 19
  end.
Definition measCode (m : meas) : N := 2 ^ measBit m.
Definition measWord (l : list meas) : N := orAll (map measCode l).
Definition MEAS_ALLBIN := 15.
Definition MEAS_SPECTRUM := 516096.
Definition MEAS_SPECTRUMA := 81920.
Definition MEAS_NEEDENERGY := 575240.
Definition MEAS_NEEDENERGYM2 := 574984.

(** *** Field selectors (enum-field.h:26-38) *)
Definition FIELD_M := 1.
Definition FIELD_V := 2.
Definition FIELD_MV := 3.
Definition FIELD_M2 := 4.
Definition FIELD_M2H := 5.
Definition FIELD_M2V := 6.
Definition FIELD_ALL := 7.
