(** What the energies of the nonrelativistic field should be. *)
From Coq Require Import Reals List Arith Permutation.
From Verif Require Import KernelModel LaneModel LaplModel ForceModel EnergyModel EnergySpec ConserveSpec CosmoModel PaxModel PaxSpec PaxEnergyModel.
Import ListNotations.
Open Scope R_scope.

(** Densities as documented in energyPaxionXeon.cpp:498-506: |grad psi|^2/(2 mA R^5), the
    gradient being the mean of the two one-sided ones, and -|psi|^4/(16 R^6). *)
Definition gradPsi (b : pback) (x : psite) (next prev : dir) : R :=
  (abs2 (minus (qNb x next) (qPsi x)) + abs2 (minus (qPsi x) (qNb x prev))) / 2 / kDelta b ^ 2 / (2 * kMa b * kR b ^ 5).
Definition selfPsi (b : pback) (x : psite) : R := - (abs2 (qPsi x) ^ 2 / (16 * kR b ^ 6)).
Definition psites (rs : list (list (list psite))) : list psite := concat (concat rs).
Definition replies (r : preply) (E : nat -> option R) : Prop := (exists m2, r = PReply E m2) \/ r = PReplyNoMap E.
(** Registers whose neighbours in y are read as they should be. *)
Definition goodLanes (P : prec) (I : isa) : Prop := I = AVX2 \/ I = SSE \/ (I = AVX /\ P = Double).

(** A periodic box with field m + i v *)
Definition psiteAt (n z : nat) (m v : fld) (x : cell) : psite :=
  let '(i, j, k) := x in
  PSite x (m x, v x) (fun d => (m (stepTo n z 1 d x), v (stepTo n z 1 d x))) (fun y => v (i, y, k)).
(** The number that is reported for it, split in any way. *)
Definition reportedNumber (P : prec) (I : isa) (b : pback) (n z : nat) (m v : fld) (e : R) : Prop :=
  exists hs nz Ng junk rs E, Permutation (psites rs) (map (psiteAt n z m v) (box n z)) /\
    replies (pEnergy P I hs n nz Ng junk b 1 rs) E /\ E 3%nat = Some e.
(** The energy that is reported: gradients and self-interaction. *)
Definition reportedEnergy (P : prec) (I : isa) (b : pback) (n z : nat) (m v : fld) (e : R) : Prop :=
  exists hs nz Ng junk rs E x y w p, Permutation (psites rs) (map (psiteAt n z m v) (box n z)) /\
    replies (pEnergy P I hs n nz Ng junk b 1 rs) E /\ E 0%nat = Some x /\ E 1%nat = Some y /\ E 2%nat = Some w /\ E 4%nat = Some p /\ e = x + y + w + p.
(** The field moves as the Schroedinger equation says at time t. *)
Definition pObeys (r : prun) (phi : cell -> R) (m v : R -> fld) (t : R) : Prop :=
  forall x, In x (box (rn r) (rnz r)) -> derivable_pt_lim (fun u => m u x) t (rateM r phi t (m t) (v t) x) /\
    derivable_pt_lim (fun u => v u x) t (rateV r phi t (m t) (v t) x).
(** Place of a site in the box of a rank. *)
Definition placeOf (n : nat) (x : cell) : nat := let '(i, j, k) := x in (i + n * (j + n * k))%nat.
