(** What the spectra of a measurement should be (C107), without the program's own tables. *)
From Coq Require Import List Bool ZArith QArith.
From Verif Require Import MeasModel.
Import ListNotations.

(** Whether a mask has a radius. *)
Definition hasRadius (k : mk) : Prop := ~ In k [Flat; Vi; Vi2].

(** The name of the spectrum of quantity q outside the mask k of radius r. *)
Definition named (lab : Q -> Z) (q : qty) (k : mk) (r : Q) (n : name) : Prop :=
  n_q n = q /\ n_k n = k /\ (hasRadius k -> n_r n = Some (lab r)) /\ (~ hasRadius k -> n_r n = None).

(** The numbers under a name are the right ones: that quantity, for that mask, reading the mask of that radius
    in lattice units. *)
Definition rightFor (scale : Q -> Q) (q : qty) (k : mk) (r : Q) (b : bins) : Prop :=
  match q with
  | QMask => b = Stuff QMask k (Some (k, scale r))
  | _ => (hasRadius k -> b = Stuff q k (Some (k, scale r))) /\ (~ hasRadius k -> b = Stuff q k None)
  end.

(** Which quantities are asked for. *)
Definition wanted (ft : fieldType) (mass : bool) (a : ask) (q : qty) : Prop :=
  let n := a_n a in
  let radial := ft = SaxionField /\ a_nspS a = true in
  match q with
  | QK => rK n = true | QG => rG n = true | QV => rV n = true /\ mass = true | QS => rS n = true /\ mass = true
  | QCK => rCK n = true | QCG => rCG n = true | QCV => rCV n = true /\ mass = true | QCS => rCS n = true /\ mass = true
  | QKS => radial /\ rK n = true | QGS => radial /\ rG n = true | QVS => radial /\ rV n = true
  | QMask | QP => False
  end.

(** The masks that mean something for a field. *)
Definition ofField (ft : fieldType) : list mk :=
  match ft with
  | SaxionField => [Flat; Vi; Vi2; Bal; Red; Gau; Dif]
  | AxionField => [Flat; Axit; Axit2]
  end.

Definition spectrumThere scale lab q k r (f : file) : Prop :=
  forall n, named lab q k r n -> exists b, f n = Some b /\ rightFor scale q k r b.
