(** Model of the Laplacian of the kernels: coefficients
    /repo/lib/scalar/scalarField.cpp:1515-1541 (setCO) and the sum over neighbours of
    /repo/include/propagator/inLapla.h:85-183 (lap_pd without wMod), which is also
    that of propXeon.h:176-239 and propThetaXeon.h. One lane, exact arithmetic. *)
From Coq Require Import Reals List.
From Verif Require Import KernelModel.
Import ListNotations.
Open Scope R_scope.

(** scalarField.cpp:1515-1541. [default] shares the case of one neighbour. *)
Definition setCO (newN : nat) : list R :=
  match newN with
  | 0%nat => []
  | 2%nat => [4 / 3; - 1 / 12]
  | 3%nat => [1.5; - 3 / 20; 1 / 90]
  | 4%nat => [1.6; - 0.2; 8 / 315; - 1 / 560]
  | 5%nat => [5 / 3; - 5 / 21; 5 / 126; - 5 / 1008; 1 / 3150]
  | _ => [1]
  end.

(** inLapla.h:167-179: one distance. *)
Definition shell (mel : R) (nb : dir -> R) : R :=
  ((nb Yp + nb Ym) + ((nb Xp + nb Xm) + (nb Zp + nb Zm))) + mel * (-6).

(** inLapla.h:45-47 and :88-183: sum over the distances 1..NN. *)
Definition lap (PC : list R) (NN : nat) (ood2 : R) (mel : R) (nb : nat -> dir -> R) : R :=
  fold_left (fun lap nv => lap + shell mel (nb nv) * (nth (nv - 1) PC 0 * ood2)) (seq 1 NN) 0.
