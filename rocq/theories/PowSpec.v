(** What a binned spectrum should be. *)
From Coq Require Import List Arith ZArith QArith.
From Verif Require Import PowModel.
Local Open Scope nat_scope.

(** the frequency of Fourier index n on a side of length L: -L/2 < k <= L/2 *)
Definition freq (L n : nat) : Z := if L / 2 <? n then (Z.of_nat n - Z.of_nat L)%Z else Z.of_nat n.
Definition negate (L n : nat) : nat := if n =? 0 then 0 else L - n.
(** the full grid of modes *)
Definition kvec (g : sgeom) (x y z : nat) : Z * Z * Z := (freq (sLy g) x, freq (sLy g) y, freq (sTz g) z).
(** |k|^2 *)
Definition normSq (k : Z * Z * Z) : nat := let '(x, y, z) := k in Z.to_nat (x * x + y * y + z * z).
(** bin j holds the modes with  j <= |k| nbins/powMax < j+1 *)
Definition inShell (g : sgeom) (k : Z * Z * Z) (j : nat) : Prop :=
  j * j * (powMax g * powMax g) <= nbins g * nbins g * normSq k /\
  nbins g * nbins g * normSq k < (j + 1) * (j + 1) * (powMax g * powMax g).
Definition inShellb (g : sgeom) (k : Z * Z * Z) (j : nat) : bool :=
  (j * j * (powMax g * powMax g) <=? nbins g * nbins g * normSq k) &&
  (nbins g * nbins g * normSq k <? (j + 1) * (j + 1) * (powMax g * powMax g)).
(** sum over the modes of the full grid in bin j *)
Definition shellSum (g : sgeom) (j : nat) (f : nat -> nat -> nat -> Q) : Q :=
  sumQ (sTz g) (fun z => sumQ (sLy g) (fun y => sumQ (sLy g) (fun x =>
    if inShellb g (kvec g x y z) j then f x y z else 0%Q))).
(** the power of a real field: opposite modes have the same power *)
Definition realPower (g : sgeom) (P : nat -> nat -> nat -> Q) : Prop :=
  forall x y z, x < sLy g -> y < sLy g -> z < sTz g -> (P x y z == P (negate (sLy g) x) (negate (sLy g) y) (negate (sTz g) z))%Q.
(** how a transposed half-complex transform leaves the power on the ranks: rank r has a block of
    Ly/R values of ky; x runs fastest, then z *)
Definition spread (g : sgeom) (P : nat -> nat -> nat -> Q) (pw : nat -> nat -> Q) : Prop :=
  forall r x y z, r < sR g -> x < sLx g -> y < sLy g / sR g -> z < sTz g ->
    (pw r (x + sLx g * (z + sTz g * y))%nat == P x (r * (sLy g / sR g) + y)%nat z)%Q.
(** The vectors each spectrum is asked for, and the value one mode of power P has in it. Written from the
    meaning of the spectra (include/enum-field.h:574-594), without the tables of the model. *)
Definition isCount (st : stype) : bool := match st with SNN | SAK => true | _ => false end.
Definition target (st : stype) (b : bvec) : bool :=
  match b with
  | BK => match st with SK | SKK | SKS => true | _ => false end
  | BG => match st with SG | SGS | SGV | SGVS | SGaS | SGaSadd => true | _ => false end
  | BV => match st with SV | SVS | SGV | SGVS | SVV => true | _ => false end
  | BVnl => match st with SVNL => true | _ => false end
  | BP => match st with SP => true | _ => false end
  | BPS => match st with SPS => true | _ => false end
  | BNN => match st with SNN => true | _ => false end
  | BAK => match st with SAK => true | _ => false end
  end.
(** vectors not asked for, but summed over the ranks all the same *)
Definition alsoSummed (st : stype) (b : bvec) : bool :=
  match b with
  | BG => match st with SV | SVS => true | _ => false end
  | BV => match st with SGS => true | _ => false end
  | _ => false
  end.
(** squared wave number in units of the grid, and the frequency of the differentiated direction *)
Definition ksquare (g : sgeom) (x y z : nat) : Q :=
  inject_Z (freq (sLy g) x * freq (sLy g) x + freq (sLy g) y * freq (sLy g) y + freq (sTz g) z * freq (sTz g) z).
Definition along (g : sgeom) (c : sconst) (x y z : nat) : nat :=
  Z.to_nat (Z.abs (match ctl c with 1 => freq (sLy g) y | 2 => freq (sTz g) z | _ => freq (sLy g) x end)).
Definition modeTerm (g : sgeom) (c : sconst) (st : stype) (b : bvec) (P : nat -> nat -> nat -> Q) (x y z : nat) : Q :=
  match b with
  | BK | BP | BPS => P x y z
  | BG => match st with
          | SGaS | SGaSadd => P x y z / cosT2 c (along g c x y z)
          | _ => kfac c * ksquare g x y z * P x y z
          end
  | BV => match st with
          | SVV => P x y z
          | SVS | SGVS => mass2Sax c * P x y z
          | _ => mass2 c * P x y z
          end
  | BVnl => mass2 c * P x y z
  | BNN => 1
  | BAK => ksquare g x y z
  end%Q.
