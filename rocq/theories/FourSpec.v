(** What the passage to momentum space and back, and a step in momentum space, should do. *)
From Coq Require Import Reals List Arith ZArith Bool.
From Verif Require Import GravModel FourModel.
Import ListNotations.
Local Open Scope R_scope.

(** Sites (or modes) of the complex field: rank r, place i. *)
Definition here (g : geo) (r i : nat) : Prop := (r < gK g /\ i < gL g * gL g * gLz g)%nat.
(** The complex field and its velocity; the axion and its velocity. *)
Definition phi (g : geo) (s : st) (r i : nat) : cpx :=
  (mm s AM r (2 * (gNg g * (gL g * gL g) + i))%nat, mm s AM r (2 * (gNg g * (gL g * gL g) + i) + 1)%nat).
Definition vel (s : st) (r i : nat) : cpx := (mm s AV r (2 * i)%nat, mm s AV r (2 * i + 1)%nat).
Definition theta (g : geo) (s : st) (r i : nat) : R := mm s AM r (gNg g * (gL g * gL g) + i)%nat.
Definition thetaV (g : geo) (s : st) (r i : nat) : R := mm s AM r (gL g * gL g * (gLz g + 2 * gNg g) + i)%nat.

Definition agree (g : geo) (F G : nat -> nat -> cpx) : Prop := forall r i, here g r i -> F r i = G r i.
Definition plus (a b : cpx) : cpx := (fst a + fst b, snd a + snd b).
Definition times (c : R) (a : cpx) : cpx := (c * fst a, c * snd a).
(** Number of sites of the box. *)
Definition sites (g : geo) : R := INR (gL g * gL g * gLz g * gK g).

(** A pair of transforms of complex fields: they see the sites of the box only, are linear, and undo each other up to the
    number of sites. *)
Record complexPair (T : fft) (g : geo) : Prop := {
  fC_local : forall F G, agree g F G -> agree g (fC T F) (fC T G);
  bC_local : forall F G, agree g F G -> agree g (bC T F) (bC T G);
  fC_linear : forall c F G, agree g (fC T (fun r i => plus (F r i) (times c (G r i)))) (fun r i => plus (fC T F r i) (times c (fC T G r i)));
  bC_linear : forall c F, agree g (bC T (fun r i => times c (F r i))) (fun r i => times c (bC T F r i));
  forth_back : forall F, agree g (bC T (fC T F)) (fun r i => times (sites g) (F r i));
  back_forth : forall F, agree g (fC T (bC T F)) (fun r i => times (sites g) (F r i)) }.

(** The same for a real field, of which only there and back of scaled modes is needed. [here] for the sites; modes i < n. *)
Definition realPair (T : fft) (g : geo) (n : nat) : Prop :=
  forall f A c, (forall r i, (r < gK g)%nat -> (i < n)%nat -> A r i = times c (fR T f r i)) ->
    forall r i, here g r i -> bR T A r i = c * sites g * f r i.

(** Distance of a wave number to 0 in a periodic box of n, and the square of the momentum of the mode at plane yl (of rank
    r), row z, place x. *)
Definition distance0 (n y : nat) : nat := Nat.min y (n - y).
Definition momentum2 (g : geo) (r yl z x : nat) : nat :=
  (distance0 (gL g) x ^ 2 + distance0 (gL g) (r * (gL g / gK g) + yl) ^ 2 + distance0 (gLz g * gK g) z ^ 2)%nat.
Definition modeAt (g : geo) (r yl z x : nat) : Prop := (r < gK g /\ yl < gL g / gK g /\ z < gLz g * gK g /\ x < gL g)%nat.
Definition modePlace (g : geo) (yl z x : nat) : nat := ((yl * (gLz g * gK g) + z) * gL g + x)%nat.
Definition wave (f1 : R) (g : geo) (r yl z x : nat) : R := f1 * sqrt (INR (momentum2 g r yl z x)).

(** A grid shared by the ranks before and after the transform. *)
Definition even (g : geo) : Prop := (0 < gL g /\ 0 < gLz g /\ 0 < gK g /\ gL g mod gK g = 0)%nat.

(** The motion of a wave of momentum p left alone for a time t: m'' = - p^2 m. *)
Definition drift (p t : R) (m v : R) : R * R :=
  if Req_EM_T p 0 then (m + v * t, v) else (m * cos (p * t) + v / p * sin (p * t), v * cos (p * t) - p * m * sin (p * t)).
Definition driftC (p t : R) (m v : cpx) : cpx * cpx :=
  ((fst (drift p t (fst m) (fst v)), fst (drift p t (snd m) (snd v))),
   (snd (drift p t (fst m) (fst v)), snd (drift p t (snd m) (snd v)))).

(** Minus the slope of the potential of the complex field at expansion R: lambda/4 (|phi|^2 - R^2)^2. *)
Definition slope (lam Rr : R) (x : cpx) : cpx :=
  times (lam * (Rr ^ 2 - (fst x ^ 2 + snd x ^ 2))) x.

(** A real push on the mode without momentum alone. *)
Definition extra (r yl z x : nat) (a : R) : cpx := if ((r =? 0) && (yl =? 0) && (z =? 0) && (x =? 0))%nat then (a, 0) else (0, 0).

(** The squares kept by a wave of momentum p. *)
Definition waveEnergy (p : R) (m v : cpx) : R := p ^ 2 * (fst m ^ 2 + snd m ^ 2) + (fst v ^ 2 + snd v ^ 2).

Definition total (l : list R) : R := fold_right Rplus 0 l.

(** The two potentials of the complex field at expansion R, and minus the slope of the second. *)
Definition potential1 (lam Rr x y : R) : R := lam / 4 * ((x ^ 2 + y ^ 2) - Rr ^ 2) ^ 2.
Definition potential2 (lam Rr x y : R) : R := lam / (4 * Rr ^ 4) * ((x ^ 2 + y ^ 2) ^ 2 - Rr ^ 4) ^ 2.
Definition slope2 (lam Rr : R) (x : cpx) : cpx :=
  times (2 * lam / Rr ^ 4 * (Rr ^ 4 - (fst x ^ 2 + snd x ^ 2) ^ 2) * (fst x ^ 2 + snd x ^ 2)) x.
