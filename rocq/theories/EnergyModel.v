(** Model of the energies of the complex field: /repo/lib/energy/energyXeon.cpp and
    the driver /repo/lib/energy/energy.cpp:137-209. Arithmetic is exact. The kernel is
    modelled site by site: a register holds (rho, theta) in the two lanes of each site,
    here a pair; which sites a register holds and where neighbours are found is in
    IndexModel, KernelModel and GhostModel. The GPU is not modelled. *)
From Coq Require Import Reals List Arith NArith Bool.
From Verif Require Import ForceModel.
Import ListNotations.
Open Scope R_scope.

(** What the kernel reads at one site: field, velocity, the six neighbours, and whether
    strdaa carries STRING_MASK (energyXeon.cpp:152-181, :203-258). *)
Record site := Site { sM : R * R; sV : R * R; sXp : R * R; sXm : R * R; sYp : R * R; sYm : R * R; sZp : R * R; sZm : R * R; sMask : bool }.
(** PropParms as filled by energyCpu (1340-1355): R, delta2, LL, aMass2, R', shift. *)
Record eparms := EParms { eR : R; eDelta2 : R; eLam : R; eMa2 : R; eRprime : R; eShift : R }.

(** energyXeon.cpp:41-52, :80-85, :674-684 *)
Definition o2 (c : eparms) : R := 0.25 / eDelta2 c / eR c / eR c.
Definition eZQ (c : eparms) : R := eMa2 c / eR c / eR c * eR c * eR c.
Definition lZ (c : eparms) : R := 0.25 * (eLam c / eR c / eR c) * eR c * eR c.
Definition iz2 (c : eparms) : R := (1 / eR c) * (1 / eR c).
(** const size_t iR2 = 1./R/R: a conversion to an integer. *)
Definition iR2 (c : eparms) : R := IZR (Int_part (1 / eR c / eR c)).

(** Lanes (rho, theta) of a difference or velocity d: products with mCg = m/|m|^2 and
    mSg = (Im, -Re)/|m|^2, the two components summed (:271-356). None is 0/0. *)
Definition n2 (m : R * R) : R := fst m * fst m + snd m * snd m.
Definition mSub (a b : R * R) : R * R := (fst a - fst b, snd a - snd b).
Definition lanes (m d : R * R) : option (R * R) :=
  if Req_EM_T (n2 m) 0 then None
  else Some (fst d * (fst m / n2 m) + snd d * (snd m / n2 m), fst d * (snd m / n2 m) + snd d * - (fst m / n2 m)).
Definition lift2 (f : R * R -> R * R -> R * R) (a b : option (R * R)) : option (R * R) :=
  match a, b with Some x, Some y => Some (f x y) | _, _ => None end.
(** tGx, tGy, tGz: factor |m|^2/R^2 times the forward and backward squares. *)
Definition gradient (c : eparms) (m p n : R * R) : option (R * R) :=
  lift2 (fun a b => (n2 m * iz2 c * (fst b * fst b + fst a * fst a), n2 m * iz2 c * (snd b * snd b + snd a * snd a)))
    (lanes m (mSub p m)) (lanes m (mSub m n)).
(** tKp, :373-388: the rho lane without R'/R. *)
Definition kinetic (c : eparms) (m v : R * R) : option (R * R) :=
  match lanes m v with
  | Some (a, b) => let a' := a - eRprime c * (1 / eR c) in Some (n2 m * iz2 c * (a' * a'), n2 m * iz2 c * (b * b))
  | None => None
  end.
(** :390-394: shifted field, its square over R^2. *)
Definition shifted (c : eparms) (m : R * R) : R * R := (fst m - eShift c, snd m).
(** :402-419, :1052-1071 *)
Definition saxion (s : pq) (g : R) : R :=
  match s with
  | PQ1 => (g - 1) * (g - 1)
  | PQ3 => kkk (4 * ((sqrt g - 1) * (sqrt g - 1))) ((g - 1) * (g - 1)) g 1
  | PQ2 => (g * g - 1) * (g * g - 1)
  end.
(** :421-446, :1073-1102: lane 0 of mCg. Grz = |m'|^2, Gry = |m'|^2/R^2. *)
Definition axionPot (q : qcd) (c : eparms) (m : R * R) : option R :=
  let m' := shifted c m in
  match q with
  | QCD1 | QCDC => if Req_EM_T (n2 m') 0 then None else Some (1 - fst m' / sqrt (n2 m'))
  | QCDV => let u := (1 - fst m' * (1 / eR c), 0 - snd m' * (1 / eR c)) in Some (0.5 * (fst u * fst u + snd u * snd u))
  | QCD2 => if Req_EM_T (n2 m') 0 then None else Some (0.5 * (1 - n2 m' * iz2 c / n2 m'))
  | QCDL | QCD0 => if Req_EM_T (n2 m) 0 then None else Some (fst m / n2 m)
  end.
(** tVp, :449-456 *)
Definition rhoPot (s : pq) (c : eparms) (m : R * R) : R := saxion s (n2 (shifted c m) * iz2 c).
(** Frho, :394 *)
Definition modulus (c : eparms) (m : R * R) : R := sqrt (n2 (shifted c m) * iz2 c).
(** energyCpu, :1394-1452 (and :1475-1525 for low memory): which kernel runs. *)
Definition dispatch (s : pq) (q : qcd) : pq * qcd :=
  match q with
  | QCD1 | QCDC => (s, QCDC)
  | QCDV => (s, QCDV)
  | QCD2 => (s, QCD2)
  | QCD0 => (s, QCD0)
  | QCDL => (PQ1, QCDC)
  end.

(** ** The map: :458-479, :1120-1144 *)
Definition oplus (a b : option R) : option R := match a, b with Some x, Some y => Some (x + y) | _, _ => None end.
Definition oscale (k : R) (a : option R) : option R := match a with Some x => Some (x * k) | None => None end.
Definition ofst (a : option (R * R)) : option R := match a with Some (x, _) => Some x | None => None end.
Definition osnd (a : option (R * R)) : option R := match a with Some (_, y) => Some y | None => None end.
Definition grads (c : eparms) (x : site) : option (R * R) * option (R * R) * option (R * R) :=
  (gradient c (sM x) (sXp x) (sXm x), gradient c (sM x) (sYp x) (sYm x), gradient c (sM x) (sZp x) (sZm x)).
Definition mapRho (s : pq) (c : eparms) (x : site) : option R :=
  let '(gx, gy, gz) := grads c x in
  oplus (oplus (oscale (0.5 * iz2 c) (ofst (kinetic c (sM x) (sV x))))
               (oscale (o2 c) (oplus (ofst gx) (oplus (ofst gy) (ofst gz)))))
        (Some (lZ c * rhoPot s c (sM x))).
Definition mapTheta (q : qcd) (c : eparms) (x : site) : option R :=
  let '(gx, gy, gz) := grads c x in
  oplus (oplus (oscale (0.5 * iz2 c) (osnd (kinetic c (sM x) (sV x))))
               (oscale (o2 c) (oplus (osnd gx) (oplus (osnd gy) (osnd gz)))))
        (oscale (eZQ c) (axionPot q c (sM x))).

(** ** Sums over the sites of a rank *)
Definition osum (l : list (option R)) : option R := fold_right oplus (Some 0) l.
Definition over (f : site -> option R) (l : list site) : option R := osum (map f l).
Definition masked (f : site -> option R) (l : list site) : option R := osum (map f (filter sMask l)).
(** One of the ten sums, by index of EnergyIdx (enum-field.h:370-381). *)
Definition quantity (s : pq) (q : qcd) (c : eparms) (i : nat) (x : site) : option R :=
  let '(gx, gy, gz) := grads c x in
  match i with
  | 0%nat => osnd gx | 1%nat => osnd gy | 2%nat => osnd gz | 3%nat => osnd (kinetic c (sM x) (sV x))
  | 4%nat => axionPot q c (sM x)
  | 5%nat => ofst gx | 6%nat => ofst gy | 7%nat => ofst gz | 8%nat => ofst (kinetic c (sM x) (sV x))
  | 9%nat => Some (rhoPot s c (sM x))
  | _ => Some (modulus c (sM x))
  end.
(** Factors of :633-642 (double) and :1302-1312 (single). *)
Definition factor (P : prec) (c : eparms) (i : nat) : R :=
  match i with
  | 0%nat | 1%nat | 2%nat | 5%nat | 6%nat | 7%nat => o2 c
  | 3%nat | 8%nat => match P with Double => 0.5 * iR2 c | Single => 0.5 * iz2 c end
  | 4%nat => eZQ c
  | 9%nat => lZ c
  | _ => 1
  end.

(** Shared += without a reduction: each thread reads, then writes. A schedule is the
    list of the threads that act. *)
Definition tstate := (option R * list R)%type.
Fixpoint setNth {A} (n : nat) (x : A) (l : list A) : list A :=
  match n, l with
  | O, _ :: r => x :: r
  | S k, y :: r => y :: setNth k x r
  | _, [] => []
  end.
Definition raceStep (t : nat) (s : R * list tstate) : R * list tstate :=
  match nth_error (snd s) t with
  | Some (None, i :: r) => (fst s, setNth t (Some (fst s), i :: r) (snd s))
  | Some (Some x, i :: r) => (x + i, setNth t (None, r) (snd s))
  | _ => s
  end.
Fixpoint race (sched : list nat) (s : R * list tstate) : R * list tstate :=
  match sched with [] => s | t :: r => race r (raceStep t s) end.
Definition finished (l : list tstate) : bool := forallb (fun x => match snd x with [] => true | _ => false end) l.
Definition startRace (l : list (list R)) : R * list tstate := (0, map (fun a => (None, a)) l).

(** ** One rank: the buffer eTmp *)
(** The sites come split among the threads (schedule(static)); [rSched] orders the
    shared updates of double precision, [rJunk] is the content of eTmp before and of
    what is never set. *)
Record rank := Rank { rThreads : list (list site); rSched : list nat; rJunk : nat -> R }.
Definition rSites (r : rank) : list site := concat (rThreads r).
Definition ups (x : site) : R := if sMask x then 1 else 0.
(** nummask, :184: += ups only where some site is masked; shared and not in the
    reduction of :138 in double precision, reduced in single (:749). Site by site here,
    register by register in the code. *)
Definition nummask (P : prec) (r : rank) : R :=
  match P with
  | Single => fold_right Rplus 0 (map ups (filter sMask (rSites r)))
  | Double => fst (race (rSched r) (startRace (map (fun l => map ups (filter sMask l)) (rThreads r))))
  end.
(** EnType, enum-field.h:731-742: EN_ENE = 1, EN_ONLYMAP = 2, EN_MAP = 3, EN_MASK = 4 *)
Definition hasMap (e : N) : bool := negb (N.land e 3 =? 0)%N.
Definition hasEne (e : N) : bool := negb (N.land e 1 =? 0)%N.
Definition hasMask (e : N) : bool := negb (N.land e 4 =? 0)%N.
(** Values for which energyCpu has a kernel: CASE_MULTIE_, :1379-1387; CASE2_MULTIE_,
    :1461-1466, where EN_MAP runs the kernel of EN_ENE and so on. *)
Definition kernelOf (low : bool) (e : N) : option N :=
  match low, e with
  | false, 1%N | false, 3%N | false, 4%N | false, 5%N | false, 6%N | false, 7%N => Some e
  | true, 1%N | true, 3%N => Some 1%N
  | true, 4%N | true, 5%N => Some 4%N
  | true, 6%N | true, 7%N => Some 6%N
  | _, _ => None
  end.
(** eTmp[i], :633-658 and :1302-1326. RH_RHO (10) is not set in double precision;
    RH_RHOM (21) of double precision reads beyond tmpS with AVX and is not reduced: left
    to [rJunk]. *)
Definition eTmp (P : prec) (s : pq) (q : qcd) (c : eparms) (k : option N) (r : rank) (i : nat) : option R :=
  let '(s', q') := dispatch s q in
  match k with
  | None => Some (rJunk r i)
  | Some e =>
      if (i <? 10)%nat || ((i =? 10)%nat && match P with Single => true | Double => false end) then
        oscale (factor P c i) (if hasEne e then over (quantity s' q' c i) (rSites r) else Some 0)
      else if (11 <=? i)%nat && ((i <? 21)%nat || ((i =? 21)%nat && match P with Single => true | Double => false end)) then
        oscale (factor P c (i - 11)) (if hasMask e then masked (quantity s' q' c (i - 11)) (rSites r) else Some 0)
      else if (i =? 22)%nat then Some (if hasMask e then nummask P r else 0)
      else Some (rJunk r i)
  end.

(** ** The buffer m2 of a rank: theta energies from 0, rho energies from Vt. *)
(** :188-199 and :458-479. Sites are numbered in the order of the unfolded box. The
    masked map (6) is zero outside the mask. *)
Definition mapEntry (s : pq) (q : qcd) (c : eparms) (e : N) (rho : bool) (x : site) : option R :=
  let '(s', q') := dispatch s q in
  if (e =? 6)%N && negb (sMask x) then Some 0
  else if rho then mapRho s' c x else mapTheta q' c x.
Definition newM2 (s : pq) (q : qcd) (c : eparms) (k : option N) (Vt : nat) (r : rank) (old : nat -> option R) (j : nat) : option R :=
  match k with
  | Some e =>
      if hasMap e then
        match nth_error (rSites r) j with
        | Some x => mapEntry s q c e false x
        | None => match (if Vt <=? j then nth_error (rSites r) (j - Vt) else None)%nat with
                  | Some x => mapEntry s q c e true x
                  | None => old j
                  end
        end
      else old j
  | None => old j
  end.

(** ** energy(), energy.cpp:137-209 *)
Inductive reply := Refused | Reply (eRes : nat -> option R) (m2 : list (nat -> option R)).
Definition oinv (a : option R) : option R :=
  match a with Some x => if Req_EM_T x 0 then None else Some (/ x) | None => None end.
Definition omult (a b : option R) : option R := match a, b with Some x, Some y => Some (x * y) | _, _ => None end.
(** Total number of sites: field->TotalSize(). *)
Definition totalSize (rs : list rank) : R := INR (length (concat (map rSites rs))).
(** Refusals at :139-149; MPI_Allreduce at :194; averages at :197-207. Infinity times
    zero and 1/0 are None. [hasSd] is sDStatus() & SD_MASK, [old] m2 before. *)
Definition energy (P : prec) (low hasSd : bool) (s : pq) (q : qcd) (c : eparms) (e : N) (Vt : nat)
    (rs : list rank) (old : list (nat -> option R)) : reply :=
  if hasMap e && low then Refused
  else if hasMask e && negb hasSd then Refused
  else
    let k := kernelOf low e in
    let tot i := osum (map (fun r => eTmp P s q c k r i) rs) in
    Reply (fun i => if (i <? 11)%nat then oscale (/ totalSize rs) (tot i)
                    else if (i <? 22)%nat then omult (tot i) (oinv (tot 22%nat))
                    else tot i)
          (map (fun ro => newM2 s q c k Vt (fst ro) (snd ro)) (combine rs old)).
