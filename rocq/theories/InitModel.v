(** Model of the initial configurations of the complex field: smoothing
    (/repo/lib/gen/smoothXeon.cpp), normalisation (/repo/lib/scalar/normXeon.cpp,
    normCoreXeon.cpp, scaleXeon.cpp) and the helpers and the assembly in
    /repo/lib/gen/genConf.cpp. Exact arithmetic. The elements of an array are written by
    different threads, each once, from arrays that the loop does not write; so the order
    does not matter and each loop is one map. *)
From Coq Require Import Reals List Arith Bool.
From Verif Require Import IndexModel GhostModel.
Import ListNotations.
Open Scope R_scope.

(** A complex number. None: not a number. *)
Definition num := option (R * R).
Definition cplus (a b : num) : num :=
  match a, b with Some a, Some b => Some (fst a + fst b, snd a + snd b) | _, _ => None end.
Definition ctimes (k : R) (a : num) : num :=
  match a with Some a => Some (k * fst a, k * snd a) | None => None end.
Definition cmul (a b : num) : num :=
  match a, b with Some a, Some b => Some (fst a * fst b - snd a * snd b, fst a * snd b + snd a * fst b) | _, _ => None end.
(** std::abs *)
Definition cabs (a : R * R) : R := sqrt (fst a * fst a + snd a * snd a).

(** Sizes: points per side, slices per rank, ghost slices, ranks; modulus of size_t. *)
Record grid := Grid { gL : nat; gZ : nat; gNg : nat; gRanks : nat; gW : nat }.
(** scalarField.h: Surf(), Size(), eSize(); scalarField.cpp:216: v has room for two more
    slices. *)
Definition surf (g : grid) : nat := (gL g * gL g)%nat.
Definition vol (g : grid) : nat := (surf g * gZ g)%nat.
Definition eSize (g : grid) : nat := (surf g * (gZ g + 2 * gNg g))%nat.
Definition vRoom (g : grid) : nat := (surf g * (gZ g + 2))%nat.
(** mStart() in elements *)
Definition mStart (g : grid) : nat := (gNg g * surf g)%nat.

(** The arrays of every rank; m2 is missing with the low memory option
    (scalarField.cpp:268-284). *)
Record world := World { wM : nat -> nat -> num; wV : nat -> nat -> num; wM2 : option (nat -> nat -> num) }.

(** smoothXeon.cpp:22-54 and normCoreXeon.cpp:46-76: the neighbours of element idx,
    counted from mStart(); size_t arithmetic. The neighbours in z are idx + S and idx - S,
    where the second can be negative. *)
Definition around (g : grid) (idx : nat) : nat * nat * nat * nat :=
  let L := gL g in
  let W := gW g in
  let '(x, y, _) := idx2Vec L idx in
  let '(px, mx) :=
    if (x =? 0)%nat then (uadd W idx 1, usub W (uadd W idx L) 1)
    else if (x =? L - 1)%nat then (uadd W (usub W idx L) 1, usub W idx 1)
    else (uadd W idx 1, usub W idx 1) in
  let '(py, my) :=
    if (y =? 0)%nat then (uadd W idx L, usub W (uadd W idx (surf g)) L)
    else if (y =? L - 1)%nat then (uadd W (usub W idx (surf g)) L, usub W idx L)
    else (uadd W idx L, usub W idx L) in
  (px, mx, py, my).
(** smoothXeon.cpp:56; [m] is the array from mCpu() on. *)
Definition iteraAt (g : grid) (alpha : R) (m : nat -> num) (idx : nat) : num :=
  let at_ i := m (mStart g + i)%nat in
  let '(px, mx, py, my) := around g idx in
  cplus (ctimes alpha (at_ idx))
    (ctimes (1 / 6 * (1 - alpha))
       (cplus (cplus (cplus (cplus (cplus (at_ px) (at_ mx)) (at_ py)) (at_ my)) (at_ (idx + surf g)%nat))
          (m (mStart g + idx - surf g)%nat))).
(** exchangeGhosts(FIELD_M), with the bytes arriving in the order given. *)
Definition refresh (order : list (bloc * bloc)) (m : nat -> nat -> num) : nat -> nat -> num :=
  fun r i => gcopies order (fun l => m (fst l) (snd l)) (r, i).
(** memcpy of the owned part of a buffer to mStart(). *)
Definition putOwned (g : grid) (src m : nat -> num) : nat -> num :=
  fun i => if (mStart g <=? i)%nat && (i <? mStart g + vol g)%nat then src (i - mStart g)%nat else m i.
(** A loop over the first n elements. *)
Definition overwrite (n : nat) (f : nat -> num) (a : nat -> num) : nat -> num :=
  fun i => if (i <? n)%nat then f i else a i.

(** What a function leaves behind. Broken: it accesses memory that is not there. *)
Inductive outcome := Done (w : world) | Broken.
Definition andThen (o : outcome) (f : world -> outcome) : outcome :=
  match o with Done w => f w | Broken => Broken end.

(** smoothXeon.cpp:71-76: one iteration. With no ghosts the slice before the first is
    outside the array. *)
Definition smoothOnce (g : grid) (alpha : R) (order : list (bloc * bloc)) (w : world) : outcome :=
  match wM2 w with
  | None => Broken
  | Some m2 =>
      if (gNg g =? 0)%nat then Broken
      else let m2' r := overwrite (vol g) (iteraAt g alpha (wM w r)) (m2 r) in
           Done (World (refresh order (fun r => putOwned g (m2' r) (wM w r))) (wV w) (Some m2'))
  end.
(** smoothXeon.cpp:61-94: the iterations, with one exchange before and one after each. *)
Definition smooth (g : grid) (alpha : R) (first : list (bloc * bloc)) (orders : list (list (bloc * bloc))) (w : world) : outcome :=
  fold_left (fun o order => andThen o (smoothOnce g alpha order)) orders
    (Done (World (refresh first (wM w)) (wV w) (wM2 w))).

(** FIELD_M, FIELD_V, FIELD_M2 and anything else. *)
Inductive which := InM | InV | InM2 | Other.
Inductive width := Single | Double.

(** normXeon.cpp:41-45: zero divided by zero is not a number. *)
Definition toUnit (a : num) : num :=
  match a with
  | Some a => if Req_EM_T (cabs a) 0 then None else Some (fst a / cabs a, snd a / cabs a)
  | None => None
  end.
(** A map over the owned elements from mStart(). *)
Definition mapOwned (g : grid) (f : num -> num) (m : nat -> num) : nat -> num :=
  putOwned g (fun i => f (m (mStart g + i)%nat)) m.
(** normXeon.cpp. The low memory test comes before m2 is used. In single precision an
    unknown field is reported and then an uninitialised pointer is used. *)
Definition normalise (p : width) (g : grid) (low : bool) (f : which) (w : world) : outcome :=
  match f with
  | InM => Done (World (fun r => mapOwned g toUnit (wM w r)) (wV w) (wM2 w))
  | InV => Done (World (wM w) (fun r => overwrite (vol g) (fun i => toUnit (wV w r i)) (wV w r)) (wM2 w))
  | InM2 => if low then Done w
            else match wM2 w with
                 | None => Broken
                 | Some m2 => Done (World (wM w) (wV w) (Some (fun r => overwrite (vol g) (fun i => toUnit (m2 r i)) (m2 r))))
                 end
  | Other => match p with Double => Done w | Single => Broken end
  end.
(** scaleXeon.cpp: eSize() elements from the start of the array, ghosts included; v has
    room for vRoom elements only. Unknown fields as in normXeon.cpp. *)
Definition scale (p : width) (g : grid) (low : bool) (f : which) (k : R) (w : world) : outcome :=
  let sc (a : nat -> num) := overwrite (eSize g) (fun i => ctimes k (a i)) a in
  match f with
  | InM => Done (World (fun r => sc (wM w r)) (wV w) (wM2 w))
  | InV => if (eSize g <=? vRoom g)%nat then Done (World (wM w) (fun r => sc (wV w r)) (wM2 w)) else Broken
  | InM2 => if low then Done w
            else match wM2 w with
                 | None => Broken
                 | Some m2 => Done (World (wM w) (wV w) (Some (fun r => sc (m2 r))))
                 end
  | Other => match p with Double => Done w | Single => Broken end
  end.

(** normCoreXeon.cpp:78-90: squares of imag((a - b)/c). *)
Definition imagOver (a b c : R * R) : R :=
  ((snd a - snd b) * fst c - (fst a - fst b) * snd c) / (fst c * fst c + snd c * snd c).
Definition gradTot (c px mx py my pz mz : R * R) : R :=
  let sq x := x * x in
  sq (imagOver px c c) + sq (imagOver c mx c) + sq (imagOver py c c) + sq (imagOver c my c) + sq (imagOver pz c c) + sq (imagOver c mz c).
(** normCoreXeon.cpp:94-99, :110 *)
Definition profile (s : R) : R :=
  (0.43 * s + 0.164 * (s * s) + 0.036 * ((s * s) * (s * s))) / (1 + 0.39 * s + 0.2 * (s * s) + 0.036 * ((s * s) * (s * s))).
Definition core (LL R0 delta : R) (g : R) : R :=
  if Rlt_dec 0.0000001 g then profile (2 * sqrt LL * R0 * delta / sqrt g) else 1.
(** normCoreXeon.cpp:42-114 *)
Definition coreAt (g : grid) (LL R0 delta : R) (m : nat -> num) (idx : nat) : num :=
  let at_ i := m (mStart g + i)%nat in
  let '(px, mx, py, my) := around g idx in
  match at_ idx, at_ px, at_ mx, at_ py, at_ my, at_ (idx + surf g)%nat, m (mStart g + idx - surf g)%nat with
  | Some c, Some px, Some mx, Some py, Some my, Some pz, Some mz =>
      if Req_EM_T (cabs c) 0 then None
      else let rho := core LL R0 delta (gradTot c px mx py my pz mz) in
           Some (fst c * rho / cabs c, snd c * rho / cabs c)
  | _, _, _, _, _, _, _ => None
  end.
(** normCoreXeon.cpp:11-122. With low memory the result is prepared in v. The ghosts are
    refreshed before and not after. *)
Definition normCore (g : grid) (low : bool) (LL R0 delta : R) (order : list (bloc * bloc)) (w : world) : outcome :=
  let m := refresh order (wM w) in
  let new r := coreAt g LL R0 delta (m r) in
  if (gNg g =? 0)%nat then Broken
  else if low then
    Done (World (fun r => putOwned g (new r) (m r)) (fun r => overwrite (vol g) (new r) (wV w r)) (wM2 w))
  else match wM2 w with
       | None => Broken
       | Some m2 => Done (World (fun r => putOwned g (new r) (m r)) (wV w) (Some (fun r => overwrite (vol g) (new r) (m2 r))))
       end.

(** genConf.cpp:1799-1860, as it is called: b v + a m into v. *)
Definition axby (g : grid) (a b : R) (w : world) : world :=
  World (wM w) (fun r => overwrite (vol g) (fun i => cplus (ctimes b (wV w r i)) (ctimes a (wM w r (mStart g + i)%nat))) (wV w r)) (wM2 w).
(** genConf.cpp:1743-1795, as it is called: v m into v. *)
Definition mulmul (g : grid) (w : world) : world :=
  World (wM w) (fun r => overwrite (vol g) (fun i => cmul (wV w r i) (wM w r (mStart g + i)%nat)) (wV w r)) (wM2 w).
(** genConf.cpp:1636-1680 for FIELD_M: the sum starts from whatever the variable holds on
    each rank ([junk]) and is divided by the size of one rank with ghosts. *)
Definition anymean (g : grid) (junk : nat -> R) (w : world) : option R :=
  let add s x := match s, x with Some s, Some x => Some (s + cabs x) | _, _ => None end in
  let rank r := fold_left add (map (fun i => wM w r (mStart g + i)%nat) (seq 0 (vol g))) (Some (junk r)) in
  match fold_left (fun s x => match s, x with Some s, Some x => Some (s + x) | _, _ => None end) (map rank (seq 0 (gRanks g))) (Some 0) with
  | Some t => Some (t / INR (eSize g))
  | None => None
  end.

(** What the environment decides: order of arrival of the messages of every exchange. *)
Record mail := Mail { mFirst : list (bloc * bloc); mEach : list (list (bloc * bloc)); mCore : list (bloc * bloc) }.
(** Options: core profile wanted, no expansion, kick, coupling and spacing. *)
Record ask := Ask { aCore : bool; aMink : bool; aKick : R; aLL : R; aDelta : R; aAlpha : R; aNorm : bool }.
Definition core_ (g : grid) (low : bool) (q : ask) (R0 : R) (e : mail) (w : world) : outcome :=
  if aCore q then normCore g low (aLL q) R0 (aDelta q) (mCore e) w else Done w.
Definition kick_ (p : width) (g : grid) (low : bool) (q : ask) (w : world) : outcome :=
  if Req_EM_T (aKick q) 0 then Done w else scale p g low InV (1 + aKick q) w.
(** genConf.cpp:704-731 (confsmooth after randConf, without prepropagation); the number of
    iterations is the length of [mEach]; R0 and Rp are *RV() and Rp(). [aNorm]: not one of
    the two kinds of :715. *)
Definition confSmooth (p : width) (g : grid) (low : bool) (q : ask) (R0 Rp : R) (e : mail) (w : world) : outcome :=
  let o := match mEach e with [] => Done w | es => smooth g (aAlpha q) (mFirst e) es w end in
  let o := if aNorm q then andThen o (normalise p g low InM) else o in
  let o := andThen o (core_ g low q R0 e) in
  let o := if aMink q then o else andThen o (fun w => Done (axby g (Rp * R0) R0 w)) in
  let o := andThen o (kick_ p g low q) in
  if aMink q then o else andThen o (scale p g low InM R0).
(** genConf.cpp:828-836 (conflola without prepropagation; :395-403 is the same): v is a copy
    of m. *)
Definition copyToV (g : grid) (w : world) : world :=
  World (wM w) (fun r => overwrite (vol g) (fun i => wM w r (mStart g + i)%nat) (wV w r)) (wM2 w).
Definition confLola (p : width) (g : grid) (low : bool) (q : ask) (R0 : R) (e : mail) (w : world) : outcome :=
  let o := normalise p g low InM w in
  if aMink q then o
  else let o := andThen o (core_ g low q R0 e) in
       let o := andThen o (fun w => Done (copyToV g w)) in
       let o := andThen o (kick_ p g low q) in
       andThen o (scale p g low InM R0).
