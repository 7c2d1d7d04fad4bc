(** Model of the gravitational potential of the nonrelativistic field:
    include/gravity/potentialClass.h (class GraVi) and include/gravity/gravityPaxionXeon.h.

    Numbers are real. The transforms are arguments: [fwd] takes the sites of all ranks to the modes
    of all ranks, [bck] back, neither normalised. The choice of blocks and the lanes of the vector
    kernels are those of KernelModel and LaneModel and are not repeated; padding of rows is that of PadModel.
    The branch for FIELD_AXION, which asks energy() for its density, the debug output and the GPU are left out. *)
From Coq Require Import Reals List Arith ZArith Bool.
From Verif Require Import KernelModel LaplModel.
Import ListNotations.
Local Open Scope R_scope.

(** Sites per side, slices in all, ranks, ghost slices (potentialClass.h:99-103) *)
Record gbox := GBox { bL : nat; bT : nat; bRanks : nat; bNg : nat }.
Definition bLz (g : gbox) : nat := (bT g / bRanks g)%nat.
Definition bV (g : gbox) : nat := (bL g * bL g * bLz g)%nat.
Definition cpx := (R * R)%type.

(** ** Density, mean and normalisation *)
(** gravityPaxionXeon.h:246-252 (KIDI_ENE) *)
Definition density (m v : nat -> nat -> R) (r i : nat) : R := m r i * m r i + v r i * v r i.
Fixpoint addUp (n : nat) (f : nat -> R) : R := match n with O => 0 | S k => addUp k f + f k end.
(** potentialClass.h:763-777. The sum over the ranks goes to eAl, but eA is divided and returned *)
Definition meanOf (g : gbox) (f : nat -> nat -> R) (r : nat) : R := addUp (bV g) (f r) / INR (bL g * bL g * bT g).
(** :386-389 with gravityPaxionXeon.h:263-268 (KIDI_ADD) *)
Definition contrast (g : gbox) (f : nat -> nat -> R) (r i : nat) : R := f r i + - meanOf g f r.
(** :799-827: new field, velocity and self-coupling; None: division by zero *)
Definition normaliseFields (g : gbox) (m v : nat -> nat -> R) (beta : R) : option ((nat -> nat -> R) * (nat -> nat -> R) * R) :=
  let eA := addUp (bRanks g) (fun r => addUp (bV g) (fun i => m r i ^ 2 + v r i ^ 2)) / INR (bL g * bL g * bT g) in
  if Req_EM_T eA 0 then None
  else let nn := 1 / sqrt eA in Some (fun r i => m r i * nn, fun r i => v r i * nn, beta * eA).

(** ** Dividing by minus the momentum squared *)
(** :322-334, :596-606: indices of a mode; [zBase] as given *)
Definition momOf (hx T L zBase idx : nat) : Z * Z * Z :=
  let tmp := (idx / hx)%nat in
  let kx := (idx - tmp * hx)%nat in
  let ky := (tmp / T)%nat in
  let kz := (tmp - T * ky)%nat in
  let ky := (ky + zBase)%nat in
  (Z.of_nat kx, if (L / 2 <? ky)%nat then (Z.of_nat ky - Z.of_nat L)%Z else Z.of_nat ky,
   if (T / 2 <? kz)%nat then (Z.of_nat kz - Z.of_nat T)%Z else Z.of_nat kz).
Definition momSq (k : Z * Z * Z) : Z := let '(kx, ky, kz) := k in (kx * kx + ky * ky + kz * kz)%Z.
(** :106 *)
Definition zBaseOf (g : gbox) (r : nat) : nat := (bL g / bRanks g * r)%nat.
(** :99-101 *)
Definition fullMom (g : gbox) (r idx : nat) : Z := momSq (momOf (bL g / 2 + 1) (bT g) (bL g) (zBaseOf g r) idx).
Definition fullModes (g : gbox) : nat := (bL g * (bL g / 2 + 1) * bLz g)%nat.
(** :101 norm, :322-340. None: some mode other than the first of rank 0 is divided by zero and the transform spreads the NaN *)
Definition isMean (r i : nat) : bool := ((r =? 0) && (i =? 0))%nat.
Definition potential (fwd : (nat -> nat -> R) -> nat -> nat -> cpx) (bck : (nat -> nat -> cpx) -> nat -> nat -> R)
    (g : gbox) (k0 : R) (rho : nat -> nat -> R) : option (nat -> nat -> R) :=
  let norm := -1 / (k0 * k0 * INR (bL g * bL g * bT g)) in
  if existsb (fun r => existsb (fun i => negb (isMean r i) && (fullMom g r i =? 0)%Z) (seq 0 (fullModes g))) (seq 0 (bRanks g)) then None
  else Some (bck (fun r i => if isMean r i then (0, 0)
                             else let c := norm / IZR (fullMom g r i) in (c * fst (fwd rho r i), c * snd (fwd rho r i)))).

(** ** The hybrid method: reduced grid *)
(** :550-640 (ilap). Momenta of the reduced grid: zBase is that of the full grid *)
Definition redMom (g : gbox) (ref r idx : nat) : Z * Z * Z :=
  momOf (bL g / ref / 2 + 1) (bT g / ref) (bL g / ref) (zBaseOf g r) idx.
Definition redModes (g : gbox) (ref : nat) : nat := (bL g / ref * (bL g / ref / 2 + 1) * (bLz g / ref))%nat.
(** :609-612, :623: the shift *)
Definition displa (rL rT : nat) (k : Z * Z * Z) : cpx :=
  let '(kx, ky, kz) := k in
  let phi := PI * (IZR kx / INR rL) + PI * (IZR ky / INR rL) + PI * (IZR kz / INR rT) in (cos phi, sin phi).
(** Whether some mode, other than the first of rank 0, is divided by zero *)
Definition ilapBreaks (g : gbox) (ref : nat) : bool :=
  existsb (fun r => existsb (fun i => negb (isMean r i) && (momSq (redMom g ref r i) =? 0)%Z) (seq 0 (redModes g ref))) (seq 0 (bRanks g)).

(** m2 of one rank, in elements; m2Start is BO = Ng*L*L (:100) *)
Definition put {A} (m : nat -> A) (i : nat) (a : A) : nat -> A := fun j => if (j =? i)%nat then a else m j.
Definition bBO (g : gbox) : nat := (bNg g * (bL g * bL g))%nat.
(** :520-531; [w]: shift, sites per vector *)
Definition reducePoint {A} (g : gbox) (w ref riz : nat) (m : nat -> A) (p : nat * nat) : nat -> A :=
  let '(riy, rix) := p in
  let rLx := (bL g / ref)%nat in
  let sy := ((ref * riy) / (bL g / w))%nat in
  let iiy := (ref * riy - sy * bL g / w)%nat in
  let fIdx := (ref * (riz * (bL g * bL g) + rix * w) + iiy * bL g * w + sy)%nat in
  let uIdx := ((rLx + 2) * (riz * rLx + riy) + rix)%nat in
  put m uIdx (m (bBO g + fIdx)%nat).
(** :494-540 (rfuap). [ord]: the order in which the threads take the points of a slice. None: exit(0) *)
Definition rfuap {A} (g : gbox) (w ref : nat) (ord : nat -> list (nat * nat)) (m : nat -> A) : option (nat -> A) :=
  let rLx := (bL g / ref)%nat in
  let rLz := (bLz g / ref)%nat in
  if ((ref * rLx =? bL g) && (ref * rLz =? bLz g))%nat
  then Some (fold_left (fun m riz => fold_left (reducePoint g w ref riz) (ord riz) m) (seq 0 rLz) m)
  else None.
(** :680-697 *)
Definition expandPoint {A} (g : gbox) (w ref iz : nat) (m : nat -> A) (p : nat * nat) : nat -> A :=
  let '(riy, rix) := p in
  let rLx := (bL g / ref)%nat in
  let su := (iz * bL g * bL g)%nat in
  let rsu := (iz / ref * (rLx + 2) * rLx)%nat in
  let wui := m (rsu + riy * (rLx + 2) + rix)%nat in
  fold_left (fun m yy =>
    let sy := ((ref * riy + yy) / (bL g / w))%nat in
    let iiy := (ref * riy + yy - sy * (bL g / w))%nat in
    fold_left (fun m xx => put m (bBO g + (su + iiy * bL g * w + (rix * ref + xx) * w + sy))%nat wui) (seq 0 ref) m) (seq 0 ref) m.
(** :650-725 (eguf), for ref > 1 *)
Definition eguf {A} (g : gbox) (w ref : nat) (ord : nat -> list (nat * nat)) (m : nat -> A) : option (nat -> A) :=
  let rLx := (bL g / ref)%nat in
  let rLz := (bLz g / ref)%nat in
  if ((ref * rLx =? bL g) && (ref * rLz =? bLz g))%nat
  then Some (fold_left (fun m iz => fold_left (expandPoint g w ref iz) (ord iz) m) (rev (seq 0 (bLz g))) m)
  else None.

(** ** Relaxation *)
Definition gsite := (nat * nat * nat)%type.
Definition siteEq (a b : gsite) : bool := let '(x, y, z) := a in let '(u, v, w) := b in ((x =? u) && (y =? v) && (z =? w))%nat.
(** The site d steps away in a periodic box (gravityPaxionXeon.h:161-215; the ghosts hold the slices of the neighbouring ranks) *)
Definition stepTo (L T d : nat) (e : dir) (s : gsite) : gsite :=
  let '(x, y, z) := s in
  match e with
  | Xp => ((x + d) mod L, y, z) | Xm => ((x + (L - d mod L)) mod L, y, z)
  | Yp => (x, (y + d) mod L, z) | Ym => (x, (y + (L - d mod L)) mod L, z)
  | Zp => (x, y, (z + d) mod T) | Zm => (x, y, (z + (T - d mod T)) mod T)
  end%nat.
(** :52-71, :94, :155-238 (KIDI_SOR): the new value of one site. [src]: the density kept in the second half; [PC]: the coefficients of setCO *)
Definition ood2Of (PC : list R) : R := fold_left Rplus PC 0 / 6.
Definition relaxSite (PC : list R) (L T : nat) (beta : R) (src f : gsite -> R) (s : gsite) : R :=
  let ood2 := ood2Of PC in
  f s + (lap PC (length PC) ood2 (f s) (fun nv e => f (stepTo L T nv e s)) - beta * ood2 * src s).
(** One sweep (potentialClass.h:404-412): the sites in the order in which the threads take them; [stale s t]: whether the
    thread at s still sees the value t had before the sweep, as it does for the ghosts *)
Definition gput (f : gsite -> R) (s : gsite) (a : R) : gsite -> R := fun t => if siteEq t s then a else f t.
Definition sweep (PC : list R) (L T : nat) (beta : R) (src : gsite -> R) (stale : gsite -> gsite -> bool) (order : list gsite) (f : gsite -> R) : gsite -> R :=
  fold_left (fun cur s => gput cur s (relaxSite PC L T beta src (fun t => if siteEq t s then cur t else if stale s t then f t else cur t) s)) order f.
(** In double precision (:343-432) the neighbours are loaded from m, which GraHybridCpu never sets (`void *nada`): None *)
Definition relaxRun (double : bool) (PC : list R) (L T : nat) (beta : R) (src : gsite -> R) (stale : gsite -> gsite -> bool) (order : list gsite) (f : gsite -> R) : option (gsite -> R) :=
  if double then None else Some (sweep PC L T beta src stale order f).

(** ** Tuning (potentialClass.h:196-248) *)
Inductive tuned := TExits | TDone (hybrid : bool) (redfft smsteps : nat).
(** [full], [t fo]: the times measured. rfuap exits when fo does not divide the grid; if no factor wins, the last one stays *)
Definition tunehybrid (g : gbox) (full : R) (t : nat -> R) : tuned :=
  let tries := [2; 4; 8; 16]%nat in
  if existsb (fun fo => negb ((fo * (bL g / fo) =? bL g) && (fo * (bLz g / fo) =? bLz g)))%nat tries then TExits
  else
    let '(delta, best) := fold_left (fun b fo => let '(delta, best) := b in if Rlt_dec (t fo) delta then (t fo, fo) else (delta, best)) tries (full, 1%nat) in
    if (best =? 1)%nat then TDone false 16 32 else TDone true best (2 * best).
