(** What it means that the equations of motion (ForceModel, LaplModel) and the reported
    energies (EnergyModel) belong together. *)
From Coq Require Import Reals List Arith NArith Permutation.
From Verif Require Import KernelModel LaneModel LaplModel ForceModel ForceSpec EnergyModel EnergySpec.
Import ListNotations.
Open Scope R_scope.

(** The two sets of parameters describe one background, with no shift of the vacuum. *)
Definition sameWorld (f : parms) (c : eparms) : Prop :=
  pR f = eR c /\ pLam f = eLam c /\ pMa2 f = eMa2 c /\ eShift c = 0 /\ 0 < eR c.
(** Potential energy that energy() reports for a box of one site with field m. *)
Definition stored (P : prec) (s : pq) (q : qcd) (c : eparms) (m : R * R) (u : R) : Prop :=
  exists E M a b, energy P false false s q c 1 1 [Rank [[Site m (0, 0) m m m m m m false]] [] (fun _ => 0)] [fun _ => None] = Reply E M
    /\ E 9%nat = Some a /\ E 4%nat = Some b /\ u = a + b.
(** A curve has velocity v at t. *)
Definition tangent (g : R -> R * R) (t : R) (v : R * R) : Prop :=
  derivable_pt_lim (fun u => fst (g u)) t (fst v) /\ derivable_pt_lim (fun u => snd (g u)) t (snd v).
(** Acceleration that one update applies, per unit of time. *)
Definition applied (f : parms) (x w : R * R) : R * R := times (/ pDzc f) (plus w (times (-1) x)).
(** Force is minus R^4 times the gradient of the reported potential energy: along every
    curve the potential energy changes by minus force times velocity. The force is the
    acceleration without the Laplacian and the expansion. *)
Definition conservative (massless : bool) (k : kern) (P : prec) (I : isa) (s : pq) (q : qcd) : Prop :=
  forall f c p mel lap vel w g t v U, sameWorld f c -> (massless = true -> pMa2 f = 0) -> pDzc f <> 0 -> (p < lanesOf P I)%nat ->
    (forall u, stored P s q c (g u) (U u)) -> tangent g t v -> pairOf p mel = g t ->
    newVel k P I (plain s q) f p mel lap vel = Some w ->
    derivable_pt_lim U t
      (- (dot (plus (applied f (pairOf p vel) w) (times (-1) (plus (pairOf p lap) (times (pRpp f) (g t))))) v / pR f ^ 4)).

(** ** A periodic box *)
Definition cell := (nat * nat * nat)%type.
Definition box (n z : nat) : list cell :=
  flat_map (fun k => flat_map (fun j => map (fun i => (i, j, k)) (seq 0 n)) (seq 0 n)) (seq 0 z).
Definition stepTo (n z nv : nat) (d : dir) (x : cell) : cell :=
  let '(i, j, k) := x in
  match d with
  | Xp => ((i + nv) mod n, j, k) | Xm => ((i + (n - 1) * nv) mod n, j, k)
  | Yp => (i, (j + nv) mod n, k) | Ym => (i, (j + (n - 1) * nv) mod n, k)
  | Zp => (i, j, (k + nv) mod z) | Zm => (i, j, (k + (z - 1) * nv) mod z)
  end%nat.
(** The Laplacian of the kernels with NN neighbours. *)
Definition boxLap (NN n z : nat) (d2 : R) (m : cell -> R * R) (x : cell) : R * R :=
  (lap (setCO NN) NN (/ d2) (fst (m x)) (fun nv d => fst (m (stepTo n z nv d x))),
   lap (setCO NN) NN (/ d2) (snd (m x)) (fun nv d => snd (m (stepTo n z nv d x)))).
Definition siteAt (n z : nat) (m v : cell -> R * R) (x : cell) : site :=
  let nb d := m (stepTo n z 1 d x) in
  Site (m x) (v x) (nb Xp) (nb Xm) (nb Yp) (nb Ym) (nb Zp) (nb Zm) false.
(** Every site obeys the equations of motion at time t: its field moves with its velocity
    and its velocity with the acceleration that the update of any kernel applies. *)
Definition obeys (k : kern) (P : prec) (I : isa) (NN n z : nat) (s : pq) (q : qcd) (f : parms) (d2 : R)
    (m v : R -> cell -> R * R) (t : R) : Prop :=
  forall x, In x (box n z) -> tangent (fun u => m u x) t (v t x) /\
    exists p mel lp vel w, (p < lanesOf P I)%nat /\ pairOf p mel = m t x /\ pairOf p vel = v t x /\
      pairOf p lp = boxLap NN n z d2 (m t) x /\ newVel k P I (plain s q) f p mel lp vel = Some w /\
      tangent (fun u => v u x) t (applied f (v t x) w).
(** The sum of the ten averages, for the box split in any way among ranks and threads. *)
Definition totalEnergy (P : prec) (s : pq) (q : qcd) (c : eparms) (n z : nat) (m v : cell -> R * R) (e : R) : Prop :=
  exists rs old E M h, Permutation (sites rs) (map (siteAt n z m v) (box n z)) /\
    energy P false false s q c 1 (length (sites rs)) rs old = Reply E M /\
    (forall i, (i < 10)%nat -> E i = Some (h i)) /\ e = sumOver h (seq 0 10).
(** Reported energy is conserved in a box that does not expand. *)
Definition conserves (massless : bool) (k : kern) (P : prec) (I : isa) (NN : nat) (s : pq) (q : qcd) : Prop :=
  forall n z f c m v t T, (0 < n)%nat -> (0 < z)%nat -> sameWorld f c -> (massless = true -> pMa2 f = 0) -> pRpp f = 0 -> eRprime c = 0 -> 0 < eDelta2 c -> pDzc f <> 0 ->
    (forall u x, In x (box n z) -> m u x <> (0, 0)) -> obeys k P I NN n z s q f (eDelta2 c) m v t ->
    (forall u, totalEnergy P s q c n z (m u) (v u) (T u)) -> derivable_pt_lim T t 0.
