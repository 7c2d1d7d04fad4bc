(** Model of the CPU propagation kernel: /repo/include/propagator/propXeon.h:38-870
    (propagateKernelXeon) and, with real instead of complex elements, of
    /repo/include/propagator/propThetaXeon.h (propThetaKernelXeon) and of the
    Laplacian of /repo/include/propagator/inLapla.h:41-187 (lap_pd).
    An element (a complex number for the saxion, a real one for the axion) is a
    value of an arbitrary type [A]; the factor [<< 1] of complex offsets is
    dropped. A vector register holds [g_w] elements (the constant [step]). The
    arithmetic of the kernel (potential, damping, kick and drift) is an arbitrary
    function [F] of the element, its 6*Ng neighbours and its velocity. *)
From Coq Require Import List Arith Bool.
From Verif Require Import Base FolderModel.
Import ListNotations.

Inductive dir := Xp | Xm | Yp | Ym | Zp | Zm.

(** New velocity and new field of one element, from the element, the neighbour at
    distance nv in each direction, and the velocity: propXeon.h:241-385. *)
Definition pointfun (A : Type) := A -> (nat -> dir -> A) -> A -> A * A.

(** propXeon.h:109-132: XC = Lx << log2(step), YC = Lx >> log2(step). *)
Definition kXC (g : geom) := g_n1 g * g_w g.
Definition kYC (g : geom) := g_n1 g / g_w g.

(** Vector load: lane k of the register. *)
Definition vload {A} (m : nat -> A) (i : nat) : nat -> A := fun k => m (i + k).

(** Vector store of [w] lanes at [i]. *)
Definition vstore {A} (a : nat -> A) (i w : nat) (r : nat -> A) : nat -> A :=
  fun j => if (i <=? j) && (j <? i + w) then r (j - i) else a j.

(** propXeon.h:117-118 (shfRg, shfLf) and the permute2f128 of :199, :215: lanes
    rotated by one element. The instruction sequences themselves are modelled in
    LaneModel.v. *)
Definition rotR {A} (w : nat) (r : nat -> A) : nat -> A := fun k => r ((k + w - 1) mod w).
Definition rotL {A} (w : nat) (r : nat -> A) : nat -> A := fun k => r ((k + 1) mod w).

(** propXeon.h:178-232: register with the neighbours at distance nv. X0, X1 are
    X[0] (the offset inside the row of vectors) and X[1] (the row). Subtractions
    are on natural numbers: in the ranges the theorems cover they do not pass
    below zero. *)
Definition nbr {A} (g : geom) (m : nat -> A) (X0 X1 idx nv : nat) (d : dir) : nat -> A :=
  let step := g_w g in let XC := kXC g in let YC := kYC g in let Sf := g_n2 g in
  match d with
  | Xm => vload m (if X0 <? nv * step then idx + XC - nv * step else idx - nv * step)
  | Xp => vload m (if XC <=? X0 + nv * step then idx + nv * step - XC else idx + nv * step)
  | Ym => if X1 <? nv then rotR step (vload m (idx + Sf - nv * XC))
          else vload m (idx - nv * XC)
  | Yp => if X1 <? nv then vload m (idx + nv * XC)
          else if YC <=? X1 + nv then rotL step (vload m (idx + nv * XC - Sf))
          else vload m (idx + nv * XC)
  | Zp => vload m (idx + nv * Sf)
  | Zm => vload m (idx - nv * Sf)
  end.

(** Kernel state: the arrays v and m2 (written); m is read only (__restrict__). *)
Definition kstate (A : Type) := ((nat -> A) * (nat -> A))%type.

(** propXeon.h:158-386: one iteration of the innermost loop, with the guard of
    line 166. *)
Definition kernel_point {A} (g : geom) (F : pointfun A) (zF : nat) (m : nat -> A)
    (zC yC xC : nat) (st : kstate A) : kstate A :=
  let '(v, m2) := st in
  let idx := zC * (kYC g * kXC g) + yC * kXC g + xC in
  if (kYC g <=? yC) || (zF <=? zC) then st
  else
    let idxV := idx - g_n2 g * g_Ng g in
    let r k := F (vload m idx k) (fun nv d => nbr g m xC yC idx nv d k) (vload v idxV k) in
    (vstore v idxV (g_w g) (fun k => fst (r k)), vstore m2 idx (g_w g) (fun k => snd (r k))).

(** propXeon.h:155-157: the iterations (zz, yy, xC/step) of the collapsed loops of
    one block. *)
Definition block_iters (g : geom) (bSizeY bSizeZ : nat) : list (nat * nat * nat) :=
  flat_map (fun zz => flat_map (fun yy => map (fun xi => (zz, yy, xi)) (seq 0 (g_n1 g)))
                               (seq 0 bSizeY)) (seq 0 bSizeZ).

(** propXeon.h:144-388 and, with other bodies, :877-945 (the same loops are used by
    all the kernels): the blocked loops. [sched zT yT] is the order in which the
    threads of the [omp for] of block (zT, yT) run its iterations. *)
Definition blocked {S} (g : geom) (bSizeY bSizeZ : nat)
    (sched : nat -> nat -> list (nat * nat * nat)) (z0 zF : nat)
    (body : nat -> nat -> nat -> S -> S) (st : S) : S :=
  let zM := (zF - z0 + bSizeZ - 1) / bSizeZ in
  let bY := (kYC g + bSizeY - 1) / bSizeY in
  for_loop zM (fun zT => for_loop bY (fun yT st =>
    fold_left (fun st (i : nat * nat * nat) =>
      let '(zz, yy, xi) := i in
      body (zz + bSizeZ * zT + z0) (yy + bSizeY * yT) (xi * g_w g) st)
      (sched zT yT) st)) st.

(** propXeon.h:57-58 and :144-388 propagateKernelXeon. *)
Definition kernel {A} (g : geom) (F : pointfun A) (bSizeY bSizeZ : nat)
    (sched : nat -> nat -> list (nat * nat * nat)) (Vo Vf : nat) (m : nat -> A)
    (st : kstate A) : kstate A :=
  if Vf <? Vo then st
  else
    let z0 := Vo / (g_n1 g * g_n1 g) in
    let zF := Vf / (g_n1 g * g_n1 g) in
    blocked g bSizeY bSizeZ sched z0 zF (kernel_point g F zF m) st.

(** propXeon.h:918-939: one iteration of updateMXeon; the velocity is addressed
    relative to Vo (line 926). *)
Definition drift_point {A} (g : geom) (D : A -> A -> A) (Vo zF : nat)
    (zC yC xC : nat) (st : kstate A) : kstate A :=
  let '(v, m) := st in
  let idx := zC * (kYC g * kXC g) + yC * kXC g + xC in
  if (kYC g <=? yC) || (zF <=? zC) then st
  else
    let idxV := idx - Vo in
    (v, vstore m idx (g_w g) (fun k => D (vload m idx k) (vload v idxV k))).

(** propXeon.h:874-945 updateMXeon: the drift m += dz*d*v. State: (v, m). *)
Definition drift {A} (g : geom) (D : A -> A -> A) (bSizeY bSizeZ : nat)
    (sched : nat -> nat -> list (nat * nat * nat)) (Vo Vf : nat) (st : kstate A) : kstate A :=
  let z0 := Vo / (g_n1 g * g_n1 g) in
  let zF := Vf / (g_n1 g * g_n1 g) in
  blocked g bSizeY bSizeZ sched z0 zF (drift_point g D Vo zF) st.
