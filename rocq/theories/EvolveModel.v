(** Model of one time step on all ranks: sRunCpu / tRunCpu,
    /repo/include/propagator/propClass.h:646-731 and :496-578, over the kernel of
    KernelModel.v and the exchange of GhostModel.v. The buffers are arrays of
    elements (the exchange moves whole elements: MAX_CHUNK is a multiple of every
    element size), so a slice is g_n2 elements. The time-dependent parameters of a
    kernel call (ppar, dz, c, d) are inside the function F it applies. *)
From Coq Require Import List Arith Bool Permutation.
From Verif Require Import Base FolderModel KernelModel GhostModel.
Import ListNotations.

(** The arrays m, v, m2 of every rank. *)
Record sys (A : Type) := Sys { sm : nat -> nat -> A; sv : nat -> nat -> A; sm2 : nat -> nat -> A }.
Arguments Sys {A}. Arguments sm {A}. Arguments sv {A}. Arguments sm2 {A}.

(** Everything the environment decides during one kernel pass: what the ghost
    zones hold before COMM_WAIT returns, the order in which the bytes of all the
    messages arrive, and per rank and kernel call (0, 1, 2) the block sizes chosen
    by the tuner and the thread schedule. *)
Record env (A : Type) := Env {
  e_junk : nat -> nat -> A;
  e_order : list (bloc * bloc);
  e_bY : nat -> nat -> nat;
  e_bZ : nat -> nat -> nat;
  e_sched : nat -> nat -> nat -> nat -> list (nat * nat * nat)
}.
Arguments Env {A}. Arguments e_junk {A}. Arguments e_order {A}.
Arguments e_bY {A}. Arguments e_bZ {A}. Arguments e_sched {A}.

(** MAX_CHUNK in elements, and NMPICHUNK (scalarField.cpp:39, :914). *)
Record comm := Comm { c_chunk : nat; c_max : nat }.

Definition wf_env {A} (c : comm) (n : nat) (g : geom) (e : env A) : Prop :=
  (exists l, sendGhosts (c_max c) (c_chunk c) n (g_n2 g) (g_Ng g) (g_Lz g) = Some l /\
             Permutation (e_order e) l) /\
  (forall r k, 0 < e_bY e r k /\ 0 < e_bZ e r k) /\
  (forall r k zT yT, Permutation (e_sched e r k zT yT) (block_iters g (e_bY e r k) (e_bZ e r k))).

(** Source array of a rank while the messages are in flight. *)
Definition in_flight {A} (g : geom) (e : env A) (r : nat) (m : nat -> A) : nat -> A :=
  fun i => if (i <? g_Ng g * g_n2 g) || ((g_Ng g + g_Lz g) * g_n2 g <=? i) then e_junk e r i else m i.

(** After COMM_WAIT. *)
Definition arrived {A} (e : env A) (m : nat -> nat -> A) : nat -> nat -> A :=
  fun r i => gcopies (e_order e) (fun l => m (fst l) (snd l)) (r, i).

Definition kcall {A} (g : geom) (F : pointfun A) (e : env A) (r k Vo Vf : nat) (m : nat -> A) (st : kstate A) :=
  kernel g F (e_bY e r k) (e_bZ e r k) (e_sched e r k) Vo Vf m st.

(** propClass.h:682-690 (and :694-706 with m and m2 exchanged): start the exchange
    of the source, update the inner slices, wait, update the slices next to the
    ghosts. Arguments: source, velocity, destination; BO = Ng*S, V = Lz*S. *)
Definition pass {A} (g : geom) (F : pointfun A) (e : env A) (src v dst : nat -> nat -> A) : sys A :=
  let S := g_n2 g in
  let BO := g_Ng g * S in
  let V := g_Lz g * S in
  let src' := arrived e src in
  let st r :=
    let st := kcall g F e r 0 (2 * BO) V (in_flight g e r (src r)) (v r, dst r) in
    let st := kcall g F e r 1 BO (2 * BO) (src' r) st in
    if BO <? V then kcall g F e r 2 V (V + BO) (src' r) st else st in
  Sys src' (fun r => fst (st r)) (fun r => snd (st r)).

(** propClass.h:663-671: the initial drift of the PROP_FIRST schemes. *)
Definition first_drift {A} (g : geom) (D : A -> A -> A) (e : env A) (s : sys A) : sys A :=
  let S := g_n2 g in
  let BO := g_Ng g * S in
  let V := g_Lz g * S in
  Sys (fun r => snd (drift g D (e_bY e r 0) (e_bZ e r 0) (e_sched e r 0) BO (V + BO) (sv s r, sm s r)))
      (fun r => fst (drift g D (e_bY e r 0) (e_bZ e r 0) (e_sched e r 0) BO (V + BO) (sv s r, sm s r)))
      (sm2 s).

(** propClass.h:674-709: one turn of the loop, two stages. *)
Definition two_stages {A} (g : geom) (p : (pointfun A * env A) * (pointfun A * env A)) (s : sys A) : sys A :=
  let '((F1, e1), (F2, e2)) := p in
  let s1 := pass g F1 e1 (sm s) (sv s) (sm2 s) in
  let s2 := pass g F2 e2 (sm2 s1) (sv s1) (sm s1) in
  Sys (sm2 s2) (sv s2) (sm s2).

(** propClass.h:711-728: the final kick of the PROP_LAST schemes writes m2 and v;
    m keeps its values. *)
Definition last_kick {A} (g : geom) (q : pointfun A * env A) (s : sys A) : sys A :=
  pass g (fst q) (snd q) (sm s) (sv s) (sm2 s).

(** propClass.h:646-731. *)
Definition runCpu {A} (g : geom) (first : option ((A -> A -> A) * env A))
    (stages : list ((pointfun A * env A) * (pointfun A * env A)))
    (last : option (pointfun A * env A)) (s : sys A) : sys A :=
  let s := match first with Some (D, e) => first_drift g D e s | None => s end in
  let s := fold_left (fun s p => two_stages g p s) stages s in
  match last with Some q => last_kick g q s | None => s end.
