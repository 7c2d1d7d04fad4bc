(** Model of the masking of balls around defects: lib/spectrum/spectrum.cpp:507-742.

    Every rank holds Lz slices of L x L sites; the flags of a site are a set of bits [N]. Threads are
    lists of instructions taken one at a time in the order of a schedule, so that every
    interleaving of the atomic operations of the source is a schedule.
    The radius enters through R2, the integer part of its square (the source compares
    squares of integers with it). Simplifications: the unsigned sums Ly+y+dy are taken to
    be non-negative (radius at most Ly); a short holds every number of slices (radius
    below 32768); the counters for the log are left out. *)
From Coq Require Import List Arith ZArith NArith.
Import ListNotations.
Local Open Scope nat_scope.

(** spectrum.cpp:507-514 inflsq *)
Fixpoint inflLoop (fuel : nat) (aux ts : Z) : Z :=
  match fuel with
  | 0 => ts
  | S fuel => if (ts * ts <=? aux)%Z then inflLoop fuel aux (ts + 1)%Z else ts
  end.
(** the loop makes at most aux + 2 tests *)
Definition inflsq (aux : Z) : Z := (inflLoop (Z.to_nat aux + 2) aux 0 - 1)%Z.
(** for (d = a; d <= b; d++) *)
Definition zrange (a b : Z) : list Z := map (fun i => (a + Z.of_nat i)%Z) (seq 0 (Z.to_nat (b - a + 1))).

(** Instructions of a thread: look at a site and, if it is a defect, go through its ball;
    set the mask flag (atomic update); raise a counter of the ghost of the slice below (front) or above
    (back): atomic read, comparison, atomic write. *)
Inductive instr := Visit (z y x : nat) | Mark (i : nat) | LoadF (c l : nat) | LoadB (c l : nat).

(** :606-656, body of the loop on the first and last slices *)
Definition ballBorder (L Lz : nat) (R2 : Z) (rz : Z) (z y x : nat) : list instr :=
  let thin := (Z.of_nat Lz <? rz)%Z in
  let rzmin := if thin then 0%Z else (- rz)%Z in
  let rzmax := if thin then (Z.of_nat Lz - 1)%Z else rz in
  flat_map (fun dz =>
    let raux := (R2 - dz * dz)%Z in
    let ry := inflsq raux in
    flat_map (fun dy =>
      let yii := Z.to_nat ((Z.of_nat L + Z.of_nat y + dy) mod Z.of_nat L) in
      let rx := inflsq (raux - dy * dy) in
      map (fun dx =>
        let xii := Z.to_nat ((Z.of_nat L + Z.of_nat x + dx) mod Z.of_nat L) in
        let zii := (Z.of_nat z + dz)%Z in
        if (zii <? 0)%Z then LoadF (L * yii + xii) (Z.to_nat (- zii))
        else if (Z.of_nat Lz <=? zii)%Z then LoadB (L * yii + xii) (Z.to_nat (zii + 1 - Z.of_nat Lz))
        else Mark (L * L * Z.to_nat zii + L * yii + xii)) (zrange (- rx) rx)) (zrange (- ry) ry)) (zrange rzmin rzmax).
(** :687-704, body of the loop on the other slices *)
Definition ballBulk (L : nat) (R2 : Z) (rz : Z) (z y x : nat) : list instr :=
  flat_map (fun dz =>
    let raux := (R2 - dz * dz)%Z in
    let ry := inflsq raux in
    flat_map (fun dy =>
      let yii := Z.to_nat ((Z.of_nat L + Z.of_nat y + dy) mod Z.of_nat L) in
      let rx := inflsq (raux - dy * dy) in
      map (fun dx =>
        let xii := Z.to_nat ((Z.of_nat L + Z.of_nat x + dx) mod Z.of_nat L) in
        Mark (Z.to_nat (Z.of_nat z + dz) * (L * L) + L * yii + xii)) (zrange (- rx) rx)) (zrange (- ry) ry)) (zrange (- rz) rz).

(** flags of the rank and the two ghosts of counters *)
Record mstate := MS { m_sd : nat -> N; m_F : nat -> nat; m_B : nat -> nat }.
Definition setN {A : Type} (f : nat -> A) (i : nat) (a : A) : nat -> A := fun j => if j =? i then a else f j.
(** a thread: what it still has to do, and what it has read from a ghost and not yet compared *)
Definition thread := (list instr * option nat)%type.
(** the next atomic operation of a thread; [ball]: what it does around a defect, D, M:
    flags of defects and of the mask *)
Definition stepThread (L : nat) (D M : N) (ball : nat -> nat -> nat -> list instr) (st : mstate) (t : thread) : mstate * thread :=
  match t with
  | (Visit z y x :: k, _) =>
      if (N.land (m_sd st (L * L * z + L * y + x)) D =? 0)%N then (st, (k, None)) else (st, (ball z y x ++ k, None))
  | (Mark i :: k, _) => (MS (setN (m_sd st) i (N.lor (m_sd st i) M)) (m_F st) (m_B st), (k, None))
  | (LoadF c l :: k, None) => (st, (LoadF c l :: k, Some (m_F st c)))
  | (LoadF c l :: k, Some a) => (if a <? l then MS (m_sd st) (setN (m_F st) c l) (m_B st) else st, (k, None))
  | (LoadB c l :: k, None) => (st, (LoadB c l :: k, Some (m_B st c)))
  | (LoadB c l :: k, Some a) => (if a <? l then MS (m_sd st) (m_F st) (setN (m_B st) c l) else st, (k, None))
  | ([], _) => (st, t)
  end.
Definition step (L : nat) (D M : N) (ball : nat -> nat -> nat -> list instr) (s : mstate * (nat -> thread)) (i : nat) :
  mstate * (nat -> thread) :=
  let '(st', t') := stepThread L D M ball (fst s) (snd s i) in (st', setN (snd s) i t').
(** the threads 0 ... n-1 with their shares of the slices run to the end of the schedule;
    None if some thread has not finished then *)
Definition program (L : nat) (slice : nat -> nat) (share : list nat) : list instr :=
  flat_map (fun l => flat_map (fun y => map (fun x => Visit (slice l) y x) (seq 0 L)) (seq 0 L)) share.
Definition phase (L : nat) (D M : N) (ball : nat -> nat -> nat -> list instr) (slice : nat -> nat) (shares : list (list nat)) (sched : list nat)
  (st : mstate) : option mstate :=
  let s := fold_left (step L D M ball) sched (st, (fun i => (program L slice (nth i shares []), None)) : nat -> thread) in
  if forallb (fun i => match fst (snd s i) with [] => true | _ => false end) (seq 0 (length shares)) then Some (fst s) else None.

(** sharing and timing of the threads of one rank *)
Record timing := TM { tm_border : list (list nat); tm_bsched : list nat; tm_bulk : list (list nat); tm_usched : list nat; tm_cells : list nat }.
(** :587-595: slices of the first loop *)
Definition borderRange (Lz : nat) (rz : Z) : list nat :=
  if (Z.of_nat Lz <? rz)%Z then seq 0 Lz else seq (Lz - Z.to_nat rz) (2 * Z.to_nat rz).
(** :671-680: slices of the second loop *)
Definition bulkRange (Lz : nat) (rz : Z) : list nat :=
  if (rz <? Z.of_nat Lz)%Z then seq (Z.to_nat rz) (Lz - 2 * Z.to_nat rz) else [].
(** :569-663: ghosts cleared, first loop *)
Definition border (L Lz : nat) (R2 : Z) (D M : N) (tm : timing) (sd : nat -> N) : option mstate :=
  let rz := Z.sqrt R2 in
  phase L D M (ballBorder L Lz R2 rz) (fun liz => liz mod Lz) (tm_border tm) (tm_bsched tm) (MS sd (fun _ => 0) (fun _ => 0)).
(** :671-709: second loop *)
Definition bulk (L Lz : nat) (R2 : Z) (D M : N) (tm : timing) (st : mstate) : option mstate :=
  let rz := Z.sqrt R2 in
  phase L D M (ballBulk L R2 rz) (fun z => z) (tm_bulk tm) (tm_usched tm) st.
(** :719-735: the counters received from below ([gB]: the back ghost of the rank below) and above
    are turned into flags; the cells of a slice in the order of [tm_cells] *)
Definition marks (M : N) (sd : nat -> N) (l : list nat) : nat -> N := fold_left (fun sd i => setN sd i (N.lor (sd i) M)) l sd.
Definition receive (L Lz : nat) (M : N) (cells : list nat) (gB gF : nat -> nat) (sd : nat -> N) : nat -> N :=
  if 1 <? Lz then
    fold_left (fun sd c => marks M (marks M sd (map (fun dz => c + dz * (L * L)) (seq 0 (gB c))))
                             (map (fun dz => c + L * L * (Lz - 1 - dz)) (seq 0 (gF c)))) cells sd
  else sd.
(** :518-742 maskball, rank r of P; sds: the flags of all ranks, tms: the timing of all ranks *)
Definition maskball (P L Lz : nat) (R2 : Z) (D M : N) (tms : nat -> timing) (sds : nat -> nat -> N) (r : nat) : option (nat -> N) :=
  let bord r := border L Lz R2 D M (tms r) (sds r) in
  match bord r, bord ((r + P - 1) mod P), bord ((r + 1) mod P) with
  | Some st, Some stB, Some stF =>
      match bulk L Lz R2 D M (tms r) st with
      | Some st' => Some (receive L Lz M (tm_cells (tms r)) (m_B stB) (m_F stF) (m_sd st'))
      | None => None
      end
  | _, _, _ => None
  end.
