(** Model of the tagging of dense points and their grouping, include/axiton/trackerClass.h, paxion mode.

    sData and m2h are functions of the memory index; of the bits of sData the two that matter are kept. The contrast
    is an arbitrary criterion. Not modelled: the computation of the density, the exchange of ghosts and the
    counting of groups after the loop, which change neither tags nor groups. *)
From Coq Require Import List Arith Bool.
From Verif Require Import Base FolderModel IndexModel TrackModel.
Import ListNotations.

Definition setf {B} (f : nat -> B) (p : nat) (b : B) : nat -> B := fun i => if i =? p then b else f i.

(** trackerClass.h:436-470: one thread's share of the loop. The counter [accepted] is a reduction
    variable: every thread's own copy starts at 0. The result: m2h, the points in the order found. *)
Definition tagOne (crit : nat -> bool) (plainOf : nat -> nat) (st : (nat -> nat) * nat * list nat) (iidx : nat) :
  (nat -> nat) * nat * list nat :=
  let '(m2h, accepted, found) := st in
  if crit iidx then (setf m2h iidx accepted, S accepted, found ++ [plainOf iidx]) else st.
Definition tagThread (crit : nat -> bool) (plainOf : nat -> nat) (m2h : nat -> nat) (share : list nat) :
  (nat -> nat) * list nat :=
  let '(m2h, _, found) := fold_left (tagOne crit plainOf) share (m2h, 0, []) in (m2h, found).
(** All threads; shares are disjoint so that their writes do not meet. The list: one thread after the other
    (another interleaving is given to the grouping as another order). *)
Fixpoint tagThreads (crit : nat -> bool) (plainOf : nat -> nat) (m2h : nat -> nat) (shares : list (list nat)) :
  (nat -> nat) * list nat :=
  match shares with
  | [] => (m2h, [])
  | sh :: shares => let '(m2h, l) := tagThread crit plainOf m2h sh in
                    let '(m2h, l') := tagThreads crit plainOf m2h shares in (m2h, l ++ l')
  end.

(** What the grouping changes: the bits STRING_WALL (examined) and STRING_XY_POSITIVE (in a group), m2h *)
Record tags := Tags { wall : nat -> bool; xyp : nat -> bool; lab : nat -> nat }.

Section Grouping.
  Variables (W L Lz : nat).           (* word size, Length, Depth *)
  Variable memOf : nat -> nat.        (* place in memory of a point: foldidx or the same *)
  Let S2 := L * L.
  Let V := S2 * Lz.

  (** trackerClass.h:592-605: neighbours *)
  Definition nebo (idx2 : nat) : list nat :=
    let '(_, (o0, o1, o2, o3)) := idx2VecNeigh W L idx2 in
    [o0; o1; o2; o3] ++ (if idx2 <? V - S2 then [idx2 + S2] else []) ++ (if S2 <? idx2 then [idx2 - S2] else []).

  (** trackerClass.h:74-83 Group::AddPoint *)
  Definition addPoint (grp : list nat) (p : nat) : list nat * bool :=
    if existsb (Nat.eqb p) grp then (grp, false) else (grp ++ [p], true).

  (** trackerClass.h:608-625: one neighbour. State: tags, group, npointsincrease *)
  Definition visitN (gid : nat) (st : tags * list nat * nat) (nidx : nat) : tags * list nat * nat :=
    let '(t, grp, inc) := st in
    if negb (xyp t (memOf nidx)) && (0 <? lab t (memOf nidx)) then
      let '(grp, added) := addPoint grp nidx in
      (Tags (wall t) (setf (xyp t) (memOf nidx) true) (setf (lab t) (memOf nidx) gid), grp,
       if added then S inc else inc)
    else st.
  (** trackerClass.h:586-630: one point whose neighbours are looked for *)
  Definition visit (nb : nat -> list nat) (gid : nat) (st : tags * list nat * nat) (idx2 : nat) : tags * list nat * nat :=
    let '(t, grp, inc) := fold_left (visitN gid) (nb idx2) st in
    (Tags (setf (wall t) (memOf idx2) true) (xyp t) (lab t), grp, inc).
  (** trackerClass.h:571-585: the points of the group not examined yet *)
  Definition pass (nb : nat -> list nat) (gid : nat) (t : tags) (grp : list nat) : tags * list nat * nat :=
    let temp := filter (fun a => negb (wall t (memOf a))) grp in
    let t := Tags (wall t) (fold_left (fun f a => setf f (memOf a) true) temp (xyp t)) (lab t) in
    fold_left (visit nb gid) temp (t, grp, 0).
  (** trackerClass.h:562-634: while (npointsincrease). [None]: the fuel ran out *)
  Fixpoint grow (nb : nat -> list nat) (fuel gid : nat) (t : tags) (grp : list nat) : option (tags * list nat) :=
    match fuel with
    | 0 => None
    | S fuel => let '(t, grp, inc) := pass nb gid t grp in
                if inc =? 0 then Some (t, grp) else grow nb fuel gid t grp
    end.
  (** trackerClass.h:534-648: one seed. The test of :549 reads tag[idx], not tag[midx] *)
  Definition seed (nb : nat -> list nat) (fuel : nat) (st : option (tags * nat * list (list nat))) (idx : nat) :
    option (tags * nat * list (list nat)) :=
    match st with
    | None => None
    | Some (t, gid, groups) =>
      if wall t idx then st
      else match grow nb fuel gid t [idx] with
           | None => None
           | Some (t, grp) => Some (t, S gid, groups ++ [grp])
           end
    end.
  (** trackerClass.h:505-648, the loop over the candidates done by one thread *)
  Definition groupTags (nb : nat -> list nat) (fuel : nat) (m2h : nat -> nat) (order : list nat) :
    option (tags * nat * list (list nat)) :=
    fold_left (seed nb fuel) order (Some (Tags (fun _ => false) (fun _ => false) m2h, 1, [])).
End Grouping.
