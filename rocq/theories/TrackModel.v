(** Model of the axiton tracker, include/axiton/trackerClass.h, in axion mode: the list of tracked points,
    the search, the reading of values and the printing. The field is the state of FolderModel.

    The loop of the search runs in threads; points are added one at a time in a critical section, so the
    order in which the sites are visited is an arbitrary permutation. Thresholds are an arbitrary criterion
    on the pair of values (m,v). Not modelled: GPU (the tracker then returns at once), the
    grouping (TagModel), the file format. *)
From Coq Require Import List Arith ZArith Bool.
From Verif Require Import Base FolderModel IndexModel.
Import ListNotations.

Section Tracker.
  Context {A : Type} (g : geom).

  (** trackerClass.h:908-915 foldidx (the same lines are at :300-306 and :381-386) *)
  Definition foldidx (idx : nat) : nat :=
    let '(x0, x1, x2) := idx2Vec (g_n1 g) idx in
    let sy := x1 / (g_n1 g / g_w g) in
    let iiy := x1 - sy * g_n1 g / g_w g in
    x2 * g_n2 g + g_w g * (iiy * g_n1 g + x0) + sy.

  (** trackerClass.h:917-925 unfoldidx *)
  Definition unfoldidx (fidx : nat) : nat :=
    let sy := fidx mod g_w g in
    let iz := fidx / g_n2 g in
    let tem := (fidx - iz * g_n2 g - sy) / g_w g in
    let iiy := tem / g_n1 g in
    let ix := tem mod g_n1 g in
    iz * g_n2 g + (iiy + sy * g_n1 g / g_w g) * g_n1 g + ix.

  (** trackerClass.h:31-52 class Axiton *)
  Record axiton := Axiton { ax_idx : nat; ax_i0 : nat; ax_pts : list (A * A) }.
  (** trackerClass.h:126-138: Axilist, idxlist, limit, index *)
  Record tracker := Tracker { t_axi : list axiton; t_idx : list nat; t_limit : Z; t_index : nat }.

  (** trackerClass.h:727: idxlist.size() >= limit compares as unsigned 64-bit numbers *)
  Definition full (t : tracker) : bool := (t_limit t mod 2 ^ 64 <=? Z.of_nat (length (t_idx t)))%Z.

  (** trackerClass.h:721-742 AddAxiton *)
  Definition addAxiton (t : tracker) (id : nat) : tracker :=
    if full t then t
    else if existsb (Nat.eqb id) (t_idx t) then t
    else Tracker (t_axi t ++ [Axiton id (t_index t) []]) (t_idx t ++ [id]) (t_limit t) (t_index t).

  (** m[idx], v[idx] relative to mStart, vStart *)
  Definition mRead (s : fstate A) (i : nat) : A := f_mem s (ArrM, mStart g + i).
  Definition vRead (s : fstate A) (i : nat) : A := f_mem s (ArrV, vStart g + i).

  (** trackerClass.h:366-405: the body for one site and the loop over all *)
  Definition searchSite (crit : A -> A -> bool) (s : fstate A) (t : tracker) (iidx : nat) : tracker :=
    if crit (mRead s iidx) (vRead s iidx) then
      addAxiton t (if f_folded s then iidx else foldidx iidx)
    else t.
  Definition search (crit : A -> A -> bool) (order : list nat) (s : fstate A) (t : tracker) : tracker :=
    fold_left (searchSite crit s) order t.

  (** trackerClass.h:280-315 ReadAxitons: in the plain layout the stored index goes through the formula
      of foldidx once more (:301-306) *)
  Definition readAxitons (s : fstate A) (t : tracker) : tracker :=
    let pos id := if f_folded s then id else foldidx id in
    Tracker (map (fun a => Axiton (ax_idx a) (ax_i0 a)
                             (ax_pts a ++ [(mRead s (pos (ax_idx a)), vRead s (pos (ax_idx a)))])) (t_axi t))
            (t_idx t) (t_limit t) (S (t_index t)).

  (** trackerClass.h:814-822: the printed coordinates *)
  Definition printed (rank idx : nat) : nat * nat * nat :=
    let x2 := idx / g_n2 g in
    let xy := idx - x2 * g_n2 g in
    let iiy := xy / (g_n1 g * g_w g) in
    let xy := xy - iiy * (g_n1 g * g_w g) in
    let x0 := xy / g_w g in
    let sy := xy - x0 * g_w g in
    (x0, iiy + sy * (g_n1 g / g_w g), x2 + rank * g_Lz g).

  (** What can happen to field and tracker. [OSet] is anything that computes new values (evolution). *)
  Inductive op :=
  | OSearch (crit : A -> A -> bool) (order : list nat)
  | ORead
  | OFold
  | OUnfold
  | OSet (m : mem A).
  Definition step (st : fstate A * tracker) (o : op) : fstate A * tracker :=
    let '(s, t) := st in
    match o with
    | OSearch crit order => (s, search crit order s t)
    | ORead => (s, readAxitons s t)
    | OFold => (foldField g s, t)
    | OUnfold => (unfoldField g s, t)
    | OSet m => (FState m (f_folded s) (f_m2folded s) (f_gpu s), t)
    end.
  Definition run (ops : list op) (st : fstate A * tracker) : fstate A * tracker := fold_left step ops st.
  (** trackerClass.h:166-200: the limit is nMax divided among the ranks *)
  Definition start (limit : Z) : tracker := Tracker [] [] limit 0.
End Tracker.
Arguments axiton : clear implicits.
Arguments tracker : clear implicits.
Arguments op : clear implicits.

(** trackerClass.h:786-838: which (rank, position in its list) writes each group of the file; [nAx] is the
    number of axitons of each rank. A rank beyond the last has none ([nth] default). *)
Definition printNext (nAx : list nat) (s : nat * nat) : nat * nat :=
  let '(wr, loc) := s in
  if (Z.of_nat (nth wr nAx 0%nat) - 1 <? Z.of_nat loc)%Z then (S wr, 0) else (wr, loc).
Fixpoint printLoop (nAx : list nat) (n : nat) (s : nat * nat) : list (nat * nat) :=
  match n with
  | 0 => []
  | S n => let '(wr, loc) := printNext nAx s in (wr, loc) :: printLoop nAx n (wr, S loc)
  end.
Definition printOrder (nAx : list nat) : list (nat * nat) := printLoop nAx (list_sum nAx) (0, 0).
