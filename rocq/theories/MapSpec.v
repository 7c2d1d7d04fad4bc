(** What the maps should show (C106). The whole box is the slabs of the ranks one after the other. *)
From Coq Require Import List Arith Bool String QArith.
From Verif Require Import Base FolderModel FolderSpec MapModel.
Import ListNotations.
Local Open Scope nat_scope.

(** The field and its velocity at a site of the whole box. *)
Definition boxM {B} (g : geom) (rs : ranks B) (x y z : nat) : nat -> B :=
  m_at g (rs (z / g_Lz g)) x y (z mod g_Lz g).
Definition boxV {B} (g : geom) (rs : ranks B) (x y z : nat) : nat -> B :=
  v_at g (rs (z / g_Lz g)) x y (z mod g_Lz g).

(** A picture of [w] columns and [h] rows of [c] numbers each: the data set has that many numbers and
    shows [pic column row component] everywhere. *)
Definition shows {B} (f : file B) (name : string) (w h c : nat) (pic : nat -> nat -> nat -> B) : Prop :=
  exists d, f name = Some d /\ d_size d = w * h * c /\
    forall col row j, col < w -> row < h -> j < c ->
      d_val d ((row * w + col) * c + j) = Some (pic col row j).

(** Everything the file had under other names is still there and nothing else came in. *)
Definition sameBut {B} (f f' : file B) (names : list string) : Prop :=
  forall n, ~ In n names -> f' n = f n.

(** No site of the field changed on any rank. *)
Definition fieldKept {B} (g : geom) (rs rs' : ranks B) : Prop :=
  forall r x y z, site g x y z ->
    m_at g (rs' r) x y z = m_at g (rs r) x y z /\ v_at g (rs' r) x y z = v_at g (rs r) x y z.

(** The rows of all the ranks, and no others, reach the file, in any order. *)
Definition allRows (R Lz : nat) (order : list (nat * nat)) : Prop :=
  forall r y, In (r, y) order <-> r < R /\ y < Lz.

(** The mean over the depth [D] of the box. *)
Fixpoint total (n : nat) (h : nat -> Q) : Q := match n with 0 => 0%Q | S n => (total n h + h n)%Q end.
Definition meanDepth (D : nat) (h : nat -> Q) : Q := (total D h / inject_Z (Z.of_nat D))%Q.

(** A picture of one rational number per point. *)
Definition showsQ (f : file Q) (name : string) (w h : nat) (pic : nat -> nat -> Q) : Prop :=
  exists d, f name = Some d /\ d_size d = w * h /\
    forall col row, col < w -> row < h ->
      exists q, d_val d (row * w + col) = Some q /\ (q == pic col row)%Q.

(** The energy at a site of the whole box, when [m2 r] is the energy of the slab of rank r. *)
Definition boxE {B} (g : geom) (m2 : nat -> nat -> B) (x y z : nat) : B :=
  m2 (z / g_Lz g) (z mod g_Lz g * (g_n1 g * g_n1 g) + (y * g_n1 g + x)).
