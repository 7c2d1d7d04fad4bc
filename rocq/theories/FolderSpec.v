(** Specification vocabulary for the folding claims (C01-C03), independent of the
    loops of the model. *)
From Coq Require Import Arith.
From Verif Require Import Base FolderModel.

(** Position of site (x,y) inside a slice: the plain layout is row major; the
    vector layout puts rows y, y+L/w, y+2L/w, ... of the same x next to each
    other (lane number y / (L/w)). *)
Definition plain_pos (g : geom) (x y : nat) : nat := y * g_n1 g + x.
Definition vector_pos (g : geom) (x y : nat) : nat :=
  let rows := g_n1 g / g_w g in
  (y mod rows) * (g_n1 g * g_w g) + x * g_w g + y / rows.

Definition site_pos (g : geom) (folded : bool) (x y : nat) : nat :=
  if folded then vector_pos g x y else plain_pos g x y.

(** The value of m, v, m2 at site (x,y,z) given the recorded layout. *)
Definition m_at {A} (g : geom) (s : fstate A) (x y z : nat) : A :=
  f_mem s (ArrM, mStart g + z * g_n2 g + site_pos g (f_folded s) x y).
Definition v_at {A} (g : geom) (s : fstate A) (x y z : nat) : A :=
  f_mem s (ArrV, vStart g + z * g_n2 g + site_pos g (f_folded s) x y).
Definition m2_at {A} (g : geom) (s : fstate A) (x y z : nat) : A :=
  f_mem s (ArrM2, m2Start g + z * g_n2 g + site_pos g (f_m2folded s) x y).

(** (x,y,z) is a site of the local grid. *)
Definition site (g : geom) (x y z : nat) : Prop :=
  x < g_n1 g /\ y < g_n1 g /\ z < g_Lz g.

(** A usable grid: the vector width divides the length, at least one ghost slice. *)
Definition wf_geom (g : geom) : Prop :=
  0 < g_w g /\ g_n1 g mod g_w g = 0 /\ 1 <= g_Ng g.

(** Location l belongs to the scratch the folder may overwrite: the first slice of
    the front and of the back ghost zones of m. *)
Definition scratch (g : geom) (l : loc) : Prop :=
  exists i, i < g_n2 g /\ (l = (ArrM, i) \/ l = (ArrM, mBack g + i)).

(** Location l belongs to the owned slices of m or of v. *)
Definition owned_mv (g : geom) (l : loc) : Prop :=
  exists i, i < g_n3 g /\ (l = (ArrM, mStart g + i) \/ l = (ArrV, vStart g + i)).

(** Location l lies inside the buffers of the field (m with its ghosts on both
    sides, v, m2 with ghosts). *)
Definition in_buffers (g : geom) (l : loc) : Prop :=
  match l with
  | (ArrM, i) => i < mBack g + g_n2 g * g_Ng g
  | (ArrV, i) => i < vStart g + g_n3 g + vStart g
  | (ArrM2, i) => i < mBack g + g_n2 g * g_Ng g
  | _ => False
  end.
