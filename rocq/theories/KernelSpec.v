(** Specification vocabulary for C06-C10: sites of a slab with ghost slices. *)
From Coq Require Import Arith List.
From Verif Require Import Base FolderModel FolderSpec KernelModel.

(** Where the vector layout stores site (x,y) of slice z. Slices are numbered from
    the first ghost slice for the field (z = 0 .. Lz + 2 Ng - 1); the velocity has
    no ghosts, so its slice 0 is the first owned slice. *)
Definition cell (g : geom) (x y z : nat) : nat := z * g_n2 g + vector_pos g x y.

(** The site at distance n from (x,y,z): periodic in x and y with period L. *)
Definition site_nbr (L : nat) (d : dir) (n : nat) (p : nat * nat * nat) : nat * nat * nat :=
  let '(x, y, z) := p in
  match d with
  | Xp => ((x + n) mod L, y, z)
  | Xm => ((x + L - n) mod L, y, z)
  | Yp => (x, (y + n) mod L, z)
  | Ym => (x, (y + L - n) mod L, z)
  | Zp => (x, y, z + n)
  | Zm => (x, y, z - n)
  end.

Definition val {A} (g : geom) (m : nat -> A) (p : nat * nat * nat) : A :=
  let '(x, y, z) := p in m (cell g x y z).

(** The result F prescribes for site (x,y,z) of the slab. *)
Definition point_result {A} (g : geom) (F : pointfun A) (m v : nat -> A) (x y z : nat) : A * A :=
  F (m (cell g x y z)) (fun n d => val g m (site_nbr (g_n1 g) d n (x, y, z)))
    (v (cell g x y (z - g_Ng g))).

(** F looks at neighbours at distance 1 .. Ng only. *)
Definition uses_Ng {A} (g : geom) (F : pointfun A) : Prop :=
  forall a v f f', (forall n d, 1 <= n <= g_Ng g -> f n d = f' n d) -> F a f v = F a f' v.
