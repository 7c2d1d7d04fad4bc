(** Model of expandField, ctheta2csaxion and unMoor (include/utils/simpleops.h), used when a file is read (lib/io/readWrite.pHdf5.cpp:1468-1525).

    Exact arithmetic. Arrays are functions of the index, those of m2 counted from m2Start. Complex values: each part alone, as all operations of expandField are linear.
    Left out: the GPU, logs, the front ghosts of m2, which are not read. *)
From Coq Require Import Reals List Arith Bool.
Import ListNotations.
Local Open Scope R_scope.

Definition array := nat -> R.
(** memcpy, memmove: n values from [from] on to [to] on. *)
Definition copy (src : array) (from : nat) (dst : array) (to n : nat) : array :=
  fun i => if ((to <=? i) && (i <? to + n))%nat then src (from + (i - to))%nat else dst i.
(** simpleops.h:166-184. [s]: the field of every rank, nx*nx*nz values at its start. [m2]: what m2 held. Ghosts: Ng slices of Nx*Nx behind the Nz slices, from the start of the next
    rank (scalarField.cpp:870-903, Ghost). *)
Definition packed (nx nz Nx Nz : nat) (s m2 : nat -> array) (p : nat) : array :=
  let a := copy (s p) 0 (m2 p) 0 (nx * nx * nz) in
  copy a (nx * nx * (nz - 1)) a (Nx * Nx * (Nz - 1)) (nx * nx).
Definition ghosted (K nx nz Nx Nz Ng : nat) (s m2 : nat -> array) (p : nat) : array :=
  copy (packed nx nz Nx Nz s m2 ((p + 1) mod K)) 0 (packed nx nz Nx Nz s m2 p) (Nx * Nx * Nz) (Ng * (Nx * Nx)).
Definition source (K nx nz Nx Nz Ng : nat) (s m2 : nat -> array) (p : nat) : array :=
  let g := ghosted K nx nz Nx Nz Ng s m2 p in copy g (Nx * Nx * Nz) g (nx * nx * nz) (nx * nx).

(** :209-216, :237, :244-245: the first and last site of a cell. For x the test for the last site is with Nz (:245). *)
Definition lo (c n N : nat) : nat := (c * N / n)%nat.
Definition hi (c n N M : nat) : nat := if ((c + 1) * M mod n =? 0)%nat then ((c + 1) * N / n - 1)%nat else ((c + 1) * N / n)%nat.
Definition between (a b : nat) : list nat := seq a (b + 1 - a).
(** :196, :218-227 and :253-272: the value of site (ix, iy, iz) from cell (cx, cy, cz). *)
Definition mix (nx Nx : nat) (m : array) (cx cy cz ix iy iz : nat) : R :=
  let r := INR nx / INR Nx in
  let px := ((cx + 1) mod nx)%nat in
  let py := ((cy + 1) mod nx)%nat in
  let at_ x y z := m (x + nx * (y + nx * z))%nat in
  let dx := r * INR ix - INR cx in
  let dy := r * INR iy - INR cy in
  let dz := r * INR iz - INR cz in
  at_ cx cy cz * ((1 - dx) * (1 - dy) * (1 - dz)) + at_ px cy cz * (dx * (1 - dy) * (1 - dz)) + at_ cx py cz * ((1 - dx) * dy * (1 - dz)) + at_ px py cz * (dx * dy * (1 - dz))
  + at_ cx cy (cz + 1)%nat * ((1 - dx) * (1 - dy) * dz) + at_ px cy (cz + 1)%nat * (dx * (1 - dy) * dz) + at_ cx py (cz + 1)%nat * ((1 - dx) * dy * dz) + at_ px py (cz + 1)%nat * (dx * dy * dz).
Definition put (s : array) (i : nat) (v : R) : array := fun j => if (j =? i)%nat then v else s j.
(** :209-275, one cell. *)
Definition cell (nx nz Nx Nz : nat) (m s : array) (c : nat * nat * nat) : array :=
  let '(cx, cy, cz) := c in
  fold_left (fun s iz => fold_left (fun s iy => fold_left (fun s ix => put s (ix + Nx * (iy + Nx * iz)) (mix nx Nx m cx cy cz ix iy iz))
    (between (lo cx nx Nx) (hi cx nx Nx Nz)) s) (between (lo cy nx Nx) (hi cy nx Nx Nx)) s) (between (lo cz nz Nz) (hi cz nz Nz Nz)) s.
(** :207-278: threads take cells in some order. *)
Definition expand (nx nz Nx Nz : nat) (m s : array) (order : list (nat * nat * nat)) : array := fold_left (cell nx nz Nx Nz m) order s.
(** :149-285 for rank p. *)
Definition expandField (K nx nz Nx Nz Ng : nat) (s m2 : nat -> array) (order : list (nat * nat * nat)) (p : nat) : array :=
  expand nx nz Nx Nz (source K nx nz Nx Nz Ng s m2 p) (s p) order.

(** :317-377 ctheta2csaxion, at one site: from R theta and its velocity, (Rp (1 - i theta) + i v/R) (R exp(i theta)). [Rp]: R'/R (cosmos.cpp:192-205). *)
Definition toSaxion (Rs Rp m v : R) : (R * R) * (R * R) :=
  let theta := m / Rs in
  let re := Rs * cos theta in
  let im := Rs * sin theta in
  let a := Rp in
  let b := v / Rs - Rp * theta in
  ((re, im), (a * re - b * im, a * im + b * re)).
(** :113-145 unMoor at one site, and axby with -1 and R after it (readWrite.pHdf5.cpp:1477-1480). *)
Definition floorR (x : R) : R := IZR (Int_part x).
Definition unMoor (Rs m : R) : R := (m + PI - 2 * PI * floorR ((m + PI) / (2 * PI)) - PI) * Rs.
Definition fromMoore (Rs m v : R) : R * R := let m := unMoor Rs m in (m, Rs * v + - 1 * m).
