(** Model of /repo/include/WKB/spline.h: the band matrix solver and the interpolation that
    the tabulated cosmology, the initial spectra and the WKB evolution use. Exact
    arithmetic. None: an assertion fails, or a division by zero makes the result no
    number. *)
From Coq Require Import Reals List Arith Bool.
Import ListNotations.
Open Scope R_scope.

(** A loop whose body may fail. *)
Fixpoint loop {S : Type} (f : nat -> S -> option S) (l : list nat) (s : S) : option S :=
  match l with
  | [] => Some s
  | k :: l' => match f k s with None => None | Some s' => loop f l' s' end
  end.
(** for (k = lo; k <= hi; k++) with hi < dim; empty when hi < lo. *)
Definition upto (lo hi : nat) : list nat := seq lo (hi + 1 - lo).

(** ** Band matrices *)
(** :48-49: m_upper[k][i], m_lower[k][i], by band and row; band 0 of m_lower holds the
    saved diagonal. *)
Record band := Band { nDim : nat; nUp : nat; nLow : nat; mUp : nat -> nat -> R; mLow : nat -> nat -> R }.
(** :131-144, a fresh matrix: vectors are filled with zeros. *)
Definition fresh (d u l : nat) : band := Band d u l (fun _ _ => 0) (fun _ _ => 0).
(** :160-161, :169-170 *)
Definition inBand (A : band) (i j : nat) : bool :=
  (i <? nDim A)%nat && (j <? nDim A)%nat && (j <=? i + nUp A)%nat && (i <=? j + nLow A)%nat.
(** :157-174 *)
Definition at_ (A : band) (i j : nat) : option R :=
  if inBand A i j then Some (if (i <=? j)%nat then mUp A (j - i)%nat i else mLow A (i - j)%nat i) else None.
Definition upd (f : nat -> nat -> R) (k i : nat) (v : R) : nat -> nat -> R :=
  fun k' i' => if (k' =? k)%nat && (i' =? i)%nat then v else f k' i'.
Definition put (A : band) (i j : nat) (v : R) : option band :=
  if inBand A i j then
    Some (if (i <=? j)%nat then Band (nDim A) (nUp A) (nLow A) (upd (mUp A) (j - i) i v) (mLow A)
          else Band (nDim A) (nUp A) (nLow A) (mUp A) (upd (mLow A) (i - j) i v))
  else None.
(** :175-185 *)
Definition savedDiag (A : band) (i : nat) : R := mLow A 0%nat i.
Definition saveDiag (A : band) (i : nat) (v : R) : band := Band (nDim A) (nUp A) (nLow A) (mUp A) (upd (mLow A) 0 i v).
(** :196-205: the row is divided by its diagonal entry. *)
Definition scaleEntry (i j : nat) (A : band) : option band :=
  match at_ A i j with None => None | Some v => put A i j (v * savedDiag A i) end.
Definition scaleRow (i : nat) (A : band) : option band :=
  match at_ A i i with
  | None => None
  | Some a =>
      if Req_EM_T a 0 then None
      else match loop (scaleEntry i) (upto (i - nLow A) (min (nDim A - 1) (i + nUp A))) (saveDiag A i (1 / a)) with
           | None => None
           | Some A' => put A' i i 1
           end
  end.
(** :208-220 *)
Definition gaussEntry (x : R) (k i j : nat) (A : band) : option band :=
  match at_ A i j, at_ A k j with
  | Some a, Some b => put A i j (a + x * b)
  | _, _ => None
  end.
Definition gaussRow (k i : nat) (A : band) : option band :=
  match at_ A k k, at_ A i k with
  | Some p, Some v =>
      if Req_EM_T p 0 then None
      else let x := - v / p in
           match put A i k (- x) with
           | None => None
           | Some A' => loop (gaussEntry x k i) (upto (k + 1) (min (nDim A - 1) (k + nUp A))) A'
           end
  | _, _ => None
  end.
Definition gauss (k : nat) (A : band) : option band :=
  loop (gaussRow k) (upto (k + 1) (min (nDim A - 1) (k + nLow A))) A.
(** :188-221 *)
Definition luDecompose (A : band) : option band :=
  match loop scaleRow (seq 0 (nDim A)) A with
  | None => None
  | Some A' => loop gauss (seq 0 (nDim A)) A'
  end.
(** Vectors by index. *)
Definition setAt (f : nat -> R) (i : nat) (v : R) : nat -> R := fun i' => if (i' =? i)%nat then v else f i'.
(** The inner loops of :232, :247: sum of A(i,j) x[j]. *)
Definition rowSum (A : band) (i : nat) (x : nat -> R) (l : list nat) : option R :=
  loop (fun j s => match at_ A i j with None => None | Some a => Some (s + a * x j) end) l 0.
(** :222-236; b.size() is compared with the dimension. *)
Definition lSolve (A : band) (b : list R) : option (nat -> R) :=
  if (length b =? nDim A)%nat then
    loop (fun i x =>
            match rowSum A i x (seq (i - nLow A) (i - (i - nLow A))) with
            | None => None
            | Some s => Some (setAt x i (nth i b 0 * savedDiag A i - s))
            end) (seq 0 (nDim A)) (fun _ => 0)
  else None.
(** :237-251. A zero on the diagonal is not tested here: the quotient is no number. *)
Definition rSolve (A : band) (b : nat -> R) : option (nat -> R) :=
  loop (fun i x =>
          match rowSum A i x (upto (i + 1) (min (nDim A - 1) (i + nUp A))), at_ A i i with
          | Some s, Some a => if Req_EM_T a 0 then None else Some (setAt x i ((b i - s) / a))
          | _, _ => None
          end) (rev (seq 0 (nDim A))) (fun _ => 0).
(** :253-264, not decomposed before. *)
Definition luSolve (A : band) (b : list R) : option (nat -> R) :=
  match luDecompose A with
  | None => None
  | Some A' => match lSolve A' b with None => None | Some y => rSolve A' y end
  end.

(** ** The interpolation *)
(** :83-86, :272-282: kind and value of the condition at one end. *)
Inductive ending := Slope (v : R) | Curvature (v : R).
(** The data members, :89-93. *)
Record spl := Spl { sX : list R; sY : list R; sA : nat -> R; sB : nat -> R; sC : nat -> R; sB0 : R; sC0 : R }.
(** Two or three writes to the matrix in a row. *)
Definition put3 (A : band) (w : list (nat * nat * R)) : option band :=
  fold_left (fun o e => match o with None => None | Some A' => put A' (fst (fst e)) (snd (fst e)) (snd e) end) w (Some A).
(** :303-308 *)
Definition inner (x : nat -> R) (i : nat) (A : band) : option band :=
  put3 A [((i, i - 1)%nat, 1 / 3 * (x i - x (i - 1)%nat)); ((i, i), 2 / 3 * (x (i + 1)%nat - x (i - 1)%nat));
          ((i, i + 1)%nat, 1 / 3 * (x (i + 1)%nat - x i))].
Definition innerRhs (x y : nat -> R) (i : nat) : R :=
  (y (i + 1)%nat - y i) / (x (i + 1)%nat - x i) - (y i - y (i - 1)%nat) / (x i - x (i - 1)%nat).
(** :310-323 *)
Definition leftRow (x : nat -> R) (e : ending) (A : band) : option band :=
  match e with
  | Curvature _ => put3 A [((0, 0)%nat, 2); ((0, 1)%nat, 0)]
  | Slope _ => put3 A [((0, 0)%nat, 2 * (x 1%nat - x 0%nat)); ((0, 1)%nat, 1 * (x 1%nat - x 0%nat))]
  end.
Definition leftRhs (x y : nat -> R) (e : ending) : R :=
  match e with
  | Curvature v => v
  | Slope v => 3 * ((y 1%nat - y 0%nat) / (x 1%nat - x 0%nat) - v)
  end.
(** :324-338 *)
Definition rightRow (n : nat) (x : nat -> R) (e : ending) (A : band) : option band :=
  match e with
  | Curvature _ => put3 A [((n - 1, n - 1)%nat, 2); ((n - 1, n - 2)%nat, 0)]
  | Slope _ => put3 A [((n - 1, n - 1)%nat, 2 * (x (n - 1)%nat - x (n - 2)%nat)); ((n - 1, n - 2)%nat, 1 * (x (n - 1)%nat - x (n - 2)%nat))]
  end.
Definition rightRhs (n : nat) (x y : nat -> R) (e : ending) : R :=
  match e with
  | Curvature v => v
  | Slope v => 3 * (v - (y (n - 1)%nat - y (n - 2)%nat) / (x (n - 1)%nat - x (n - 2)%nat))
  end.
Definition rhsOf (n : nat) (x y : nat -> R) (l r : ending) : list R :=
  map (fun i => if (i =? 0)%nat then leftRhs x y l else if (i =? n - 1)%nat then rightRhs n x y r else innerRhs x y i) (seq 0 n).
(** :298-341 *)
Definition solveB (n : nat) (x y : nat -> R) (l r : ending) : option (nat -> R) :=
  match loop (inner x) (seq 1 (n - 2)) (fresh n 1 1) with
  | None => None
  | Some A => match leftRow x l A with
              | None => None
              | Some A1 => match rightRow n x r A1 with None => None | Some A2 => luSolve A2 (rhsOf n x y l r) end
              end
  end.
(** :343-350 *)
Definition coefA (x b : nat -> R) (i : nat) : R := 1 / 3 * (b (i + 1)%nat - b i) / (x (i + 1)%nat - x i).
Definition coefC (x y b : nat -> R) (i : nat) : R :=
  (y (i + 1)%nat - y i) / (x (i + 1)%nat - x i) - 1 / 3 * (2 * b i + b (i + 1)%nat) * (x (i + 1)%nat - x i).
(** :294-296: the abscissas increase. *)
Fixpoint rising (l : list R) : bool :=
  match l with
  | a :: (b :: _) as t => (if Rlt_dec a b then true else false) && rising t
  | _ => true
  end.
(** :285-374. [old] is what m_b held before (the vector keeps its contents when it is
    resized to the size it had, and is zero in a new object). *)
Definition setPoints (l r : ending) (force : bool) (old : nat -> R) (cubic : bool) (xs ys : list R) : option spl :=
  let n := length xs in
  let x i := nth i xs 0 in
  let y i := nth i ys 0 in
  if (length xs =? length ys)%nat && (2 <? n)%nat && rising xs then
    let coef :=
      if cubic then
        match solveB n x y l r with
        | None => None
        | Some b => Some (coefA x b, b, coefC x y b)
        end
      else Some (fun _ => 0, fun i => if (i <? n - 1)%nat then 0 else old i, fun i => (y (i + 1)%nat - y i) / (x (i + 1)%nat - x i)) in
    match coef with
    | None => None
    | Some (a, b, c) =>
        let h := x (n - 1)%nat - x (n - 2)%nat in
        Some (Spl xs ys (setAt a (n - 1) 0) (if force then setAt b (n - 1) 0 else b)
                (setAt c (n - 1) (3 * a (n - 2)%nat * h * h + 2 * b (n - 2)%nat * h + c (n - 2)%nat))
                (if force then 0 else b 0%nat) (c 0%nat))
    end
  else None.
(** std::lower_bound on a rising vector: the first element that is not smaller. *)
Fixpoint lowerBound (l : list R) (x : R) : nat :=
  match l with
  | [] => 0%nat
  | a :: t => if Rlt_dec a x then S (lowerBound t x) else 0%nat
  end.
(** :376-397 *)
Definition place (s : spl) (x : R) : nat := (lowerBound (sX s) x - 1)%nat.
Definition eval (s : spl) (x : R) : R :=
  let n := length (sX s) in
  let X i := nth i (sX s) 0 in
  let Y i := nth i (sY s) 0 in
  let i := place s x in
  let h := x - X i in
  if Rlt_dec x (X 0%nat) then (sB0 s * h + sC0 s) * h + Y 0%nat
  else if Rlt_dec (X (n - 1)%nat) x then (sB s (n - 1)%nat * h + sC s (n - 1)%nat) * h + Y (n - 1)%nat
  else ((sA s i * h + sB s i) * h + sC s i) * h + Y i.
(** :399-455; assert(order>0). *)
Definition deriv (s : spl) (order : nat) (x : R) : option R :=
  let n := length (sX s) in
  let X i := nth i (sX s) 0 in
  let i := place s x in
  let h := x - X i in
  if (order =? 0)%nat then None
  else Some
    (if Rlt_dec x (X 0%nat) then
       match order with 1%nat => 2 * sB0 s * h + sC0 s | 2%nat => 2 * sB0 s * h | _ => 0 end
     else if Rlt_dec (X (n - 1)%nat) x then
       match order with 1%nat => 2 * sB s (n - 1)%nat * h + sC s (n - 1)%nat | 2%nat => 2 * sB s (n - 1)%nat | _ => 0 end
     else
       match order with
       | 1%nat => (3 * sA s i * h + 2 * sB s i) * h + sC s i
       | 2%nat => 6 * sA s i * h + 2 * sB s i
       | 3%nat => 6 * sA s i
       | _ => 0
       end).
