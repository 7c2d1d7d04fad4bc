(** Model of the removal of jumps of the angle: lib/scalar/mendThetaXeon.cpp.

    Numbers are rationals and arithmetic is exact: [c] stands for zP = pi R (half a
    period of the stored angle), [q] for 2 pi (the shift of the velocity). The `while` loops
    take a bound [fuel] on their number of rounds; None means that the bound was reached.
    Not modelled: rounding (for values so large that adding a period does not change them
    the loops would not end), log messages. *)
From Coq Require Import List Arith ZArith QArith Qabs.
From Verif Require Import StrModel.
Import ListNotations.
Local Open Scope nat_scope.

Definition bind {A B : Type} (o : option A) (f : A -> option B) : option B :=
  match o with Some a => f a | None => None end.
Definition upd (m : nat -> Q) (p : nat) (a : Q) : nat -> Q := fun i => if i =? p then a else m i.
(** for loops whose body may fail to end *)
Definition foldM {S A : Type} (f : S -> A -> option S) (l : list A) (s : S) : option S :=
  fold_left (fun o a => bind o (fun s => f s a)) l (Some s).

(** mendThetaXeon.cpp:896-910, 918-931, 1054-1066: while (abs(mDf) > zP) ... *)
Fixpoint mendPoint (fuel : nat) (c q ref m v : Q) (count : nat) : option (Q * Q * nat) :=
  let d := (m - ref)%Q in
  if Qltb c (Qabs d) then
    match fuel with
    | 0 => None
    | S fuel => if Qltb c d then mendPoint fuel c q ref (m - 2 * c) (v - q) (count + 1)
                else mendPoint fuel c q ref (m + 2 * c) (v + q) (count + 1)
    end
  else Some (m, v, count).

(** ** The line x = y = 0: mendThetaXeon.cpp:999-1077 mendThetaLine *)
(** :1041-1070, one site of the loop of one rank *)
Definition lineSite (fuel : nat) (c q : Q) (Sf NN : nat) (st : (nat -> Q) * (nat -> Q) * nat) (i : nat) :
  option ((nat -> Q) * (nat -> Q) * nat) :=
  let '(m, v, count) := st in
  let idx := i * Sf in
  let idxPz := idx + Sf * NN in
  bind (mendPoint fuel c q (m (idx + Sf * (NN - 1))) (m idxPz) (v idx) count)
       (fun r => let '(a, b, n) := r in Some (upd m idxPz a, upd v idx b, n)).
Definition lineRank (fuel : nat) (c q : Q) (Lz Sf NN : nat) (st : (nat -> Q) * (nat -> Q) * nat) :=
  foldM (lineSite fuel c q Sf NN) (seq 0 Lz) st.
(** :1017-1074, the ranks one after another. A rank: its m, its v and its count. The
    value below the first slice comes from the rank below (from the own last slice if
    there is one rank only, :1031). *)
Definition rankData := ((nat -> Q) * (nat -> Q) * nat)%type.
Definition updR (st : nat -> rankData) (r : nat) (d : rankData) : nat -> rankData := fun i => if i =? r then d else st i.
Definition lineStep (fuel : nat) (c q : Q) (P Lz Sf NN : nat) (st : nat -> rankData) (cRank : nat) : option (nat -> rankData) :=
  let bck := (cRank + P - 1) mod P in
  let ghost := fst (fst (st bck)) (Sf * (Lz + NN - 1)) in
  let '(m, v, count) := st cRank in
  bind (lineRank fuel c q Lz Sf NN (upd m (Sf * (NN - 1)) ghost, v, count))
       (fun d => Some (updR st cRank d)).
Definition mendLine (fuel : nat) (c q : Q) (P Lz Sf NN : nat) (ms vs : nat -> nat -> Q) : option (nat -> rankData) :=
  foldM (lineStep fuel c q P Lz Sf NN) (seq 0 P) (fun r => (ms r, vs r, 0)).

(** ** The plane x = 0: mendThetaXeon.cpp:827-995 mendThetaSlice *)
(** indices of site (0, yPt + vIdx YC) and of its successor in y inside a slice, :865-877
    (idx - Vo = idx2, idxPy - Vo = idx2P) *)
Definition sl_idx (step YC XC Sf : nat) (vIdx yPt : nat) : nat :=
  if yPt =? YC - 1 then Sf - XC + vIdx else yPt * XC + vIdx.
Definition sl_idxP (step YC XC : nat) (vIdx yPt : nat) : nat :=
  if yPt =? YC - 1 then (vIdx + 1) mod step else yPt * XC + vIdx + XC.
(** :861-949, one pass of the inner loop; [m], [v]: the slice; b: the buffer of the
    thread; counts of forward and backward shifts *)
Definition sliceScan (fuel : nat) (c q : Q) (step YC XC Sf : nat) (m v : nat -> Q)
  (st : (nat -> Q) * nat * nat) (vy : nat * nat) : option ((nat -> Q) * nat * nat) :=
  let '(b, cF, cB) := st in
  let '(vIdx, yPt) := vy in
  let vIdxB := step - 1 - vIdx in
  let yPtB := YC - 1 - yPt in
  let idx2 := sl_idx step YC XC Sf vIdx yPt in
  let idx2P := sl_idxP step YC XC vIdx yPt in
  let idx2B := sl_idx step YC XC Sf vIdxB yPtB in
  let idx2PB := sl_idxP step YC XC vIdxB yPtB in
  bind (mendPoint fuel c q (b idx2) (m idx2P) (v idx2P) cF) (fun f => let '(mPy, vPy, cF) := f in
  bind (mendPoint fuel c q (b (2 * step + idx2PB)) (m idx2B) (v idx2B) cB) (fun g => let '(melB, vPyB, cB) := g in
  let b := if idx2P =? 0 then b else upd (upd b idx2P mPy) (idx2P + step) vPy in
  let b := if idx2B =? 0 then b else upd (upd b (idx2B + 2 * step) melB) (idx2B + 3 * step) vPyB in
  Some (b, cF, cB))).
Definition Qneqb (a b : Q) : bool := negb (Qeq_bool a b).
(** :952-985 *)
Definition sliceWrite (step YC XC : nat) (b : nat -> Q) (st : (nat -> Q) * (nat -> Q) * nat) (vy : nat * nat) :
  (nat -> Q) * (nat -> Q) * nat :=
  let '(m, v, count) := st in
  let '(vIdx, yPt) := vy in
  let idx2P := sl_idxP step YC XC vIdx yPt in
  if Qeq_bool (b idx2P) (b (idx2P + 2 * step)) then
    if negb (idx2P =? 0) then
      (upd m idx2P (b idx2P), upd v idx2P (b (idx2P + step)), if Qneqb (m idx2P) (b idx2P) then count + 1 else count)
    else st
  else st.
(** the two loops over vIdx and yPt *)
Definition lanesRows (step YC : nat) : list (nat * nat) :=
  flat_map (fun vIdx => map (fun yPt => (vIdx, yPt)) (seq 0 YC)) (seq 0 step).
(** one slice, :848-986. [b]: what the buffer of the thread contained before. The slice
    starts at zSl*Sf in m and at (zSl-NN)*Sf in v; indices here are relative to that. *)
Definition mendSlice (fuel : nat) (c q : Q) (Lx step : nat) (b m v : nat -> Q) : option ((nat -> Q) * (nat -> Q) * nat) :=
  let XC := Lx * step in
  let YC := Lx / step in
  let Sf := Lx * Lx in
  let b := upd (upd b 0 (m 0)) (2 * step) (m 0) in
  bind (foldM (sliceScan fuel c q step YC XC Sf m v) (lanesRows step YC) (b, 0, 0))
       (fun r => Some (fold_left (sliceWrite step YC XC (fst (fst r))) (lanesRows step YC) (m, v, 0))).

(** ** The volume: mendThetaXeon.cpp:39-818 mendThetaKernelXeon, AVX and SSE builds *)
(** a vector register: its [step] lanes *)
Definition vec := nat -> Q.
Definition Qleb (a b : Q) : bool := negb (Qltb b a).
Definition setLanes (step : nat) (p : nat -> bool) : nat := length (filter p (seq 0 step)).
(** :187-188, 218-219, 231-235: masks of the differences >= zP and < -zP *)
Definition maskP (c : Q) (ref m : vec) : nat -> bool := fun k => Qleb c (m k - ref k).
Definition maskM (c : Q) (ref m : vec) : nat -> bool := fun k => Qltb (m k - ref k) (- c).
Definition orM (p n : nat -> bool) : nat -> bool := fun k => p k || n k.
(** one round: subtract a period in the lanes of p, add one in those of n *)
Definition moveLanes (p n : nat -> bool) (x : vec) (s : Q) : vec :=
  fun k => (x k - (if p k then s else 0) + (if n k then s else 0))%Q.
(** :236-295 (AVX, SSE) and the single precision versions: the masks are computed again
    in each round *)
Fixpoint vecLoop (fuel : nat) (c q : Q) (step : nat) (ref m v : vec) (count : nat) : option (vec * vec * nat) :=
  let p := maskP c ref m in
  let n := maskM c ref m in
  if existsb (orM p n) (seq 0 step) then
    match fuel with
    | 0 => None
    | S fuel => vecLoop fuel c q step ref (moveLanes p n m (2 * c)) (moveLanes p n v q) (count + setLanes step (orM p n))
    end
  else Some (m, v, count).
(** :148-163 (AVX-512, double precision): `auto pMask` and `auto mMask` inside the loop
    declare new variables, so the lanes moved are those of the masks before the loop *)
Fixpoint vecLoopStale (fuel : nat) (c q : Q) (step : nat) (p n : nat -> bool) (ref m v : vec) (count : nat) : option (vec * vec * nat) :=
  if existsb (orM (maskP c ref m) (maskM c ref m)) (seq 0 step) then
    match fuel with
    | 0 => None
    | S fuel => vecLoopStale fuel c q step p n ref (moveLanes p n m (2 * c)) (moveLanes p n v q)
                  (count + setLanes step (orM (maskP c ref m) (maskM c ref m)))
    end
  else Some (m, v, count).
Inductive build := Masks | Avx512d.   (* all others; AVX-512 in double precision *)
Definition mendVec (bd : build) (fuel : nat) (c q : Q) (step : nat) (ref m v : vec) (count : nat) : option (vec * vec * nat) :=
  match bd with
  | Masks => vecLoop fuel c q step ref m v count
  | Avx512d => vecLoopStale fuel c q step (maskP c ref m) (maskM c ref m) ref m v count
  end.

Definition loadV (m : nat -> Q) (p : nat) : vec := fun k => m (p + k).
Definition storeV (step : nat) (m : nat -> Q) (p : nat) (x : vec) : nat -> Q :=
  fun i => if (p <=? i) && (i <? p + step) then x (i - p) else m i.
(** strdaa[p + k*YC*Lx] = or |= flag in the lanes of the mask *)
Definition setFlags (step pitch : nat) (sd : nat -> bool) (p : nat) (mask : nat -> bool) : nat -> bool :=
  fun i => sd i || existsb (fun k => mask k && (i =? p + k * pitch)) (seq 0 step).
(** Flags of the mend map: only whether a jump was seen on a site matters for the mends
    (double precision: strdaa > 0, :383; single precision asks for both marks, == 3, :778,
    which is the same on the sites where both scans agree; see MendProofs). The mark STRING_WALL
    of :400 is not modelled. *)
Record kstate := KS { k_m : nat -> Q; k_v : nat -> Q; k_sd : nat -> bool; k_count : nat }.
(** :113-302: forward and backward scan of the [step] rows of one (yLn, zSl) *)
Definition volScan (bd : build) (fuel : nat) (c q : Q) (Lx step base sbase : nat) (m v : nat -> Q)
  (st : (nat -> Q) * (nat -> bool) * bool) (x : nat) : option ((nat -> Q) * (nat -> bool) * bool) :=
  let '(b, sd, cha) := st in
  let XC := Lx * step in
  let YC := Lx / step in
  let mel := loadV b (x * step) in
  let mPx := loadV m (base + x * step + step) in
  let vPx := loadV v (base + x * step + step) in
  let idx2B := 3 * XC - x * step - step in
  let idxB := if x =? 0 then idx2B + step - XC else idx2B + step in
  let melB := loadV b idxB in
  let mBMx := loadV m (base + XC - x * step - step) in
  let vBMx := loadV v (base + XC - x * step - step) in
  let maskF := orM (maskP c mel mPx) (maskM c mel mPx) in
  let maskB := orM (maskP c melB mBMx) (maskM c melB mBMx) in
  let sd := setFlags step (YC * Lx) sd (x + 1 + sbase) maskF in
  let sd := setFlags step (YC * Lx) sd (Lx + sbase - x - 1) maskB in
  let cha := cha || existsb maskF (seq 0 step) || existsb maskB (seq 0 step) in
  bind (mendVec bd fuel c q step mel mPx vPx 0) (fun f => let '(mPx, vPx, _) := f in
  bind (mendVec bd fuel c q step melB mBMx vBMx 0) (fun g => let '(mBMx, vBMx, _) := g in
  Some (storeV step (storeV step (storeV step b (x * step + step) mPx) (x * step + step + XC) vPx) idx2B mBMx, sd, cha))).
(** :310-421: write the sites on which both scans agree *)
Definition volWrite (Lx step base sbase : nat) (b : nat -> Q) (sd : nat -> bool)
  (st : (nat -> Q) * (nat -> Q) * nat) (x : nat) : (nat -> Q) * (nat -> Q) * nat :=
  let '(m, v, count) := st in
  let XC := Lx * step in
  let YC := Lx / step in
  let flag k := sd (x + 1 + sbase + k * (YC * Lx)) in
  if existsb flag (seq 0 step) then
    let idx2 := x * step + step in
    let mPx := loadV b idx2 in
    let mBMx := loadV b (idx2 + 2 * XC) in
    let vv := loadV b (idx2 + XC) in
    let w k := Qeq_bool (mPx k) (mBMx k) && flag k in
    let mask := setLanes step w in
    if 0 <? mask then
      (fold_left (fun m k => if w k then upd m (base + x * step + step + k) (mPx k) else m) (seq 0 step) m,
       fold_left (fun v k => if w k then upd v (base + x * step + step + k) (vv k) else v) (seq 0 step) v,
       count + mask)
    else (m, v, count)
  else (m, v, count).
(** :97-423: one (zSl, yLn). [b]: what the buffer of the thread contained before. *)
Definition volLine (bd : build) (fuel : nat) (c q : Q) (Lx step : nat) (b : nat -> Q) (st : kstate) (zy : nat * nat) : option kstate :=
  let '(zSl, yLn) := zy in
  let XC := Lx * step in
  let Vo := zSl * (Lx * Lx) in
  let base := Vo + yLn * XC in
  let sbase := yLn * Lx + Vo in
  let mel := loadV (k_m st) base in
  let b := storeV step (storeV step b 0 mel) (2 * XC) mel in
  bind (foldM (volScan bd fuel c q Lx step base sbase (k_m st) (k_v st)) (seq 0 (Lx - 1)) (b, k_sd st, false)) (fun r =>
  let '(b, sd, cha) := r in
  if cha then
    let '(m, v, count) := fold_left (volWrite Lx step base sbase b sd) (seq 0 (Lx - 1)) (k_m st, k_v st, k_count st) in
    Some (KS m v sd count)
  else Some (KS (k_m st) (k_v st) sd (k_count st))).
(** :47-53: the map is cleared; :88-91 the lines are shared out among the threads and
    done in any [order]; [bs]: contents of the buffer used for each line. *)
Definition mendVolume (bd : build) (fuel : nat) (c q : Q) (Lx Lz step : nat) (bs : nat * nat -> nat -> Q) (order : list (nat * nat))
  (m v : nat -> Q) (sd : nat -> bool) : option kstate :=
  foldM (fun st zy => volLine bd fuel c q Lx step (bs zy) st zy) order
        (KS m v (fun i => if i <? Lx * Lx * Lz then false else sd i) 0).
Definition volOrder (Lx Lz step : nat) : list (nat * nat) :=
  flat_map (fun zSl => map (fun yLn => (zSl, yLn)) (seq 0 (Lx / step))) (seq 0 Lz).

(** ** All three passes: mendThetaXeon.cpp:1080-1130 mendThetaXeon *)
Definition paste (m : nat -> Q) (o n : nat) (s : nat -> Q) : nat -> Q := fun i => if (o <=? i) && (i <? o + n) then s (i - o) else m i.
(** :850-986, the loop over the slices; [order]: the order in which the threads do them *)
Definition mendSlices (fuel : nat) (c q : Q) (Lx step NN : nat) (bs : nat -> nat -> Q) (order : list nat) (m v : nat -> Q) :
  option ((nat -> Q) * (nat -> Q) * nat) :=
  let Sf := Lx * Lx in
  foldM (fun st zSl => let '(m, v, n) := st in
    bind (mendSlice fuel c q Lx step (bs zSl) (fun p => m (zSl * Sf + p)) (fun p => v ((zSl - NN) * Sf + p)))
         (fun r => let '(ms, vs, k) := r in Some (paste m (zSl * Sf) Sf ms, paste v ((zSl - NN) * Sf) Sf vs, n + k)))
    order (m, v, 0).
(** one rank after the line pass: slices, then the volume on mStart = mCpu + NN*Sf *)
Definition mendRank (bd : build) (fuel : nat) (c q : Q) (Lx Lz step NN : nat) (bs : nat -> nat -> Q) (order : list nat)
  (bv : nat * nat -> nat -> Q) (vorder : list (nat * nat)) (sd : nat -> bool) (d : rankData) : option (rankData * (nat -> bool)) :=
  let '(m, v, n1) := d in
  let Sf := Lx * Lx in
  bind (mendSlices fuel c q Lx step NN bs order m v) (fun r => let '(m, v, n2) := r in
  bind (mendVolume bd fuel c q Lx Lz step bv vorder (fun p => m (NN * Sf + p)) v sd) (fun st =>
  Some ((fun i => if i <? NN * Sf then m i else k_m st (i - NN * Sf)), k_v st, n1 + n2 + k_count st, k_sd st))).
(** all ranks; returns their data and the sum of all counts (:1123) *)
Record threads := TH { t_bs : nat -> nat -> Q; t_order : list nat; t_bv : nat * nat -> nat -> Q; t_vorder : list (nat * nat); t_sd : nat -> bool }.
Definition mendTheta (bd : build) (fuel : nat) (c q : Q) (P Lx Lz step NN : nat) (th : nat -> threads) (ms vs : nat -> nat -> Q) :
  option ((nat -> rankData) * nat) :=
  bind (mendLine fuel c q P Lz (Lx * Lx) NN ms vs) (fun line =>
  foldM (fun st r => let t := th r in
    bind (mendRank bd fuel c q Lx Lz step NN (t_bs t) (t_order t) (t_bv t) (t_vorder t) (t_sd t) (fst st r))
         (fun o => Some (updR (fst st) r (fst o), snd st + snd (fst o))))
    (seq 0 P) (line, 0)).
