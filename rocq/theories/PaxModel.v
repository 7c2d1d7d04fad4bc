(** Model of the nonrelativistic field (FIELD_PAXION): psi = m + i v, its update
    /repo/include/propagator/propPaxXeon.h with the driver
    /repo/include/propagator/propClass.h:1076-1169 (pRunCpu), and the change of variables
    /repo/lib/scalar/theta2PaxionXeon.cpp.
    Exact arithmetic on the periodic box of all ranks together: which sites a register
    holds, where neighbours are found and how ghosts are exchanged is in IndexModel,
    KernelModel and GhostModel. None: the result is not a number (a division by zero, or
    pow of a number that is not positive). *)
From Coq Require Import Reals List Arith.
From Verif Require Import KernelModel LaplModel CosmoModel SchemeModel ConserveSpec.
Import ListNotations.
Open Scope R_scope.

(** Fields of PropParms (enum-field.h) that the kernel reads. *)
Record pparms := PParms {
  qCt : R; qR : R; qFrw : R; qBeta : R; qMa : R; qGrav : R; qN : R; qSign : R; qOod2 : R }.

(** propPaxXeon.h:46-47: KKt, the factor of |psi|^2 in the phase. *)
Definition phaseW (p : pparms) (dz : R) : option R :=
  let u := 2 * qFrw p - 1 in
  if Rlt_dec 0 (qCt p) then if Rlt_dec 0 (qCt p + dz) then
    if Req_EM_T (8 * qR p * qR p * u * Rpower (qCt p + dz) u) 0 then None
    else Some (qSign p * qBeta p * qCt p * (Rpower (qCt p + dz) u - Rpower (qCt p) u)
               / (8 * qR p * qR p * u * Rpower (qCt p + dz) u))
  else None else None.
(** :51: the factor of the gravitational potential. *)
Definition gravW (p : pparms) (dz : R) : R := - qMa p * qGrav p * dz.
(** :52-53: dzp. *)
Definition driftTime (p : pparms) (dz : R) : R :=
  let alpho := qN p - 1 in
  if Rlt_dec (Rabs alpho) 0.01 then qCt p * ln (1 + dz / qCt p)
  else qCt p / alpho * (1 - Rpower (1 + dz / qCt p) (- alpho)).
(** :54: ood2, the factor of the Laplacian. *)
Definition driftW (p : pparms) (dz : R) : option R :=
  if Rlt_dec 0 (qCt p) then if Rlt_dec 0 (qCt p + dz) then
    if Req_EM_T (2 * qMa p * qR p) 0 then None
    else Some (qSign p * driftTime p dz * qOod2 p / (2 * qMa p * qR p))
  else None else None.

(** Fields on the box. *)
Definition fld := cell -> R.
(** KIDI_LAP, :134-222, :337-425: the second field gets the Laplacian of the first; the
    first is not changed. NN distances, n sites in x and y, nz in z. *)
Definition lapKick (NN n nz : nat) (w : R) (src dst : fld) : fld :=
  fun x => dst x + lap (setCO NN) NN w (src x) (fun nv d => src (stepTo n nz nv d x)).
(** KIDI_POT, :225-236, :435-446, and KIDI_POT_GRAV, :237-249, :448-460: the phase of every
    site, [phi] being what m2 holds. *)
Definition turn (a : R) (p : R * R) : R * R :=
  (cos a * fst p - sin a * snd p, cos a * snd p + sin a * fst p).
Definition potPhase (kk gr : R) (phi : option fld) (m v : fld) (x : cell) : R :=
  match phi with
  | None => kk * (v x * v x + m x * m x)
  | Some f => kk * (v x * v x + m x * m x) + gr * f x
  end.
Definition potTurn (kk gr : R) (phi : option fld) (s : fld * fld) : fld * fld :=
  let '(m, v) := s in
  (fun x => fst (turn (potPhase kk gr phi m v x) (m x, v x)),
   fun x => snd (turn (potPhase kk gr phi m v x) (m x, v x))).

(** A run: the background, neighbours, box, 1/delta^2, the two couplings of ICData, and
    with gravity the potential that calculateGraviPotential leaves in m2, any function of
    the field. *)
Record prun := PRun {
  rC : cosmo; rNN : nat; rn : nat; rnz : nat; rOod2 : R; rBeta : R; rGrav : R; rPhi : option (fld -> fld -> fld) }.
Record pst := PSt { tT : R; tMf : fld; tVf : fld }.
(** propClass.h:1096-1101 and the same lines before every substep. AxionMass is the root of
    AxionMass2, R is the scale factor at the present time (updateR). *)
Definition loadP (r : prun) (sign : R) (t : R) : pparms :=
  PParms t (scale (rC r) t) (frw (rC r)) (rBeta r) (sqrt (AxionMass2 (rC r) t)) (rGrav r)
         (DlogMARDlogct (rC r) t) sign (rOod2 r).
(** :1102-1106, :1156-1167 *)
Definition potSub (r : prun) (dz : R) (s : pst) : option pst :=
  let p := loadP r 1 (tT s) in
  match phaseW p (0.5 * dz) with
  | None => None
  | Some kk =>
      let phi := match rPhi r with None => None | Some f => Some (f (tMf s) (tVf s)) end in
      let '(m, v) := potTurn kk (gravW p (0.5 * dz)) phi (tMf s, tVf s) in Some (PSt (tT s) m v)
  end.
(** :1111-1124, :1141-1153: psi's second part by the first. *)
Definition kickSub (r : prun) (h : R) (s : pst) : option pst :=
  match driftW (loadP r 1 (tT s)) h with
  | None => None
  | Some w => Some (PSt (tT s) (tMf s) (lapKick (rNN r) (rn r) (rnz r) w (tMf s) (tVf s)))
  end.
(** :1126-1137: the first part by the second, then the time. *)
Definition driftSub (r : prun) (h : R) (s : pst) : option pst :=
  match driftW (loadP r (-1) (tT s)) h with
  | None => None
  | Some w => Some (PSt (tT s + h) (lapKick (rNN r) (rn r) (rnz r) w (tVf s) (tMf s)) (tVf s))
  end.
(** :1108-1138 *)
Fixpoint stages (r : prun) (dz : R) (cd : list (R * R)) (s : pst) : option pst :=
  match cd with
  | [] => Some s
  | (c, d) :: l =>
      match kickSub r (dz * c) s with
      | None => None
      | Some s1 => match driftSub r (dz * d) s1 with None => None | Some s2 => stages r dz l s2 end
      end
  end.
(** :1079-1169. [last]: the coefficient of the kick after the last stage, if there is one
    (:1140). *)
Definition pStep (r : prun) (cd : list (R * R)) (last : option R) (dz : R) (s : pst) : option pst :=
  match potSub r dz s with
  | None => None
  | Some s1 =>
      match stages r dz cd s1 with
      | None => None
      | Some s2 =>
          match (match last with None => Some s2 | Some c => kickSub r (dz * c) s2 end) with
          | None => None
          | Some s3 => potSub r dz s3
          end
      end
  end.
(** The only scheme of propagator.cpp whose coefficients cover these reads (the others make
    pRunCpu read c past its end, SchemeProperties.coefficients_exist_refuted):
    propagator.cpp:195-205. *)
Definition rkn4Pairs : list (R * R) := combine (cc rkn4) (dd rkn4).
Fixpoint pSteps (r : prun) (dz : R) (k : nat) (s : pst) : option pst :=
  match k with
  | 0%nat => Some s
  | S k => match pStep r rkn4Pairs None dz s with None => None | Some s' => pSteps r dz k s' end
  end.

(** theta2PaxionXeon.cpp:8-37: the change of variables, site by site. [th]: the conformal
    field, [dth]: its velocity. None: a division by zero, or the root of a number that is
    not positive. *)
Definition toPax (c : cosmo) (t th dth : R) : option (R * R) :=
  let mA2 := AxionMass2 c t in
  let mA := sqrt mA2 in
  let r := scale c t in
  if Rlt_dec 0 (mA * r) then if Req_EM_T t 0 then None else
    let s1 := sqrt (0.5 * mA * r) in
    let s2 := sqrt (2 * mA * r) in
    let adiab := (DAxionMass2Dct c t + 2 * frw c * mA2 * (r * r) / t) / (4 * mA2 * mA) in
    let m := th * s1 in
    Some (m, dth / s2 + m * adiab)
  else None.
(** :8-41: the two arrays. [mbuf] is the block of m, its sites after NG slices of S reals; [vbuf] is
    everything from v to the end of its block, the V sites first. The memmove at the end puts
    the sites of v after NG slices as well. None: a site has no value, or the memmove writes
    past the end of the block. *)
Fixpoint mapM (f : R -> R -> option (R * R)) (l : list (R * R)) : option (list (R * R)) :=
  match l with
  | [] => Some []
  | (a, b) :: l => match f a b with None => None | Some p => match mapM f l with None => None | Some q => Some (p :: q) end end
  end.
Definition th2Pax (c : cosmo) (t : R) (NG S V : nat) (mbuf vbuf : list R) : option (list R * list R) :=
  match mapM (toPax c t) (combine (firstn V (skipn (NG * S) mbuf)) (firstn V vbuf)) with
  | None => None
  | Some l =>
      let m := firstn (NG * S) mbuf ++ map fst l ++ skipn (NG * S + V) mbuf in
      let v := map snd l ++ skipn V vbuf in
      if (NG * S + V <=? length v)%nat then Some (m, firstn (NG * S) v ++ firstn V v ++ skipn (NG * S + V) v) else None
  end.
(** scalarField.cpp:202-203, :231-236: the reals of the two blocks when the field was made with
    nLz slices as an axion; v is the end of one block. *)
Definition axionM (NG S nLz : nat) : nat := (S * (nLz + 2 * NG))%nat.
Definition axionV (S nLz : nat) : nat := (S * (nLz + 2))%nat.
(** :221-222, :1073-1078: when it was made as a saxion and then set to axion. *)
Definition saxionM (NG S nLz : nat) : nat := (2 * (S * (nLz + 2 * NG)))%nat.
Definition saxionV (S nLz : nat) : nat := (2 * (S * (nLz + 2)))%nat.
