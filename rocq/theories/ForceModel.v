(** Model of the update of the velocity of the complex field at one register of
    sites: /repo/include/propagator/propXeon.h, propagateKernelXeon (34-870, used with
    the normal memory layout) and updateVXeon (1023-1712, used with --lowmem). A
    register is a function from the lane to a real, lanes 2p and 2p+1 being the real
    and the imaginary part of its number p. Arithmetic is exact; fused and separate
    multiply-add are the same. The Laplacian is an argument: it is modelled in
    LaplModel, KernelModel and GhostModel. *)
From Coq Require Import Reals List Arith NArith Bool.
From Verif Require Import LaneModel.
Open Scope R_scope.

(** Which function, and which of its two halves. *)
Inductive kern := Fused | Kick.
Inductive prec := Single | Double.
(** enum-field.h:106-116, :119-122 *)
Inductive pq := PQ1 | PQ2 | PQ3.
Inductive qcd := QCD0 | QCD1 | QCDV | QCD2 | QCDL | QCDC.
Inductive damp := NoDamp | DampRho | DampAll.
Inductive evol := EvolAll | EvolRho | EvolTheta.
(** The template argument VQcd. V_EVOL_RHO together with V_EVOL_THETA is left out:
    --onlyrho and --onlytheta (parse.cpp:1000-1012) overwrite each other. *)
Record pot := Pot { pPq : pq; pQcd : qcd; pDamp : damp; pEvol : evol }.
(** The fields of PropParms that the kernels read (enum-field.h:906-934), and the
    products dz*c and dz*d. *)
Record parms := Parms { pR : R; pLam : R; pMa2 : R; pRpp : R; pRp : R; pGamma : R; pDec : R; pDzc : R; pDzd : R }.

Definition rreg := nat -> R.
Definition add2 (a b : rreg) : rreg := fun i => a i + b i.
Definition mul2 (a b : rreg) : rreg := fun i => a i * b i.

(** ** Constants: propXeon.h:77-104, :468-484, :1052-1083, :1383-1406 *)
Definition zQ (c : parms) : R := pMa2 c * (pR c * pR c) * pR c.
Definition zN (q : qcd) (c : parms) : R :=
  match q with
  | QCD2 => pMa2 c * (pR c * pR c) / 2
  | _ => pMa2 c * (pR c * pR c) * (pR c * pR c)
  end.
Definition LaLa (c : parms) : R := pLam c * 2 / ((pR c * pR c) * (pR c * pR c)).
Definition GGGG (c : parms) : R :=
  let g := pGamma c / pR c in
  if Rlt_dec 0 (pDec c) then g * (pR c * pR c / pDec c) else g.
Definition mola (c : parms) : R := GGGG c * pDzc c / 2.
Definition damp1 (c : parms) : R := 1 / (1 + mola c).
Definition damp2 (c : parms) : R := (1 - mola c) * damp1 c.
Definition epsi (c : parms) : R := mola c / (1 + mola c).
(** zQVec, zNVec, zRVec, cjg: propXeon.h:110-116, :122-127, :134-139 *)
Definition zQVec (c : parms) : rreg := fun i => if Nat.even i then zQ c else 0.
Definition zRVec (c : parms) : rreg := fun i => if Nat.even i then pR c else 0.
Definition zNVec (q : qcd) (c : parms) : rreg := fun i => if Nat.even i then zN q c else - zN q c.
Definition cjg : rreg := fun i => if Nat.even i then 1 else -1.

(** ** Shuffles *)
(** propXeon.h:243-249, :633-637, :1219-1224, :1552-1558: |m|^2 in both lanes. *)
Definition norm2 (P : prec) (I : isa) (mel : rreg) : rreg :=
  match P with Double => norm_pd Rplus I (mul2 mel mel) | Single => norm_ps Rplus I (mul2 mel mel) end.
(** triSimd.h:529-536, :916-923: "returns y^2, xy". *)
Definition vqcd0 (P : prec) (I : isa) (x : rreg) : rreg :=
  match P, I with
  | Double, SSE => mul2 (shuffle_pd 0x1 x x) (shuffle_pd 0x5 x x)
  | Double, _ => mul2 (permute_pd 0x11 x) (permute_pd 0x55 x)
  | Single, SSE => mul2 (shuffle_ps 0xB1 x x) (shuffle_ps 0xF5 x x)
  | Single, _ => mul2 (permute_ps 0xB1 x) (permute_ps 0xF5 x)
  end.
(** Scalar products in both lanes: :373-377, :757-761 and the same of updateVXeon *)
Definition dotMV (P : prec) (I : isa) (a b : rreg) : rreg :=
  match P with Double => damp_mv_pd Rplus I (mul2 a b) | Single => norm_ps Rplus I (mul2 a b) end.
(** :382-386, :766-770 and the same of updateVXeon *)
Definition dotMA (P : prec) (I : isa) (a b : rreg) : rreg :=
  match P with Double => damp_ma_pd Rplus I (mul2 a b) | Single => norm_ps Rplus I (mul2 a b) end.
(** :417-421, :818-824: projection of V_EVOL_RHO. *)
Definition dotRho := dotMV.
(** :329-347, :720-738: (-mi, mr), and the scalar products with it. *)
Definition turned (P : prec) (I : isa) (mel : rreg) : rreg :=
  match P, I with
  | Double, SSE => shuffle_pd 0x1 (mul2 mel cjg) (mul2 mel cjg)
  | Double, _ => permute_pd 0x55 (mul2 mel cjg)
  | Single, SSE => shuffle_ps 0xB1 (mul2 mel cjg) (mul2 mel cjg)
  | Single, _ => permute_ps 0xB1 (mul2 mel cjg)
  end.
Definition dotTheta (P : prec) (I : isa) (a b : rreg) : rreg :=
  match P with Double => proj_theta_pd Rplus I (mul2 a b) | Single => norm_ps Rplus I (mul2 a b) end.

(** ** Acceleration *)
(** triSimd.h:466-484, :853-871 *)
Definition kkk (a b c d : R) : R := if Rle_dec d c then a else b.
(** propXeon.h:256-296, :644-684, :1231-1267, :1565-1601 *)
Definition pqPart (v : pot) (c : parms) (n2 mel lap : rreg) : rreg := fun i =>
  let R2 := pR c * pR c in
  let R4 := R2 * R2 in
  match pPq v with
  | PQ1 => lap i - mel i * ((n2 i - R2) * pLam c - pRpp c)
  | PQ3 => lap i - mel i * (kkk (2 * R2 * (1 - pR c / sqrt (n2 i))) (n2 i - R2) (n2 i) R2 * pLam c - pRpp c)
  | PQ2 => lap i - mel i * ((n2 i * n2 i - R4) * (n2 i * LaLa c) - pRpp c)
  end.
Definition basePart (k : kern) (v : pot) (c : parms) (n2 mel lap : rreg) : rreg :=
  match k, pEvol v with
  | Fused, EvolTheta => lap
  | _, _ => pqPart v c n2 mel lap
  end.
(** The cosine term. *)
Definition cosinePart (P : prec) (I : isa) (v : pot) (c : parms) (n2 mel a : rreg) : rreg := fun i =>
  a i + zNVec (pQcd v) c i * (vqcd0 P I mel i / sqrt (n2 i * (n2 i * n2 i))).
(** propXeon.h:297-321, :685-711, :1269-1290, :1603-1623 *)
Definition qcdPart (k : kern) (P : prec) (I : isa) (v : pot) (c : parms) (n2 mel a : rreg) : rreg :=
  match pQcd v with
  | QCD0 => a
  | QCD1 => add2 a (zQVec c)
  | QCDV => fun i => a i + zQ c * (zRVec c i - mel i)
  | QCD2 => match k, P with
            | Fused, Double | Kick, Single => fun i => a i - zNVec QCD2 c i * mel i
            | Fused, Single | Kick, Double => fun i => a i + zNVec QCD2 c i * mel i
            end
  | QCDC => cosinePart P I v c n2 mel a
  | QCDL => match P with Double => a | Single => cosinePart P I v c n2 mel a end
  end.
(** propXeon.h:297, :685: the QCD part is left out of V_EVOL_RHO; updateVXeon keeps it. *)
Definition accel (k : kern) (P : prec) (I : isa) (v : pot) (c : parms) (mel lap : rreg) : rreg :=
  let n2 := norm2 P I mel in
  let a := basePart k v c n2 mel lap in
  match k, pEvol v with
  | Fused, EvolRho => a
  | _, _ => qcdPart k P I v c n2 mel a
  end.

(** ** Velocity *)
(** propXeon.h:327-356, :718-747: projection of the acceleration and of the velocity;
    not in updateVXeon. *)
Definition project (k : kern) (P : prec) (I : isa) (v : pot) (c : parms) (mel a vel : rreg) : rreg * rreg :=
  match k, pEvol v with
  | Fused, EvolTheta =>
      let t := turned P I mel in
      let n2 := norm2 P I mel in
      (fun i => t i * dotTheta P I a t i / n2 i + mel i * pRpp c,
       fun i => t i * dotTheta P I vel t i / n2 i + mel i * pRp c)
  | _, _ => (a, vel)
  end.
(** propXeon.h:358-412, :750-809, :1293-1347, :1628-1687 *)
Definition kicked (P : prec) (I : isa) (v : pot) (c : parms) (mel a vel : rreg) : rreg :=
  match pDamp v with
  | NoDamp => fun i => a i * pDzc c + vel i
  | DampRho => fun i =>
      let n2 := norm2 P I mel in
      (a i * pDzc c + vel i)
      - (epsi c * (mel i / n2 i)) * ((dotMV P I mel vel i - n2 i * pRp c) * 2 + dotMA P I mel a i * pDzc c)
  | DampAll => fun i => vel i * damp2 c + a i * (damp1 c * pDzc c)
  end.
(** propXeon.h:414-424, :814-826, :1349-1358, :1692-1701 *)
Definition onlyRho (P : prec) (I : isa) (v : pot) (mel w : rreg) : rreg :=
  match pEvol v with
  | EvolRho => fun i => mel i * dotRho P I mel w i / norm2 P I mel i
  | _ => w
  end.
Definition velocity (k : kern) (P : prec) (I : isa) (v : pot) (c : parms) (mel lap vel : rreg) : rreg :=
  let (a, vel') := project k P I v c mel (accel k P I v c mel lap) vel in
  onlyRho P I v mel (kicked P I v c mel a vel').

(** ** One number of the register *)
Definition pairOf (p : nat) (r : rreg) : R * R := (r (2 * p)%nat, r (2 * p + 1)%nat).
(** Where the code divides by |m|^2 (or its 3/2 power), a vanishing field gives 0/0. *)
Definition divides (k : kern) (P : prec) (v : pot) : bool :=
  match pEvol v, k with
  | EvolRho, _ => true
  | EvolTheta, Fused => true
  | _, _ => false
  end
  || match pDamp v with DampRho => true | _ => false end
  || match pQcd v, P with QCDC, _ => true | QCDL, Single => true | _, _ => false end.
Definition vanishes (m : R * R) : bool :=
  if Req_EM_T (fst m) 0 then (if Req_EM_T (snd m) 0 then true else false) else false.
(** New velocity at number p; None is not-a-number. *)
Definition newVel (k : kern) (P : prec) (I : isa) (v : pot) (c : parms) (p : nat) (mel lap vel : rreg) : option (R * R) :=
  if divides k P v && vanishes (pairOf p mel) then None
  else Some (pairOf p (velocity k P I v c mel lap vel)).
(** propXeon.h:426-436, :840-850: the field moves along the new velocity (m2). *)
Definition newField (c : parms) (m w : R * R) : R * R := (fst w * pDzd c + fst m, snd w * pDzd c + snd m).
(** Numbers in a register. *)
Definition lanesOf (P : prec) (I : isa) : nat := match P with Double => lanes_cplx_pd I | Single => lanes_cplx_ps I end.

(** ** The parameter Rp *)
(** propClass.h:644-732 (sRunCpu) sets ppar.Rp; :736-795 (lowCpu) does not, and PropParms
    has no initial value for it: [junk] is what the stack held. *)
Definition rpGiven (k : kern) (rp junk : R) : R := match k with Fused => rp | Kick => junk end.
