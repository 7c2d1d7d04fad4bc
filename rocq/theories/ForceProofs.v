(** Lemmas about ForceModel: the shuffles, number by number. *)
From Coq Require Import Lqa Lra Reals List Arith NArith Bool Lia.
From Verif Require Import LaneModel ForceModel ForceSpec.
Open Scope R_scope.

Ltac eachNumber p :=
  destruct p as [|[|[|[|[|[|[|[|p]]]]]]]]; cbn in *; try lia.

Lemma norm2_lanes : forall P I p mel, (p < lanesOf P I)%nat ->
  norm2 P I mel (2 * p)%nat = sq (pairOf p mel) /\ norm2 P I mel (2 * p + 1)%nat = sq (pairOf p mel).
Proof.
  intros P I p mel H; unfold sq, dot, pairOf.
  destruct P, I; eachNumber p;
    cbv -[Rplus Rmult]; split; ring.
Qed.

(** Numbers of the register where the scalar products are right. *)
Definition goodMV (P : prec) (I : isa) (p : nat) : Prop :=
  match P, I with Double, AVX512 => (p < 2)%nat | _, _ => True end.
Definition goodMA (P : prec) (I : isa) (p : nat) : Prop :=
  match P, I with Double, (AVX512 | AVX2 | AVX) => (p < 1)%nat | _, _ => True end.

Lemma dotMV_lanes : forall P I p a b, (p < lanesOf P I)%nat -> goodMV P I p ->
  dotMV P I a b (2 * p)%nat = dot (pairOf p a) (pairOf p b) /\ dotMV P I a b (2 * p + 1)%nat = dot (pairOf p a) (pairOf p b).
Proof.
  intros P I p a b H G; unfold dot, pairOf.
  destruct P, I; eachNumber p; cbv -[Rplus Rmult]; split; ring.
Qed.
Lemma dotMA_lanes : forall P I p a b, (p < lanesOf P I)%nat -> goodMA P I p ->
  dotMA P I a b (2 * p)%nat = dot (pairOf p a) (pairOf p b) /\ dotMA P I a b (2 * p + 1)%nat = dot (pairOf p a) (pairOf p b).
Proof.
  intros P I p a b H G; unfold dot, pairOf.
  destruct P, I; eachNumber p; cbv -[Rplus Rmult]; split; ring.
Qed.
Lemma dotTheta_lanes : forall P I p a b, (p < lanesOf P I)%nat ->
  dotTheta P I a b (2 * p)%nat = dot (pairOf p a) (pairOf p b) /\ dotTheta P I a b (2 * p + 1)%nat = dot (pairOf p a) (pairOf p b).
Proof.
  intros P I p a b H; unfold dot, pairOf.
  destruct P, I; eachNumber p; cbv -[Rplus Rmult]; split; ring.
Qed.
Lemma turned_lanes : forall P I p a, (p < lanesOf P I)%nat ->
  turned P I a (2 * p)%nat = - snd (pairOf p a) /\ turned P I a (2 * p + 1)%nat = fst (pairOf p a).
Proof.
  intros P I p a H; unfold pairOf.
  destruct P, I; eachNumber p; cbv -[Rplus Rmult Ropp IZR]; split; ring.
Qed.
Lemma vqcd0_single : forall I p x, (p < lanesOf Single I)%nat ->
  vqcd0 Single I x (2 * p)%nat = snd (pairOf p x) * snd (pairOf p x)
  /\ vqcd0 Single I x (2 * p + 1)%nat = fst (pairOf p x) * snd (pairOf p x).
Proof.
  intros I p x H; unfold pairOf.
  destruct I; eachNumber p; cbv -[Rplus Rmult]; split; ring.
Qed.
Lemma even_lanes : forall p, Nat.even (2 * p)%nat = true /\ Nat.even (2 * p + 1)%nat = false.
Proof.
  intros p; split.
  - rewrite Nat.even_mul; reflexivity.
  - rewrite Nat.even_add, Nat.even_mul; reflexivity.
Qed.

(** ** Number-level forms *)
Definition pqCoef (s : pq) (c : parms) (n : R) : R :=
  let R2 := pR c * pR c in
  match s with
  | PQ1 => (n - R2) * pLam c
  | PQ3 => kkk (2 * R2 * (1 - pR c / sqrt n)) (n - R2) n R2 * pLam c
  | PQ2 => (n * n - R2 * R2) * (n * LaLa c)
  end.
Definition pqPair (s : pq) (c : parms) (m l : R * R) : R * R :=
  (fst l - fst m * (pqCoef s c (sq m) - pRpp c), snd l - snd m * (pqCoef s c (sq m) - pRpp c)).
Lemma pqPart_pair : forall P I v c p mel lap, (p < lanesOf P I)%nat ->
  pairOf p (pqPart v c (norm2 P I mel) mel lap) = pqPair (pPq v) c (pairOf p mel) (pairOf p lap).
Proof.
  intros P I v c p mel lap H. destruct (norm2_lanes P I p mel H) as [A B].
  unfold pqPair, pqPart, pqCoef. unfold pairOf at 1. cbv beta zeta.
  destruct (pPq v); rewrite ?A, ?B; reflexivity.
Qed.
Definition basePair (k : kern) (v : pot) (c : parms) (m l : R * R) : R * R :=
  match k, pEvol v with Fused, EvolTheta => l | _, _ => pqPair (pPq v) c m l end.
Lemma basePart_pair : forall k P I v c p mel lap, (p < lanesOf P I)%nat ->
  pairOf p (basePart k v c (norm2 P I mel) mel lap) = basePair k v c (pairOf p mel) (pairOf p lap).
Proof.
  intros k P I v c p mel lap H. unfold basePart, basePair.
  destruct k, (pEvol v); try reflexivity; apply pqPart_pair; assumption.
Qed.

(** The part of the axion, where the numbers of the register are treated alike. *)
Definition cosPair (v : pot) (c : parms) (m a : R * R) : R * R :=
  (fst a + zN (pQcd v) c * (snd m * snd m / sqrt (sq m * (sq m * sq m))),
   snd a + - zN (pQcd v) c * (fst m * snd m / sqrt (sq m * (sq m * sq m)))).
Definition qcdPair (k : kern) (P : prec) (v : pot) (c : parms) (m a : R * R) : R * R :=
  match pQcd v with
  | QCD0 => a
  | QCD1 => (fst a + zQ c, snd a + 0)
  | QCDV => (fst a + zQ c * (pR c - fst m), snd a + zQ c * (0 - snd m))
  | QCD2 => match k, P with
            | Fused, Double | Kick, Single => (fst a - zN QCD2 c * fst m, snd a - - zN QCD2 c * snd m)
            | Fused, Single | Kick, Double => (fst a + zN QCD2 c * fst m, snd a + - zN QCD2 c * snd m)
            end
  | QCDC => cosPair v c m a
  | QCDL => match P with Double => a | Single => cosPair v c m a end
  end.
Definition goodCos (P : prec) (v : pot) : Prop := P = Double -> pQcd v <> QCDC.
Lemma cosinePart_pair : forall I v c p mel a, (p < lanesOf Single I)%nat ->
  pairOf p (cosinePart Single I v c (norm2 Single I mel) mel a) = cosPair v c (pairOf p mel) (pairOf p a).
Proof.
  intros I v c p mel a H. destruct (norm2_lanes Single I p mel H) as [A B].
  destruct (vqcd0_single I p mel H) as [C D]. destruct (even_lanes p) as [E F].
  unfold cosinePart, cosPair, zNVec. unfold pairOf at 1. cbv beta.
  rewrite A, B, C, D, E, F. reflexivity.
Qed.
Lemma qcdPart_pair : forall k P I v c p mel a, (p < lanesOf P I)%nat -> goodCos P v ->
  pairOf p (qcdPart k P I v c (norm2 P I mel) mel a) = qcdPair k P v c (pairOf p mel) (pairOf p a).
Proof.
  intros k P I v c p mel a H G. destruct (even_lanes p) as [E F].
  unfold qcdPart, qcdPair. destruct (pQcd v) eqn:Q.
  - reflexivity.
  - unfold add2, zQVec, pairOf; cbv beta; rewrite E, F; reflexivity.
  - unfold zRVec, pairOf; cbv beta; rewrite E, F; reflexivity.
  - unfold zNVec, pairOf; destruct k, P; cbv beta; rewrite E, F; reflexivity.
  - destruct P; [apply cosinePart_pair; assumption | reflexivity].
  - destruct P; [apply cosinePart_pair; assumption | exfalso; exact (G eq_refl Q)].
Qed.
Definition accelPair (k : kern) (P : prec) (v : pot) (c : parms) (m l : R * R) : R * R :=
  let a := basePair k v c m l in
  match k, pEvol v with Fused, EvolRho => a | _, _ => qcdPair k P v c m a end.
Lemma accel_pair : forall k P I v c p mel lap, (p < lanesOf P I)%nat -> goodCos P v ->
  pairOf p (accel k P I v c mel lap) = accelPair k P v c (pairOf p mel) (pairOf p lap).
Proof.
  intros k P I v c p mel lap H G. unfold accel, accelPair. cbv zeta.
  destruct k, (pEvol v) eqn:E; rewrite ?qcdPart_pair by assumption; rewrite ?basePart_pair by assumption; reflexivity.
Qed.

(** The velocity. *)
Definition projPair (rp : R) (m a : R * R) : R * R :=
  (- snd m * cross m a / sq m + fst m * rp, fst m * cross m a / sq m + snd m * rp).
Lemma project_pair : forall k P I v c p mel a vel, (p < lanesOf P I)%nat ->
  let (a', v') := project k P I v c mel a vel in
  pairOf p a' = match k, pEvol v with Fused, EvolTheta => projPair (pRpp c) (pairOf p mel) (pairOf p a) | _, _ => pairOf p a end
  /\ pairOf p v' = match k, pEvol v with Fused, EvolTheta => projPair (pRp c) (pairOf p mel) (pairOf p vel) | _, _ => pairOf p vel end.
Proof.
  intros k P I v c p mel a vel H.
  destruct (norm2_lanes P I p mel H) as [A B]. destruct (turned_lanes P I p mel H) as [T U].
  destruct (dotTheta_lanes P I p a (turned P I mel) H) as [C D].
  destruct (dotTheta_lanes P I p vel (turned P I mel) H) as [E F].
  unfold project. destruct k, (pEvol v); try (split; reflexivity).
  assert (X : forall z, dot z (pairOf p (turned P I mel)) = cross (pairOf p mel) z).
  { intros z. unfold dot, cross. unfold pairOf at 1 2. cbn [fst snd]. rewrite T, U. ring. }
  rewrite !X in *. unfold projPair. split; unfold pairOf at 1; cbv beta zeta.
  - rewrite A, B, T, U, C, D. reflexivity.
  - rewrite A, B, T, U, E, F. reflexivity.
Qed.
Definition kickPair (v : pot) (c : parms) (m a x : R * R) : R * R :=
  match pDamp v with
  | NoDamp => (fst a * pDzc c + fst x, snd a * pDzc c + snd x)
  | DampRho =>
      let g := (dot m x - sq m * pRp c) * 2 + dot m a * pDzc c in
      (fst a * pDzc c + fst x - epsi c * (fst m / sq m) * g, snd a * pDzc c + snd x - epsi c * (snd m / sq m) * g)
  | DampAll => (fst x * damp2 c + fst a * (damp1 c * pDzc c), snd x * damp2 c + snd a * (damp1 c * pDzc c))
  end.
Definition goodDamp (P : prec) (I : isa) (p : nat) (v : pot) : Prop :=
  pDamp v = DampRho -> goodMV P I p /\ goodMA P I p.
Lemma kicked_pair : forall P I v c p mel a vel, (p < lanesOf P I)%nat -> goodDamp P I p v ->
  pairOf p (kicked P I v c mel a vel) = kickPair v c (pairOf p mel) (pairOf p a) (pairOf p vel).
Proof.
  intros P I v c p mel a vel H G. unfold kicked, kickPair, goodDamp in *.
  destruct (pDamp v); try reflexivity.
  destruct (G eq_refl) as [G1 G2].
  destruct (norm2_lanes P I p mel H) as [A B].
  destruct (dotMV_lanes P I p mel vel H G1) as [C D].
  destruct (dotMA_lanes P I p mel a H G2) as [E F].
  unfold pairOf at 1. cbv beta zeta. rewrite A, B, C, D, E, F. reflexivity.
Qed.
Definition rhoPair (v : pot) (m w : R * R) : R * R :=
  match pEvol v with EvolRho => (fst m * dot m w / sq m, snd m * dot m w / sq m) | _ => w end.
Definition goodRho (P : prec) (I : isa) (p : nat) (v : pot) : Prop := pEvol v = EvolRho -> goodMV P I p.
Lemma onlyRho_pair : forall P I v p mel w, (p < lanesOf P I)%nat -> goodRho P I p v ->
  pairOf p (onlyRho P I v mel w) = rhoPair v (pairOf p mel) (pairOf p w).
Proof.
  intros P I v p mel w H G. unfold onlyRho, rhoPair, goodRho in *.
  destruct (pEvol v); try reflexivity.
  destruct (norm2_lanes P I p mel H) as [A B].
  destruct (dotMV_lanes P I p mel w H (G eq_refl)) as [C D].
  unfold dotRho. unfold pairOf at 1. cbv beta. rewrite A, B, C, D. reflexivity.
Qed.
Definition velPair (k : kern) (P : prec) (v : pot) (c : parms) (m l x : R * R) : R * R :=
  let a := accelPair k P v c m l in
  let a' := match k, pEvol v with Fused, EvolTheta => projPair (pRpp c) m a | _, _ => a end in
  let x' := match k, pEvol v with Fused, EvolTheta => projPair (pRp c) m x | _, _ => x end in
  rhoPair v m (kickPair v c m a' x').
Theorem velocity_pair : forall k P I v c p mel lap vel, (p < lanesOf P I)%nat ->
  goodCos P v -> goodDamp P I p v -> goodRho P I p v ->
  pairOf p (velocity k P I v c mel lap vel) = velPair k P v c (pairOf p mel) (pairOf p lap) (pairOf p vel).
Proof.
  intros k P I v c p mel lap vel H G1 G2 G3. unfold velocity, velPair. cbv zeta.
  pose proof (project_pair k P I v c p mel (accel k P I v c mel lap) vel H) as E.
  destruct (project k P I v c mel (accel k P I v c mel lap) vel) as [a x]. destruct E as [A B].
  rewrite onlyRho_pair by assumption. rewrite kicked_pair by assumption. rewrite A, B.
  rewrite accel_pair by assumption. reflexivity.
Qed.
Theorem newVel_pair : forall k P I v c p mel lap vel, (p < lanesOf P I)%nat ->
  goodCos P v -> goodDamp P I p v -> goodRho P I p v ->
  newVel k P I v c p mel lap vel =
  if divides k P v && vanishes (pairOf p mel) then None
  else Some (velPair k P v c (pairOf p mel) (pairOf p lap) (pairOf p vel)).
Proof.
  intros. unfold newVel. rewrite velocity_pair by assumption. reflexivity.
Qed.

Lemma vanishes_sq : forall m, vanishes m = false -> 0 < sq m.
Proof.
  intros [x y]; unfold vanishes, sq, dot; cbn [fst snd]; intros H.
  destruct (Req_EM_T x 0) as [->|A].
  - destruct (Req_EM_T y 0) as [->|B]; [discriminate|].
    pose proof (Rsqr_pos_lt y B) as Q; unfold Rsqr in Q; lra.
  - pose proof (Rsqr_pos_lt x A) as Q; unfold Rsqr in Q.
    pose proof (Rle_0_sqr y) as Q2; unfold Rsqr in Q2; lra.
Qed.
Lemma sq_vanishes : forall m, sq m <> 0 -> vanishes m = false.
Proof.
  intros [x y]; unfold vanishes, sq, dot; cbn [fst snd]; intros H.
  destruct (Req_EM_T x 0) as [->|A]; [|reflexivity].
  destruct (Req_EM_T y 0) as [->|B]; [|reflexivity]. exfalso; apply H; ring.
Qed.
Lemma sq_vacuum : forall r th, sq (vacuum r th) = r * r.
Proof.
  intros r th; unfold sq, dot, vacuum; cbn [fst snd].
  pose proof (sin2_cos2 th) as S; unfold Rsqr in S.
  replace (r * cos th * (r * cos th) + r * sin th * (r * sin th))
    with (r * r * (sin th * sin th + cos th * cos th)) by ring.
  rewrite S; ring.
Qed.
Lemma sqrt_cube : forall n, 0 <= n -> sqrt (n * (n * n)) = n * sqrt n.
Proof.
  intros n H. rewrite sqrt_mult by nra. rewrite sqrt_square by assumption. ring.
Qed.
Lemma dec_rate : forall c, pR c <> 0 -> rate c (GGGG c).
Proof.
  intros c H. unfold rate, GGGG. split; intros D; destruct (Rlt_dec 0 (pDec c)) as [L|L]; try lra; field; lra.
Qed.
Lemma rate_unique : forall c G, pR c <> 0 -> rate c G -> G = GGGG c.
Proof.
  intros c G H [A B]. unfold GGGG. destruct (Rlt_dec 0 (pDec c)) as [L|L].
  - specialize (B L). apply Rmult_eq_reg_r with (pDec c); [|lra]. rewrite B. field; lra.
  - assert (D : pDec c <= 0) by lra. specialize (A D). apply Rmult_eq_reg_r with (pR c); [|lra]. rewrite A. field; lra.
Qed.
