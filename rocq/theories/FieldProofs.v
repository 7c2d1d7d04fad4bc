(** Proofs behind FieldProperties.v: what the constructor leaves behind, what the
    destructor releases, and the effect of a history of changes. *)
From Coq Require Import List Arith ZArith NArith Bool Lia.
From Verif Require Import AllocModel AllocProperties FieldModel.
Import ListNotations.

(** Changes of an existing field. *)
Inductive event := ESet (t : ftype) | EDims (nx nz : nat).
Definition apply (e : event) (s : scalar) : scalar :=
  match e with ESet t => setField s t | EDims nx nz => setDims s nx nz end.
Definition applies (es : list event) (s : scalar) : scalar := fold_left (fun s e => apply e s) es s.

(** *** Allocation sequences *)
Definition is_alloc (o : op) : bool := match o with OFree _ => false | _ => true end.
Fixpoint blocks (ops : list op) : list (nat * nat) :=
  match ops with
  | [] => []
  | OAlign (Some p) n :: ops | OTrack (Some p) n :: ops | OMalloc (Some p) n :: ops => (p, n) :: blocks ops
  | _ :: ops => blocks ops
  end.

Lemma exec_alloc o w w' : is_alloc o = true -> exec o w = Ok w' ->
  exists p n, blocks [o] = [(p, n)] /\ live w p = false /\ heap w' = (p, n) :: heap w.
Proof.
  intros A E. destruct o as [[p|] n|[p|] n|a|[p|] n]; try discriminate;
    cbv beta iota delta [exec alignAlloc trackAlloc sys_alloc] in E; try discriminate; cbn [bindo] in E; try discriminate;
    exists p, n; destruct (live w p) eqn:L; cbn [bindo] in E; try discriminate; injection E as <-; auto.
Qed.
Lemma blocks_cons o ops : blocks (o :: ops) = blocks [o] ++ blocks ops.
Proof. destruct o as [[p|] n|[p|] n|a|[p|] n]; reflexivity. Qed.
Lemma live_in w p : live w p = true <-> In p (map fst (heap w)).
Proof.
  unfold live. rewrite existsb_exists, in_map_iff. split; intros (b & H1 & H2).
  - exists b. apply Nat.eqb_eq in H2. auto.
  - exists b. subst. rewrite Nat.eqb_refl. auto.
Qed.
Lemma live_notin w p : live w p = false <-> ~ In p (map fst (heap w)).
Proof. rewrite <- live_in. destruct (live w p); split; congruence. Qed.

Lemma allocs ops : forall w w', forallb is_alloc ops = true -> execs ops w = Ok w' ->
  heap w' = rev (blocks ops) ++ heap w /\ NoDup (map fst (blocks ops)) /\
  (forall p, In p (map fst (blocks ops)) -> live w p = false) /\ length (blocks ops) = length ops.
Proof.
  induction ops as [|o ops IH]; intros w w' A E.
  - injection E as <-. cbn. repeat split; [constructor|tauto].
  - cbn in A. apply andb_true_iff in A as [Ao A]. cbn [execs] in E.
    destruct (exec o w) as [w1| |] eqn:E1; cbn in E; try discriminate.
    destruct (exec_alloc _ _ _ Ao E1) as (p & n & B & L & Hh). destruct (IH _ _ A E) as (H1 & H2 & H3 & H4).
    rewrite blocks_cons, B. cbn [app rev map fst length]. repeat split.
    + rewrite H1, Hh, <- app_assoc. reflexivity.
    + constructor; [|exact H2]. intros Hi. specialize (H3 _ Hi). apply live_notin in H3. apply H3. rewrite Hh. left. reflexivity.
    + intros q [<-|Hq]; [exact L|]. specialize (H3 _ Hq). apply live_notin. apply live_notin in H3. rewrite Hh in H3. cbn in H3. tauto.
    + f_equal. exact H4.
Qed.

Lemma find_block (l l' : list (nat * nat)) p n : NoDup (map fst l) -> In (p, n) l ->
  find (fun b => fst b =? p) (rev l ++ l') = Some (p, n).
Proof.
  intros N Hin. assert (Hin' : In (p, n) (rev l)) by (apply -> in_rev; exact Hin).
  assert (N' : NoDup (map fst (rev l))) by (rewrite map_rev; apply NoDup_rev; exact N).
  revert Hin' N'. generalize (rev l) as k. intros k. induction k as [|[q m] k IH]; intros Hi Hn; [destruct Hi|].
  cbn. inversion Hn; subst. destruct (Nat.eqb_spec q p) as [->|Hne].
  - destruct Hi as [Hi|Hi]; [congruence|]. exfalso. apply H1. apply in_map_iff. exists (p, n). auto.
  - destruct Hi as [Hi|Hi]; [congruence|]. apply IH; auto.
Qed.
Lemma allocs_size ops w w' p n : forallb is_alloc ops = true -> execs ops w = Ok w' -> In (p, n) (blocks ops) ->
  block_size w' p = Some n.
Proof.
  intros A E Hin. destruct (allocs _ _ _ A E) as (H1 & H2 & _). unfold block_size. rewrite H1.
  rewrite (find_block _ _ p n H2 Hin). reflexivity.
Qed.

(** *** Release sequences *)
Definition frees (ps : list nat) : list op := map (fun p => OFree (Some (p, 0))) ps.
Lemma free_ok w p : live w p = true -> exists w', exec (OFree (Some (p, 0))) w = Ok w' /\
  heap w' = filter (fun b => negb (fst b =? p)) (heap w).
Proof.
  intros L. cbn [exec]. unfold trackFree. cbn [sys_free Nat.eqb andb]. rewrite L.
  destruct (match tlookup (table w) (p, 0) with Some x => x | None => (ALLOC_TRACK, 0) end). cbn [bindo heap].
  eexists. split; reflexivity.
Qed.
Lemma frees_all ps : forall w, NoDup ps -> (forall p, In p ps -> live w p = true) ->
  exists w', execs (frees ps) w = Ok w' /\ heap w' = filter (fun b => negb (existsb (Nat.eqb (fst b)) ps)) (heap w).
Proof.
  induction ps as [|p ps IH]; intros w N L.
  - exists w. split; [reflexivity|]. cbn. induction (heap w) as [|b h IHh]; [reflexivity|]. cbn. rewrite <- IHh. reflexivity.
  - inversion N; subst. destruct (free_ok w p (L p (or_introl eq_refl))) as (w1 & E1 & H1').
    destruct (IH w1 H2) as (w2 & E2 & H2').
    { intros q Hq. apply live_in. rewrite H1'. specialize (L q (or_intror Hq)). apply live_in in L.
      apply in_map_iff in L as (b & <- & Hb). apply in_map. apply filter_In. split; [exact Hb|].
      destruct (Nat.eqb_spec (fst b) p); [subst; contradiction|reflexivity]. }
    exists w2. split; [unfold frees in *; cbn [map execs]; rewrite E1; exact E2|].
    rewrite H2', H1'. generalize (heap w) as h. induction h as [|b h IHh]; [reflexivity|].
    cbn [filter existsb]. rewrite negb_orb. destruct (fst b =? p); cbn [negb andb filter]; [exact IHh|].
    destruct (negb (existsb (Nat.eqb (fst b)) ps)); [f_equal|]; exact IHh.
Qed.

Lemma execs_app a : forall b w, execs (a ++ b) w = bindo (execs a w) (execs b).
Proof. induction a as [|o a IH]; intros b w; [reflexivity|]. cbn. destruct (exec o w); cbn; auto. Qed.
Lemma alive_app a : forall b l, alive (a ++ b) l = alive b (alive a l).
Proof.
  induction a as [|o a IH]; intros b l; [reflexivity|]. cbn [app]. rewrite alive_cons, (alive_cons o a), IH. reflexivity.
Qed.
Lemma alive_frees ps : forall l, alive (frees ps) l = filter (fun e => negb (existsb (Nat.eqb (fst e)) ps)) l.
Proof.
  induction ps as [|p ps IH]; intros l.
  - cbn. induction l as [|b h IHh]; [reflexivity|]. cbn. rewrite <- IHh. reflexivity.
  - unfold frees in *. cbn [map]. rewrite alive_cons, IH. cbn [alive].
    induction l as [|b h IHh]; [reflexivity|]. cbn [filter existsb]. rewrite negb_orb.
    destruct (fst b =? p); cbn [negb andb filter]; [exact IHh|].
    destruct (negb (existsb (Nat.eqb (fst b)) ps)); [f_equal|]; exact IHh.
Qed.
Lemma alive_allocs ops : forall l, forallb is_alloc ops = true ->
  exists k, alive ops l = k ++ l /\ incl (map fst k) (map fst (blocks ops)).
Proof.
  induction ops as [|o ops IH]; intros l A; [exists []; split; [reflexivity|apply incl_refl]|].
  cbn in A. apply andb_true_iff in A as [Ao A]. rewrite alive_cons, blocks_cons, map_app.
  destruct (IH (alive [o] l) A) as (k & E & I). rewrite E.
  destruct o as [[p|] n|[p|] n|a|[p|] n]; try discriminate; cbn [alive blocks map fst app] in *;
   try (exists (k ++ [(p, (ALLOC_ALIGN, n))]); split; [rewrite <- app_assoc; reflexivity|];
        rewrite map_app; intros q Hq; apply in_app_iff in Hq as [Hq|[<-|[]]]; [right; apply I; exact Hq|left; reflexivity]);
   try (exists (k ++ [(p, (ALLOC_TRACK, n))]); split; [rewrite <- app_assoc; reflexivity|];
        rewrite map_app; intros q Hq; apply in_app_iff in Hq as [Hq|[<-|[]]]; [right; apply I; exact Hq|left; reflexivity]);
   try (exists k; split; [reflexivity|]; try (apply incl_tl); exact I).
Qed.

(** Releasing exactly the blocks an allocation sequence produced restores the world. *)
Lemma restore os w0 ops w1 ps :
  execs os start = Ok w0 -> forallb is_alloc ops = true -> execs ops w0 = Ok w1 ->
  NoDup ps -> (forall p, In p ps <-> In p (map fst (blocks ops))) ->
  exists w2, execs (frees ps) w1 = Ok w2 /\ heap w2 = heap w0 /\ table w2 = table w0 /\
    trackAlignMem w2 = trackAlignMem w0 /\ trackAllocMem w2 = trackAllocMem w0.
Proof.
  intros E0 A E1 N Hps. destruct (allocs _ _ _ A E1) as (H1 & H2 & H3 & _).
  destruct (frees_all ps w1 N) as (w2 & E2 & Hh).
  { intros p Hp. apply live_in. rewrite H1, map_app, map_rev, in_app_iff, <- in_rev. left. apply Hps. exact Hp. }
  assert (Efull : execs (os ++ ops ++ frees ps) start = Ok w2).
  { rewrite execs_app, E0. cbn. rewrite execs_app, E1. exact E2. }
  pose proof (accounting_matches _ _ E0) as (A1 & A2 & A3 & A4).
  pose proof (accounting_matches _ _ Efull) as (B1 & B2 & B3 & B4).
  assert (Al : alive (os ++ ops ++ frees ps) [] = alive os []).
  { rewrite alive_app, alive_app, alive_frees. destruct (alive_allocs ops (alive os []) A) as (k & -> & I).
    rewrite filter_app. assert (F1 : filter (fun e => negb (existsb (Nat.eqb (fst e)) ps)) k = []).
    { clear -I Hps. induction k as [|e k IH]; [reflexivity|]. cbn [filter].
      replace (existsb (Nat.eqb (fst e)) ps) with true.
      - apply IH. intros q Hq. apply I. right. exact Hq.
      - symmetry. apply existsb_exists. exists (fst e). split; [|apply Nat.eqb_refl]. apply Hps, I. left. reflexivity. }
    rewrite F1. cbn. assert (H3' : forall p, In p (map fst (alive os [])) -> ~ In p ps).
    { intros p Hp Hc. apply Hps in Hc. apply H3 in Hc. rewrite (A4 p Hp) in Hc. discriminate. }
    clear -H3'. induction (alive os []) as [|e l IH]; [reflexivity|]. cbn [filter].
    replace (existsb (Nat.eqb (fst e)) ps) with false.
    - cbn [negb]. f_equal. apply IH. intros p Hp. apply H3'. right. exact Hp.
    - symmetry. apply not_true_iff_false. intros Hc. apply existsb_exists in Hc as (q & Hq & Eq). apply Nat.eqb_eq in Eq. subst q.
      apply (H3' (fst e)); [left; reflexivity|exact Hq]. }
  rewrite Al in *. exists w2. split; [exact E2|]. split; [|rewrite A1, A2, A3, B1, B2, B3; auto].
  rewrite Hh, H1, filter_app.
  assert (F1 : filter (fun b => negb (existsb (Nat.eqb (fst b)) ps)) (rev (blocks ops)) = []).
  { assert (I : forall b, In b (rev (blocks ops)) -> In (fst b) ps).
    { intros b Hb. apply in_rev in Hb. apply Hps. apply in_map. exact Hb. }
    clear -I. induction (rev (blocks ops)) as [|e k IH]; [reflexivity|]. cbn [filter].
    replace (existsb (Nat.eqb (fst e)) ps) with true.
    - apply IH. intros q Hq. apply I. right. exact Hq.
    - symmetry. apply existsb_exists. exists (fst e). split; [|apply Nat.eqb_refl]. apply I. left. reflexivity. }
  rewrite F1. cbn. assert (H3' : forall b, In b (heap w0) -> ~ In (fst b) ps).
  { intros b Hb Hc. apply Hps in Hc. apply H3 in Hc. apply live_notin in Hc. apply Hc. apply in_map. exact Hb. }
  clear -H3'. induction (heap w0) as [|e l IH]; [reflexivity|]. cbn [filter].
  replace (existsb (Nat.eqb (fst e)) ps) with false.
  - cbn [negb]. f_equal. apply IH. intros p Hp. apply H3'. right. exact Hp.
  - symmetry. apply not_true_iff_false. intros Hc. apply existsb_exists in Hc as (q & Hq & Eq). apply Nat.eqb_eq in Eq. subst q.
    apply (H3' e); [left; reflexivity|exact Hq].
Qed.

(** *** What the constructor does *)
Definition complex_kind (t : ftype) : Prop := t = SAXION \/ t = SX_RD.
Definition angle_kind (t : ftype) : Prop := t = AXION \/ t = AXION_MOD \/ t = AX_RD \/ t = AX_MOD_RD \/ t = WKB.

Lemma bind_ok {A B} (e : outcome A) (f : A -> outcome B) b : bindo e f = Ok b -> exists a, e = Ok a /\ f a = Ok b.
Proof. destruct e; cbn; intros H; try discriminate. eauto. Qed.
Lemma align_ok p n w a w' : alignAlloc p n w = Ok (a, w') -> exists q, p = Some q /\ a = (q, 0) /\ exec (OAlign p n) w = Ok w'.
Proof.
  intros H. cbn [exec]. rewrite H. unfold alignAlloc, sys_alloc in H. destruct p as [q|]; [|discriminate].
  destruct (live w q); cbn in H; [discriminate|]. injection H as <- <-. exists q. auto.
Qed.
Lemma track_ok p n w a w' : trackAlloc p n w = Ok (a, w') -> exists q, p = Some q /\ a = (q, 0) /\ exec (OTrack p n) w = Ok w'.
Proof.
  intros H. cbn [exec]. rewrite H. unfold trackAlloc, sys_alloc in H. destruct p as [q|]; [|discriminate].
  destruct (live w q); cbn in H; [discriminate|]. injection H as <- <-. exists q. auto.
Qed.
Lemma memset_ok a n w w' : memset a n w = Ok w' -> w' = w.
Proof.
  unfold memset. destruct a as [[p o]|]; [|discriminate]. destruct (block_size w p); [|discriminate].
  destruct (_ <=? _); [|discriminate]. congruence.
Qed.

(** The allocations made for m2, z and R. *)
Definition m2_ops (b2 : option nat) (n : nat) : list op := match b2 with Some p => [OAlign (Some p) n] | None => [] end.
Definition m2_addr (b2 : option nat) : option addr := option_map (fun p => (p, 0)) b2.

Lemma m2_ok pick t lowmem lg mBytes fSz n3 w a w' : m2_buffer pick t lowmem lg mBytes fSz n3 w = Ok (a, w') ->
  exists b2 k, a = m2_addr b2 /\ execs (m2_ops b2 k) w = Ok w' /\ mBytes <= k /\
    (angle_kind t -> lg = false -> k = 2 * mBytes).
Proof.
  assert (Hal : forall n k (P : Prop), mBytes <= n -> P ->
    ('(a, w) <- alignAlloc (pick 9) n w;; 'w <- memset (Some a) k w;; Ok (Some a, w)) = Ok (a, w') ->
    exists b2, a = m2_addr b2 /\ execs (m2_ops b2 n) w = Ok w').
  { intros n k P Hk HP H. apply bind_ok in H as ((x & w1) & E1 & H). apply bind_ok in H as (w2 & E2 & H). apply memset_ok in E2. subst w2.
    injection H as <- <-. apply align_ok in E1 as (q & Ep & -> & E1). exists (Some q). split; [reflexivity|].
    cbn [m2_ops execs]. rewrite <- Ep, E1. reflexivity. }
  unfold m2_buffer. intros H.
  destruct t; try discriminate.
  - destruct lowmem.
    + injection H as <- <-. exists None, mBytes. repeat split; [lia|]. intros [|[|[|[|]]]]; discriminate.
    + destruct (Hal mBytes mBytes True) as (b2 & Hb1 & Hb2); [lia|exact I|exact H|]. exists b2, mBytes. repeat split; auto. intros [|[|[|[|]]]]; discriminate.
  - destruct lg; [destruct (Hal mBytes (fSz * n3) True) as (b2 & Hb1 & Hb2)|destruct (Hal (2 * mBytes) (2 * fSz * n3) True) as (b2 & Hb1 & Hb2)]; auto; try lia;
      [exists b2, mBytes|exists b2, (2 * mBytes)]; repeat split; auto; try lia; discriminate.
  - destruct lg; [destruct (Hal mBytes (fSz * n3) True) as (b2 & Hb1 & Hb2)|destruct (Hal (2 * mBytes) (2 * fSz * n3) True) as (b2 & Hb1 & Hb2)]; auto; try lia;
      [exists b2, mBytes|exists b2, (2 * mBytes)]; repeat split; auto; try lia; discriminate.
  - injection H as <- <-. exists None, (2 * mBytes). repeat split; lia.
  - injection H as <- <-. exists None, (2 * mBytes). repeat split; lia.
  - injection H as <- <-. exists None, (2 * mBytes). repeat split; lia.
  - injection H as <- <-. exists None, (2 * mBytes). repeat split; lia.
  - destruct lg; [destruct (Hal mBytes (fSz * n3) True) as (b2 & Hb1 & Hb2)|destruct (Hal (2 * mBytes) (2 * fSz * n3) True) as (b2 & Hb1 & Hb2)]; auto; try lia;
      [exists b2, mBytes|exists b2, (2 * mBytes)]; repeat split; auto; try lia; discriminate.
  - destruct lg; [destruct (Hal mBytes (fSz * n3) True) as (b2 & Hb1 & Hb2)|destruct (Hal (2 * mBytes) (2 * fSz * n3) True) as (b2 & Hb1 & Hb2)]; auto; try lia;
      [exists b2, mBytes|exists b2, (2 * mBytes)]; repeat split; auto; try lia; discriminate.
Qed.

Definition fresh_scalar pr mAl t nLx nLz Ngg m v m2 str z R : scalar :=
  Scalar t pr mAl (pr * nData t) (mAl / (pr * nData t)) nLx (nLx * nLx) (nLx * nLx * nLz) nLz Ngg (nLx * nLx * (nLz + 2 * Ngg))
    (Some m) (Some v) m2 (Some str) (Some z) (Some R) None None None.

Lemma construct_complex pick mAl pr lowmem lg t nLx nLz Ngg w s w' : complex_kind t ->
  construct pick mAl pr lowmem lg t nLx nLz Ngg w = Ok (s, w') ->
  exists bm bv bs b2 k bz br,
    s = fresh_scalar pr mAl t nLx nLz Ngg (bm, 0) (bv, 0) (m2_addr b2) (bs, 0) (bz, 0) (br, 0) /\
    nLx * nLx * (nLz + 2 * Ngg) * (pr * 2) <= k /\
    execs ([OAlign (Some bm) (nLx * nLx * (nLz + 2 * Ngg) * (pr * 2)); OAlign (Some bv) (nLx * nLx * (nLz + 2) * (pr * 2));
            OTrack (Some bs) (nLx * nLx * nLz)] ++ m2_ops b2 k ++ [OAlign (Some bz) mAl; OAlign (Some br) mAl]) w = Ok w'.
Proof.
  intros Ht H. unfold construct in H. cbv zeta in H.
  assert (Hd : nData t = 2) by (destruct Ht; subst; reflexivity).
  destruct (negb _); [discriminate|].
  apply bind_ok in H as ([[[[m v] str] rvg] w1] & E1 & H).
  apply bind_ok in H as ([m2 w2] & E2 & H). destruct (_ && _); [discriminate|].
  apply bind_ok in H as (w3 & E3 & H). apply memset_ok in E3. subst w3.
  apply bind_ok in H as (w3 & E3 & H). apply memset_ok in E3. subst w3.
  apply bind_ok in H as ([z w3] & E3 & H). apply bind_ok in H as ([R w4] & E4 & H). injection H as <- <-.
  apply m2_ok in E2 as (b2 & k & -> & E2 & Hk & _).
  assert (E1' : ('(m, w) <- alignAlloc (pick 0) (nLx * nLx * (nLz + 2 * Ngg) * (pr * nData t)) w;;
      '(v, w) <- alignAlloc (pick 1) (nLx * nLx * (nLz + 2) * (pr * nData t)) w;;
      '(str, w) <- trackAlloc (pick 2) (nLx * nLx * nLz) w;;
      Ok (m, v, str, @None (addr * addr * addr), w)) = Ok (m, v, str, rvg, w1)) by (destruct Ht; subst t; exact E1).
  clear E1. apply bind_ok in E1' as ([a wa] & Ea & E1). apply bind_ok in E1 as ([b wb] & Eb & E1). apply bind_ok in E1 as ([c wc] & Ec & E1).
  injection E1 as <- <- <- <- <-.
  apply align_ok in Ea as (bm & Pm & -> & Ea). apply align_ok in Eb as (bv & Pv & -> & Eb). apply track_ok in Ec as (bs & Ps & -> & Ec).
  apply align_ok in E3 as (bz & Pz & -> & E3). apply align_ok in E4 as (br & Pr & -> & E4).
  rewrite Pm in Ea. rewrite Pv in Eb. rewrite Ps in Ec. rewrite Pz in E3. rewrite Pr in E4. rewrite Hd in *.
  exists bm, bv, bs, b2, k, bz, br. split; [unfold fresh_scalar; rewrite Hd; reflexivity|]. split; [exact Hk|].
  cbn [app execs]. rewrite Ea. cbn [bindo execs]. rewrite Eb. cbn [bindo execs]. rewrite Ec. cbn [bindo].
  rewrite execs_app, E2. cbn [bindo execs]. rewrite E3. cbn [bindo execs]. rewrite E4. reflexivity.
Qed.

Lemma construct_angle pick mAl pr lowmem lg t nLx nLz Ngg w s w' : angle_kind t ->
  construct pick mAl pr lowmem lg t nLx nLz Ngg w = Ok (s, w') ->
  exists bm bs b2 k bz br,
    s = fresh_scalar pr mAl t nLx nLz Ngg (bm, 0) (bm, nLx * nLx * (nLz + 2 * Ngg) * pr) (m2_addr b2) (bs, 0) (bz, 0) (br, 0) /\
    nLx * nLx * (nLz + 2 * Ngg) * pr <= k /\ (lg = false -> k = 2 * (nLx * nLx * (nLz + 2 * Ngg) * pr)) /\
    execs ([OAlign (Some bm) (nLx * nLx * (nLz + 2 * Ngg) * pr + nLx * nLx * (nLz + 2) * pr);
            OTrack (Some bs) (nLx * nLx * nLz)] ++ m2_ops b2 k ++ [OAlign (Some bz) mAl; OAlign (Some br) mAl]) w = Ok w'.
Proof.
  intros Ht H. unfold construct in H. cbv zeta in H.
  assert (Hd : pr * nData t = pr) by (destruct Ht as [|[|[|[|]]]]; subst; cbn; lia).
  destruct (negb _); [discriminate|].
  apply bind_ok in H as ([[[[m v] str] rvg] w1] & E1 & H).
  apply bind_ok in H as ([m2 w2] & E2 & H). destruct (_ && _); [discriminate|].
  apply bind_ok in H as (w3 & E3 & H). apply memset_ok in E3. subst w3.
  apply bind_ok in H as (w3 & E3 & H). apply memset_ok in E3. subst w3.
  apply bind_ok in H as ([z w3] & E3 & H). apply bind_ok in H as ([R w4] & E4 & H). injection H as <- <-.
  apply m2_ok in E2 as (b2 & k & -> & E2 & Hk & Hk2).
  assert (E1' : ('(m, w) <- alignAlloc (pick 0) (nLx * nLx * (nLz + 2 * Ngg) * (pr * nData t) + nLx * nLx * (nLz + 2) * (pr * nData t)) w;;
      let v := (fst m, snd m + nLx * nLx * (nLz + 2 * Ngg) * (pr * nData t)) in
      '(str, w) <- trackAlloc (pick 2) (nLx * nLx * nLz) w;;
      Ok (m, v, str, @None (addr * addr * addr), w)) = Ok (m, v, str, rvg, w1)) by (destruct Ht as [|[|[|[|]]]]; subst t; exact E1).
  clear E1. apply bind_ok in E1' as ([a wa] & Ea & E1). cbv zeta in E1. apply bind_ok in E1 as ([c wc] & Ec & E1).
  injection E1 as <- <- <- <- <-.
  apply align_ok in Ea as (bm & Pm & -> & Ea). apply track_ok in Ec as (bs & Ps & -> & Ec).
  apply align_ok in E3 as (bz & Pz & -> & E3). apply align_ok in E4 as (br & Pr & -> & E4).
  rewrite Pm in Ea. rewrite Ps in Ec. rewrite Pz in E3. rewrite Pr in E4. cbn [fst snd Nat.add].
  rewrite Hd in *.
  exists bm, bs, b2, k, bz, br. split; [unfold fresh_scalar; rewrite Hd; reflexivity|]. split; [exact Hk|]. split; [auto|].
  cbn [app execs]. rewrite Ea. cbn [bindo execs]. rewrite Ec. cbn [bindo].
  rewrite execs_app, E2. cbn [bindo execs]. rewrite E3. cbn [bindo execs]. rewrite E4. reflexivity.
Qed.

(** *** Histories never touch the pointers, and only shrink the grid *)
Definition same_ptrs (s s' : scalar) : Prop :=
  pm s' = pm s /\ pv s' = pv s /\ pm2 s' = pm2 s /\ pstr s' = pstr s /\ pz s' = pz s /\ pR s' = pR s /\
  prec s' = prec s /\ mAlign s' = mAlign s /\ Ng s' = Ng s.
Definition dims_ok (s : scalar) : Prop := n2 s = n1 s * n1 s /\ n3 s = n2 s * Lz s /\ v3 s = n2 s * (Lz s + 2 * Ng s).
Lemma apply_ptrs e s : same_ptrs s (apply e s).
Proof.
  destruct e as [t|nx nz]; cbn.
  - unfold setField. destruct (ftype_eqb _ _); [repeat split|]. destruct t; try (repeat split); try (destruct (has _ _); repeat split).
  - unfold setDims. destruct (_ && _); repeat split.
Qed.
Lemma applies_ptrs es : forall s, same_ptrs s (applies es s).
Proof.
  induction es as [|e es IH]; intros s; [repeat split|]. cbn. specialize (IH (apply e s)). pose proof (apply_ptrs e s) as P.
  unfold same_ptrs, applies in *. destruct IH as (?&?&?&?&?&?&?&?&?), P as (?&?&?&?&?&?&?&?&?). repeat split; congruence.
Qed.
Lemma apply_dims e s : dims_ok s -> dims_ok (apply e s) /\ n1 (apply e s) <= n1 s /\ Lz (apply e s) <= Lz s.
Proof.
  intros D. destruct e as [t|nx nz]; cbn.
  - unfold setField. destruct (ftype_eqb _ _); [auto|]. destruct t; auto; destruct (has _ _); auto.
  - unfold setDims. destruct (_ && _) eqn:E; [|auto]. apply andb_true_iff in E as [E1 E2].
    apply Nat.ltb_lt in E1, E2. unfold dims_ok. cbn. lia.
Qed.
Lemma applies_dims es : forall s, dims_ok s -> dims_ok (applies es s) /\ n1 (applies es s) <= n1 s /\ Lz (applies es s) <= Lz s.
Proof.
  induction es as [|e es IH]; intros s D; [cbn; auto|]. cbn. destruct (apply_dims e s D) as (D1 & L1 & L2).
  destruct (IH _ D1) as (D2 & L3 & L4). unfold applies in *. split; [exact D2|]. lia.
Qed.
