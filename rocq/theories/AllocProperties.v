(** Claim C17. *)
From Coq Require Import List Arith ZArith Bool Lia.
From Verif Require Import AllocModel.
Import ListNotations.

(** ** Specification *)
(** What a program does: tracked allocations (the system choosing the block), tracked
    releases, and allocations by other means. *)
Inductive op := OAlign (p : option nat) (size : nat) | OTrack (p : option nat) (size : nat)
              | OFree (a : option addr) | OMalloc (p : option nat) (size : nat).
Definition exec (o : op) (w : world) : outcome world :=
  match o with
  | OAlign p n => bindo (alignAlloc p n w) (fun r => Ok (snd r))
  | OTrack p n => bindo (trackAlloc p n w) (fun r => Ok (snd r))
  | OFree a => trackFree a w
  | OMalloc p n => bindo (sys_alloc p n w) (fun r => Ok (snd r))
  end.
Fixpoint execs (os : list op) (w : world) : outcome world :=
  match os with [] => Ok w | o :: os => bindo (exec o w) (execs os) end.

(** The tracked blocks alive after a history, last first, read off the history. *)
Fixpoint alive (os : list op) (l : list (nat * (atype * nat))) : list (nat * (atype * nat)) :=
  match os with
  | [] => l
  | OAlign (Some p) n :: os => alive os ((p, (ALLOC_ALIGN, n)) :: l)
  | OTrack (Some p) n :: os => alive os ((p, (ALLOC_TRACK, n)) :: l)
  | OFree (Some (p, _)) :: os => alive os (filter (fun e => negb (fst e =? p)) l)
  | _ :: os => alive os l
  end.
Fixpoint total (t : atype) (l : list (nat * (atype * nat))) : Z :=
  match l with
  | [] => 0
  | (_, (t', n)) :: l => (match t, t' with ALLOC_ALIGN, ALLOC_ALIGN | ALLOC_TRACK, ALLOC_TRACK => Z.of_nat n | _, _ => 0 end + total t l)%Z
  end.

(** ** Proofs *)
Definition entry (e : nat * (atype * nat)) : addr * (atype * nat) := ((fst e, 0), snd e).
Definition inv (w : world) (l : list (nat * (atype * nat))) : Prop :=
  table w = map entry l /\ NoDup (map fst l) /\ (forall p, In p (map fst l) -> live w p = true) /\
  trackAlignMem w = total ALLOC_ALIGN l /\ trackAllocMem w = total ALLOC_TRACK l.

Lemma addr_eqb_0 p q : addr_eqb (p, 0) (q, 0) = (p =? q).
Proof. unfold addr_eqb. cbn. apply andb_true_r. Qed.
Lemma lookup_entry l q : tlookup (map entry l) (q, 0) = option_map snd (find (fun e => fst e =? q) l).
Proof.
  unfold tlookup. induction l as [|[p x] l IH]; [reflexivity|]. cbn [map entry find fst snd].
  rewrite addr_eqb_0. destruct (p =? q); [reflexivity|]. exact IH.
Qed.
Lemma find_none_notin l (q : nat) : ~ In q (map fst l) -> find (fun e : nat * (atype * nat) => fst e =? q) l = None.
Proof.
  intros H. induction l as [|[p x] l IH]; [reflexivity|]. cbn in *. destruct (Nat.eqb_spec p q); [subst; exfalso; tauto|]. tauto.
Qed.
Lemma erase_entry l q : terase (map entry l) (q, 0) = map entry (filter (fun e => negb (fst e =? q)) l).
Proof.
  unfold terase. induction l as [|[p x] l IH]; [reflexivity|]. cbn [map filter entry fst snd].
  rewrite addr_eqb_0. destruct (p =? q); cbn; rewrite IH; reflexivity.
Qed.
Lemma filter_notin (l : list (nat * (atype * nat))) q : ~ In q (map fst l) -> filter (fun e => negb (fst e =? q)) l = l.
Proof.
  intros H. induction l as [|[p x] l IH]; [reflexivity|]. cbn in *. destruct (Nat.eqb_spec p q); [subst; exfalso; tauto|].
  cbn. f_equal. tauto.
Qed.
Lemma total_filter t l q : NoDup (map fst l) ->
  total t (filter (fun e => negb (fst e =? q)) l) =
  (total t l - match find (fun e => (fst e =? q)%nat) l with
              | Some (_, (t', n)) => match t, t' with ALLOC_ALIGN, ALLOC_ALIGN | ALLOC_TRACK, ALLOC_TRACK => Z.of_nat n | _, _ => 0 end
              | None => 0 end)%Z.
Proof.
  induction l as [|[p [t' n]] l IH]; intros Hn; [cbn; lia|]. inversion Hn; subst. cbn [map fst] in *.
  cbn [filter find fst]. destruct (Nat.eqb_spec p q) as [->|]; cbn [negb].
  - rewrite filter_notin by auto. cbn. destruct t, t'; lia.
  - cbn [total]. rewrite IH by auto. lia.
Qed.
Lemma in_filter_fst l p q : In p (map fst (filter (fun e : nat * (atype * nat) => negb (fst e =? q)) l)) -> In p (map fst l) /\ p <> q.
Proof.
  intros H. apply in_map_iff in H as (e & <- & He). apply filter_In in He as [He1 He2].
  split; [apply in_map; auto|]. destruct (Nat.eqb_spec (fst e) q); [discriminate|auto].
Qed.
Lemma NoDup_filter_fst l q : NoDup (map fst l) -> NoDup (map fst (filter (fun e : nat * (atype * nat) => negb (fst e =? q)) l)).
Proof.
  induction l as [|[p x] l IH]; intros H; [constructor|]. inversion H; subst. cbn. destruct (p =? q); cbn; [auto|].
  constructor; [|auto]. intros Hc. apply in_filter_fst in Hc. cbn in *. tauto.
Qed.
Lemma live_cons w p q n t a b : live (World ((p, n) :: heap w) t a b) q = (p =? q) || live w q.
Proof. reflexivity. Qed.
Lemma live_filter h p q t a b : p <> q -> live (World h t a b) p = true ->
  live (World (filter (fun e => negb (fst e =? q)) h) t a b) p = true.
Proof.
  unfold live. cbn. intros N H. apply existsb_exists in H as (e & He & E). apply existsb_exists. exists e. split; [|exact E].
  apply filter_In. split; [exact He|]. apply Nat.eqb_eq in E. subst. destruct (Nat.eqb_spec (fst e) q); [congruence|reflexivity].
Qed.

Lemma exec_inv o w l w' : inv w l -> exec o w = Ok w' -> inv w' (alive [o] l).
Proof.
  intros (Ht & Hn & Hl & HA & HT) E.
  assert (Hfresh : forall p, live w p = false -> ~ In p (map fst l)).
  { intros p Hp Hin. rewrite Hl in Hp by auto. discriminate. }
  destruct o as [[p|] n|[p|] n|[[p off]|]|[p|] n]; cbv beta iota delta [exec alignAlloc trackAlloc sys_alloc] in E; try discriminate.
  - destruct (live w p) eqn:Lp; cbn in E; [discriminate|]. injection E as <-. cbn.
    specialize (Hfresh _ Lp). unfold inv. cbn -[live]. rewrite Ht. unfold tinsert. rewrite lookup_entry, find_none_notin by auto. cbn -[live].
    repeat split; [constructor; auto| |lia|lia].
    intros q [<-|Hq]; rewrite live_cons; [rewrite Nat.eqb_refl; reflexivity|]. rewrite Hl by auto. apply orb_true_r.
  - destruct (live w p) eqn:Lp; cbn in E; [discriminate|]. injection E as <-. cbn.
    specialize (Hfresh _ Lp). unfold inv. cbn -[live]. rewrite Ht. unfold tinsert. rewrite lookup_entry, find_none_notin by auto. cbn -[live].
    repeat split; [constructor; auto| |lia|lia].
    intros q [<-|Hq]; rewrite live_cons; [rewrite Nat.eqb_refl; reflexivity|]. rewrite Hl by auto. apply orb_true_r.
  - unfold trackFree in E. cbn [sys_free] in E. destruct (Nat.eqb_spec off 0) as [->|]; cbn [andb bindo] in E.
    2:{ destruct (match tlookup (table w) (p, off) with Some x => x | None => (ALLOC_TRACK, 0) end); discriminate. }
    rewrite Ht, lookup_entry in E. cbn [alive].
    destruct (live w p) eqn:Lp; cbn [bindo] in E.
    2:{ destruct (match option_map snd (find (fun e => fst e =? p) l) with Some x => x | None => (ALLOC_TRACK, 0) end); discriminate. }
    pose proof (total_filter ALLOC_ALIGN l p Hn) as TA. pose proof (total_filter ALLOC_TRACK l p Hn) as TT.
    destruct (find (fun e => fst e =? p) l) as [[p' [t n]]|] eqn:F; cbn in E; injection E as <-; unfold inv; cbn -[live].
    + repeat split; [rewrite ?Ht; apply erase_entry|apply NoDup_filter_fst; auto| |destruct t; lia|destruct t; lia].
      intros q Hq. apply in_filter_fst in Hq as [Hq Hne]. apply live_filter; [auto|]. apply (Hl q Hq).
    + repeat split; [rewrite ?Ht; apply erase_entry|apply NoDup_filter_fst; auto| |lia|lia].
      intros q Hq. apply in_filter_fst in Hq as [Hq Hne]. apply live_filter; [auto|]. apply (Hl q Hq).
  - injection E as <-. cbn -[live]. unfold inv. cbn -[live]. repeat split; auto; try lia.
  - destruct (live w p) eqn:Lp; cbn in E; [discriminate|]. injection E as <-. cbn -[live]. unfold inv. cbn -[live].
    repeat split; auto. intros q Hq. rewrite live_cons, Hl by auto. apply orb_true_r.
Qed.

Lemma alive_cons o os l : alive (o :: os) l = alive os (alive [o] l).
Proof. destruct o as [[p|] n|[p|] n|[[p off]|]|[p|] n]; reflexivity. Qed.

Lemma execs_inv os : forall w l w', inv w l -> execs os w = Ok w' -> inv w' (alive os l).
Proof.
  induction os as [|o os IH]; intros w l w' Hi E.
  - injection E as <-. exact Hi.
  - cbn [execs] in E. destruct (exec o w) as [w1| |] eqn:E1; cbn in E; try discriminate.
    rewrite alive_cons. eapply IH; [|exact E]. eapply exec_inv; eassumption.
Qed.

(** C17: after every history of allocations and releases that has defined behaviour,
    each total is the sum of the sizes of the tracked blocks of its kind alive, and
    the table lists exactly those blocks. *)
Theorem accounting_matches os w : execs os start = Ok w ->
  trackAlignMem w = total ALLOC_ALIGN (alive os []) /\
  trackAllocMem w = total ALLOC_TRACK (alive os []) /\
  table w = map (fun e => ((fst e, 0), snd e)) (alive os []) /\
  (forall p, In p (map fst (alive os [])) -> live w p = true).
Proof.
  intros E. assert (I : inv start []). { unfold inv. cbn. repeat split; [constructor|tauto]. }
  pose proof (execs_inv _ _ _ _ I E) as (H1 & H2 & H3 & H4 & H5). auto.
Qed.
Print Assumptions accounting_matches.

(** Releasing the null pointer, or a block obtained otherwise, leaves the totals and
    the table as they were. *)
Theorem free_untracked os w w' a : execs os start = Ok w ->
  match a with None => True | Some (p, _) => ~ In p (map fst (alive os [])) end ->
  trackFree a w = Ok w' ->
  trackAlignMem w' = trackAlignMem w /\ trackAllocMem w' = trackAllocMem w /\ table w' = table w.
Proof.
  intros E Ha F. assert (I : inv start []). { unfold inv. cbn. repeat split; [constructor|tauto]. }
  pose proof (execs_inv _ _ _ _ I E) as Hw.
  pose proof (exec_inv (OFree a) _ _ _ Hw F) as Hw'.
  assert (A : alive [OFree a] (alive os []) = alive os []).
  { destruct a as [[p off]|]; [|reflexivity]. cbn. apply filter_notin, Ha. }
  rewrite A in Hw'. destruct Hw as (H1 & _ & _ & H4 & H5), Hw' as (G1 & _ & _ & G4 & G5). rewrite H1, H4, H5, G1, G4, G5. auto.
Qed.
Print Assumptions free_untracked.

(** Releasing a block twice is undefined, not an accounting error. *)
Theorem double_free os w w' p : execs os start = Ok w -> trackFree (Some (p, 0)) w = Ok w' ->
  trackFree (Some (p, 0)) w' = Undefined.
Proof.
  intros _ F. unfold trackFree in *. cbn [sys_free] in *. cbn [Nat.eqb andb] in *.
  assert (L : live w' p = false).
  { destruct (match tlookup (table w) (p, 0) with Some x => x | None => (ALLOC_TRACK, 0) end).
    destruct (live w p); cbn in F; [|discriminate]. injection F as <-. unfold live. cbn.
    apply not_true_iff_false. intros H. apply existsb_exists in H as (e & He & E). apply filter_In in He as [_ He].
    rewrite E in He. discriminate. }
  rewrite L. destruct (match tlookup (table w') (p, 0) with Some x => x | None => (ALLOC_TRACK, 0) end). reflexivity.
Qed.
Print Assumptions double_free.

(** A history with both kinds, a release, and the reuse of the released block. *)
Definition history_ex := [OAlign (Some 1) 100; OTrack (Some 2) 30; OMalloc (Some 3) 7; OFree (Some (1, 0));
  OTrack (Some 1) 5; OFree None; OFree (Some (3, 0))].
Example accounting_ex :
  execs history_ex start = Ok (World [(1, 5); (2, 30)] [((1, 0), (ALLOC_TRACK, 5)); ((2, 0), (ALLOC_TRACK, 30))] 0 35) /\
  alive history_ex [] = [(1, (ALLOC_TRACK, 5)); (2, (ALLOC_TRACK, 30))].
Proof. split; vm_compute; reflexivity. Qed.
