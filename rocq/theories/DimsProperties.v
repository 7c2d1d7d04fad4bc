(** The options that are read before the run starts. Specification: a command line as a list of options, [item], and [lastof], the value given last. *)
From Coq Require Import String List ZArith Bool Lia.
From Verif Require Import DimsModel.
Import ListNotations.
Local Open Scope string_scope.

(** Specification *)
Inductive item := Ranks (x : string) (n : Z) | Device (c : device) | OneLog | Verbose (x : string) (m : Z) | Other (w : string).
Definition words (i : item) : list string :=
  match i with
  | Ranks x _ => ["--zgrid"; x]
  | Device Cpu => ["--device"; "cpu"]
  | Device Gpu => ["--device"; "gpu"]
  | OneLog => ["--nologmpi"]
  | Verbose x _ => ["--verbose"; x]
  | Other w => [w]
  end.
Definition line (l : list item) : list string := flat_map words l.
Definition known : list string := ["--zgrid"; "--device"; "--nologmpi"; "--verbose"; "--help"; "--icinfo"; "--gravinfo"; "--measinfo"].
Definition valid (num : string -> Z) (scan : string -> option Z) (i : item) : Prop :=
  match i with
  | Ranks x n => num x = n /\ (1 <= n)%Z
  | Verbose x m => scan x = Some m
  | Other w => ~ In w known
  | _ => True
  end.
Fixpoint lastof {A} (f : item -> option A) (l : list item) (dflt : A) : A :=
  match l with [] => dflt | i :: l' => lastof f l' (match f i with Some a => a | None => dflt end) end.
Definition ranks_of i := match i with Ranks _ n => Some n | _ => None end.
Definition device_of i := match i with Device c => Some c | _ => None end.
Definition onelog_of i := match i with OneLog => Some true | _ => None end.
(** What a level does, by its number *)
Definition level_of i := match i with
  | Verbose _ m => if (m <? 0)%Z then Some Silent else if (m <=? 2)%Z then None else if (m =? 3)%Z then Some High else Some Paranoid
  | _ => None end.
Definition isknown i := match i with Other _ => false | _ => true end.
Definition has {A} (f : item -> option A) (l : list item) : bool := existsb (fun i => match f i with Some _ => true | None => false end) l.
(** What the help says of a level: 0 silent, 1 normal, 2 high, more for more *)
Definition promised (m : Z) : verbosity :=
  if (m <=? 0)%Z then Silent else if (m =? 1)%Z then Normal else if (m =? 2)%Z then High else Paranoid.

(** One option in the model *)
Definition dstep (d : dims) (i : item) : dims :=
  {| d_zGrid := match ranks_of i with Some n => n | None => d_zGrid d end;
     d_dev := match device_of i with Some c => c | None => d_dev d end;
     d_zeroRank := match onelog_of i with Some b => b | None => d_zeroRank d end;
     d_verb := match level_of i with Some v => v | None => d_verb d end;
     d_args := if isknown i then S (d_args d) else d_args d;
     d_brank := match ranks_of i with Some _ => Some true | None => d_brank d end;
     d_bcdev := match device_of i with Some _ => Some true | None => d_bcdev d end;
     d_blog := match onelog_of i with Some _ => Some true | None => d_blog d end;
     d_bverb := match i with Verbose _ _ => Some true | _ => d_bverb d end |}.

Lemma setVerb_spec x m v : setVerb m v = match level_of (Verbose x m) with Some u => u | None => v end.
Proof.
  unfold setVerb, level_of. rewrite !Z.gtb_ltb.
  destruct (Z.ltb_spec m 0), (Z.leb_spec m 2), (Z.eqb_spec m 3), (Z.ltb_spec 2 m), (Z.ltb_spec 3 m); reflexivity || lia.
Qed.
Lemma other_step num scan w rest d : ~ In w known -> dloop num scan (w :: rest) d = dloop num scan rest d.
Proof.
  intros H. cbn [dloop].
  assert (E : forall k, In k known -> String.eqb w k = false).
  { intros k Hk. apply String.eqb_neq. intros ->. contradiction. }
  rewrite !E by (cbn; tauto). reflexivity.
Qed.
Lemma prefix num scan l : forall rest d, Forall (valid num scan) l ->
  dloop num scan (line l ++ rest) d = dloop num scan rest (fold_left dstep l d).
Proof.
  induction l as [|i l IH]; intros rest d H; [reflexivity|].
  inversion H as [|? ? Hi Hl]; subst. cbn [line flat_map fold_left]. rewrite <- app_assoc. fold (line l).
  rewrite <- (IH rest (dstep d i) Hl).
  destruct i as [x n|c| |x m|w]; cbn [valid] in Hi.
  - destruct Hi as [Hn H1]. cbn. rewrite Hn. replace (n <? 1)%Z with false by (symmetry; apply Z.ltb_ge; exact H1). reflexivity.
  - destruct c; reflexivity.
  - reflexivity.
  - cbn. rewrite Hi, (setVerb_spec x). reflexivity.
  - cbn [words app]. rewrite other_step by exact Hi. destruct d; reflexivity.
Qed.
Lemma fold_zGrid l : forall d, d_zGrid (fold_left dstep l d) = lastof ranks_of l (d_zGrid d).
Proof. induction l as [|i l IH]; intros d; [reflexivity|]. cbn [fold_left lastof]. rewrite IH. reflexivity. Qed.
Lemma fold_dev l : forall d, d_dev (fold_left dstep l d) = lastof device_of l (d_dev d).
Proof. induction l as [|i l IH]; intros d; [reflexivity|]. cbn [fold_left lastof]. rewrite IH. reflexivity. Qed.
Lemma fold_verb l : forall d, d_verb (fold_left dstep l d) = lastof level_of l (d_verb d).
Proof. induction l as [|i l IH]; intros d; [reflexivity|]. cbn [fold_left lastof]. rewrite IH. reflexivity. Qed.
Lemma fold_zero l : forall d, d_zeroRank (fold_left dstep l d) = has onelog_of l || d_zeroRank d.
Proof.
  induction l as [|i l IH]; intros d; [reflexivity|]. cbn [fold_left]. rewrite IH. cbn [has existsb]. fold (has onelog_of l).
  destruct i; cbn; rewrite ?orb_true_r; reflexivity.
Qed.
Lemma fold_args l : forall d, d_args (fold_left dstep l d) = length (filter isknown l) + d_args d.
Proof. induction l as [|i l IH]; intros d; [reflexivity|]. cbn [fold_left filter]. rewrite IH. destruct i; cbn; lia. Qed.
Lemma fold_flags l : forall d,
  d_brank (fold_left dstep l d) = (if has ranks_of l then Some true else d_brank d) /\
  d_bcdev (fold_left dstep l d) = (if has device_of l then Some true else d_bcdev d) /\
  d_blog (fold_left dstep l d) = (if has onelog_of l then Some true else d_blog d).
Proof.
  induction l as [|i l IH]; intros d; [repeat split|]. cbn [fold_left].
  destruct (IH (dstep d i)) as (A & B & C). rewrite A, B, C. cbn [has existsb].
  fold (has ranks_of l) (has device_of l) (has onelog_of l).
  destruct i; cbn; destruct (has ranks_of l), (has device_of l), (has onelog_of l); repeat split.
Qed.
Lemma fold_bverb l : forall d, d_bverb d <> None -> d_bverb (fold_left dstep l d) <> None.
Proof. induction l as [|i l IH]; intros d H; [exact H|]. cbn [fold_left]. apply IH. destruct i; cbn; congruence. Qed.

(** C135, partial. Whatever the order of the options, and whatever other words are between, the number of ranks and the device are those given last, or 1 and the default; the log is of one rank if and only if --nologmpi is there; the options used are counted. The level is the one of [level_of], which is not the one promised. The last message is chosen with a flag never set unless --zgrid, --device and --nologmpi are all there.
    Missing: the levels 0, 2 and 3, and the flags, refuted below. *)
Theorem dims_partial num scan dev l : Forall (valid num scan) l ->
  exists d, parseDims num scan dev (line l) = (DDone d, negb (has ranks_of l && has device_of l && has onelog_of l)) /\
    d_zGrid d = lastof ranks_of l 1%Z /\ d_dev d = lastof device_of l dev /\ d_zeroRank d = has onelog_of l /\
    d_verb d = lastof level_of l Normal /\ d_args d = length (filter isknown l).
Proof.
  intros H. exists (fold_left dstep l (dims0 dev)).
  rewrite fold_zGrid, fold_dev, fold_verb, fold_zero, fold_args, orb_false_r, Nat.add_0_r.
  split; [|repeat split; reflexivity].
  unfold parseDims. rewrite <- (app_nil_r (line l)), prefix by exact H. cbn [dloop]. f_equal.
  destruct (fold_flags l (dims0 dev)) as (A & B & C). rewrite A, B, C.
  assert (D : d_bverb (fold_left dstep l (dims0 dev)) <> None) by (apply fold_bverb; discriminate).
  destruct (has ranks_of l), (has device_of l), (has onelog_of l); try reflexivity.
  cbn. destruct (d_bverb (fold_left dstep l (dims0 dev))) as [[|]|]; [reflexivity|reflexivity|congruence].
Qed.
(** The number of ranks is within what the start accepts *)
Theorem dims_ranks_positive num scan dev l : Forall (valid num scan) l ->
  exists d u, parseDims num scan dev (line l) = (DDone d, u) /\ (1 <= d_zGrid d)%Z.
Proof.
  intros H. destruct (dims_partial num scan dev l H) as (d & E & G & _). exists d. eexists. split; [exact E|]. rewrite G. clear E G d.
  assert (P : (1 <= 1)%Z) by lia. revert P. generalize 1%Z at 2 4. induction H as [|i l Hi Hl IH]; intros z P; [exact P|].
  cbn [lastof]. apply IH. destruct i; cbn in *; lia.
Qed.

(** C135: the program stops, after any valid options: with success if help is asked for, whatever follows; with an error if the value of an option is missing, if the number of ranks is below 1, or if the device is not known. *)
Theorem dims_stops num scan dev l : Forall (valid num scan) l ->
  (forall w rest, In w ["--help"; "--icinfo"; "--gravinfo"; "--measinfo"] -> fst (parseDims num scan dev (line l ++ w :: rest)) = DExit 0) /\
  (forall w, In w ["--zgrid"; "--device"; "--verbose"] -> fst (parseDims num scan dev (line l ++ [w])) = DExit 1) /\
  (forall x rest, (num x < 1)%Z -> fst (parseDims num scan dev (line l ++ "--zgrid" :: x :: rest)) = DExit 1) /\
  (forall x rest, x <> "cpu" -> x <> "gpu" -> fst (parseDims num scan dev (line l ++ "--device" :: x :: rest)) = DExit 1).
Proof.
  intros H. unfold parseDims. split; [|split; [|split]].
  - intros w rest Hw. rewrite prefix by exact H. cbn in Hw. destruct Hw as [<-|[<-|[<-|[<-|[]]]]]; reflexivity.
  - intros w Hw. rewrite prefix by exact H. cbn in Hw. destruct Hw as [<-|[<-|[<-|[]]]]; reflexivity.
  - intros x rest Hx. rewrite prefix by exact H. cbn. replace (num x <? 1)%Z with true by (symmetry; apply Z.ltb_lt; exact Hx). reflexivity.
  - intros x rest H1 H2. rewrite prefix by exact H. cbn.
    replace (x =? "cpu")%string with false by (symmetry; apply String.eqb_neq; exact H1).
    replace (x =? "gpu")%string with false by (symmetry; apply String.eqb_neq; exact H2). reflexivity.
Qed.
(** A case: --size 256 --device gpu --zgrid 4 --verbose 9 --zgrid 2 *)
Definition case_num (x : string) : Z := if String.eqb x "4" then 4%Z else if String.eqb x "2" then 2%Z else 0%Z.
Definition case_scan (x : string) : option Z := if String.eqb x "9" then Some 9%Z else if String.eqb x "2" then Some 2%Z else None.
Definition case_line : list item := [Other "--size"; Other "256"; Device Gpu; Ranks "4" 4; Verbose "9" 9; Ranks "2" 2].
Example dims_case : Forall (valid case_num case_scan) case_line /\
  line case_line = ["--size"; "256"; "--device"; "gpu"; "--zgrid"; "4"; "--verbose"; "9"; "--zgrid"; "2"] /\
  lastof ranks_of case_line 1%Z = 2%Z /\ lastof device_of case_line Cpu = Gpu /\ lastof level_of case_line Normal = Paranoid.
Proof.
  split; [|repeat split].
  repeat constructor; cbn; try lia; intros K; repeat (destruct K as [K|K]; [discriminate|]); exact K.
Qed.

(** C135, refuted: the level of --verbose is the one that the help promises. It is for 1 and from 4 on; 0 and 2 leave the level normal, and 3 gives what is promised for 2. *)
Theorem level_refuted num scan dev x :
  (forall m, scan x = Some m -> (m = 1 \/ m > 3 \/ m < 0)%Z ->
     exists d u, parseDims num scan dev ["--verbose"; x] = (DDone d, u) /\ d_verb d = promised m) /\
  (forall m, scan x = Some m -> (m = 0 \/ m = 2 \/ m = 3)%Z ->
     exists d u, parseDims num scan dev ["--verbose"; x] = (DDone d, u) /\ d_verb d <> promised m).
Proof.
  split; intros m Hs Hm; destruct (dims_partial num scan dev [Verbose x m]) as (d & E & _ & _ & _ & V & _);
    try (repeat constructor; exact Hs); exists d; eexists; (split; [exact E|]); rewrite V; cbn [lastof level_of]; unfold promised;
    destruct (Z.ltb_spec m 0), (Z.leb_spec m 2), (Z.eqb_spec m 3), (Z.leb_spec m 0), (Z.eqb_spec m 1), (Z.eqb_spec m 2); try lia; try reflexivity; discriminate.
Qed.
(** C135, refuted: --verbose overrides what came before. *)
Theorem level_last_refuted num scan dev x y : scan x = Some 9%Z -> scan y = Some 1%Z ->
  exists d u, parseDims num scan dev ["--verbose"; x; "--verbose"; y] = (DDone d, u) /\ d_verb d = Paranoid.
Proof.
  intros Hx Hy. destruct (dims_partial num scan dev [Verbose x 9; Verbose y 1]) as (d & E & _ & _ & _ & V & _).
  - repeat constructor; assumption.
  - exists d. eexists. split; [exact E|]. rewrite V. reflexivity.
Qed.
(** C135, refuted: only variables that were set are read. A level that is not a number, and the flags of a line without one of three options. *)
Theorem dims_unset_refuted num scan dev :
  (forall x rest, scan x = None -> fst (parseDims num scan dev ("--verbose" :: x :: rest)) = DUnset) /\
  (forall l, Forall (valid num scan) l -> has ranks_of l && has device_of l && has onelog_of l = false ->
     snd (parseDims num scan dev (line l)) = true) /\
  snd (parseDims num scan dev []) = true.
Proof.
  split; [|split].
  - intros x rest Hx. unfold parseDims. cbn. rewrite Hx. reflexivity.
  - intros l H F. destruct (dims_partial num scan dev l H) as (d & E & _). rewrite E, F. reflexivity.
  - reflexivity.
Qed.

Print Assumptions dims_partial.
Print Assumptions dims_ranks_positive.
Print Assumptions dims_stops.
Print Assumptions level_refuted.
Print Assumptions level_last_refuted.
Print Assumptions dims_unset_refuted.
