(** Lemmas on the reading of the list of measurements. *)
From Coq Require Import Reals Arith ZArith NArith Ascii String List Bool Lia.
From Verif Require Import RunModel LineModel LineSpec.
Import ListNotations.
Ltac Zify.zify_post_hook ::= idtac.

Lemma isspace_blank c : isspace c = true <-> blank c.
Proof.
  unfold blank. split.
  - destruct c as [[] [] [] [] [] [] [] []]; cbn; intros H; try discriminate H; tauto.
  - intros [<- |[<- |[<- |[<- |[<- |[<- |[]]]]]]]; reflexivity.
Qed.
Lemma not_blank c : ~ blank c -> isspace c = false.
Proof. intros H. destruct (isspace c) eqn:E; [exfalso; apply H, isspace_blank, E|reflexivity]. Qed.
Lemma split_blanks b s : Forall blank b -> split [] (b ++ s) = split [] s.
Proof. induction 1 as [|c b Hc _ IH]; [reflexivity|]. cbn [app split]. rewrite (proj2 (isspace_blank c) Hc). exact IH. Qed.
Lemma split_word w : Forall (fun c => ~ blank c) w -> forall cur s, split cur (w ++ s) = split (rev w ++ cur) s.
Proof.
  induction 1 as [|c w Hc _ IH]; intros cur s; [reflexivity|]. cbn [app split rev]. rewrite (not_blank c Hc), IH, <- app_assoc. reflexivity.
Qed.
Lemma flush_word w : w <> [] -> flush (rev w ++ []) = [w].
Proof.
  intros H. rewrite app_nil_r. unfold flush. destruct (rev w) eqn:E.
  - exfalso. apply H. rewrite <- (rev_involutive w), E. reflexivity.
  - rewrite <- E, rev_involutive. reflexivity.
Qed.
Lemma spaced_split s ws : spaced s ws -> mysplit s = ws.
Proof.
  unfold mysplit. induction 1 as [b Hb|b w Hb [Hw Fw]|b w c s ws Hb [Hw Fw] Hc _ IH].
  - rewrite <- (app_nil_r b), split_blanks by exact Hb. reflexivity.
  - rewrite split_blanks by exact Hb. rewrite <- (app_nil_r w) at 1. rewrite split_word by exact Fw. cbn [split]. apply flush_word. exact Hw.
  - rewrite split_blanks, split_word by assumption. cbn [split]. rewrite (proj2 (isspace_blank c) Hc), flush_word, IH by exact Hw. reflexivity.
Qed.

Lemma getlines_line l : aLine l -> forall cur s, getlines cur (l ++ s) = getlines (rev l ++ cur) s.
Proof.
  unfold aLine. induction l as [|c l IH]; intros H cur s; [reflexivity|]. cbn [app getlines rev].
  destruct (Ascii.eqb_spec c LF) as [E|E]; [exfalso; apply H; left; exact E|]. rewrite IH by (intros X; apply H; right; exact X). rewrite <- app_assoc. reflexivity.
Qed.
Lemma getlines_all ls f : Forall aLine ls -> getlines [] (flat_map (fun l => l ++ ["010"%char]) ls ++ f) = ls ++ getlines [] f.
Proof.
  induction 1 as [|l ls H _ IH]; [reflexivity|]. cbn [flat_map]. rewrite <- !app_assoc, getlines_line by exact H. cbn [app getlines].
  change (Ascii.eqb "010" LF) with true. cbv iota. rewrite app_nil_r, rev_involutive, IH. reflexivity.
Qed.
Lemma lined_getlines f ls : lined f ls -> getlines [] f = ls.
Proof.
  intros [A [-> |[ls' [l [-> [N ->]]]]]].
  - rewrite <- (app_nil_r (flat_map _ _)), getlines_all by exact A. cbn. apply app_nil_r.
  - apply Forall_app in A. destruct A as [A B]. rewrite getlines_all by exact A. f_equal.
    rewrite <- (app_nil_r l) at 1. rewrite getlines_line by (inversion B; assumption). cbn [getlines]. apply flush_word. exact N.
Qed.

(** *** Columns *)
Definition cIdx (c : column) : nat := match c with Ct => 0 | Kind => 1 | Maps => 2 | Masks => 3 | Spectra => 4 end.
Lemma columnOf_title c : columnOf (title c) = Some (cIdx c). Proof. destruct c; reflexivity. Qed.
Lemma columnOf_only w k : columnOf w = Some k -> exists c, w = title c.
Proof.
  unfold columnOf, textEqb. repeat (destruct (list_eq_dec ascii_dec w _) as [->|_]); intros H; try discriminate H;
    [exists Ct|exists Kind|exists Maps|exists Masks|exists Spectra]; reflexivity.
Qed.
Lemma columnOf_none w : (forall c, w <> title c) -> columnOf w = None.
Proof. intros H. destruct (columnOf w) eqn:E; [|reflexivity]. destruct (columnOf_only w n E) as [c ->]. exfalso. apply (H c). reflexivity. Qed.
Lemma put_some {A} (l : list A) k v : (k < length l)%nat -> put l k v = Some (firstn k l ++ v :: skipn (Datatypes.S k) l).
Proof. intros H. unfold put. rewrite (proj2 (Nat.ltb_lt _ _) H). reflexivity. Qed.
Lemma readheader_titles cols : forall k (done rest : list nat), length done = k -> (length cols <= length rest)%nat ->
  readheader k (map title cols) (done ++ rest) = Some (length cols, done ++ map cIdx cols ++ skipn (length cols) rest).
Proof.
  induction cols as [|c cols IH]; intros k done rest D H; [reflexivity|]. cbn [map readheader length] in *. rewrite columnOf_title.
  destruct rest as [|x rest]; [cbn in H; lia|]. rewrite put_some by (rewrite app_length; cbn [length]; lia).
  rewrite firstn_app, <- D, Nat.sub_diag, firstn_all, firstn_O, app_nil_r.
  assert (SK : skipn (Datatypes.S (length done)) (done ++ x :: rest) = rest).
  { rewrite skipn_app, skipn_all2 by lia. replace (Datatypes.S (length done) - length done)%nat with 1%nat by lia. reflexivity. }
  rewrite SK. change (done ++ cIdx c :: rest) with (done ++ [cIdx c] ++ rest). rewrite app_assoc, IH.
  - rewrite <- app_assoc. reflexivity.
  - rewrite app_length. cbn. lia.
  - cbn in H. lia.
Qed.
Lemma cols_five (cols : list column) : NoDup cols -> (length cols <= 5)%nat.
Proof.
  intros N. change 5%nat with (length [Ct; Kind; Maps; Masks; Spectra]). apply NoDup_incl_length; [exact N|].
  intros c _. destruct c; cbn; tauto.
Qed.

(** *** Cells *)
Definition cell (r : raw) (c : column) : option (R + Z) :=
  match c with Ct => option_map inl (rCt r) | _ => option_map inr (nth_error (rInt r) (cIdx c - 1)) end.
Definition num (stof : text -> option R) (stoi : text -> option Z) (w : text) (c : column) : option (R + Z) :=
  match c with Ct => option_map inl (stof w) | _ => option_map inr (stoi w) end.
Lemma readwords_step stof stoi k w ws perm r c v : nth_error perm k = Some (cIdx c) -> length (rInt r) = 4%nat -> num stof stoi w c = Some v ->
  exists r1, readwords stof stoi k (w :: ws) perm r = readwords stof stoi (Datatypes.S k) ws perm r1 /\ length (rInt r1) = 4%nat /\
    cell r1 c = Some v /\ forall c', c' <> c -> cell r1 c' = cell r c'.
Proof.
  intros P L N. destruct r as [t l]. cbn [rInt] in L. destruct l as [|l0 [|l1 [|l2 [|l3 [|]]]]]; try discriminate L.
  cbn [readwords]. rewrite P. destruct c; cbn [cIdx num] in *.
  - destruct (stof w) as [x|]; [|discriminate N]. exists (Raw (Some x) [l0; l1; l2; l3]). repeat split.
    + cbn in *. exact N.
    + intros c' H. destruct c'; [contradiction H; reflexivity|..]; reflexivity.
  - destruct (stoi w) as [x|]; [|discriminate N]. exists (Raw t [x; l1; l2; l3]). repeat split.
    + cbn in *. exact N.
    + intros c' H. destruct c'; try (contradiction H; reflexivity); reflexivity.
  - destruct (stoi w) as [x|]; [|discriminate N]. exists (Raw t [l0; x; l2; l3]). repeat split.
    + cbn in *. exact N.
    + intros c' H. destruct c'; try (contradiction H; reflexivity); reflexivity.
  - destruct (stoi w) as [x|]; [|discriminate N]. exists (Raw t [l0; l1; x; l3]). repeat split.
    + cbn in *. exact N.
    + intros c' H. destruct c'; try (contradiction H; reflexivity); reflexivity.
  - destruct (stoi w) as [x|]; [|discriminate N]. exists (Raw t [l0; l1; l2; x]). repeat split.
    + cbn in *. exact N.
    + intros c' H. destruct c'; try (contradiction H; reflexivity); reflexivity.
Qed.
Lemma readwords_row stof stoi cols : NoDup cols -> forall k ws perm r, numeric stof stoi cols ws -> length (rInt r) = 4%nat ->
  (forall j c, nth_error cols j = Some c -> nth_error perm (k + j) = Some (cIdx c)) ->
  exists r', readwords stof stoi k (firstn (length cols) ws) perm r = Some r' /\ length (rInt r') = 4%nat /\
    (forall j c w, nth_error cols j = Some c -> nth_error ws j = Some w -> cell r' c = num stof stoi w c) /\
    (forall c, ~ In c cols -> cell r' c = cell r c).
Proof.
  induction 1 as [|c cols NI ND IH]; intros k ws perm r [HL HN] L P.
  - exists r. split; [reflexivity|]. split; [exact L|]. split; [|reflexivity]. intros j c w H. destruct j; discriminate H.
  - destruct ws as [|w ws]; [cbn in HL; lia|]. cbn [length firstn].
    assert (V : exists v, num stof stoi w c = Some v).
    { specialize (HN 0%nat c w eq_refl eq_refl). destruct c; destruct HN as [v E]; cbn [num]; rewrite E; [exists (inl v)|exists (inr v)..]; reflexivity. }
    destruct V as [v V].
    destruct (readwords_step stof stoi k w (firstn (length cols) ws) perm r c v) as [r1 [E1 [L1 [C1 O1]]]]; try assumption.
    { specialize (P 0%nat c eq_refl). rewrite Nat.add_0_r in P. exact P. }
    destruct (IH (Datatypes.S k) ws perm r1) as [r' [E2 [L2 [C2 O2]]]].
    + split; [cbn in HL; lia|]. intros j c' w' A B. apply (HN (Datatypes.S j) c' w' A B).
    + exact L1.
    + intros j c' A. rewrite Nat.add_succ_l, <- Nat.add_succ_r. apply P. exact A.
    + exists r'. split; [refine (eq_trans _ E2); exact E1|]. split; [exact L2|]. split.
      * intros [|j] c' w' A B; cbn [nth_error] in A, B.
        -- injection A as <-. injection B as <-. rewrite (O2 c NI), C1, V. reflexivity.
        -- exact (C2 j c' w' A B).
      * intros c' H. cbn [In] in H. rewrite O2 by tauto. apply O1. intros ->. tauto.
Qed.
Lemma cell_says stof stoi cols ws t l r' : length (rInt r') = 4%nat -> rCt r' = Some t -> rInt r' = l -> numeric stof stoi cols ws -> 
  (forall j c w, nth_error cols j = Some c -> nth_error ws j = Some w -> cell r' c = num stof stoi w c) ->
  (forall c, ~ In c cols -> cell r' c = cell (Raw None [0; 0; 0; 0]%Z) c \/ c = Ct) -> In Ct cols -> says stof stoi cols ws (t, l).
Proof.
  intros L T I [HL HN] A B C. subst l. split; [exact L|]. split.
  - intros k c w E F. specialize (A k c w E F). specialize (HN k c w E F). destruct r' as [t' l']. cbn in T. subst t'.
    cbn [rInt] in *.
    destruct c; cbn [shows]; destruct HN as [v V]; cbn [num cell cIdx rInt rCt] in A; rewrite V in A; cbn in A;
      [| exists v; split; [exact V|]; unfold asks; cbn [snd] ..].
    + injection A as ->. exact V.
    + destruct l' as [|x l']; [discriminate L|]. cbn in *. congruence.
    + destruct l' as [|x [|y l']]; try discriminate L. cbn in *. congruence.
    + destruct l' as [|x [|y [|u l']]]; try discriminate L. cbn in *. congruence.
    + destruct l' as [|x [|y [|u [|w' l']]]]; try discriminate L. cbn in *. congruence.
  - intros c N. destruct (B c N) as [E| ->]; [|contradiction]. destruct r' as [t' l']. cbn [rInt] in *.
    destruct l' as [|l0 [|l1 [|l2 [|l3 [|]]]]]; try discriminate L.
    destruct c; cbn in E |- *; try (exact (N C)); unfold asks; cbn; congruence.
Qed.
