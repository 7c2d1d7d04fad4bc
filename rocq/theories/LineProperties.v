(** Property C121: the list of measurements, measfile.dat. *)
From Coq Require Import Lra Reals Arith ZArith NArith Ascii String List Bool Lia.
From Verif Require Import RunModel LineModel LineSpec LineProofs.
Import ListNotations.
Ltac Zify.zify_post_hook ::= idtac.

Lemma rows_read stof stoi cols perm : NoDup cols -> In Ct cols -> (forall j c, nth_error cols j = Some c -> nth_error perm j = Some (cIdx c)) ->
  forall ls rows ct, Forall2 spaced ls rows -> Forall (numeric stof stoi cols) rows ->
  exists es, readlines stof stoi ct perm (length cols) ls = Some es /\ Forall2 (says stof stoi cols) rows es.
Proof.
  intros ND HC P. induction ls as [|l ls IH]; intros rows ct SP NU; inversion SP as [|? ws ? rows' S1 S2]; subst.
  - exists []. split; [reflexivity|constructor].
  - inversion NU as [|? ? N1 N2]; subst.
    destruct (readwords_row stof stoi cols ND 0 ws perm (Raw ct [0; 0; 0; 0]%Z) N1 eq_refl P) as [r' [E [L [C O]]]].
    destruct (In_nth_error cols Ct HC) as [j J].
    assert (W : exists w, nth_error ws j = Some w).
    { destruct (nth_error ws j) eqn:X; [eexists; reflexivity|]. apply nth_error_None in X. assert (j < length cols)%nat by (apply nth_error_Some; rewrite J; discriminate).
      destruct N1 as [N1 _]. lia. }
    destruct W as [w W]. destruct (proj2 N1 j Ct w J W) as [t T]. pose proof (C j Ct w J W) as CT. cbn [cell num] in CT. rewrite T in CT.
    assert (RT : rCt r' = Some t) by (destruct (rCt r'); [injection CT as ->; reflexivity|discriminate CT]).
    destruct (IH rows' (Some t) S2 N2) as [es [E2 F2]].
    exists ((t, rInt r') :: es). split.
    + cbn [readlines]. unfold readmeasline2. rewrite (spaced_split l ws S1), E. destruct r' as [t' l']. cbn in RT. subst t'. rewrite E2. reflexivity.
    + constructor; [|exact F2]. apply cell_says with (r' := r'); try assumption; try reflexivity.
      intros c N. destruct c; [right; reflexivity|left; rewrite (O _ N); reflexivity..].
Qed.

(** C121. A file with a line of titles, each known and given once, in any order and number, with ct among them, and rows of as many numbers (or more, which are ignored), with any blanks: each
    row is read as it says. *)
Theorem titled_file stof stoi f head cols ls rows : lined f (head :: ls) -> spaced head (map title cols) -> NoDup cols -> In Ct cols ->
  Forall2 spaced ls rows -> Forall (numeric stof stoi cols) rows ->
  exists es, readfile stof stoi f = Some es /\ Forall2 (says stof stoi cols) rows es.
Proof.
  intros LF SH ND HC SP NU. unfold readfile. rewrite (lined_getlines f _ LF). cbn [hd tl]. rewrite (spaced_split _ _ SH).
  pose proof (cols_five cols ND) as F5.
  change [0; 1; 2; 3; 4] with ([] ++ [0; 1; 2; 3; 4]). rewrite readheader_titles by (cbn; lia). cbv zeta.
  destruct (length cols) as [|n] eqn:LC; [destruct cols; [destruct HC|discriminate LC]|]. rewrite <- LC.
  apply rows_read; try assumption.
  intros j c H. cbn [app]. rewrite nth_error_app1 by (rewrite map_length; apply nth_error_Some; rewrite H; discriminate). apply map_nth_error. exact H.
Qed.
(** There is one thing a row says. *)
Theorem says_one stof stoi cols ws e e' : In Ct cols -> numeric stof stoi cols ws -> says stof stoi cols ws e -> says stof stoi cols ws e' -> e = e'.
Proof.
  intros HC [HL _] [L [A B]] [L' [A' B']].
  assert (AT : forall c, In c cols -> exists k w, nth_error cols k = Some c /\ nth_error ws k = Some w).
  { intros c H. destruct (In_nth_error cols c H) as [k K]. exists k. destruct (nth_error ws k) eqn:X; [eexists; split; [exact K|reflexivity]|].
    apply nth_error_None in X. assert (k < length cols)%nat by (apply nth_error_Some; rewrite K; discriminate). lia. }
  assert (CD : forall x y : column, {x = y} + {x <> y}) by decide equality.
  assert (EQ : forall c k, match c with Kind => k = 0 | Maps => k = 1 | Masks => k = 2 | Spectra => k = 3 | Ct => False end%nat -> asks e k = asks e' k).
  { intros c k Hk. destruct (in_dec CD c cols) as [I|N].
    - destruct (AT c I) as [j [w [J W]]]. specialize (A j c w J W). specialize (A' j c w J W).
      destruct c; try contradiction; subst k; cbn [shows] in A, A'; destruct A as [v [V1 V2]], A' as [v' [V1' V2']]; congruence.
    - specialize (B c N). specialize (B' c N). destruct c; try contradiction; subst k; cbn [nothing] in B, B'; congruence. }
  destruct (AT Ct HC) as [j [w [J W]]]. specialize (A j Ct w J W). specialize (A' j Ct w J W). cbn in A, A'.
  destruct e as [t l], e' as [t' l']. cbn [fst snd] in *.
  destruct l as [|l0 [|l1 [|l2 [|l3 [|]]]]]; try discriminate L. destruct l' as [|m0 [|m1 [|m2 [|m3 [|]]]]]; try discriminate L'.
  pose proof (EQ Kind 0%nat eq_refl) as E0. pose proof (EQ Maps 1%nat eq_refl) as E1. pose proof (EQ Masks 2%nat eq_refl) as E2. pose proof (EQ Spectra 3%nat eq_refl) as E3.
  unfold asks in *. cbn in E0, E1, E2, E3. congruence.
Qed.

Lemma header_unknown ws : Forall (fun w => forall c, w <> title c) ws -> forall k perm, readheader k ws perm = Some (0, perm).
Proof. induction 1 as [|w ws H _ IH]; intros k perm; [reflexivity|]. cbn [readheader]. rewrite columnOf_none by exact H. apply IH. Qed.
(** C121. A file without titles: the first two numbers of each line, the first included, are the time and the kind. *)
Theorem untitled_file stof stoi f l ws ls rows : lined f (l :: ls) -> Forall2 spaced (l :: ls) (ws :: rows) -> Forall (fun w => forall c, w <> title c) ws ->
  Forall (numeric stof stoi [Ct; Kind]) (ws :: rows) ->
  exists es, readfile stof stoi f = Some es /\ Forall2 (says stof stoi [Ct; Kind]) (ws :: rows) es.
Proof.
  intros LF SP UN NU. unfold readfile. rewrite (lined_getlines f _ LF). cbn [hd tl]. inversion SP as [|? ? ? ? S1 S2]; subst.
  rewrite (spaced_split _ _ S1), header_unknown by exact UN.
  apply (rows_read stof stoi [Ct; Kind]); try assumption.
  - repeat constructor; cbn; intuition discriminate.
  - left; reflexivity.
  - intros [|[|j]] c H; cbn in H; [injection H as <-; reflexivity|injection H as <-; reflexivity|destruct j; discriminate H].
Qed.

(** *** Blank lines *)
(** C121. A line without words behind a row asks for nothing more: what is measured is the same. *)
Lemma entry_same e : Entry (eCt e) (Info (iMeas (eInfo e)) (iMap (eInfo e)) (iMask (eInfo e)) (iNrt (eInfo e))) = e.
Proof. destruct e as [t [a b c d]]. reflexivity. Qed.
Lemma merge_blank e x l : eCt x = eCt e -> iMeas (eInfo x) = 0%N -> merge (e :: x :: l) = merge (e :: l).
Proof.
  intros T K. cbn [merge]. destruct (merge l) as [|h t]; [|destruct (Req_EM_T (eCt h) (eCt x)) as [Q|Q]]; cbn [eCt eInfo iMeas].
  - destruct (Req_EM_T (eCt x) (eCt e)) as [_|X]; [|contradiction]. rewrite K, N.lor_0_r, entry_same. reflexivity.
  - destruct (Req_EM_T (eCt x) (eCt e)) as [_|X]; [|contradiction]. destruct (Req_EM_T (eCt h) (eCt e)) as [_|Y]; [|congruence]. rewrite K, N.lor_0_l. reflexivity.
  - destruct (Req_EM_T (eCt x) (eCt e)) as [_|X]; [|contradiction]. destruct (Req_EM_T (eCt h) (eCt e)) as [Y|_]; [congruence|]. rewrite K, N.lor_0_r, entry_same. reflexivity.
Qed.
Lemma merge_head a : forall l l', merge l = merge l' -> merge (a ++ l) = merge (a ++ l').
Proof. induction a as [|e a IH]; intros l l' H; [exact H|]. cbn [app merge]. rewrite (IH l l' H). reflexivity. Qed.
Theorem blank_line_harmless stof stoi o z a l b s ct perm n esa e es : spaced s [] ->
  readlines stof stoi ct perm n (a ++ l :: b) = Some (esa ++ e :: es) -> length a = length esa ->
  exists es', readlines stof stoi ct perm n (a ++ l :: s :: b) = Some es' /\ listOf o z (map lineOf es') = listOf o z (map lineOf (esa ++ e :: es)).
Proof.
  intros SP R LE. exists (esa ++ e :: (fst e, [0; 0; 0; 0]%Z) :: es). split.
  - revert ct esa LE R. induction a as [|x a IH]; intros ct [|y esa] LE R; try discriminate LE; cbn [app readlines] in *.
    + destruct (readmeasline2 stof stoi l ct perm n) as [[[t|] q]|]; try discriminate R.
      destruct (readlines stof stoi (Some t) perm n b) as [u|] eqn:U; [|discriminate R]. injection R as <- <-.
      unfold readmeasline2 at 1. rewrite (spaced_split s [] SP), firstn_nil. cbn [readwords]. rewrite U. reflexivity.
    + destruct (readmeasline2 stof stoi x ct perm n) as [[[t|] q]|]; try discriminate R.
      destruct (readlines stof stoi (Some t) perm n (a ++ l :: b)) as [u|] eqn:U; [|discriminate R]. injection R as <- E. subst u.
      rewrite (IH (Some t) esa) by (cbn in LE; congruence || exact U). reflexivity.
  - unfold listOf. rewrite !map_app. cbn [map]. rewrite !filter_app. apply merge_head. cbn [filter].
    change (eCt (ofLine o (lineOf (fst e, [0; 0; 0; 0]%Z)))) with (fst e). change (eCt (ofLine o (lineOf e))) with (fst e).
    destruct (Rlt_dec (fst e) z); [reflexivity|]. apply merge_blank; reflexivity.
Qed.
(** C121 fails with such a line before the first row: the time was never set. *)
Theorem blank_first_refuted stof stoi f head cols s ls : lined f (head :: s :: ls) -> spaced head (map title cols) -> NoDup cols -> In Ct cols -> spaced s [] ->
  readfile stof stoi f = None.
Proof.
  intros LF SH ND HC SP. unfold readfile. rewrite (lined_getlines f _ LF). cbn [hd tl]. rewrite (spaced_split _ _ SH).
  pose proof (cols_five cols ND) as F5.
  change [0; 1; 2; 3; 4] with ([] ++ [0; 1; 2; 3; 4]). rewrite readheader_titles by (cbn; lia).
  destruct (length cols) as [|n] eqn:LC; [destruct cols; [destruct HC|discriminate LC]|].
  cbn [readlines]. unfold readmeasline2. rewrite (spaced_split _ _ SP), firstn_nil. reflexivity.
Qed.

(** *** What is read wrongly *)
(** C121 fails with a title that is not known: its numbers are taken for the kind, and the column of the kind is not read. *)
Theorem unknown_title_refuted stof stoi f head w row u v a b t : lined f [head; row] -> (forall c, w <> title c) -> spaced head [title Ct; w; title Kind] -> spaced row [t; u; v] ->
  forall x, stof t = Some x -> stoi u = Some a -> stoi v = Some b -> a <> b ->
  exists e, readfile stof stoi f = Some [e] /\ fst e = x /\ asks e 0 = Some a /\ asks e 0 <> Some b.
Proof.
  intros LF U SH SR x X A B N. exists (x, [a; 0; 0; 0]%Z). split; [|repeat split; cbn; congruence].
  unfold readfile. rewrite (lined_getlines f _ LF). cbn [hd tl]. rewrite (spaced_split _ _ SH). cbn [readheader].
  rewrite !columnOf_title, columnOf_none by exact U. cbn [cIdx put]. unfold put. cbn [length Nat.ltb Nat.leb firstn skipn app].
  cbn [readlines]. unfold readmeasline2. rewrite (spaced_split _ _ SR). cbn [firstn readwords nth_error]. rewrite X, A. reflexivity.
Qed.
(** C121 fails with more than five titles: a known one beyond the fifth is noted behind the end of the list of columns. *)
Theorem many_titles_refuted stof stoi f head ls ws c ws' : lined f (head :: ls) -> spaced head (ws ++ title c :: ws') -> (5 <= length ws)%nat -> readfile stof stoi f = None.
Proof.
  intros LF SH H. unfold readfile. rewrite (lined_getlines f _ LF). cbn [hd]. rewrite (spaced_split _ _ SH).
  assert (G : forall k perm, length perm = 5%nat -> (5 <= k + length ws)%nat -> readheader k (ws ++ title c :: ws') perm = None).
  { clear H SH. induction ws as [|w ws IH]; intros k perm P K; cbn [app readheader].
    - rewrite columnOf_title. unfold put. rewrite (proj2 (Nat.ltb_ge _ _)) by (cbn in K; lia). reflexivity.
    - cbn [length] in K. destruct (columnOf w).
      + unfold put. destruct (Nat.ltb_spec k (length perm)) as [Q|Q]; [|reflexivity]. rewrite IH; [reflexivity| |lia].
        rewrite app_length, firstn_length. cbn [length]. rewrite skipn_length. lia.
      + apply IH; [exact P|lia]. }
  rewrite G; [reflexivity|reflexivity|exact H].
Qed.
(** C121 fails with a row that has no time of its own (ct is not the first title and the row is short): it takes that of the row before. *)
Theorem short_row_refuted stof stoi f head r1 r2 k1 t1 k2 a1 x a2 : lined f [head; r1; r2] -> spaced head [title Kind; title Ct] -> spaced r1 [k1; t1] -> spaced r2 [k2] ->
  stoi k1 = Some a1 -> stof t1 = Some x -> stoi k2 = Some a2 -> readfile stof stoi f = Some [(x, [a1; 0; 0; 0]%Z); (x, [a2; 0; 0; 0]%Z)].
Proof.
  intros LF SH S1 S2 A X B. unfold readfile. rewrite (lined_getlines f _ LF). cbn [hd tl]. rewrite (spaced_split _ _ SH). cbn [readheader].
  rewrite !columnOf_title. unfold put. cbn [cIdx length Nat.ltb Nat.leb firstn skipn app].
  cbn [readlines]. unfold readmeasline2. rewrite (spaced_split _ _ S1), (spaced_split _ _ S2). cbn [firstn readwords nth_error]. rewrite A, X. unfold put.
  cbn [rInt rCt length Nat.ltb Nat.leb firstn skipn app readwords nth_error]. rewrite B. unfold put. cbn [rInt rCt length Nat.ltb Nat.leb firstn skipn app]. reflexivity.
Qed.
(** C121 fails with titles none of which is known: they are taken for numbers, and the program ends if they are not. *)
Theorem all_unknown_refuted stof stoi f l w ws ls : lined f (l :: ls) -> spaced l (w :: ws) -> Forall (fun w => forall c, w <> title c) (w :: ws) -> stof w = None ->
  readfile stof stoi f = None.
Proof.
  intros LF SP UN T. unfold readfile. rewrite (lined_getlines f _ LF). cbn [hd]. rewrite (spaced_split _ _ SP), header_unknown by exact UN.
  cbn [readlines]. unfold readmeasline2. rewrite (spaced_split _ _ SP). cbn [firstn readwords nth_error]. rewrite T. reflexivity.
Qed.

(** *** A case *)
Definition digit (w : text) : option Z :=
  match w with [c] => let n := (Z.of_nat (nat_of_ascii c) - 48)%Z in if ((0 <=? n) && (n <? 10))%Z then Some n else None | _ => None end.
Definition digitR (w : text) : option R := option_map IZR (digit w).
Definition aFile : text := list_ascii_of_string "map ct	meas
 4 1 7
2  3 5
".
Example file_case : readfile digitR digit aFile = Some [(1%R, [7; 4; 0; 0]%Z); (3%R, [5; 2; 0; 0]%Z)].
Proof. reflexivity. Qed.
Definition aHead : text := list_ascii_of_string "map ct	meas".
Example head_case : spaced aHead (map title [Maps; Ct; Kind]) /\ NoDup [Maps; Ct; Kind] /\ In Ct [Maps; Ct; Kind].
Proof.
  split; [|split; [repeat constructor; cbn; intuition discriminate|cbn; tauto]].
  assert (BW : forall w, forallb (fun c => negb (isspace c)) w = true -> w <> [] -> aWord w).
  { intros w H N. split; [exact N|]. rewrite forallb_forall in H. apply Forall_forall. intros c I B. specialize (H c I). rewrite (proj2 (isspace_blank c) B) in H. discriminate H. }
  change aHead with ([] ++ title Maps ++ " "%char :: ([] ++ title Ct ++ "009"%char :: ([] ++ title Kind))).
  apply sp_more; [constructor|apply BW; [reflexivity|discriminate]|apply isspace_blank; reflexivity|].
  apply sp_more; [constructor|apply BW; [reflexivity|discriminate]|apply isspace_blank; reflexivity|].
  apply (sp_last [] (title Kind)); [constructor|apply BW; [reflexivity|discriminate]].
Qed.
Example short_case : readfile digitR digit (list_ascii_of_string "meas ct
7 3
5
") = Some [(3%R, [7; 0; 0; 0]%Z); (3%R, [5; 0; 0; 0]%Z)].
Proof. reflexivity. Qed.
Example unknown_case : readfile digitR digit (list_ascii_of_string "ct step meas
1 2 7") = Some [(1%R, [2; 0; 0; 0]%Z)].
Proof. reflexivity. Qed.
Example many_case : readfile digitR digit (list_ascii_of_string "ct a b c d meas
1 2 3 4 5 6") = None.
Proof. reflexivity. Qed.

Print Assumptions titled_file.
Print Assumptions says_one.
Print Assumptions untitled_file.
Print Assumptions blank_line_harmless.
Print Assumptions blank_first_refuted.
Print Assumptions unknown_title_refuted.
Print Assumptions many_titles_refuted.
Print Assumptions short_row_refuted.
Print Assumptions all_unknown_refuted.
