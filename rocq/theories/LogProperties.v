(** C20, C51: log messages. *)
From Coq Require Import List Arith ZArith Bool Lia.
From Verif Require Import LogModel.
Import ListNotations.

(** ** C20: packing *)
Lemma MSG_SIZE_eq : MSG_SIZE = 2048. Proof. reflexivity. Qed.
Lemma basePack_eq : basePack = 40. Proof. reflexivity. Qed.
Local Opaque MSG_SIZE basePack.

Section Words.
Local Open Scope Z_scope.
Lemma enc64_length : forall z, length (enc64 z) = 8%nat. Proof. intros; reflexivity. Qed.
Lemma div256 : forall z k, 0 <= k -> z / 256 ^ (k + 1) = (z / 256 ^ k) / 256.
Proof. intros z k Hk. rewrite Z.pow_add_r by lia. rewrite <- Z.div_div by (try apply Z.pow_nonzero; lia). reflexivity. Qed.
Lemma dec_enc : forall z, - 2 ^ 63 <= z < 2 ^ 63 -> dec64 (enc64 z) = z.
Proof.
  intros z Hz. unfold dec64, enc64. cbn [seq map fold_right].
  change (256 ^ Z.of_nat 0) with 1.
  set (z0 := z / 1). assert (E0 : z0 = z) by apply Z.div_1_r.
  assert (E : forall k, (k < 8)%nat -> z / 256 ^ Z.of_nat (S k) = z / 256 ^ Z.of_nat k / 256).
  { intros k _. rewrite Nat2Z.inj_succ. apply div256; lia. }
  rewrite (E 6%nat), (E 5%nat), (E 4%nat), (E 3%nat), (E 2%nat), (E 1%nat), (E 0%nat) by lia.
  change (256 ^ Z.of_nat 0) with 1. fold z0. rewrite E0. clear E z0 E0.
  set (q1 := z / 256). set (q2 := q1 / 256). set (q3 := q2 / 256). set (q4 := q3 / 256).
  set (q5 := q4 / 256). set (q6 := q5 / 256). set (q7 := q6 / 256).
  assert (D : forall a, a = 256 * (a / 256) + a mod 256) by (intros; apply Z.div_mod; lia).
  pose proof (D z) as D0. fold q1 in D0. pose proof (D q1) as D1. fold q2 in D1. pose proof (D q2) as D2. fold q3 in D2.
  pose proof (D q3) as D3. fold q4 in D3. pose proof (D q4) as D4. fold q5 in D4. pose proof (D q5) as D5. fold q6 in D5.
  pose proof (D q6) as D6. fold q7 in D6. pose proof (D q7) as D7. set (q8 := q7 / 256) in D7.
  assert (S : z mod 256 + 256 * (q1 mod 256 + 256 * (q2 mod 256 + 256 * (q3 mod 256 + 256 * (q4 mod 256 +
    256 * (q5 mod 256 + 256 * (q6 mod 256 + 256 * (q7 mod 256 + 256 * 0))))))) = z - 2 ^ 64 * q8) by lia.
  rewrite S.
  assert (B : forall a, 0 <= a mod 256 < 256) by (intros; apply Z.mod_pos_bound; lia).
  pose proof (B z); pose proof (B q1); pose proof (B q2); pose proof (B q3); pose proof (B q4); pose proof (B q5);
  pose proof (B q6); pose proof (B q7).
  assert (Q : q8 = 0 \/ q8 = -1) by lia.
  destruct Q as [-> | ->]; destruct (Z.ltb_spec (z - 2 ^ 64 * 0) (2 ^ 63)); destruct (Z.ltb_spec (z - 2 ^ 64 * (-1)) (2 ^ 63)); lia.
Qed.
Lemma to_int_id : forall z, - 2 ^ 31 <= z < 2 ^ 31 -> to_int z = z.
Proof. intros z Hz. unfold to_int. rewrite Z.mod_small by lia. lia. Qed.
End Words.

Lemma word_at : forall h1 z rest k, length h1 = 8 * k -> (- 2 ^ 63 <= z < 2 ^ 63)%Z -> word (h1 ++ enc64 z ++ rest) k = z.
Proof.
  intros h1 z rest k Hl Hz. unfold word.
  rewrite skipn_app, Hl, Nat.sub_diag. rewrite skipn_all2 by lia. cbn [app skipn].
  rewrite firstn_app, enc64_length, Nat.sub_diag, firstn_O, app_nil_r.
  rewrite firstn_all2 by (rewrite enc64_length; lia). now apply dec_enc.
Qed.

Lemma newMsg_text : forall lv th rk now text junk, length text <= 2006 ->
  newMsg lv th rk now text junk = Defined (Msg th text (levelCode lv) rk now).
Proof.
  intros lv th rk now text junk Hl. unfold newMsg, buffer. rewrite MSG_SIZE_eq, basePack_eq.
  change (2048 - 40) with 2008. change (2048 - 2 - 40) with 2006.
  rewrite (proj2 (Nat.leb_le _ _)) by lia.
  rewrite (firstn_all2 (n := 2006)) by lia.
  rewrite firstn_app, firstn_all, Nat.sub_diag, firstn_O. now rewrite app_nil_r.
Qed.

(** A message of at most 2006 characters, made, packed into any buffer, sent and
    unpacked from any receiving buffer: same thread, level, rank and text, and the time
    to the microsecond. Threads and ranks are ints; the time is one a 64-bit clock of
    nanoseconds can show. *)
Theorem message_survives : forall lv thread rank now text junk old old',
  length text <= 2006 -> length old = 2048 -> length old' = 2048 ->
  (- 2 ^ 31 <= thread < 2 ^ 31)%Z -> (- 2 ^ 31 <= rank < 2 ^ 31)%Z -> (0 <= now < 2 ^ 63)%Z ->
  exists m packed m', newMsg lv thread rank now text junk = Defined m /\
    pack m old = Defined packed /\ length packed = 2048 /\
    unpack (transmit m packed old') = Defined m' /\
    tIdx m' = thread /\ data m' = text /\ logLevel m' = levelCode lv /\ mRnk m' = rank /\
    (stamp m' = now / 1000 * 1000)%Z.
Proof.
  intros lv thread rank now text junk old old' Ht Ho Ho' Hth Hrk Hnow.
  exists (Msg thread text (levelCode lv) rank now). rewrite newMsg_text by assumption.
  unfold pack. cbn [data stamp tIdx logLevel mRnk]. rewrite MSG_SIZE_eq, basePack_eq.
  rewrite (proj2 (Nat.leb_le (40 + length text) 2048)) by lia.
  set (n := Z.of_nat (length text)).
  set (head := enc64 (now ÷ 1000) ++ enc64 thread ++ enc64 (levelCode lv) ++ enc64 n ++ enc64 rank).
  assert (Hh : length head = 40) by (unfold head; rewrite !app_length, !enc64_length; reflexivity).
  assert (Hp : length (head ++ text ++ skipn (40 + length text) old) = 2048).
  { rewrite !app_length, skipn_length, Hh. lia. }
  eexists _, _. split; [ reflexivity | ]. split; [ reflexivity | ]. split; [ exact Hp | ].
  assert (Hq : (now ÷ 1000 = now / 1000)%Z) by (apply Z.quot_div_nonneg; lia).
  assert (Hqb : (0 <= now / 1000 < 2 ^ 63)%Z).
  { split; [ apply Z.div_pos; lia | ]. apply Z.div_lt_upper_bound; lia. }
  assert (Tr : transmit (Msg thread text (levelCode lv) rank now) (head ++ text ++ skipn (40 + length text) old) old'
     = head ++ text ++ skipn (40 + length text) old').
  { unfold transmit. rewrite basePack_eq. cbn [data]. rewrite firstn_app, Hh.
    rewrite firstn_all2 by lia. replace (40 + length text - 40) with (length text) by lia.
    rewrite firstn_app, firstn_all, Nat.sub_diag, firstn_O, app_nil_r. now rewrite <- app_assoc. }
  rewrite Tr. clear Tr.
  assert (W0 : forall r, word (head ++ r) 0 = (now / 1000)%Z).
  { intros r. unfold head. rewrite <- !app_assoc, Hq. apply (word_at []); [ reflexivity | lia ]. }
  assert (W1 : forall r, word (head ++ r) 1 = thread).
  { intros r. unfold head. rewrite <- !app_assoc. apply word_at; [ reflexivity | lia ]. }
  assert (W2 : forall r, word (head ++ r) 2 = levelCode lv).
  { intros r. unfold head. rewrite <- !app_assoc. rewrite (app_assoc (enc64 (now ÷ 1000))).
    apply word_at; [ reflexivity | destruct lv; cbn; lia ]. }
  assert (W3 : forall r, word (head ++ r) 3 = n).
  { intros r. unfold head. rewrite <- !app_assoc. rewrite (app_assoc (enc64 (now ÷ 1000))), (app_assoc (enc64 (now ÷ 1000) ++ _)).
    apply word_at; [ reflexivity | unfold n; lia ]. }
  assert (W4 : forall r, word (head ++ r) 4 = rank).
  { intros r. unfold head. rewrite <- !app_assoc.
    rewrite (app_assoc (enc64 (now ÷ 1000))), (app_assoc (enc64 (now ÷ 1000) ++ _)), (app_assoc ((enc64 (now ÷ 1000) ++ _) ++ _)).
    apply word_at; [ reflexivity | lia ]. }
  unfold unpack. rewrite W0, W1, W2, W3, W4, basePack_eq.
  rewrite (to_int_id n) by (unfold n; lia).
  rewrite (to_int_id thread), (to_int_id rank) by lia. rewrite (to_int_id (levelCode lv)) by (destruct lv; cbn; lia).
  replace (Z.to_nat n) with (length text) by (unfold n; lia).
  rewrite !app_length, skipn_length, Hh.
  rewrite (proj2 (Z.ltb_ge n 0)) by (unfold n; lia).
  rewrite (proj2 (Nat.ltb_ge _ _)) by lia. cbn [orb].
  split; [ reflexivity | ]. cbn [tIdx data logLevel mRnk stamp].
  rewrite skipn_app, Hh, Nat.sub_diag. rewrite skipn_all2 by lia. cbn [app skipn].
  rewrite firstn_app, firstn_all, Nat.sub_diag, firstn_O, app_nil_r. auto.
Qed.

(** A longer text is lost or read from outside the buffer: from 2009 characters on the
    constructor reads past its end... *)
Theorem long_text_refuted : forall lv thread rank now text junk, 2009 <= length text ->
  newMsg lv thread rank now text junk = Outside.
Proof.
  intros lv thread rank now text junk H. unfold newMsg. rewrite MSG_SIZE_eq, basePack_eq.
  rewrite (proj2 (Nat.leb_gt _ _)) by lia. reflexivity.
Qed.
Lemma cut_zero : forall (t r : list byte) n k, n < k -> n <= length t -> nth n (firstn k (firstn n t ++ 0%Z :: r)) 0%Z = 0%Z.
Proof.
  intros t r n. revert t. induction n as [ | n IH ]; intros t k Hk Ht.
  - destruct k; [ lia | reflexivity ].
  - destruct k; [ lia | ]. destruct t as [ | x t ]; cbn in Ht; [ lia | ].
    cbn [firstn app nth]. apply IH; lia.
Qed.
(** ... and with 2007 or 2008 the text is not the one given, unless it held a zero there. *)
Theorem edge_text_refuted : forall lv thread rank now (text junk : list byte) m, length text = 2007 \/ length text = 2008 ->
  nth 2006 text 0%Z <> 0%Z ->
  newMsg lv thread rank now text junk = Defined m -> data m <> text.
Proof.
  intros lv thread rank now text junk m Hl Hn H.
  assert (E : newMsg lv thread rank now text junk =
    Defined (Msg thread (firstn (length text) (firstn 2006 text ++ [0%Z] ++
      skipn (length (firstn 2006 text) + 1) (firstn 2008 (junk ++ repeat 0%Z 2008)))) (levelCode lv) rank now)).
  { unfold newMsg, buffer. rewrite MSG_SIZE_eq, basePack_eq.
    change (2048 - 40) with 2008. change (2048 - 2 - 40) with 2006.
    rewrite (proj2 (Nat.leb_le _ _)) by lia. reflexivity. }
  rewrite E in H. clear E. intros C. apply Hn.
  pose proof (f_equal (fun d => match d with Defined m => data m | Outside => [] end) H) as D.
  cbv beta iota delta [data] in D. fold (data m) in D. rewrite C in D.
  rewrite <- D. apply cut_zero; lia.
Qed.

Example message_survives_ex :
  unpack (transmit (Msg 3 [72; 105] (levelCode LOG_ERROR) 7 5000123) 
    (match pack (Msg 3 [72; 105] (levelCode LOG_ERROR) 7 5000123) (repeat 1 2048) with Defined p => p | Outside => [] end)
    (repeat 2 2048))%Z
  = Defined (Msg 3 [72; 105] 4194304 7 5000000)%Z.
Proof. vm_compute. reflexivity. Qed.
Example long_text_ex : newMsg LOG_MSG 0 0 0 (repeat 65%Z 3000) [] = Outside /\
  (match newMsg LOG_MSG 0 0 0 (repeat 65%Z 2007) [] with Defined m => nth 2006 (data m) 1%Z | Outside => 1%Z end) = 0%Z.
Proof. vm_compute. split; reflexivity. Qed.

(** ** C51: exactly once *)

(** Errors: with no send pending, an error sends every waiting message and its own two,
    once, in order, and leaves nothing waiting. Missing: pending sends (refuted below). *)
Lemma sendAll_none : forall (M : Type) (ms : list M) sent, sendAll ms None sent = sent ++ ms.
Proof.
  intros M. induction ms as [ | m ms IH ]; intros sent; cbn; [ now rewrite app_nil_r | ].
  rewrite IH. now rewrite <- app_assoc.
Qed.
Lemma push_msgs : forall (M : Type) (s : stack) (m : M), map fst (slots (push s m)) = map fst (slots s) ++ [m].
Proof.
  intros M s m. unfold push. destruct (_ =? _); cbn [slots]; rewrite map_app; [ | reflexivity ].
  rewrite map_map. cbn. reflexivity.
Qed.
Lemma push_reqs : forall (M : Type) (s : stack) (m : M), Forall (fun x => snd x = None) (slots s) ->
  Forall (fun x => snd x = None) (slots (push s m)).
Proof.
  intros M s m H. unfold push. destruct (_ =? _); cbn [slots]; apply Forall_app; split;
    try (constructor; [ reflexivity | constructor ]); [ | exact H ].
  apply Forall_map, Forall_forall. reflexivity.
Qed.
Theorem error_flushes_partial : forall (M : Type) (s : stack) (sent : list M) m1 m2,
  (forall x, In x (slots s) -> snd x = None) ->
  let '(s', sent') := logError m1 m2 (s, sent) in
  slots s' = [] /\ sent' = sent ++ map fst (slots s) ++ [m1; m2].
Proof.
  intros M s sent m1 m2 H. unfold logError. cbn [fst snd slots]. split; [ reflexivity | ].
  rewrite <- Forall_forall in H. apply push_reqs with (m := m1) in H. apply push_reqs with (m := m2) in H.
  assert (E : match slots (push (push s m1) m2) with (_, r) :: _ => r | [] => None end = None).
  { destruct H as [ | [x r] l E _ ]; [ reflexivity | exact E ]. }
  rewrite E, sendAll_none, !push_msgs, <- !app_assoc. reflexivity.
Qed.

Fixpoint logAll (l : list ((nat -> bool) * nat)) (s : stack * list nat) : stack * list nat :=
  match l with [] => s | (done, m) :: l => logAll l (logMessage done m s) end.

(** The second message on a rank makes the vector grow, and the first is sent again,
    whatever MPI does. *)
Theorem message_sent_twice_refuted : forall (M : Type) (a b : M) done1 done2,
  snd (logMessage done2 b (logMessage done1 a noMessages)) = [a; a; b].
Proof. intros. vm_compute. reflexivity. Qed.

(** And a message can be lost: by the fourth call MPI has completed the latest sends of
    messages 1 and 3 but not that of 2. Message 4 leaves the stack without having been
    sent. *)
Theorem message_lost_refuted :
  let never := fun _ : nat => false in
  let some := fun k : nat => (k =? 3) || (k =? 5) in
  let '(s, sent) := logAll [(never, 1); (never, 2); (never, 3); (some, 4)] noMessages in
  sent = [1; 1; 2; 1; 2; 3; 2] /\ ~ In 4 (map fst (slots s)) /\ ~ In 4 sent.
Proof.
  vm_compute. split; [ reflexivity | ].
  split; intros H; repeat (destruct H as [H | H]; [ discriminate | ]); exact H.
Qed.

Example error_flushes_ex : snd (logError 3 4 (Stack [(1, None); (2, None)] 2, [7])) = [7; 1; 2; 3; 4].
Proof. reflexivity. Qed.

Print Assumptions message_survives.
Print Assumptions long_text_refuted.
Print Assumptions edge_text_refuted.
Print Assumptions error_flushes_partial.
Print Assumptions message_sent_twice_refuted.
Print Assumptions message_lost_refuted.
