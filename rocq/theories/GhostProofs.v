(** Proofs about the ghost exchange. *)
From Coq Require Import List Arith Lia Bool Permutation.
From Verif Require Import GhostModel GhostSpec.
Import ListNotations.

Lemma bloc_eqb_eq a b : bloc_eqb a b = true <-> a = b.
Proof.
  destruct a, b; unfold bloc_eqb; simpl. rewrite andb_true_iff, !Nat.eqb_eq.
  split; [intros [-> ->]; auto|intros E; inversion E; auto].
Qed.
Lemma bloc_dec (a b : bloc) : {a = b} + {a <> b}.
Proof.
  destruct (bloc_eqb a b) eqn:E; [left; apply bloc_eqb_eq; auto|right; intros ->].
  rewrite (proj2 (bloc_eqb_eq b b) eq_refl) in E. discriminate.
Qed.
Lemma gupd_same {A} (m : gmem A) l v : gupd m l v l = v.
Proof. unfold gupd. now rewrite (proj2 (bloc_eqb_eq l l) eq_refl). Qed.
Lemma gupd_other {A} (m : gmem A) l l' v : l <> l' -> gupd m l v l' = m l'.
Proof.
  intros H; unfold gupd. destruct (bloc_eqb l l') eqn:E; auto.
  apply bloc_eqb_eq in E. contradiction.
Qed.

(** Copies whose sources are never destinations. *)
Lemma gcopies_spec {A} (l : list (bloc * bloc)) (m : gmem A) :
  (forall d s d' s', In (d, s) l -> In (d', s') l -> s <> d') ->
  (forall d s s', In (d, s) l -> In (d, s') l -> s = s') ->
  (forall d s, In (d, s) l -> gcopies l m d = m s) /\
  (forall d, (forall s, ~ In (d, s) l) -> gcopies l m d = m d).
Proof.
  induction l as [|[d0 s0] l IH] using rev_ind; intros Hsep Hfun.
  - simpl; split; intros; tauto.
  - unfold gcopies in *. rewrite fold_left_app; simpl.
    destruct IH as [IH1 IH2].
    + intros. eapply Hsep; apply in_or_app; left; eauto.
    + intros. eapply Hfun; apply in_or_app; left; eauto.
    + assert (Hs0 : fold_left (fun m p => gupd m (fst p) (m (snd p))) l m s0 = m s0).
      { apply IH2. intros s Hin.
        apply (Hsep d0 s0 s0 s); auto; apply in_or_app; simpl; auto. }
      split.
      * intros d s Hin. destruct (bloc_dec d0 d) as [->|Hne].
        -- rewrite gupd_same, Hs0. f_equal.
           apply (Hfun d); auto. apply in_or_app; simpl; auto.
        -- rewrite gupd_other by auto. apply IH1.
           apply in_app_or in Hin. destruct Hin as [?|[E|[]]]; auto.
           inversion E; contradiction.
      * intros d Hd. rewrite gupd_other.
        -- apply IH2. intros s Hin. apply (Hd s). apply in_or_app; auto.
        -- intros ->. apply (Hd s0). apply in_or_app; simpl; auto.
Qed.

(** ** Matching *)

Section Match.
Variables (n : nat) (b : bufs).
Hypothesis Hn : 0 < n.

Lemma fwd_lt r : fwdNeig n r < n.
Proof. apply Nat.mod_upper_bound; lia. Qed.
Lemma bck_lt r : bckNeig n r < n.
Proof. apply Nat.mod_upper_bound; lia. Qed.
Lemma bck_fwd r : r < n -> bckNeig n (fwdNeig n r) = r.
Proof.
  intros H. unfold bckNeig, fwdNeig. destruct (Nat.eq_dec r (n - 1)) as [->|].
  - replace (n - 1 + 1) with n by lia. rewrite Nat.mod_same by lia. apply Nat.mod_small; lia.
  - rewrite (Nat.mod_small (r + 1)) by lia.
    replace (r + 1 + n - 1) with (r + 1 * n) by lia. rewrite Nat.mod_add by lia. apply Nat.mod_small; lia.
Qed.
Lemma fwd_bck r : r < n -> fwdNeig n (bckNeig n r) = r.
Proof.
  intros H. unfold bckNeig, fwdNeig. destruct (Nat.eq_dec r 0) as [->|].
  - rewrite (Nat.mod_small (0 + n - 1)) by lia. replace (0 + n - 1 + 1) with n by lia. apply Nat.mod_same; lia.
  - replace (r + n - 1) with (r - 1 + 1 * n) by lia. rewrite Nat.mod_add by lia.
    rewrite (Nat.mod_small (r - 1)) by lia. apply Nat.mod_small_iff in H; [|lia].
    replace (r - 1 + 1) with r by lia. auto.
Qed.

(** Unmatched messages to rank r on its two channels. *)
Definition qF (r : nat) (ch : list (nat * nat)) :=
  map (fun c : nat * nat => Msg r (2 * fwdNeig n r + 1) (sB b + fst c) (snd c)) ch.
Definition qB (r : nat) (ch : list (nat * nat)) :=
  map (fun c : nat * nat => Msg r (2 * bckNeig n r) (sF b + fst c) (snd c)) ch.

Lemma chanF r ch : r < n ->
  channel (fun p => rank_sends n p b ch) r (fwdNeig n r) (2 * fwdNeig n r + 1) = qF r ch.
Proof.
  intros Hr. unfold channel, rank_sends, qF. rewrite bck_fwd by auto. induction ch as [|c ch IH]; [reflexivity|].
  cbn [flat_map app filter peer tag].
  replace (2 * fwdNeig n r =? 2 * fwdNeig n r + 1) with false by (symmetry; apply Nat.eqb_neq; lia).
  rewrite andb_false_r, !Nat.eqb_refl. cbn [andb map]. f_equal. apply IH.
Qed.
Lemma chanB r ch : r < n ->
  channel (fun p => rank_sends n p b ch) r (bckNeig n r) (2 * bckNeig n r) = qB r ch.
Proof.
  intros Hr. unfold channel, rank_sends, qB. rewrite fwd_bck by auto. induction ch as [|c ch IH]; [reflexivity|].
  cbn [flat_map app filter peer tag].
  replace (2 * bckNeig n r + 1 =? 2 * bckNeig n r) with false by (symmetry; apply Nat.eqb_neq; lia).
  rewrite andb_false_r, !Nat.eqb_refl. cbn [andb map]. f_equal. apply IH.
Qed.

Definition transfers (r : nat) (ch : list (nat * nat)) : list (nat * nat * nat * nat) :=
  flat_map (fun c : nat * nat =>
    [(fwdNeig n r, sB b + fst c, rF b + fst c, snd c);
     (bckNeig n r, sF b + fst c, rB b + fst c, snd c)]) ch.

Lemma match_ok r ch : forall chan, 
  chan (fwdNeig n r) (2 * fwdNeig n r + 1) = qF r ch ->
  chan (bckNeig n r) (2 * bckNeig n r) = qB r ch ->
  match_recvs chan (rank_recvs n r b ch) = Some (transfers r ch).
Proof.
  induction ch as [|c ch IH]; intros chan HF HB; [reflexivity|].
  cbn [rank_recvs flat_map app match_recvs peer tag len off].
  rewrite HF. cbn [qF map len off]. rewrite Nat.eqb_refl.
  replace (2 * bckNeig n r =? 2 * fwdNeig n r + 1) with false by (symmetry; apply Nat.eqb_neq; lia).
  rewrite andb_false_r. rewrite HB. cbn [qB map len off]. rewrite Nat.eqb_refl.
  erewrite IH; [reflexivity| |].
  - replace (2 * fwdNeig n r + 1 =? 2 * bckNeig n r) with false by (symmetry; apply Nat.eqb_neq; lia).
    rewrite andb_false_r. now rewrite !Nat.eqb_refl.
  - now rewrite !Nat.eqb_refl.
Qed.

Lemma all_copies_ok ch rs : (forall r, In r rs -> r < n) ->
  all_copies n b ch rs = Some (flat_map (fun r => rank_copies r (transfers r ch)) rs).
Proof.
  induction rs as [|r rs IH]; intros H; [reflexivity|].
  cbn [all_copies]. rewrite match_ok.
  - rewrite IH by (intros; apply H; simpl; auto). reflexivity.
  - apply chanF. apply H; simpl; auto.
  - apply chanB. apply H; simpl; auto.
Qed.
End Match.

(** ** Chunks cover the message exactly *)

Definition covers (chs : list (nat * nat)) (bytes : nat) : Prop :=
  forall i, i < bytes <-> exists c, In c chs /\ fst c <= i < fst c + snd c.

Lemma covers_seq C N last : 0 < C -> last <= C -> 
  covers (map (fun k => (k * C, if k =? N then last else C)) (seq 0 (N + 1))) (N * C + last).
Proof.
  intros HC Hl i. split.
  - intros Hi. pose proof (Nat.div_mod i C ltac:(lia)) as E.
    pose proof (Nat.mod_upper_bound i C ltac:(lia)) as B.
    destruct (le_lt_dec (N * C) i) as [H|H].
    + exists (N * C, last). split.
      * apply in_map_iff. exists N. rewrite Nat.eqb_refl, in_seq. split; auto. lia.
      * simpl. lia.
    + assert (i / C < N) by (apply Nat.div_lt_upper_bound; lia).
      exists ((i / C) * C, C). split.
      * apply in_map_iff. exists (i / C). rewrite in_seq.
        replace (i / C =? N) with false by (symmetry; apply Nat.eqb_neq; lia).
        split; [auto|]. split; [apply Nat.le_0_l|lia].
      * simpl. lia.
  - intros (c & Hc & Hi). apply in_map_iff in Hc. destruct Hc as (k & <- & Hk).
    apply in_seq in Hk. simpl in Hi. destruct (k =? N) eqn:E.
    + apply Nat.eqb_eq in E. subst. lia.
    + apply Nat.eqb_neq in E. assert ((k + 1) * C <= N * C) by (apply Nat.mul_le_mono_r; lia). lia.
Qed.

Lemma chunks1_covers C bytes : 0 < C -> covers (chunks1 C bytes) bytes.
Proof.
  intros HC. unfold chunks1. replace (1 + bytes / C - 1) with (bytes / C) by lia.
  rewrite (Nat.add_comm 1).
  pose proof (Nat.div_mod bytes C ltac:(lia)) as E.
  pose proof (Nat.mod_upper_bound bytes C ltac:(lia)) as B.
  replace (bytes - bytes / C * C) with (bytes mod C) by lia.
  pose proof (covers_seq C (bytes / C) (bytes mod C) HC ltac:(lia)) as K.
  replace (bytes / C * C + bytes mod C) with bytes in K by lia. exact K.
Qed.

Lemma chunks2_covers C bytes : 0 < C -> covers (chunks2 C bytes) bytes.
Proof.
  intros HC. unfold chunks2.
  pose proof (Nat.div_mod bytes C ltac:(lia)) as E.
  pose proof (Nat.mod_upper_bound bytes C ltac:(lia)) as B.
  destruct (bytes mod C =? 0) eqn:Z.
  - apply Nat.eqb_eq in Z. destruct (bytes / C) as [|N] eqn:EN.
    + assert (bytes = 0) by lia. subst. intros i. simpl. split; [lia|intros (? & [] & _)].
    + replace (S N - 1) with N by lia.
      assert (E' : bytes - N * C = C) by lia. rewrite E'.
      replace (0 <? C) with true by (symmetry; apply Nat.ltb_lt; lia).
      replace bytes with (N * C + C) by lia.
      replace (S N) with (N + 1) by lia.
      pose proof (covers_seq C N C HC ltac:(lia)) as K.
      erewrite map_ext; [exact K|]. intros k. simpl. rewrite andb_true_r. reflexivity.
  - apply Nat.eqb_neq in Z. replace (1 + bytes / C - 1) with (bytes / C) by lia.
    rewrite (Nat.add_comm 1).
    replace (bytes - bytes / C * C) with (bytes mod C) by lia.
    replace (0 <? bytes mod C) with true by (symmetry; apply Nat.ltb_lt; lia).
    pose proof (covers_seq C (bytes / C) (bytes mod C) HC ltac:(lia)) as K.
    replace (bytes / C * C + bytes mod C) with bytes in K by lia.
    erewrite map_ext; [exact K|]. intros k. simpl. rewrite andb_true_r. reflexivity.
Qed.

(** ** The copies of an exchange *)

Lemma in_copies n b ch bytes d s : covers ch bytes ->
  In (d, s) (flat_map (fun r => rank_copies r (transfers n b r ch)) (seq 0 n)) <->
  exists r i, r < n /\ i < bytes /\
    ((d = (r, rF b + i) /\ s = (fwdNeig n r, sB b + i)) \/ (d = (r, rB b + i) /\ s = (bckNeig n r, sF b + i))).
Proof.
  intros Hc. rewrite in_flat_map. split.
  - intros (r & Hr & H). apply in_seq in Hr. unfold rank_copies in H.
    apply in_flat_map in H. destruct H as ([[[src so] dd] l] & Ht & H).
    apply in_map_iff in H. destruct H as (i & E & Hi). inversion E; subst. apply in_seq in Hi.
    unfold transfers in Ht. apply in_flat_map in Ht. destruct Ht as ([co cl] & Hin & Ht).
    exists r, (co + i). split; [lia|]. split; [apply Hc; exists (co, cl); split; auto; simpl|].
    + cbn [In fst snd] in Ht. destruct Ht as [Ht|[Ht|[]]]; inversion Ht; subst; lia.
    + cbn [In fst snd] in Ht. destruct Ht as [Ht|[Ht|[]]]; inversion Ht; subst; [left|right]; split; f_equal; lia.
  - intros (r & i & Hr & Hi & H). apply Hc in Hi. destruct Hi as ([co cl] & Hin & Hi). simpl in Hi.
    exists r. split; [apply in_seq; lia|]. unfold rank_copies. apply in_flat_map.
    destruct H as [[-> ->]|[-> ->]].
    + exists (fwdNeig n r, sB b + co, rF b + co, cl). split.
      * unfold transfers. apply in_flat_map. exists (co, cl). simpl; auto.
      * apply in_map_iff. exists (i - co). split; [f_equal; f_equal; lia|apply in_seq; lia].
    + exists (bckNeig n r, sF b + co, rB b + co, cl). split.
      * unfold transfers. apply in_flat_map. exists (co, cl). simpl; auto.
      * apply in_map_iff. exists (i - co). split; [f_equal; f_equal; lia|apply in_seq; lia].
Qed.

Lemma fwd_if n r : r < n -> fwdNeig n r = if r =? n - 1 then 0 else r + 1.
Proof.
  intros. unfold fwdNeig. destruct (r =? n - 1) eqn:E.
  - apply Nat.eqb_eq in E. subst. replace (n - 1 + 1) with n by lia. apply Nat.mod_same; lia.
  - apply Nat.eqb_neq in E. apply Nat.mod_small; lia.
Qed.
Lemma bck_if n r : r < n -> bckNeig n r = if r =? 0 then n - 1 else r - 1.
Proof.
  intros. unfold bckNeig. destruct (r =? 0) eqn:E.
  - apply Nat.eqb_eq in E. subst. apply Nat.mod_small; lia.
  - apply Nat.eqb_neq in E. replace (r + n - 1) with (r - 1 + 1 * n) by lia.
    rewrite Nat.mod_add by lia. apply Nat.mod_small; lia.
Qed.

Lemma split_slice sl k i : 0 < sl -> i < k * sl -> i / sl < k /\ i mod sl < sl /\ i = i / sl * sl + i mod sl.
Proof.
  intros Hs Hi. pose proof (Nat.div_mod i sl ltac:(lia)). pose proof (Nat.mod_upper_bound i sl ltac:(lia)).
  repeat split; auto; try lia. apply Nat.div_lt_upper_bound; lia.
Qed.

Lemma exchange_ok {A} N n sl Ng Lz k ch l l' (m : gmem A) :
  0 < n -> k <= Ng -> k <= Lz -> covers ch (k * sl) ->
  exchange N n (m_bufs sl Ng Lz k) ch = Some l -> Permutation l' l ->
  ghosts_refreshed n sl Ng Lz k m (gcopies l' m).
Proof.
  intros Hn Hk HL Hc Hx HP. unfold exchange in Hx. destruct (N <? length ch); [discriminate|].
  rewrite all_copies_ok in Hx by (auto; intros r Hr; apply in_seq in Hr; lia).
  inversion Hx; subst l; clear Hx.
  pose proof (in_copies n (m_bufs sl Ng Lz k) ch (k * sl)) as HI.
  assert (HI' : forall d s, In (d, s) l' <-> exists r i, r < n /\ i < k * sl /\
      ((d = (r, (Ng + Lz) * sl + i) /\ s = (fwdNeig n r, Ng * sl + i)) \/
       (d = (r, (Ng - k) * sl + i) /\ s = (bckNeig n r, (Ng + Lz - k) * sl + i)))).
  { intros d s. specialize (HI d s Hc). cbn [m_bufs ghost_bufs sB rF sF rB] in HI.
    rewrite <- Nat.mul_add_distr_r in HI.
    rewrite <- (Nat.mul_sub_distr_r (Ng + Lz) k) in HI. cbn [plus] in HI.
    rewrite <- HI. split; intros; [eapply Permutation_in; eauto|].
    eapply Permutation_in; [apply Permutation_sym; eauto|auto]. }
  clear HI HP Hc.
  assert (H1 : (Ng - k) * sl + k * sl = Ng * sl) by (rewrite <- Nat.mul_add_distr_r; f_equal; lia).
  assert (H2 : (Ng + Lz - k) * sl + k * sl = (Ng + Lz) * sl) by (rewrite <- Nat.mul_add_distr_r; f_equal; lia).
  assert (H3 : Ng * sl + k * sl <= (Ng + Lz) * sl) by (rewrite <- Nat.mul_add_distr_r; apply Nat.mul_le_mono_r; lia).
  assert (H4 : Ng * sl <= (Ng + Lz - k) * sl) by (apply Nat.mul_le_mono_r; lia).
  destruct (gcopies_spec l' m) as [S1 S2].
  { intros d s d' s' A1 A2. apply HI' in A1, A2.
    destruct A1 as (r & i & Hr & Hi & A1), A2 as (r' & i' & Hr' & Hi' & A2).
    intros E. destruct A1 as [[_ ->]|[_ ->]], A2 as [[-> _]|[-> _]]; inversion E as [[E1 E2]];
    clear E E1 S1 || clear E E1;
    revert E2 Hi Hi' H1 H2 H3 H4; generalize ((Ng - k) * sl) (k * sl) (Ng * sl) ((Ng + Lz) * sl) ((Ng + Lz - k) * sl); intros; lia. }
  { intros d s s' A1 A2. apply HI' in A1, A2.
    destruct A1 as (r & i & Hr & Hi & A1), A2 as (r' & i' & Hr' & Hi' & A2).
    destruct A1 as [[-> ->]|[-> ->]], A2 as [[E ->]|[E ->]]; inversion E as [[E1 E2]]; subst r'.
    - f_equal; f_equal; lia.
    - exfalso. clear E; revert E2 Hi Hi' H1 H2 H3 H4; generalize ((Ng - k) * sl) (k * sl) (Ng * sl) ((Ng + Lz) * sl) ((Ng + Lz - k) * sl); intros; lia.
    - exfalso. clear E; revert E2 Hi Hi' H1 H2 H3 H4; generalize ((Ng - k) * sl) (k * sl) (Ng * sl) ((Ng + Lz) * sl) ((Ng + Lz - k) * sl); intros; lia.
    - f_equal; f_equal; lia. }
  split.
  - intros r z i Hr Hz Hi.
    assert (Hzi : z * sl + i < k * sl).
    { assert ((z + 1) * sl <= k * sl) by (apply Nat.mul_le_mono_r; lia). lia. }
    unfold slab. rewrite <- bck_if, <- fwd_if by auto. split.
    + apply S1. apply HI'. exists r, (z * sl + i). split; [auto|split; [auto|right]].
      split; f_equal; rewrite Nat.mul_add_distr_r; apply eq_sym, Nat.add_assoc.
    + apply S1. apply HI'. exists r, (z * sl + i). split; [auto|split; [auto|left]].
      split; f_equal; rewrite Nat.mul_add_distr_r; apply eq_sym, Nat.add_assoc.
  - intros d Hd. apply S2. intros s Hs. apply HI' in Hs.
    destruct Hs as (r & i & Hr & Hi & Hs).
    destruct (Nat.eq_dec sl 0) as [->|Hsl]; [lia|].
    destruct (split_slice sl k i ltac:(lia) Hi) as (Hz & Hi2 & Ei).
    destruct (Hd r (i / sl) (i mod sl) Hr Hz Hi2) as [D1 D2]. unfold slab in D1, D2.
    destruct Hs as [[-> _]|[-> _]].
    + apply D2. f_equal. rewrite Nat.mul_add_distr_r. lia.
    + apply D1. f_equal. rewrite Nat.mul_add_distr_r. lia.
Qed.

Lemma exchange_some N n b ch : 0 < n -> length ch <= N -> exists l, exchange N n b ch = Some l.
Proof.
  intros Hn H. unfold exchange. replace (N <? length ch) with false by (symmetry; apply Nat.ltb_ge; auto).
  rewrite all_copies_ok; eauto. intros r Hr; apply in_seq in Hr; lia.
Qed.

Lemma chunks1_length C bytes : length (chunks1 C bytes) = 1 + bytes / C.
Proof. unfold chunks1. now rewrite map_length, seq_length. Qed.
Lemma chunks2_length C bytes : 0 < C -> length (chunks2 C bytes) = (bytes + C - 1) / C.
Proof.
  intros HC. unfold chunks2. rewrite map_length, seq_length.
  pose proof (Nat.div_mod bytes C ltac:(lia)) as E.
  pose proof (Nat.mod_upper_bound bytes C ltac:(lia)) as B.
  destruct (bytes mod C =? 0) eqn:Z; [apply Nat.eqb_eq in Z|apply Nat.eqb_neq in Z].
  - apply Nat.div_unique with (r := C - 1); lia.
  - apply Nat.div_unique with (r := bytes mod C - 1); lia.
Qed.
