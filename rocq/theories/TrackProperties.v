(** C36, C37, C53: the axiton tracker. *)
From Coq Require Import List Arith ZArith Bool Lia Permutation.
From Verif Require Import Base FolderModel FolderSpec FolderProofs IndexModel IndexProofs TrackModel TrackProofs.
Import ListNotations.
Ltac Zify.zify_post_hook ::= idtac.

(** A search visits every local site once, in any order. *)
Definition valid_op {A} (g : geom) (o : op A) : Prop :=
  match o with OSearch _ order => Permutation order (seq 0 (g_n3 g)) | _ => True end.
Definition history {A} (g : geom) (ops : list (op A)) : Prop := Forall (valid_op g) ops.

Lemma order_lt : forall g order, Permutation order (seq 0 (g_n3 g)) -> Forall (fun i => i < g_n3 g) order.
Proof. intros g order P. apply Forall_forall. intros i Hi. apply (Permutation_in _ P) in Hi. apply in_seq in Hi. lia. Qed.

Lemma run_inv {A} g (Hwf : wf_geom g) : forall ops (s : fstate A) t, history g ops -> inv g t ->
  inv g (snd (run g ops (s, t))) /\ grows t (snd (run g ops (s, t))).
Proof.
  induction ops as [|o ops IH]; intros s t H I; [split; [exact I|apply grows_refl]|].
  inversion H as [|? ? Ho Hops]; subst. cbn [run fold_left].
  assert (K : inv g (snd (step g (s, t) o)) /\ grows t (snd (step g (s, t) o))).
  { destruct o; cbn [step snd]; try (split; [exact I|apply grows_refl]).
    - split; [apply search_inv; [exact Hwf|apply order_lt, Ho|exact I]|apply search_fold].
    - split; [apply read_inv; assumption|apply read_grows]. }
  destruct (step g (s, t) o) as [s1 t1]. cbn [snd] in K. destruct K as [K1 K2].
  destruct (IH s1 t1 Hops K1) as [L1 L2]. split; [exact L1|]. eapply grows_trans; eassumption.
Qed.

Lemma start_inv {A} g limit : @inv A g (start limit).
Proof. unfold inv, start; cbn. repeat split; try constructor. intros [H _]. exact H. Qed.

(** ** C36 *)
(** After any history the tracked points are distinct sites of the grid, at most the limit of them,
    and every point has one pair of values for each reading since it was found. *)
Theorem tracked_list : forall A g limit ops (s : fstate A), wf_geom g -> (0 <= limit < 2 ^ 64)%Z -> history g ops ->
  let t := snd (run g ops (s, start limit)) in
  NoDup (map (@ax_idx A) (t_axi t)) /\
  (Z.of_nat (length (t_axi t)) <= limit)%Z /\
  (forall a, In a (t_axi t) -> exists x y z, site g x y z /\ ax_idx a = sitePos g x y z) /\
  (forall a, In a (t_axi t) -> ax_i0 a + length (ax_pts a) = t_index t).
Proof.
  intros A g limit ops s Hwf Hl Hh t.
  destruct (run_inv g Hwf ops s (start limit) Hh (start_inv g limit)) as [(I1 & I2 & I3 & I4 & I5) (l & n & _ & _ & _ & E & _)].
  fold t in I1, I2, I3, I4, I5, E. cbn in E. rewrite I2. split; [exact I1|]. split; [|split].
  - rewrite <- (map_length (@ax_idx A)), I2, <- E. apply I5. rewrite E. exact Hl.
  - intros a Ha. apply (site_of g Hwf). rewrite Forall_forall in I4. apply I4. rewrite <- I2. apply in_map, Ha.
  - rewrite Forall_forall in I3. exact I3.
Qed.

(** What is tracked at some time stays tracked: later the list begins with the same points, each with the
    values read before followed by new ones. *)
Theorem tracked_kept : forall A g limit ops1 ops2 (s : fstate A), wf_geom g -> history g ops1 -> history g ops2 ->
  let t1 := snd (run g ops1 (s, start limit)) in
  let t2 := snd (run g (ops1 ++ ops2) (s, start limit)) in
  exists old new, t_axi t2 = old ++ new /\
    Forall2 (fun a b => ax_idx b = ax_idx a /\ ax_i0 b = ax_i0 a /\ exists more, ax_pts b = ax_pts a ++ more) (t_axi t1) old.
Proof.
  intros A g limit ops1 ops2 s Hwf H1 H2. cbv zeta.
  assert (E0 : run g (ops1 ++ ops2) (s, start limit) = run g ops2 (run g ops1 (s, start limit))) by apply fold_left_app.
  rewrite E0. clear E0.
  destruct (run_inv g Hwf ops1 s (start limit) H1 (start_inv g limit)) as [I _].
  destruct (run g ops1 (s, start limit)) as [s1 u1]. cbn [snd] in *.
  destruct (run_inv g Hwf ops2 s1 u1 H2 I) as [_ (l & n & E & F & _)].
  exists l, n. split; [exact E|exact F].
Qed.

(** A search tracks every site that meets the criterion unless the list is full, and adds no other. *)
Theorem search_finds : forall A g crit order (s : fstate A) t, wf_geom g -> (0 <= t_limit t < 2 ^ 64)%Z ->
  Permutation order (seq 0 (g_n3 g)) ->
  let t' := search g crit order s t in
  (forall x y z, site g x y z -> crit (m_at g s x y z) (v_at g s x y z) = true ->
     In (sitePos g x y z) (t_idx t') \/ (t_limit t <= Z.of_nat (length (t_idx t')))%Z) /\
  (forall id, In id (t_idx t') -> In id (t_idx t) \/
     exists x y z, site g x y z /\ id = sitePos g x y z /\ crit (m_at g s x y z) (v_at g s x y z) = true).
Proof.
  intros A g crit order s t Hwf Hl P t'.
  assert (R : forall x y z, site g x y z -> exists i, In i order /\ m_at g s x y z = mRead g s i /\ v_at g s x y z = vRead g s i /\
    sitePos g x y z = if f_folded s then i else foldidx g i).
  { intros x y z (Hx & Hy & Hz). exists (z * g_n2 g + site_pos g (f_folded s) x y).
    unfold m_at, v_at, mRead, vRead. rewrite !Nat.add_assoc. unfold site_pos.
    split; [|split; [reflexivity|split; [reflexivity|]]].
    - apply (Permutation_in _ (Permutation_sym P)), in_seq. split; [apply Nat.le_0_l|].
      apply mult_slice; [exact Hz|]. destruct (f_folded s); [apply vector_pos_lt|apply plain_pos_lt]; assumption.
    - destruct (f_folded s); [reflexivity|]. symmetry. apply fold_plain; assumption. }
  split.
  - intros x y z Hs C. destruct (R x y z Hs) as (i & Hi & Em & Ev & ->). rewrite Em, Ev in C.
    destruct (search_all g crit s order t i Hi C) as [F|F]; [right|left; exact F].
    unfold full in F. fold t' in F. apply Z.leb_le in F.
    destruct (search_fold g crit s order t) as [(l & n & _ & _ & _ & E & _) _]. fold t' in E. rewrite E in F.
    rewrite Z.mod_small in F by exact Hl. exact F.
  - intros id Hid. apply search_only in Hid. destruct Hid as [Hid|(i & Hi & C & E)]; [left; exact Hid|right].
    pose proof (order_lt g order P) as O. rewrite Forall_forall in O. specialize (O i Hi).
    assert (S : exists x y z, site g x y z /\ i = z * g_n2 g + site_pos g (f_folded s) x y).
    { unfold site_pos. destruct (f_folded s); [apply (site_of g Hwf)|apply plain_of]; exact O. }
    destruct S as (x & y & z & Hs & ->). exists x, y, z. split; [exact Hs|]. split.
    + destruct Hs as (Hx & Hy & Hz). rewrite E. unfold site_pos. destruct (f_folded s); [reflexivity|].
      apply fold_plain; assumption.
    + unfold m_at, v_at. unfold mRead, vRead in C. rewrite !Nat.add_assoc in C. exact C.
Qed.

(** ** C37 *)
(** Read in the vector layout, every tracked point gives the values of its site. Partial: see below for the plain layout. *)
Theorem read_where_found_partial : forall A g limit ops (s0 : fstate A) a x y z, wf_geom g -> history g ops ->
  let '(s, t) := run g ops (s0, start limit) in
  f_folded s = true -> site g x y z -> In a (t_axi t) -> ax_idx a = sitePos g x y z ->
  exists a', In a' (t_axi (snd (step g (s, t) ORead))) /\ ax_idx a' = ax_idx a /\
    ax_pts a' = ax_pts a ++ [(m_at g s x y z, v_at g s x y z)].
Proof.
  intros A g limit ops s0 a x y z Hwf Hh. destruct (run g ops (s0, start limit)) as [s t].
  intros F Hs Ha E. cbn [step snd readAxitons t_axi].
  eexists. split; [apply in_map, Ha|]. cbn. rewrite F. split; [reflexivity|]. rewrite E. unfold mRead, vRead, m_at, v_at.
  rewrite F. cbn. unfold sitePos. rewrite !Nat.add_assoc. reflexivity.
Qed.

(** The printed coordinates are those of the site, with the slices of the lower ranks counted. *)
Theorem printed_coordinates : forall g rank x y z, wf_geom g -> site g x y z ->
  printed g rank (sitePos g x y z) = (x, y, z + rank * g_Lz g).
Proof. intros g rank x y z Hwf (Hx & Hy & _). apply printed_site; assumption. Qed.

(** The two translations of indices are the two layouts and undo each other. *)
Theorem index_translation : forall g x y z, wf_geom g -> site g x y z ->
  foldidx g (z * g_n2 g + plain_pos g x y) = z * g_n2 g + vector_pos g x y /\
  unfoldidx g (z * g_n2 g + vector_pos g x y) = z * g_n2 g + plain_pos g x y.
Proof.
  intros g x y z Hwf (Hx & Hy & _). split; [apply fold_plain; assumption|]. apply unfold_site; assumption.
Qed.

(** In the plain layout the claim fails: found in the plain layout and read in the same, a point
    is read at another site. Grid of 4x4x1, two lanes; the values are the sites' numbers. *)
Definition g4 : geom := Geom 4 1 1 2 false.
Definition plain4 : fstate nat := FState (fun l => match l with (ArrM, i) => i - 16 | (_, i) => i end) false false false.
Theorem read_plain_refuted : exists g (s : fstate nat) limit crit order x y z a,
  wf_geom g /\ f_folded s = false /\ history g [OSearch crit order; ORead] /\ site g x y z /\
  crit (m_at g s x y z) (v_at g s x y z) = true /\
  t_axi (snd (run g [OSearch crit order; ORead] (s, start limit))) = [a] /\ ax_idx a = sitePos g x y z /\
  ax_pts a <> [(m_at g s x y z, v_at g s x y z)].
Proof.
  exists g4, plain4, 5%Z, (fun m v => m =? 6), (seq 0 16), 2, 1, 0.
  eexists. split; [repeat split; vm_compute; lia|]. split; [reflexivity|].
  split; [constructor; [apply Permutation_refl|constructor; [exact I|constructor]]|].
  split; [repeat split; vm_compute; lia|]. split; [reflexivity|]. split; [vm_compute; reflexivity|]. split; [reflexivity|].
  vm_compute. discriminate.
Qed.

(** Cases that meet the hypotheses: found in the plain layout, folded, evolved, read, searched again *)
Example tracked_seen :
  let t := snd (run g4 [OSearch (fun m v => 5 <? m) (seq 0 16); OFold; ORead; OSearch (fun m v => m =? 6) (rev (seq 0 16)); ORead]
                  (plain4, start 3)) in
  (map (@ax_idx nat) (t_axi t), map (fun a => map fst (ax_pts a)) (t_axi t), map (fun a => printed g4 2 (ax_idx a)) (t_axi t)) =
  ([12; 14; 1], [[6; 6]; [7; 7]; [8; 8]], [(2, 1, 2); (3, 1, 2); (0, 2, 2)]).
Proof. vm_compute. reflexivity. Qed.

(** ** C53 *)
(** When every rank but the first has at least one point, each point of each rank is written once, in order. *)
Definition allPoints (nAx : list nat) (from : nat) : list (nat * nat) :=
  concat (map (fun r => map (fun j => (r, j)) (seq 0 (nth (r - from) nAx 0))) (seq from (length nAx))).

Lemma loop_rank : forall nAx k n wr loc, loc + k <= nth wr nAx 0 ->
  printLoop nAx (k + n) (wr, loc) = map (fun j => (wr, j)) (seq loc k) ++ printLoop nAx n (wr, loc + k).
Proof.
  intros nAx k. induction k as [|k IH]; intros n wr loc H.
  - rewrite Nat.add_0_r. reflexivity.
  - cbn [plus printLoop]. unfold printNext.
    destruct (Z.ltb_spec (Z.of_nat (nth wr nAx 0%nat) - 1) (Z.of_nat loc)); [lia|].
    rewrite IH by lia. rewrite <- Nat.add_succ_comm. reflexivity.
Qed.

Lemma loop_next : forall nAx n wr loc k, nth wr nAx 0 <= loc -> k <= nth (S wr) nAx 0 -> 0 < k ->
  printLoop nAx (k + n) (wr, loc) = map (fun j => (S wr, j)) (seq 0 k) ++ printLoop nAx n (S wr, k).
Proof.
  intros nAx n wr loc k H H1 H2. pose proof (loop_rank nAx k n (S wr) 0 ltac:(lia)) as E. cbn [plus] in E. rewrite <- E. clear E.
  destruct k as [|k]; [lia|]. cbn [plus printLoop]. unfold printNext.
  destruct (Z.ltb_spec (Z.of_nat (nth wr nAx 0%nat) - 1) (Z.of_nat loc)); [|lia].
  destruct (Z.ltb_spec (Z.of_nat (nth (S wr) nAx 0%nat) - 1) (Z.of_nat 0)); [lia|]. reflexivity.
Qed.

Lemma loop_rest : forall rest pre wr loc n, Forall (fun k => 0 < k) rest -> length pre = S wr ->
  nth wr pre 0 <= loc -> n = list_sum rest ->
  printLoop (pre ++ rest) n (wr, loc) =
  concat (map (fun r => map (fun j => (r, j)) (seq 0 (nth (r - S wr) rest 0))) (seq (S wr) (length rest))).
Proof.
  induction rest as [|k rest IH]; intros pre wr loc n H L N E.
  - subst n. reflexivity.
  - inversion H; subst. cbn [list_sum fold_right].
    change (fold_right Nat.add 0 rest) with (list_sum rest).
    rewrite (loop_next _ _ wr loc k).
    + cbn [length seq map concat]. rewrite Nat.sub_diag. cbn [nth]. f_equal.
      replace (pre ++ k :: rest) with ((pre ++ [k]) ++ rest) by (rewrite <- app_assoc; reflexivity).
      rewrite (IH (pre ++ [k]) (S wr) k (list_sum rest)); try assumption; try reflexivity.
      * f_equal. apply map_ext_in. intros r Hr. apply in_seq in Hr.
        replace (r - S wr) with (S (r - S (S wr))) by lia. reflexivity.
      * rewrite app_length. cbn. lia.
      * rewrite <- L. rewrite nth_middle. lia.
    + rewrite app_nth1 by lia. exact N.
    + rewrite <- L. rewrite nth_middle. lia.
    + assumption.
Qed.

Theorem print_each_once_partial : forall first rest, Forall (fun k => 0 < k) rest ->
  printOrder (first :: rest) = allPoints (first :: rest) 0.
Proof.
  intros first rest H. unfold printOrder. cbn [list_sum fold_right]. change (fold_right Nat.add 0 rest) with (list_sum rest).
  rewrite (loop_rank _ first _ 0 0) by (cbn; lia). cbn [plus].
  change (first :: rest) with ([first] ++ rest). rewrite (loop_rest rest [first] 0 first (list_sum rest) H); try reflexivity.
  unfold allPoints. cbn [app length seq map concat nth]. f_equal. f_equal. apply map_ext_in. intros r Hr. apply in_seq in Hr.
  destruct r as [|r]; [lia|]. rewrite Nat.sub_0_r. replace (S r - 1) with r by lia. reflexivity.
Qed.

(** With an empty rank in between, that rank is told to write a point it does not have and the last point of a
    later rank is not written. *)
Theorem print_empty_rank_refuted : exists nAx,
  In (1, 0) (printOrder nAx) /\ nth 1 nAx 0 = 0 /\ nth 2 nAx 0 = 1 /\ ~ In (2, 0) (printOrder nAx).
Proof.
  exists [1; 0; 1]. vm_compute. repeat split; auto. intros [H|[H|[]]]; discriminate.
Qed.
(** The general form: the first empty rank after a rank with points is always told to write one. *)
Theorem print_empty_rank_general : forall a rest, 0 < list_sum rest ->
  In (1, 0) (printOrder (a :: 0 :: rest)).
Proof.
  intros a rest H. unfold printOrder. cbn [list_sum fold_right]. change (fold_right Nat.add 0 rest) with (list_sum rest).
  rewrite (loop_rank _ a _ 0 0) by (cbn; lia). apply in_or_app. right. cbn [plus].
  destruct (list_sum rest) as [|n]; [lia|]. cbn [printLoop]. unfold printNext. cbn [nth].
  destruct (Z.ltb_spec (Z.of_nat a - 1) (Z.of_nat a)); [|lia]. left. reflexivity.
Qed.
Example print_seen : printOrder [0; 2; 1] = [(1, 0); (1, 1); (2, 0)].
Proof. reflexivity. Qed.

Print Assumptions tracked_list.
Print Assumptions tracked_kept.
Print Assumptions search_finds.
Print Assumptions read_where_found_partial.
Print Assumptions printed_coordinates.
Print Assumptions index_translation.
Print Assumptions read_plain_refuted.
Print Assumptions print_each_once_partial.
Print Assumptions print_empty_rank_refuted.
Print Assumptions print_empty_rank_general.
