(** Lemmas on the tracker. *)
From Coq Require Import List Arith ZArith Bool Lia Permutation.
From Verif Require Import Base FolderModel FolderSpec FolderProofs IndexModel IndexProofs TrackModel.
Import ListNotations.
Ltac Zify.zify_post_hook ::= idtac.

(** the index that identifies a site: its place in the vector layout *)
Definition sitePos (g : geom) (x y z : nat) : nat := z * g_n2 g + vector_pos g x y.

Lemma sub_head : forall a b c, a + b - a - c = b - c.
Proof. intros; lia. Qed.
Lemma sub_head0 : forall a b, a + b - a = b.
Proof. intros; lia. Qed.

Section Index.
  Variable g : geom.
  Hypothesis Hwf : wf_geom g.
  Let K := g_n1 g / g_w g.

  Lemma n1K : g_n1 g = g_w g * K.
  Proof. unfold K. destruct Hwf as (H1 & H2 & _). rewrite (Nat.div_mod (g_n1 g) (g_w g)) at 1 by lia. rewrite H2. lia. Qed.

  Lemma sy_n1 : forall sy, sy * g_n1 g / g_w g = sy * K.
  Proof.
    intros. destruct Hwf as (H1 & _). rewrite n1K at 1.
    replace (sy * (g_w g * K)) with (sy * K * g_w g) by lia. apply Nat.div_mul. lia.
  Qed.

  Lemma fold_plain : forall x y z, x < g_n1 g -> y < g_n1 g ->
    foldidx g (z * g_n2 g + plain_pos g x y) = sitePos g x y z.
  Proof.
    intros x y z Hx Hy. unfold foldidx.
    assert (E : z * g_n2 g + plain_pos g x y = vec2Idx (g_n1 g) (x, y, z)).
    { unfold vec2Idx, g_n2, plain_pos. clear. generalize (g_n1 g). intro. ring. }
    rewrite E, idx2Vec_vec2Idx by assumption. rewrite sy_n1.
    unfold sitePos, vector_pos. fold K.
    assert (KP : 0 < K) by (pose proof n1K; nia).
    pose proof (Nat.div_mod y K ltac:(lia)) as D.
    replace (y - y / K * K) with (y mod K) by (rewrite (Nat.mul_comm (y / K)); lia).
    generalize (y mod K) (y / K). clear. intros a b. generalize (g_n1 g) (g_n2 g) (g_w g). intros. ring.
  Qed.

  Lemma vec_parts : forall x y, x < g_n1 g -> y < g_n1 g ->
    let p := vector_pos g x y in
    p < g_n2 g /\ p / (g_n1 g * g_w g) = y mod K /\ p - (y mod K) * (g_n1 g * g_w g) = x * g_w g + y / K /\
    y / K < g_w g /\ y = K * (y / K) + y mod K /\ p mod g_w g = y / K /\ (p - y / K) / g_w g = (y mod K) * g_n1 g + x.
  Proof.
    intros x y Hx Hy p.
    assert (KP : 0 < K) by (pose proof n1K; nia).
    destruct Hwf as (Hw & _).
    pose proof (Nat.div_mod y K ltac:(lia)) as D.
    pose proof (Nat.mod_upper_bound y K ltac:(lia)) as U.
    assert (S : y / K < g_w g).
    { apply Nat.div_lt_upper_bound; [lia|]. rewrite (Nat.mul_comm K), <- n1K. exact Hy. }
    assert (P : p = (y mod K) * (g_n1 g * g_w g) + (x * g_w g + y / K)).
    { unfold p, vector_pos. fold K. clear. lia. }
    assert (R : x * g_w g + y / K < g_n1 g * g_w g) by nia.
    split; [apply vector_pos_lt; assumption|].
    split. { rewrite P, Nat.div_add_l by nia. rewrite Nat.div_small by assumption. lia. }
    split; [rewrite P, Nat.add_comm; apply Nat.add_sub|]. split; [exact S|]. split; [exact D|].
    assert (P2 : p = y / K + ((y mod K) * g_n1 g + x) * g_w g).
    { rewrite P. clear. generalize (y / K) (y mod K) (g_n1 g) (g_w g). intros. ring. }
    split.
    - rewrite P2, Nat.mod_add by lia. apply Nat.mod_small. exact S.
    - rewrite P2, Nat.add_comm, Nat.add_sub. apply Nat.div_mul. lia.
  Qed.

  Lemma pos_div : forall p z, p < g_n2 g -> (z * g_n2 g + p) / g_n2 g = z.
  Proof. intros. rewrite Nat.div_add_l by lia. rewrite Nat.div_small by assumption. lia. Qed.

  Lemma unfold_site : forall x y z, x < g_n1 g -> y < g_n1 g ->
    unfoldidx g (sitePos g x y z) = z * g_n2 g + plain_pos g x y.
  Proof.
    intros x y z Hx Hy. unfold unfoldidx.
    destruct (vec_parts x y Hx Hy) as (P1 & P2 & P3 & P4 & P5 & P6 & P7). unfold sitePos in *.
    assert (M : (z * g_n2 g + vector_pos g x y) mod g_w g = y / K).
    { rewrite <- P6. unfold g_n2. rewrite n1K at 1. destruct Hwf as (Hw & _).
      replace (z * (g_w g * K * g_n1 g) + vector_pos g x y) with (vector_pos g x y + (z * K * g_n1 g) * g_w g)
        by (clear; generalize (vector_pos g x y) (g_n1 g) (g_w g) K; intros; ring).
      apply Nat.mod_add. lia. }
    rewrite M, pos_div by assumption.
    rewrite sub_head.
    assert (N0 : g_n1 g <> 0) by (clear -Hx; lia).
    rewrite P7, Nat.div_add_l, (Nat.div_small x) by assumption. rewrite sy_n1.
    rewrite (Nat.add_comm (_ * g_n1 g) x), Nat.mod_add, (Nat.mod_small x) by assumption.
    unfold plain_pos. rewrite Nat.add_0_r, (Nat.add_comm (y mod K)), (Nat.mul_comm (y / K)), <- P5. symmetry. apply Nat.add_assoc.
  Qed.

  Lemma printed_site : forall rank x y z, x < g_n1 g -> y < g_n1 g ->
    printed g rank (sitePos g x y z) = (x, y, z + rank * g_Lz g).
  Proof.
    intros rank x y z Hx Hy. unfold printed.
    destruct (vec_parts x y Hx Hy) as (P1 & P2 & P3 & P4 & P5 & P6 & P7). unfold sitePos.
    rewrite pos_div by assumption.
    rewrite sub_head0.
    rewrite P2, P3. destruct Hwf as (Hw & _).
    rewrite Nat.div_add_l, (Nat.div_small (y / K)) by assumption || (clear -Hw; lia).
    rewrite Nat.add_0_r, sub_head0.
    fold K. rewrite Nat.add_comm, (Nat.mul_comm _ K), <- P5. reflexivity.
  Qed.

  Lemma site_of : forall i, i < g_n3 g -> exists x y z, site g x y z /\ i = sitePos g x y z.
  Proof.
    intros i Hi. destruct (n3_slice g i Hi) as (z & p & Hz & Hp & ->).
    destruct (vector_pos_surj g Hwf p Hp) as (x & y & Hx & Hy & ->).
    exists x, y, z. repeat split; assumption.
  Qed.
  Lemma plain_of : forall i, i < g_n3 g -> exists x y z, site g x y z /\ i = z * g_n2 g + plain_pos g x y.
  Proof.
    intros i Hi. destruct (n3_slice g i Hi) as (z & p & Hz & Hp & ->).
    destruct (plain_pos_surj g p Hp) as (x & y & Hx & Hy & ->).
    exists x, y, z. repeat split; assumption.
  Qed.
  Lemma sitePos_lt : forall x y z, site g x y z -> sitePos g x y z < g_n3 g.
  Proof. intros x y z (Hx & Hy & Hz). apply mult_slice; [assumption|]. apply vector_pos_lt; assumption. Qed.
  Lemma sitePos_inj : forall x y z x' y' z', site g x y z -> site g x' y' z' ->
    sitePos g x y z = sitePos g x' y' z' -> x = x' /\ y = y' /\ z = z'.
  Proof.
    intros x y z x' y' z' (Hx & Hy & Hz) (Hx' & Hy' & Hz') E. unfold sitePos in E.
    apply digits2 in E; [|apply vector_pos_lt; assumption..]. destruct E as [-> E].
    apply (vector_pos_inj g Hwf) in E; try assumption. tauto.
  Qed.
End Index.

(** ** the list *)
Section List.
  Context {A : Type} (g : geom).
  Implicit Types t : tracker A.

  Definition entry_grows (a b : axiton A) : Prop :=
    ax_idx b = ax_idx a /\ ax_i0 b = ax_i0 a /\ exists more, ax_pts b = ax_pts a ++ more.
  Definition grows t t' : Prop :=
    exists l new, t_axi t' = l ++ new /\ Forall2 entry_grows (t_axi t) l /\ t_idx t' = t_idx t ++ map ax_idx new /\
      t_limit t' = t_limit t /\ t_index t <= t_index t'.

  Lemma entry_refl : forall a, entry_grows a a.
  Proof. intro a. repeat split. exists []. symmetry. apply app_nil_r. Qed.
  Lemma entries_refl : forall l, Forall2 entry_grows l l.
  Proof. induction l; constructor; auto using entry_refl. Qed.
  Lemma entry_trans : forall a b c, entry_grows a b -> entry_grows b c -> entry_grows a c.
  Proof.
    intros a b c (E1 & E2 & m & E3) (F1 & F2 & n & F3). split; [congruence|]. split; [congruence|].
    exists (m ++ n). rewrite F3, E3. symmetry. apply app_assoc.
  Qed.
  Lemma entries_idx : forall l l', Forall2 entry_grows l l' -> map (@ax_idx A) l' = map (@ax_idx A) l.
  Proof. induction 1 as [|a b l l' (E & _) _ IH]; cbn; congruence. Qed.
  Lemma entries_trans : forall a b, Forall2 entry_grows a b -> forall c, Forall2 entry_grows b c -> Forall2 entry_grows a c.
  Proof. induction 1; intros c H1; inversion H1; subst; constructor; eauto using entry_trans. Qed.
  Lemma grows_refl : forall t, grows t t.
  Proof. intro t. exists (t_axi t), []. cbn. rewrite !app_nil_r. auto using entries_refl. Qed.
  Lemma grows_trans : forall a b c, grows a b -> grows b c -> grows a c.
  Proof.
    intros a b c (l & n & E1 & E2 & E3 & E4 & E5) (l' & n' & F1 & F2 & F3 & F4 & F5).
    rewrite E1 in F2. apply Forall2_app_inv_l in F2. destruct F2 as (l1 & l2 & G1 & G2 & ->).
    exists l1, (l2 ++ n'). split; [rewrite F1; symmetry; apply app_assoc|]. split; [eauto using entries_trans|].
    split; [|split; [congruence|lia]].
    rewrite F3, E3, map_app, (entries_idx _ _ G2). symmetry. apply app_assoc.
  Qed.

  Definition inv t : Prop :=
    NoDup (t_idx t) /\ map (@ax_idx A) (t_axi t) = t_idx t /\ Forall (fun a => ax_i0 a + length (ax_pts a) = t_index t) (t_axi t) /\
    Forall (fun i => i < g_n3 g) (t_idx t) /\
    ((0 <= t_limit t < 2 ^ 64)%Z -> (Z.of_nat (length (t_idx t)) <= t_limit t)%Z).

  Lemma add_cases : forall t id,
    (addAxiton t id = t /\ (full t = true \/ In id (t_idx t))) \/
    (full t = false /\ ~ In id (t_idx t) /\
     addAxiton t id = Tracker (t_axi t ++ [Axiton id (t_index t) []]) (t_idx t ++ [id]) (t_limit t) (t_index t)).
  Proof.
    intros t id. unfold addAxiton. destruct (full t); [left; auto|].
    destruct (existsb (Nat.eqb id) (t_idx t)) eqn:E.
    - left. split; [reflexivity|right]. apply existsb_exists in E. destruct E as (i & Hi & E). apply Nat.eqb_eq in E. subst. exact Hi.
    - right. split; [reflexivity|]. split; [|reflexivity]. intro H.
      assert (existsb (Nat.eqb id) (t_idx t) = true) by (apply existsb_exists; exists id; rewrite Nat.eqb_refl; auto). congruence.
  Qed.

  Lemma add_grows : forall t id, grows t (addAxiton t id).
  Proof.
    intros t id. destruct (add_cases t id) as [[-> _]|(_ & _ & ->)]; [apply grows_refl|].
    exists (t_axi t), [Axiton id (t_index t) []]. cbn. auto using entries_refl.
  Qed.
  Lemma add_index : forall t id, t_index (addAxiton t id) = t_index t.
  Proof. intros t id. destruct (add_cases t id) as [[-> _]|(_ & _ & ->)]; reflexivity. Qed.

  Lemma add_inv : forall t id, id < g_n3 g -> inv t -> inv (addAxiton t id).
  Proof.
    intros t id Hid (I1 & I2 & I3 & I4 & I5). destruct (add_cases t id) as [[-> _]|(F & N & ->)]; [repeat split; assumption|].
    unfold inv; cbn. split.
    - apply (Permutation_NoDup (l := id :: t_idx t)); [apply Permutation_cons_append|]. constructor; assumption.
    - split; [rewrite map_app, I2; reflexivity|]. split; [|split].
      + apply Forall_app. split; [exact I3|]. constructor; [cbn; lia|constructor].
      + apply Forall_app. split; [exact I4|]. constructor; [exact Hid|constructor].
      + intro R. unfold full in F. apply Z.leb_gt in F. rewrite Z.mod_small in F by exact R.
        rewrite app_length. cbn. lia.
  Qed.

  Lemma search_fold : forall crit s order t,
    grows t (search g crit order s t) /\ t_index (search g crit order s t) = t_index t.
  Proof.
    intros crit s order. induction order as [|i order IH]; intro t; [split; [apply grows_refl|reflexivity]|].
    cbn [search fold_left]. fold (search g crit order s (searchSite g crit s t i)).
    destruct (IH (searchSite g crit s t i)) as [G E]. unfold searchSite in *.
    destruct (crit _ _); [|auto]. split; [eapply grows_trans; [apply add_grows|exact G]|]. rewrite E. apply add_index.
  Qed.

  Hypothesis Hwf : wf_geom g.

  Lemma stored_lt : forall (s : fstate A) i, i < g_n3 g -> (if f_folded s then i else foldidx g i) < g_n3 g.
  Proof.
    intros s i Hi. destruct (f_folded s); [exact Hi|].
    destruct (plain_of g i Hi) as (x & y & z & Hs & ->). destruct Hs as (Hx & Hy & Hz).
    rewrite fold_plain by assumption. apply sitePos_lt; [assumption|repeat split; assumption].
  Qed.

  Lemma search_inv : forall crit s order t, Forall (fun i => i < g_n3 g) order -> inv t -> inv (search g crit order s t).
  Proof.
    intros crit s order. induction order as [|i order IH]; intros t Ho I; [exact I|].
    inversion Ho; subst. cbn [search fold_left]. apply IH; [assumption|].
    unfold searchSite. destruct (crit _ _); [|exact I]. apply add_inv; [apply stored_lt; assumption|exact I].
  Qed.

  Lemma read_inv : forall s t, inv t -> inv (readAxitons g s t).
  Proof.
    intros s t (I1 & I2 & I3 & I4 & I5). unfold inv, readAxitons; cbn. rewrite map_map. cbn.
    split; [exact I1|]. split; [exact I2|]. split; [|split; [exact I4|exact I5]].
    rewrite Forall_forall in *. intros b Hb. apply in_map_iff in Hb. destruct Hb as (a & <- & Ha). cbn.
    rewrite app_length. cbn. specialize (I3 a Ha). lia.
  Qed.

  Lemma read_grows : forall s t, grows t (readAxitons g s t).
  Proof.
    intros s t. unfold grows, readAxitons. cbn.
    eexists _, []. rewrite app_nil_r. split; [reflexivity|]. split.
    - induction (t_axi t); cbn; constructor; auto. unfold entry_grows; cbn. eauto.
    - cbn. rewrite app_nil_r. auto.
  Qed.

  (** whatever the order, what satisfies the criterion is in the list or the list is full *)
  Lemma full_stays : forall t id, full t = true -> addAxiton t id = t.
  Proof. intros t id F. unfold addAxiton. rewrite F. reflexivity. Qed.

  Lemma search_all : forall crit s order t i, In i order -> crit (mRead g s i) (vRead g s i) = true ->
    full (search g crit order s t) = true \/ In (if f_folded s then i else foldidx g i) (t_idx (search g crit order s t)).
  Proof.
    intros crit s order. induction order as [|j order IH]; intros t i Hi C; [destruct Hi|].
    cbn [search fold_left]. fold (search g crit order s (searchSite g crit s t j)).
    destruct Hi as [->|Hi]; [|apply IH; assumption].
    set (id := if f_folded s then i else foldidx g i).
    assert (D : full (searchSite g crit s t i) = true \/ In id (t_idx (searchSite g crit s t i))).
    { unfold searchSite. rewrite C. fold id. destruct (add_cases t id) as [[-> [F|F]]|(_ & _ & ->)]; auto.
      right. cbn. apply in_or_app. right. left. reflexivity. }
    destruct D as [D|D].
    - left. clear IH. revert D. generalize (searchSite g crit s t i). induction order as [|k order IH]; intros t0 D; [exact D|].
      cbn [search fold_left]. apply IH. unfold searchSite. destruct (crit (mRead g s k) (vRead g s k)); [|exact D]. rewrite full_stays; exact D.
    - right. destruct (search_fold crit s order (searchSite g crit s t i)) as [(l & n & _ & _ & E & _) _].
      rewrite E. apply in_or_app. left. exact D.
  Qed.

  Lemma search_only : forall crit s order t id, In id (t_idx (search g crit order s t)) ->
    In id (t_idx t) \/ exists i, In i order /\ crit (mRead g s i) (vRead g s i) = true /\ id = if f_folded s then i else foldidx g i.
  Proof.
    intros crit s order. induction order as [|j order IH]; intros t id H; [left; exact H|].
    cbn [search fold_left] in H. fold (search g crit order s (searchSite g crit s t j)) in H.
    apply IH in H. destruct H as [H|(i & Hi & C & E)].
    - unfold searchSite in H. destruct (crit (mRead g s j) (vRead g s j)) eqn:C; [|left; exact H].
      destruct (add_cases t (if f_folded s then j else foldidx g j)) as [[E _]|(_ & _ & E)]; rewrite E in H; [left; exact H|].
      cbn in H. apply in_app_or in H. destruct H as [H|[<-|[]]]; [left; exact H|].
      right. exists j. split; [left; reflexivity|]. split; [exact C|reflexivity].
    - right. exists i. split; [right; exact Hi|]. auto.
  Qed.
End List.
