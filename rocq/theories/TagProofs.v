(** The grouping collects clusters. *)
From Coq Require Import List Arith Bool Lia Relations Permutation.
From Verif Require Import Base FolderModel IndexModel IndexProofs TrackModel TagModel TagSpec.
Import ListNotations.
Ltac Zify.zify_post_hook ::= idtac.

Notation plain := (fun i : nat => i).

Section Clusters.
  Variables (V f : nat) (nb : nat -> list nat) (dense : nat -> bool) (adj : nat -> nat -> Prop).
  Hypothesis adj_sym : forall p q, adj p q -> adj q p.
  Hypothesis nb_sound : forall p q, p < V -> In q (nb p) -> q < V /\ adj p q.
  (** every dense neighbour is looked at, with the possible exception of the first candidate *)
  Hypothesis nb_complete : forall p q, p < V -> q < V -> adj p q -> dense q = true -> In q (nb p) \/ q = f.

  Definition R (p q : nat) : Prop := p < V /\ q < V /\ dense p = true /\ dense q = true /\ adj p q.
  Definition conn := clos_refl_trans nat R.

  Lemma R_sym : forall p q, R p q -> R q p.
  Proof. intros p q (H1 & H2 & H3 & H4 & H5). repeat split; auto. Qed.

  Section Growth.
    Variables (U : nat -> Prop) (s gid : nat).
    Hypothesis Hgid : 0 < gid.

    Definition labOk (t : tags) : Prop := forall q, q < V -> q <> f -> (0 < lab t q <-> dense q = true).
    Definition members (grp : list nat) : Prop :=
      NoDup grp /\ forall p, In p grp -> p < V /\ dense p = true /\ conn s p /\ ~ U p.
    (** while neighbours are looked at *)
    Definition GI (t : tags) (grp : list nat) : Prop :=
      (forall p, xyp t p = true <-> U p \/ In p grp) /\ labOk t /\ (U f \/ In f grp) /\ members grp.

    Lemma setf_eq {B} : forall (h : nat -> B) p b, setf h p b p = b.
    Proof. intros. unfold setf. rewrite Nat.eqb_refl. reflexivity. Qed.
    Lemma setf_ne {B} : forall (h : nat -> B) p b q, q <> p -> setf h p b q = h q.
    Proof. intros. unfold setf. destruct (Nat.eqb_spec q p); [contradiction|reflexivity]. Qed.

    Lemma visitN_ok : forall t grp inc p n, GI t grp -> In p grp -> n < V -> adj p n ->
      exists t' ext, visitN plain gid (t, grp, inc) n = (t', grp ++ ext, inc + length ext) /\
        GI t' (grp ++ ext) /\ wall t' = wall t /\ (dense n = true -> U n \/ In n (grp ++ ext)).
    Proof.
      intros t grp inc p n G Hp Hn A. pose proof G as (X & Lb & Ff & [N M]). unfold visitN.
      destruct (xyp t n) eqn:Ex; cbn [negb andb].
      - exists t, []. rewrite app_nil_r, Nat.add_0_r. split; [reflexivity|]. split; [exact G|].
        split; [reflexivity|]. intros _. apply X. exact Ex.
      - assert (nf : n <> f). { intros ->. assert (xyp t f = true) by (apply X; exact Ff). congruence. }
        destruct (Nat.ltb_spec 0 (lab t n)) as [Hl|Hl].
        + assert (D : dense n = true) by (apply (Lb n Hn nf); exact Hl).
          assert (Nu : ~ (U n \/ In n grp)). { intro H. apply X in H. congruence. }
          unfold addPoint. destruct (existsb (Nat.eqb n) grp) eqn:Ee.
          { exfalso. apply existsb_exists in Ee. destruct Ee as (m & Hm & E). apply Nat.eqb_eq in E. subst m. tauto. }
          eexists _, [n]. cbn [length]. split; [rewrite Nat.add_1_r; reflexivity|]. cbn [wall].
          split; [|split; [reflexivity|intros _; right; apply in_or_app; right; left; reflexivity]].
          split; [|split; [|split; [|split]]].
          * intro q. cbn [xyp]. unfold setf. destruct (Nat.eqb_spec q n) as [->|Hq].
            -- split; [intros _; right; apply in_or_app; right; left; reflexivity|reflexivity].
            -- rewrite X. rewrite in_app_iff. cbn. split; [tauto|]. intros [H|[H|[H|[]]]]; auto. congruence.
          * intros q Hq Hqf. cbn [lab]. unfold setf. destruct (Nat.eqb_spec q n) as [->|Hqn]; [tauto|]. apply Lb; assumption.
          * destruct Ff as [Ff|Ff]; [left; exact Ff|right; apply in_or_app; left; exact Ff].
          * apply (Permutation_NoDup (l := n :: grp)); [apply Permutation_cons_append|]. constructor; tauto.
          * intros q Hq. apply in_app_or in Hq. destruct Hq as [Hq|[<-|[]]]; [apply M; exact Hq|].
            destruct (M p Hp) as (Pv & Pd & Pc & Pu). repeat split; try assumption; [|tauto].
            eapply rt_trans; [exact Pc|]. apply rt_step. repeat split; assumption.
        + exists t, []. rewrite app_nil_r, Nat.add_0_r. split; [reflexivity|]. split; [exact G|].
          split; [reflexivity|]. intros D. exfalso. apply (Lb n Hn nf) in D. lia.
    Qed.

    Lemma visitNs_ok : forall ns t grp inc p, GI t grp -> In p grp -> (forall n, In n ns -> n < V /\ adj p n) ->
      exists t' ext, fold_left (visitN plain gid) ns (t, grp, inc) = (t', grp ++ ext, inc + length ext) /\
        GI t' (grp ++ ext) /\ wall t' = wall t /\ (forall n, In n ns -> dense n = true -> U n \/ In n (grp ++ ext)).
    Proof.
      induction ns as [|n ns IH]; intros t grp inc p G Hp Hn.
      - exists t, []. rewrite app_nil_r, Nat.add_0_r. cbn. split; [reflexivity|]. split; [exact G|]. split; [reflexivity|]. intros n [].
      - cbn [fold_left]. destruct (Hn n (or_introl eq_refl)) as [Nv Na].
        destruct (visitN_ok t grp inc p n G Hp Nv Na) as (t1 & e1 & E1 & G1 & W1 & C1). rewrite E1.
        destruct (IH t1 (grp ++ e1) (inc + length e1) p G1) as (t2 & e2 & E2 & G2 & W2 & C2).
        + apply in_or_app. left. exact Hp.
        + intros m Hm. apply Hn. right. exact Hm.
        + rewrite E2. exists t2, (e1 ++ e2). rewrite app_length, Nat.add_assoc, app_assoc.
          split; [reflexivity|]. split; [exact G2|]. split; [congruence|].
          intros m [<-|Hm] D; [|apply C2; assumption].
          destruct (C1 D) as [H|H]; [left; exact H|right; apply in_or_app; left; exact H].
    Qed.

    Definition closedAt (grp : list nat) (p : nat) : Prop :=
      forall q, q < V -> adj p q -> dense q = true -> U q \/ In q grp.

    Lemma visit_ok : forall t grp inc p, GI t grp -> In p grp ->
      exists t' ext, visit plain nb gid (t, grp, inc) p = (t', grp ++ ext, inc + length ext) /\
        GI t' (grp ++ ext) /\ wall t' = setf (wall t) p true /\ closedAt (grp ++ ext) p.
    Proof.
      intros t grp inc p G Hp. unfold visit.
      pose proof G as (X & Lb & Ff & [N M]). destruct (M p Hp) as (Pv & Pd & _).
      destruct (visitNs_ok (nb p) t grp inc p G Hp) as (t1 & e & E & G1 & W1 & C1).
      - intros n Hn. apply nb_sound; assumption.
      - rewrite E. eexists _, e. split; [reflexivity|]. split.
        + exact G1.
        + cbn [wall]. rewrite W1. split; [reflexivity|].
          intros q Hq A D. destruct (nb_complete p q Pv Hq A D) as [H| ->]; [apply C1; assumption|].
          destruct G1 as (_ & _ & F1 & _). exact F1.
    Qed.

    Lemma visits_ok : forall temp t grp inc, GI t grp -> (forall p, In p temp -> In p grp) ->
      exists t' ext, fold_left (visit plain nb gid) temp (t, grp, inc) = (t', grp ++ ext, inc + length ext) /\
        GI t' (grp ++ ext) /\ (forall p, wall t' p = true <-> wall t p = true \/ In p temp) /\
        (forall p, In p temp -> closedAt (grp ++ ext) p).
    Proof.
      induction temp as [|p temp IH]; intros t grp inc G Hs.
      - exists t, []. rewrite app_nil_r, Nat.add_0_r. cbn. split; [reflexivity|]. split; [exact G|].
        split; [intro; tauto|]. intros _ [].
      - cbn [fold_left]. destruct (visit_ok t grp inc p G (Hs p (or_introl eq_refl))) as (t1 & e1 & E1 & G1 & W1 & C1).
        rewrite E1. destruct (IH t1 (grp ++ e1) (inc + length e1) G1) as (t2 & e2 & E2 & G2 & W2 & C2).
        + intros q Hq. apply in_or_app. left. apply Hs. right. exact Hq.
        + rewrite E2. exists t2, (e1 ++ e2). rewrite app_length, Nat.add_assoc, app_assoc.
          split; [reflexivity|]. split; [exact G2|]. split.
          * intro q. rewrite W2, W1. unfold setf. cbn. destruct (Nat.eqb_spec q p) as [->|Hq]; [tauto|].
            split; [tauto|]. intros [H|[H|H]]; auto; congruence.
          * intros q [<-|Hq]; [|apply C2; exact Hq]. intros r Hr A D.
            destruct (C1 r Hr A D) as [H|H]; [left; exact H|right; apply in_or_app; left; exact H].
    Qed.

    (** between passes: the points of [dn] have been examined *)
    Definition PI (t : tags) (grp dn : list nat) : Prop :=
      (forall p, U p \/ In p dn -> xyp t p = true) /\ (forall p, xyp t p = true -> U p \/ In p grp) /\
      (forall p, wall t p = true <-> U p \/ In p dn) /\ (forall p, In p dn -> In p grp) /\
      labOk t /\ (U f \/ In f grp) /\ members grp /\ (forall p, In p dn -> closedAt grp p).

    Lemma mark_all : forall temp (h : nat -> bool) p,
      fold_left (fun f a => setf f a true) temp h p = true <-> h p = true \/ In p temp.
    Proof.
      induction temp as [|a temp IH]; intros h p; cbn [fold_left]; [cbn; tauto|].
      rewrite IH. unfold setf. cbn. destruct (Nat.eqb_spec p a) as [->|Hp]; [tauto|].
      split; [tauto|]. intros [H|[H|H]]; auto; congruence.
    Qed.

    Lemma pass_ok : forall t grp dn, PI t grp dn ->
      exists t' ext, pass plain nb gid t grp = (t', grp ++ ext, length ext) /\ PI t' (grp ++ ext) grp /\
        (forall p, xyp t' p = true <-> U p \/ In p (grp ++ ext)).
    Proof.
      intros t grp dn (X1 & X2 & Wl & Dn & Lb & Ff & M & C). unfold pass.
      set (temp := filter (fun a => negb (wall t a)) grp).
      set (t0 := Tags (wall t) (fold_left (fun f0 a => setf f0 a true) temp (xyp t)) (lab t)).
      assert (Tp : forall p, In p temp <-> In p grp /\ ~ (U p \/ In p dn)).
      { intro p. unfold temp. rewrite filter_In. rewrite negb_true_iff. rewrite <- Wl.
        split; intros [A B]; split; auto; destruct (wall t p); congruence || reflexivity. }
      assert (G0 : GI t0 grp).
      { split; [|split; [exact Lb|split; [exact Ff|exact M]]]. intro p. cbn [xyp t0]. rewrite mark_all. rewrite Tp.
        split.
        - intros [H|[H _]]; [apply X2; exact H|right; exact H].
        - intros H. destruct (wall t p) eqn:Ew.
          + left. apply X1. apply Wl. exact Ew.
          + destruct H as [H|H]; [left; apply X1; left; exact H|]. right. split; [exact H|]. rewrite <- Wl. congruence. }
      destruct (visits_ok temp t0 grp 0 G0) as (t1 & e & E & G1 & W1 & C1).
      - intros p Hp. apply Tp in Hp. tauto.
      - exists t1, e. rewrite E. cbn [plus]. split; [reflexivity|].
        destruct G1 as (X' & L' & F' & M').
        split; [|exact X']. split; [|split; [|split; [|split; [|split; [exact L'|split; [exact F'|split; [exact M'|]]]]]]].
        + intros p [H|H]; apply X'; [left; exact H|right; apply in_or_app; left; exact H].
        + intros p H. apply X'. exact H.
        + intro p. rewrite W1. cbn [wall t0]. rewrite Wl, Tp. split.
          * intros [[H|H]|[H _]]; auto.
          * intros [H|H]; auto. destruct (wall t p) eqn:Ew; [left; apply Wl; exact Ew|].
            right. split; [exact H|]. rewrite <- Wl. congruence.
        + intros p Hp. apply in_or_app. left. exact Hp.
        + intros p Hp. destruct (wall t p) eqn:Ew.
          * apply Wl in Ew. destruct Ew as [Ew|Ew].
            -- destruct M as [_ M]. destruct (M p Hp) as (_ & _ & _ & Nu). contradiction.
            -- intros q Hq A D. destruct (C p Ew q Hq A D) as [H|H]; [left; exact H|right; apply in_or_app; left; exact H].
          * apply C1. apply Tp. split; [exact Hp|]. rewrite <- Wl. congruence.
    Qed.

    Lemma members_length : forall grp, members grp -> length grp <= V.
    Proof.
      intros grp [N M]. rewrite <- (seq_length V 0). apply NoDup_incl_length; [exact N|].
      intros p Hp. apply in_seq. destruct (M p Hp). lia.
    Qed.

    Lemma grow_ok : forall fuel t grp dn, PI t grp dn -> V - length grp < fuel ->
      exists t' ext, grow plain nb fuel gid t grp = Some (t', grp ++ ext) /\ PI t' (grp ++ ext) (grp ++ ext) /\
        (forall p, xyp t' p = true <-> U p \/ In p (grp ++ ext)).
    Proof.
      induction fuel as [|fuel IH]; intros t grp dn P F; [lia|]. cbn [grow].
      destruct (pass_ok t grp dn P) as (t1 & e & E & P1 & X1). rewrite E.
      destruct (Nat.eqb_spec (length e) 0) as [H|H].
      - destruct e; [|discriminate]. exists t1, []. rewrite app_nil_r in *. auto.
      - assert (length (grp ++ e) <= V) by (apply members_length; apply P1). rewrite app_length in *.
        destruct (IH t1 (grp ++ e) grp P1) as (t2 & e2 & E2 & P2 & X2); [rewrite app_length; lia|].
        rewrite <- app_assoc in *. exists t2, (e ++ e2). auto.
    Qed.
  End Growth.

  (** ** all seeds *)
  Definition component (grp : list nat) : Prop :=
    exists s, s < V /\ dense s = true /\ forall q, In q grp <-> conn s q.
  Definition OI (t : tags) (gid : nat) (groups : list (list nat)) : Prop :=
    0 < gid /\ (forall p, xyp t p = true <-> In p (concat groups)) /\ (forall p, wall t p = true <-> In p (concat groups)) /\
    labOk t /\ NoDup (concat groups) /\ Forall component groups /\ (forall p, In p (concat groups) -> p < V /\ dense p = true).

  Lemma conn_sym : forall p q, conn p q -> conn q p.
  Proof.
    induction 1; [apply rt_step, R_sym; assumption|apply rt_refl|eapply rt_trans; eassumption].
  Qed.

  Lemma seed_ok : forall fuel t gid groups idx, OI t gid groups -> V < fuel -> idx < V -> dense idx = true ->
    (In f (concat groups) \/ idx = f) ->
    exists t' gid' new, seed plain nb fuel (Some (t, gid, groups)) idx = Some (t', gid', groups ++ new) /\
      OI t' gid' (groups ++ new) /\ In idx (concat (groups ++ new)).
  Proof.
    intros fuel t gid groups idx (Hg & X & Wl & Lb & N & Cm & Dn) Hf Hi Hd Hff. cbn [seed].
    assert (O : OI t gid groups) by (exact (conj Hg (conj X (conj Wl (conj Lb (conj N (conj Cm Dn))))))).
    destruct (wall t idx) eqn:Ew.
    - exists t, gid, []. rewrite app_nil_r. split; [reflexivity|]. split; [exact O|].
      apply Wl. exact Ew.
    - assert (Nu : ~ In idx (concat groups)) by (rewrite <- Wl; congruence).
      set (U := fun p => In p (concat groups)).
      assert (P : PI U idx t [idx] []).
      { unfold U. split; [intros p [H|[]]; apply X; exact H|]. split; [intros p H; left; apply X; exact H|].
        split; [intro p; rewrite Wl; cbn; tauto|]. split; [intros p []|]. split; [exact Lb|].
        split; [destruct Hff as [H|H]; [left; exact H|right; left; exact H]|]. split; [|intros p []].
        split; [constructor; [intros []|constructor]|]. intros p [<-|[]]. repeat split; auto. apply rt_refl. }
      destruct (grow_ok U idx gid Hg fuel t [idx] [] P) as (t1 & e & E & P1 & X1); [cbn; lia|].
      rewrite E. set (grp := [idx] ++ e) in *.
      destruct P1 as (_ & _ & W1 & _ & L1 & _ & [N1 M1] & C1).
      (** groups are closed, so the new one meets none of them *)
      assert (Ucl : forall p q, U p -> R p q -> U q).
      { intros p q Hp Hr. unfold U in *. apply in_concat in Hp. destruct Hp as (g0 & Hg0 & Hp).
        rewrite Forall_forall in Cm. destruct (Cm g0 Hg0) as (s0 & _ & _ & Q).
        apply in_concat. exists g0. split; [exact Hg0|]. apply Q. apply Q in Hp. eapply rt_trans; [exact Hp|apply rt_step; exact Hr]. }
      assert (Gcl : forall p q, In p grp -> R p q -> In q grp).
      { intros p q Hp Hr. destruct Hr as (R1 & R2 & R3 & R4 & R5).
        destruct (C1 p Hp q R2 R5 R4) as [H|H]; [|exact H]. exfalso.
        destruct (M1 p Hp) as (_ & _ & _ & Np). apply Np. apply (Ucl q p H). apply R_sym. repeat split; assumption. }
      assert (Q : forall q, In q grp <-> conn idx q).
      { intro q. split; [intro H; apply M1; exact H|]. intro H.
        assert (K : forall a b, conn a b -> In a grp -> In b grp).
        { clear - Gcl. intros a b H. induction H; eauto. }
        apply (K idx q H). unfold grp. left. reflexivity. }
      exists t1, (S gid), [grp]. split; [reflexivity|]. rewrite concat_app. cbn [concat]. rewrite app_nil_r.
      split.
      + split; [lia|]. split; [intro p; rewrite X1; unfold U; rewrite concat_app; cbn [concat]; rewrite app_nil_r, in_app_iff; tauto|].
        split; [intro p; rewrite W1; unfold U; rewrite concat_app; cbn [concat]; rewrite app_nil_r, in_app_iff; tauto|]. split; [exact L1|].
        split; [|split].
        * rewrite concat_app. cbn [concat]. rewrite app_nil_r. clear - N N1 M1.
          revert N M1. unfold U. generalize (concat groups). intros l N M1. induction l as [|a l IH]; [exact N1|].
          inversion N as [|? ? Ha Nl]; subst. cbn. constructor.
          -- rewrite in_app_iff. intros [H|H]; [contradiction|]. apply (M1 a H). left. reflexivity.
          -- apply IH; [exact Nl|]. intros p Hp. destruct (M1 p Hp) as (A & B & C & D). repeat split; auto. intro. apply D. right. assumption.
        * apply Forall_app. split; [exact Cm|]. constructor; [|constructor]. exists idx. auto.
        * intros p Hp. rewrite concat_app in Hp. cbn [concat] in Hp. rewrite app_nil_r in Hp.
          apply in_app_or in Hp. destruct Hp as [Hp|Hp]; [apply Dn; exact Hp|]. destruct (M1 p Hp) as (A & B & _). auto.
      + apply in_or_app. right. left. reflexivity.
  Qed.

  Lemma seeds_ok : forall fuel order t gid groups, OI t gid groups -> V < fuel ->
    (forall p, In p order -> p < V /\ dense p = true) -> (In f (concat groups) \/ exists rest, order = f :: rest) ->
    exists t' gid' groups', fold_left (seed plain nb fuel) order (Some (t, gid, groups)) = Some (t', gid', groups') /\
      OI t' gid' groups' /\ (forall p, In p order \/ In p (concat groups) -> In p (concat groups')).
  Proof.
    intros fuel order. induction order as [|i order IH]; intros t gid groups O Hf Ho Hff.
    - exists t, gid, groups. cbn. split; [reflexivity|]. split; [exact O|]. tauto.
    - cbn [fold_left]. destruct (Ho i (or_introl eq_refl)) as [Iv Id].
      destruct (seed_ok fuel t gid groups i O Hf Iv Id) as (t1 & g1 & new & E & O1 & I1).
      { destruct Hff as [H|(r & H)]; [left; exact H|right; congruence]. }
      rewrite E. destruct (IH t1 g1 (groups ++ new) O1 Hf) as (t2 & g2 & gr & E2 & O2 & I2).
      + intros p Hp. apply Ho. right. exact Hp.
      + left. destruct Hff as [H|(r & H)]; [rewrite concat_app; apply in_or_app; left; exact H|].
        injection H as -> _. exact I1.
      + exists t2, g2, gr. split; [exact E2|]. split; [exact O2|].
        intros p [[<-|H]|H]; apply I2; [right; exact I1|left; exact H|right].
        rewrite concat_app. apply in_or_app. left. exact H.
  Qed.

  Theorem groups_are_clusters : forall fuel m2h order, V < fuel ->
    (forall q, q < V -> q <> f -> (0 < m2h q <-> dense q = true)) ->
    (forall p, In p order <-> p < V /\ dense p = true) -> (order = [] \/ exists rest, order = f :: rest) ->
    exists t gid groups, groupTags plain nb fuel m2h order = Some (t, gid, groups) /\
      NoDup (concat groups) /\ (forall p, In p (concat groups) <-> p < V /\ dense p = true) /\
      (forall grp p q, In grp groups -> In p grp -> (In q grp <-> conn p q)).
  Proof.
    intros fuel m2h order Hf Hl Ho Hff. unfold groupTags.
    destruct Hff as [->|Hff].
    - exists (Tags (fun _ => false) (fun _ => false) m2h), 1, []. cbn. split; [reflexivity|]. split; [constructor|].
      split; [intro p; rewrite <- Ho; reflexivity|]. intros grp p q [].
    - destruct (seeds_ok fuel order (Tags (fun _ => false) (fun _ => false) m2h) 1 []) as (t & gid & groups & E & O & I); try assumption.
      + split; [lia|]. cbn. split; [intro; split; [discriminate|tauto]|]. split; [intro; split; [discriminate|tauto]|].
        split; [exact Hl|]. split; [constructor|]. split; [constructor|]. intros p [].
      + intros p Hp. apply Ho. exact Hp.
      + right. exact Hff.
      + exists t, gid, groups. split; [exact E|]. destruct O as (_ & _ & _ & _ & N & Cm & Dn). split; [exact N|].
        split; [intro p; split; [apply Dn|intro H; apply I; left; apply Ho; exact H]|].
        intros grp p q Hg Hp. rewrite Forall_forall in Cm. destruct (Cm grp Hg) as (s0 & _ & _ & Q).
        apply Q in Hp. rewrite Q. split; intro H; [eapply rt_trans; [apply conn_sym; exact Hp|exact H]|eapply rt_trans; eassumption].
  Qed.
End Clusters.
