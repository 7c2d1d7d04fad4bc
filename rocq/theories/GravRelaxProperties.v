(** Relaxation towards the potential, and the choice of method. *)
From Coq Require Import Reals List Arith ZArith Bool Lia Lra.
From Verif Require Import KernelModel LaplModel GravModel GravSpec GravProofs.
Import ListNotations.
Ltac Zify.zify_post_hook ::= idtac.
Local Open Scope R_scope.

(** ** C105: relaxation *)
Lemma lap_laplacian PC L T ood2 f s : lap PC (length PC) ood2 (f s) (fun nv e => f (stepTo L T nv e s)) = ood2 * laplacian L T 1 PC f s.
Proof.
  unfold lap. assert (G : forall q k a, (forall i, (i < length q)%nat -> nth i q 0 = nth (k - 1 + i) PC 0) -> (1 <= k)%nat ->
    fold_left (fun lap nv => lap + shell (f s) (fun e => f (stepTo L T nv e s)) * (nth (nv - 1) PC 0 * ood2)) (seq k (length q)) a = a + ood2 * laplacian L T k q f s).
  { induction q as [|c q IH]; intros k a H K; cbn [length seq fold_left laplacian]; [ring|]. rewrite IH; [|intros i Hi; specialize (H (S i) ltac:(cbn; lia)); cbn in H; rewrite H; f_equal; lia|lia].
    specialize (H 0%nat ltac:(cbn; lia)). cbn [nth] in H. rewrite Nat.add_0_r in H. rewrite <- H. unfold shell, ring. destruct s as [[x y] z]. cbn [stepTo]. ring. }
  rewrite (G PC 1%nat 0); [ring|reflexivity|lia].
Qed.
Lemma relaxSite_eq PC L T beta src f s : relaxSite PC L T beta src f s = f s + ood2Of PC * (laplacian L T 1 PC f s - beta * src s).
Proof. unfold relaxSite. cbv zeta. rewrite lap_laplacian. ring. Qed.
Lemma laplacian_ext L T PC : forall d f h s, (forall t, f t = h t) -> laplacian L T d PC f s = laplacian L T d PC h s.
Proof.
  induction PC as [|c q IH]; intros d f h s E; [reflexivity|]. cbn [laplacian]. rewrite (IH _ f h s E). f_equal. f_equal. unfold ring. destruct s as [[x y] z]. rewrite !E. reflexivity.
Qed.
(** Sweeping changes nothing exactly when the potential satisfies the discrete Poisson equation at the sites swept, whatever the
    order of the threads and whichever values they see late *)
Theorem relax_fixed_point : forall PC L T beta src stale order f, fold_left Rplus PC 0 <> 0 -> NoDup order ->
  ((forall s, sweep PC L T beta src stale order f s = f s) <-> (forall s, In s order -> laplacian L T 1 PC f s = beta * src s)).
Proof.
  intros PC L T beta src stale order f P ND. assert (O : ood2Of PC <> 0) by (unfold ood2Of; lra). unfold sweep.
  assert (G : forall cur, (forall t, cur t = f t) ->
    ((forall s, fold_left (fun cur s => gput cur s (relaxSite PC L T beta src (fun t => if siteEq t s then cur t else if stale s t then f t else cur t) s)) order cur s = f s) <->
     (forall s, In s order -> laplacian L T 1 PC f s = beta * src s))).
  2:{ apply G. reflexivity. }
  induction ND as [|s order Hs ND IH]; intros cur HC.
  - cbn [fold_left]. split; [intros _ s []|intros _; exact HC].
  - cbn [fold_left]. set (new := relaxSite _ _ _ _ _ _ s). assert (EN : new = f s + ood2Of PC * (laplacian L T 1 PC f s - beta * src s)).
    { unfold new. rewrite relaxSite_eq, (proj2 (siteEq_spec s s) eq_refl), HC. f_equal. f_equal. f_equal. apply laplacian_ext. intros t. destruct (siteEq t s), (stale s t); auto. }
    assert (KEEP : forall o cur, ~ In s o -> fold_left (fun cur s => gput cur s (relaxSite PC L T beta src (fun t => if siteEq t s then cur t else if stale s t then f t else cur t) s)) o cur s = cur s).
    { clear. induction o as [|a o IH]; intros cur H; [reflexivity|]. cbn [fold_left]. rewrite IH by (intros Q; apply H; right; exact Q). apply gput_other. intros ->. apply H. left. reflexivity. }
    assert (STEP : laplacian L T 1 PC f s = beta * src s -> forall t, gput cur s new t = f t).
    { intros Q t. unfold gput. destruct (siteEq t s) eqn:X; [apply siteEq_spec in X; subst t; rewrite EN, Q; ring|apply HC]. }
    split.
    + intros H. assert (Q : laplacian L T 1 PC f s = beta * src s).
      { specialize (H s). rewrite KEEP in H by exact Hs. rewrite gput_same, EN in H. assert (Z : ood2Of PC * (laplacian L T 1 PC f s - beta * src s) = 0) by lra. apply Rmult_integral in Z. destruct Z; [contradiction|lra]. }
      intros t [<-|Ht]; [exact Q|]. apply (IH (gput cur s new) (STEP Q)); assumption.
    + intros H. apply IH; [apply STEP, H; left; reflexivity|]. intros t Ht. apply H. right. exact Ht.
Qed.
(** With a stencil of one neighbour and no source the values stay within their range, in any order *)
Theorem relax_bounds_partial : forall L T src stale order f a b, (forall s, a <= f s <= b) -> forall s, a <= sweep (setCO 1) L T 0 src stale order f s <= b.
Proof.
  intros L T src stale order f a b H. unfold sweep. assert (G : forall cur, (forall s, a <= cur s <= b) -> forall s, a <= fold_left (fun cur s => gput cur s (relaxSite (setCO 1) L T 0 src (fun t => if siteEq t s then cur t else if stale s t then f t else cur t) s)) order cur s <= b).
  2:{ apply G, H. }
  induction order as [|s order IH]; intros cur HC; [exact HC|]. cbn [fold_left]. apply IH. intros t. unfold gput. destruct (siteEq t s); [|apply HC]. set (h := fun t : gsite => _). rewrite relaxSite_eq.
  assert (HH : forall t, a <= h t <= b) by (intros u; unfold h; destruct (siteEq u s), (stale s u); auto). clearbody h. destruct s as [[x y] z]. cbn [setCO laplacian].
  pose proof (HH ((x + 1) mod L, y, z)%nat) as H1. pose proof (HH ((x + (L - 1 mod L)) mod L, y, z)%nat) as H2. pose proof (HH (x, (y + 1) mod L, z)%nat) as H3. pose proof (HH (x, (y + (L - 1 mod L)) mod L, z)%nat) as H4.
  pose proof (HH (x, y, (z + 1) mod T)%nat) as H5. pose proof (HH (x, y, (z + (T - 1 mod T)) mod T)%nat) as H6. unfold ring, ood2Of. cbn [fold_left]. set (c := src _). clearbody c. repeat match goal with H : _ <= h ?p <= _ |- _ => let v := fresh "v" in set (v := h p) in *; clearbody v end. split; lra.
Qed.
(** With two neighbours the value of a site counts negatively: a bump alone becomes a hole *)
Definition spike (s : gsite) : R := if siteEq s (2, 2, 2)%nat then 1 else 0.
Theorem relax_bounds_refuted : exists L T src order, (forall s, 0 <= spike s <= 1) /\ sweep (setCO 2) L T 0 src (fun _ _ => false) order spike (2, 2, 2)%nat = - (9 / 16).
Proof.
  exists 8%nat, 8%nat, (fun _ => 0), [(2, 2, 2)%nat]. split; [intros s; unfold spike; destruct (siteEq _ _); lra|]. unfold sweep. cbn [fold_left]. rewrite gput_same, relaxSite_eq.
  cbn [setCO laplacian]. unfold ring, ood2Of, spike. cbn -[Rplus Rminus Rmult Rdiv IZR]. field.
Qed.
Lemma spike_gone rest t : sweep (setCO 1) 4 4 0 (fun _ => 0) (fun _ _ => false) ((2, 2, 2)%nat :: rest) spike t = 0.
Proof.
  unfold sweep. cbn [fold_left]. set (new := relaxSite _ _ _ _ _ _ _). assert (N0 : new = 0).
  { unfold new. rewrite relaxSite_eq. cbn [setCO laplacian]. unfold ring, ood2Of, spike. cbn -[Rplus Rminus Rmult Rdiv IZR]. field. }
  clearbody new. subst new. assert (Z : forall u, gput spike (2, 2, 2)%nat 0 u = 0) by (intros u; unfold gput; destruct (siteEq u (2, 2, 2)%nat) eqn:E; [reflexivity|unfold spike; rewrite E; reflexivity]).
  revert Z. generalize (gput spike (2, 2, 2)%nat 0). induction rest as [|s rest IH]; intros cur Z; [apply Z|]. cbn [fold_left]. apply IH. intros u. unfold gput. destruct (siteEq u s); [|apply Z].
  match goal with |- relaxSite _ _ _ _ _ ?q _ = _ => set (h := q) end. assert (HZ : forall v, h v = 0) by (intros v; unfold h; destruct (siteEq v s); apply Z). rewrite relaxSite_eq, HZ. destruct s as [[x y] z]. cbn [setCO laplacian]. unfold ring. rewrite !HZ. ring.
Qed.
Lemma box_order n : let o := (2, 2, 2)%nat :: filter (fun t => negb (siteEq t (2, 2, 2)%nat)) (list_prod (list_prod (seq 0 n) (seq 0 n)) (seq 0 n)) in
  (2 < n)%nat -> NoDup o /\ (forall x y z, In (x, y, z) o <-> x < n /\ y < n /\ z < n)%nat.
Proof.
  cbv zeta. intros N. split.
  - constructor; [intros Q; apply filter_In in Q; destruct Q as [_ Q]; discriminate|]. apply NoDup_filter. apply nodup_prod; [apply nodup_prod|]; apply seq_NoDup.
  - intros x y z. cbn [In]. rewrite filter_In, !in_prod_iff, !in_seq. split.
    + intros [Q|[Q _]]; [inversion Q; subst; lia|lia].
    + intros Q. destruct (siteEq (x, y, z) (2, 2, 2)%nat) eqn:E; [left; apply siteEq_spec in E; symmetry; exact E|right; split; [lia|reflexivity]].
Qed.
(** Sweeping in place does not keep the sum: a bump may vanish altogether *)
Theorem relax_sum_refuted : exists L T src order s, NoDup order /\ (forall x y z, In (x, y, z) order <-> x < L /\ y < L /\ z < T)%nat /\ spike s = 1 /\
  forall t, sweep (setCO 1) L T 0 src (fun _ _ => false) order spike t = 0.
Proof.
  destruct (box_order 4 ltac:(lia)) as [B1 B2]. eexists 4%nat, 4%nat, (fun _ => 0), _, (2, 2, 2)%nat. split; [exact B1|split; [exact B2|split; [reflexivity|]]]. intros t. apply spike_gone.
Qed.
(** In double precision the neighbours are read from memory that does not belong to the potential *)
Theorem relax_double_refuted : forall PC L T beta src stale order f, relaxRun true PC L T beta src stale order f = None.
Proof. reflexivity. Qed.
Example relax_case : fold_left Rplus (setCO 2) 0 <> 0 /\ forall s, laplacian 8 8 1 (setCO 2) (fun _ => 3) s = 2 * 0.
Proof. split; [cbn; lra|]. intros [[x y] z]. cbn [setCO laplacian ring]. unfold ring. field. Qed.

(** ** The choice of method *)
(** The factor kept is the fastest one if it beats the full transform; otherwise the full transform is kept *)
Theorem relax_tuning_best : forall g full t hy fo sm, tunehybrid g full t = TDone hy fo sm ->
  (hy = true -> In fo [2; 4; 8; 16]%nat /\ t fo < full /\ (forall o, In o [2; 4; 8; 16]%nat -> t fo <= t o) /\ sm = (2 * fo)%nat) /\
  (hy = false -> forall o, In o [2; 4; 8; 16]%nat -> full <= t o).
Proof.
  intros g full t hy fo sm H. unfold tunehybrid in H. cbv zeta in H. destruct (existsb _ _); [discriminate|]. cbn [fold_left] in H.
  repeat match type of H with context [Rlt_dec ?a ?b] => destruct (Rlt_dec a b) end; cbn [Nat.eqb] in H; inversion H; subst; split; intros E; first
    [discriminate
    |split; [cbn [In]; tauto|split; [lra|split; [intros o [<-|[<-|[<-|[<-|[]]]]]; lra|reflexivity]]]
    |intros o [<-|[<-|[<-|[<-|[]]]]]; lra].
Qed.
(** Tuning ends the program unless 16 divides the side and the slices of each rank *)
Theorem tuning_runs : forall g full t, tunehybrid g full t <> TExits <-> (bL g mod 16 = 0 /\ bLz g mod 16 = 0)%nat.
Proof.
  intros g full t. unfold tunehybrid. cbv zeta. set (bad := existsb _ _).
  assert (D : bad = false <-> (bL g mod 16 = 0 /\ bLz g mod 16 = 0)%nat).
  { unfold bad. cbn [existsb]. rewrite !orb_false_iff, !negb_false_iff, !andb_true_iff, !Nat.eqb_eq. generalize (bL g) (bLz g). intros L Z.
    assert (W : forall n q, (0 < q)%nat -> (q * (n / q) = n <-> n mod q = 0)%nat) by (intros n q Hq; pose proof (Nat.div_mod n q ltac:(lia)); lia).
    rewrite !W by lia. assert (X : forall n q k, (q * k = 16 -> 0 < q -> n mod 16 = 0 -> n mod q = 0)%nat).
    { intros n q k E Hq H. apply Nat.mod_divide; [lia|]. apply Nat.mod_divide in H; [|lia]. destruct H as [u ->]. exists (u * k)%nat. rewrite <- E. ring. }
    split; [tauto|]. intros [H1 H2]. repeat split; try assumption; [apply (X L 2%nat 8%nat)|apply (X Z 2%nat 8%nat)|apply (X L 4%nat 4%nat)|apply (X Z 4%nat 4%nat)|apply (X L 8%nat 2%nat)|apply (X Z 8%nat 2%nat)]; (assumption || lia). }
  destruct bad eqn:B; [split; [intros H; contradiction|intros H; apply D in H; discriminate]|]. split; [intros _; apply D; reflexivity|]. intros _. destruct (fold_left _ _ _) as [d b]. destruct (b =? 1)%nat; discriminate.
Qed.
(** A box of 64 on eight ranks cannot be tuned *)
Theorem tuning_runs_refuted : forall full t, tunehybrid (GBox 64 64 8 2) full t = TExits.
Proof. reflexivity. Qed.
Example tuning_case : exists fo sm, tunehybrid (GBox 32 32 1 2) 5 (fun fo => if (fo =? 4)%nat then 1 else 3) = TDone true fo sm.
Proof.
  unfold tunehybrid. cbn -[Rlt_dec]. repeat match goal with |- context [Rlt_dec ?a ?b] => destruct (Rlt_dec a b); try (exfalso; lra) end. cbn. eauto.
Qed.

Print Assumptions relax_fixed_point.
Print Assumptions relax_bounds_partial.
Print Assumptions relax_bounds_refuted.
Print Assumptions relax_sum_refuted.
Print Assumptions relax_double_refuted.
Print Assumptions relax_tuning_best.
Print Assumptions tuning_runs.
Print Assumptions tuning_runs_refuted.
