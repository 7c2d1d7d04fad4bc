From Coq Require Import Reals ZArith Lra Lia List Arith Permutation Bool.
From Verif Require Import MomModel MomSpec.
Import ListNotations.
Local Open Scope R_scope.
Ltac Zify.zify_post_hook ::= idtac.

(** *** Places *)
Lemma place_alt g oy oz ox : place g (oy, oz, ox) = ((oy * gT g + oz) * maxLx g + ox)%nat.
Proof. unfold place. ring. Qed.
Lemma in_turns g oy oz ox : In (oy, oz, ox) (turns g) <-> (oy < rows g)%nat /\ (oz < gT g)%nat /\ (ox < maxLx g)%nat.
Proof. unfold turns. rewrite !in_prod_iff, !in_seq. intuition lia. Qed.
Lemma radix a b x y n : (x < n)%nat -> (y < n)%nat -> (a * n + x = b * n + y)%nat -> a = b /\ x = y.
Proof.
  intros X Y E. assert (N : n <> 0%nat) by lia.
  assert (A : ((a * n + x) / n = a)%nat) by (rewrite Nat.div_add_l, Nat.div_small by assumption; lia).
  assert (B : ((b * n + y) / n = b)%nat) by (rewrite Nat.div_add_l, Nat.div_small by assumption; lia).
  rewrite E in A. split; [congruence|]. assert (a = b) by congruence. subst. lia.
Qed.
Lemma place_inj g t u : In t (turns g) -> In u (turns g) -> place g t = place g u -> t = u.
Proof.
  destruct t as [[a b] c], u as [[d e] f]. rewrite !in_turns, !place_alt. intros [A [B C]] [D [E F]] H.
  destruct (radix _ _ _ _ _ C F H) as [H1 ->]. destruct (radix _ _ _ _ _ B E H1) as [-> ->]. reflexivity.
Qed.
Lemma NoDup_prod {A B} (l : list A) (m : list B) : NoDup l -> NoDup m -> NoDup (list_prod l m).
Proof.
  induction l as [|x l IH]; intros L M; cbn; [constructor|]. inversion L as [|? ? N L']; subst.
  assert (K : forall l1 l2 : list (A * B), NoDup l1 -> NoDup l2 -> (forall z, In z l1 -> ~ In z l2) -> NoDup (l1 ++ l2)).
  { clear. induction l1 as [|z l1 IH]; intros l2 H1 H2 H; [exact H2|]. inversion H1; subst. cbn. constructor.
    - rewrite in_app_iff. intros [Q|Q]; [contradiction|]. exact (H z (or_introl eq_refl) Q).
    - apply IH; auto. intros w W. apply H. right; exact W. }
  apply K; [|apply IH; assumption|].
  - clear - M. induction m as [|y m IH]; cbn; [constructor|]. inversion M; subst. constructor; [|apply IH; assumption]. rewrite in_map_iff. intros [w [E W]]. injection E as ->. contradiction.
  - intros [a b] H. rewrite in_map_iff in H. destruct H as [y [E _]]. injection E as -> ->. rewrite in_prod_iff. tauto.
Qed.
Lemma NoDup_turns g : NoDup (turns g).
Proof. unfold turns. apply NoDup_prod; [apply NoDup_prod|]; apply seq_NoDup. Qed.

(** *** Momenta *)
Lemma signed_zone n o : (o < n)%nat -> inZone n (signed n o) /\ Z.to_nat (signed n o mod Z.of_nat n)%Z = o.
Proof.
  intros H. unfold signed, inZone. pose proof (Nat.div_mod n 2 ltac:(lia)) as D. pose proof (Nat.mod_upper_bound n 2 ltac:(lia)) as M.
  destruct (Nat.ltb_spec (n / 2) o).
  - split; [lia|]. replace (Z.of_nat o - Z.of_nat n)%Z with (Z.of_nat o + (-1) * Z.of_nat n)%Z by ring. rewrite Z.mod_add by lia. rewrite Z.mod_small by lia. lia.
  - split; [lia|]. rewrite Z.mod_small by lia. lia.
Qed.
Lemma zone_unique n p q : inZone n p -> inZone n q -> (p mod Z.of_nat n = q mod Z.of_nat n)%Z -> p = q.
Proof.
  unfold inZone. intros P Q E. assert (N : (0 < Z.of_nat n)%Z) by lia.
  pose proof (Z.div_mod p (Z.of_nat n) ltac:(lia)) as A. pose proof (Z.div_mod q (Z.of_nat n) ltac:(lia)) as B.
  rewrite E in A. set (m := Z.of_nat n) in *. set (a := (p / m)%Z) in *. set (b := (q / m)%Z) in *.
  assert (D : (p - q = m * (a - b))%Z) by (rewrite Z.mul_sub_distr_l; lia).
  assert (K : (a - b = 0)%Z).
  { destruct (Z.eq_dec (a - b) 0) as [|Z0]; [assumption|]. exfalso. assert (H : (m <= Z.abs (p - q))%Z).
    { rewrite D, Z.abs_mul. rewrite (Z.abs_eq m) by lia. rewrite <- (Z.mul_1_r m) at 1. apply Z.mul_le_mono_nonneg_l; lia. }
    lia. }
  rewrite K, Z.mul_0_r in D. lia.
Qed.
Lemma zone_signed n p : inZone n p -> signed n (Z.to_nat (p mod Z.of_nat n)%Z) = p.
Proof.
  intros P. assert (N : (0 < Z.of_nat n)%Z) by (unfold inZone in P; lia). pose proof (Z.mod_pos_bound p _ N) as B.
  destruct (signed_zone n (Z.to_nat (p mod Z.of_nat n)%Z) ltac:(lia)) as [Z1 Z2]. apply (zone_unique n); [exact Z1|exact P|].
  pose proof (Z.mod_pos_bound (signed n (Z.to_nat (p mod Z.of_nat n)%Z)) _ N). apply Z2Nat.inj; [lia|lia|exact Z2].
Qed.
Lemma rows_all g : sane g -> (rows g * gN g = gL g)%nat.
Proof. intros [_ [_ [N M]]]. unfold rows. pose proof (Nat.div_mod (gL g) (gN g) ltac:(lia)) as D. rewrite M in D. rewrite Nat.mul_comm. lia. Qed.
Definition turnOf (g : geo) (p : Z * Z * Z) (rank : nat) : turn :=
  let '(px, py, pz) := p in let w := fun n k => Z.to_nat (k mod Z.of_nat n)%Z in
  ((w (gL g) py - rank * rows g)%nat, w (gT g) pz, w (gL g) px).
Lemma turnOf_ok g p rank i : sane g -> inBox g p -> placed g p rank i ->
  In (turnOf g p rank) (turns g) /\ place g (turnOf g p rank) = i /\ momentum g rank (turnOf g p rank) = p.
Proof.
  destruct p as [[px py] pz]. intros S [PX [PY PZ]] [E [R X]]. fold (rows g) in E, R. unfold turnOf. cbv zeta beta in *.
  set (wy := Z.to_nat (py mod Z.of_nat (gL g))) in *. set (wz := Z.to_nat (pz mod Z.of_nat (gT g))) in *. set (wx := Z.to_nat (px mod Z.of_nat (gL g))) in *.
  assert (T : (wz < gT g)%nat). { destruct S as [_ [T _]]. pose proof (Z.mod_pos_bound pz (Z.of_nat (gT g)) ltac:(lia)). unfold wz. lia. }
  split; [rewrite in_turns; repeat split; try assumption; lia|]. split; [rewrite E; unfold place; ring|].
  unfold momentum. replace (wy - rank * rows g + rows g * rank)%nat with wy by lia. unfold wx, wy, wz. rewrite !zone_signed by assumption. reflexivity.
Qed.
Lemma placed_exists g rank t : sane g -> (rank < gN g)%nat -> In t (turns g) -> inBox g (momentum g rank t) /\ placed g (momentum g rank t) rank (place g t).
Proof.
  destruct t as [[oy oz] ox]. rewrite in_turns. intros S K [Y [Z X]]. pose proof (rows_all g S) as RA.
  assert (YY : (oy + rows g * rank < gL g)%nat).
  { rewrite <- RA. apply Nat.lt_le_trans with (rows g * (rank + 1))%nat; [lia|apply Nat.mul_le_mono_l; lia]. }
  assert (XX : (ox < gL g)%nat).
  { destruct S as [L _]. unfold maxLx in X. destruct (gC g); [exact X|]. pose proof (Nat.div_mod (gL g) 2 ltac:(lia)). pose proof (Nat.mod_upper_bound (gL g) 2 ltac:(lia)).
    destruct (Nat.eq_dec (gL g) 1) as [E|E]; [rewrite E in *; cbn in *; lia|lia]. }
  destruct (signed_zone _ _ XX) as [X1 X2]. destruct (signed_zone _ _ YY) as [Y1 Y2]. destruct (signed_zone _ _ Z) as [Z1 Z2].
  unfold momentum. split; [repeat split; try apply X1; try apply Y1; apply Z1|].
  unfold placed. cbv zeta beta. fold (rows g). rewrite X2, Y2, Z2. split; [|split; [split; lia|exact X]].
  unfold place. replace (oy + rows g * rank - rank * rows g)%nat with oy by lia. ring.
Qed.

(** *** The loop *)
Definition wr g m q dd rank t : option (C * option C) :=
  if (modP (momentum g rank t) <=? 3 * (Z.of_nat (kmax g q) * Z.of_nat (kmax g q)))%Z then amp g m q (dd t) (modP (momentum g rank t)) else Some ((0, 0), None).
Lemma writeAt_wr g m q dd rank s t : writeAt g m q dd rank (Some s) t =
  match wr g m q dd rank t with
  | None => None
  | Some (a, ob) => Some (Store (set (place g t) a (fM s)) (match ob with None => fV s | Some b => set (place g t) b (fV s) end))
  end.
Proof. unfold writeAt, wr. destruct (Z.leb _ _); [|reflexivity]. destruct (amp _ _ _ _ _) as [[a [b|]]|]; reflexivity. Qed.
Lemma fold_none g m q dd rank l : fold_left (writeAt g m q dd rank) l None = None.
Proof. induction l as [|t l IH]; [reflexivity|exact IH]. Qed.
Lemma set_same i x f : set i x f i = x. Proof. unfold set. rewrite Nat.eqb_refl. reflexivity. Qed.
Lemma set_other i j x f : j <> i -> set i x f j = f j. Proof. unfold set. intros H. destruct (Nat.eqb_spec j i); [contradiction|reflexivity]. Qed.
Lemma loop_other g m q dd rank l s s' i : (forall t, In t l -> place g t <> i) -> fold_left (writeAt g m q dd rank) l (Some s) = Some s' -> fM s' i = fM s i /\ fV s' i = fV s i.
Proof.
  revert s. induction l as [|t l IH]; intros s H E; [injection E as <-; split; reflexivity|].
  cbn [fold_left] in E. rewrite writeAt_wr in E. destruct (wr g m q dd rank t) as [[a ob]|]; [|rewrite fold_none in E; discriminate].
  destruct (IH _ (fun u U => H u (or_intror U)) E) as [A B]. cbn [fM fV] in A, B.
  pose proof (H t (or_introl eq_refl)) as N. rewrite A, B. rewrite set_other by congruence. split; [reflexivity|].
  destruct ob; [rewrite set_other by congruence|]; reflexivity.
Qed.
Lemma loop_at g m q dd rank l s s' t : NoDup l -> (forall u v, In u l -> In v l -> place g u = place g v -> u = v) -> In t l ->
  fold_left (writeAt g m q dd rank) l (Some s) = Some s' ->
  exists a ob, wr g m q dd rank t = Some (a, ob) /\ fM s' (place g t) = a /\ fV s' (place g t) = match ob with None => fV s (place g t) | Some b => b end.
Proof.
  revert s. induction l as [|u l IH]; intros s N J I E; [contradiction|]. inversion N as [|? ? NU NL]; subst.
  cbn [fold_left] in E. rewrite writeAt_wr in E. destruct (wr g m q dd rank u) as [[a ob]|] eqn:W; [|rewrite fold_none in E; discriminate].
  destruct I as [<-|I].
  - exists a, ob. split; [exact W|]. apply (loop_other g m q dd rank l _ s' (place g u)) in E.
    + destruct E as [A B]. cbn [fM fV] in A, B. rewrite A, B, set_same. split; [reflexivity|]. destruct ob; [rewrite set_same|]; reflexivity.
    + intros v V Q. apply J in Q; [subst; contradiction|right; exact V|left; reflexivity].
  - destruct (IH _ NL (fun x y X Y => J x y (or_intror X) (or_intror Y)) I E) as [a' [ob' [A [B D]]]]. exists a', ob'. split; [exact A|]. split; [exact B|].
    rewrite D. destruct ob'; [reflexivity|]. cbn [fV].
    assert (Q : place g t <> place g u) by (intros Q; apply J in Q; [subst; contradiction|right; exact I|left; reflexivity]).
    destruct ob; [rewrite set_other by exact Q|]; reflexivity.
Qed.
Lemma loop_some g m q dd rank l s : (forall t, In t l -> wr g m q dd rank t <> None) -> exists s', fold_left (writeAt g m q dd rank) l (Some s) = Some s'.
Proof.
  revert s. induction l as [|t l IH]; intros s H; [exists s; reflexivity|]. cbn [fold_left]. rewrite writeAt_wr.
  destruct (wr g m q dd rank t) as [[a ob]|] eqn:W; [|destruct (H t (or_introl eq_refl) W)]. apply IH. intros u U. apply H. right; exact U.
Qed.
Lemma loop_none g m q dd rank l s t : In t l -> wr g m q dd rank t = None -> fold_left (writeAt g m q dd rank) l (Some s) = None.
Proof.
  revert s. induction l as [|u l IH]; intros s I W; [contradiction|]. cbn [fold_left]. rewrite writeAt_wr. destruct I as [->|I].
  - rewrite W. apply fold_none.
  - destruct (wr g m q dd rank u) as [[a ob]|]; [apply IH; assumption|apply fold_none].
Qed.
Lemma adjust_other m rank phase mode0 s i : (m = Spax \/ rank <> 0%nat \/ i <> 0%nat) -> fM (snd (adjust m rank phase mode0 s)) i = fM s i /\ fV (snd (adjust m rank phase mode0 s)) i = fV s i.
Proof.
  intros H. unfold adjust. destruct m; try (split; reflexivity); (destruct (Nat.eqb_spec rank 0) as [->|]; [|split; reflexivity]);
  (destruct (Rlt_dec mode0 3.141597); [|split; reflexivity]); (destruct H as [H|[H|H]]; [discriminate|contradiction|]); cbn [snd fM fV]; rewrite set_other by exact H; split; reflexivity.
Qed.
Lemma loop_mode g m q dd rank order s s' p i : sane g -> Permutation order (turns g) -> inBox g p -> placed g p rank i ->
  fold_left (writeAt g m q dd rank) order (Some s) = Some s' ->
  exists t a ob, In t (turns g) /\ place g t = i /\ momentum g rank t = p /\ wr g m q dd rank t = Some (a, ob) /\ fM s' i = a /\ fV s' i = match ob with None => fV s i | Some b => b end.
Proof.
  intros S P B L E. destruct (turnOf_ok g p rank i S B L) as [I [Q M]].
  destruct (loop_at g m q dd rank order s s' (turnOf g p rank)) as [a [ob [W [A V]]]].
  - apply Permutation_sym in P. eapply Permutation_NoDup; [exact P|apply NoDup_turns].
  - intros u v U V. apply place_inj; [apply (Permutation_in _ P U)|apply (Permutation_in _ P V)].
  - apply (Permutation_in _ (Permutation_sym P) I).
  - exact E.
  - exists (turnOf g p rank), a, ob. rewrite Q in A, V. repeat split; assumption.
Qed.
