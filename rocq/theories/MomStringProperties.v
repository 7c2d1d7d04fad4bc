(** C118: a string given by points, in momentum space. *)
From Coq Require Import Reals ZArith Lra Lia List Arith Bool.
From Verif Require Import ConserveProofs PaxProofs.
From Verif Require Import MomModel MomSpec.
Import ListNotations.
Local Open Scope R_scope.
Ltac Zify.zify_post_hook ::= idtac.

(** A piece not at right angles to the momentum is the integral of the plane wave over it, times its factor. *)
Lemma dl_along p a b s : derivable_pt_lim (along p a b) s (dotZ p (minus b a)).
Proof.
  unfold along. eapply dl_eq; [apply (dl_plus (fun _ => dotZ p a) (fun s => s * dotZ p (minus b a))); [apply dl_const|apply dl_scal, dl_idv]|ring].
Qed.
Theorem piece_right k0N p a b : k0N <> 0 -> dotZ p (minus b a) <> 0 -> exists w, piece k0N p a b = scaC (factor p (minus b a)) w /\ waveOver k0N p a b w.
Proof.
  intros K D. unfold piece. eexists. split; [reflexivity|]. set (d := dotZ p (minus b a)) in *.
  assert (A : forall s, derivable_pt_lim (fun s => k0N * along p a b s) s (k0N * d)).
  { intros s. eapply dl_eq; [apply (dl_mult (fun _ => k0N) (along p a b)); [apply dl_const|apply dl_along]|fold d; ring]. }
  unfold aux. destruct (Req_EM_T d 0); [contradiction|]. assert (KD : k0N * d <> 0) by (apply Rmult_integral_contrapositive; split; assumption).
  assert (E1 : k0N * along p a b 1 = k0N * dotZ p a + k0N * d) by (unfold along; fold d; ring). assert (E0 : k0N * along p a b 0 = k0N * dotZ p a) by (unfold along; fold d; ring).
  set (x := k0N * dotZ p a) in *. set (y := k0N * d) in *. unfold waveOver, integral01, mulC, expI, scaC. cbn [fst snd]. rewrite cos_neg, sin_neg. split.
  - exists (fun s => sin (k0N * along p a b s) * / y). split.
    + intros s. eapply dl_eq; [apply dl_scal; apply dl_sin; apply A|]. cbv beta. fold y. field. exact KD.
    + rewrite E1, E0. rewrite sin_plus. field. exact KD.
  - exists (fun s => cos (k0N * along p a b s) * / y). split.
    + intros s. eapply dl_eq; [apply dl_scal; apply dl_cos; apply A|]. cbv beta. fold y. field. exact KD.
    + rewrite E1, E0. rewrite cos_plus. field. exact KD.
Qed.
(** A mode with a first component sums all pieces, in order, once. *)
Fixpoint total (k0N : R) (p : Z * Z * Z) (pts : list pt) : C :=
  match pts with a :: (b :: _) as tl => addC (piece k0N p a b) (total k0N p tl) | _ => (0, 0) end.
Lemma addC_assoc a b c : addC (addC a b) c = addC a (addC b c).
Proof. unfold addC. cbn [fst snd]. f_equal; ring. Qed.
Lemma addC_0 a : addC a (0, 0) = a.
Proof. unfold addC. cbn [fst snd]. rewrite !Rplus_0_r. destruct a; reflexivity. Qed.
Lemma sum_from k0N p front rest su : sumPieces k0N p (front ++ rest) (length rest - 1) (length front) su = Some (addC su (total k0N p rest)).
Proof.
  revert front su. induction rest as [|a rest IH]; intros front su; [cbn; rewrite addC_0; reflexivity|].
  destruct rest as [|b rest]; [cbn; rewrite addC_0; reflexivity|]. cbn [length Nat.sub sumPieces].
  rewrite nth_error_app2, Nat.sub_diag by lia. rewrite nth_error_app2 by lia. replace (length front + 1 - length front)%nat with 1%nat by lia. cbn [nth_error].
  specialize (IH (front ++ [a]) (addC su (piece k0N p a b))). rewrite app_length in IH. cbn [length] in IH. rewrite <- app_assoc in IH. cbn [app Nat.sub] in IH.
  rewrite Nat.sub_0_r in IH. rewrite IH. f_equal. rewrite addC_assoc. reflexivity.
Qed.
Definition sumC (l : list C) : C := fold_right addC (0, 0) l.
Theorem string_mode_partial k0N ik02 px py pz pts : k0N <> 0 -> px <> 0%Z -> (forall i a b, nth_error pts i = Some a -> nth_error pts (S i) = Some b -> dotZ (px, py, pz) (minus b a) <> 0) ->
  exists ws, length ws = (length pts - 1)%nat /\
    (forall i a b, nth_error pts i = Some a -> nth_error pts (S i) = Some b -> exists w, waveOver k0N (px, py, pz) a b w /\ nth_error ws i = Some (scaC ((IZR py * (snd b - snd a) - IZR pz * (snd (fst b) - snd (fst a))) / (IZR px * IZR (px * px + py * py + pz * pz))) w)) /\
    stringMode k0N ik02 (px, py, pz) pts = Some (scaC ik02 (sumC ws)).
Proof.
  intros K X H. set (p := (px, py, pz)) in *. exists (map (fun ab => piece k0N p (fst ab) (snd ab)) (combine pts (tl pts))).
  split; [rewrite map_length, combine_length; destruct pts; cbn [tl length]; lia|]. split.
  - intros i a b A B. destruct (piece_right k0N p a b K (H i a b A B)) as [w [W1 W2]]. exists w. split; [exact W2|].
    assert (G : nth_error (combine pts (tl pts)) i = Some (a, b)).
    { clear - A B. assert (B' : nth_error (tl pts) i = Some b) by (destruct pts; [discriminate|exact B]). revert A B'. generalize (tl pts) as l2. clear B. revert pts. induction i as [|i IH]; intros [|x l] [|y l2] A B; try discriminate; cbn in *.
      - congruence.
      - apply IH; assumption. }
    rewrite (map_nth_error _ _ _ G). cbn [fst snd]. rewrite W1. f_equal. f_equal. destruct a as [[a1 a2] a3], b as [[b1 b2] b3]. unfold factor, p, minus. cbn [fst snd].
    destruct (Z.eqb_spec px 0); [contradiction|]. f_equal. f_equal. f_equal. unfold modP. ring.
  - unfold stringMode, p. destruct (Z.eqb_spec px 0); [contradiction|]. cbn [negb]. fold p. pose proof (sum_from k0N p [] pts (0, 0)) as SF. cbn [app length] in SF. rewrite SF. f_equal. f_equal. clear. unfold sumC.
    assert (T : total k0N p pts = fold_right addC (0, 0) (map (fun ab => piece k0N p (fst ab) (snd ab)) (combine pts (tl pts)))).
    { induction pts as [|a pts IH]; [reflexivity|]. destruct pts as [|b pts]; [reflexivity|]. cbn [total tl combine map fold_right fst snd]. f_equal. exact IH. }
    rewrite T. unfold addC at 1. cbn [fst snd]. rewrite !Rplus_0_l. symmetry. apply surjective_pairing.
Qed.
(** A piece at right angles to the momentum adds nothing, though the plane wave over it is of size one and its factor is not zero. *)
Theorem piece_perpendicular_refuted k0N p a b : dotZ p (minus b a) = 0 ->
  piece k0N p a b = (0, 0) /\ waveOver k0N p a b (cos (k0N * dotZ p a), - sin (k0N * dotZ p a)).
Proof.
  intros D. split.
  - unfold piece, aux. rewrite D. destruct (Req_EM_T 0 0); [|contradiction]. unfold mulC, scaC. cbn [fst snd]. f_equal; ring.
  - assert (E : forall s, along p a b s = dotZ p a) by (intros s; unfold along; rewrite D; ring).
    unfold waveOver, integral01. cbn [fst snd]. split.
    + exists (fun s => s * cos (k0N * dotZ p a)). split; [|ring]. intros s. rewrite E. eapply dl_eq; [apply dl_scal, dl_idv|ring].
    + exists (fun s => s * - sin (k0N * dotZ p a)). split; [|ring]. intros s. rewrite E. eapply dl_eq; [apply dl_scal, dl_idv|ring].
Qed.
(** A mode without first component reads a point past the last, for any string. *)
Lemma sum_past k0N p pts n il su : (length pts <= n + il)%nat -> (0 < n)%nat -> (il < length pts)%nat -> sumPieces k0N p pts n il su = None.
Proof.
  revert il su. induction n as [|n IH]; intros il su H N I; [lia|]. cbn [sumPieces]. destruct (nth_error pts il) as [a|]; [|reflexivity].
  destruct (nth_error pts (il + 1)) as [b|] eqn:E; [|reflexivity]. assert (Q : nth_error pts (il + 1) <> None) by congruence. apply nth_error_Some in Q. apply IH; lia.
Qed.
Theorem string_past_refuted k0N ik02 py pz pts : pts <> [] -> (py <> 0 \/ pz <> 0)%Z -> stringMode k0N ik02 (0, py, pz)%Z pts = None.
Proof.
  intros P H. unfold stringMode. cbn [Z.eqb negb]. assert (L : (0 < length pts)%nat) by (destruct pts; [contradiction|cbn; lia]).
  assert (B : negb (py =? 0)%Z || negb (pz =? 0)%Z = true) by (destruct (Z.eqb_spec py 0), (Z.eqb_spec pz 0); cbn; try reflexivity; lia).
  rewrite B, sum_past by lia. reflexivity.
Qed.
(** *** Cases *)
Definition tri : list pt := [(0, 0, 0); (1, 0, 0); (1, 1, 0); (0, 0, 0)].
Example mode_case : exists ws, length ws = 3%nat /\ stringMode 1 1 (1, 2, 3)%Z tri = Some (scaC 1 (sumC ws)).
Proof.
  destruct (string_mode_partial 1 1 1 2 3 tri) as [ws [L [_ E]]]; [lra|lia| |exists ws; split; [exact L|exact E]].
  intros [|[|[|i]]] a b A B; cbn in A, B; try (injection A as <-; injection B as <-; cbn; lra). destruct i as [|i]; cbn in B; discriminate.
Qed.
Example perpendicular_case : piece 1 (1, 0, 1)%Z (0, 0, 0) (0, 1, 0) = (0, 0) /\ factor (1, 0, 1)%Z (minus (0, 1, 0) (0, 0, 0)) = - (1 / 2).
Proof. split; [apply piece_perpendicular_refuted; cbn; lra|]. unfold factor, minus. cbn. lra. Qed.
Example past_case : stringMode 1 1 (0, 1, 0)%Z tri = None.
Proof. apply string_past_refuted; [discriminate|lia]. Qed.

Print Assumptions piece_right.
Print Assumptions string_mode_partial.
Print Assumptions piece_perpendicular_refuted.
Print Assumptions string_past_refuted.
