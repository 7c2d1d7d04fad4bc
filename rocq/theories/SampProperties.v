(** C133: the site printed along a run. *)
From Coq Require Import List Arith Bool Lia.
From Verif Require Import Base FolderModel FolderSpec FolderProofs FolderProofs2 FolderProperties IndexModel SampModel.
Import ListNotations.
Ltac Zify.zify_post_hook ::= idtac.

Lemma split_two n a b : a < n -> (b * n + a) / n = b /\ (b * n + a) mod n = a.
Proof.
  intros H. assert (n <> 0) by lia. split.
  - rewrite Nat.div_add_l by assumption. rewrite Nat.div_small by exact H. lia.
  - rewrite Nat.add_comm, Nat.mod_add by assumption. apply Nat.mod_small. exact H.
Qed.
Lemma coords n x y z : x < n -> y < n -> idx2Vec n (z * (n * n) + (y * n + x)) = (x, y, z).
Proof.
  intros Hx Hy. unfold idx2Vec. cbv zeta. replace (z * (n * n) + (y * n + x)) with ((z * n + y) * n + x) by ring.
  rewrite (proj1 (split_two n x (z * n + y) Hx)), (proj1 (split_two n y z Hy)). repeat f_equal; lia.
Qed.
Lemma place {A} g (s : fstate A) x y z : wf_geom g -> x < g_n1 g -> y < g_n1 g -> unfoldidx g s (z * g_n2 g + plain_pos g x y) = z * g_n2 g + site_pos g (f_folded s) x y.
Proof.
  intros W Hx Hy. unfold unfoldidx, site_pos. destruct (f_folded s); [|reflexivity]. unfold g_n2 at 1, plain_pos. rewrite coords by assumption. cbv zeta. unfold vector_pos. cbv zeta.
  destruct W as [Hw [Hm _]]. assert (Q : g_n1 g / g_w g <> 0).
  { intros E. pose proof (Nat.div_mod (g_n1 g) (g_w g) ltac:(lia)) as D. rewrite E, Hm in D. lia. }
  pose proof (Nat.div_mod y (g_n1 g / g_w g) Q) as D. replace (y - y / (g_n1 g / g_w g) * (g_n1 g / g_w g)) with (y mod (g_n1 g / g_w g)) by lia. lia.
Qed.
(** The place of a site of the whole box, split over ranks along z, gives the rank and the place there. *)
Lemma rank_of g x y z p : x < g_n1 g -> y < g_n1 g -> z < g_Lz g -> let idx := (p * g_Lz g + z) * g_n2 g + plain_pos g x y in
  idx / g_n2 g / g_Lz g = p /\ idx - p * g_n3 g = z * g_n2 g + plain_pos g x y.
Proof.
  intros Hx Hy Hz idx. assert (P : plain_pos g x y < g_n2 g).
  { unfold plain_pos, g_n2. assert ((y + 1) * g_n1 g <= g_n1 g * g_n1 g) by (apply Nat.mul_le_mono_r; lia). lia. }
  split.
  - unfold idx. rewrite (proj1 (split_two (g_n2 g) _ (p * g_Lz g + z) P)). apply (proj1 (split_two (g_Lz g) z p Hz)).
  - unfold idx, g_n3. replace ((p * g_Lz g + z) * g_n2 g) with (p * (g_n2 g * g_Lz g) + z * g_n2 g) by ring. lia.
Qed.

(** One rank alone prints, the one that has the site, and it prints the field and the velocity of that site, folded or not. Missing: on a device, refuted below. *)
Theorem sample_partial {A} g (sts : nat -> fstate A) dev saxion single x y z p : wf_geom g -> site g x y z -> (forall q, f_gpu (sts q) = false) ->
  let idx := (p * g_Lz g + z) * (g_n1 g * g_n1 g) + y * g_n1 g + x in
  printsample g (sts p) (dev p) saxion single p idx = Some (m_at g (sts p) x y z, v_at g (sts p) x y z) /\ forall q, q <> p -> printsample g (sts q) (dev q) saxion single q idx = None.
Proof.
  intros W [Hx [Hy Hz]] NG idx. destruct (rank_of g x y z p Hx Hy Hz) as [E1 E2].
  replace ((p * g_Lz g + z) * g_n2 g + plain_pos g x y) with idx in E1, E2 by (unfold idx, plain_pos, g_n2; lia). unfold printsample. cbv zeta. rewrite E1, E2. split.
  - rewrite Nat.eqb_refl, NG. cbn [andb]. rewrite place by assumption. unfold m_at, v_at. rewrite !Nat.add_assoc. reflexivity.
  - intros q N. apply Nat.eqb_neq in N. rewrite N. reflexivity.
Qed.
(** It is the same line whatever was folded and unfolded before. *)
Theorem sample_any_history {A} g (s : fstate A) dev dev' saxion single x y z p l : wf_geom g -> site g x y z -> f_gpu s = false -> (forall t, In t l -> ok_request g t) ->
  let idx := (p * g_Lz g + z) * (g_n1 g * g_n1 g) + y * g_n1 g + x in
  f_gpu (fold_left (fun s t => folder g t s) l s) = false ->
  printsample g (fold_left (fun s t => folder g t s) l s) dev saxion single p idx = printsample g s dev' saxion single p idx.
Proof.
  intros W S NG R idx NG'. set (s' := fold_left (fun s t => folder g t s) l s) in *.
  destruct (sample_partial g (fun _ => s') (fun _ => dev) saxion single x y z p W S (fun _ => NG')) as [E _]. destruct (sample_partial g (fun _ => s) (fun _ => dev') saxion single x y z p W S (fun _ => NG)) as [E' _].
  fold idx in E, E'. cbv beta in E, E'. rewrite E, E'. destruct (folder_history_preserves_sites g l s x y z W R S) as [A1 [A2 _]]. fold s' in A1, A2. rewrite A1, A2. reflexivity.
Qed.
Example sample_case : printsample (Geom 4 2 1 2 false) (FState snd true false false) (fun _ => 0) true false 1 (3 * 16 + 3 * 4 + 2) = Some (16 + 16 + (8 + 4 + 1), 16 + (8 + 4 + 1)).
Proof. reflexivity. Qed.
(** A site that is not in the box: no rank prints, and nothing is said. *)
Theorem sample_outside_refuted {A} g (sts : nat -> fstate A) dev saxion single K idx : K * g_n3 g <= idx -> 0 < g_n3 g -> forall q, q < K -> printsample g (sts q) (dev q) saxion single q idx = None.
Proof.
  intros H P q Hq. unfold printsample. cbv zeta. assert (g_n2 g <> 0 /\ g_Lz g <> 0) as [N1 N2] by (unfold g_n3 in P; destruct (g_n2 g), (g_Lz g); lia).
  assert (L : K <= idx / g_n2 g / g_Lz g). { rewrite Nat.div_div by assumption. apply Nat.div_le_lower_bound; [unfold g_n3 in P; lia|]. unfold g_n3 in H. lia. }
  destruct (Nat.eqb_spec q (idx / g_n2 g / g_Lz g)) as [E|_]; [exfalso; lia|reflexivity].
Qed.
(** On a device only the saxion in single precision is read from there: any other line shows the copy on the host, however old. *)
Theorem sample_device_refuted {A} g (s : fstate A) dev dev' saxion single rank idx : saxion && single = false -> printsample g s dev saxion single rank idx = printsample g s dev' saxion single rank idx.
Proof. intros H. unfold printsample. cbv zeta. rewrite <- andb_assoc, H, andb_false_r. reflexivity. Qed.

Print Assumptions sample_partial.
Print Assumptions sample_any_history.
Print Assumptions sample_outside_refuted.
Print Assumptions sample_device_refuted.
