(** C130: the start of a run on several ranks. *)
From Coq Require Import List Arith Bool Lia.
From Verif Require Import CommModel CommSpec CommProofs.
Import ListNotations.
Ltac Zify.zify_post_hook ::= idtac.

(** Ranks of one host get the devices 0, 1, ... in their order, each its own, and every rank knows how many there are. Missing: names that do not fit, and more ranks than devices, refuted below. *)
Theorem devices_partial M names p : fits M names -> p < length names ->
  ranksPerNode M names (length names) p = length (mates names p (length names)) /\ idxAcc M names p < ranksPerNode M names (length names) p /\
  (forall q, p < q < length names -> nth p names [] = nth q names [] -> idxAcc M names p < idxAcc M names q) /\
  (forall k, k < ranksPerNode M names (length names) p -> exists q, q < length names /\ nth q names [] = nth p names [] /\ idxAcc M names q = k).
Proof.
  intros F Hp. split; [apply node_mates; assumption|]. rewrite node_mates by assumption.
  assert (G : forall q, p < q -> length (mates names p p) < length (mates names p q)).
  { intros q Hq. replace q with (p + S (q - p - 1)) by lia. rewrite mates_more, app_length. cbn [seq filter].
    destruct (list_eq_dec Nat.eq_dec (nth p names []) (nth p names [])) as [_|N]; [cbn [length]; lia|contradiction]. }
  split; [|split].
  - rewrite acc_mates by assumption. apply G. exact Hp.
  - intros q Hq E. rewrite !acc_mates by (assumption || lia). rewrite <- (mates_host names p q q E). apply G. lia.
  - intros k Hk. destruct (nth_pass _ _ k Hk) as [q [A [B C]]]. destruct (list_eq_dec Nat.eq_dec (nth q names []) (nth p names [])) as [E|]; [|discriminate].
    exists q. split; [exact A|]. split; [exact E|]. rewrite acc_mates by assumption. rewrite (mates_host names q p q E). exact C.
Qed.
Example devices_case : let names := [[5; 6]; [7]; [5; 6]; [5]] in fits 8 names /\ idxAcc 8 names 2 = 1 /\ ranksPerNode 8 names 4 2 = 2 /\ idxAcc 8 names 3 = 0.
Proof. repeat split; try (cbn in H; intuition (subst; cbn; lia)). cbn in H. intuition (subst; cbn in *; intuition lia). Qed.
(** Hosts whose names agree in the first M-1 characters are taken for one. *)
Theorem long_names_refuted M c d : 2 <= M -> 0 < c -> 0 < d -> c <> d -> exists names, length names = 2 /\ nth 0 names [] <> nth 1 names [] /\ (forall nm, In nm names -> length nm = M /\ ~ In 0 nm) /\
  idxAcc M names 1 = 1 /\ ranksPerNode M names 2 0 = 2.
Proof.
  intros HM Hc Hd N. set (w := repeat 1 (M - 1)). exists [w ++ [c]; w ++ [d]].
  assert (LW : length w = M - 1) by apply repeat_length. assert (NW : ~ In 0 w) by (intros I; apply repeat_spec in I; discriminate).
  assert (HB : forall e, hostBuffer M (w ++ [e]) = w ++ [0]).
  { intros e. unfold hostBuffer. rewrite <- app_assoc, firstn_app, LW, Nat.sub_diag, firstn_all2 by lia. cbn [firstn]. rewrite app_nil_r. reflexivity. }
  assert (SM : forall r, same M (w ++ [0]) (w ++ 0 :: r) = true) by (intros r; apply same_eq; try assumption; try lia; reflexivity).
  assert (T : forall p i, p < 2 -> i < 2 -> same M (hostBuffer M (nth p [w ++ [c]; w ++ [d]] [])) (nameAt M (gathered M [w ++ [c]; w ++ [d]]) i) = true).
  { intros p i Hp Hi. destruct (nameAt_eq M [w ++ [c]; w ++ [d]] ltac:(lia) i Hi) as [rest ->].
    assert (X : forall j, j < 2 -> hostBuffer M (nth j [w ++ [c]; w ++ [d]] []) = w ++ [0]) by (intros j Hj; destruct j as [|[|]]; [apply HB|apply HB|lia]).
    rewrite !X by assumption. rewrite <- app_assoc. apply SM. }
  split; [reflexivity|]. split; [cbn [nth]; intros E; apply app_inv_head in E; injection E; exact N|]. split.
  - intros nm [<-|[<-|[]]]; (split; [rewrite app_length, LW; cbn; lia|]); intros I; apply in_app_or in I; destruct I as [I|[I|[]]]; try contradiction; lia.
  - unfold idxAcc, ranksPerNode. cbn [seq fold_left]. rewrite !T by lia. split; reflexivity.
Qed.
(** More ranks on a host than devices: a rank takes a device that is not there, and the run goes on. *)
Theorem missing_device_refuted M names p n : fits M names -> p < length names -> 0 < n -> n < ranksPerNode M names (length names) p ->
  exists q, q < length names /\ nth q names [] = nth p names [] /\ ~ idxAcc M names q < n /\ initAxions true (Some n) (length names) (length names) Gpu = GoesOn false.
Proof.
  intros F Hp Hn H. destruct (devices_partial M names p F Hp) as [_ [_ [_ S]]]. destruct (S n H) as [q [A [B C]]]. exists q. split; [exact A|]. split; [exact B|]. split; [lia|].
  unfold initAxions, initComms. rewrite Nat.eqb_refl. cbn [negb]. destruct n; [lia|reflexivity].
Qed.
Example missing_case : idxAcc 8 [[5]; [5]; [5]] 2 = 2 /\ ranksPerNode 8 [[5]; [5]; [5]] 3 0 = 3. Proof. split; reflexivity. Qed.

(** The run goes on with MPI only if as many ranks run as were asked for, and, where the device is a GPU, the program knows GPUs and sees at least one. *)
Theorem start_partial built count realSize size dev : initAxions built count realSize size dev = GoesOn false <->
  realSize = size /\ (dev = Gpu -> built = true /\ exists n, count = Some n /\ 0 < n).
Proof.
  unfold initAxions, initComms. destruct (Nat.eqb_spec realSize size) as [E|E]; cbn [negb]; [|split; [discriminate|intros [C _]; contradiction]].
  destruct dev.
  - split; [split; [exact E|discriminate]|reflexivity].
  - destruct built; [|split; [discriminate|intros [_ C]; destruct (C eq_refl); discriminate]]. destruct count as [n|].
    + destruct n as [|n]; cbn [Nat.eqb].
      * split; [discriminate|intros [_ C]; destruct (C eq_refl) as [_ [m [D P]]]; injection D as <-; lia].
      * split; [intros _; split; [exact E|]; intros _; split; [reflexivity|]; exists (S n); split; [reflexivity|lia]|reflexivity].
    + split; [discriminate|intros [_ C]; destruct (C eq_refl) as [_ [m [D _]]]; discriminate].
Qed.
Example start_case : initAxions true (Some 2) 4 4 Gpu = GoesOn false /\ initAxions true (Some 2) 3 4 Gpu = Stopped. Proof. split; reflexivity. Qed.
(** With no device to be seen the program goes on after it has ended MPI. *)
Theorem no_device_refuted n : initAxions true (Some 0) n n Gpu = GoesOn true.
Proof. unfold initAxions, initComms. rewrite Nat.eqb_refl. reflexivity. Qed.

Print Assumptions devices_partial.
Print Assumptions long_names_refuted.
Print Assumptions missing_device_refuted.
Print Assumptions start_partial.
Print Assumptions no_device_refuted.
