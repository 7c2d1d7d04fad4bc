From Coq Require Import List Bool ZArith QArith Lia.
From Verif Require Import MeasModel MeasSpec.
Import ListNotations.
Local Open Scope nat_scope.

Definition orElse {A} (x y : option A) : option A := match x with Some a => Some a | None => y end.
Lemma orElse_assoc {A} (x y z : option A) : orElse (orElse x y) z = orElse x (orElse y z).
Proof. destruct x; reflexivity. Qed.
Lemma orElse_None {A} (x : option A) : orElse x None = x.
Proof. destruct x; reflexivity. Qed.

Definition at_name (n : name) (b : bins) (n' : name) : option bins := if name_eq n n' then Some b else None.

Lemma write_get n b f n' : writeArray n b f n' = orElse (f n') (at_name n b n').
Proof.
  unfold writeArray, at_name. destruct (name_eq n n') as [<-|]; [|rewrite orElse_None; reflexivity].
  destruct (f n); reflexivity.
Qed.

Lemma out_write n b s n' : out (write n b s) n' = orElse (out s n') (at_name n b n').
Proof. apply write_get. Qed.

Lemma out_when (c : bool) n (g : st -> bins) s n' :
  out (when c (fun s => write n (g s) s) s) n' = orElse (out s n') (if c then at_name n (g s) n' else None).
Proof. destruct c; cbn [when]; [apply out_write|rewrite orElse_None; reflexivity]. Qed.

(** Writing changes nothing but the file. *)
Definition same (s t : st) : Prop :=
  sdMap t = sdMap s /\ sdMask t = sdMask s /\ sdAxi t = sdAxi s /\ m2Energy t = m2Energy s /\
  m2hEnergy t = m2hEnergy s /\ bits t = bits s /\ half t = half s /\
  bK t = bK s /\ bG t = bG s /\ bV t = bV s /\ bS t = bS s /\ bP t = bP s.

Lemma same_when (c : bool) n (g : st -> bins) s : same s (when c (fun s => write n (g s) s) s).
Proof. destruct c; repeat split. Qed.
Lemma same_trans s t u : same s t -> same t u -> same s u.
Proof.
  intros (a1&a2&a3&a4&a5&a6&a7&a8&a9&a10&a11&a12) (b1&b2&b3&b4&b5&b6&b7&b8&b9&b10&b11&b12).
  repeat split; etransitivity; eauto.
Qed.

(** The four writes in a row after a run. *)
Lemma four c1 c2 c3 c4 n1 n2 n3 n4 s :
  let t := when c4 (fun s => write n4 (bS s) s) (when c3 (fun s => write n3 (bV s) s)
            (when c2 (fun s => write n2 (bG s) s) (when c1 (fun s => write n1 (bK s) s) s))) in
  same s t /\
  forall n', out t n' = orElse (out s n')
    (orElse (if c1 then at_name n1 (bK s) n' else None) (orElse (if c2 then at_name n2 (bG s) n' else None)
    (orElse (if c3 then at_name n3 (bV s) n' else None) (if c4 then at_name n4 (bS s) n' else None)))).
Proof.
  cbn zeta. split.
  - eapply same_trans; [apply same_when|]. eapply same_trans; [apply same_when|].
    eapply same_trans; [apply same_when|]. apply same_when.
  - intro n'. rewrite !out_when, !orElse_assoc.
    destruct c1, c2, c3; reflexivity.
Qed.

Lemma three c1 c2 c3 n1 n2 n3 s :
  let t := when c3 (fun s => write n3 (bV s) s)
            (when c2 (fun s => write n2 (bG s) s) (when c1 (fun s => write n1 (bK s) s) s)) in
  same s t /\
  forall n', out t n' = orElse (out s n')
    (orElse (if c1 then at_name n1 (bK s) n' else None) (orElse (if c2 then at_name n2 (bG s) n' else None)
    (if c3 then at_name n3 (bV s) n' else None))).
Proof.
  cbn zeta. split.
  - eapply same_trans; [apply same_when|]. eapply same_trans; [apply same_when|]. apply same_when.
  - intro n'. rewrite !out_when, !orElse_assoc. destruct c1, c2; reflexivity.
Qed.

(** What a step adds to the file is under its own mask and label. *)
Definition ownOnly (k : mk) (l : option Z) (g : name -> option bins) : Prop :=
  forall n, (n_k n <> k \/ n_r n <> l) -> g n = None.

Lemma own_at q k l b : ownOnly k l (at_name (Name q k l) b).
Proof. intros n H. unfold at_name. destruct (name_eq _ _) as [<-|]; [cbn in H; destruct H; congruence|reflexivity]. Qed.
Lemma own_or k l g h : ownOnly k l g -> ownOnly k l h -> ownOnly k l (fun n => orElse (g n) (h n)).
Proof. intros A B n H. rewrite A, B by exact H. reflexivity. Qed.
Lemma own_if k l (c : bool) g : ownOnly k l g -> ownOnly k l (fun n => if c then g n else None).
Proof. intros A n H. destruct c; auto. Qed.
Lemma own_none k l : ownOnly k l (fun _ => None).
Proof. intros n _. reflexivity. Qed.

Lemma nrun_out ft mass k n s : out (nRun ft mass k n s) = out s.
Proof. destruct ft; cbn; [unfold nRunSax|unfold nRunAxi]; destruct (nRunReady k s); reflexivity. Qed.
Lemma nsrun_out k n s : out (nSRun k n s) = out s.
Proof. unfold nSRun. destruct k; try reflexivity; destruct (sdMask s); reflexivity. Qed.
Lemma masker_out ft e r k s : out (masker ft e r k s) = out s.
Proof. unfold masker. destruct ft, k; try reflexivity; destruct (sdMap s), (m2Energy s), (m2hEnergy s); reflexivity. Qed.

Definition tellsQ (n : name) (q : qty) k l : bool := if name_eq (Name q k l) n then true else false.

(** The contributions of the phases of a step. *)
Definition addPlain ft (mass : bool) n k l (s : st) (n' : name) : option bins :=
  if rK n || rG n || rV n || rS n then
    let t := nRun ft mass k (NRun (rK n) (rG n) (rV n) (rS n) false false false false) s in
    orElse (if rK n then at_name (Name QK k l) (bK t) n' else None)
    (orElse (if rG n then at_name (Name QG k l) (bG t) n' else None)
    (orElse (if rV n && mass then at_name (Name QV k l) (bV t) n' else None)
            (if rS n && mass then at_name (Name QS k l) (bS t) n' else None)))
  else None.

Lemma plain_step ft mass n k l s :
  (if rK n || rG n || rV n || rS n
   then same (nRun ft mass k (NRun (rK n) (rG n) (rV n) (rS n) false false false false) s) (nspPlain ft mass n k l s)
   else nspPlain ft mass n k l s = s) /\
  forall n', out (nspPlain ft mass n k l s) n' = orElse (out s n') (addPlain ft mass n k l s n').
Proof.
  unfold nspPlain, addPlain. destruct (rK n || rG n || rV n || rS n).
  - destruct (four (rK n) (rG n) (rV n && mass) (rS n && mass) (Name QK k l) (Name QG k l) (Name QV k l) (Name QS k l)
      (nRun ft mass k (NRun (rK n) (rG n) (rV n) (rS n) false false false false) s)) as [A B].
    split; [exact A|]. intro n'. rewrite B, nrun_out. reflexivity.
  - split; [reflexivity|]. intro. rewrite orElse_None. reflexivity.
Qed.

Definition addPure ft (mass : bool) n k l (s : st) (n' : name) : option bins :=
  if rCK n || rCG n || rCV n || rCS n then
    let t := nRun ft mass k (NRun false false false false (rCK n) (rCG n) (rCV n) (rCS n)) s in
    orElse (if rCK n then at_name (Name QCK k l) (bK t) n' else None)
    (orElse (if rCG n then at_name (Name QCG k l) (bG t) n' else None)
    (orElse (if rCV n && mass then at_name (Name QCV k l) (bV t) n' else None)
            (if rCS n && mass then at_name (Name QCS k l) (bS t) n' else None)))
  else None.

Lemma pure_step ft mass n k l s :
  (if rCK n || rCG n || rCV n || rCS n
   then same (nRun ft mass k (NRun false false false false (rCK n) (rCG n) (rCV n) (rCS n)) s) (nspPure ft mass n k l s)
   else nspPure ft mass n k l s = s) /\
  forall n', out (nspPure ft mass n k l s) n' = orElse (out s n') (addPure ft mass n k l s n').
Proof.
  unfold nspPure, addPure. destruct (rCK n || rCG n || rCV n || rCS n).
  - destruct (four (rCK n) (rCG n) (rCV n && mass) (rCS n && mass) (Name QCK k l) (Name QCG k l) (Name QCV k l) (Name QCS k l)
      (nRun ft mass k (NRun false false false false (rCK n) (rCG n) (rCV n) (rCS n)) s)) as [A B].
    split; [exact A|]. intro n'. rewrite B, nrun_out. reflexivity.
  - split; [reflexivity|]. intro. rewrite orElse_None. reflexivity.
Qed.

Definition radialOn ft a := match ft with SaxionField => a_nspS a | AxionField => false end.

Definition addRadial ft a k l (s : st) (n' : name) : option bins :=
  let n := a_n a in
  if radialOn ft a then
    let t := nSRun k (NRun (rK n) (rG n) (rV n) false false false false false) s in
    orElse (if rK n then at_name (Name QKS k l) (bK t) n' else None)
    (orElse (if rG n then at_name (Name QGS k l) (bG t) n' else None)
            (if rV n then at_name (Name QVS k l) (bV t) n' else None))
  else None.

Lemma radial_step ft a k l s :
  (if radialOn ft a
   then same (nSRun k (NRun (rK (a_n a)) (rG (a_n a)) (rV (a_n a)) false false false false false) s) (nspRadial ft a k l s)
   else nspRadial ft a k l s = s) /\
  forall n', out (nspRadial ft a k l s) n' = orElse (out s n') (addRadial ft a k l s n').
Proof.
  unfold nspRadial, addRadial. change (match ft with SaxionField => a_nspS a | AxionField => false end) with (radialOn ft a).
  destruct (radialOn ft a).
  - destruct (three (rK (a_n a)) (rG (a_n a)) (rV (a_n a)) (Name QKS k l) (Name QGS k l) (Name QVS k l)
      (nSRun k (NRun (rK (a_n a)) (rG (a_n a)) (rV (a_n a)) false false false false false) s)) as [A B].
    split; [exact A|]. intro n'. rewrite B, nsrun_out. reflexivity.
  - split; [reflexivity|]. intro. rewrite orElse_None. reflexivity.
Qed.

Lemma mask_step ft printed k r l s n' :
  out (nspMask ft printed k r l s) n' =
  orElse (out s n') (if prntmsk k && negb printed then at_name (Name QMask k l) (bP (masker ft false r k s)) n' else None).
Proof.
  unfold nspMask. destruct (prntmsk k); [|cbn [andb]; rewrite orElse_None; reflexivity].
  destruct printed; cbv zeta; change (true && negb true) with false; change (true && negb false) with true; cbv iota; [rewrite masker_out, orElse_None; reflexivity|].
  rewrite out_write, masker_out. reflexivity.
Qed.

(** What a whole step adds. *)
Definition skipped (a : ask) (k : mk) : bool := match k with Red => a_onlyE a | _ => false end.
Definition afterMask ft printed k r l s := nspMask ft printed k r l s.
Definition addStep ft mass a printed k r l (s : st) (n' : name) : option bins :=
  let s1 := nspMask ft printed k r l s in
  let s2 := nspPlain ft mass (a_n a) k l s1 in
  let s3 := nspPure ft mass (a_n a) k l s2 in
  orElse (if prntmsk k && negb printed then at_name (Name QMask k l) (bP (masker ft false r k s)) n' else None)
  (if skipped a k then None else
   orElse (addPlain ft mass (a_n a) k l s1 n') (orElse (addPure ft mass (a_n a) k l s2 n') (addRadial ft a k l s3 n'))).

Lemma step_out ft mass a printed k r l s n' :
  out (nspStep ft mass a printed k r l s) n' = orElse (out s n') (addStep ft mass a printed k r l s n').
Proof.
  unfold nspStep, addStep. change (match k with Red => a_onlyE a | _ => false end) with (skipped a k). cbv zeta.
  destruct (skipped a k).
  - rewrite mask_step. cbv iota. rewrite orElse_None. reflexivity.
  - rewrite (proj2 (radial_step _ _ _ _ _)), (proj2 (pure_step _ _ _ _ _ _)), (proj2 (plain_step _ _ _ _ _ _)), mask_step.
    rewrite !orElse_assoc. reflexivity.
Qed.

Lemma addStep_own ft mass a printed k r l s : ownOnly k l (addStep ft mass a printed k r l s).
Proof.
  unfold addStep. cbv zeta. apply own_or; [apply own_if, own_at|].
  destruct (skipped a k); [apply own_none|].
  apply own_or; [|apply own_or].
  - unfold addPlain. cbv zeta. destruct (_ || _ || _ || _); [|apply own_none].
    repeat (apply own_or; [apply own_if, own_at|]). apply own_if, own_at.
  - unfold addPure. cbv zeta. destruct (_ || _ || _ || _); [|apply own_none].
    repeat (apply own_or; [apply own_if, own_at|]). apply own_if, own_at.
  - unfold addRadial. cbv zeta. destruct (radialOn ft a); [|apply own_none].
    repeat (apply own_or; [apply own_if, own_at|]). apply own_if, own_at.
Qed.

(** The loops. A step [step r l] writes only names with mask k and label l, and keeps an invariant. *)
Section Loops.
Variable lab : Q -> Z.
Variable I : st -> Prop.

Definition writesOwn (k : mk) (step : Q -> option Z -> st -> st) (add : Q -> option Z -> st -> name -> option bins) : Prop :=
  (forall r l s, I s -> I (step r l s)) /\
  (forall r l s n, I s -> out (step r l s) n = orElse (out s n) (add r l s n)) /\
  (forall r l s, I s -> ownOnly k l (add r l s)).

Lemma radii_mul k step add : writesOwn k step add -> mulmask k = true ->
  forall tab labels s, length tab = length labels -> NoDup (map lab labels) -> I s ->
  exists s', overRadii lab k step labels tab s = Some s' /\ I s' /\
    (forall n, (n_k n <> k \/ forall r0, In r0 labels -> n_r n <> Some (lab r0)) -> out s' n = out s n) /\
    (forall r0 r, In (r0, r) (combine labels tab) -> forall n, n_k n = k -> n_r n = Some (lab r0) ->
       exists t, I t /\ out s' n = orElse (out s n) (add r (Some (lab r0)) t n)).
Proof.
  intros (HI & Ho & Hw) Hm. induction tab as [|r tab IH]; intros [|r0 labels] s Hl Hd Hs; try discriminate.
  - exists s. cbn. split; [reflexivity|]. split; [exact Hs|]. split; [reflexivity|]. intros ? ? [].
  - cbn [overRadii]. rewrite Hm. cbn in Hl. injection Hl as Hl. cbn [map] in Hd. inversion Hd as [|x y Hx Hy]. subst.
    destruct (IH labels (step r (Some (lab r0)) s) Hl Hy (HI _ _ _ Hs)) as (s' & E & Is' & Fr & G).
    exists s'. split; [exact E|]. split; [exact Is'|]. split.
    + intros n Hn. rewrite Fr.
      * rewrite Ho by exact Hs. rewrite (Hw _ _ _ Hs).
        -- apply orElse_None.
        -- destruct Hn as [Hn|Hn]; [left; exact Hn|right; apply Hn; left; reflexivity].
      * destruct Hn as [Hn|Hn]; [left; exact Hn|right; intros; apply Hn; right; assumption].
    + intros r1 r2 [Hp|Hp] n Hk Hr.
      * injection Hp as <- <-. exists s. split; [exact Hs|]. rewrite Fr; [apply Ho; exact Hs|].
        right. intros r' Hin Heq. apply Hx. rewrite Hr in Heq. injection Heq as Heq. rewrite Heq. apply in_map. exact Hin.
      * destruct (G r1 r2 Hp n Hk Hr) as (t & It & Et). exists t. split; [exact It|]. rewrite Et.
        rewrite Ho by exact Hs. rewrite (Hw _ _ _ Hs); [rewrite orElse_None; reflexivity|].
        right. intro Heq. apply Hx. rewrite Heq in Hr. injection Hr as Hr. rewrite Hr.
        apply in_map. exact (in_combine_l _ _ _ _ Hp).
Qed.

Lemma radii_one k step add r tab labels s : writesOwn k step add -> mulmask k = false -> I s ->
  exists s', overRadii lab k step labels (r :: tab) s = Some s' /\ I s' /\
    (forall n, (n_k n <> k \/ n_r n <> None) -> out s' n = out s n) /\
    (forall n, n_k n = k -> n_r n = None -> exists t, I t /\ out s' n = orElse (out s n) (add r None t n)).
Proof.
  intros (HI & Ho & Hw) Hm Hs. cbn [overRadii]. rewrite Hm. eexists; split; [reflexivity|].
  split; [apply HI; exact Hs|]. split.
  - intros n Hn. rewrite Ho, (Hw _ _ _ Hs _ Hn) by exact Hs. apply orElse_None.
  - intros n _ _. exists s. split; [exact Hs|]. apply Ho. exact Hs.
Qed.

(** A pair (r0, r): the radius asked for and the radius in the lattice. *)
Variable scale : Q -> Q.
Variable asked : list Q.
Hypothesis Hd : NoDup (map lab asked).

Definition labelOf (k : mk) (r0 : Q) : option Z := if mulmask k then Some (lab r0) else None.

(** The radii a mask is run for: all, or the first. *)
Definition runFor (k : mk) (r0 : Q) : Prop :=
  if mulmask k then In r0 asked else match asked with [] => r0 = 0%Q | r :: _ => r0 = r end.

Lemma radii_all k step add s : writesOwn k step add -> (mulmask k = true -> asked <> []) -> I s ->
  exists s', overRadii lab k step asked (radii scale asked) s = Some s' /\ I s' /\
    (forall n, (forall r0, runFor k r0 -> ~ (n_k n = k /\ n_r n = labelOf k r0)) -> out s' n = out s n) /\
    (forall r0, runFor k r0 -> forall n, n_k n = k -> n_r n = labelOf k r0 ->
       exists t, I t /\ out s' n = orElse (out s n) (add (scale r0) (labelOf k r0) t n)).
Proof.
  intros W Ha Hs. unfold runFor, labelOf. destruct (mulmask k) eqn:Em.
  - assert (E : radii scale asked = map scale asked).
    { unfold radii. destruct asked; [destruct (Ha eq_refl eq_refl)|reflexivity]. }
    rewrite E. destruct (radii_mul k step add W Em (map scale asked) asked s) as (s' & E' & Is' & Fr & G);
      [rewrite map_length; reflexivity|exact Hd|exact Hs|].
    exists s'. split; [exact E'|]. split; [exact Is'|]. split.
    + intros n Hn. apply Fr. destruct (mk_eq (n_k n) k) as [e|]; [right|left; assumption].
      intros r0 Hr Heq. exact (Hn r0 Hr (conj e Heq)).
    + intros r0 Hr. apply G. clear -Hr. induction asked as [|x xs IH]; [destruct Hr|].
      cbn. destruct Hr as [<-|Hr]; [left; reflexivity|right; apply IH; exact Hr].
  - assert (E : exists r1 tab, radii scale asked = scale r1 :: tab /\ match asked with [] => r1 = 0%Q | r :: _ => r1 = r end).
    { unfold radii. destruct asked as [|r1 l]; [exists 0%Q, []; split; reflexivity|exists r1, (map scale l); split; reflexivity]. }
    destruct E as (r1 & tab & E & Er). rewrite E.
    destruct (radii_one k step add (scale r1) tab asked s W Em Hs) as (s' & E' & Is' & Fr & G).
    exists s'. split; [exact E'|]. split; [exact Is'|]. split.
    + intros n Hn. apply Fr. destruct (mk_eq (n_k n) k) as [e|]; [right|left; assumption].
      intro Hr. exact (Hn r1 Er (conj e Hr)).
    + intros r0 Hr. assert (r0 = r1) by (destruct asked; congruence). subst r0. exact G.
Qed.

Lemma masks_all (on : mk -> bool) body (add : mk -> Q -> option Z -> st -> name -> option bins) :
  (forall k, on k = true -> forall s, I s -> exists s', body k s = Some s' /\ I s' /\
    (forall n, (forall r0, runFor k r0 -> ~ (n_k n = k /\ n_r n = labelOf k r0)) -> out s' n = out s n) /\
    (forall r0, runFor k r0 -> forall n, n_k n = k -> n_r n = labelOf k r0 ->
       exists t, I t /\ out s' n = orElse (out s n) (add k (scale r0) (labelOf k r0) t n))) ->
  forall ks, NoDup ks -> forall s, I s -> exists s', overMasks ks on body s = Some s' /\ I s' /\
    (forall n, (In (n_k n) ks -> on (n_k n) = true -> forall r0, runFor (n_k n) r0 -> n_r n <> labelOf (n_k n) r0) -> out s' n = out s n) /\
    (forall n, In (n_k n) ks -> on (n_k n) = true -> forall r0, runFor (n_k n) r0 -> n_r n = labelOf (n_k n) r0 ->
       exists t, I t /\ out s' n = orElse (out s n) (add (n_k n) (scale r0) (labelOf (n_k n) r0) t n)).
Proof.
  intros Hb. induction ks as [|k ks IH]; intros Hn s Hs.
  - exists s. split; [reflexivity|]. split; [exact Hs|]. split; [reflexivity|]. intros n [].
  - inversion Hn as [|x y Hx Hy]. subst. cbn [overMasks]. destruct (on k) eqn:Ek.
    + destruct (Hb k Ek s Hs) as (s1 & E1 & I1 & F1 & G1). rewrite E1.
      destruct (IH Hy s1 I1) as (s' & E & I' & F & G). exists s'. split; [exact E|]. split; [exact I'|]. split.
      * intros n H. rewrite F.
        -- apply F1. intros r0 Hr [Ek' Er]. subst k. exact (H (or_introl eq_refl) Ek r0 Hr Er).
        -- intros Hi. apply H. right. exact Hi.
      * intros n [Hi|Hi] Ho r0 Hr Er.
        -- subst k. destruct (G1 r0 Hr n eq_refl Er) as (t & It & Et). exists t. split; [exact It|].
           rewrite F; [exact Et|]. intros Hi. exfalso. exact (Hx Hi).
        -- destruct (G n Hi Ho r0 Hr Er) as (t & It & Et). exists t. split; [exact It|]. rewrite Et. f_equal.
           apply F1. intros r1 _ [Ek' _]. subst k. exact (Hx Hi).
    + destruct (IH Hy s Hs) as (s' & E & I' & F & G). exists s'. split; [exact E|]. split; [exact I'|]. split.
      * intros n H. apply F. intros Hi. apply H. right. exact Hi.
      * intros n [Hi|Hi] Ho r0 Hr Er; [subst k; congruence|]. exact (G n Hi Ho r0 Hr Er).
Qed.

(** A loop over masks. *)
Lemma block (on : mk -> bool) step add ks s :
  NoDup ks -> (forall k, on k = true -> writesOwn k (step k) (add k)) ->
  (forall k, In k ks -> on k = true -> mulmask k = true -> asked <> []) -> I s ->
  exists s', overMasks ks on (fun k => overRadii lab k (step k) asked (radii scale asked)) s = Some s' /\ I s' /\
    (forall n, (In (n_k n) ks -> on (n_k n) = true -> forall r0, runFor (n_k n) r0 -> n_r n <> labelOf (n_k n) r0) -> out s' n = out s n) /\
    (forall n, In (n_k n) ks -> on (n_k n) = true -> forall r0, runFor (n_k n) r0 -> n_r n = labelOf (n_k n) r0 ->
       exists t, I t /\ out s' n = orElse (out s n) (add (n_k n) (scale r0) (labelOf (n_k n) r0) t n)).
Proof.
  intros Hn W Ha Hs.
  assert (Q : overMasks ks on (fun k => overRadii lab k (step k) asked (radii scale asked)) s =
              overMasks ks (fun k => on k && if in_dec mk_eq k ks then true else false) (fun k => overRadii lab k (step k) asked (radii scale asked)) s).
  { assert (G : forall l, incl l ks -> forall s, overMasks l on (fun k => overRadii lab k (step k) asked (radii scale asked)) s =
      overMasks l (fun k => on k && if in_dec mk_eq k ks then true else false) (fun k => overRadii lab k (step k) asked (radii scale asked)) s).
    { induction l as [|k l IH]; intros Hi s0; [reflexivity|]. cbn [overMasks].
      destruct (in_dec mk_eq k ks) as [|n]; [|destruct (n (Hi k (or_introl eq_refl)))]. rewrite andb_true_r.
      assert (Hl : incl l ks) by (intros x Hx; apply Hi; right; exact Hx).
      destruct (on k); [|apply IH; exact Hl]. destruct (overRadii _ _ _ _ _ _); [apply IH; exact Hl|reflexivity]. }
    apply G. apply incl_refl. }
  rewrite Q. edestruct (masks_all (fun k => on k && if in_dec mk_eq k ks then true else false)
    (fun k => overRadii lab k (step k) asked (radii scale asked)) add) as (s' & E & I' & F & G); [| exact Hn | exact Hs |].
  - intros k Hk s0 Hs0. apply andb_prop in Hk. destruct Hk as [Hk Hi].
    destruct (in_dec mk_eq k ks) as [Hin|]; [|discriminate].
    apply radii_all; [apply W; exact Hk|apply Ha; assumption|exact Hs0].
  - exists s'. split; [exact E|]. split; [exact I'|]. split.
    + intros n H. apply F. intros Hi Ho. apply andb_prop in Ho. apply H; [exact Hi|apply Ho].
    + intros n Hi Ho. apply G; [exact Hi|]. rewrite Ho. destruct (in_dec mk_eq (n_k n) ks); [reflexivity|contradiction].
Qed.
End Loops.
