(** The reduced grid: proofs. *)
From Coq Require Import List Arith ZArith Bool Lia.
From Verif Require Import GravModel GravSpec GravProofs.
Import ListNotations.
Ltac Zify.zify_post_hook ::= idtac.

(** ** Reading and writing in place *)
Lemma scatter {A P} (u s : P -> nat) (l : list P) (m : nat -> A) :
  (forall p q, In p l -> In q l -> u p <> s q) -> (forall p q, In p l -> In q l -> u p = u q -> s p = s q) ->
  let m' := fold_left (fun m p => put m (u p) (m (s p))) l m in
  (forall i, (forall p, In p l -> i <> u p) -> m' i = m i) /\ (forall p, In p l -> m' (u p) = m (s p)).
Proof.
  induction l as [|x l IH] using rev_ind; intros H1 H2; cbv zeta.
  - split; [reflexivity|intros p []].
  - rewrite fold_left_app. cbn [fold_left]. destruct IH as [I1 I2].
    + intros p q Hp Hq. apply H1; apply in_or_app; left; assumption.
    + intros p q Hp Hq. apply H2; apply in_or_app; left; assumption.
    + assert (X : In x (l ++ [x])) by (apply in_or_app; right; left; reflexivity).
      assert (RX : fold_left (fun m p => put m (u p) (m (s p))) l m (s x) = m (s x)).
      { apply I1. intros p Hp E. apply (H1 p x); [apply in_or_app; left; assumption|exact X|]. symmetry. exact E. }
      split.
      * intros i Hi. rewrite put_other by (apply Hi; exact X). apply I1. intros p Hp. apply Hi. apply in_or_app; left; assumption.
      * intros p Hp. destruct (Nat.eq_dec (u p) (u x)) as [E|E].
        -- rewrite E, put_same, RX. f_equal. symmetry. apply H2; assumption.
        -- rewrite put_other by exact E. apply I2. apply in_app_or in Hp. destruct Hp as [Hp|[Hp|[]]]; [exact Hp|subst; contradiction].
Qed.

(** ** Places *)
Lemma rows_w L w : 0 < w -> L mod w = 0 -> L = w * (L / w).
Proof. intros Hw D. pose proof (Nat.div_mod L w ltac:(lia)) as Q. lia. Qed.
Lemma in_rows L w y : 0 < L -> 0 < w -> L mod w = 0 -> y < L -> 0 < L / w /\ y mod (L / w) < L / w /\ y / (L / w) < w.
Proof.
  intros HL Hw D Hy. pose proof (rows_w L w Hw D) as Q. set (R := L / w) in *. clearbody R. assert (0 < R) by (destruct R; lia). split; [lia|]. split; [apply Nat.mod_upper_bound; lia|].
  apply Nat.div_lt_upper_bound; lia.
Qed.
(** The offset inside a slice *)
Definition off (L w x y : nat) : nat := (y mod (L / w)) * (L * w) + x * w + y / (L / w).
Lemma place_off g w x y z : vectorPlace g w x y z = bBO g + z * (bL g * bL g) + off (bL g) w x y.
Proof. unfold vectorPlace, off, bBO. cbv zeta. lia. Qed.
Lemma off_lt L w x y : 0 < L -> 0 < w -> L mod w = 0 -> x < L -> y < L -> off L w x y < L * L.
Proof.
  intros HL Hw D Hx Hy. destruct (in_rows L w y HL Hw D Hy) as [P [A B]]. pose proof (rows_w L w Hw D) as Q. unfold off. set (R := L / w) in *. set (a := y mod R) in *. set (b := y / R) in *. clearbody a b.
  assert (a * (L * w) + L * w <= R * (L * w)). { replace (a * (L * w) + L * w) with (S a * (L * w)) by lia. apply Nat.mul_le_mono_r. lia. }
  assert (x * w + w <= L * w). { replace (x * w + w) with (S x * w) by lia. apply Nat.mul_le_mono_r. lia. }
  assert (R * (L * w) = L * L). { rewrite Q at 2. ring. }
  lia.
Qed.
Lemma off_inj L w x y u v : 0 < L -> 0 < w -> L mod w = 0 -> x < L -> y < L -> u < L -> v < L -> off L w x y = off L w u v -> x = u /\ y = v.
Proof.
  intros HL Hw D Hx Hy Hu Hv E. destruct (in_rows L w y HL Hw D Hy) as [P [A B]]. destruct (in_rows L w v HL Hw D Hv) as [_ [A' B']]. unfold off in E.
  pose proof (Nat.div_mod y (L / w) ltac:(lia)) as Y. pose proof (Nat.div_mod v (L / w) ltac:(lia)) as V. set (R := L / w) in *. set (a := y mod R) in *. set (b := y / R) in *. set (a' := v mod R) in *. set (b' := v / R) in *. clearbody a b a' b'.
  assert (E2 : w * (L * a + x) + b = w * (L * a' + u) + b') by (ring_simplify; ring_simplify in E; lia).
  destruct (Nat.div_mod_unique w _ _ b b' ltac:(lia) ltac:(lia) E2) as [F1 F2]. destruct (Nat.div_mod_unique L a a' x u ltac:(lia) ltac:(lia) F1) as [G1 G2]. subst. lia.
Qed.
Lemma row_lt n x y z : x < n -> y < n -> z * ((n + 2) * n) <= rowPlace n x y z < (z + 1) * ((n + 2) * n).
Proof.
  intros Hx Hy. unfold rowPlace. replace ((n + 2) * (z * n + y) + x) with (z * ((n + 2) * n) + ((n + 2) * y + x)) by ring.
  assert ((n + 2) * y + (n + 2) <= (n + 2) * n). { replace ((n + 2) * y + (n + 2)) with ((n + 2) * S y) by lia. apply Nat.mul_le_mono_l. lia. } lia.
Qed.
Lemma row_inj n x y u v z : x < n -> u < n -> rowPlace n x y z = rowPlace n u v z -> x = u /\ y = v.
Proof.
  intros Hx Hu E. unfold rowPlace in E. destruct (Nat.div_mod_unique (n + 2) _ _ x u ltac:(lia) ltac:(lia) E). lia.
Qed.
Lemma small_slices g ref : 2 <= ref -> ref * (bL g / ref) = bL g -> (bL g / ref + 2) * (bL g / ref) <= bL g * bL g.
Proof.
  intros R E. set (n := bL g / ref) in *. rewrite <- E. clearbody n. apply Nat.le_trans with ((2 * n) * (2 * n)); [|apply Nat.mul_le_mono; apply Nat.mul_le_mono_r; exact R]. destruct n as [|n]; [lia|]. ring_simplify. nia.
Qed.

(** ** Down *)
Lemma reducePoint_eq {A} g w ref riz (m : nat -> A) riy rix : fits g w ref ->
  reducePoint g w ref riz m (riy, rix) = put m (rowPlace (bL g / ref) rix riy riz) (m (vectorPlace g w (ref * rix) (ref * riy) (ref * riz))).
Proof.
  intros [HL [Hw [D _]]]. unfold reducePoint. cbv zeta. rewrite place_off. unfold off, rowPlace. f_equal. f_equal. rewrite <- !Nat.add_assoc. f_equal. pose proof (rows_w _ _ Hw D) as Q. set (R := bL g / w) in *.
  assert (R0 : 0 < R) by (destruct R; lia). assert (X : ref * riy / R * bL g / w = R * (ref * riy / R)). { rewrite Q at 1. replace (ref * riy / R * (w * R)) with (R * (ref * riy / R) * w) by ring. apply Nat.div_mul. lia. }
  rewrite X. pose proof (Nat.div_mod (ref * riy) R ltac:(lia)) as DM. replace (ref * riy - R * (ref * riy / R)) with ((ref * riy) mod R) by lia. ring.
Qed.
Lemma reduce_slice {A} g w ref k (m : nat -> A) l : fits g w ref -> ref * (bL g / ref) = bL g -> (forall y x, In (y, x) l -> y < bL g / ref /\ x < bL g / ref) ->
  let n := bL g / ref in let W := (n + 2) * n in let m' := fold_left (reducePoint g w ref k) l m in
  (forall i, i < k * W \/ (k + 1) * W <= i -> m' i = m i) /\
  (forall y x, In (y, x) l -> m' (rowPlace n x y k) = m (vectorPlace g w (ref * x) (ref * y) (ref * k))).
Proof.
  intros F E HI. cbv zeta. set (n := bL g / ref) in *. set (W := (n + 2) * n).
  assert (EQ : fold_left (reducePoint g w ref k) l m = fold_left (fun m p => put m (rowPlace n (snd p) (fst p) k) (m (vectorPlace g w (ref * snd p) (ref * fst p) (ref * k)))) l m).
  { clear HI. revert m. induction l as [|[y x] l IH]; intros m; [reflexivity|]. cbn [fold_left]. rewrite (reducePoint_eq g w ref k m y x F). cbn [fst snd]. apply IH. }
  rewrite EQ. clear EQ. pose proof F as [HL [Hw [D [HN HR]]]]. pose proof (small_slices g ref HR E) as SM. fold n in SM. fold W in SM.
  assert (RD : forall y x, (k + 1) * W <= vectorPlace g w x y (ref * k)).
  { intros y x. rewrite place_off. unfold bBO. assert (1 * (bL g * bL g) <= bNg g * (bL g * bL g)) by (apply Nat.mul_le_mono_r; exact HN). assert (k * (bL g * bL g) <= ref * k * (bL g * bL g)) by (apply Nat.mul_le_mono_r; replace k with (1 * k) at 1 by lia; apply Nat.mul_le_mono_r; lia).
    assert ((k + 1) * W <= (k + 1) * (bL g * bL g)) by (apply Nat.mul_le_mono_l; exact SM). lia. }
  destruct (scatter (fun p => rowPlace n (snd p) (fst p) k) (fun p => vectorPlace g w (ref * snd p) (ref * fst p) (ref * k)) l m) as [S1 S2].
  - intros [y x] [v u] Hp _ Q. cbn [fst snd] in Q. destruct (HI y x Hp) as [Hy Hx]. pose proof (row_lt n x y k Hx Hy) as B. fold W in B. specialize (RD (ref * v) (ref * u)). lia.
  - intros [y x] [v u] Hp Hq Q. cbn [fst snd] in *. destruct (HI y x Hp) as [Hy Hx]. destruct (HI v u Hq) as [Hv Hu]. destruct (row_inj n x y u v k Hx Hu Q) as [-> ->]. reflexivity.
  - split.
    + intros i Hi. apply S1. intros [y x] Hp. cbn [fst snd]. destruct (HI y x Hp) as [Hy Hx]. pose proof (row_lt n x y k Hx Hy) as B. fold W in B. lia.
    + intros y x Hp. apply (S2 (y, x) Hp).
Qed.
Lemma reduce_slices {A} g w ref ord (m : nat -> A) K : fits g w ref -> ref * (bL g / ref) = bL g -> (forall k, k < K -> everyPoint (bL g / ref) (ord k)) ->
  let n := bL g / ref in let W := (n + 2) * n in let m' := fold_left (fun m k => fold_left (reducePoint g w ref k) (ord k) m) (seq 0 K) m in
  (forall i, K * W <= i -> m' i = m i) /\
  (forall x y z, x < n -> y < n -> z < K -> m' (rowPlace n x y z) = m (vectorPlace g w (ref * x) (ref * y) (ref * z))).
Proof.
  intros F E. cbv zeta. set (n := bL g / ref) in *. set (W := (n + 2) * n). induction K as [|K IH]; intros HO.
  - split; [reflexivity|lia].
  - rewrite seq_S, fold_left_app. cbn [fold_left Nat.add]. destruct IH as [I1 I2]; [intros k Hk; apply HO; lia|].
    set (m1 := fold_left _ (seq 0 K) m) in *. destruct (HO K ltac:(lia)) as [_ PT].
    destruct (reduce_slice g w ref K m1 (ord K) F E) as [S1 S2]; [intros y x Hp; apply PT; exact Hp|]. fold n in S1, S2. fold W in S1.
    split.
    + intros i Hi. rewrite S1 by (right; lia). apply I1. lia.
    + intros x y z Hx Hy Hz. destruct (Nat.eq_dec z K) as [->|Z].
      * rewrite S2 by (apply PT; split; assumption). apply I1. pose proof F as [HL [Hw [D [HN HR]]]]. pose proof (small_slices g ref HR E) as SM. fold n in SM. fold W in SM.
        rewrite place_off. unfold bBO. assert (K * (bL g * bL g) <= ref * K * (bL g * bL g)) by (apply Nat.mul_le_mono_r; replace K with (1 * K) at 1 by lia; apply Nat.mul_le_mono_r; lia).
        assert (K * W <= K * (bL g * bL g)) by (apply Nat.mul_le_mono_l; exact SM). lia.
      * rewrite S1. 2:{ left. pose proof (row_lt n x y z Hx Hy) as B. fold W in B. assert ((z + 1) * W <= K * W) by (apply Nat.mul_le_mono_r; lia). lia. }
        apply I2; (assumption || lia).
Qed.

(** ** Up *)
Lemma put_all {A P} (t : P -> nat) (a : A) l (m : nat -> A) :
  (forall i, (forall p, In p l -> i <> t p) -> fold_left (fun m p => put m (t p) a) l m i = m i) /\ (forall p, In p l -> fold_left (fun m p => put m (t p) a) l m (t p) = a).
Proof.
  induction l as [|x l IH] using rev_ind; [split; [reflexivity|intros p []]|]. rewrite fold_left_app. cbn [fold_left]. destruct IH as [I1 I2]. split.
  - intros i Hi. rewrite put_other by (apply Hi, in_or_app; right; left; reflexivity). apply I1. intros p Hp. apply Hi, in_or_app. left. exact Hp.
  - intros p Hp. destruct (Nat.eq_dec (t p) (t x)) as [E|E]; [rewrite E; apply put_same|]. rewrite put_other by exact E. apply I2. apply in_app_or in Hp. destruct Hp as [Hp|[Hp|[]]]; [exact Hp|subst; contradiction].
Qed.
Lemma nested_fold {A B C} (f : A -> B * C -> A) (lb : list B) (lc : list C) (a : A) :
  fold_left (fun a b => fold_left (fun a c => f a (b, c)) lc a) lb a = fold_left f (list_prod lb lc) a.
Proof.
  revert a. induction lb as [|b lb IH]; intros a; [reflexivity|]. cbn [fold_left list_prod]. rewrite fold_left_app, <- IH. f_equal. clear. revert a. induction lc as [|c lc IH]; intros a; [reflexivity|]. cbn. apply IH.
Qed.
Lemma fold_ext {A B} (f h : A -> B -> A) l a : (forall a b, f a b = h a b) -> fold_left f l a = fold_left h l a.
Proof. intros H. revert a. induction l as [|b l IH]; intros a; [reflexivity|]. cbn. rewrite H. apply IH. Qed.
Lemma expandPoint_eq {A} g w ref iz (m : nat -> A) riy rix : fits g w ref ->
  expandPoint g w ref iz m (riy, rix) = fold_left (fun m' q => put m' (vectorPlace g w (rix * ref + snd q) (ref * riy + fst q) iz) (m (rowPlace (bL g / ref) rix riy (iz / ref)))) (list_prod (seq 0 ref) (seq 0 ref)) m.
Proof.
  intros [HL [Hw [D _]]]. unfold expandPoint. cbv zeta. replace (iz / ref * (bL g / ref + 2) * (bL g / ref) + riy * (bL g / ref + 2) + rix) with (rowPlace (bL g / ref) rix riy (iz / ref)) by (unfold rowPlace; ring).
  rewrite <- nested_fold. pose proof (rows_w _ _ Hw D) as Q. set (R := bL g / w) in *. assert (R0 : 0 < R) by (destruct R; lia).
  apply fold_ext. intros m1 yy. apply fold_ext. intros m2 xx. cbn [fst snd]. f_equal. rewrite place_off. unfold off. fold R.
  pose proof (Nat.div_mod (ref * riy + yy) R ltac:(lia)) as DM. replace (ref * riy + yy - (ref * riy + yy) / R * R) with ((ref * riy + yy) mod R) by lia. ring.
Qed.
Lemma cell ref x n : 0 < ref -> (x / ref = n <-> exists d, d < ref /\ x = n * ref + d).
Proof.
  intros R. split.
  - intros <-. exists (x mod ref). pose proof (Nat.div_mod x ref ltac:(lia)). pose proof (Nat.mod_upper_bound x ref ltac:(lia)). split; lia.
  - intros [d [Hd ->]]. rewrite Nat.add_comm, Nat.div_add by lia. rewrite Nat.div_small by exact Hd. reflexivity.
Qed.
Lemma expand_point {A} g w ref iz (m : nat -> A) riy rix : fits g w ref -> ref * (bL g / ref) = bL g -> riy < bL g / ref -> rix < bL g / ref ->
  let n := bL g / ref in let S := bL g * bL g in let m' := expandPoint g w ref iz m (riy, rix) in
  (forall i, i < bBO g + iz * S \/ bBO g + (iz + 1) * S <= i -> m' i = m i) /\
  (forall x y, x < bL g -> y < bL g -> (y / ref <> riy \/ x / ref <> rix) -> m' (vectorPlace g w x y iz) = m (vectorPlace g w x y iz)) /\
  (forall x y, x < bL g -> y < bL g -> y / ref = riy -> x / ref = rix -> m' (vectorPlace g w x y iz) = m (rowPlace n rix riy (iz / ref))).
Proof.
  intros F E Hy Hx. cbv zeta. rewrite (expandPoint_eq g w ref iz m riy rix F). destruct F as [HL [Hw [D [HN HR]]]].
  assert (IN : forall d q, d < ref -> q < bL g / ref -> q * ref + d < bL g).
  { intros d q Hd Hq. rewrite <- E. assert (S q * ref <= bL g / ref * ref) by (apply Nat.mul_le_mono_r; lia). lia. }
  destruct (put_all (fun q => vectorPlace g w (rix * ref + snd q) (ref * riy + fst q) iz) (m (rowPlace (bL g / ref) rix riy (iz / ref))) (list_prod (seq 0 ref) (seq 0 ref)) m) as [P1 P2].
  split; [|split].
  - intros i Hi. apply P1. intros [b a] Hp. apply in_prod_iff in Hp. destruct Hp as [Hb Ha]. apply in_seq in Hb, Ha. cbn [fst snd]. rewrite place_off.
    pose proof (off_lt (bL g) w (rix * ref + a) (ref * riy + b) HL Hw D ltac:(apply IN; (assumption || lia)) ltac:(rewrite (Nat.mul_comm ref); apply IN; (assumption || lia))). lia.
  - intros x y Hxx Hyy Q. apply P1. intros [b a] Hp. apply in_prod_iff in Hp. destruct Hp as [Hb Ha]. apply in_seq in Hb, Ha. cbn [fst snd]. rewrite !place_off. intros EO.
    destruct (off_inj (bL g) w x y (rix * ref + a) (ref * riy + b) HL Hw D Hxx Hyy ltac:(apply IN; (assumption || lia)) ltac:(rewrite (Nat.mul_comm ref); apply IN; (assumption || lia)) ltac:(lia)) as [-> ->].
    destruct Q as [Q|Q]; apply Q; apply cell; try lia; [exists b|exists a]; split; lia.
  - intros x y Hxx Hyy Qy Qx. apply cell in Qy; [|lia]. apply cell in Qx; [|lia]. destruct Qy as [b [Hb ->]]. destruct Qx as [a [Ha ->]].
    specialize (P2 (b, a)). cbn [fst snd] in P2. rewrite (Nat.mul_comm ref riy) in P2. rewrite (Nat.mul_comm ref riy). apply P2. apply in_prod_iff. split; apply in_seq; lia.
Qed.
Lemma expand_slice {A} g w ref iz (m : nat -> A) l : fits g w ref -> ref * (bL g / ref) = bL g -> (forall y x, In (y, x) l -> y < bL g / ref /\ x < bL g / ref) ->
  let n := bL g / ref in let S := bL g * bL g in let m' := fold_left (expandPoint g w ref iz) l m in
  (forall i, i < bBO g + iz * S \/ bBO g + (iz + 1) * S <= i -> m' i = m i) /\
  (forall x y, x < bL g -> y < bL g -> In (y / ref, x / ref) l -> m' (vectorPlace g w x y iz) = m (rowPlace n (x / ref) (y / ref) (iz / ref))).
Proof.
  intros F E. cbv zeta. induction l as [|[b a] l IH] using rev_ind; intros HI; [split; [reflexivity|intros x y _ _ []]|]. rewrite fold_left_app. cbn [fold_left].
  destruct IH as [I1 I2]; [intros y x Hp; apply HI, in_or_app; left; exact Hp|]. set (m1 := fold_left _ l m) in *. destruct (HI b a ltac:(apply in_or_app; right; left; reflexivity)) as [Hb Ha].
  destruct (expand_point g w ref iz m1 b a F E Hb Ha) as [P1 [P2 P3]]. pose proof F as [HL [Hw [D [HN HR]]]]. pose proof (small_slices g ref HR E) as SM.
  assert (RD : forall x y, x < bL g / ref -> y < bL g / ref -> rowPlace (bL g / ref) x y (iz / ref) < bBO g + iz * (bL g * bL g)).
  { intros x y Hx Hy. pose proof (row_lt (bL g / ref) x y (iz / ref) Hx Hy) as B. unfold bBO. assert (1 * (bL g * bL g) <= bNg g * (bL g * bL g)) by (apply Nat.mul_le_mono_r; exact HN).
    assert (iz / ref <= iz) by (apply Nat.div_le_upper_bound; [lia|]; replace iz with (1 * iz) at 1 by lia; apply Nat.mul_le_mono_r; lia).
    assert ((iz / ref + 1) * ((bL g / ref + 2) * (bL g / ref)) <= (iz + 1) * (bL g * bL g)) by (apply Nat.mul_le_mono; [lia|exact SM]). lia. }
  split.
  - intros i Hi. rewrite P1 by exact Hi. apply I1. exact Hi.
  - intros x y Hx Hy Hp. destruct (Nat.eq_dec (y / ref) b) as [Qy|Qy]; [destruct (Nat.eq_dec (x / ref) a) as [Qx|Qx]|].
    + rewrite P3 by assumption. subst a b. apply I1. left. apply RD; assumption.
    + rewrite P2 by auto. apply I2; [assumption|assumption|]. apply in_app_or in Hp. destruct Hp as [Hp|[Hp|[]]]; [exact Hp|]. inversion Hp. congruence.
    + rewrite P2 by auto. apply I2; [assumption|assumption|]. apply in_app_or in Hp. destruct Hp as [Hp|[Hp|[]]]; [exact Hp|]. inversion Hp. congruence.
Qed.
Lemma expand_slices {A} g w ref ord (m : nat -> A) K N : fits g w ref -> ref * (bL g / ref) = bL g -> K <= N -> (forall k, k < N -> everyPoint (bL g / ref) (ord k)) ->
  let n := bL g / ref in let S := bL g * bL g in let m' := fold_left (fun m iz => fold_left (expandPoint g w ref iz) (ord iz) m) (rev (seq K (N - K))) m in
  (forall i, i < bBO g + K * S \/ bBO g + N * S <= i -> m' i = m i) /\
  (forall x y z, x < bL g -> y < bL g -> K <= z < N -> m' (vectorPlace g w x y z) = m (rowPlace n (x / ref) (y / ref) (z / ref))).
Proof.
  intros F E HK HO. cbv zeta. remember (N - K) as d eqn:Ed. revert K HK Ed. induction d as [|d IH]; intros K HK Ed; [split; [reflexivity|lia]|].
  cbn [seq rev]. rewrite fold_left_app. cbn [fold_left]. destruct (IH (S K) ltac:(lia) ltac:(lia)) as [I1 I2]. set (m1 := fold_left _ (rev (seq (S K) d)) m) in *.
  destruct (HO K ltac:(lia)) as [_ PT]. destruct (expand_slice g w ref K m1 (ord K) F E) as [S1 S2]; [intros y x Hp; apply PT; exact Hp|]. pose proof F as [HL [Hw [D [HN HR]]]]. pose proof (small_slices g ref HR E) as SM.
  assert (CD : forall x, x < bL g -> x / ref < bL g / ref) by (intros x Hx; apply Nat.div_lt_upper_bound; lia).
  assert (MO : K * (bL g * bL g) + (bL g * bL g) <= N * (bL g * bL g)). { replace (K * (bL g * bL g) + (bL g * bL g)) with (S K * (bL g * bL g)) by lia. apply Nat.mul_le_mono_r. lia. }
  split.
  - intros i Hi. rewrite S1 by lia. apply I1. lia.
  - intros x y z Hx Hy Hz. destruct (Nat.eq_dec z K) as [->|Z].
    + rewrite S2; [|assumption|assumption|apply PT; split; apply CD; assumption]. apply I1. left. pose proof (row_lt (bL g / ref) (x / ref) (y / ref) (K / ref) (CD x Hx) (CD y Hy)) as B. unfold bBO.
      assert (1 * (bL g * bL g) <= bNg g * (bL g * bL g)) by (apply Nat.mul_le_mono_r; exact HN).
      assert (K / ref <= K) by (apply Nat.div_le_upper_bound; [lia|]; replace K with (1 * K) at 1 by lia; apply Nat.mul_le_mono_r; lia).
      assert ((K / ref + 1) * ((bL g / ref + 2) * (bL g / ref)) <= (K + 1) * (bL g * bL g)) by (apply Nat.mul_le_mono; [lia|exact SM]). lia.
    + rewrite S1. 2:{ right. rewrite place_off. assert ((K + 1) * (bL g * bL g) <= z * (bL g * bL g)) by (apply Nat.mul_le_mono_r; lia). lia. }
      apply I2; (assumption || lia).
Qed.
