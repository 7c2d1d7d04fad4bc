From Coq Require Import Reals List Arith Bool Lia Lra.
From Verif Require Import KgvModel KgvSpec.
From Verif Require ThetaModel ThetaProperties.
Import ListNotations.
Local Open Scope R_scope.
Ltac Zify.zify_post_hook ::= idtac.

Notation site3 := (nat * nat * nat)%type.
Definition sites (L : nat) (order : list (nat * nat)) : list site3 := flat_map (fun yz => map (fun x => (x, fst yz, snd yz)) (seq 0 L)) order.
Lemma fold_map {A B C} (f : A -> B -> A) (h : C -> B) l : forall a, fold_left f (map h l) a = fold_left (fun a c => f a (h c)) l a.
Proof. induction l; intros; cbn; auto. Qed.
Lemma rows_sites g site order : forall m2, rows g site order m2 = fold_left (fun m s => site m (fst (fst s)) (snd (fst s)) (snd s)) (sites (gL g) order) m2.
Proof.
  unfold rows, sites. induction order as [|[y z] l IH]; intros m2; [reflexivity|]. cbn [fold_left flat_map]. rewrite fold_left_app, fold_map. cbn [fst snd]. apply IH.
Qed.
Lemma in_sites L order x y z : In (x, y, z) (sites L order) <-> (x < L)%nat /\ In (y, z) order.
Proof.
  unfold sites. rewrite in_flat_map. split.
  - intros ([y' z'] & I & J). apply in_map_iff in J. destruct J as (x' & E & J). cbn in E. injection E as -> -> ->. apply in_seq in J. split; [lia|exact I].
  - intros [H I]. exists (y, z). split; [exact I|]. apply in_map_iff. exists x. split; [reflexivity|]. apply in_seq. lia.
Qed.
Lemma nodup_app {A} (l m : list A) : NoDup l -> NoDup m -> (forall a, In a l -> In a m -> False) -> NoDup (l ++ m).
Proof.
  intros N M D. induction N as [|a l H N IH]; [exact M|]. cbn. constructor.
  - rewrite in_app_iff. intros [I|I]; [exact (H I)|exact (D a (or_introl eq_refl) I)].
  - apply IH. intros b I. apply D. right. exact I.
Qed.
Lemma nodup_sites L order : NoDup order -> NoDup (sites L order).
Proof.
  intros N. unfold sites. induction N as [|[y z] l H N IH]; [constructor|]. cbn [flat_map fst snd]. apply nodup_app.
  - apply FinFun.Injective_map_NoDup; [|apply seq_NoDup]. intros a b E. injection E. auto.
  - exact IH.
  - intros [[x y'] z'] I J. apply in_map_iff in I. destruct I as (x0 & E & _). injection E as -> <- <-. apply (in_sites L) in J. exact (H (proj2 J)).
Qed.

Lemma put_at s i v : put s i v i = v. Proof. unfold put. rewrite Nat.eqb_refl. reflexivity. Qed.
Lemma put_other s i v j : j <> i -> put s i v j = s j. Proof. intros N. unfold put. apply Nat.eqb_neq in N. rewrite N. reflexivity. Qed.

Lemma one (f : array -> site3 -> array) (A D : site3 -> nat) (val : site3 -> R -> R) l :
  (forall m s, In s l -> f m s = put m (A s) (val s (m (D s)))) -> NoDup l ->
  (forall s t, In s l -> In t l -> A s = A t -> s = t) -> (forall s t, In s l -> In t l -> A s <> D t) -> forall m,
  (forall s, In s l -> fold_left f l m (A s) = val s (m (D s))) /\ (forall j, (forall s, In s l -> j <> A s) -> fold_left f l m j = m j).
Proof.
  induction l as [|s l IH]; intros F N IA AD m; [split; [intros s []|reflexivity]|].
  inversion N as [|? ? Hs Nl]; subst.
  destruct (IH (fun m t I => F m t (or_intror I)) Nl (fun a b I J => IA a b (or_intror I) (or_intror J)) (fun a b I J => AD a b (or_intror I) (or_intror J)) (f m s)) as [P Q].
  cbn [fold_left]. split.
  - intros t [<-|I].
    + rewrite Q; [rewrite F by (left; reflexivity); apply put_at|]. intros t I E. apply Hs. rewrite (IA s t (or_introl eq_refl) (or_intror I) E). exact I.
    + rewrite P by exact I. rewrite F by (left; reflexivity). rewrite put_other; [reflexivity|]. intros E. exact (AD s t (or_introl eq_refl) (or_intror I) (eq_sym E)).
  - intros j H. rewrite Q by (intros t I; apply H; right; exact I). rewrite F by (left; reflexivity). apply put_other. apply H. left. reflexivity.
Qed.
Lemma two (f : array -> site3 -> array) (A B D : site3 -> nat) (val wal : site3 -> R -> R) l :
  (forall m s, In s l -> f m s = put (put m (A s) (val s (m (D s)))) (B s) (wal s (m (D s)))) -> NoDup l ->
  (forall s t, In s l -> In t l -> A s = A t -> s = t) -> (forall s t, In s l -> In t l -> B s = B t -> s = t) ->
  (forall s t, In s l -> In t l -> A s <> B t) -> (forall s t, In s l -> In t l -> A s <> D t) -> (forall s t, In s l -> In t l -> B s = D t -> s = t) -> forall m,
  (forall s, In s l -> fold_left f l m (A s) = val s (m (D s)) /\ fold_left f l m (B s) = wal s (m (D s))) /\
  (forall j, (forall s, In s l -> j <> A s /\ j <> B s) -> fold_left f l m j = m j).
Proof.
  induction l as [|s l IH]; intros F N IA IB AB AD BD m; [split; [intros s []|reflexivity]|].
  inversion N as [|? ? Hs Nl]; subst.
  destruct (IH (fun m t I => F m t (or_intror I)) Nl (fun a b I J => IA a b (or_intror I) (or_intror J)) (fun a b I J => IB a b (or_intror I) (or_intror J))
    (fun a b I J => AB a b (or_intror I) (or_intror J)) (fun a b I J => AD a b (or_intror I) (or_intror J)) (fun a b I J => BD a b (or_intror I) (or_intror J)) (f m s)) as [P Q].
  assert (here : In s (s :: l)) by (left; reflexivity).
  assert (ne : forall t, In t l -> s <> t) by (intros t I E; apply Hs; rewrite E; exact I).
  cbn [fold_left]. split.
  - intros t [<-|I].
    + rewrite !Q.
      * rewrite F by exact here. rewrite put_at. split; [|reflexivity]. rewrite put_other by (apply AB; exact here). apply put_at.
      * intros t I. split; [intros E; exact (AB t s (or_intror I) here (eq_sym E))|]. intros E. exact (ne t I (IB s t here (or_intror I) E)).
      * intros t I. split; [intros E; exact (ne t I (IA s t here (or_intror I) E))|]. apply AB; [exact here|right; exact I].
    + destruct (P t I) as [P1 P2]. rewrite P1, P2. rewrite F by exact here.
      rewrite put_other by (intros E; exact (ne t I (BD s t here (or_intror I) (eq_sym E)))).
      rewrite put_other by (intros E; exact (AD s t here (or_intror I) (eq_sym E))). split; reflexivity.
  - intros j H. rewrite Q by (intros t I; apply H; right; exact I). rewrite F by exact here. destruct (H s here). rewrite !put_other by assumption. reflexivity.
Qed.

Lemma radix n a b a' b' : (a < n)%nat -> (a' < n)%nat -> (a + n * b = a' + n * b')%nat -> a = a' /\ b = b'.
Proof.
  intros H H' E. assert (b = b').
  { destruct (lt_eq_lt_dec b b') as [[C|C]|C]; [exfalso|exact C|exfalso].
    - assert (n * (b + 1) <= n * b')%nat by (apply Nat.mul_le_mono_l; lia). lia.
    - assert (n * (b' + 1) <= n * b)%nat by (apply Nat.mul_le_mono_l; lia). lia. }
  subst. lia.
Qed.
Lemma odx_eq g x y z : odx g x y z = padded (gL g) x y z. Proof. unfold odx, padded. ring. Qed.
Lemma idx_eq g x y z : idx g x y z = plain (gL g) x y z. Proof. unfold idx, plain. ring. Qed.
Lemma padded_inj L x y z x' y' z' : (x < L)%nat -> (y < L)%nat -> (x' < L)%nat -> (y' < L)%nat -> padded L x y z = padded L x' y' z' -> (x, y, z) = (x', y', z').
Proof. intros H1 H2 H3 H4 E. unfold padded in E. apply radix in E; [|lia|lia]. destruct E as [-> E]. apply radix in E; [|lia|lia]. destruct E as [-> ->]. reflexivity. Qed.
Lemma plain_inj L x y z x' y' z' : (x < L)%nat -> (y < L)%nat -> (x' < L)%nat -> (y' < L)%nat -> plain L x y z = plain L x' y' z' -> (x, y, z) = (x', y', z').
Proof. intros H1 H2 H3 H4 E. unfold plain in E. apply radix in E; [|lia|lia]. destruct E as [-> E]. apply radix in E; [|lia|lia]. destruct E as [-> ->]. reflexivity. Qed.
Lemma below_mix L Lz y z : (y < L)%nat -> (z < Lz)%nat -> (y + L * z + 1 <= L * Lz)%nat.
Proof. intros H G. assert (L * (z + 1) <= L * Lz)%nat by (apply Nat.mul_le_mono_l; lia). lia. Qed.
Lemma padded_lt L Lz x y z : (x < L)%nat -> (y < L)%nat -> (z < Lz)%nat -> (padded L x y z < (L + 2) * (L * Lz))%nat.
Proof. intros H1 H2 H3. unfold padded. pose proof (below_mix L Lz y z H2 H3). assert ((L + 2) * (y + L * z + 1) <= (L + 2) * (L * Lz))%nat by (apply Nat.mul_le_mono_l; lia). lia. Qed.
Lemma plain_lt L Lz x y z : (x < L)%nat -> (y < L)%nat -> (z < Lz)%nat -> (plain L x y z < L * (L * Lz))%nat.
Proof. intros H1 H2 H3. unfold plain. pose proof (below_mix L Lz y z H2 H3). assert (L * (y + L * z + 1) <= L * (L * Lz))%nat by (apply Nat.mul_le_mono_l; lia). lia. Qed.
Lemma room g : (gLz g <= gNg g * gL g)%nat -> ((gL g + 2) * (gL g * gLz g) <= v3 g)%nat.
Proof. intros H. unfold v3. assert (gL g * gLz g <= gL g * (gNg g * gL g))%nat by (apply Nat.mul_le_mono_l; exact H). nia. Qed.

Lemma next_mod L i : (i < L)%nat -> ((i + 1) mod L = next L i)%nat.
Proof. intros H. unfold next. destruct (Nat.eqb_spec (i + 1) L) as [E|E]; [rewrite E; apply Nat.mod_same; lia|apply Nat.mod_small; lia]. Qed.
Lemma prev_mod L i : (i < L)%nat -> ((L + i - 1) mod L = prev L i)%nat.
Proof.
  intros H. unfold prev. destruct i; [rewrite Nat.mod_small; lia|].
  replace (L + S i - 1)%nat with (i + 1 * L)%nat by lia. rewrite Nat.mod_add by lia. rewrite Nat.mod_small by lia. lia.
Qed.
Lemma next_lt L i : (i < L)%nat -> (next L i < L)%nat. Proof. intros H. unfold next. destruct (Nat.eqb_spec (i + 1) L); lia. Qed.
Lemma prev_lt L i : (i < L)%nat -> (prev L i < L)%nat. Proof. intros H. unfold prev. destruct i; lia. Qed.

(** What a rank reads. *)
Record ok (K p : nat) (g : grid) (r : rk) phi : Prop := Ok { okL : (0 < gL g)%nat; okN : (1 <= gNg g <= K * gLz g)%nat; okP : (p < K)%nat; okM : holds K p g (rM r) phi }.
Lemma inBox K p Lz z : (p < K)%nat -> (z < Lz)%nat -> (p * Lz + z < K * Lz)%nat.
Proof. intros H G. assert ((p + 1) * Lz <= K * Lz)%nat by (apply Nat.mul_le_mono_r; lia). lia. Qed.
Lemma read_ K p g r phi x y z : ok K p g r phi -> (x < gL g)%nat -> (y < gL g)%nat -> (z <= gLz g + 1)%nat ->
  ma g r (idx g x y z) = phi x y ((p * gLz g + z + K * gLz g - 1) mod (K * gLz g))%nat.
Proof.
  intros [HL HN HP HM] Hx Hy Hz. unfold ma.
  replace ((gNg g - 1) * (gL g * gL g) + idx g x y z)%nat with (x + gL g * (y + gL g * (z + (gNg g - 1))))%nat by (unfold idx; ring).
  rewrite HM by lia. f_equal. f_equal. lia.
Qed.
Lemma at0_eq K p g r phi x y z : ok K p g r phi -> (x < gL g)%nat -> (y < gL g)%nat -> (z < gLz g)%nat -> at0 g r x y z = shifted (rSh r) (phi x y (p * gLz g + z)%nat).
Proof.
  intros H Hx Hy Hz. unfold at0. cbv zeta. rewrite (read_ K p g r phi) by (assumption || lia).
  replace (p * gLz g + (z + 1) + K * gLz g - 1)%nat with (p * gLz g + z + 1 * (K * gLz g))%nat by lia.
  pose proof (inBox K p (gLz g) z (okP _ _ _ _ _ H) Hz) as B. rewrite Nat.mod_add by lia. rewrite Nat.mod_small by exact B. reflexivity.
Qed.
Lemma here K p g r phi x y z : ok K p g r phi -> (x < gL g)%nat -> (y < gL g)%nat -> (z < gLz g)%nat -> ma g r (idx g x y (z + 1)) = phi x y (p * gLz g + z)%nat.
Proof.
  intros H Hx Hy Hz. rewrite (read_ K p g r phi) by (assumption || lia).
  replace (p * gLz g + (z + 1) + K * gLz g - 1)%nat with (p * gLz g + z + 1 * (K * gLz g))%nat by lia.
  pose proof (inBox K p (gLz g) z (okP _ _ _ _ _ H) Hz) as B. rewrite Nat.mod_add by lia. rewrite Nat.mod_small by exact B. reflexivity.
Qed.
Lemma dx_eq K p g r phi x y z : ok K p g r phi -> (x < gL g)%nat -> (y < gL g)%nat -> (z < gLz g)%nat -> dx g r x y z = alongX (gL g) phi x y (p * gLz g + z)%nat.
Proof. intros H Hx Hy Hz. unfold dx, alongX. rewrite next_mod, prev_mod by assumption. rewrite !(here K p g r phi); auto using next_lt, prev_lt. Qed.
Lemma dy_eq K p g r phi x y z : ok K p g r phi -> (x < gL g)%nat -> (y < gL g)%nat -> (z < gLz g)%nat -> dy g r x y z = alongY (gL g) phi x y (p * gLz g + z)%nat.
Proof. intros H Hx Hy Hz. unfold dy, alongY. rewrite next_mod, prev_mod by assumption. rewrite !(here K p g r phi); auto using next_lt, prev_lt. Qed.
Lemma dz_eq K p g r phi x y z : ok K p g r phi -> (x < gL g)%nat -> (y < gL g)%nat -> (z < gLz g)%nat -> dz g r x y z = alongZ (K * gLz g) phi x y (p * gLz g + z)%nat.
Proof.
  intros H Hx Hy Hz. pose proof (inBox K p (gLz g) z (okP _ _ _ _ _ H) Hz) as B. unfold dz, alongZ. rewrite !(read_ K p g r phi) by (assumption || lia).
  replace (p * gLz g + (z + 2) + K * gLz g - 1)%nat with (p * gLz g + z + 1 + 1 * (K * gLz g))%nat by lia. rewrite Nat.mod_add by lia.
  rewrite next_mod by exact B. replace (p * gLz g + z + K * gLz g - 1)%nat with (K * gLz g + (p * gLz g + z) - 1)%nat by lia. rewrite prev_mod by exact B. reflexivity.
Qed.

Lemma below_false a d : Rabs d < Rabs a -> below a d = false.
Proof. intros H. unfold below, pre. replace (5 * (0.5 * 0.4 * d)) with d by lra. destruct (Rle_dec (Rabs a) (Rabs d)); [lra|reflexivity]. Qed.
Lemma far_skips g r x y z : far (at0 g r x y z) (dx g r x y z) (dy g r x y z) (dz g r x y z) -> nearString g r x y z = false.
Proof.
  intros (d & I & H). unfold nearString. cbv zeta. cbn [In] in I.
  assert (T : below (fst (at0 g r x y z)) (fst d) && below (snd (at0 g r x y z)) (snd d) = false) by (destruct H as [H|H]; apply below_false in H; rewrite H; [reflexivity|apply andb_false_r]).
  destruct I as [<-|[<-|[<-|[]]]]; rewrite T; rewrite ?andb_false_r; reflexivity.
Qed.
Lemma trig t : cos t * cos t + sin t * sin t = 1. Proof. pose proof (sin2_cos2 t) as H. unfold Rsqr in H. lra. Qed.
Lemma norm rho th : rho * cos th * (rho * cos th) + rho * sin th * (rho * sin th) = rho * rho.
Proof. replace (rho * cos th * (rho * cos th) + rho * sin th * (rho * sin th)) with (rho * rho * (cos th * cos th + sin th * sin th)) by ring. rewrite trig. ring. Qed.
Lemma turn_eq (lut : option correction) g r x y z rho th w q : lut = None \/ far (at0 g r x y z) (dx g r x y z) (dy g r x y z) (dz g r x y z) ->
  turns rho th (at0 g r x y z) w q -> turn lut g r x y z w = q.
Proof.
  intros F (P & E & rho' & W).
  assert (V : (fst (at0 g r x y z) * snd w - snd (at0 g r x y z) * fst w) / (fst (at0 g r x y z) * fst (at0 g r x y z) + snd (at0 g r x y z) * snd (at0 g r x y z)) = q).
  { rewrite E, W. cbn [fst snd]. rewrite norm.
    replace (rho * cos th * (rho' * sin th + rho * q * cos th) - rho * sin th * (rho' * cos th - rho * q * sin th)) with (rho * rho * q * (cos th * cos th + sin th * sin th)) by ring.
    rewrite trig. field. lra. }
  unfold turn. cbv zeta. destruct lut as [c|]; [|exact V]. destruct F as [F|F]; [discriminate|]. rewrite far_skips by exact F. exact V.
Qed.
Lemma fac_eq k g r f h m2 x y z rho th : rR r <> 0 -> 0 < rho -> at0 g r x y z = (rho * cos th, rho * sin th) -> f = rR r * h ->
  fac k g r f h m2 x y z = weight (pick k) (rR r) rho (rS r (idx g x y z)) (m2 (v3 g + idx g x y z)%nat) * f.
Proof.
  intros HR P E F. unfold fac. rewrite E, F. unfold factor. cbn [fst snd]. rewrite norm. rewrite sqrt_square by lra.
  destruct k; cbn [pick weight]; try ring; try (field; exact HR). all: destruct (rS r (idx g x y z)); ring.
Qed.
Lemma weight_pick k Rs rho b w : weight (pick k) Rs rho b w = weight k Rs rho b w. Proof. destruct k; reflexivity. Qed.
Lemma pick_pick k : pick (pick k) = pick k. Proof. destruct k; reflexivity. Qed.

Definition smooth (k : mask) : bool := match k with Gaus | Diff => true | _ => false end.
Lemma smooth_pick k : smooth (pick k) = smooth k. Proof. destruct k; reflexivity. Qed.
Lemma fac_indep k g r f h m m' x y z : smooth k = false -> fac k g r f h m x y z = fac k g r f h m' x y z.
Proof. intros H. unfold fac, factor. destruct k; try discriminate; reflexivity. Qed.
Lemma fac_at k g r f h m m' x y z : m (v3 g + idx g x y z)%nat = m' (v3 g + idx g x y z)%nat -> fac k g r f h m x y z = fac k g r f h m' x y z.
Proof. intros H. unfold fac. rewrite H. reflexivity. Qed.

Definition boxed (g : grid) (s : site3) : Prop := (fst (fst s) < gL g /\ snd (fst s) < gL g /\ snd s < gLz g)%nat.
Lemma in_box g order s : allRows g order -> In s (sites (gL g) order) <-> boxed g s.
Proof. intros [_ H]. destruct s as [[x y] z]. rewrite in_sites, H. unfold boxed. cbn. tauto. Qed.
Lemma padded_inj3 g s t : boxed g s -> boxed g t -> odx g (fst (fst s)) (snd (fst s)) (snd s) = odx g (fst (fst t)) (snd (fst t)) (snd t) -> s = t.
Proof. destruct s as [[x y] z], t as [[x' y'] z']. unfold boxed. cbn [fst snd]. intros (A & B & C) (A' & B' & C'). rewrite !odx_eq. apply padded_inj; assumption. Qed.
Lemma plain_inj3 g s t : boxed g s -> boxed g t -> idx g (fst (fst s)) (snd (fst s)) (snd s) = idx g (fst (fst t)) (snd (fst t)) (snd t) -> s = t.
Proof. destruct s as [[x y] z], t as [[x' y'] z']. unfold boxed. cbn [fst snd]. intros (A & B & C) (A' & B' & C'). rewrite !idx_eq. apply plain_inj; assumption. Qed.
Lemma padded_lt3 g s : boxed g s -> (odx g (fst (fst s)) (snd (fst s)) (snd s) < (gL g + 2) * (gL g * gLz g))%nat.
Proof. destruct s as [[x y] z]. unfold boxed. cbn [fst snd]. intros (A & B & C). rewrite odx_eq. apply padded_lt; assumption. Qed.
Lemma plain_lt3 g s : boxed g s -> (idx g (fst (fst s)) (snd (fst s)) (snd s) < v3 g)%nat.
Proof. destruct s as [[x y] z]. unfold boxed. cbn [fst snd]. intros (A & B & C). rewrite idx_eq. pose proof (plain_lt (gL g) (gLz g) x y z A B C). unfold v3. nia. Qed.

(** One array written, at padded or plain places. *)
Lemma rows_one (g : grid) (k : mask) (pd : bool) (f h : R) (r : rk) (tq : nat -> nat -> nat -> R) order m2 :
  allRows g order -> (smooth k = true -> pd = true -> (gLz g <= gNg g * gL g)%nat) ->
  let place x y z := if pd then odx g x y z else idx g x y z in
  let out := rows g (fun m ix iy iz => put m (place ix iy iz) (fac k g r f h m ix iy iz * tq ix iy iz)) order m2 in
  (forall x y z, (x < gL g)%nat -> (y < gL g)%nat -> (z < gLz g)%nat -> out (place x y z) = fac k g r f h m2 x y z * tq x y z) /\
  (forall j, (forall x y z, (x < gL g)%nat -> (y < gL g)%nat -> (z < gLz g)%nat -> j <> place x y z) -> out j = m2 j).
Proof.
  intros HA HR place out. unfold out. rewrite rows_sites.
  set (big := (2 * v3 g + (gL g + 2) * (gL g * gLz g))%nat).
  set (D := fun s : site3 => if smooth k then (v3 g + idx g (fst (fst s)) (snd (fst s)) (snd s))%nat else big).
  set (val := fun (s : site3) (w : R) => fac k g r f h (fun _ => w) (fst (fst s)) (snd (fst s)) (snd s) * tq (fst (fst s)) (snd (fst s)) (snd s)).
  assert (V : forall m s, val s (m (D s)) = fac k g r f h m (fst (fst s)) (snd (fst s)) (snd s) * tq (fst (fst s)) (snd (fst s)) (snd s)).
  { intros m s. unfold val, D. destruct (smooth k) eqn:E; [rewrite (fac_at k g r f h _ m) by reflexivity; reflexivity|rewrite (fac_indep k g r f h _ m) by exact E; reflexivity]. }
  pose proof (one (fun m s => put m (place (fst (fst s)) (snd (fst s)) (snd s)) (fac k g r f h m (fst (fst s)) (snd (fst s)) (snd s) * tq (fst (fst s)) (snd (fst s)) (snd s)))
    (fun s => place (fst (fst s)) (snd (fst s)) (snd s)) D val (sites (gL g) order)) as O.
  destruct O with (m := m2) as [P Q].
  - intros m s _. rewrite V. reflexivity.
  - apply nodup_sites, HA.
  - intros s t I J. rewrite (in_box g order) in I, J by exact HA. unfold place. destruct pd; [apply padded_inj3|apply plain_inj3]; assumption.
  - intros s t I J. rewrite (in_box g order) in I, J by exact HA. unfold D, place, big. pose proof (padded_lt3 g s I). pose proof (plain_lt3 g s I).
    destruct (smooth k) eqn:E; destruct pd; try lia. pose proof (room g (HR eq_refl eq_refl)). lia.
  - split.
    + intros x y z Hx Hy Hz. assert (I : In (x, y, z) (sites (gL g) order)) by (apply (in_box g order); [exact HA|unfold boxed; cbn; auto]).
      pose proof (P _ I) as E. rewrite V in E. exact E.
    + intros j H. apply Q. intros s I. rewrite (in_box g order) in I by exact HA. destruct I as (A & B & C). apply H; assumption.
Qed.
(** Two arrays written. *)
Lemma rows_two (g : grid) (k : mask) (site : array -> nat -> nat -> nat -> array) (A B : nat -> nat -> nat -> nat) (F G : array -> nat -> nat -> nat -> R) order m2 :
  allRows g order -> (gLz g <= gNg g * gL g)%nat ->
  (forall x y z, A x y z = odx g x y z) -> (forall x y z, B x y z = v3 g + if smooth k then idx g x y z else odx g x y z)%nat ->
  (forall m x y z, (x < gL g)%nat -> (y < gL g)%nat -> (z < gLz g)%nat -> site m x y z = put (put m (A x y z) (F m x y z)) (B x y z) (G m x y z)) ->
  (forall m m' x y z, (smooth k = true -> m (v3 g + idx g x y z)%nat = m' (v3 g + idx g x y z)%nat) -> F m x y z = F m' x y z /\ G m x y z = G m' x y z) ->
  let out := rows g site order m2 in
  (forall x y z, (x < gL g)%nat -> (y < gL g)%nat -> (z < gLz g)%nat -> out (A x y z) = F m2 x y z /\ out (B x y z) = G m2 x y z) /\
  (forall j, (forall x y z, (x < gL g)%nat -> (y < gL g)%nat -> (z < gLz g)%nat -> j <> A x y z /\ j <> B x y z) -> out j = m2 j).
Proof.
  intros HA HR EA EB HS HF out. unfold out. rewrite rows_sites. pose proof (room g HR) as RM.
  set (big := (2 * v3 g + (gL g + 2) * (gL g * gLz g))%nat).
  set (D := fun s : site3 => if smooth k then (v3 g + idx g (fst (fst s)) (snd (fst s)) (snd s))%nat else big).
  set (val := fun (s : site3) (w : R) => F (fun _ => w) (fst (fst s)) (snd (fst s)) (snd s)).
  set (wal := fun (s : site3) (w : R) => G (fun _ => w) (fst (fst s)) (snd (fst s)) (snd s)).
  assert (V : forall m s, val s (m (D s)) = F m (fst (fst s)) (snd (fst s)) (snd s)) by (intros m s; unfold val, D; apply HF; intros E; rewrite E; reflexivity).
  assert (W : forall m s, wal s (m (D s)) = G m (fst (fst s)) (snd (fst s)) (snd s)) by (intros m s; unfold wal, D; apply HF; intros E; rewrite E; reflexivity).
  pose proof (two (fun m s => site m (fst (fst s)) (snd (fst s)) (snd s)) (fun s => A (fst (fst s)) (snd (fst s)) (snd s)) (fun s => B (fst (fst s)) (snd (fst s)) (snd s))
    D val wal (sites (gL g) order)) as O.
  destruct O with (m := m2) as [P Q].
  - intros m s I. rewrite (in_box g order) in I by exact HA. destruct I as (H1 & H2 & H3). rewrite V, W. apply HS; assumption.
  - apply nodup_sites, HA.
  - intros s t I J. rewrite (in_box g order) in I, J by exact HA. rewrite !EA. apply padded_inj3; assumption.
  - intros s t I J. rewrite (in_box g order) in I, J by exact HA. rewrite !EB. intros E. destruct (smooth k); [apply (plain_inj3 g)|apply (padded_inj3 g)]; try assumption; lia.
  - intros s t I J. rewrite (in_box g order) in I, J by exact HA. rewrite EA, EB. pose proof (padded_lt3 g s I). lia.
  - intros s t I J. rewrite (in_box g order) in I, J by exact HA. rewrite EA. unfold D, big. pose proof (padded_lt3 g s I). destruct (smooth k); lia.
  - intros s t I J. rewrite (in_box g order) in I, J by exact HA. rewrite EB. unfold D, big. pose proof (padded_lt3 g s I). destruct (smooth k); [|lia].
    intros E. apply (plain_inj3 g); try assumption. lia.
  - split.
    + intros x y z Hx Hy Hz. assert (I : In (x, y, z) (sites (gL g) order)) by (apply (in_box g order); [exact HA|unfold boxed; cbn; auto]).
      pose proof (P _ I) as [E1 E2]. rewrite V in E1. rewrite W in E2. split; assumption.
    + intros j H. apply Q. intros s I. rewrite (in_box g order) in I by exact HA. destruct I as (H1 & H2 & H3). apply H; assumption.
Qed.

(** The potential. *)
Lemma rows_ext g s s' order : (forall m x y z, s m x y z = s' m x y z) -> forall m, rows g s order m = rows g s' order m.
Proof.
  intros H. unfold rows. induction order as [|[y z] l IH]; intros m; [reflexivity|]. cbn [fold_left fst snd].
  assert (E : forall xs m, fold_left (fun m ix => s m ix y z) xs m = fold_left (fun m ix => s' m ix y z) xs m) by (induction xs as [|x xs IHx]; intros m0; [reflexivity|cbn; rewrite H; apply IHx]).
  rewrite E. apply IH.
Qed.
Definition potWeight (k : mask) (g : grid) (r : rk) (m2 : array) (x y z : nat) : R :=
  let a := at0 g r x y z in
  match k with
  | Flat | Saxi => 1
  | Redo | Ball => if rS r (idx g x y z) then 0 else 1
  | Gaus | Diff => m2 (v3 g + idx g x y z)%nat
  | Vil => sqrt (fst a * fst a + snd a * snd a) / rR r
  | Vil2 => (fst a * fst a + snd a * snd a) / rR r / rR r
  end.
Lemma potentials g r k order m2 : allRows g order -> (gLz g <= gNg g * gL g)%nat -> forall x y z, (x < gL g)%nat -> (y < gL g)%nat -> (z < gLz g)%nat ->
  buildV k g r order m2 (odx g x y z) = potWeight (pick k) g r m2 x y z * 2 * rR r * sin (0.5 * ThetaModel.arg (at0 g r x y z)) /\
  buildV k g r order m2 (v3 g + odx g x y z)%nat =
  if smooth (pick k) then m2 (v3 g + odx g x y z)%nat else potWeight (pick k) g r m2 x y z * rR r * ThetaModel.arg (snd (at0 g r x y z), fst (at0 g r x y z)).
Proof.
  intros HA HG x y z Hx Hy Hz. unfold buildV. destruct (smooth (pick k)) eqn:S.
  - assert (PK : pick k = Diff) by (destruct k; try discriminate; reflexivity). rewrite PK.
    rewrite (rows_ext g (siteV Diff g r) (fun m ix iy iz => put m (odx g ix iy iz) (fac Diff g r 1 1 m ix iy iz * (2 * rR r * sin (0.5 * ThetaModel.arg (at0 g r ix iy iz)))))).
    2:{ intros m a b c. unfold siteV. cbv zeta. f_equal. unfold fac, factor. ring. }
    destruct (rows_one g Diff true 1 1 r (fun ix iy iz => 2 * rR r * sin (0.5 * ThetaModel.arg (at0 g r ix iy iz))) order m2 HA (fun _ _ => HG)) as [P Q]. split.
    + etransitivity; [exact (P x y z Hx Hy Hz)|]. unfold fac, factor, potWeight. ring.
    + apply Q. intros a b c Ha Hb Hc. pose proof (padded_lt3 g (a, b, c) (conj Ha (conj Hb Hc))) as Lt. cbn [fst snd] in Lt. pose proof (room g HG). lia.
  - destruct (rows_two g (pick k) (siteV (pick k) g r) (odx g) (fun x y z => v3 g + odx g x y z)%nat
      (fun m x y z => potWeight (pick k) g r m x y z * 2 * rR r * sin (0.5 * ThetaModel.arg (at0 g r x y z)))
      (fun m x y z => potWeight (pick k) g r m x y z * rR r * ThetaModel.arg (snd (at0 g r x y z), fst (at0 g r x y z))) order m2 HA HG) as [P _].
    + reflexivity.
    + intros a b c. rewrite S. reflexivity.
    + intros m a b c _ _ _. unfold siteV, potWeight. cbv zeta. destruct (pick k); try discriminate; reflexivity.
    + intros m m' a b c _. unfold potWeight. destruct (pick k); try discriminate; split; reflexivity.
    + exact (P x y z Hx Hy Hz).
Qed.
Definition potential_at g r k order m2 HA HG x y z Hx Hy Hz := proj1 (potentials g r k order m2 HA HG x y z Hx Hy Hz).
Definition linear_at g r k order m2 HA HG x y z Hx Hy Hz := proj2 (potentials g r k order m2 HA HG x y z Hx Hy Hz).

(** Near a string. *)
Lemma below_true a d : ~ Rabs d < Rabs a -> below a d = true.
Proof. intros H. unfold below, pre. replace (5 * (0.5 * 0.4 * d)) with d by lra. destruct (Rle_dec (Rabs a) (Rabs d)); [reflexivity|lra]. Qed.
Lemma near_uses g r x y z : ~ far (at0 g r x y z) (dx g r x y z) (dy g r x y z) (dz g r x y z) -> nearString g r x y z = true.
Proof.
  intros H. unfold nearString. cbv zeta.
  assert (T : forall d, In d [dx g r x y z; dy g r x y z; dz g r x y z] -> below (fst (at0 g r x y z)) (fst d) && below (snd (at0 g r x y z)) (snd d) = true).
  { intros d I. rewrite !below_true; [reflexivity| |]; intros C; apply H; exists d; auto. }
  rewrite !T by (cbn; auto). reflexivity.
Qed.
