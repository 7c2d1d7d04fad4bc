(** General facts on words made of flags. *)
From Coq Require Import NArith List Bool Lia.
From Verif Require Import FlagModel.
Import ListNotations.
Local Open Scope N_scope.

Lemma orAll_bit l i : N.testbit (orAll l) i = existsb (fun c => N.testbit c i) l.
Proof. induction l as [|c l IH]; [apply N.bits_0|]. cbn [orAll fold_right existsb]. unfold bor at 1. rewrite N.lor_spec. f_equal. exact IH. Qed.

Lemma on_bit a : on a = true <-> exists i, N.testbit a i = true.
Proof.
  unfold on. rewrite negb_true_iff, N.eqb_neq. split.
  - intros H. exists (N.log2 a). now apply N.bit_log2.
  - intros (i&H) ->. now rewrite N.bits_0 in H.
Qed.

(** A word meets a mask exactly if one of its flags does. *)
Lemma on_mask l m : on (band (orAll l) m) = existsb (fun c => on (band c m)) l.
Proof.
  apply eq_true_iff_eq. rewrite on_bit, existsb_exists. unfold band. split.
  - intros (i&H). rewrite N.land_spec, orAll_bit, andb_true_iff, existsb_exists in H.
    destruct H as ((c&Hc&B)&M). exists c. split; auto. apply on_bit. exists i.
    now rewrite N.land_spec, B, M.
  - intros (c&Hc&H). apply on_bit in H. destruct H as (i&H). rewrite N.land_spec, andb_true_iff in H.
    exists i. rewrite N.land_spec, orAll_bit, andb_true_iff, existsb_exists. split; [exists c|]; tauto.
Qed.

Lemma on_mask_map {X} (f : X -> N) l m : on (band (orAll (map f l)) m) = existsb (fun x => on (band (f x) m)) l.
Proof. rewrite on_mask. induction l; simpl; congruence. Qed.
