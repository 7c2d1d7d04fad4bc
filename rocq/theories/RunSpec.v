(** What a run of the main program should do. *)
From Coq Require Import Reals List Arith NArith Bool.
From Verif Require Import RunModel.
Import ListNotations.
Local Open Scope R_scope.

(** The library: a step advances time by its length, steps are positive, the change to the axion takes no time and leaves no saxion. *)
Record sound {S} (L : lib S) : Prop := {
  step_time : forall s dz, zOf L (stepBy L s dz) = zOf L s + dz;
  step_kind : forall s dz, isSax L (stepBy L s dz) = isSax L s;
  dz_pos : forall s, 0 < dzSize L s;
  theta_time : forall s, zOf L (toTheta L s) = zOf L s;
  theta_kind : forall s, isSax L (toTheta L s) = false }.

(** The measurements of a run made at a place of the program. *)
Definition tag_eq (a b : tag) : {a = b} + {a <> b}.
Proof. decide equality. Defined.
Definition madeAt {S} (t : tag) (l : list (made S)) : list (made S) := filter (fun m => if tag_eq (mTag m) t then true else false) l.

(** Time and kind of a measurement; of a line of the list. *)
Definition seen {S} (L : lib S) (m : made S) : R * N := (zOf L (mField m), iMeas (mInfo m)).
Definition asked (e : entry) : R * N := (eCt e, iMeas (eInfo e)).
(** The same with all that is asked. *)
Definition seenAll {S} (L : lib S) (m : made S) : R * info := (zOf L (mField m), mInfo m).
Definition askedAll (e : entry) : R * info := (eCt e, eInfo e).

(** A list with times one after the other; the last leaves room for the program to tell it from the one before. *)
Definition ascending (l : list entry) : Prop :=
  forall i j a b, (i < j)%nat -> nth_error l i = Some a -> nth_error l j = Some b -> eCt a < eCt b.
Definition apart (l : list entry) (zF : R) : Prop := forall e, In e (removelast l) -> eCt e <= zF - / 10 ^ 10.
(** The lines due at time z: all but the last. *)
Definition due (l : list entry) (z : R) : list entry := filter (fun e => if Rle_dec (eCt e) z then true else false) (removelast l).

(** How a run ended, and the field it ended with: at the final measurement, or when it was stopped. *)
Definition endedWith {S} (r : run S) (f : S) (ms : list (made S)) : Prop :=
  match r with
  | Crash => False
  | Stopped _ s => fs s = f /\ out s = ms
  | Done s => out s = ms /\ exists m, madeAt Final ms = [m] /\ mField m = f
  end.
Definition steadily (o : opts) : Prop := oAdapt o = true \/ (oZInit o < zEnd o /\ (0 < oSteps o)%nat).
