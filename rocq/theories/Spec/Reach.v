(** Paths in a relation on vertices. Models no code. *)
From Coq Require Import List Arith Lia.

(** [reach E u v]: there is a path of zero or more E-steps from u to v. *)
Inductive reach (E : nat -> nat -> Prop) : nat -> nat -> Prop :=
| reach_refl u : reach E u u
| reach_step u v w : reach E u v -> E v w -> reach E u w.

Lemma reach_trans E u v w : reach E u v -> reach E v w -> reach E u w.
Proof.
  intros H1 H2. induction H2 as [|a b c H IH Hs]; [exact H1|].
  eapply reach_step; [apply IH, H1|exact Hs].
Qed.

Lemma reach_one (E : nat -> nat -> Prop) u v : E u v -> reach E u v.
Proof. intros H. eapply reach_step; [apply reach_refl|exact H]. Qed.

Lemma reach_rev (E F : nat -> nat -> Prop) : (forall a b, E a b -> F b a) ->
  forall u v, reach E u v -> reach F v u.
Proof.
  intros H u v R. induction R as [|a b c R IH Hs]; [apply reach_refl|].
  eapply reach_trans; [apply reach_one, H, Hs|exact IH].
Qed.

Lemma reach_mono (E F : nat -> nat -> Prop) : (forall a b, E a b -> F a b) ->
  forall u v, reach E u v -> reach F u v.
Proof. intros H u v R. induction R as [|a b c R IH Hs]; [apply reach_refl|]. eapply reach_step; eauto. Qed.
