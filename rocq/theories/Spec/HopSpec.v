(** Vocabulary for locality: walks of bounded length between vertices. Models no code. *)
From Coq Require Import Reals Lia List Arith.
From Verif.Spec Require Import GraphSpec Reach.
From Verif.Model Require Import Graph.
Open Scope R_scope.

(** Two vertices of the graph joined by an edge, in either direction. *)
Definition linked (G : graph) (i j : nat) : Prop :=
  (i < g_n_vertices G)%nat /\ (j < g_n_vertices G)%nat /\ (wt G i j <> 0 \/ wt G j i <> 0).

(** [within E k u v]: v can be reached from u in at most k steps. *)
Inductive within (E : nat -> nat -> Prop) : nat -> nat -> nat -> Prop :=
| within_here k u : within E k u u
| within_step k u v w : E u v -> within E k v w -> within E (S k) u w.

Lemma within_mono E k u v : within E k u v -> forall l, (k <= l)%nat -> within E l u v.
Proof.
  intros H. induction H as [k u|k u v w He Hw IH]; intros l Hl; [apply within_here|].
  destruct l as [|l]; [lia|]. eapply within_step; [exact He|]. apply IH. lia.
Qed.

Lemma within_reach E k u v : within E k u v -> reach E u v.
Proof. intros H. induction H as [k u|k u v w He Hw IH]; [apply reach_refl|]. eapply reach_trans; [apply reach_one; exact He|exact IH]. Qed.
