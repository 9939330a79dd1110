(** Vocabulary for the statements about the symmetries of a graph. *)
From Coq Require Import Reals Lra Lia List Arith Bool.
From Verif.Base Require Import RSum Prelude.
From Verif.Spec Require Import Matrix GraphSpec.
From Verif.Model Require Import Graph.
Open Scope R_scope.

(** p maps the vertices to the vertices, one to one, and every weight to an equal weight. *)
Definition symmetry (G : graph) (p : nat -> nat) : Prop :=
  (forall i, (i < g_n_vertices G)%nat -> (p i < g_n_vertices G)%nat) /\
  (forall i j, (i < g_n_vertices G)%nat -> (j < g_n_vertices G)%nat -> p i = p j -> i = j) /\
  (forall i j, (i < g_n_vertices G)%nat -> (j < g_n_vertices G)%nat -> wt G (p i) (p j) = wt G i j).
(** y is x moved along p: the value x had at i is found at p i. *)
Definition moved (n : nat) (p : nat -> nat) (x y : vec) : Prop := forall i, (i < n)%nat -> y (p i) = x i.
(** The signal that is 1 at j and 0 elsewhere. *)
Definition impulse (j : nat) : vec := fun i => if Nat.eqb i j then 1 else 0.
