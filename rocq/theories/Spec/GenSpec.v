(** Vocabulary for the graph generators. Models no code. *)
From Coq Require Import Reals List Arith.
From Verif.Base Require Import RSum Prelude.
From Verif.Model Require Import Sparse Graph.
From Verif.Spec Require Import GraphSpec.
Open Scope R_scope.

(** G was built by the constructor, has n vertices, and weight 1 on the pairs of E, 0 elsewhere. *)
Definition unit_graph (G : graph) (n : nat) (E : nat -> nat -> Prop) : Prop :=
  built G /\ g_n_vertices G = n /\
  forall i j, (i < n)%nat -> (j < n)%nat -> (E i j -> wt G i j = 1) /\ (~ E i j -> wt G i j = 0).
Definition loop_free (G : graph) : Prop := forall i, (i < g_n_vertices G)%nat -> wt G i i = 0.
(** distance around a circle of N vertices *)
Definition circ (N i j : nat) : nat := let d := (Nat.max i j - Nat.min i j)%nat in Nat.min d (N - d).
(** Position on a grid whose rows have w vertices, and absolute difference. *)
Definition rowof (w v : nat) : nat := Nat.div v w.
Definition colof (w v : nat) : nat := Nat.modulo v w.
Definition ndist (a b : nat) : nat := (Nat.max a b - Nat.min a b)%nat.
(** horizontal or vertical neighbours; diagonal neighbours *)
Definition straight (w u v : nat) : Prop := (ndist (rowof w u) (rowof w v) + ndist (colof w u) (colof w v) = 1)%nat.
Definition oblique (w u v : nat) : Prop := ndist (rowof w u) (rowof w v) = 1%nat /\ ndist (colof w u) (colof w v) = 1%nat.
(** neighbours on a torus of m rows of w vertices *)
Definition torus_adj (w m u v : nat) : Prop :=
  (rowof w u = rowof w v /\ circ w (colof w u) (colof w v) = 1)%nat \/ (colof w u = colof w v /\ circ m (rowof w u) (rowof w v) = 1)%nat.
