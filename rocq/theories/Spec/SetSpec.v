(** Sets of vertices of a weighted graph. Specification only, models no code. A set is a Boolean function. *)
From Coq Require Import Reals Bool Arith.
From Verif.Base Require Import RSum.
From Verif.Spec Require Import Matrix GraphSpec.
From Verif.Model Require Import Graph.
Open Scope R_scope.

(** Weight of the edge between i and j, in whichever direction (the mean of both). *)
Definition mean_wt (G : graph) (i j : nat) : R := (wt G i j + wt G j i) / 2.
(** Total weight of the edges at i, self-loop excluded. *)
Definition strength (G : graph) (i : nat) : R :=
  \sum_(j < g_n_vertices G) (if Nat.eqb j i then 0 else mean_wt G i j).
(** Total weight of the edges from i to the vertices of S. *)
Definition weight_to (G : graph) (i : nat) (S : nat -> bool) : R :=
  \sum_(j < g_n_vertices G) (if S j then if Nat.eqb j i then 0 else mean_wt G i j else 0).
(** Total weight of the edges from S to T (an edge with both ends in both sets counts twice). *)
Definition between (G : graph) (S T : nat -> bool) : R :=
  \sum_(i < g_n_vertices G) (if S i then weight_to G i T else 0).
(** No edge joins two vertices of S. *)
Definition independent (G : graph) (S : nat -> bool) : Prop :=
  forall i j, (i < g_n_vertices G)%nat -> (j < g_n_vertices G)%nat -> i <> j -> S i = true -> S j = true -> wt G i j = 0.
(** A colouring gives the two ends of an edge different colours. *)
Definition proper_colouring (G : graph) (k : nat) (col : nat -> nat) : Prop :=
  (forall i, (i < g_n_vertices G)%nat -> (col i < k)%nat) /\
  (forall i j, (i < g_n_vertices G)%nat -> (j < g_n_vertices G)%nat -> i <> j -> wt G i j <> 0 -> col i <> col j).
(** A and B are disjoint and no edge joins A to B. *)
Definition separated (G : graph) (A B : nat -> bool) : Prop :=
  forall i j, (i < g_n_vertices G)%nat -> (j < g_n_vertices G)%nat -> A i = true -> B j = true -> i <> j /\ wt G i j = 0 /\ wt G j i = 0.
