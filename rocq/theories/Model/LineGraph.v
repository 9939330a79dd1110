(** Model of pygsp/graphs/linegraph.py. *)
From Coq Require Import Reals Lra Lia List Arith Bool String.
From Coq Require Import List.
From Verif.Base Require Import RSum Prelude.
From Verif.Spec Require Import Matrix.
From Verif.Model Require Import Sparse Graph Difference Utils Reduction.
Import ListNotations.
Open Scope R_scope.

(** linegraph.py:43: [graph.D != 0].  (With negative weights D holds NaN, which is different from 0; the square root of a negative real
    is 0 here: the theorems assume non-negative weights.) *)
Definition incidence (D : mat) (i k : nat) : bool := negb (Reqb (D i k) 0).
(** linegraph.py:45-46: the product of boolean sparse matrices is the boolean (or-and) product. *)
Definition line_adjacency (N : nat) (D : mat) : mat := fun k l =>
  b2r (nexists N (fun i => incidence D i k && incidence D i l)%bool) - idm k l.
(** linegraph.py:49: boolean times float is an ordinary sum *)
Definition line_coords (N E : nat) (D : mat) (c : rowarray) : rowarray :=
  map (fun k => map (fun d => (\sum_(i < N) (b2r (incidence D i k) * nth d (nth i c []) 0)) / 2) (seq 0 (List.length (nth 0 c [])))) (seq 0 E).
(** linegraph.py:34-53.  A graph without coords raises AttributeError, caught at line 50.  Plotting options are not modelled. *)
Definition LineGraph (G : graph) (lap : laptype) : res graph :=
  bindr (diff_op (gW G) (g_lap_type G)) (fun D =>
  let N := g_n_vertices G in let E := g_n_edges G in
  let coords := match g_coords G with Some c => Some (line_coords N E D c) | None => None end in
  graph_init (InDense [E; E] (map Fin (dense E (line_adjacency N D)))) lap coords).
