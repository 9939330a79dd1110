(** What a user knows about a graph, independently of the model's helpers:
    the dense matrix of the argument, non-negativity, being built by the constructor. *)
From Coq Require Import Reals Lra Lia List Arith Bool String.
From Verif.Base Require Import RSum Prelude.
From Verif.Model Require Import Sparse Graph.
Import ListNotations.
Open Scope R_scope.

(** The mathematical matrix an argument denotes: entry (i,j) of a dense array in C order,
    or the sum of the values stored for (i,j) in a sparse one. *)
Definition input_entry (inp : adj_input) (i j : nat) : xval :=
  match inp with
  | InDense s d => nth (i * nth 1 s 0%nat + j) d (Fin 0)
  | InCSR A => xsum (map snd (filter (fun cv => Nat.eqb (fst cv) j) (nth i (rows A) [])))
  | InCOO _ _ e =>
      xsum (map snd (filter (fun t => (Nat.eqb (fst (fst t)) i && Nat.eqb (snd (fst t)) j)%bool) e))
  end.

(** A meaningful argument: a dense array has as many values as its shape says, a sparse
    matrix has its indices in range. *)
Definition wf_input (inp : adj_input) : Prop :=
  match inp with
  | InDense s d => List.length d = fold_right Nat.mul 1%nat s
  | InCSR A => wf_csr A
  | InCOO n m e => forall t, In t e -> (fst (fst t) < n)%nat /\ (snd (fst t) < m)%nat
  end.

Definition finite_x (v : xval) : Prop := exists r, v = Fin r.

(** G is the result of a successful constructor call on a meaningful argument,
    followed by any number of successful set_signal calls. *)
Inductive built : graph -> Prop :=
| built_init inp lap coords G :
    wf_input inp -> graph_init inp lap coords = Ok G -> built G
| built_signal G s name G' : built G -> set_signal G s name = Ok G' -> built G'.

(** The weight of the edge (i,j): [G.W[i,j]]. *)
Definition wt (G : graph) (i j : nat) : R := get (gW G) i j.

Definition nonneg_weights (G : graph) : Prop :=
  forall i j, (i < g_n_vertices G)%nat -> (j < g_n_vertices G)%nat -> 0 <= wt G i j.

(** W is a symmetric matrix. *)
Definition undirected (G : graph) : Prop :=
  forall i j, (i < g_n_vertices G)%nat -> (j < g_n_vertices G)%nat -> wt G i j = wt G j i.
