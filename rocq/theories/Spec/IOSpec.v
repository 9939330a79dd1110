(** What a user knows about attached signals: well-formed arrays, two-dimensional ones, the names under
    which they can be told apart. *)
From Coq Require Import Reals List Arith Bool String Ascii Permutation.
From Coq Require Import List.
From Verif.Base Require Import RSum Prelude.
From Verif.Model Require Import Sparse Graph IO.
From Verif.Spec Require Import GraphSpec.
Import ListNotations.
Open Scope list_scope.

(** A cell has the given dimensions. *)
Fixpoint cell_ok (dims : list nat) (c : cell) : Prop :=
  match dims, c with
  | [], Leaf _ => True
  | k :: ds, Node l => List.length l = k /\ Forall (cell_ok ds) l
  | _, _ => False
  end.

(** An array with n rows of the declared dimensions. *)
Definition nd_ok (n : nat) (s : nd) : Prop := List.length (nd_rows s) = n /\ Forall (cell_ok (nd_dims s)) (nd_rows s).

(** Every attached signal is such an array (that is what set_signal checks), under distinct names. *)
Definition sigs_ok (n : nat) (S : sigs) : Prop := NoDup (map fst S) /\ Forall (fun p => nd_ok n (snd p)) S.

Definition two_d (s : nd) : Prop := exists k, nd_dims s = [k].

(** The text before the last underscore of a name (the name itself without underscore), stated without recursion. *)
Definition stem (s b : string) : Prop :=
  (exists t, s = (b ++ "_" ++ t)%string /\ ~ In "_"%char (list_ascii_of_string t)) \/
  (b = s /\ ~ In "_"%char (list_ascii_of_string s)).

(** Names that survive a break and a join: the joined names of two signals (its name for a 2-D one, the stem for
    another) differ, and no 2-D signal is named like a column of another one. *)
Definition joined_name (p : string * nd) (b : string) : Prop :=
  (two_d (snd p) /\ b = fst p) \/ (~ two_d (snd p) /\ stem (fst p) b).
Definition names_ok (S : sigs) : Prop :=
  (forall p q b, In p S -> In q S -> joined_name p b -> joined_name q b -> p = q) /\
  (forall p q k i, In p S -> In q S -> nd_dims (snd p) = [k] -> two_d (snd q) -> (i < k)%nat -> col_name (fst p) i <> fst q).

(** The columns of a 2-D signal in the order p. *)
Definition reorder (p : list nat) (s : nd) : nd :=
  mknd (nd_dims s) (map (fun c => Node (map (fun i => cell_nth i c) p)) (nd_rows s)).

(** A NetworkX graph as networkx keeps it: distinct nodes, edges between nodes, at most one edge per (unordered, if
    undirected) pair, finite weights. *)
Definition joins (directed : bool) (e : nat * nat) (u v : nat) : Prop := e = (u, v) \/ (directed = false /\ e = (v, u)).
Definition nx_ok (g : nxgraph) : Prop :=
  NoDup (map fst (nx_nodes g)) /\
  (forall u v w, In (u, v, w) (nx_edges g) -> In u (map fst (nx_nodes g)) /\ In v (map fst (nx_nodes g)) /\ exists r, w = Fin r) /\
  NoDup (map fst (nx_edges g)) /\
  (nx_directed g = false -> forall u v w w', In (u, v, w) (nx_edges g) -> In (v, u, w') (nx_edges g) -> u = v).

(** The values of a one-dimensional signal, or of one column of a two-dimensional one under the name base_i: what a vertex
    attribute can carry. *)
Definition column (S : sigs) (name : string) (l : list xval) : Prop :=
  dict_get name S = Some (mknd [] (map Leaf l)) \/
  (exists base k rows i, dict_get base S = Some (mknd [k] rows) /\ (i < k)%nat /\ name = (base ++ "_" ++ str i)%string /\
     map (cell_nth i) rows = map Leaf l).

(** m is one more than the largest vertex that has an edge (0 without edge). *)
Definition edge_bound (G : graph) (m : nat) : Prop :=
  (m <= g_n_vertices G)%nat /\
  (forall i j, (i < g_n_vertices G)%nat -> (j < g_n_vertices G)%nat -> wt G i j <> 0%R -> (i < m)%nat /\ (j < m)%nat) /\
  (m = 0%nat \/ exists j, (j < g_n_vertices G)%nat /\ (wt G (m - 1) j <> 0%R \/ wt G j (m - 1) <> 0%R)).

(** A graph-tool graph: edges between its vertices, finite weights. *)
Definition gt_ok (g : gtgraph) : Prop :=
  (forall u v w, In (u, v, w) (gt_edges g) -> (u < gt_n g)%nat /\ (v < gt_n g)%nat /\ exists r, w = Fin r) /\
  NoDup (map fst (gt_props g)) /\ (forall p, In p (gt_props g) -> List.length (snd p) = gt_n g).

(** Total weight of the listed edges from u to v. *)
Definition edge_total (l : list (nat * nat * xval)) (u v : nat) : R :=
  lsum (map (fun e => xreal (snd e)) (filter (fun e => (Nat.eqb (fst (fst e)) u && Nat.eqb (snd (fst e)) v)%bool) l)).
