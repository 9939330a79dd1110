(** Model of pygsp/graphs/graph.py: construction and the quantities derived from the
    adjacency matrix.  One definition per method; simplifications are stated. *)
From Coq Require Import Reals Lra Lia List Arith Bool String.
From Verif.Base Require Import RSum Prelude.
From Verif.Spec Require Import Matrix.
From Verif.Model Require Import Sparse.
Import ListNotations.
Open Scope R_scope.

(** The adjacency argument of [Graph(adjacency, ...)]: anything dense (through
    [np.asanyarray]: a shape and its data in C order), a CSR matrix (used as is,
    [copy=False]) or a COO matrix (any other sparse format converts likewise). *)
Inductive adj_input :=
| InDense (shape : list nat) (d : list xval)
| InCSR (A : csr xval)
| InCOO (n m : nat) (e : list (nat * nat * xval)).

(** The two Laplacian names the code recognises, and any other string. *)
Inductive laptype := Combinatorial | Normalized | OtherLap (s : string).

(** graph.py:104: [ndim], [shape]. *)
Definition in_shape (inp : adj_input) : list nat :=
  match inp with
  | InDense s _ => s
  | InCSR A => [nrow A; ncol A]
  | InCOO n m _ => [n; m]
  end.

(** graph.py:109: [sparse.csr_matrix(adjacency, copy=False)] for a 2-D argument. *)
Definition to_csr (inp : adj_input) : csr xval :=
  match inp with
  | InDense s d => csr_of_dense (nth 0 s 0%nat) (nth 1 s 0%nat) d
  | InCSR A => A
  | InCOO n m e => csr_of_coo n m e
  end.

(** graph.py:403-404 [is_directed]: [(W != W.T).nnz != 0] (scipy sums duplicates in comparisons). *)
Definition is_directed (W : csr R) : bool :=
  nexists (nrow W) (fun i => nexists (nrow W) (fun j => negb (Reqb (get W i j) (get W j i)))).

(** graph.py:442 [has_loops]: [np.any(W.diagonal() != 0)]. *)
Definition has_loops (W : csr R) : bool :=
  nexists (nrow W) (fun i => negb (Reqb (get W i i) 0)).

(** graph.py:292 [is_weighted]: [not np.all(W.data == 1)]. *)
Definition is_weighted (W : csr R) : bool :=
  negb (forallb (fun v => Reqb v 1) (data W)).

(** graph.py:135-140 [n_edges]. *)
Definition diag_count (W : csr R) : nat :=
  ncount (nrow W) (fun i => negb (Reqb (get W i i) 0)).
Definition count_edges (W : csr R) : nat :=
  if is_directed W then nnz W
  else ((nnz W - diag_count W) / 2 + diag_count W)%nat.

(** utils.py:247-248 [symmetrize(W, 'average')] and graph.py:613-616, 951-954: the weights the
    Laplacian is built from. *)
Definition wlap (W : csr R) : mat := fun i j =>
  if is_directed W then (get W i j + get W j i) / 2 else get W i j.

(** graph.py:772-781 [d]. The undirected branch returns integers, the directed one half-integers;
    both are reals here. *)
Definition deg (W : csr R) (i : nat) : R :=
  if is_directed W then (INR (col_nnz W i) + INR (row_nnz W i)) / 2
  else INR (row_nnz W i).

(** graph.py:830-838 [dw]. *)
Definition dw (W : csr R) (i : nat) : R :=
  if is_directed W then (col_sum W i + row_sum W i) / 2 else col_sum W i.

(** graph.py:618-620: [D - W]. *)
Definition lap_comb (W : csr R) : mat := fun i j =>
  (if Nat.eqb i j then dw W i else 0) - wlap W i j.

(** graph.py:622-624: [d = dw ** -0.5] where dw is not 0, else 0.  For a negative degree numpy
    yields NaN; not modelled (the theorems about it assume non-negative weights). *)
Definition dinvsqrt (W : csr R) (i : nat) : R :=
  if Reqb (dw W i) 0 then 0 else / sqrt (dw W i).

(** graph.py:625-628: [I - D W D], then zero on the diagonal of disconnected vertices. *)
Definition lap_norm (W : csr R) : mat := fun i j =>
  if (Nat.eqb i j && Reqb (dw W i) 0)%bool then 0
  else idm i j - dinvsqrt W i * wlap W i j * dinvsqrt W j.

(** graph.py:618-630: the Laplacian of a type, or ValueError. *)
Definition laplacian (W : csr R) (t : laptype) : res mat :=
  match t with
  | Combinatorial => Ok (lap_comb W)
  | Normalized => Ok (lap_norm W)
  | OtherLap _ => Raise ValueError
  end.

(** A signal attached to a graph, or the coordinates: an array given by its rows (first dimension =
    number of rows); each row is flattened. *)
Definition rowarray := list (list R).

(** The attributes of a Graph that do not depend on lazily computed spectral data
    (those are in Model.Cache). *)
Record graph := mkgraph {
  gW : csr R;
  g_n_vertices : nat;
  g_n_edges : nat;
  g_lap_type : laptype;
  gL : mat;
  g_coords : option rowarray;
  g_signals : list (string * rowarray) }.

(** graph.py:98-176 [Graph.__init__].  The comparison of line 121 makes scipy put the matrix in
    canonical format ([_scalar_binopt] calls [sum_duplicates]), which only matters for a CSR
    argument: the other formats are canonical after line 109.  Not modelled: logging, plotting options, dtype. *)
Definition graph_init (inp : adj_input) (lap : laptype) (coords : option rowarray) : res graph :=
  if negb (Nat.eqb (List.length (in_shape inp)) 2
           && Nat.eqb (nth 0 (in_shape inp) 0%nat) (nth 1 (in_shape inp) 0%nat))%bool
  then Raise ValueError                                    (* lines 104-105 *)
  else
    let A := to_csr inp in                                 (* line 109 *)
    if xisnan (xsum (data A)) then Raise ValueError        (* lines 111-112 *)
    else if xisinf (xsum (data A)) then Raise ValueError   (* lines 113-114 *)
    else
      let A := sum_duplicates A in                         (* line 121: [_adjacency < 0] *)
      let W := cmap xreal (eliminate_zeros_x A) in         (* line 128 *)
      bindr (laplacian W lap) (fun L =>                    (* line 172 *)
        Ok (mkgraph W (nrow W) (count_edges W) lap L coords [])).

(** graph.py:632-640 [_check_signal]: the first dimension must be n_vertices. *)
Definition check_signal {A} (G : graph) (s : list A) : res (list A) :=
  if Nat.eqb (List.length s) (g_n_vertices G) then Ok s else Raise ValueError.

(** dict assignment [signals[name] = signal]: replace in place, else append. *)
Fixpoint dict_set {V} (k : string) (v : V) (d : list (string * V)) : list (string * V) :=
  match d with
  | [] => [(k, v)]
  | (k', v') :: d' => if String.eqb k' k then (k, v) :: d' else (k', v') :: dict_set k v d'
  end.
Fixpoint dict_get {V} (k : string) (d : list (string * V)) : option V :=
  match d with
  | [] => None
  | (k', v') :: d' => if String.eqb k' k then Some v' else dict_get k d'
  end.

Definition with_signals (G : graph) (s : list (string * rowarray)) : graph :=
  mkgraph (gW G) (g_n_vertices G) (g_n_edges G) (g_lap_type G) (gL G) (g_coords G) s.

(** graph.py:192-216 [set_signal]. *)
Definition set_signal (G : graph) (s : rowarray) (name : string) : res graph :=
  bindr (check_signal G s) (fun s => Ok (with_signals G (dict_set name s (g_signals G)))).

(** graph.py:1019-1029 [get_edge_list]: stored entries (directed) or those of the upper triangle
    (undirected, [sparse.triu]: column >= row), with the assertion on their number. *)
Definition get_edge_list (W : csr R) : res (list (nat * nat * R)) :=
  let e := if is_directed W then stored W
           else filter (fun t => Nat.leb (fst (fst t)) (snd (fst t))) (stored W) in
  if Nat.eqb (count_edges W) (List.length e) then Ok e else Raise AssertionError.

(** graph.py:725 [A]: [W > 0]. *)
Definition adjb (W : csr R) (i j : nat) : bool := Rltb 0 (get W i j).

(** graph.py:701-702 [dirichlet_energy] of a 1-D signal: [x.T.dot(L.dot(x))]. *)
Definition dirichlet_energy (G : graph) (x : list R) : res R :=
  bindr (check_signal G x) (fun x =>
    let n := g_n_vertices G in
    let xv := fun i => nth i x 0 in
    Ok (\sum_(i < n) (xv i * \sum_(j < n) (gL G i j * xv j)))).
