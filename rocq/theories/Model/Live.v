(** Model of a Graph whose weight matrix is modified in place after construction.  The attributes W,
    A, d, dw, L, is_directed(), is_connected(), n_edges of pygsp/graphs/graph.py as a state machine;
    the spectral attributes are in Model.Cache. *)
From Coq Require Import Reals Lra Lia List Arith Bool String.
From Verif.Base Require Import RSum Prelude.
From Verif.Spec Require Import Matrix.
From Verif.Model Require Import Sparse Graph Traverse.
Import ListNotations.
Open Scope R_scope.

(** graph.py:109-176: the attributes.  [None]: not computed yet. *)
Record live := mklive {
  v_W : csr R;                            (* _adjacency *)
  v_n : nat;                              (* n_vertices *)
  v_ne : nat;                             (* n_edges *)
  v_lap : laptype;                        (* lap_type *)
  v_L : mat;                              (* L *)
  v_A : option (nat -> nat -> bool);      (* _A *)
  v_d : option (nat -> R);                (* _d *)
  v_dw : option (nat -> R);               (* _dw *)
  v_dir : option bool;                    (* _directed *)
  v_conn : option bool }.                 (* _connected *)

Definition put_W (s : live) (W : csr R) : live :=
  mklive W (v_n s) (v_ne s) (v_lap s) (v_L s) (v_A s) (v_d s) (v_dw s) (v_dir s) (v_conn s).
Definition put_lap (s : live) (t : laptype) (L : mat) : live :=
  mklive (v_W s) (v_n s) (v_ne s) t L (v_A s) (v_d s) (v_dw s) (v_dir s) (v_conn s).
Definition put_A (s : live) (a : nat -> nat -> bool) : live :=
  mklive (v_W s) (v_n s) (v_ne s) (v_lap s) (v_L s) (Some a) (v_d s) (v_dw s) (v_dir s) (v_conn s).
Definition put_d (s : live) (d : nat -> R) : live :=
  mklive (v_W s) (v_n s) (v_ne s) (v_lap s) (v_L s) (v_A s) (Some d) (v_dw s) (v_dir s) (v_conn s).
Definition put_dw (s : live) (d : nat -> R) : live :=
  mklive (v_W s) (v_n s) (v_ne s) (v_lap s) (v_L s) (v_A s) (v_d s) (Some d) (v_dir s) (v_conn s).
Definition put_dir (s : live) (b : bool) : live :=
  mklive (v_W s) (v_n s) (v_ne s) (v_lap s) (v_L s) (v_A s) (v_d s) (v_dw s) (Some b) (v_conn s).
Definition put_conn (s : live) (b : bool) : live :=
  mklive (v_W s) (v_n s) (v_ne s) (v_lap s) (v_L s) (v_A s) (v_d s) (v_dw s) (v_dir s) (Some b).
Definition put_ne (s : live) (m : nat) : live :=
  mklive (v_W s) (v_n s) m (v_lap s) (v_L s) (v_A s) (v_d s) (v_dw s) (v_dir s) (v_conn s).

(** graph.py:403-405 [is_directed()]. *)
Definition live_directed (s : live) : live * bool :=
  match v_dir s with
  | Some b => (s, b)
  | None => (put_dir s (is_directed (v_W s)), is_directed (v_W s))
  end.

(** graph.py:725-727 [A]. *)
Definition live_A (s : live) : live * (nat -> nat -> bool) :=
  match v_A s with
  | Some a => (s, a)
  | None => (put_A s (adjb (v_W s)), adjb (v_W s))
  end.

(** graph.py:772-781 [d]: the branch is chosen by the remembered is_directed(). *)
Definition deg_as (directed : bool) (W : csr R) (i : nat) : R :=
  if directed then (INR (col_nnz W i) + INR (row_nnz W i)) / 2 else INR (row_nnz W i).
Definition live_d (s : live) : live * (nat -> R) :=
  match v_d s with
  | Some d => (s, d)
  | None => let (s, b) := live_directed s in (put_d s (deg_as b (v_W s)), deg_as b (v_W s))
  end.

(** graph.py:830-838 [dw]. *)
Definition dw_as (directed : bool) (W : csr R) (i : nat) : R :=
  if directed then (col_sum W i + row_sum W i) / 2 else col_sum W i.
Definition live_dw (s : live) : live * (nat -> R) :=
  match v_dw s with
  | Some d => (s, d)
  | None => let (s, b) := live_directed s in (put_dw s (dw_as b (v_W s)), dw_as b (v_W s))
  end.

(** graph.py:613-616: the weights the Laplacian is built from. *)
Definition wlap_as (directed : bool) (W : csr R) : mat := fun i j =>
  if directed then (get W i j + get W j i) / 2 else get W i j.
(** graph.py:619-620. *)
Definition lap_comb_as (b : bool) (d : nat -> R) (W : csr R) : mat := fun i j =>
  (if Nat.eqb i j then d i else 0) - wlap_as b W i j.
(** graph.py:622-628 (NaN for a negative degree not modelled, as in Model.Graph). *)
Definition dinv_as (d : nat -> R) (i : nat) : R := if Reqb (d i) 0 then 0 else / sqrt (d i).
Definition lap_norm_as (b : bool) (d : nat -> R) (W : csr R) : mat := fun i j =>
  if (Nat.eqb i j && Reqb (d i) 0)%bool then 0 else idm i j - dinv_as d i * wlap_as b W i j * dinv_as d j.

(** graph.py:611-630 [compute_laplacian] (the invalidations of lines 602-609 are in Model.Cache). *)
Definition live_laplacian (t : laptype) (s : live) : live * res unit :=
  let s := put_lap s t (v_L s) in                                       (* 611 *)
  let (s, b) := live_directed s in                                      (* 613 *)
  match t with
  | Combinatorial => let (s, d) := live_dw s in (put_lap s t (lap_comb_as b d (v_W s)), Ok tt)
  | Normalized => let (s, d) := live_dw s in (put_lap s t (lap_norm_as b d (v_W s)), Ok tt)
  | OtherLap _ => (s, Raise ValueError)
  end.

(** graph.py:124-176: what __init__ does with the adjacency matrix W. *)
Definition live_init (W : csr R) (t : laptype) : live * res unit :=
  let s := mklive W (nrow W) 0 t (fun _ _ => 0) None None None None None in   (* 124-131 *)
  let (s, b) := live_directed s in                                            (* 135 *)
  let s := put_ne s (if b then nnz W else ((nnz W - diag_count W) / 2 + diag_count W)%nat) in
  live_laplacian t s.                                                         (* 172 *)

(** graph.py:340-366 [is_connected()]. *)
Definition connected_as (pop pop' : popper) (b : bool) (n : nat) (W : csr R) : option (res bool) :=
  if Nat.eqb n 0 then Some (Raise IndexError)
  else match all_reached pop n (out_nbrs W) with
       | None => None
       | Some false => Some (Ok false)
       | Some true => if b then option_map (@Ok bool) (all_reached pop' n (in_nbrs W)) else Some (Ok true)
       end.
Definition live_connected (pop pop' : popper) (s : live) : live * option (res bool) :=
  match v_conn s with
  | Some b => (s, Some (Ok b))
  | None =>
      let (s, d) := live_directed s in
      match connected_as pop pop' d (v_n s) (v_W s) with
      | Some (Ok b) => (put_conn s b, Some (Ok b))
      | r => (s, r)
      end
  end.

(** graph.py:1019-1029 [get_edge_list()]. *)
Definition live_edges (s : live) : live * res (list (nat * nat * R)) :=
  let (s, b) := live_directed s in
  let e := if b then stored (v_W s)
           else filter (fun t => Nat.leb (fst (fst t)) (snd (fst t))) (stored (v_W s)) in
  (s, if Nat.eqb (v_ne s) (List.length e) then Ok e else Raise AssertionError).

(** The calls: reading an attribute, [compute_laplacian], assigning [G.W = ...] (graph.py:709-715),
    and writing into the matrix [G.W] or the arrays it shares ([G.W[0, 0] = 1], [G.W.data[:] = ...];
    the comment of line 711): afterwards the matrix object holds the entries of the argument. *)
Inductive call :=
| ReadW | ReadA | ReadDeg | ReadDw | ReadL | ReadNe | Directed | Weighted | Loops | Edges
| Connected (pop pop' : popper) | Laplacian (t : laptype) | AssignW (W : csr R) | WriteW (W : csr R).

Inductive answer :=
| AnsNone | AnsW (W : csr R) | AnsA (a : nat -> nat -> bool) | AnsVec (d : nat -> R) | AnsL (L : mat) | AnsNat (m : nat)
| AnsBool (b : bool) | AnsEdges (l : list (nat * nat * R)) | AnsFuel.

Definition act (s : live) (c : call) : live * res answer :=
  match c with
  | ReadW => (s, Ok (AnsW (v_W s)))                                        (* 705-707 *)
  | ReadA => let (s', a) := live_A s in (s', Ok (AnsA a))
  | ReadDeg => let (s', d) := live_d s in (s', Ok (AnsVec d))
  | ReadDw => let (s', d) := live_dw s in (s', Ok (AnsVec d))
  | ReadL => (s, Ok (AnsL (v_L s)))
  | ReadNe => (s, Ok (AnsNat (v_ne s)))
  | Directed => let (s', b) := live_directed s in (s', Ok (AnsBool b))
  | Weighted => (s, Ok (AnsBool (is_weighted (v_W s))))                    (* 292 *)
  | Loops => (s, Ok (AnsBool (has_loops (v_W s))))                         (* 442 *)
  | Edges => let (s', r) := live_edges s in (s', bindr r (fun l => Ok (AnsEdges l)))
  | Connected p p' =>
      let (s', r) := live_connected p p' s in
      (s', match r with Some (Ok b) => Ok (AnsBool b) | Some (Raise x) => Raise x | None => Ok AnsFuel end)
  | Laplacian t => let (s', r) := live_laplacian t s in (s', bindr r (fun _ => Ok AnsNone))
  | AssignW _ => (s, Raise AttributeError)                                 (* 709-715 *)
  | WriteW W => (put_W s W, Ok AnsNone)
  end.
