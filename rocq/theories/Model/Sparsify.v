(** Model of pygsp/reduction.py:34-147 [graph_sparsify]. *)
From Coq Require Import Reals List Arith Bool.
From Coq Require Import List.
From Verif.Base Require Import RSum Prelude.
From Verif.Spec Require Import Matrix.
From Verif.Model Require Import Sparse Graph Traverse Utils Reduction Community.
Import ListNotations.
Open Scope R_scope.
Open Scope list_scope.

(** reduction.py:90-95: entries below 1e-10 are dropped.  Simplification: the weight matrix has no duplicate entries (the
    code compares the stored values before summing duplicates). *)
Definition small : R := / 10 ^ 10.
Definition drop_small (W : mat) : mat := fun i j => if Rltb (W i j) small then 0 else W i j.

Section Core.
Variables (N : nat) (W : mat) (Rd : mat).

(** reduction.py:97: positions of the stored entries of the lower triangle (with the diagonal), column by column. *)
Definition sp_edges : list (nat * nat) :=
  flat_map (fun j => map (fun i => (i, j)) (filter (fun i => (Nat.leb j i && negb (Reqb (W i j) 0))%bool) (seq 0 N))) (seq 0 N).

(** reduction.py:100-103: the probability of every edge. *)
Definition sp_score (e : nat * nat) : R := Rmax 0 (W (fst e) (snd e)) * Rmax 0 (Rd (fst e) (snd e)).
Definition sp_total : R := lsum (map sp_score sp_edges).
Definition sp_prob (k : nat) : R := sp_score (nth k sp_edges (0%nat, 0%nat)) / sp_total.

(** reduction.py:109-112: the number of draws. *)
Definition sp_draws (eps : R) : nat := py_round (INR N * ln (INR N) * 9 * (4 * (1 / 30)) ^ 2 / eps ^ 2).

(** reduction.py:115-120: the new weight of edge number k after the draws [l].  With a zero probability, or no draw, the
    weight is 0 * inf = NaN. *)
Definition sp_weight (q : nat) (l : list nat) (k : nat) : xval :=
  if Reqb (INR q * sp_prob k) 0 then NaN
  else Fin (INR (count_occ Nat.eq_dec l k) * (Rmax 0 (W (fst (nth k sp_edges (0%nat, 0%nat))) (snd (nth k sp_edges (0%nat, 0%nat)))) / (INR q * sp_prob k))).

(** reduction.py:122-125: the sparsified matrix plus its transpose. *)
Definition sp_entries (q : nat) (l : list nat) : list (nat * nat * xval) :=
  map (fun k => (nth k sp_edges (0%nat, 0%nat), sp_weight q l k)) (seq 0 (List.length sp_edges)) ++
  map (fun k => let e := nth k sp_edges (0%nat, 0%nat) in ((snd e, fst e), sp_weight q l k)) (seq 0 (List.length sp_edges)).

(** reduction.py:106-135: the attempts; [draw t q] are the indices drawn by attempt t, [pops t] the orders in which
    is_connected visits the vertices.  Without any attempt [sparserL] is unbound.  Returns [sparserW]; None: out of fuel. *)
Fixpoint sp_loop (draw : nat -> nat -> list nat) (pops : nat -> popper * popper) (rem t : nat) (eps : R) : option (res mat) :=
  match rem with
  | O => Some (Raise UnboundLocalError)
  | S r =>
      let q := sp_draws eps in
      match graph_init (InCOO N N (sp_entries q (draw t q))) Combinatorial None with
      | Raise e => Some (Raise e)
      | Ok Gs =>
          match is_connected (fst (pops t)) (snd (pops t)) (gW Gs) with
          | None => None
          | Some (Raise e) => Some (Raise e)
          | Some (Ok c) =>
              if (c || Nat.eqb r 0)%bool then Some (Ok (fun i j => get (gW Gs) i j))
              else sp_loop draw pops r (S t) (eps - (eps - 1 / sqrt (INR N)) / 2)
          end
      end
  end.

(** reduction.py:78-81, 103-135.  Without an edge, or with probabilities that are not numbers, rv_discrete raises
    ValueError.  For N = 0 the lower limit is infinite. *)
Definition sp_run (eps : R) (maxiter : nat) (draw : nat -> nat -> list nat) (pops : nat -> popper * popper) : option (res mat) :=
  if Reqb sp_total 0 then Some (Raise ValueError) else sp_loop draw pops maxiter 0 eps.
Definition sp_range (eps : R) : bool := (negb (Nat.eqb N 0) && Rleb (1 / sqrt (INR N)) eps && Rltb eps 1)%bool.
End Core.

(** reduction.py:126: [sparserL]. *)
Definition sp_lap (S : mat) : mat := fun i j => (if Nat.eqb i j then S i i else 0) - S i j.
(** reduction.py:138-140: the weights of the new graph. *)
Definition sp_final (dir : bool) (L : mat) : mat :=
  let F : mat := fun i j => (if Nat.eqb i j then L i i else 0) - L i j in
  if dir then F else fun i j => (F i j + F j i) / 2.

(** reduction.py:70-147 on a graph.  [o]: what the inversion of the Laplacian answers (utils.resistance_distance). *)
Definition sparsify_graph (G : graph) (o : inv_out) (eps : R) (maxiter : nat) (draw : nat -> nat -> list nat) (pops : nat -> popper * popper)
    : option (res graph) :=
  match g_lap_type G with
  | Combinatorial =>
      let N := g_n_vertices G in
      if negb (sp_range N eps) then Some (Raise ValueError)
      else match sp_run N (drop_small (fun i j => get (gW G) i j)) (resistance_distance_L o) eps maxiter draw pops with
           | None => None
           | Some (Raise e) => Some (Raise e)
           | Some (Ok M) => Some (graph_init (InDense [N; N] (map Fin (dense N (sp_final (is_directed (gW G)) (sp_lap M))))) Combinatorial None)
           end
  | _ => Some (Raise NotImplementedError)
  end.

(** reduction.py:70-147 on a sparse N x N matrix: a matrix is returned. *)
Definition sparsify_matrix (N : nat) (L : mat) (o : inv_out) (eps : R) (maxiter : nat) (draw : nat -> nat -> list nat) (pops : nat -> popper * popper)
    : option (res mat) :=
  if negb (sp_range N eps) then Some (Raise ValueError)
  else match sp_run N (drop_small (fun i j => (if Nat.eqb i j then L i i else 0) - L i j)) (resistance_distance_L o) eps maxiter draw pops with
       | None => None
       | Some (Raise e) => Some (Raise e)
       | Some (Ok M) => Some (Ok (sp_lap M))
       end.
