(** Model of pygsp/graphs/difference.py. *)
From Coq Require Import Reals Lra Lia List Arith Bool String.
From Verif.Base Require Import RSum Prelude.
From Verif.Spec Require Import Matrix.
From Verif.Model Require Import Sparse Graph.
Import ListNotations.
Open Scope R_scope.

(** difference.py:151-158: the value written for the source (first n values) and for the target
    (last n values) of an edge (a, b, w). *)
Definition dvals (W : csr R) (t : laptype) (e : nat * nat * R) : res (R * R) :=
  let '(a, b, w) := e in
  match t with
  | Combinatorial => let v := - sqrt w in Ok (v, - v)
  | Normalized => Ok (- sqrt (w / dw W a), sqrt (w / dw W b))
  | OtherLap _ => Raise ValueError
  end.

(** difference.py:160-161: division by sqrt 2 for directed graphs. *)
Definition dscale (W : csr R) : R := if is_directed W then sqrt 2 else 1.

(** One entry of D: the values at (row i, column k) are summed by csc_matrix (line 163-165; a
    self-loop contributes two values at the same place); dropping stored zeros (line 166) does not
    change the matrix. *)
Definition dentry (W : csr R) (t : laptype) (i : nat) (e : nat * nat * R) : R :=
  match dvals W t e with
  | Ok (v1, v2) =>
      (if Nat.eqb (fst (fst e)) i then v1 / dscale W else 0) +
      (if Nat.eqb (snd (fst e)) i then v2 / dscale W else 0)
  | Raise _ => 0
  end.

(** difference.py:144-166 [compute_differential_operator]: the matrix D, n_vertices x n_edges. *)
Definition diff_op (W : csr R) (t : laptype) : res mat :=
  bindr (get_edge_list W) (fun l =>
    match t with
    | OtherLap _ => Raise ValueError
    | _ => Ok (fun i k => dentry W t i (nth k l (0%nat, 0%nat, 0)))
    end).

(** difference.py:243-244 [grad] of a 1-D signal: [D.T.dot(x)]. *)
Definition grad (G : graph) (x : list R) : res (list R) :=
  bindr (check_signal G x) (fun x =>
  bindr (diff_op (gW G) (g_lap_type G)) (fun D =>
    Ok (map (fun k => \sum_(i < g_n_vertices G) (D i k * nth i x 0)) (seq 0 (g_n_edges G))))).

(** difference.py:325-331 [div] of a 1-D edge signal: [D.dot(y)]. *)
Definition div (G : graph) (y : list R) : res (list R) :=
  if Nat.eqb (List.length y) (g_n_edges G) then
    bindr (diff_op (gW G) (g_lap_type G)) (fun D =>
      Ok (map (fun i => \sum_(k < g_n_edges G) (D i k * nth k y 0)) (seq 0 (g_n_vertices G))))
  else Raise ValueError.
