(** Model of Graph._get_upper_bound (pygsp/graphs/graph.py:933-960). *)
From Coq Require Import Reals Lra Lia List Arith Bool String.
From Verif.Base Require Import RSum Prelude.
From Verif.Spec Require Import Matrix.
From Verif.Model Require Import Sparse Graph.
Import ListNotations.
Open Scope R_scope.

(** Floating-point comparison [a < b]: False as soon as one is NaN. *)
Definition xlt (a b : xval) : bool :=
  match a, b with
  | NaN, _ | _, NaN => false
  | Fin x, Fin y => Rltb x y
  | NInf, NInf => false | NInf, _ => true
  | _, NInf => false
  | PInf, _ => false
  | _, PInf => true
  end.

(** Floating-point division. *)
Definition xdiv (a b : R) : xval :=
  if Reqb b 0 then (if Reqb a 0 then NaN else if Rltb 0 a then PInf else NInf) else Fin (a / b).

(** [np.max]: NaN propagates; ValueError on an empty array. *)
Definition xmax2 (a b : xval) : xval :=
  match a, b with
  | NaN, _ | _, NaN => NaN
  | _, _ => if xlt a b then b else a
  end.
Definition np_max (l : list xval) : res xval :=
  match l with [] => Raise ValueError | a :: l' => Ok (fold_left xmax2 l' a) end.

(** Python's builtin [min] on a non-empty list: keep the first, replace when strictly smaller. *)
Definition py_min (l : list xval) : res xval :=
  match l with
  | [] => Raise ValueError
  | a :: l' => Ok (fold_left (fun m x => if xlt x m then x else m) l' a)
  end.

(** graph.py:941 [np.max(self.W)]: the maximum over all entries, stored or not. *)
Definition max_weight (W : csr R) : res xval :=
  np_max (flat_map (fun i => map (fun j => Fin (get W i j)) (seq 0 (ncol W))) (seq 0 (nrow W))).

Definition xscale (c : R) (a : xval) : xval :=   (* c > 0 *)
  match a with Fin r => Fin (c * r) | v => v end.

(** graph.py:955 [m = W.dot(dw) / dw] and line 956 [dw + m]. *)
Definition merris_term (W : csr R) (i : nat) : xval :=
  xadd (Fin (dw W i)) (xdiv (\sum_(j < nrow W) (wlap W i j * dw W j)) (dw W i)).

(** graph.py:936-960. The scalar [n_vertices * max] with n_vertices = 0 never occurs
    ([np.max] of an empty matrix raises). *)
Definition upper_bound (W : csr R) (t : laptype) : res xval :=
  match t with
  | Normalized => Ok (Fin 2)
  | OtherLap _ => Raise ValueError
  | Combinatorial =>
      bindr (max_weight W) (fun mw =>
      bindr (np_max (map (fun i => Fin (dw W i)) (seq 0 (nrow W)))) (fun md =>
      bindr (if Nat.ltb 0 (count_edges W) then
               bindr (get_edge_list W) (fun l =>
               bindr (np_max (map (fun e => Fin (dw W (fst (fst e)) + dw W (snd (fst e)))) l)) (fun b =>
                 Ok [b]))
             else Ok []) (fun b3 =>
      bindr (np_max (map (merris_term W) (seq 0 (nrow W)))) (fun b4 =>
        py_min ([xscale (INR (nrow W)) mw; xscale 2 md] ++ b3 ++ [b4])))))
  end.
