(** Model of pygsp/utils.py: symmetrize, distanz, resistance_distance, rescale_center. *)
From Coq Require Import Reals Lra Lia List Arith Bool String.
From Coq Require Import List.
From Verif.Base Require Import RSum Prelude.
From Verif.Spec Require Import Matrix.
From Verif.Model Require Import Sparse Graph.
Import ListNotations.
Open Scope string_scope.
Open Scope R_scope.

(** A matrix argument: sparse or dense, its shape and its entries. *)
Record marg := mkmarg { m_sparse : bool; m_rows : nat; m_cols : nat; m_get : mat }.

Definition b2r (b : bool) : R := if b then 1 else 0.

(** utils.py:247-248 *)
Definition sym_average (W : mat) : mat := fun i j => (W i j + W j i) / 2.
(** utils.py:251-255: the sparse code selects with the matrix [bigger = W.T > W]. *)
Definition sym_maximum (sp : bool) (W : mat) : mat := fun i j =>
  if sp then let bigger i j := Rltb (W i j) (W j i) in
             W i j - W i j * b2r (bigger i j) + W j i * b2r (bigger i j)
  else Rmax (W i j) (W j i).
(** utils.py:258-265.  The difference of boolean sparse matrices (A + A.T) - A and the exclusive or
    of the dense code. *)
Definition sym_fill_mask (sp : bool) (W : mat) (i j : nat) : bool :=
  let A i j := Rltb 0 (W i j) in
  if sp then ((A i j || A j i) && negb (A i j))%bool else xorb (A i j || A j i)%bool (A i j).
Definition sym_fill (sp : bool) (W : mat) : mat :=
  sym_average (fun i j => W i j + b2r (sym_fill_mask sp W i j) * W j i).
(** utils.py:269-273 [tri]: sparse.tril / np.tril keep i >= j, triu keeps i <= j. *)
Definition tril (W : mat) : mat := fun i j => if Nat.leb j i then W i j else 0.
Definition triu (W : mat) : mat := fun i j => if Nat.leb i j then W i j else 0.

(** utils.py:244-277 [symmetrize]. *)
Definition symmetrize (W : marg) (method : string) : res mat :=
  if negb (Nat.eqb (m_rows W) (m_cols W)) then Raise ValueError
  else if String.eqb method "average" then Ok (sym_average (m_get W))
  else if String.eqb method "maximum" then Ok (sym_maximum (m_sparse W) (m_get W))
  else if String.eqb method "fill" then Ok (sym_fill (m_sparse W) (m_get W))
  else if String.eqb method "tril" then Ok (sym_maximum (m_sparse W) (tril (m_get W)))
  else if String.eqb method "triu" then Ok (sym_maximum (m_sparse W) (triu (m_get W)))
  else Raise ValueError.

(** A point-set argument of [distanz]: 1-D (utils.py:110-122: becomes one row) or 2-D (one point per column). *)
Inductive points := Pts1 (n : nat) (x : vec) | Pts2 (d n : nat) (x : mat).
Definition pdim (p : points) : nat := match p with Pts1 _ _ => 1 | Pts2 d _ _ => d end.
Definition pnum (p : points) : nat := match p with Pts1 n _ => n | Pts2 _ n _ => n end.
Definition pget (p : points) : mat := match p with Pts1 _ x => fun _ j => x j | Pts2 _ _ x => x end.
(** utils.py:110-137 [distanz]. *)
Definition distanz (x : points) (y : option points) : res mat :=
  let y := match y with None => x | Some y => y end in
  if negb (Nat.eqb (pdim x) (pdim y)) then Raise ValueError
  else
    let xx i := \sum_(k < pdim x) (pget x k i * pget x k i) in
    let yy j := \sum_(k < pdim x) (pget y k j * pget y k j) in
    let xy i j := \sum_(k < pdim x) (pget x k i * pget y k j) in
    Ok (fun i j => sqrt (Rabs (xx i + yy j - 2 * xy i j))).

(** What sparse.linalg.inv answers (utils.py:167-170): an inverse, or RuntimeError for a singular matrix,
    upon which np.linalg.pinv is called; [P] is the matrix obtained. *)
Inductive inv_out := InvOk (P : mat) | InvSingular (P : mat).
(** utils.py:172-181: d_i + d_j - P_ij - P_ji, d the diagonal of P. *)
Definition resistance_of (P : mat) : mat := fun i j => P i i + P j j - P i j - P j i.
(** utils.py:159-181 [resistance_distance] of a sparse matrix and of a graph. *)
Definition resistance_distance_L (o : inv_out) : mat :=
  match o with InvOk P => resistance_of P | InvSingular P => resistance_of P end.
Definition resistance_distance (G : graph) (o : inv_out) : res mat :=
  match g_lap_type G with
  | Combinatorial => Ok (resistance_distance_L o)
  | _ => Raise ValueError
  end.

(** utils.py:304-309 [rescale_center] of a d x n array: rows are centred and everything is divided by the
    largest entry.  np.amax of an empty array raises. *)
Definition rescale_center (d n : nat) (x : mat) : res mat :=
  let y : mat := fun i j => x i j - (\sum_(k < n) x i k) / INR n in
  match map (fun ij => y (fst ij) (snd ij)) (list_prod (seq 0 d) (seq 0 n)) with
  | [] => Raise ValueError
  | a :: l => let c := fold_left Rmax l a in Ok (fun i j => y i j / c)
  end.
