(** The weights and the combinatorial Laplacian when every addition, subtraction and division is rounded, as in floating point.

    Simplification: no overflow (a rounded number is always a number).  [rnd] is arbitrary here; Spec/Rounding.v says what a
    floating-point rounding is. *)
From Coq Require Import Reals List Arith Bool String.
From Verif.Base Require Import RSum Prelude.
From Verif.Spec Require Import Matrix.
From Verif.Model Require Import Sparse Graph Utils.
Import ListNotations.
Open Scope R_scope.
Open Scope list_scope.

(** The order in which a library adds the terms of a sum (sequentially, pairwise, in blocks, ...): a binary tree whose leaves are
    the indices of the terms.  Starting from an initial 0 changes nothing, nor do terms that are 0 and not stored. *)
Inductive sumtree := Leaf (k : nat) | Node (a b : sumtree).
Fixpoint leaves (t : sumtree) : list nat := match t with Leaf k => [k] | Node a b => leaves a ++ leaves b end.

Section Rounded.
Variable rnd : R -> R.

(** W.sum(axis) (graph.py:833, 835, 836) of one column or row. *)
Fixpoint r_sum (t : sumtree) (f : nat -> R) : R :=
  match t with Leaf k => f k | Node a b => rnd (r_sum a f + r_sum b f) end.

(** utils.py:247-248: (W + W.T) / 2. *)
Definition r_average (W : mat) : mat := fun i j => rnd (rnd (W i j + W j i) / 2).
(** utils.py:250-255: W - W.multiply(bigger) + W.T.multiply(bigger), or np.maximum(W, W.T). *)
Definition r_maximum (sp : bool) (W : mat) : mat := fun i j =>
  if sp then
    let bigger := Rltb (W i j) (W j i) in
    rnd (rnd (W i j - (if bigger then W i j else 0)) + (if bigger then W j i else 0))
  else Rmax (W i j) (W j i).
(** utils.py:257-266: the entries that are positive only in the transpose are added, then averaged. *)
Definition r_fill (sp : bool) (W : mat) : mat :=
  r_average (fun i j => rnd (W i j + (if sym_fill_mask sp W i j then W j i else 0))).
(** utils.py:244-277 [symmetrize]. *)
Definition r_symmetrize (W : marg) (method : string) : res mat :=
  if negb (Nat.eqb (m_rows W) (m_cols W)) then Raise ValueError
  else if String.eqb method "average" then Ok (r_average (m_get W))
  else if String.eqb method "maximum" then Ok (r_maximum (m_sparse W) (m_get W))
  else if String.eqb method "fill" then Ok (r_fill (m_sparse W) (m_get W))
  else if String.eqb method "tril" then Ok (r_maximum (m_sparse W) (tril (m_get W)))
  else if String.eqb method "triu" then Ok (r_maximum (m_sparse W) (triu (m_get W)))
  else Raise ValueError.

(** graph.py:830-838 [dw]; [tin i], [tout i]: the order of the additions in column i and row i. *)
Definition r_dw (tin tout : nat -> sumtree) (W : csr R) (i : nat) : R :=
  if is_directed W then rnd (rnd (r_sum (tin i) (fun j => get W j i) + r_sum (tout i) (fun j => get W i j)) / 2)
  else r_sum (tin i) (fun j => get W j i).
(** graph.py:613-620: D - W, with W symmetrized if the graph is directed. *)
Definition r_lap_comb (tin tout : nat -> sumtree) (W : csr R) : mat := fun i j =>
  rnd ((if Nat.eqb i j then r_dw tin tout W i else 0) - (if is_directed W then r_average (get W) i j else get W i j)).

(** graph.py:622-624: np.power(dw, -0.5), 0 where the degree is 0; [pw]: the power function of numpy. *)
Definition r_dinv (pw : R -> R) (tin tout : nat -> sumtree) (W : csr R) (i : nat) : R :=
  if Reqb (r_dw tin tout W i) 0 then 0 else pw (r_dw tin tout W i).
(** graph.py:625-628: I - (D * W) * D, then 0 on the diagonal of the vertices of degree 0.  The sums of the two matrix products have
    one term each.  Not modelled: [eliminate_zeros] (the values do not change). *)
Definition r_lap_norm (pw : R -> R) (tin tout : nat -> sumtree) (W : csr R) : mat := fun i j =>
  if (Nat.eqb i j && Reqb (r_dw tin tout W i) 0)%bool then 0
  else rnd ((if Nat.eqb i j then 1 else 0)
            - rnd (rnd (r_dinv pw tin tout W i * (if is_directed W then r_average (get W) i j else get W i j)) * r_dinv pw tin tout W j)).
End Rounded.

(** fourier.py:172: scipy.linalg.eigh reads the lower triangle only ([lower=True], its default). *)
Definition lower_triangle (A : mat) : mat := fun i j => if Nat.leb j i then A i j else A j i.

(** The check of the constructor in floating point, with overflow: [omega] is the largest finite number, and a sum whose rounded
    value is larger becomes infinite. *)
Definition f_add (rnd : R -> R) (omega : R) (a b : xval) : xval :=
  match a, b with
  | Fin x, Fin y =>
      let s := rnd (x + y) in
      if Rltb omega s then PInf else if Rltb s (- omega) then NInf else Fin s
  | _, _ => xadd a b
  end.
Fixpoint f_sum (rnd : R -> R) (omega : R) (t : sumtree) (f : nat -> xval) : xval :=
  match t with Leaf k => f k | Node a b => f_add rnd omega (f_sum rnd omega a f) (f_sum rnd omega b f) end.
(** graph.py:104-114: the shape, then [np.isnan(W.sum())] and [np.isinf(W.sum())].  Not modelled: the sums of the entries that a COO
    or CSR argument lists several times, made before (conversion) or after (line 121). *)
Definition f_init_check (rnd : R -> R) (omega : R) (t : sumtree) (inp : adj_input) : res unit :=
  if negb (Nat.eqb (List.length (in_shape inp)) 2
           && Nat.eqb (nth 0 (in_shape inp) 0%nat) (nth 1 (in_shape inp) 0%nat))%bool
  then Raise ValueError
  else
    let s := f_sum rnd omega t (fun k => nth k (data (to_csr inp)) (Fin 0)) in
    if xisnan s then Raise ValueError else if xisinf s then Raise ValueError else Ok tt.
