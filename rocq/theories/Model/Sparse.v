(** Model of the parts of scipy.sparse the graph class uses: matrices in CSR form as
    rows of stored (column, value) pairs.  Stored zeros and duplicate columns are
    representable, as in scipy.  Values are idealised: see [xval] and [R]. *)
From Coq Require Import Reals Lra Lia List Arith Bool.
From Verif.Base Require Import RSum Prelude.
Import ListNotations.
Open Scope R_scope.

(** Floating-point values as far as the constructor tells them apart
    (pygsp/graphs/graph.py:111-114 tests NaN and infinities).  Rounding and overflow
    are not modelled: finite values are real numbers. *)
Inductive xval := Fin (r : R) | NaN | PInf | NInf.

(** IEEE addition on [xval]. *)
Definition xadd (a b : xval) : xval :=
  match a, b with
  | NaN, _ | _, NaN => NaN
  | PInf, NInf | NInf, PInf => NaN
  | PInf, _ | _, PInf => PInf
  | NInf, _ | _, NInf => NInf
  | Fin x, Fin y => Fin (x + y)
  end.
Definition xsum (l : list xval) : xval := fold_right xadd (Fin 0) l.
Definition xisnan (a : xval) : bool := match a with NaN => true | _ => false end.
Definition xisinf (a : xval) : bool := match a with PInf | NInf => true | _ => false end.
(** [a == 0] (False for NaN and infinities). *)
Definition xiszero (a : xval) : bool := match a with Fin r => Reqb r 0 | _ => false end.
(** The real number of a finite value (0 otherwise; only used after the finiteness check). *)
Definition xreal (a : xval) : R := match a with Fin r => r | _ => 0 end.

(** scipy.sparse.csr_matrix: shape and, per row, the stored (column index, value) pairs
    in storage order. *)
Record csr (V : Type) := mkcsr { nrow : nat; ncol : nat; rows : list (list (nat * V)) }.
Arguments mkcsr {V}.
Arguments nrow {V}.
Arguments ncol {V}.
Arguments rows {V}.

Definition row {V} (A : csr V) (i : nat) : list (nat * V) := nth i (rows A) [].

(** The stored entries in row-major storage order: what [A.tocoo()] lists. *)
Definition stored {V} (A : csr V) : list (nat * nat * V) :=
  flat_map (fun i => map (fun cv => (i, fst cv, snd cv)) (row A i)) (seq 0 (nrow A)).

(** [A.nnz], [A.data]. *)
Definition nnz {V} (A : csr V) : nat := length (stored A).
Definition data {V} (A : csr V) : list V := map snd (stored A).

(** Apply a function to the stored values. *)
Definition cmap {V V'} (f : V -> V') (A : csr V) : csr V' :=
  mkcsr (nrow A) (ncol A) (map (map (fun cv => (fst cv, f (snd cv)))) (rows A)).

(** [A.eliminate_zeros()]: drop the stored entries equal to zero. *)
Definition eliminate_zeros_x (A : csr xval) : csr xval :=
  mkcsr (nrow A) (ncol A) (map (filter (fun cv => negb (xiszero (snd cv)))) (rows A)).

(** Dense view: entry (i,j) is the sum of the values stored for that position
    (scipy's [toarray], [diagonal], comparisons and products all sum duplicates). *)
Definition getx (A : csr xval) (i j : nat) : xval :=
  xsum (map snd (filter (fun cv => Nat.eqb (fst cv) j) (row A i))).
Definition get (A : csr R) (i j : nat) : R :=
  lsum (map snd (filter (fun cv => Nat.eqb (fst cv) j) (row A i))).

(** [A.getnnz(axis=1)[i]], [A.getnnz(axis=0)[j]]: numbers of stored entries. *)
Definition row_nnz {V} (A : csr V) (i : nat) : nat := length (row A i).
Definition col_nnz {V} (A : csr V) (j : nat) : nat :=
  length (filter (fun e => Nat.eqb (snd (fst e)) j) (stored A)).

(** [A.sum(axis=1)[i]], [A.sum(axis=0)[j]]. *)
Definition row_sum (A : csr R) (i : nat) : R := lsum (map snd (row A i)).
Definition col_sum (A : csr R) (j : nat) : R :=
  lsum (map snd (filter (fun e => Nat.eqb (snd (fst e)) j) (stored A))).

(** [sparse.csr_matrix] of a two-dimensional dense array of shape (n, m), data in C order:
    the entries different from zero, column by column in each row. *)
Definition csr_of_dense (n m : nat) (d : list xval) : csr xval :=
  mkcsr n m (map (fun i =>
    filter (fun cv => negb (xiszero (snd cv)))
      (map (fun j => (j, nth (i * m + j) d (Fin 0))) (seq 0 m))) (seq 0 n)).

(** [coo.tocsr()]: duplicates are summed, column indices sorted. *)
Definition coo_here {V} (i j : nat) (e : list (nat * nat * V)) : list V :=
  map snd (filter (fun t => (Nat.eqb (fst (fst t)) i && Nat.eqb (snd (fst t)) j)%bool) e).
Definition csr_of_coo (n m : nat) (e : list (nat * nat * xval)) : csr xval :=
  mkcsr n m (map (fun i =>
    map (fun j => (j, xsum (coo_here i j e)))
      (filter (fun j => negb (Nat.eqb (length (coo_here i j e)) 0)) (seq 0 m))) (seq 0 n)).

(** scipy csr_matrix.sum_duplicates(): sort the column indices of each row and add up the values
    stored several times at one position (a sum equal to 0 stays stored).  Same result as the
    conversion of the stored triples from COO. *)
Definition sum_duplicates (A : csr xval) : csr xval := csr_of_coo (nrow A) (ncol A) (stored A).

(** Well-formedness of the CSR data structure (scipy's own invariant): one list per row,
    column indices in range. *)
Definition wf_csr {V} (A : csr V) : Prop :=
  length (rows A) = nrow A /\
  forall i, (i < nrow A)%nat -> forall cv, In cv (row A i) -> (fst cv < ncol A)%nat.

(** scipy's canonical format: no duplicate column index within a row. *)
Definition canonical {V} (A : csr V) : Prop :=
  forall i, (i < nrow A)%nat -> NoDup (map fst (row A i)).
