(** Adjacency matrices whose entries have a Boolean or machine-integer type: [Graph(adjacency)] keeps the type of its argument
    (graph.py:101-109, no conversion), and some additions are done in that type.

    scipy facts used: [A + B] of two sparse matrices of the same type is computed in that type (integers wrap around, Booleans are
    or-ed); [A / 2] converts to floating point; [A.sum(axis)] accumulates Booleans and integers in 64 bits (whose overflow is not
    modelled: the sums are exact); [sparse.diags] of integers is a floating-point matrix, so that [D - W] is a floating-point
    subtraction.  Floating-point operations are exact reals (see Rounded.v for rounding). *)
From Coq Require Import Reals List Arith Bool ZArith.
From Verif.Base Require Import RSum Prelude.
From Verif.Spec Require Import Matrix DtypeSpec.
From Verif.Model Require Import Sparse Graph.
Import ListNotations.
Open Scope R_scope.

(** What storing the mathematical result z in an element of type t keeps of it. *)
Definition wrap (t : dtype) (z : Z) : Z :=
  match t with
  | DBool => if Z.eqb z 0 then 0 else 1
  | DUInt k => z mod 2 ^ Z.of_nat k
  | DInt k => (z + 2 ^ Z.of_nat k) mod (2 * 2 ^ Z.of_nat k) - 2 ^ Z.of_nat k
  end%Z.

(** utils.py:247-248: (W + W.T) / 2. *)
Definition t_average (t : dtype) (w : nat -> nat -> Z) : mat := fun i j => IZR (wrap t (w i j + w j i)) / 2.
(** graph.py:404: (W != W.T).nnz != 0 *)
Definition t_directed (n : nat) (w : nat -> nat -> Z) : bool :=
  nexists n (fun i => nexists n (fun j => negb (Z.eqb (w i j) (w j i)))).
(** graph.py:830-838 [dw] *)
Definition t_dw (n : nat) (w : nat -> nat -> Z) (i : nat) : R :=
  let degree_in := \sum_(j < n) IZR (w j i) in
  if t_directed n w then (degree_in + \sum_(j < n) IZR (w i j)) / 2 else degree_in.
(** graph.py:613-616 *)
Definition t_wlap (t : dtype) (n : nat) (w : nat -> nat -> Z) : mat :=
  if t_directed n w then t_average t w else fun i j => IZR (w i j).
(** graph.py:618-630 *)
Definition t_laplacian (t : dtype) (n : nat) (w : nat -> nat -> Z) (lap : laptype) : res mat :=
  match lap with
  | Combinatorial => Ok (fun i j => (if Nat.eqb i j then t_dw n w i else 0) - t_wlap t n w i j)
  | Normalized =>
      let d i := if Reqb (t_dw n w i) 0 then 0 else / sqrt (t_dw n w i) in
      Ok (fun i j => if (Nat.eqb i j && Reqb (t_dw n w i) 0)%bool then 0 else idm i j - d i * t_wlap t n w i j * d j)
  | OtherLap _ => Raise ValueError
  end.
