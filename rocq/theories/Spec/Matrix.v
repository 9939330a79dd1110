(** Independent linear-algebra vocabulary used in theorem statements.
    A matrix is a function of two indices; its size is given explicitly.
    Models no code. *)
From Coq Require Import Reals Lra Lia List Arith.
From Verif.Base Require Import RSum.
Open Scope R_scope.

Definition mat := nat -> nat -> R.
Definition vec := nat -> R.

(** (A x)_i *)
Definition mulv (n : nat) (A : mat) (x : vec) : vec := fun i => \sum_(j < n) (A i j * x j).
(** (A B)_ij with inner dimension n *)
Definition mulm (n : nat) (A B : mat) : mat := fun i j => \sum_(k < n) (A i k * B k j).
Definition tr (A : mat) : mat := fun i j => A j i.
Definition idm : mat := fun i j => if Nat.eqb i j then 1 else 0.
Definition dot (n : nat) (x y : vec) : R := \sum_(i < n) (x i * y i).
Definition normsq (n : nat) (x : vec) : R := dot n x x.
Definition quad (n : nat) (A : mat) (x : vec) : R := dot n x (mulv n A x).

Definition meq (n m : nat) (A B : mat) : Prop :=
  forall i j, (i < n)%nat -> (j < m)%nat -> A i j = B i j.
Definition veq (n : nat) (x y : vec) : Prop := forall i, (i < n)%nat -> x i = y i.

Definition symmetric (n : nat) (A : mat) : Prop := meq n n A (tr A).
Definition psd (n : nat) (A : mat) : Prop := forall x, 0 <= quad n A x.
Definition vzero (n : nat) (x : vec) : Prop := forall i, (i < n)%nat -> x i = 0.

(** [lam] is an eigenvalue of the n x n matrix [A] with eigenvector [x]. *)
Definition eigenpair (n : nat) (A : mat) (lam : R) (x : vec) : Prop :=
  ~ vzero n x /\ forall i, (i < n)%nat -> mulv n A x i = lam * x i.

(** Columns of U are orthonormal (n rows, m columns). *)
Definition orthonormal_cols (n m : nat) (U : mat) : Prop :=
  forall k l, (k < m)%nat -> (l < m)%nat ->
    \sum_(i < n) (U i k * U i l) = if Nat.eqb k l then 1 else 0.

(** Contract of a symmetric eigensolver (scipy.linalg.eigh): U orthogonal,
    A U = U diag(e), eigenvalues in ascending order. *)
Record eigh_ok (n : nat) (A : mat) (e : vec) (U : mat) : Prop := {
  eigh_cols : orthonormal_cols n n U;
  eigh_rows : orthonormal_cols n n (tr U);
  eigh_eig  : forall i k, (i < n)%nat -> (k < n)%nat ->
                mulv n A (fun j => U j k) i = e k * U i k;
  eigh_sort : forall k l, (k <= l)%nat -> (l < n)%nat -> e k <= e l }.
