(** Vocabulary for statements about errors: the Euclidean norm, the Frobenius norm, Lipschitz functions.  Models no code. *)
From Coq Require Import Reals.
From Verif.Base Require Import RSum.
From Verif.Spec Require Import Matrix.
Open Scope R_scope.
Definition norm2 (n : nat) (x : vec) : R := sqrt (normsq n x).
Definition vminus (x y : vec) : vec := fun i => x i - y i.
Definition fro (n : nat) (A : mat) : R := sqrt (\sum_(i < n) \sum_(j < n) (A i j * A i j)).
Definition lipschitz (g : R -> R) (K lo hi : R) : Prop :=
  forall s t, lo <= s <= hi -> lo <= t <= hi -> Rabs (g s - g t) <= K * Rabs (s - t).
(** How far (e, U) is from a solution of A U = U diag(e). *)
Definition residual (n : nat) (A : mat) (e : vec) (U : mat) : mat := fun i k => mulv n A (fun j => U j k) i - e k * U i k.
(** How far U is from orthogonal: |U U^T x - x| <= delta |x|. *)
Definition nearly_orthogonal (n : nat) (U : mat) (delta : R) : Prop :=
  0 <= delta /\ forall x, norm2 n (fun i => \sum_(k < n) (U i k * \sum_(j < n) (U j k * x j)) - x i) <= delta * norm2 n x.
