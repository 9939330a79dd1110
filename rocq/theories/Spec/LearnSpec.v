(** Vocabulary for the learning properties: columns of a signal array, the Tikhonov objective, the probability simplex. Models no code. *)
From Coq Require Import Reals List Arith Permutation.
From Verif.Base Require Import RSum Prelude.
From Verif.Spec Require Import Matrix NdArray Reach.
Import ListNotations.
Open Scope R_scope.

(** The array is one signal of length n, or n x c; [sig j] is its j-th column. *)
Inductive columns (n : nat) : arr -> nat -> (nat -> vec) -> Prop :=
| columns1 g : columns n (Arr [n] g) 1 (fun _ i => g [i])
| columns2 c g : columns n (Arr [n; c] g) c (fun j i => g [i; j]).
(** vertex i is labelled *)
Definition labelled (M : list bool) (i : nat) : Prop := nth i M false = true.
(** || M x - y ||^2 + tau x^T L x, the sum running over the labelled vertices *)
Definition tik_cost (n : nat) (L : mat) (M : list bool) (tau : R) (y x : vec) : R :=
  \sum_(i < n) (if nth i M false then (x i - y i) * (x i - y i) else 0) + tau * quad n L x.
(** a point of the probability simplex of dimension d *)
Definition simplex (d : nat) (x : vec) : Prop := (forall i, (i < d)%nat -> 0 <= x i) /\ \sum_(i < d) x i = 1.
(** squared distance *)
Definition dist2 (d : nat) (x y : vec) : R := \sum_(i < d) ((x i - y i) * (x i - y i)).
(** an index list that sorts y in ascending order *)
Definition sorts (d : nat) (y : vec) (idx : list nat) : Prop :=
  Permutation idx (seq 0 d) /\ forall i j, (i <= j)%nat -> (j < d)%nat -> y (nth i idx 0%nat) <= y (nth j idx 0%nat).
(** tau tr(X^T L X) + || M X - Y ||_F^2, Y the indicators of the classes y of the labelled vertices: n vertices, d classes *)
Definition class_cost (n d : nat) (L : mat) (M : list bool) (y : list nat) (tau : R) (x : mat) : R :=
  tau * (\sum_(c < d) quad n L (fun i => x i c)) +
  \sum_(i < n) (if nth i M false then \sum_(c < d) ((x i c - (if Nat.eqb c (nth i y 0%nat) then 1 else 0)) * (x i c - (if Nat.eqb c (nth i y 0%nat) then 1 else 0))) else 0).
(** inner product and squared distance of n x d matrices *)
Definition frob (n d : nat) (a b : mat) : R := \sum_(i < n) \sum_(c < d) (a i c * b i c).
Definition mdist2 (n d : nat) (a b : mat) : R := \sum_(i < n) dist2 d (a i) (b i).
(** Each row of P holds non-negative weights of the labelled vertices, with sum 1. *)
Definition averaging (n : nat) (M : list bool) (P : mat) : Prop :=
  (forall v i, (v < n)%nat -> (i < n)%nat -> 0 <= P v i) /\ (forall v i, ~ labelled M i -> P v i = 0) /\
  (forall v, (v < n)%nat -> \sum_(i < n) P v i = 1).
