(** Laplacian matrices of undirected weighted graphs, seen as matrices.  Models no code. *)
From Coq Require Import Reals Lra Lia List Arith.
From Verif.Base Require Import RSum.
From Verif.Spec Require Import Matrix Reach.
Open Scope R_scope.

(** Symmetric, rows sum to zero, off-diagonal entries are non-positive. *)
Definition is_laplacian (n : nat) (L : mat) : Prop :=
  symmetric n L /\ (forall i, (i < n)%nat -> \sum_(j < n) L i j = 0) /\
  (forall i j, (i < n)%nat -> (j < n)%nat -> i <> j -> L i j <= 0).
(** u and v are joined by an edge. *)
Definition lap_edge (n : nat) (L : mat) (u v : nat) : Prop := (u < n)%nat /\ (v < n)%nat /\ u <> v /\ L u v <> 0.
Definition lap_connected (n : nat) (L : mat) : Prop :=
  forall i j, (i < n)%nat -> (j < n)%nat -> reach (lap_edge n L) i j.
(** The Moore-Penrose pseudo-inverse. *)
Definition pinv (n : nat) (A P : mat) : Prop :=
  meq n n (mulm n A (mulm n P A)) A /\ meq n n (mulm n P (mulm n A P)) P /\
  symmetric n (mulm n A P) /\ symmetric n (mulm n P A).
Definition inverse_of (n : nat) (A P : mat) : Prop :=
  meq n n (mulm n A P) idm /\ meq n n (mulm n P A) idm.
(** The unit vector at i. *)
Definition unitv (i : nat) : vec := fun a => if Nat.eqb a i then 1 else 0.
