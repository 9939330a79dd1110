(** Signals on the edges of a graph.  Models no code. *)
From Coq Require Import Reals List Arith.
From Verif.Base Require Import RSum.
Import ListNotations.
Open Scope R_scope.

(** The inner product of two signals with m entries. *)
Definition inner (m : nat) (a b : list R) : R := \sum_(k < m) (nth k a 0 * nth k b 0).
(** y = a + z, entry by entry. *)
Definition adds_up (m : nat) (y a z : list R) : Prop := forall k, (k < m)%nat -> nth k y 0 = nth k a 0 + nth k z 0.
Definition all_zero (m : nat) (z : list R) : Prop := forall k, (k < m)%nat -> nth k z 0 = 0.
Definition same_signal (m : nat) (a b : list R) : Prop := forall k, (k < m)%nat -> nth k a 0 = nth k b 0.
(** The squared distance. *)
Definition distance2 (m : nat) (a b : list R) : R := \sum_(k < m) ((nth k a 0 - nth k b 0) * (nth k a 0 - nth k b 0)).
