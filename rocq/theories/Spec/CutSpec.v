(** Cuts of a weighted graph. Specification only, models no code. *)
From Coq Require Import Reals Bool.
From Verif.Base Require Import RSum.
From Verif.Spec Require Import Matrix GraphSpec.
From Verif.Model Require Import Graph.
Open Scope R_scope.

(** Total weight of the edges with one end in S and the other outside (each arc of a directed graph counts half). *)
Definition cut (n : nat) (w : nat -> nat -> R) (S : nat -> bool) : R :=
  / 2 * \sum_(i < n) \sum_(j < n) (if Bool.eqb (S i) (S j) then 0 else w i j).
(** Total measure of S: its number of vertices when every mu is 1, its volume when mu is the degree. *)
Definition mass (n : nat) (mu : nat -> R) (S : nat -> bool) : R := \sum_(i < n) (if S i then mu i else 0).
