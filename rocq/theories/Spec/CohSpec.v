(** Vocabulary for the coherence of a Fourier basis. Models no code. *)
From Coq Require Import Reals List Arith.
From Verif.Base Require Import RSum Prelude.
From Verif.Spec Require Import Matrix Card.
From Verif.Model Require Import Filter.
Import ListNotations.
Open Scope R_scope.

(** c is the largest absolute value of the entries of the Fourier basis. *)
Definition coherence_is (F : view) (c : R) : Prop :=
  (forall i k, (i < v_N F)%nat -> (k < v_N F)%nat -> Rabs (v_U F i k) <= c) /\
  exists i k, (i < v_N F)%nat /\ (k < v_N F)%nat /\ c = Rabs (v_U F i k).
(** x has exactly m non-zero entries among the first n. *)
Definition nonzeros (n : nat) (x : vec) (m : nat) : Prop := card (fun i => (i < n)%nat /\ x i <> 0) m.
