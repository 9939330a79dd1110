(** Vocabulary for the recovery of a signal from some of its values. Models no code. *)
From Coq Require Import Reals Lia List Arith.
From Verif.Base Require Import RSum.
From Verif.Spec Require Import Matrix NdArray Reach LearnSpec.
Open Scope R_scope.

(** x and y have the same value on every labelled vertex *)
Definition agree (n : nat) (M : list bool) (x y : vec) : Prop := forall v, (v < n)%nat -> labelled M v -> x v = y v.
(** every signal that vanishes on the labelled vertices has an energy of at least mu times its squared norm *)
Definition sampling_constant (n : nat) (L : mat) (M : list bool) (mu : R) : Prop :=
  forall y, (forall v, (v < n)%nat -> labelled M v -> y v = 0) -> mu * normsq n y <= quad n L y.
(** the Fourier coefficients of x vanish at the eigenvalues above w *)
Definition bandlimited (n : nat) (e : vec) (U : mat) (w : R) (x : vec) : Prop :=
  forall k, (k < n)%nat -> w < e k -> \sum_(i < n) (U i k * x i) = 0.
(** number of labelled vertices *)
Definition labels (n : nat) (M : list bool) : nat := ncount n (fun v => nth v M false).
