(** Vocabulary for the statements about filtering: spectral multipliers, frequency responses,
    Chebyshev polynomials, and the meaning of the signal shapes. *)
From Coq Require Import Reals Lra Lia List Arith Bool.
From Verif.Base Require Import RSum Prelude.
From Verif.Spec Require Import Matrix NdArray.
From Verif.Model Require Import Filter.
Import ListNotations.
Open Scope R_scope.

(** The full Fourier basis is available: e, U diagonalise the graph's Laplacian. *)
Definition spectral (F : view) : Prop :=
  List.length (v_e F) = v_N F /\ eigh_ok (v_N F) (v_L F) (fun k => nth k (v_e F) 0) (v_U F).

(** Fourier coefficient k of x: the inner product with the k-th eigenvector. *)
Definition fhat (F : view) (x : vec) (k : nat) : R := \sum_(i < v_N F) (v_U F i k * x i).
(** U diag(h) U^T x *)
Definition mult (F : view) (h x : vec) : vec := fun n => \sum_(k < v_N F) (v_U F n k * (h k * fhat F x k)).

(** Chebyshev polynomials of the first kind. *)
Fixpoint chebT (k : nat) (x : R) : R :=
  match k with
  | O => 1
  | S k' => match k' with O => x | S k'' => 2 * x * chebT k' x - chebT k'' x end
  end.
(** c_0/2 + sum_{k>=1} c_k T_k(x) *)
Definition cheb_series (c : list R) (x : R) : R :=
  nth 0 c 0 / 2 + \sum_(k < List.length c - 1) (nth (S k) c 0 * chebT (S k) x).

(** H i k is the gain of filter i on eigenvector k: the kernel's value at the eigenvalue for the
    exact method, the Chebyshev series' value there for the Chebyshev method. *)
Definition response (F : view) (ks : list kernel) (m : fmethod) (H : nat -> vec) : Prop :=
  match m with
  | Exact => exists y, evaluate ks (v_e F) = Ok y /\
      forall i k, (i < List.length ks)%nat -> (k < v_N F)%nat -> H i k = nth k (nth i y []) 0
  | Chebyshev order => exists c, compute_cheby_coeff (v_lmax F) ks order None = Ok c /\
      (1 <= order)%nat /\ 0 < v_lmax F /\
      forall i k, (i < List.length ks)%nat -> (k < v_N F)%nat ->
        H i k = cheb_series (nth i c []) (2 * nth k (v_e F) 0 / v_lmax F - 1)
  | OtherMethod _ => False
  end.

(** [s] is a batch of [v] signals with one feature: the shapes (N,), (N,v) and (N,v,1).
    The 2-D shape (N,Nf) is taken as one signal with Nf features unless Nf = 1. *)
Inductive batch (N Nf : nat) : arr -> nat -> (nat -> vec) -> Prop :=
| batch1 g : batch N Nf (Arr [N] g) 1 (fun _ i => g [i])
| batch2 v g : (v <> Nf \/ v = 1)%nat -> batch N Nf (Arr [N; v] g) v (fun j i => g [i; j])
| batch3 v g : batch N Nf (Arr [N; v; 1%nat] g) v (fun j i => g [i; j; 0%nat]).
(** [s] is a batch of [v] signals with Nf <> 1 features: the shapes (N,Nf) and (N,v,Nf). *)
Inductive fbatch (N Nf : nat) : arr -> nat -> (nat -> nat -> vec) -> Prop :=
| fbatch2 g : Nf <> 1%nat -> fbatch N Nf (Arr [N; Nf] g) 1 (fun _ f i => g [i; f])
| fbatch3 v g : Nf <> 1%nat -> fbatch N Nf (Arr [N; v; Nf] g) v (fun j f i => g [i; j; f]).

(** Response of filter f at vertex n when one signal was filtered by Nf filters. *)
Definition ans (F : view) (Nf : nat) (out : arr) (f : nat) : vec := fun n => rd [v_N F; 1%nat; Nf] out [n; 0%nat; f].

(** On any batch of frequencies in [lo, hi] the bank evaluates, and at each of them the squared kernels
    sum to A. *)
Definition tight_bank (ks : list kernel) (lo hi A : R) : Prop :=
  forall x, x <> [] -> (forall t, In t x -> lo <= t <= hi) ->
    exists y, evaluate ks x = Ok y /\ List.length y = List.length ks /\
      forall j, (j < List.length x)%nat -> \sum_(f < List.length ks) (nth j (nth f y []) 0 * nth j (nth f y []) 0) = A.
