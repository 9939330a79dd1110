(** What a filter bank object is expected to compute, in terms of the bank formulas of Model.Kernels:
    the bank that the constructor describes, for the lmax and the eigenvalues in F. *)
From Coq Require Import Reals Lra Lia List Arith Bool String.
From Verif.Base Require Import RSum Prelude.
From Verif.Spec Require Import Matrix.
From Verif.Model Require Import Sparse Graph Cache Filter Kernels LiveBanks.
Import ListNotations.
Open Scope R_scope.

Definition fresh (junk : R) (F : view) (k : kind) : res (list kernel) :=
  let lmax := v_lmax F in
  match k with
  | KHeat scale normalize => Ok (Heat F scale normalize)
  | KWave time speed => Wave lmax time speed
  | KExpwin a b slope => Ok [pw (expwin_fun lmax slope a b)]
  | KRectangular a b => Ok [pw (rect_fun lmax a b)]
  | KHeld a => Ok (Held junk lmax a)
  | KSimoncelli a => Ok (Simoncelli junk lmax a)
  | KPapadakis a => Ok (Papadakis junk lmax a)
  | KRegular d => Ok (Regular lmax d)
  | KMeyer Nf sc => Meyer lmax Nf sc
  | KSimpleTight Nf sc => SimpleTight lmax Nf sc
  | KItersine Nf ov => Ok (Itersine lmax Nf ov)
  | KHalfCosine Nf => HalfCosine lmax Nf
  | KMexicanHat Nf lp sc nz => MexicanHat lmax Nf lp sc nz
  | KAbspline Nf lp sc a0 a1 a2 a3 xs => Abspline lmax Nf lp sc a0 a1 a2 a3 xs
  end.

(** The banks whose kernels ask the graph for lmax each time they are called ... *)
Inductive follows : kind -> Prop :=
| fo_heat s : follows (KHeat s false) | fo_wave t s : follows (KWave t s)
| fo_expwin a b s : follows (KExpwin a b s) | fo_rect a b : follows (KRectangular a b)
| fo_held a : follows (KHeld a) | fo_simoncelli a : follows (KSimoncelli a)
| fo_papadakis a : follows (KPapadakis a) | fo_regular d : follows (KRegular d).
(** ... and those that ask once, when they are built. *)
Inductive settled_at_build : kind -> Prop :=
| sb_meyer n s : settled_at_build (KMeyer n s) | sb_st n s : settled_at_build (KSimpleTight n s)
| sb_itersine n o : settled_at_build (KItersine n o) | sb_half n : settled_at_build (KHalfCosine n)
| sb_mex n l s z : settled_at_build (KMexicanHat n l s z)
| sb_ab n l s a0 a1 a2 a3 x : settled_at_build (KAbspline n l s a0 a1 a2 a3 x).

(** Two memories with the same graph objects in the same states. *)
Definition same_heap (h h' : heap) : Prop := forall i, h i = h' i.

(** The full-band windows are constant and ask for nothing. *)
Definition needs_lmax (k : kind) : Prop :=
  match k with KExpwin None None _ | KRectangular None None => False | _ => True end.
(** The pairs made of a low-pass filter and its complement. *)
Inductive complement_pair : kind -> Prop :=
| cp_held a : 0 < a -> complement_pair (KHeld a) | cp_sim a : 0 < a -> complement_pair (KSimoncelli a)
| cp_pap a : 0 < a -> complement_pair (KPapadakis a) | cp_reg d : complement_pair (KRegular d).
