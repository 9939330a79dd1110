(** Histories of calls on a graph, and where a cached quantity may come from. *)
From Coq Require Import Reals Lra Lia List Arith Bool String.
From Verif.Base Require Import RSum Prelude.
From Verif.Spec Require Import Matrix GraphSpec.
From Verif.Model Require Import Sparse Graph Difference Bounds Traverse Cache.
Import ListNotations.
Open Scope R_scope.

Section Oracles.
  (** What the external solvers promise: [Eig n L k e U], the k computed eigenpairs of the n x n matrix
      L, and [Lan n L r], r approximates its largest eigenvalue.  Any relations. *)
  Variable Eig : nat -> mat -> nat -> list R -> mat -> Prop.
  Variable Lan : nat -> mat -> R -> Prop.

  (** The solver answers carried by the call are answers about the current L. *)
  Definition lan_legal (s : cache) (o : lan_out) : Prop :=
    match o with LanOk r => Lan (c_N s) (c_L s) r | _ => True end.
  Definition eig_legal (s : cache) (k : nat) (o : eig_out) : Prop :=
    match o with EigOk e U => Eig (c_N s) (c_L s) k e U | _ => True end.
  Definition legal (s : cache) (c : op) : Prop :=
    match c with
    | OpEstimate _ o | OpLmax o => lan_legal s o
    | OpBasis k o => eig_legal s (match k with None => c_N s | Some k => k end) o
    | OpReadBasis o | OpCoherence o => eig_legal s (c_N s) o
    | OpConnected p p' => pop_ok p /\ pop_ok p'
    | _ => True
    end.

  (** A history: calls one after the other, whether or not they raise. *)
  Inductive history : cache -> list op -> cache -> Prop :=
  | history_nil s : history s [] s
  | history_cons s c s' cs s'' :
      legal s c -> fst (step s c) = s' -> history s' cs s'' -> history s (c :: cs) s''.

  (** All Laplacian types asked for are known ones. *)
  Definition known_types (cs : list op) : Prop :=
    forall t, In (OpLaplacian t) cs -> t = Combinatorial \/ t = Normalized.

  (** The eigenvalues as stored: as the solver gave them or with the first one replaced by 0. *)
  Definition stored_eigs (e0 e : list R) : Prop := e = e0 \/ exists x l, e0 = x :: l /\ e = 0 :: l.

  (** [v] is a number computed for the Laplacian L of type t of W: the last eigenvalue of a full
      basis of L, the algebraic bound for type t, or a Lanczos answer for L raised by one percent. *)
  Definition lmax_for (W : csr R) (t : laptype) (n : nat) (L : mat) (v : xval) : Prop :=
    (exists e0 e U, Eig n L n e0 U /\ stored_eigs e0 e /\ v = Fin (last e 0)) \/
    upper_bound W t = Ok v \/
    (exists r, Lan n L r /\ v = Fin (r * 1.01)).
End Oracles.
