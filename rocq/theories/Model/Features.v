(** Model of pygsp/features.py. *)
From Coq Require Import Reals Lra Lia List Arith Bool.
From Coq Require Import List.
From Verif.Base Require Import RSum Prelude.
From Verif.Spec Require Import Matrix NdArray.
From Verif.Model Require Import Sparse Graph Traverse Filter.
Import ListNotations.
Open Scope R_scope.

(** features.py:23 [compute_avg_adj_deg]: G.A is a sparse boolean matrix, so np.dot(G.A, G.A) is the boolean matrix product
    (entry true iff some k has A_ik and A_kj); sums count the true entries.  The result is the column of these N quotients. *)
Definition avg_adj_deg (G : graph) (i : nat) : R :=
  let n := g_n_vertices G in
  INR (ncount n (fun j => existsb (fun k => (adjb (gW G) i k && adjb (gW G) k j)%bool) (seq 0 n))) / (INR (ncount n (fun j => adjb (gW G) i j)) + 1).

(** utils.py:37-53 [filterbank_handler] *)
Inductive per_bank (A : Type) := One (a : A) | Each (l : list A).
Arguments One {A} a. Arguments Each {A} l.
Definition handle {A} (ks : list kernel) (run : res A) : res (per_bank A) :=
  if Nat.leb (List.length ks) 1 then bindr run (fun a => Ok (One a))
  else bindr (mapr (fun _ : nat => run) (seq 0 (List.length ks))) (fun l => Ok (Each l)).
(** features.py:26-41 [compute_tig(g, **kwargs)]: neither kwargs (here the method) nor the index i given by the handler are used;
    compute_frame() filters with the default method of Filter.filter, Chebyshev of order 30 (filter.py:148). *)
Definition compute_tig (F : view) (ks : list kernel) (kwargs : fmethod) : res (per_bank arr) :=
  handle ks (compute_frame F ks (Chebyshev 30)).
(** np.linalg.norm(tig, axis=1, ord=2) of a 2-D array *)
Definition row_norms (a : arr) : arr :=
  match shape a with
  | [r; c] => Arr [r] (fun idx => sqrt (\sum_(j < c) (aget a [ix idx 0; j] * aget a [ix idx 0; j])))
  | _ => Arr [] (fun _ => 0)
  end.
(** features.py:44-59 [compute_norm_tig]; compute_tig is called with kwargs that contain i when the bank has several filters. *)
Definition compute_norm_tig (F : view) (ks : list kernel) (kwargs : fmethod) : res (per_bank arr) :=
  handle ks (bindr (compute_frame F ks (Chebyshev 30)) (fun t => Ok (row_norms t))).

(** features.py:80-83 *)
Definition default_atom (M : nat) (lmax : R) : R -> R := fun x => exp (- INR M * (x / lmax) ^ 2).
(** features.py:85-91: the m-th column *)
Definition spectrogram_column (F : view) (atom : R -> R) (M m : nat) (kwargs : fmethod) : res vec :=
  let s := nth m (linspace 0 (v_lmax F) M) 0 in
  bindr (compute_norm_tig F [pw (fun x => atom (x - s))] kwargs) (fun t =>
  match t with
  | One a => Ok (fun i => (rd [v_N F] (squeeze a) [i]) ^ 2)
  | Each _ => Raise AttributeError
  end).
(** features.py:62-94 [compute_spectrogram] *)
Definition compute_spectrogram (F : view) (atom : option (R -> R)) (M : nat) (kwargs : fmethod) : res arr :=
  let atom := match atom with Some a => a | None => default_atom M (v_lmax F) end in
  bindr (mapr (fun m => spectrogram_column F atom M m kwargs) (seq 0 M)) (fun cols =>
  Ok (Arr [v_N F; M] (fun idx => nth (ix idx 1) cols (fun _ => 0) (ix idx 0)))).
