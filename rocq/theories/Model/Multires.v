(** Model of graph_multiresolution (pygsp/reduction.py:196-306). *)
From Coq Require Import Reals List Arith Bool String.
From Coq Require Import List.
From Verif.Base Require Import RSum Prelude.
From Verif.Spec Require Import Matrix.
From Verif.Model Require Import Sparse Graph Traverse Utils Reduction Sparsify.
Import ListNotations.
Open Scope R_scope.
Open Scope list_scope.

(** A graph of the sequence with what graph_multiresolution reads and writes in it: the cached Fourier basis [_U], the
    dictionary [mr] (keys idx, orig_idx, level, K_reg; the filter mr["green_kernel"] is not represented). *)
Record mrgraph := mkmr {
  mr_graph : graph;
  mr_U : option (nat * mat);         (* _U and its number of columns: None until compute_fourier_basis *)
  mr_idx : list nat;
  mr_orig : list nat;
  mr_level : option nat;
  mr_K : option mat }.

(** What the numerical libraries and the random generator answer at the i-th step: compute_fourier_basis of the graph of level
    i, linalg.eigs, the two calls of spsolve, and (in graph_sparsify) inv/pinv, the draws and the orders of set.pop. *)
Record oracle := mkoracle {
  o_basis : nat -> graph -> mat;
  o_eigs : nat -> graph -> vec;
  o_X : nat -> graph -> mat;
  o_Xreg : nat -> graph -> mat;
  o_inv : nat -> graph -> inv_out;
  o_draw : nat -> graph -> nat -> nat -> list nat;
  o_pops : nat -> graph -> nat -> popper * popper }.

(** np.sign *)
Definition np_sign (x : R) : R := if Rltb 0 x then 1 else if Rltb x 0 then -1 else 0.

Section Multires.
Variables (sparsify : bool) (sparsify_eps : R) (downsampling reduction : string) (full : bool) (reg_eps : R) (Or : oracle).

(** reduction.py:272-275: the last column of the cached basis, or ARPACK's eigenvector: scipy's eigs refuses (TypeError) sparse
    matrices with N - 1 <= k = 1. *)
Definition mr_vector (i : nat) (g : mrgraph) : res vec :=
  match mr_U g with
  | Some (k, U) => Ok (fun v => U v (k - 1)%nat)
  | None => if Nat.leb (g_n_vertices (mr_graph g)) 2 then Raise TypeError else Ok (o_eigs Or i (mr_graph g))
  end.
(** reduction.py:277-278: [V *= np.sign(V[0]); ind = np.nonzero(V >= 0)[0]] *)
Definition mr_signed (V : vec) : vec := fun v => V v * np_sign (V 0%nat).
Definition mr_select (n : nat) (V : vec) : list nat := filter (fun v => Rleb 0 (mr_signed V v)) (seq 0 n).
(** [V] is a view of the cached basis: line 277 writes into its last column. *)
Definition mr_written (V : vec) (U : option (nat * mat)) : option (nat * mat) :=
  match U with
  | Some (k, U) => Some (k, fun a l => if Nat.eqb l (k - 1) then mr_signed V a else U a l)
  | None => None
  end.
(** reduction.py:290-292 *)
Definition mr_eps (n : nat) : R := Rmin (Rmax sparsify_eps (2 / sqrt (INR n))) 1.
(** reduction.py:263-265, 295-298: computing the basis unless it is cached (fourier.py:156-157), or estimating lmax with eigsh,
    which refuses (TypeError) a sparse matrix with N <= k = 1.  Both are taken to succeed otherwise.  [U]: the cached basis. *)
Definition mr_spectrum (i : nat) (G : graph) (U : option (nat * mat)) : res (option (nat * mat)) :=
  if full then Ok (match U with
                   | Some (k, U) => if Nat.leb (g_n_vertices G) k then Some (k, U) else Some (g_n_vertices G, o_basis Or i G)
                   | None => Some (g_n_vertices G, o_basis Or i G)
                   end)
  else if Nat.leb (g_n_vertices G) 1 then Raise TypeError else Ok U.

(** reduction.py:271-304: one iteration; the graph of this level as it is left, and the next one. *)
Definition mr_step (i : nat) (g : mrgraph) : option (res (mrgraph * mrgraph)) :=
  let G := mr_graph g in let n := g_n_vertices G in
  if negb (String.eqb downsampling "largest_eigenvector") then Some (Raise NotImplementedError)
  else match mr_vector i g with
  | Raise e => Some (Raise e)
  | Ok V =>
    let ind := mr_select n V in
    if negb (String.eqb reduction "kron") then Some (Raise NotImplementedError)
    else match kron_reduction G ind (o_X Or i G) with
    | Raise e => Some (Raise e)
    | Ok Gk =>
      match (if (sparsify && Nat.ltb 2 (g_n_vertices Gk))%bool
             then sparsify_graph Gk (o_inv Or i Gk) (mr_eps (g_n_vertices Gk)) 10 (o_draw Or i Gk) (o_pops Or i Gk)
             else Some (Ok Gk)) with
      | None => None
      | Some (Raise e) => Some (Raise e)
      | Some (Ok Gn) =>
        match mr_spectrum (S i) Gn None with
        | Raise e => Some (Raise e)
        | Ok U' =>
          match kron_matrix n (l_reg (gL G) reg_eps) ind (o_Xreg Or i G) with
          | Raise e => Some (Raise e)
          | Ok K => Some (Ok (mkmr G (mr_written V (mr_U g)) (mr_idx g) (mr_orig g) (mr_level g) (Some K),
                              mkmr Gn U' ind (map (fun v => nth v (mr_orig g) 0%nat) ind) (Some i) None))
          end
        end
      end
    end
  end.

(** reduction.py:262-268, 270: the first [k] iterations; the finished levels and the current one.  [U0]: the basis the
    caller's graph had cached. *)
Fixpoint mr_run (G : graph) (U0 : option (nat * mat)) (k : nat) : option (res (list mrgraph * mrgraph)) :=
  match k with
  | O => match mr_spectrum 0 G U0 with
         | Raise e => Some (Raise e)
         | Ok U => Some (Ok ([], mkmr G U (seq 0 (g_n_vertices G)) (seq 0 (g_n_vertices G)) None None))
         end
  | S k' => match mr_run G U0 k' with
            | None => None
            | Some (Raise e) => Some (Raise e)
            | Some (Ok (done, g)) =>
                match mr_step k' g with
                | None => None
                | Some (Raise e) => Some (Raise e)
                | Some (Ok (g', nxt)) => Some (Ok (done ++ [g'], nxt))
                end
            end
  end.
End Multires.

(** reduction.py:196-306.  [sparsify_eps = None]: the default of lines 259-260. *)
Definition graph_multiresolution (G : graph) (U0 : option (nat * mat)) (levels : nat) (sparsify : bool) (sparsify_eps : option R)
    (downsampling reduction : string) (full : bool) (reg_eps : R) (Or : oracle) : option (res (list mrgraph)) :=
  let eps := match sparsify_eps with Some e => e | None => Rmin (10 / sqrt (INR (g_n_vertices G))) 0.3 end in
  match mr_run sparsify eps downsampling reduction full reg_eps Or G U0 levels with
  | None => None
  | Some (Raise e) => Some (Raise e)
  | Some (Ok (done, g)) => Some (Ok (done ++ [g]))
  end.
