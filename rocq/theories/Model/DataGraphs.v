(** Model of the graphs built from packaged data files: pygsp/graphs/airfoil.py, logo.py, minnesota.py,
    nngraphs/bunny.py and the file branch of davidsensornet.py.  [utils.loadmat] (utils.py:56-81) is not
    modelled: the arrays of the file are arguments. *)
From Coq Require Import Reals List Arith Bool String ZArith.
From Verif.Base Require Import RSum Prelude LinAlg.
From Verif.Spec Require Import Matrix.
From Verif.Model Require Import Sparse Graph Generators NNGraph.
Import ListNotations.
Open Scope R_scope.

(** ** Airfoil *)
(** A pair of indices accepted by coo_matrix(shape=(n, n)). *)
Definition coo_index (n : nat) (p : Z * Z) : bool :=
  (Z.leb 0 (fst p) && Z.ltb (fst p) (Z.of_nat n) && (Z.leb 0 (snd p) && Z.ltb (snd p) (Z.of_nat n)))%bool.
(** airfoil.py:22-38 with n = 4253 vertices and m = 12289 pairs.  [np.reshape(_, m)] needs m indices; the
    indices of the file start at 1 (26-27); coo_matrix rejects negative and too large indices; A + A.T sums
    repeated entries, as the constructor of the graph does (29). *)
Definition Airfoil (n m : nat) (i_inds j_inds : list Z) (xy : rowarray) (lap : laptype) : res graph :=
  if negb (Nat.eqb (List.length i_inds) m && Nat.eqb (List.length j_inds) m)%bool then Raise ValueError
  else
    let E := combine (map (fun i => (i - 1)%Z) i_inds) (map (fun j => (j - 1)%Z) j_inds) in
    if negb (forallb (coo_index n) E) then Raise ValueError
    else
      let E := map (fun p => (Z.to_nat (fst p), Z.to_nat (snd p))) E in
      graph_init (InCOO n n (map (fun p => (p, Fin (1 / 2))) E ++ map (fun p => ((snd p, fst p), Fin (1 / 2))) E)) lap (Some xy).

(** ** Minnesota *)
(** The value of A[i, j] when A is stored as a list of entries. *)
Definition value_at (e : list (nat * nat * R)) (i j : nat) : R := lsum (coo_here i j e).
(** A[i, j] = 1 on a lil_matrix: minnesota.py:45-46 *)
Definition put_one (i j : nat) (e : list (nat * nat * R)) : list (nat * nat * R) :=
  (i, j, 1) :: filter (fun t => negb (Nat.eqb (fst (fst t)) i && Nat.eqb (snd (fst t)) j)%bool) e.
(** minnesota.py:50: the positions where A > 0; [astype(bool)] keeps them, and booleans act as 0 and 1 *)
Definition pair_eq : forall p q : nat * nat, {p = q} + {p <> q}.
Proof. intros [a b] [c d]. destruct (Nat.eq_dec a c) as [->|H]; [destruct (Nat.eq_dec b d) as [->|H]; [left; reflexivity|]|]; right; congruence. Defined.
Definition positive_positions (e : list (nat * nat * R)) : list (nat * nat) :=
  filter (fun p => Rltb 0 (value_at e (fst p) (snd p))) (nodup pair_eq (map fst e)).
(** minnesota.py:33-52 on the n x n sparse matrix A of the file; assigning to a missing row is an IndexError. *)
Definition Minnesota (n : nat) (A : list (nat * nat * R)) (xy : rowarray) (connected : bool) (lap : laptype) : res graph :=
  if connected then
    if Nat.leb n 354 then Raise IndexError
    else unit_init n (positive_positions (put_one 354 348 (put_one 348 354 A))) lap (Some xy)
  else graph_init (InCOO n n (map (fun t => (fst t, Fin (snd t))) A)) lap (Some xy).

(** ** Logo *)
(** logo.py:21-33: the graph, and the three index arrays of [info], counted from 0. *)
Definition Logo (n : nat) (W : list (nat * nat * R)) (coords : rowarray) (idx_g idx_s idx_p : list Z) (lap : laptype)
  : res (graph * (list Z * list Z * list Z)) :=
  bindr (graph_init (InCOO n n (map (fun t => (fst t, Fin (snd t))) W)) lap (Some coords)) (fun G =>
  Ok (G, (map (fun i => (i - 1)%Z) idx_g, map (fun i => (i - 1)%Z) idx_s, map (fun i => (i - 1)%Z) idx_p))).

(** ** Bunny *)
(** nngraphs/bunny.py:25-43, with the defaults of nngraph.py:92-107 for what is not given (k = 10, sigma
    estimated, 'average', 'euclidean', no FLANN). *)
Definition Bunny (N d : nat) (X : mat) (NN : nat -> list nat) (lap : laptype) : res graph :=
  NNGraph N d X "radius" false false 10 None (2 / 100) "average" NNGraph.Euclidean NN lap.

(** ** DavidSensorNet, N = 64 or 500 *)
(** davidsensornet.py:33-43 and 58: the file must announce N vertices *)
Definition david_file (N n announced : nat) (W : list (nat * nat * R)) (coords : rowarray) (lap : laptype) : res graph :=
  if negb (Nat.eqb announced N) then Raise AssertionError
  else graph_init (InCOO n n (map (fun t => (fst t, Fin (snd t))) W)) lap (Some coords).
