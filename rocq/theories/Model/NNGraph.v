(** Model of pygsp/graphs/nngraphs/nngraph.py.  Points are N rows of d >= 1 real columns.  Modelled: the scipy searches
    (use_flann=False, or neither pyflann nor scikit-learn importable).  Not modelled: the answers of pyflann and scikit-learn,
    floating-point overflow, plotting. *)
From Coq Require Import Reals List Arith Bool String.
From Coq Require Import List.
From Verif.Base Require Import RSum Prelude.
From Verif.Spec Require Import Matrix.
From Verif.Model Require Import Sparse Graph Reduction Random Utils.
Import ListNotations.
Open Scope R_scope.
Open Scope list_scope.

(** np.amax, np.amin of column c *)
Definition col_max (N : nat) (X : mat) (c : nat) : R := fold_left Rmax (map (fun i => X i c) (seq 1 (N - 1))) (X 0%nat c).
Definition col_min (N : nat) (X : mat) (c : nat) : R := fold_left Rmin (map (fun i => X i c) (seq 1 (N - 1))) (X 0%nat c).
(** nngraph.py:129-130 *)
Definition nn_center (N : nat) (center : bool) (X : mat) : mat :=
  if center then fun i c => X i c - (\sum_(k < N) X k c) / INR N else X.
(** nngraph.py:133-136 *)
Definition nn_radius (N d : nat) (X : mat) : R := 1 / 2 * sqrt (\sum_(c < d) ((col_max N X c - col_min N X c) * (col_max N X c - col_min N X c))).
Definition nn_scale (N d : nat) : R := Rpower (INR N) (1 / INR (Nat.min d 3)) / 10.
(** nngraph.py:129-137.  When all points coincide numpy divides by zero; the NaN it yields are rejected by KDTree. *)
Definition nn_points (N d : nat) (center rescale : bool) (X : mat) : res mat :=
  let Y := nn_center N center X in
  if rescale then if Reqb (nn_radius N d Y) 0 then Raise ValueError else Ok (fun i c => Y i c * (nn_scale N d / nn_radius N d Y))
  else Ok Y.
(** x ** p for x >= 0, p > 0 *)
Definition rpow (x p : R) : R := if Reqb x 0 then 0 else Rpower x p.
Inductive dist_type := Euclidean | Manhattan | MaxDist | MinkowskiD (order : R) | OtherDist.
(** nngraph.py:140-145 and the Minkowski metrics of scipy *)
Definition nn_dist (t : dist_type) (d : nat) (X : mat) (i j : nat) : R :=
  match t with
  | Euclidean => sqrt (\sum_(c < d) ((X i c - X j c) * (X i c - X j c)))
  | Manhattan => \sum_(c < d) Rabs (X i c - X j c)
  | MaxDist => fold_left Rmax (map (fun c => Rabs (X i c - X j c)) (seq 0 d)) 0
  | MinkowskiD p => rpow (\sum_(c < d) rpow (Rabs (X i c - X j c)) p) (1 / p)
  | OtherDist => 0
  end.
(** nngraph.py:208, 215, 232: KeyError of the dictionary, ValueError of scipy for an order below 1 (for NNtype 'radius' an order
    strictly between 0 and 1 is outside the model) *)
Definition nn_dist_check (t : dist_type) : res unit :=
  match t with OtherDist => Raise KeyError | MinkowskiD p => if Rltb p 1 then Raise ValueError else Ok tt | _ => Ok tt end.
(** the entries (i, j) and their distance, in either mode *)
Definition knn_pairs (N : nat) (NN : nat -> list nat) : list (nat * nat) := flat_map (fun i => map (fun j => (i, j)) (tl (NN i))) (seq 0 N).
(** query_ball_point (line 232) without the point itself (lines 254, 265, 274-275); the order of the answer is irrelevant *)
Definition ball_pairs (N : nat) (dist : nat -> nat -> R) (eps : R) : list (nat * nat) :=
  flat_map (fun i => map (fun j => (i, j)) (filter (fun j => negb (Nat.eqb j i)) (filter (fun j => Rleb (dist i j) eps) (seq 0 N)))) (seq 0 N).
(** np.mean of the distances: lines 219, 258 *)
Definition nn_mean (dist : nat -> nat -> R) (l : list (nat * nat)) : R := lsum (map (fun p => dist (fst p) (snd p)) l) / INR (List.length l).
(** nngraph.py:222-226, 279-283, 289: exp(-d^2/sigma).  sigma = 0 divides by zero: exp(-inf) = 0, and 0/0 = NaN is rejected by
    the constructor of the graph (every symmetrization keeps some of the NaN). *)
Definition nn_matrix (dist : nat -> nat -> R) (sigma : R) (l : list (nat * nat)) : res mat :=
  if Reqb sigma 0 then if existsb (fun p => Reqb (dist (fst p) (snd p)) 0) l then Raise ValueError else Ok (fun _ _ => 0)
  else Ok (fun i j => if existsb (fun p => (Nat.eqb (fst p) i && Nat.eqb (snd p) j)%bool) l then exp (- (dist i j * dist i j) / sigma) else 0).
(** nngraph.py:289-299 *)
Definition nn_finish (N d : nat) (Y : mat) (dist : nat -> nat -> R) (sigma : R) (l : list (nat * nat)) (sym : string) (lap : laptype) : res graph :=
  bindr (nn_matrix dist sigma l) (fun W => bindr (symmetrize (mkmarg true N N W) sym) (fun W =>
  graph_init (InDense [N; N] (map Fin (dense N W))) lap (Some (map (fun i => map (fun c => Y i c) (seq 0 d)) (seq 0 N))))).
(** nngraph.py:92-299.  [NN] answers the k-nearest-neighbour query on the transformed points.  For k = 0 scipy drops the axis indexed
    at lines 219 and 223. *)
Definition NNGraph (N d : nat) (X : mat) (nntype : string) (center rescale : bool) (k : nat) (sigma : option R) (eps : R) (sym : string)
  (t : dist_type) (NN : nat -> list nat) (lap : laptype) : res graph :=
  if Nat.leb N k then Raise ValueError
  else bindr (nn_points N d center rescale X) (fun Y =>
    let dist := nn_dist t d Y in
    if String.eqb nntype "knn" then bindr (nn_dist_check t) (fun _ =>
      if Nat.eqb k 0 then Raise IndexError
      else let l := knn_pairs N NN in nn_finish N d Y dist (match sigma with Some s => s | None => nn_mean dist l end) l sym lap)
    else if String.eqb nntype "radius" then bindr (nn_dist_check t) (fun _ =>
      let l := ball_pairs N dist eps in
      match sigma, l with
      | None, [] => Raise ValueError
      | None, _ => nn_finish N d Y dist (nn_mean dist l) l sym lap
      | Some s, _ => nn_finish N d Y dist s l sym lap
      end)
    else Raise ValueError).
