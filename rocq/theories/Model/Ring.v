(** Model of pygsp/graphs/randomring.py and lowstretchtree.py. *)
From Coq Require Import Reals List Arith Bool String.
From Coq Require Import List.
From Verif.Base Require Import RSum Prelude.
From Verif.Spec Require Import Matrix.
From Verif.Model Require Import Sparse Graph Utils Reduction.
Import ListNotations.
Open Scope R_scope.
Open Scope list_scope.

(** np.sort / ndarray.sort (randomring.py:38, 41), as insertion sort; NaNs are not modelled. *)
Fixpoint rinsert (x : R) (l : list R) : list R :=
  match l with [] => [x] | y :: l' => if Rltb y x then y :: rinsert x l' else x :: l end.
Definition rsort (l : list R) : list R := fold_right rinsert [] l.
(** randomring.py:51-60: the COO matrix (duplicate positions are summed) *)
Definition ring_upper (N : nat) (a : list R) : mat := fun i j =>
  (if (Nat.eqb j (S i) && Nat.ltb j N)%bool then nth j a 0 - nth i a 0 else 0) +
  (if (Nat.eqb i 0 && Nat.eqb j (N - 1))%bool then 2 * PI + nth 0 a 0 - nth (N - 1) a 0 else 0).
(** W.data.mean() (line 66): the sum of the matrix over its number of stored entries; the sparse additions of symmetrize store
    no zero *)
Definition stored_mean (N : nat) (W : mat) : R :=
  (\sum_(i < N) \sum_(j < N) W i j) / (\sum_(i < N) \sum_(j < N) (if Reqb (W i j) 0 then 0 else 1)).
(** randomring.py:33-75.  [draws]: the generator's answer to line 38.  The graph is built from the entries of W. *)
Definition RandomRing (N : nat) (angles : option (list R)) (draws : list R) (lap : laptype) : res graph :=
  let a := rsort (match angles with Some l => l | None => draws end) in
  let N := match angles with Some l => List.length l | None => N end in
  if (match angles with Some _ => existsb (fun x => (Rltb x 0 || negb (Rltb x (2 * PI)))%bool) a | None => false end) then Raise ValueError
  else if Nat.ltb N 3 then Raise ValueError
  else bindr (symmetrize (mkmarg true N N (ring_upper N a)) "triu"%string) (fun W =>
  let width := 2 * PI / INR N in
  if negb (Rltb (stored_mean N W - width) (1 / 10000000000)) then Raise AssertionError
  else graph_init (InDense [N; N] (map Fin (dense N (fun i j => if Reqb (W i j) 0 then 0 else width / W i j)))) lap
         (Some (map (fun x => [cos x; sin x]) a))).

(** ** lowstretchtree.py *)
Definition shift_pairs (d : nat) (l : list (nat * nat)) : list (nat * nat) := map (fun p => (fst p + d, snd p + d)%nat) l.
(** lowstretchtree.py:39-66, with q = 4**p *)
Definition lst_level (q : nat) (l : list (nat * nat)) : list (nat * nat) :=
  let a := (q - 1)%nat in let b := (Nat.div (5 * q + 1) 3 - 1)%nat in let c := (q + Nat.div (4 * q + 2) 3 - 1)%nat in let d := (3 * q)%nat in
  l ++ shift_pairs q l ++ shift_pairs (2 * q) l ++ shift_pairs (3 * q) l ++ [(a, b); (a, c); (c, d); (b, a); (c, a); (d, c)].
(** lowstretchtree.py:35-66 after the iterations p = 1..m: (ii, jj) zipped.  The third pair is (1, 1) in the source. *)
Fixpoint lst_pairs (m : nat) : list (nat * nat) :=
  match m with
  | O => [(0, 1); (0, 2); (1, 1); (2, 3); (2, 0); (3, 2)]%nat
  | S m' => lst_level (4 ^ (S m')) (lst_pairs m')
  end.
(** lowstretchtree.py:32-33, 68-72: (XCoords, YCoords) zipped; kron with ones(2) repeats the array *)
Fixpoint lst_xy (m : nat) : list (nat * nat) :=
  match m with
  | O => [(1, 1); (2, 1); (1, 2); (2, 2)]%nat
  | S m' => let l := lst_xy m' in let s := (2 ^ (S m'))%nat in
      l ++ map (fun p => (fst p + s, snd p)%nat) l ++ map (fun p => (fst p, snd p + s)%nat) l ++ map (fun p => (fst p + s, snd p + s)%nat) l
  end.
(** lowstretchtree.py:29-87: range(1, k) has k - 1 elements (none for k = 0); the shape is inferred from the largest indices *)
Definition LowStretchTree (k : nat) (lap : laptype) : res graph :=
  let l := lst_pairs (k - 1) in
  graph_init (InCOO (S (list_max (map fst l))) (S (list_max (map snd l))) (map (fun p => (p, Fin 1)) l)) lap
    (Some (map (fun p => [INR (fst p); INR (snd p)]) (lst_xy (k - 1)))).
(** lowstretchtree.py:79, for k >= 1 (4**(-1) is the float 0.25) *)
Definition lst_root (k : nat) : nat := (4 ^ (k - 1))%nat.
