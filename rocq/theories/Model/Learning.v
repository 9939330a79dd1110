(** Model of pygsp/learning.py. *)
From Coq Require Import Reals Lra Lia List Arith Bool ZArith.
From Coq Require Import List.
From Verif.Base Require Import RSum Prelude.
From Verif.Spec Require Import Matrix NdArray.
From Verif.Model Require Import Sparse Graph Filter.
Import ListNotations.
Open Scope R_scope.

(** The boolean mask as the number numpy multiplies with. *)
Definition mval (M : list bool) (i : nat) : R := if nth i M false then 1 else 0.
(** learning.py:353-354, the positions selected by the boolean arrays M and M == False. *)
Definition indl (M : list bool) : list nat := filter (fun v => nth v M false) (seq 0 (List.length M)).
Definition indu (M : list bool) : list nat := filter (fun v => negb (nth v M false)) (seq 0 (List.length M)).
(** learning.py:322 [y[M == False] = 0] *)
Definition zero_unlabelled (M : list bool) (y : vec) : vec := fun i => if nth i M false then y i else 0.
(** learning.py:326-327 *)
Definition tik_op (n : nat) (L : mat) (M : list bool) (tau : R) (x : vec) : vec := fun i => mval M i * x i + tau * mulv n L x i.
(** learning.py:356-357 *)
Definition Luu (L : mat) (M : list bool) : mat := fun k l => L (nth k (indu M) 0%nat) (nth l (indu M) 0%nat).
Definition Wul (L : mat) (M : list bool) : mat := fun k j => - L (nth k (indu M) 0%nat) (nth j (indl M) 0%nat).
(** learning.py:364-365 [sol = y.copy(); sol[indu] = part] *)
Definition assign (y : vec) (ind : list nat) (part : vec) : vec := fun v =>
  fold_left (fun acc i => if Nat.eqb (nth i ind 0%nat) v then part i else acc) (seq 0 (List.length ind)) (y v).
(** conversion of a float to an integer array's element: towards zero *)
Definition trunc (x : R) : R := if Rleb 0 x then IZR (Int_part x) else - IZR (Int_part (- x)).
Definition store (is_int : bool) (x : R) : R := if is_int then trunc x else x.

(** learning.py:256-367 [regression_tikhonov(G, y, M, tau)], sparse Laplacian. [sol j] is what cg (lines 335, 337) or spsolve
    (line 360) answers for column j.  [is_int]: y has an integer dtype (the tau = 0 branch writes into a copy of y).
    spsolve answers a 1-D array when the right-hand side has one column, which does not fit an (nu,1) selection unless nu = 1. *)
Definition regression_tikhonov (G : graph) (is_int : bool) (y : arr) (M : list bool) (tau : R) (sol : nat -> vec) : res arr :=
  let n := g_n_vertices G in
  if Rltb 0 tau then
    match shape y with
    | [d] => if negb (Nat.eqb d (List.length M)) then Raise IndexError
             else if negb (Nat.eqb d n) then Raise ValueError
             else Ok (Arr [n] (fun idx => sol 0%nat (ix idx 0)))
    | [d; c] => if negb (Nat.eqb d (List.length M)) then Raise IndexError
             else if negb (Nat.eqb d n) then Raise ValueError
             else Ok (Arr [n; c] (fun idx => sol (ix idx 1) (ix idx 0)))
    | [] => Raise IndexError
    | _ => Raise ValueError
    end
  else if negb (Nat.eqb (List.length M) n) then Raise ValueError
  else match shape y with
    | [d] => if negb (Nat.eqb d n) then Raise IndexError
             else Ok (Arr [n] (fun idx => assign (fun v => aget y [v]) (indu M) (fun k => store is_int (sol 0%nat k)) (ix idx 0)))
    | [d; c] => if negb (Nat.eqb d n) then Raise IndexError
             else if (Nat.eqb c 1 && negb (Nat.eqb (List.length (indu M)) 1))%bool then Raise ValueError
             else Ok (Arr [n; c] (fun idx => assign (fun v => aget y [v; ix idx 1]) (indu M) (fun k => store is_int (sol (ix idx 1) k)) (ix idx 0)))
    | [] => Raise IndexError
    | _ => Raise ValueError
    end.

(** learning.py:36-39 [_to_logits] of non-negative integers: np.max of an empty array raises. *)
Definition to_logits (x : list nat) : res arr :=
  match x with
  | [] => Raise ValueError
  | _ => Ok (Arr [List.length x; S (list_max x)] (fun idx => if Nat.eqb (ix idx 1) (nth (ix idx 0) x 0%nat) then 1 else 0))
  end.
(** lines 250-251: the labels with 0 off the mask *)
Definition mask_labels (M : list bool) (y : list nat) : list nat :=
  map (fun i => if nth i M false then nth i y 0%nat else 0%nat) (seq 0 (List.length y)).
(** learning.py:183-253 [classification_tikhonov(G, y, M, tau)] for class numbers y. *)
Definition classification_tikhonov (G : graph) (y : list nat) (M : list bool) (tau : R) (sol : nat -> vec) : res arr :=
  if negb (Nat.eqb (List.length y) (List.length M)) then Raise IndexError
  else bindr (to_logits (mask_labels M y)) (fun Y => regression_tikhonov G false Y M tau sol).

(** ** classification_tikhonov_simplex *)
(** learning.py:126-127; [idx]: the argsort of the row y *)
Definition tail_sum (f : nat -> R) (k d : nat) : R := \sum_(i < d - k) f (k + i)%nat.
Definition evalpL (d : nat) (y : vec) (idx : list nat) (k : nat) : R :=
  tail_sum (fun i => y (nth i idx 0%nat) - y (nth k idx 0%nat)) k d - 1.
(** learning.py:137-146, the while loop; None: fuel exhausted *)
Fixpoint bisect (fuel d : nat) (y : vec) (idx : list nat) (lo hi : nat) : option nat :=
  match fuel with
  | O => None
  | S fuel' =>
      if Nat.ltb 1 (hi - lo) then
        let mid := Nat.div (lo + hi) 2 in
        if Rltb 0 (evalpL d y idx mid) then bisect fuel' d y idx mid hi else bisect fuel' d y idx lo mid
      else Some hi
  end.
(** learning.py:129-146 *)
Definition bisectsearch (fuel d : nat) (y : vec) (idx : list nat) : option nat :=
  if Rltb (evalpL d y idx 0) 0 then Some 0%nat else bisect fuel d y idx 0 (d - 1).
(** learning.py:148-151, for d >= 1 columns *)
Definition proj_row (fuel d : nat) (y : vec) (idx : list nat) : option vec :=
  match bisectsearch fuel d y idx with
  | None => None
  | Some k =>
      let lam := (tail_sum (fun i => y (nth i idx 0%nat)) k d - 1) / INR (d - k) in
      Some (fun i => Rmax 0 (y i - lam))
  end.

(** lines 116-119: the masked logits (row i, class c) *)
Definition masked_logits (M : list bool) (y : list nat) : mat := fun i c =>
  if nth i M false then (if Nat.eqb c (nth i y 0%nat) then 1 else 0) else 0.
(** learning.py:160-164 [smooth_eval] on an n x d matrix *)
Definition smooth_eval (n d : nat) (L : mat) (M : list bool) (Y : mat) (tau : R) (x : mat) : R :=
  tau * (\sum_(i < n) \sum_(c < d) (x i c * mulv n L (fun j => x j c) i)) +
  \sum_(i < n) \sum_(c < d) ((mval M i * (mval M i * x i c - Y i c)) * (mval M i * (mval M i * x i c - Y i c))).
(** learning.py:166-167 [smooth_grad] *)
Definition smooth_grad (n : nat) (L : mat) (M : list bool) (Y : mat) (tau : R) (x : mat) : mat := fun i c =>
  2 * (mval M i * (mval M i * x i c - Y i c) + tau * mulv n L (fun j => x j c) i).
(** learning.py:177 *)
Definition fb_step (tau lmax : R) : R := 0.5 / (1 + tau * lmax).
(** learning.py:111-119, 177-179: the problem handed to pyunlocbox: the starting point and the step. [avail]: pyunlocbox can be imported. *)
Definition simplex_problem (avail : bool) (y : list nat) (M : list bool) (tau lmax : R) : res (nat * mat * R) :=
  if negb avail then Raise ImportError
  else if Rleb tau 0 then Raise ValueError
  else if negb (Nat.eqb (List.length y) (List.length M)) then Raise IndexError
  else match y with
       | [] => Raise ValueError
       | _ => Ok (S (list_max (mask_labels M y)), masked_logits M y, fb_step tau lmax)
       end.
