(** Model of the random generators pygsp/graphs/{stochasticblockmodel,erdosrenyi,barabasialbert,randomregular}.py.
    The random generator is an oracle: theorems quantify over everything it may answer. *)
From Coq Require Import Reals Lra Lia List Arith Bool String.
From Coq Require Import List.
From Verif.Base Require Import RSum Prelude.
From Verif.Spec Require Import Matrix.
From Verif.Model Require Import Sparse Graph Traverse Utils Reduction.
Import ListNotations.
Open Scope R_scope.
Open Scope list_scope.

(** np.asanyarray(x): shape, entries in C order, integer dtype or not *)
Record arr := mkarr { a_shape : list nat; a_data : list R; a_int : bool }.
Definition a_size (x : arr) : nat := fold_right Nat.mul 1%nat (a_shape x).
Definition scalar (x : R) : arr := mkarr [] [x] false.
(** conversion of a float to an integer: towards zero *)
Definition trunc (x : R) : R := if Rltb x 0 then - IZR (Int_part (- x)) else IZR (Int_part x).
Definition shape_eqb (s t : list nat) : bool := if list_eq_dec Nat.eq_dec s t then true else false.

(** stochasticblockmodel.py:91-99 *)
Definition sbm_p (k : nat) (p : arr) : res (nat -> R) :=
  if Nat.eqb (a_size p) 1 then Ok (fun _ => nth 0 (a_data p) 0)
  else if shape_eqb (a_shape p) [k] then Ok (fun i => nth i (a_data p) 0) else Raise ValueError.
(** stochasticblockmodel.py:101-114, k >= 1 (k = 0 divides by zero, not modelled).  Line 113 does not copy: an integer q stays
    an integer array and line 114 truncates p. *)
Definition sbm_M (k : nat) (p : arr) (q : option arr) : res mat :=
  bindr (sbm_p k p) (fun pv =>
  let q := match q with Some q => q | None => scalar (0.3 / INR k) end in
  if Nat.eqb (a_size q) 1 then Ok (fun i j => if Nat.eqb i j then pv i else nth 0 (a_data q) 0)
  else if shape_eqb (a_shape q) [k; k]
  then Ok (fun i j => if Nat.eqb i j then (if a_int q then trunc (pv i) else pv i) else nth (i * k + j) (a_data q) 0)
  else Raise ValueError).
(** stochasticblockmodel.py:90-119: the matrix of probabilities and its shape; a given M of two dimensions *)
Definition sbm_probs (k : nat) (M : option (nat * nat * mat)) (p : arr) (q : option arr) : res (nat * nat * mat) :=
  bindr (match M with Some m => Ok m | None => bindr (sbm_M k p q) (fun m => Ok (k, k, m)) end) (fun m =>
  let '(a, b, m) := m in
  if nexists a (fun i => nexists b (fun j => Rltb (m i j) 0 || Rltb 1 (m i j))%bool) then Raise ValueError else Ok (a, b, m)).

(** M[z[row], z[col]], line 131 *)
Definition sbm_prob (z : list nat) (m : nat * nat * mat) (r c : nat) : res R :=
  let '(a, b, m) := m in
  match nth_error z r, nth_error z c with
  | Some x, Some y => if (Nat.ltb x a && Nat.ltb y b)%bool then Ok (m x y) else Raise IndexError
  | _, _ => Raise IndexError
  end.
(** lines 126-139: the pairs (nb_row, nb_col) in the order visited *)
Definition sbm_pairs (N : nat) : list (nat * nat) := flat_map (fun c => map (fun r => (r, c)) (seq 0 N)) (seq 0 N).
(** lines 129-130 *)
Definition sbm_eligible (directed self_loops : bool) (p : nat * nat) : bool :=
  ((negb (Nat.eqb (fst p) (snd p)) || self_loops) && (Nat.leb (snd p) (fst p) || directed))%bool.
(** lines 128-139; [u] answers rng.uniform(), [s] counts the draws *)
Fixpoint sbm_scan (z : list nat) (m : nat * nat * mat) (directed self_loops : bool) (u : nat -> R) (ps : list (nat * nat)) (s : nat)
  : res (list (nat * nat) * nat) :=
  match ps with
  | [] => Ok ([], s)
  | p :: ps' =>
      if sbm_eligible directed self_loops p then
        bindr (sbm_prob z m (fst p) (snd p)) (fun pr =>
        bindr (sbm_scan z m directed self_loops u ps' (S s)) (fun r =>
        Ok ((if Rltb (u s) pr then p :: fst r else fst r), snd r)))
      else sbm_scan z m directed self_loops u ps' s
  end.
(** csr_matrix((ones, (i, j))) of distinct pairs, line 141 *)
Definition pair_matrix (l : list (nat * nat)) : mat := fun i j =>
  if existsb (fun p => (Nat.eqb (fst p) i && Nat.eqb (snd p) j)%bool) l then 1 else 0.
(** lines 141-144 *)
Definition sbm_W (N : nat) (directed : bool) (l : list (nat * nat)) : res mat :=
  if directed then Ok (pair_matrix l) else symmetrize (mkmarg true N N (pair_matrix l)) "tril"%string.
Definition mat_init (N : nat) (W : mat) (lap : laptype) : res graph := graph_init (InDense [N; N] (map Fin (dense N W))) lap None.
(** lines 125-165.  None: out of fuel (possible only for n_try = None).  [pops] answers set.pop() in is_connected, per trial.
    When the loop body never runs, W is unbound at line 165.  Sparse storage is abstracted (the constructor drops stored zeros). *)
Fixpoint sbm_loop (fuel N : nat) (z : list nat) (m : nat * nat * mat) (directed self_loops connected : bool) (n_try : option nat) (lap : laptype)
  (u : nat -> R) (pops : nat -> popper * popper) (s : nat) : option (res graph) :=
  match fuel with
  | O => None
  | S fuel' =>
    match n_try with
    | Some O => Some (Raise (if connected then ValueError else UnboundLocalError))
    | _ =>
      match sbm_scan z m directed self_loops u (sbm_pairs N) s with
      | Raise e => Some (Raise e)
      | Ok (l, s') =>
        match sbm_W N directed l with
        | Raise e => Some (Raise e)
        | Ok W =>
          if negb connected then Some (mat_init N W lap)
          else match mat_init N W Combinatorial with
          | Raise e => Some (Raise e)
          | Ok G0 =>
            match is_connected (fst (pops fuel')) (snd (pops fuel')) (gW G0) with
            | None => None
            | Some (Raise e) => Some (Raise e)
            | Some (Ok true) => Some (mat_init N W lap)
            | Some (Ok false) => sbm_loop fuel' N z m directed self_loops connected (match n_try with Some n => Some (n - 1)%nat | None => None end) lap u pops s'
            end
          end
        end
      end
    end
  end.
(** stochasticblockmodel.py:61-165.  [zs] answers rng.integers(0, k, N).  A negative n_try is not modelled. *)
Definition SBM (fuel N k : nat) (z : option (list nat)) (M : option (nat * nat * mat)) (p : arr) (q : option arr)
  (directed self_loops connected : bool) (n_try : option nat) (lap : laptype)
  (zs : list nat) (u : nat -> R) (pops : nat -> popper * popper) : option (res graph) :=
  let z := match z with Some z => z | None => isort zs end in
  match sbm_probs k M p q with
  | Raise e => Some (Raise e)
  | Ok m => sbm_loop fuel N z m directed self_loops connected n_try lap u pops 0
  end.
(** erdosrenyi.py:40-61 *)
Definition ErdosRenyi (fuel N : nat) (p : arr) (directed self_loops connected : bool) (n_try : option nat) (lap : laptype)
  (zs : list nat) (u : nat -> R) (pops : nat -> popper * popper) : option (res graph) :=
  SBM fuel N 1 None None p None directed self_loops connected n_try lap zs u pops.

(** barabasialbert.py:55-56 *)
Definition ba_distr (N i : nat) (W : mat) : vec := fun v => \sum_(j < N) W v j + (if Nat.ltb v i then 1 else 0).
(** barabasialbert.py:61-63 *)
Definition ba_link (i : nat) (W : mat) (e : nat) : mat := fun a b =>
  if (Nat.eqb a i && Nat.eqb b e)%bool then 1 else if (Nat.eqb a e && Nat.eqb b i)%bool then 1 else W a b.
(** barabasialbert.py:55-63.  [choice] answers rng.choice(N, size=m, replace=False, p=p); when all the weights are zero p is NaN,
    which numpy rejects. *)
Definition ba_step (N : nat) (choice : nat -> vec -> list nat) (W : res mat) (i : nat) : res mat :=
  bindr W (fun W =>
  let d := ba_distr N i W in let total := \sum_(v < N) d v in
  if Reqb total 0 then Raise ValueError
  else Ok (fold_left (ba_link i) (choice i (fun v => d v / total)) W)).
(** barabasialbert.py:43-65 *)
Definition BarabasiAlbert (N m0 m : nat) (lap : laptype) (choice : nat -> vec -> list nat) : res graph :=
  if Nat.ltb m0 m then Raise ValueError
  else bindr (fold_left (ba_step N choice) (seq m0 (N - m0)) (Ok (fun _ _ => 0))) (fun W => mat_init N W lap).

(** randomregular.py:63 and 92: N copies of each half-edge, block after block *)
Definition rr_half_edges (N k : nat) : list nat := flat_map (fun _ => seq 0 N) (seq 0 k).
(** randomregular.py:100-101 *)
Definition rr_remove (U : list nat) (i1 i2 : nat) : list nat :=
  let a := Nat.min i1 i2 in let b := Nat.max i1 i2 in
  firstn a U ++ firstn (b - (a + 1)) (skipn (a + 1) U) ++ skipn (b + 1) U.
(** randomregular.py:96-97 *)
Definition rr_link (A : mat) (v1 v2 : nat) : mat := fun a b =>
  if ((Nat.eqb a v1 && Nat.eqb b v2) || (Nat.eqb a v2 && Nat.eqb b v1))%bool then 1 else A a b.
(** randomregular.py:71-101.  [d t n] answers the t-th rng.integers(0, n).  [flt]: after a restart (line 92) the half-edges are floats;
    [strict]: scipy rejects float indices ("Inexact indices into sparse matrices are not allowed"; older versions accept them).
    The result: adjacency, half-edges left, value of repetition.  None: out of fuel. *)
Fixpoint rr_loop (fuel N k max_iter : nat) (strict : bool) (d : nat -> nat -> nat) (t : nat) (U : list nat) (A : mat) (tested rep : nat) (flt : bool)
  : option (res (mat * list nat * nat)) :=
  match fuel with
  | O => None
  | S fuel' =>
    if (Nat.eqb (List.length U) 0 || Nat.leb max_iter rep)%bool then Some (Ok (A, U, rep))
    else
      let tested := S tested in
      let i1 := d t (List.length U) in let i2 := d (S t) (List.length U) in
      let v1 := nth i1 U 0%nat in let v2 := nth i2 U 0%nat in
      let failed := if Nat.eqb tested (N * k) then rr_loop fuel' N k max_iter strict d (S (S t)) (rr_half_edges N k) (fun _ _ => 0) 0 (S rep) true
                    else rr_loop fuel' N k max_iter strict d (S (S t)) U A tested rep flt in
      if Nat.eqb v1 v2 then failed
      else if (strict && flt)%bool then Some (Raise ValueError)
      else if Reqb (A v1 v2) 1 then failed
      else rr_loop fuel' N k max_iter strict d (S (S t)) (rr_remove U i1 i2) (rr_link A v1 v2) tested rep flt
  end.
(** randomregular.py:54-101 *)
Definition rr_run (fuel N k max_iter : nat) (strict : bool) (d : nat -> nat -> nat) : option (res (mat * list nat * nat)) :=
  if Nat.eqb (Nat.modulo (N * k) 2) 1 then Some (Raise ValueError)
  else rr_loop fuel N k max_iter strict d 0 (rr_half_edges N k) (fun _ _ => 0) 0 1 false.
(** randomregular.py:107-136 [is_regular]: the message it logs, if any.  [self.A] is the boolean matrix W > 0 (graph.py:725-727); the difference of
    two boolean sparse matrices is nonzero exactly where they differ; the reductions [A.max] and [np.min] of an empty array raise. *)
Definition is_regular (G : graph) : res (option string) :=
  let N := nrow (gW G) in
  let a := fun i j => if adjb (gW G) i j then 1%nat else 0%nat in
  let asym := nexists N (fun i => nexists N (fun j => negb (Nat.eqb (a i j) (a j i)))) in
  if Nat.eqb N 0 then Raise ValueError
  else
    let parallel := nexists N (fun i => nexists N (fun j => Nat.ltb 1 (a i j))) in
    let irregular := nexists N (fun i => negb (Reqb (deg (gW G) i) (deg (gW G) 0))) in
    let loops := nexists N (fun i => Nat.eqb (a i i) 1) in
    let msg := "The given matrix"%string in
    let msg := if asym then String.append msg " is not symmetric," else msg in
    let msg := if parallel then String.append msg " has parallel edges," else msg in
    let msg := if irregular then String.append msg " is not d-regular," else msg in
    let msg := if loops then String.append msg " has self loop." else msg in
    Ok (if (asym || parallel || irregular || loops)%bool
        then Some (String.append (String.substring 0 (String.length msg - 1) msg) ".") else None).
(** randomregular.py:49-105 *)
Definition RandomRegular (fuel N k max_iter : nat) (strict : bool) (lap : laptype) (d : nat -> nat -> nat) : option (res graph) :=
  match rr_run fuel N k max_iter strict d with
  | None => None
  | Some (Raise e) => Some (Raise e)
  | Some (Ok (A, _, _)) => Some (bindr (mat_init N A lap) (fun G => bindr (is_regular G) (fun _ => Ok G)))
  end.
