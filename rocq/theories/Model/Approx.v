(** Model of the remaining functions of pygsp/filters/approximations.py: cheby_rect,
    compute_jackson_cheby_coeff, lanczos.  (lanczos_op is in PyCall.v.)  Exact real arithmetic. *)
From Coq Require Import Reals Lra Lia List Arith Bool String ZArith.
From Coq Require Import List.
From Verif.Base Require Import RSum Prelude.
From Verif.Spec Require Import Matrix NdArray.
From Verif.Model Require Import Sparse Graph Traverse Cache Filter Kernels.
Import ListNotations.
Open Scope R_scope.

(** approximations.py:157-161: one step of the recurrence on an N x Nv array; [factor] (line 151) is
    4/lmax L - 2 I. *)
Definition rect_factor (F : view) (x : mat) : mat := fun n v =>
  4 / v_lmax F * mulv (v_N F) (v_L F) (fun j => x j v) n - 2 * x n v.
Definition rect_step (F : view) (b1 b2 : R) (st : cheb_state) (k : nat) : cheb_state :=
  let new : mat := fun n v => rect_factor F (cs_cur st) n v - cs_old st n v in
  mkcs (cs_cur st) new (fun n v =>
    cs_r st n v + 2 / (INR k * PI) * (sin (INR k * b1) - sin (INR k * b2)) * new n v).
(** approximations.py:153-155 *)
Definition rect_init (F : view) (b1 b2 : R) (s : mat) : cheb_state :=
  let cur : mat := fun n v => rect_factor F s n v / 2 in
  mkcs s cur (fun n v => (b1 - b2) / PI * s n v + 2 / PI * (sin b1 - sin b2) * cur n v).

(** approximations.py:137-163 [cheby_rect] for a 1-D or 2-D signal.  [bounds] must be a list or an
    array of two numbers; np.arccos is NaN outside [-1,1] whereas Coq's acos is total, so the theorems
    take 0 <= bounds <= lmax. *)
Definition cheby_rect (F : view) (bounds : param) (s : arr) (order : nat) : res arr :=
  match bounds with
  | PyList [lo; hi] | NdArray [lo; hi] =>
      let b1 := acos (2 * lo / v_lmax F - 1) in
      let b2 := acos (2 * hi / v_lmax F - 1) in
      if negb (Nat.eqb (hd 0%nat (shape s)) (v_N F)) then Raise ValueError
      else let x : mat := fun n v => aget s (n :: match shape s with [_] => [] | _ => [v] end) in
           let st := fold_left (rect_step F b1 b2) (seq 2 (order - 1)) (rect_init F b1 b2 x) in
           match shape s with
           | [_] => Ok (Arr [v_N F] (fun idx => cs_r st (ix idx 0) 0%nat))
           | [_; Nv] => Ok (Arr [v_N F; Nv] (fun idx => cs_r st (ix idx 0) (ix idx 1)))
           | _ => Raise ValueError
           end
  | _ => Raise ValueError
  end.

(** approximations.py:215-220: the i-th Jackson damping factor. *)
Definition jackson_damping (m i : nat) : R :=
  let alpha := PI / (INR m + 2) in
  / sin alpha * ((1 - INR i / (INR m + 2)) * sin alpha * cos (INR i * alpha)
                 + / (INR m + 2) * cos alpha * sin (INR i * alpha)).
(** approximations.py:205-211 *)
Definition jackson_ch (f0 f1 : R) (i : nat) : R :=
  match i with
  | O => 2 / PI * (acos f0 - acos f1)
  | _ => 2 / (PI * INR i) * (sin (INR i * acos f0) - sin (INR i * acos f1))
  end.
(** approximations.py:188-225 [compute_jackson_cheby_coeff].  [raise ()] raises TypeError (an exception
    must derive from BaseException).  The caller's filter_bounds list is overwritten (lines 201-202): its
    final content is returned as well.  delta_lambda[0] = delta_lambda[1] divides by zero: not modelled
    beyond Coq's convention, the theorems assume a proper interval. *)
Definition compute_jackson_cheby_coeff (fb dl : R * R) (m : nat) : res ((list R * list R) * (R * R)) :=
  if (Rltb (fst fb) (fst dl) || Rltb (snd dl) (snd fb))%bool then Raise TypeError
  else if Rltb (snd dl) (fst dl) then Raise TypeError
  else
    let a1 := (snd dl - fst dl) / 2 in
    let a2 := (snd dl + fst dl) / 2 in
    let f0 := (fst fb - a2) / a1 in
    let f1 := (snd fb - a2) / a1 in
    Ok ((map (jackson_ch f0 f1) (seq 0 (S m)),
         map (fun i => jackson_ch f0 f1 i * jackson_damping m i) (seq 0 (S m))), (f0, f1)).

(** [M[i, j] = v] and [M[:, j] = q]. *)
Definition mset (A : mat) (i j : nat) (v : R) : mat := fun a b => if (Nat.eqb a i && Nat.eqb b j)%bool then v else A a b.
Definition colset (A : mat) (j : nat) (q : vec) : mat := fun a b => if Nat.eqb b j then q a else A a b.

(** The variables of [lanczos] for one start vector (M = 1): V is N x order, H is (order+1) x order. *)
Record lan_state := mklan { la_V : mat; la_H : mat; la_q : vec; la_r : vec }.
Definition vnorm (N : nat) (x : vec) : R := sqrt (normsq N x).
(** approximations.py:300-311 *)
Definition lan_init (N : nat) (A : mat) (x : vec) : lan_state :=
  let q : vec := fun i => x i / vnorm N x in
  let V := colset (fun _ _ => 0) 0 q in
  let r := mulv N A q in
  let h := \sum_(i < N) (q i * r i) in
  let r' : vec := fun i => r i - h * q i in
  mklan V (mset (mset (fun _ _ => 0) 0 0 h) 1 0 (vnorm N r')) q r'.
(** approximations.py:324-336, the loop body for k *)
Definition lan_step (N order : nat) (A : mat) (st : lan_state) (k : nat) : lan_state :=
  let H1 := mset (la_H st) (k - 1) k (la_H st k (k - 1)%nat) in
  let v := la_q st in
  let q : vec := fun i => la_r st i / H1 (k - 1)%nat k in
  let V := colset (la_V st) k q in
  let r := mulv N A q in
  let r1 : vec := fun i => r i - H1 (k - 1)%nat k * v i in
  let h := \sum_(i < N) (q i * r1 i) in
  let H2 := mset H1 k k h in
  let r2 : vec := fun i => r1 i - h * q i in
  let r3 : vec := fun i => r2 i - \sum_(j < order) (V i j * \sum_(a < N) (V a j * r2 a)) in
  mklan V (mset H2 (S k) k (vnorm N r3)) q r3.
(** np.spacing(1) *)
Definition spacing1 : R := / 2 ^ 52.
(** What lanczos returns: V with its number of columns, H with its numbers of rows and columns.
    The third value, [orth], is a diagnostic norm that is not modelled. *)
Record lan_result := mklanres { lr_V : mat; lr_cols : nat; lr_H : mat; lr_hrows : nat; lr_hcols : nat }.
(** approximations.py:316-341: k runs over the remaining iterations; on breakdown
    (lines 317-322) H is cut to k-1 rows and k columns, V to k columns. *)
Fixpoint lan_loop (N order : nat) (A : mat) (ks : list nat) (st : lan_state) : lan_result :=
  match ks with
  | [] => mklanres (la_V st) order (la_H st) order order
  | k :: ks' =>
      if Rleb (Rabs (la_H st k (k - 1)%nat)) spacing1
      then mklanres (la_V st) k (la_H st) (k - 1) k
      else lan_loop N order A ks' (lan_step N order A st k)
  end.
(** approximations.py:292-341 [lanczos] with a 1-D x (order >= 1). *)
Definition lanczos (N : nat) (A : mat) (order : nat) (x : vec) : lan_result :=
  lan_loop N order A (seq 1 (order - 1)) (lan_init N A x).

(** approximations.py:316-338, the loop body for k with M start vectors: [st j] holds the columns of V and H that belong to
    start vector j (columns j*order .. j*order+order-1), and its q and r.  Line 334 orthogonalises every r against the columns of
    all the start vectors. *)
Definition bl_step (N order M : nat) (A : mat) (st : nat -> lan_state) (k : nat) : nat -> lan_state :=
  let V := fun j => colset (la_V (st j)) k (fun i => la_r (st j) i / la_H (st j) k (k - 1)%nat) in
  fun j =>
  let H1 := mset (la_H (st j)) (k - 1) k (la_H (st j) k (k - 1)%nat) in
  let v := la_q (st j) in
  let q : vec := fun i => la_r (st j) i / H1 (k - 1)%nat k in
  let r := mulv N A q in
  let r1 : vec := fun i => r i - H1 (k - 1)%nat k * v i in
  let h := \sum_(i < N) (q i * r1 i) in
  let H2 := mset H1 k k h in
  let r2 : vec := fun i => r1 i - h * q i in
  let r3 : vec := fun i => r2 i - \sum_(b < M) \sum_(l < order) (V b i l * \sum_(a < N) (V b a l * r2 a)) in
  mklan (V j) (mset H2 (S k) k (vnorm N r3)) q r3.
(** approximations.py:343-345 [_sum_ind(np.arange(k), hiv)]: position c holds column (c / M) of start vector (c mod M). *)
Definition by_step (M : nat) (W : nat -> mat) : mat := fun i c => W (Nat.modulo c M) i (Nat.div c M).
(** V itself: position c holds column (c mod order) of start vector (c / order). *)
Definition by_start (order : nat) (W : nat -> mat) : mat := fun i c => W (Nat.div c order) i (Nat.modulo c order).
(** approximations.py:316-340.  On breakdown of the sum over the start vectors (lines 317-322) the columns are reordered; when only
    some of them break down line 326 divides zero by zero, every later r is NaN and so is what is returned: None.  Line 338 keeps the
    first [order] columns of H only. *)
Fixpoint bl_loop (N order M : nat) (A : mat) (ks : list nat) (st : nat -> lan_state) : option lan_result :=
  match ks with
  | [] => Some (mklanres (by_start order (fun j => la_V (st j))) (M * order) (by_start order (fun j => la_H (st j))) order order)
  | k :: ks' =>
      if Rleb (\sum_(j < M) Rabs (la_H (st j) k (k - 1)%nat)) spacing1
      then Some (mklanres (by_step M (fun j => la_V (st j))) (k * M) (by_step M (fun j => la_H (st j))) (k - 1) (k * M))
      else if forallb (fun j => negb (Reqb (la_H (st j) k (k - 1)%nat) 0)) (seq 0 M)
           then bl_loop N order M A ks' (bl_step N order M A st k) else None
  end.
(** approximations.py:292-341 [lanczos] with a 2-D x of M columns (order >= 1); a zero column is normalised to NaN (None). *)
Definition lanczos_block (N : nat) (A : mat) (order M : nat) (x : mat) : option lan_result :=
  if forallb (fun j => negb (Reqb (normsq N (fun i => x i j)) 0)) (seq 0 M)
  then bl_loop N order M A (seq 1 (order - 1)) (fun j => lan_init N A (fun i => x i j)) else None.
