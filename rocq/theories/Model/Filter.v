(** Model of the graph Fourier transform (pygsp/graphs/fourier.py), of filter banks
    (pygsp/filters/filter.py) and of the Chebyshev machinery (pygsp/filters/approximations.py).
    Real arithmetic is exact; signals are real arrays. *)
From Coq Require Import Reals Lra Lia List Arith Bool String ZArith.
From Coq Require Import List.
From Verif.Base Require Import RSum Prelude.
From Verif.Spec Require Import Matrix NdArray.
From Verif.Model Require Import Sparse Graph Traverse Cache.
Import ListNotations.
Open Scope R_scope.

(** What the filtering code reads of a graph: G.N, G.L, G.lmax, G.e, G.U (the values the cache
    properties return; see Model/Cache.v for when they are available). *)
Record view := mkview { v_N : nat; v_L : mat; v_lmax : R; v_e : list R; v_U : mat }.

Definition view_of (s : cache) : option view :=
  match c_basis s, c_lmax s with
  | Some (e, U), Some (Fin l) => Some (mkview (c_N s) (c_L s) l e U)
  | _, _ => None
  end.

(** graph.py:632-640 [_check_signal]: [s.shape[0]] must be n_vertices (0-d: IndexError). *)
Definition check_arr (N : nat) (s : arr) : res arr :=
  match shape s with
  | [] => Raise IndexError
  | d :: _ => if Nat.eqb d N then Ok s else Raise ValueError
  end.

(** fourier.py:228-230 [gft]: tensordot(conj(U), s, ([0],[0])); U is real. *)
Definition gft (F : view) (s : arr) : res arr :=
  bindr (check_arr (v_N F) s) (fun s =>
  Ok (Arr (List.length (v_e F) :: tl (shape s))
          (fun idx => \sum_(i < v_N F) (v_U F i (hd 0%nat idx) * aget s (i :: tl idx))))).

(** fourier.py:263-264 [igft]: tensordot(U, s_hat, ([1],[0])); the signal is checked against
    n_vertices, and tensordot requires as many rows as U has columns. *)
Definition igft (F : view) (s : arr) : res arr :=
  bindr (check_arr (v_N F) s) (fun s =>
  if negb (Nat.eqb (hd 0%nat (shape s)) (List.length (v_e F))) then Raise ValueError
  else Ok (Arr (v_N F :: tl (shape s))
          (fun idx => \sum_(k < List.length (v_e F)) (v_U F (hd 0%nat idx) k * aget s (k :: tl idx))))).

(** A kernel maps the array of frequencies to an array of values, and may raise. *)
Definition kernel := list R -> res (list R).
(** The usual kernels are functions of the frequency, applied entrywise. *)
Definition pw (g : R -> R) : kernel := fun x => Ok (map g x).

(** filter.py:139-144 [evaluate] on a 1-D x: y[i] = kernel(x) needs the shape of x
    (numpy would also broadcast a length-one answer; not modelled: treated as an error). *)
Definition evaluate (ks : list kernel) (x : list R) : res (list (list R)) :=
  mapr (fun k => bindr (k x) (fun y =>
    if Nat.eqb (List.length y) (List.length x) then Ok y else Raise ValueError)) ks.

(** filter.py:267-286: the 3-D normalisation of the signal. *)
Definition to_3d (N Nf : nat) (s : arr) : res arr :=
  bindr (check_arr N s) (fun s =>
  let nd := List.length (shape s) in
  let lastd := last (shape s) 0%nat in
  bindr (if (Nat.eqb nd 1 || negb (Nat.eqb lastd 1 || Nat.eqb lastd Nf))%bool
         then if Nat.eqb nd 3 then Raise ValueError else Ok (expand_last s)
         else Ok s) (fun s =>
  let s := if Nat.ltb (List.length (shape s)) 3 then expand_1 s else s in
  if Nat.ltb 3 (List.length (shape s)) then Raise ValueError
  else if negb (Nat.eqb (List.length (shape s)) 3) then Raise AssertionError
  else Ok s)).

Definition ix (idx : list nat) (k : nat) : nat := nth k idx 0%nat.

(** filter.py:292-301: the exact branch on a 3-D signal. *)
Definition filter_exact3 (F : view) (ks : list kernel) (s : arr) : res arr :=
  let Nf := List.length ks in
  let n_in := ix (shape s) 2 in
  let n_out := if Nat.eqb n_in 1 then Nf else 1%nat in
  bindr (evaluate ks (v_e F)) (fun y =>
  let f (n i o : nat) : R :=                                   (* expand_dims(f.T, axis) *)
    if Nat.eqb n_in 1 then nth n (nth o y []) 0 else nth n (nth i y []) 0 in
  if negb (Nat.eqb (List.length (v_e F)) (v_N F) &&
           (if Nat.eqb n_in 1 then true else Nat.eqb n_in Nf))%bool
  then Raise AssertionError                                    (* 297 *)
  else
  bindr (gft F s) (fun sh =>
  let m := Arr [ix (shape sh) 0; ix (shape sh) 1; n_out]
               (fun idx => \sum_(i < n_in) (aget sh [ix idx 0; ix idx 1; i] * f (ix idx 0) i (ix idx 2))) in
  igft F m)).

(** approximations.py:34-55 [compute_cheby_coeff] for one kernel (filterbank_handler,
    utils.py:37-53, runs it once per kernel).  N=None and N=0 both mean m+1. *)
Definition cheby_nodes (lmax : R) (N : nat) : list R :=
  map (fun j => lmax / 2 * cos (PI * (INR j + /2) / INR N) + lmax / 2) (seq 0 N).
Definition cheby_coeff1 (lmax : R) (k : kernel) (m : nat) (N : option nat) : res (list R) :=
  let N := match N with Some (S p) => S p | _ => S m end in
  bindr (k (cheby_nodes lmax N)) (fun y =>
  if negb (Nat.eqb (List.length y) N) then Raise ValueError
  else Ok (map (fun o => 2 / INR N * \sum_(j < N) (nth j y 0 * cos (PI * INR o * (INR j + /2) / INR N)))
               (seq 0 (S m)))).
(** utils.py:37-53 with no i argument; a bank without kernels fails on _kernels[0]. *)
Definition compute_cheby_coeff (lmax : R) (ks : list kernel) (m : nat) (N : option nat) : res (list (list R)) :=
  match ks with
  | [] => Raise IndexError
  | _ => mapr (fun k => cheby_coeff1 lmax k m N) ks
  end.

(** approximations.py:98-112: one step of the recurrence, on arrays of N x Nv. *)
Record cheb_state := mkcs { cs_old : mat; cs_cur : mat; cs_r : mat }.
(** (1/a1) (L - a2 I) x *)
Definition shifted (F : view) (x : mat) : mat := fun n v =>
  (mulv (v_N F) (v_L F) (fun j => x j v) n - v_lmax F / 2 * x n v) / (v_lmax F / 2).
(** lines 98-103 *)
Definition cheb_init (F : view) (c : list (list R)) (s : mat) : cheb_state :=
  let cur := shifted F s in
  mkcs s cur (fun r v => let i := Nat.div r (v_N F) in let n := Nat.modulo r (v_N F) in
    / 2 * nth 0 (nth i c []) 0 * s n v + nth 1 (nth i c []) 0 * cur n v).
(** lines 107-112; [factor] is 2/a1 (L - a2 I) *)
Definition cheb_step (F : view) (c : list (list R)) (st : cheb_state) (k : nat) : cheb_state :=
  let new : mat := fun n v => 2 / (v_lmax F / 2) *
      (mulv (v_N F) (v_L F) (fun j => cs_cur st j v) n - v_lmax F / 2 * cs_cur st n v) - cs_old st n v in
  mkcs (cs_cur st) new (fun r v => let i := Nat.div r (v_N F) in let n := Nat.modulo r (v_N F) in
    cs_r st r v + nth k (nth i c []) 0 * new n v).

(** approximations.py:76-114 [cheby_op] for a 1-D or 2-D signal: the result has N*Nscales rows.
    Ragged coefficient lists raise; G.L.dot(signal) needs N rows. *)
Definition cheby_op (F : view) (c : list (list R)) (s : arr) : res arr :=
  let M := List.length (hd [] c) in
  if negb (forallb (fun l => Nat.eqb (List.length l) M) c) then Raise ValueError
  else if Nat.ltb M 2 then Raise TypeError
  else if negb (Nat.eqb (hd 0%nat (shape s)) (v_N F)) then Raise ValueError
  else let x : mat := fun n v => aget s (n :: match shape s with [_] => [] | _ => [v] end) in
       let st := fold_left (cheb_step F c) (seq 2 (M - 2)) (cheb_init F c x) in
       match shape s with
       | [_] => Ok (Arr [(v_N F * List.length c)%nat] (fun idx => cs_r st (ix idx 0) 0%nat))
       | [_; Nv] => Ok (Arr [(v_N F * List.length c)%nat; Nv] (fun idx => cs_r st (ix idx 0) (ix idx 1)))
       | _ => Raise ValueError
       end.

(** filter.py:307-311: analysis with the Chebyshev method. *)
Definition cheb_analysis (F : view) (c : list (list R)) (Nf : nat) (s : arr) : res arr :=
  let v := ix (shape s) 1 in
  bindr (cheby_op F c (Arr [ix (shape s) 0; v] (fun idx => aget s [ix idx 0; ix idx 1; 0%nat]))) (fun r =>
  (* reshape((N, Nf, v), order="F"), then swapaxes(1, 2) *)
  Ok (Arr [v_N F; v; Nf] (fun idx => aget r [(ix idx 0 + v_N F * ix idx 2)%nat; ix idx 1]))).

(** filter.py:313-322: synthesis, one cheby_op per filter, accumulated. *)
Definition cheb_synthesis (F : view) (c : list (list R)) (s : arr) : res arr :=
  let v := ix (shape s) 1 in
  let s_in (r j : nat) : R := aget s [Nat.modulo r (v_N F); j; Nat.div r (v_N F)] in
  bindr (fold_left (fun (acc : res mat) i =>
           bindr acc (fun acc =>
           bindr (cheby_op F [nth i c []]
                    (Arr [v_N F; v] (fun idx => s_in (i * v_N F + ix idx 0)%nat (ix idx 1)))) (fun r =>
           Ok (fun n j => acc n j + aget r [n; j]))))
         (seq 0 (ix (shape s) 2)) (Ok (fun _ _ => 0))) (fun acc =>
  Ok (Arr [v_N F; v; 1%nat] (fun idx => acc (ix idx 0) (ix idx 1)))).

Inductive fmethod := Exact | Chebyshev (order : nat) | OtherMethod (s : string).

(** filter.py:303-322. *)
Definition filter_cheb3 (F : view) (ks : list kernel) (order : nat) (s : arr) : res arr :=
  bindr (compute_cheby_coeff (v_lmax F) ks order None) (fun c =>
  if Nat.eqb (ix (shape s) 2) 1 then cheb_analysis F c (List.length ks) s
  else cheb_synthesis F c s).

(** filter.py:292-325 on a 3-D signal. *)
Definition filter3 (F : view) (ks : list kernel) (m : fmethod) (s : arr) : res arr :=
  match m with
  | Exact => filter_exact3 F ks s
  | Chebyshev order => filter_cheb3 F ks order s
  | OtherMethod _ => Raise ValueError
  end.

(** filter.py:267-328 [filter]. *)
Definition gfilter (F : view) (ks : list kernel) (m : fmethod) (s : arr) : res arr :=
  bindr (to_3d (v_N F) (List.length ks) s) (fun s =>
  bindr (filter3 F ks m s) (fun out => Ok (squeeze out))).

(** filter.py:332-336 [analyze]. *)
Definition analyze (F : view) (ks : list kernel) (m : fmethod) (s : arr) : res arr :=
  if (Nat.eqb (List.length (shape s)) 3 && negb (Nat.eqb (last (shape s) 0%nat) 1))%bool
  then Raise ValueError else gfilter F ks m s.
(** filter.py:343-348 [synthesize]. *)
Definition synthesize (F : view) (ks : list kernel) (m : fmethod) (s : arr) : res arr :=
  match shape s with
  | [] => Raise IndexError
  | sh => if Nat.eqb (last sh 0%nat) (List.length ks) then gfilter F ks m s else Raise ValueError
  end.

(** filter.py:389-391 [localize]; Python indexing accepts -N <= i < N. *)
Definition norm_index (N : nat) (i : Z) : res nat :=
  if (Z.leb 0 i && Z.ltb i (Z.of_nat N))%bool then Ok (Z.to_nat i)
  else if (Z.leb (- Z.of_nat N) i && Z.ltb i 0)%bool then Ok (Z.to_nat (i + Z.of_nat N))
  else Raise IndexError.
Definition delta (N i : nat) : arr := vec_arr N (fun j => if Nat.eqb j i then 1 else 0).
Definition localize (F : view) (ks : list kernel) (m : fmethod) (i : Z) : res arr :=
  bindr (norm_index (v_N F) i) (fun i =>
  bindr (gfilter F ks m (delta (v_N F) i)) (fun a =>
  Ok (Arr (shape a) (fun idx => sqrt (INR (v_N F)) * aget a idx)))).

(** filter.py:497-504 [estimate_frame_bounds]; x=None is 1000 samples of [0, lmax]. *)
Definition linspace (a b : R) (n : nat) : list R :=
  map (fun i => a + INR i * ((b - a) / INR (n - 1))) (seq 0 n).
Definition sumsq (y : list (list R)) (m : nat) : list R :=
  map (fun j => lsum (map (fun row => nth j row 0 * nth j row 0) y)) (seq 0 m).
Definition lmin (l : list R) : res R :=
  match l with [] => Raise ValueError | a :: r => Ok (fold_left Rmin r a) end.
Definition lmaxl (l : list R) : res R :=
  match l with [] => Raise ValueError | a :: r => Ok (fold_left Rmax r a) end.
Definition estimate_frame_bounds (F : view) (ks : list kernel) (x : option (list R)) : res (R * R) :=
  let x := match x with Some x => x | None => linspace 0 (v_lmax F) 1000 end in
  bindr (evaluate ks x) (fun y =>
  let s := sumsq y (List.length x) in
  bindr (lmin s) (fun a => bindr (lmaxl s) (fun b => Ok (a, b)))).

(** filter.py:599-600 [compute_frame]. *)
Definition compute_frame (F : view) (ks : list kernel) (m : fmethod) : res arr :=
  bindr (gfilter F ks m (mat_arr (v_N F) (v_N F) idm)) (fun a => reshape_cols (v_N F) (atrans a)).

(** filter.py:644-661 [complement]: one kernel. *)
Definition complement (ks : list kernel) (frame_bound : option R) : list kernel :=
  [fun x => bindr (evaluate ks x) (fun y =>
     let s := sumsq y (List.length x) in
     bindr (lmaxl s) (fun ymax =>
     match frame_bound with
     | None => Ok (map (fun v => sqrt (ymax - v)) s)
     | Some b => if Rltb b ymax then Raise ValueError else Ok (map (fun v => sqrt (b - v)) s)
     end))].

(** filter.py:752-757: the i-th dual kernel.  numpy's pinv of a column vector y is y^T/|y|^2
    (and 0 for y = 0): exact arithmetic, the relative cutoff never discards the only singular value. *)
Definition inverse_kernel (ks : list kernel) (i : nat) : kernel := fun x =>
  bindr (evaluate ks x) (fun y =>
  let s := sumsq y (List.length x) in
  Ok (map (fun j => if Reqb (nth j s 0) 0 then 0 else nth j (nth i y []) 0 / nth j s 0)
          (seq 0 (List.length x)))).
(** filter.py:739-759 [inverse]: the frame bounds are computed first (only to warn). *)
Definition inverse (F : view) (ks : list kernel) : res (list kernel) :=
  bindr (estimate_frame_bounds F ks None) (fun _ =>
  Ok (map (inverse_kernel ks) (seq 0 (List.length ks)))).

(** filter.py:87-88 [__getitem__] with an integer or a slice [start:stop] of Python integers;
    filter.py:90-94 [__add__] is [++]; 83-85 [__len__] is the length. *)
Definition slice_bound (n : nat) (z : Z) : nat :=
  Z.to_nat (if Z.ltb z 0 then Z.max 0 (z + Z.of_nat n) else Z.min z (Z.of_nat n)).
Inductive fkey := KInt (i : Z) | KSlice (a b : option Z).
Definition getitem (ks : list kernel) (key : fkey) : res (list kernel) :=
  match key with
  | KInt i => bindr (norm_index (List.length ks) i) (fun i =>
      match nth_error ks i with Some k => Ok [k] | None => Raise IndexError end)
  | KSlice a b =>
      let n := List.length ks in
      let lo := match a with Some z => slice_bound n z | None => 0%nat end in
      let hi := match b with Some z => slice_bound n z | None => n end in
      Ok (firstn (hi - lo) (skipn lo ks))
  end.
