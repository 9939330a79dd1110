(** Model of pygsp/reduction.py. *)
From Coq Require Import Reals Lra Lia List Arith Bool String.
From Coq Require Import List.
From Verif.Base Require Import RSum Prelude.
From Verif.Spec Require Import Matrix NdArray.
From Verif.Model Require Import Sparse Graph Filter.
Import ListNotations.
Open Scope R_scope.

(** np.setdiff1d(np.arange(n), ind): the other indices in increasing order (reduction.py:351). *)
Definition setdiff (n : nat) (ind : list nat) : list nat :=
  filter (fun v => negb (existsb (Nat.eqb v) ind)) (seq 0 n).
(** L[np.ix_(r, c)] *)
Definition ixm (L : mat) (r c : list nat) : mat := fun i j => L (nth i r 0%nat) (nth j c 0%nat).
(** reduction.py:353-358.  [X] is what spsolve(L_comp, L_out_in) answers. *)
Definition schur (n : nat) (L : mat) (ind : list nat) (X : mat) : mat := fun i j =>
  let comp := setdiff n ind in
  ixm L ind ind i j - \sum_(k < List.length comp) (ixm L ind comp i k * X k j).
(** np.spacing(1) and np.spacing(1000) *)
Definition spacing_1 : R := / 2 ^ 52.
Definition spacing_1000 : R := / 2 ^ 43.
(** reduction.py:361-362 *)
Definition sym_fix (m : nat) (A : mat) : mat :=
  if Rltb (\sum_(i < m) \sum_(j < m) Rabs (A i j - A j i)) (spacing_1 * \sum_(i < m) \sum_(j < m) Rabs (A i j))
  then (fun i j => (A i j + A j i) / 2) else A.
(** reduction.py:347-362, 379: [kron_reduction(L, ind)] of an n x n matrix (non-negative indices). *)
Definition kron_matrix (n : nat) (L : mat) (ind : list nat) (X : mat) : res mat :=
  if negb (forallb (fun v => Nat.ltb v n) ind) then Raise IndexError
  else Ok (sym_fix (List.length ind) (schur n L ind X)).
(** reduction.py:366-372.  Line 372 subtracts the vector [Wnew.diagonal()] from a matrix: numpy
    broadcasts it along the rows, entry (i,j) loses the j-th diagonal value. *)
Definition kron_weights (m : nat) (L : mat) : mat :=
  let W1 : mat := fun i j => (if Nat.eqb i j then L i i else 0) - L i j in
  let S : vec := fun j => L j j - \sum_(i < m) W1 i j in
  let W2 : mat := if Rleb spacing_1000 (sqrt (\sum_(j < m) (S j * S j)))
                  then (fun i j => W1 i j + if Nat.eqb i j then S i else 0) else W1 in
  fun i j => W2 i j - W2 j j.
(** an m x m matrix as the dense data of the Graph constructor *)
Definition dense (m : nat) (A : mat) : list R := flat_map (fun i => map (A i) (seq 0 m)) (seq 0 m).
(** reduction.py:336-381 [kron_reduction(G, ind)].  When a single vertex is kept, spsolve answers a 1-D array (line 358), so
    that Lnew is an np.matrix whose diagonal() is a matrix too: sparse.diags rejects it (ValueError, line 366).  [G.coords]
    raises AttributeError when the graph has no coordinates (line 374); coordinates are a 2-D array here. *)
Definition kron_reduction (G : graph) (ind : list nat) (X : mat) : res graph :=
  match g_lap_type G with
  | Combinatorial =>
      if is_directed (gW G) then Raise NotImplementedError
      else bindr (kron_matrix (g_n_vertices G) (gL G) ind X) (fun Lnew =>
        if Nat.eqb (List.length ind) 1 then Raise ValueError else
        match g_coords G with
        | None => Raise AttributeError
        | Some c =>
            if negb (forallb (fun v => Nat.ltb v (List.length c)) ind) then Raise IndexError
            else let m := List.length ind in
                 graph_init (InDense [m; m] (map Fin (dense m (kron_weights m Lnew)))) Combinatorial
                            (Some (map (fun v => nth v c []) ind))
        end)
  | _ => Raise NotImplementedError
  end.

(** numpy broadcasting of a binary operation (shapes aligned on the right, length-one axes repeated). *)
Fixpoint bshape_rev (a b : list nat) : option (list nat) :=
  match a, b with
  | [], l => Some l
  | l, [] => Some l
  | x :: a', y :: b' =>
      match bshape_rev a' b' with
      | None => None
      | Some l => if Nat.eqb x y then Some (x :: l) else if Nat.eqb x 1 then Some (y :: l)
                  else if Nat.eqb y 1 then Some (x :: l) else None
      end
  end.
Fixpoint bidx_rev (sh idx : list nat) : list nat :=
  match sh, idx with
  | d :: sh', i :: idx' => (if Nat.eqb d 1 then 0%nat else i) :: bidx_rev sh' idx'
  | _, _ => []
  end.
Definition bidx (sh idx : list nat) : list nat := rev (bidx_rev (rev sh) (rev idx)).
Definition broadcast (op : R -> R -> R) (a b : arr) : res arr :=
  match bshape_rev (rev (shape a)) (rev (shape b)) with
  | None => Raise ValueError
  | Some sh => Ok (Arr (rev sh) (fun idx => op (aget a (bidx (shape a) idx)) (aget b (bidx (shape b) idx))))
  end.

(** reduction.py:29-31: expand to three axes, swapaxes(1, 2), reshape(-1, s.shape[1], order="F"):
    entry (r, q) of the result is s[r mod a, q, r div a] for s of shape (a, b, c). *)
Definition stack_f (s : arr) : res arr :=
  let s3 := match shape s with
            | [] => Arr [] (aget s)                       (* expand_dims(s, 1) of a 0-d array raises *)
            | [_] => expand_1 (expand_1 s)
            | [_; _] => expand_1 s
            | _ => s
            end in
  match shape s3 with
  | [a; b; c] => if Nat.eqb b 0 then Raise ValueError
                 else Ok (Arr [(a * c)%nat; b] (fun idx =>
                        aget s3 [Nat.modulo (ix idx 0) a; ix idx 1; Nat.div (ix idx 0) a]))
  | _ => Raise ValueError
  end.
(** reduction.py:26-31 [_analysis(g, s, method=..., order=...)]. *)
Definition analysis (F : view) (ks : list kernel) (m : fmethod) (s : arr) : res arr :=
  bindr (gfilter F ks m s) stack_f.

(** [f_interpolated[keep_inds] = alpha] on zeros: the last of repeated indices wins. *)
Definition scatter (keep : list nat) (alpha : vec) : vec := fun v =>
  fold_left (fun acc i => if Nat.eqb (nth i keep 0%nat) v then alpha i else acc) (seq 0 (List.length keep)) 0.
(** L + reg_eps * eye(N) (reduction.py:177, 302) *)
Definition l_reg (L : mat) (reg_eps : R) : mat := fun i j => L i j + reg_eps * idm i j.
(** reduction.py:180, 304 *)
Definition green (reg_eps : R) : kernel := pw (fun x => 1 / (reg_eps + x)).
(** reduction.py:150-193 [interpolate(G, f, keep, order, reg_eps, method=...)].  [has_mr]: whether the
    graph has an attribute mr (line 178 reads it first).  mr is a dict: getattr never finds K_reg nor
    green_kernel in it, the fall-backs are always used. [X]: the answer of spsolve in kron_reduction. *)
Definition interpolate (F : view) (has_mr : bool) (f : arr) (keep : list nat) (m : fmethod) (reg_eps : R) (X : mat) : res arr :=
  if negb has_mr then Raise AttributeError
  else bindr (kron_matrix (v_N F) (l_reg (v_L F) reg_eps) keep X) (fun K =>
  let k := List.length keep in
  match shape f with
  | [d] => if negb (Nat.eqb d k) then Raise ValueError
           else let alpha : vec := fun i => \sum_(j < k) (K i j * aget f [j]) in
                analysis F [green reg_eps] m (Arr [v_N F] (fun idx => scatter keep alpha (ix idx 0)))
  | [d; nv] => if negb (Nat.eqb d k) then Raise ValueError
           else let alpha (v : nat) : vec := fun i => \sum_(j < k) (K i j * aget f [j; v]) in
                analysis F [green reg_eps] m (Arr [v_N F; nv] (fun idx => scatter keep (alpha (ix idx 1)) (ix idx 0)))
  | _ => Raise ValueError
  end).

(** One step of the pyramid: a graph (its view and whether it has [mr]), the indices kept in the next
    graph ([Gs[i+1].mr["idx"]]) and the solver's answer. *)
Record plevel := mkplevel { pl_view : view; pl_mr : bool; pl_idx : list nat; pl_X : mat }.
(** s[idx] for a 2-D s *)
Definition take_rows (s : arr) (idx : list nat) : res arr :=
  match shape s with
  | [d; c] => if forallb (fun v => Nat.ltb v d) idx
              then Ok (Arr [List.length idx; c] (fun ij => aget s [nth (ix ij 0) idx 0%nat; ix ij 1]))
              else Raise IndexError
  | _ => Raise IndexError
  end.
(** reduction.py:439-447: lists ca (without the first entry) and pe. [hs]: one filter per level; ma is the
    method and order _analysis gets, mi those interpolate gets. *)
Fixpoint pyr_loop (ma mi : fmethod) (ls : list (plevel * kernel)) (ca : arr) : res (list arr * list arr) :=
  match ls with
  | [] => Ok ([], [])
  | (l, h) :: ls' =>
      bindr (analysis (pl_view l) [h] ma ca) (fun s_low =>
      bindr (take_rows s_low (pl_idx l)) (fun ca' =>
      bindr (interpolate (pl_view l) (pl_mr l) ca' (pl_idx l) mi 0.005 (pl_X l)) (fun s_pred =>
      bindr (broadcast Rminus ca s_pred) (fun e =>
      bindr (pyr_loop ma mi ls' ca') (fun r => Ok (ca' :: fst r, e :: snd r))))))
  end.
(** reduction.py:420-434: the h_filters argument: absent, one function, or a list of functions. *)
Inductive harg := HDefault | HFun (h : kernel) | HList (hs : list kernel).
Definition h_list (h : harg) : list kernel :=
  match h with HDefault => [pw (fun x => 1 / (2 * x + 1))] | HFun h => [h] | HList hs => hs end.
Definition h_expand (h : harg) (levels : nat) : res (list kernel) :=
  match h_list h with
  | [h] => Ok (repeat h levels)
  | hs => if Nat.eqb (List.length hs) levels then Ok hs else Raise ValueError
  end.
(** reduction.py:384-449 [pyramid_analysis(Gs, f, h_filters=h, **kwargs)]; n0 = Gs[0].N, ls: the levels.
    The keywords method and order reach both _analysis and interpolate; an order that is not given is 30
    (filter.py:146) for the former and 100 (line 150) for the latter. *)
Inductive meth := MExact | MCheb | MOther (name : string).
Definition with_order (m : meth) (order : nat) : fmethod :=
  match m with MExact => Exact | MCheb => Chebyshev order | MOther s => OtherMethod s end.
Definition oget (o : option nat) (d : nat) : nat := match o with Some n => n | None => d end.
Definition pyramid_analysis (n0 : nat) (ls : list plevel) (f : arr) (h : harg) (m : meth) (order : option nat) : res (list arr * list arr) :=
  match shape f with
  | [] => Raise IndexError
  | d :: _ =>
      if negb (Nat.eqb d n0) then Raise ValueError
      else bindr (h_expand h (List.length ls)) (fun hs =>
           bindr (pyr_loop (with_order m (oget order 30)) (with_order m (oget order 100)) (combine ls hs) f) (fun r => Ok (f :: fst r, snd r)))
  end.
(** reduction.py:452, 501-531 [pyramid_synthesis(Gs, cap, pe, order=30, method=m, least_squares=ls)] over the levels from
    the coarsest; the list of approximations, coarsest first, is returned reversed.  With least_squares the name h_filters
    is unbound in the loop (line 522), after pe has been indexed. *)
Fixpoint syn_loop (m : fmethod) (least_squares : bool) (ls : list (plevel * option arr)) (ca : arr) : res (list arr) :=
  match ls with
  | [] => Ok []
  | (l, e) :: ls' =>
      if least_squares then match e with None => Raise IndexError | Some _ => Raise NameError end
      else bindr (interpolate (pl_view l) (pl_mr l) ca (pl_idx l) m 0.005 (pl_X l)) (fun s_pred =>
           match e with
           | None => Raise IndexError
           | Some e => bindr (broadcast Rplus s_pred e) (fun ca' =>
                       bindr (syn_loop m least_squares ls' ca') (fun r => Ok (ca' :: r)))
           end)
  end.
Definition pyramid_synthesis (ls : list plevel) (cap : arr) (pe : list arr) (m : meth) (order : option nat) (least_squares : bool) : res (arr * list arr) :=
  let es := map (fun i => nth_error pe i) (seq 0 (List.length ls)) in
  bindr (syn_loop (with_order m (oget order 30)) least_squares (rev (combine ls es)) cap) (fun r =>
  let ca := rev (cap :: r) in Ok (hd cap ca, ca)).
