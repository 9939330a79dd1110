(** The effects of the constructors on the arrays given by the caller.  numpy arrays are passed by
    reference, [np.asanyarray] and [csr_matrix(..., copy=False)] do not copy, and scipy's CSR
    routines work in place. *)
From Coq Require Import Reals Lra Lia List Arith Bool String.
From Verif.Base Require Import RSum Prelude.
From Verif.Spec Require Import Matrix.
From Verif.Model Require Import Sparse Graph Random Ring NNGraph IO.
Import ListNotations.
Open Scope R_scope.
Open Scope list_scope.

(** ** A CSR matrix in memory *)

(** The arrays of a scipy CSR matrix: [indptr], and [indices] and [data] zipped into one list (the
    routines below read and write both at the same positions).  The arrays may be longer than
    [indptr[-1]]. *)
Notation entry := (nat * xval)%type.
Definition dent : entry := (0%nat, Fin 0).
Record csr_mem := mkmem { m_nrow : nat; m_ncol : nat; m_ptr : list nat; m_ent : list entry }.
Definition slice {A} (s r : nat) (l : list A) : list A := firstn (r - s) (skipn s l).
Definition mem_row (p : list nat) (e : list entry) (i : nat) : list entry := slice (nth i p 0%nat) (nth (S i) p 0%nat) e.
(** the matrix the arrays stand for *)
Definition mem_csr (A : csr_mem) : csr xval :=
  mkcsr (m_nrow A) (m_ncol A) (map (mem_row (m_ptr A) (m_ent A)) (seq 0 (m_nrow A))).

(** scipy sparsetools csr.h, the loop common to csr_eliminate_zeros and csr_sum_duplicates: rows are
    compacted in place, [Ap[i+1]] overwritten with the running count [k].  [rowop row_end' row_end e k]
    treats one row and returns the arrays and the count. *)
Definition rowop := nat -> nat -> list entry -> nat -> list entry * nat.
Fixpoint csr_loop (op : rowop) (cnt i row_end : nat) (p : list nat) (e : list entry) (k : nat) : list nat * list entry :=
  match cnt with
  | O => (p, e)
  | S cnt' =>
      let re := nth (S i) p 0%nat in
      let ek := op re row_end e k in
      csr_loop op cnt' (S i) re (upd (S i) (snd ek) p) (fst ek) (snd ek)
  end.

(** csr_eliminate_zeros, one row: [while (jj < row_end) { if (x != 0) { Aj[nnz] = j; Ax[nnz] = x; nnz++; } jj++; }]. *)
Fixpoint elim_from (cnt jj : nat) (e : list entry) (k : nat) : list entry * nat :=
  match cnt with
  | O => (e, k)
  | S c => let x := nth jj e dent in
           if xiszero (snd x) then elim_from c (S jj) e k else elim_from c (S jj) (upd k x e) (S k)
  end.
Definition elim_row : rowop := fun re s e k => elim_from (re - s) s e k.

(** csr_sum_duplicates, one row: [while (jj < row_end && Aj[jj] == j) { x += Ax[jj]; jj++; }], then
    [Aj[nnz] = j; Ax[nnz] = x; nnz++]. *)
Fixpoint dup_absorb (cnt jj j : nat) (x : xval) (e : list entry) : nat * xval :=
  match cnt with
  | O => (jj, x)
  | S c => let y := nth jj e dent in
           if Nat.eqb (fst y) j then dup_absorb c (S jj) j (xadd x (snd y)) e else (jj, x)
  end.
Fixpoint dup_from (fuel jj re : nat) (e : list entry) (k : nat) : list entry * nat :=
  match fuel with
  | O => (e, k)
  | S f => if Nat.ltb jj re then
             let y := nth jj e dent in
             let jx := dup_absorb (re - S jj) (S jj) (fst y) (snd y) e in
             dup_from f (fst jx) re (upd k (fst y, snd jx) e) (S k)
           else (e, k)
  end.
Definition dup_row : rowop := fun re s e k => dup_from (re - s) s re e k.

(** csr_sort_indices: each row sorted by column, in place.  (std::sort leaves the order of equal
    columns open; here it is stable.) *)
Fixpoint einsert (x : entry) (l : list entry) : list entry :=
  match l with [] => [x] | y :: l' => if Nat.ltb (fst y) (fst x) then y :: einsert x l' else x :: l end.
Definition esort (l : list entry) : list entry := fold_right einsert [] l.
Definition sort_row (p : list nat) (e : list entry) (i : nat) : list entry :=
  let s := nth i p 0%nat in let r := nth (S i) p 0%nat in
  firstn s e ++ esort (slice s r e) ++ skipn r e.
Definition sort_rows (n : nat) (p : list nat) (e : list entry) : list entry := fold_left (sort_row p) (seq 0 n) e.

(** csr_has_canonical_format: strictly increasing columns in each row. *)
Fixpoint increasing (l : list nat) : bool :=
  match l with a :: (b :: _) as r => (Nat.ltb a b && increasing r)%bool | _ => true end.
Definition canonical_format (n : nat) (p : list nat) (e : list entry) : bool :=
  forallb (fun i => increasing (map fst (mem_row p e i))) (seq 0 n).

(** The graph's own csr_matrix: [indptr] is the caller's; [indices] and [data] are prefixes (views) of
    the caller's arrays, or copies. *)
Record shared := mkshared { s_ptr : list nat; s_ent : list entry; s_own : option (list entry) }.
Definition g_ent (st : shared) : list entry := match s_own st with Some e => e | None => s_ent st end.

(** scipy [prune]: keep the first [indptr[-1]] values; [_prune_array] copies them when they are fewer
    than half (rounded down) of the array they are a view of. *)
Definition prune (n : nat) (st : shared) : shared :=
  let k := nth n (s_ptr st) 0%nat in
  match s_own st with
  | Some e => mkshared (s_ptr st) (s_ent st) (Some (firstn k e))
  | None => if Nat.ltb k (List.length (s_ent st) / 2) then mkshared (s_ptr st) (s_ent st) (Some (firstn k (s_ent st))) else st
  end.
Definition in_place (n : nat) (f : list nat -> list entry -> list nat * list entry) (st : shared) : shared :=
  let pe := f (s_ptr st) (g_ent st) in
  prune n (match s_own st with
           | Some _ => mkshared (fst pe) (s_ent st) (Some (snd pe))
           | None => mkshared (fst pe) (snd pe) None
           end).

(** graph.py:121 [_adjacency < 0] (scipy: [sum_duplicates] unless in canonical format) and line 128
    [eliminate_zeros]. *)
Definition settle (n : nat) (st : shared) : shared :=
  let st := if canonical_format n (s_ptr st) (g_ent st) then st
            else in_place n (fun p e => csr_loop dup_row n 0 0 p (sort_rows n p e) 0) st in
  in_place n (fun p e => csr_loop elim_row n 0 0 p e 0) st.
(** graph.py:98-176 [Graph.__init__] on a CSR argument, with its effect: the graph, and the memory
    afterwards (of the caller, and of the graph where it has its own).  The caller's arrays own their
    memory (they are not views of larger arrays). *)
Definition graph_call (A : csr_mem) (lap : laptype) (coords : option rowarray) : res graph * shared :=
  let n := m_nrow A in
  let st0 := mkshared (m_ptr A) (m_ent A) None in
  if negb (Nat.eqb n (m_ncol A)) then (Raise ValueError, st0)                        (* lines 104-105 *)
  else
    let st := prune n st0 in                                                          (* line 109 *)
    let W0 := mem_csr (mkmem n n (s_ptr st) (g_ent st)) in
    if xisnan (xsum (data W0)) then (Raise ValueError, st)                            (* lines 111-112 *)
    else if xisinf (xsum (data W0)) then (Raise ValueError, st)                       (* lines 113-114 *)
    else
      let st := settle n st in                                                        (* lines 121-128 *)
      let W := cmap xreal (mem_csr (mkmem n n (s_ptr st) (g_ent st))) in
      (bindr (laplacian W lap) (fun L =>                                              (* line 172 *)
         Ok (mkgraph W (nrow W) (count_edges W) lap L coords [])), st).
(** What the caller holds afterwards. *)
Definition caller (A : csr_mem) (st : shared) : csr_mem := mkmem (m_nrow A) (m_ncol A) (s_ptr st) (s_ent st).
(** What the graph's W reads when the caller's arrays have become [e]. *)
Definition graph_W (n : nat) (st : shared) (e : list entry) : csr R :=
  cmap xreal (mem_csr (mkmem n n (s_ptr st) (match s_own st with Some o => o | None => e end))).

(** ** Other constructors *)

(** A location: whether the argument is an ndarray (passed by reference) or anything else (a list, a
    number: [np.asanyarray] makes a new array). *)
Inductive arg (A : Type) := ByRef (a : A) | ByValue (a : A).
Arguments ByRef {A}.
Arguments ByValue {A}.
Definition arg_val {A} (x : arg A) : A := match x with ByRef a | ByValue a => a end.
Definition arg_upd {A} (f : A -> A) (x : arg A) : arg A := match x with ByRef a => ByRef (f a) | ByValue a => ByValue a end.

(** stochasticblockmodel.py:113-114 [M = q; M.flat[::k+1] = p]: the diagonal of a k x k array. *)
Definition write_diag (k : nat) (pv : nat -> R) (q : arr) : arr :=
  mkarr (a_shape q)
    (map (fun t => if Nat.eqb (t / k) (t mod k) then (if a_int q then trunc (pv (t / k)%nat) else pv (t / k)%nat)
                   else nth t (a_data q) 0) (seq 0 (k * k))) (a_int q).
(** stochasticblockmodel.py:90-119: the argument q after the call, whatever its outcome. *)
Definition sbm_q_after (k : nat) (M : option (nat * nat * mat)) (p : arr) (q : option (arg arr)) : option (arg arr) :=
  match M, q with
  | None, Some q =>
      match sbm_p k p with
      | Ok pv =>
          if (negb (Nat.eqb (a_size (arg_val q)) 1) && shape_eqb (a_shape (arg_val q)) [k; k])%bool
          then Some (arg_upd (write_diag k pv) q) else Some q
      | Raise _ => Some q
      end
  | _, _ => q
  end.

(** randomring.py:40-41 [angles = np.asanyarray(angles); angles.sort()]: the argument after the call. *)
Definition ring_angles_after (angles : option (arg (list R))) : option (arg (list R)) :=
  match angles with Some a => Some (arg_upd rsort a) | None => None end.

(** nngraph.py:122-137 [Xout = self.Xin], [Xout = Xin - ...] if centred, [Xout *= scale / radius]: the N x d
    points of the caller after the call, for an array of floats.  NaN (0/0) or infinite when the
    radius is zero: None. *)
Definition nn_points_after (N d k : nat) (center rescale : bool) (X : arg mat) : arg (option mat) :=
  match X with
  | ByValue X => ByValue (Some X)
  | ByRef X =>
      if Nat.leb N k then ByRef (Some X)
      else if (negb center && rescale)%bool then
        ByRef (if Reqb (nn_radius N d X) 0 then None else Some (fun i c => X i c * (nn_scale N d / nn_radius N d X)))
      else ByRef (Some X)
  end.
