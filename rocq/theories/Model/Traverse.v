(** Model of the traversals and of subgraph extraction in pygsp/graphs/graph.py. *)
From Coq Require Import Reals Lra Lia List Arith Bool String ZArith.
From Verif.Base Require Import RSum Prelude.
From Verif.Model Require Import Sparse Graph.
Import ListNotations.
Open Scope R_scope.

(** Python's [set.pop()] removes an arbitrary element. The choice is an oracle that may depend on
    everything popped before ([hist], latest first) and on the current set (never empty). *)
Definition popper := list nat -> list nat -> nat.
Definition pop_ok (pop : popper) : Prop := forall hist s, s <> [] -> In (pop hist s) s.

(** [visited[v] = True]. *)
Definition mark (visited : nat -> bool) (v : nat) : nat -> bool :=
  fun u => if Nat.eqb u v then true else visited u.

(** [stack.update(l)] on a set represented by a duplicate-free list. *)
Fixpoint set_update (s l : list nat) : list nat :=
  match l with
  | [] => s
  | x :: l' => set_update (if existsb (Nat.eqb x) s then s else s ++ [x]) l'
  end.

(** The loop [while stack: ...] of graph.py:351-360 (with [only_new = false]) and of 491-501
    (with [only_new = true]: neighbours already visited are not pushed).  Returns the visited flags
    and the vertices visited by this loop, in order ([comp]); None when the fuel is exhausted. *)
Fixpoint visit (fuel : nat) (pop : popper) (only_new : bool) (nbrs : nat -> list nat)
         (hist : list nat) (visited : nat -> bool) (comp stack : list nat)
  : option ((nat -> bool) * list nat) :=
  match stack with
  | [] => Some (visited, comp)
  | _ :: _ =>
      match fuel with
      | O => None
      | S fuel' =>
          let v := pop hist stack in
          let stack' := remove Nat.eq_dec v stack in
          if visited v
          then visit fuel' pop only_new nbrs (v :: hist) visited comp stack'
          else
            let visited' := mark visited v in
            let new := if only_new then filter (fun u => negb (visited' u)) (nbrs v) else nbrs v in
            visit fuel' pop only_new nbrs (v :: hist) visited' (comp ++ [v]) (set_update stack' new)
      end
  end.

(** [W[v].nonzero()[1]] and [W.T[v].nonzero()[1]] (graph.py:359), [A[v, :].nonzero()[1]] (500). *)
Definition out_nbrs (W : csr R) (v : nat) : list nat :=
  filter (fun u => negb (Reqb (get W v u) 0)) (seq 0 (nrow W)).
Definition in_nbrs (W : csr R) (v : nat) : list nat :=
  filter (fun u => negb (Reqb (get W u v) 0)) (seq 0 (nrow W)).
Definition pos_nbrs (W : csr R) (v : nat) : list nat :=
  filter (fun u => adjb W v u) (seq 0 (nrow W)).

(** Enough steps for a traversal of n vertices; that it never runs out is proved. *)
Definition visit_fuel (n : nat) : nat := (S n * S n)%nat.

(** graph.py:347-364: one pass of [is_connected] over an adjacency matrix. *)
Definition all_reached (pop : popper) (n : nat) (nbrs : nat -> list nat) : option bool :=
  match visit (visit_fuel n) pop false nbrs [] (fun _ => false) [] [0%nat] with
  | Some (visited, _) => Some (nforall n visited)
  | None => None
  end.

(** graph.py:340-366 [is_connected] (the [_connected] cache is in Model.Cache).
    The two traversals may pop differently, hence two oracles.  On an empty graph
    [visited[0]] is out of bounds. None: out of fuel. *)
Definition is_connected (pop pop' : popper) (W : csr R) : option (res bool) :=
  if Nat.eqb (nrow W) 0 then Some (Raise IndexError)
  else
    match all_reached pop (nrow W) (out_nbrs W) with
    | None => None
    | Some false => Some (Ok false)
    | Some true =>
        if is_directed W
        then match all_reached pop' (nrow W) (in_nbrs W) with
             | None => None
             | Some b => Some (Ok b)
             end
        else Some (Ok true)
    end.

(** ** Subgraphs *)

(** The [vertices] argument: integers (negative ones count from the end) or a boolean mask. *)
Inductive vsel := VIdx (l : list Z) | VMask (m : list bool).

(** numpy/scipy index resolution against an axis of length n. *)
Definition resolve (n : nat) (s : vsel) : res (list nat) :=
  match s with
  | VIdx l =>
      if forallb (fun z => (Z.leb (- Z.of_nat n) z && Z.ltb z (Z.of_nat n))%bool) l
      then Ok (map (fun z => Z.to_nat (if Z.ltb z 0 then z + Z.of_nat n else z)%Z) l)
      else Raise IndexError
  | VMask m =>
      if Nat.eqb (List.length m) n then Ok (filter (fun i => nth i m false) (seq 0 n))
      else Raise IndexError
  end.

(** scipy fancy indexing of a CSR matrix, rows then columns: [W[v, :][:, v]] (graph.py:247).
    Stored entries of a selected row keep their order; an entry of a column selected several times
    is repeated. *)
Definition csr_select (W : csr R) (v : list nat) : csr R :=
  let k := List.length v in
  mkcsr k k (map (fun a =>
    flat_map (fun cv => map (fun b => (b, snd cv))
                          (filter (fun b => Nat.eqb (nth b v 0%nat) (fst cv)) (seq 0 k)))
             (row W a)) v).

(** Row selection [signal[vertices]] of an array given by its rows. *)
Definition rows_select {X} (d : X) (s : list X) (v : list nat) : list X :=
  map (fun i => nth i s d) v.

(** [coords[vertices]] / [signal[vertices]], with numpy's bound check. *)
Definition take_rows (s : rowarray) (sel : vsel) : res rowarray :=
  bindr (resolve (List.length s) sel) (fun v => Ok (rows_select [] s v)).

(** graph.py:252-254: the loop over the signals. *)
Fixpoint copy_signals (l : list (string * rowarray)) (sel : vsel) (G : graph) : res graph :=
  match l with
  | [] => Ok G
  | (name, s) :: l' =>
      bindr (take_rows s sel) (fun s' => bindr (set_signal G s' name) (fun G' => copy_signals l' sel G'))
  end.

(** graph.py:247-255 [subgraph]; plotting options not modelled. *)
Definition subgraph (G : graph) (sel : vsel) : res graph :=
  bindr (resolve (nrow (gW G)) sel) (fun v =>
  bindr (match g_coords G with
         | None => Ok None
         | Some c => bindr (take_rows c sel) (fun c' => Ok (Some c'))
         end) (fun coords =>
  bindr (graph_init (InCSR (cmap Fin (csr_select (gW G) v))) (g_lap_type G) coords) (fun G' =>
  copy_signals (g_signals G) sel G'))).

(** ** Components *)

Fixpoint insert (x : nat) (l : list nat) : list nat :=
  match l with
  | [] => [x]
  | y :: l' => if Nat.leb x y then x :: l else y :: insert x l'
  end.
(** [sorted(comp)] (graph.py:503). *)
Definition isort (l : list nat) : list nat := fold_right insert [] l.

(** graph.py:485-508: the outer loop. [np.nonzero(~visited)[0][[0]]] is the smallest unvisited vertex. *)
Fixpoint components_loop (fuel : nat) (pop : popper) (W : csr R) (visited : nat -> bool)
  : option (list (list nat)) :=
  match filter (fun v => negb (visited v)) (seq 0 (nrow W)) with
  | [] => Some []
  | v0 :: _ =>
      match fuel with
      | O => None
      | S fuel' =>
          match visit (visit_fuel (nrow W)) pop true (pos_nbrs W) [] visited [] [v0] with
          | None => None
          | Some (visited', comp) =>
              match components_loop fuel' pop W visited' with
              | None => None
              | Some cs => Some (isort comp :: cs)
              end
          end
      end
  end.

Fixpoint mapr {A B} (f : A -> res B) (l : list A) : res (list B) :=
  match l with
  | [] => Ok []
  | x :: l' => bindr (f x) (fun y => bindr (mapr f l') (fun ys => Ok (y :: ys)))
  end.

(** graph.py:469-508 [extract_components]: the subgraphs with their [info['orig_idx']].
    (The shape test of line 469 never fires: W is square.)  None: out of fuel. *)
Definition extract_components (pop : popper) (G : graph) : option (res (list (graph * list nat))) :=
  if is_directed (gW G) then Some (Raise NotImplementedError)
  else
    match components_loop (S (nrow (gW G))) pop (gW G) (fun _ => false) with
    | None => None
    | Some cs =>
        Some (mapr (fun c => bindr (subgraph G (VIdx (map Z.of_nat c))) (fun G' => Ok (G', c))) cs)
    end.
