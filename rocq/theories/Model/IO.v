(** Model of pygsp/graphs/_io.py: breaking and joining signals, NetworkX and graph-tool import and
    export, the dispatch of save and load.  The attached signals are modelled here with their exact
    numpy shape, apart from the coarser [g_signals] of Model.Graph. *)
From Coq Require Import Reals List Arith Bool String Ascii Decimal DecimalString.
From Coq Require Import List.
From Verif.Base Require Import RSum Prelude.
From Verif.Model Require Import Sparse Graph.
Import ListNotations.
Open Scope R_scope.
Open Scope list_scope.

(** One entry of a signal along the vertex axis: a number, or a sub-array listed along its first axis. *)
Inductive cell := Leaf (x : xval) | Node (l : list cell).

(** A numpy array attached as a signal: the dimensions after the first, and one cell per vertex. *)
Record nd := mknd { nd_dims : list nat; nd_rows : list cell }.

(** The dictionary [G.signals], in insertion order. *)
Definition sigs := list (string * nd).

(** [cell[i]]. *)
Definition cell_nth (i : nat) (c : cell) : cell :=
  match c with Leaf x => Leaf x | Node l => nth i l (Leaf NaN) end.

(** [del d[k]]: KeyError if absent. *)
Definition dict_del {V} (k : string) (d : list (string * V)) : res (list (string * V)) :=
  match dict_get k d with
  | None => Raise KeyError
  | Some _ => Ok (filter (fun p => negb (String.eqb (fst p) k)) d)
  end.

(** [str(i)]. *)
Definition str (i : nat) : string := NilZero.string_of_uint (Nat.to_uint i).

(** _io.py:35 the name of column i of a broken signal. *)
Definition col_name (name : string) (i : nat) : string := (name ++ "_" ++ str i)%string.

(** _io.py:34 [signals[name].T[i]]: column i as a 1-D array. *)
Definition nd_col (s : nd) (i : nat) : nd := mknd [] (map (cell_nth i) (nd_rows s)).

(** _io.py:33-36: one iteration of _break_signals. *)
Definition break_one (d : res sigs) (name : string) : res sigs :=
  bindr d (fun d =>
  match dict_get name d with
  | None => Raise KeyError
  | Some s =>
      match nd_dims s with
      | [k] => dict_del name (fold_left (fun d i => dict_set (col_name name i) (nd_col s i) d) (seq 0 k) d)
      | _ => Ok d
      end
  end).

(** _io.py:30-36 [_break_signals]. *)
Definition break_signals (d : sigs) : res sigs := fold_left break_one (map fst d) (Ok d).

(** [name.rsplit("_", 1)[0]]: what precedes the last underscore, or the whole string. *)
Fixpoint before_last (s : string) : option string :=
  match s with
  | EmptyString => None
  | String c s' =>
      match before_last s' with
      | Some r => Some (String c r)
      | None => if Ascii.eqb c "_"%char then Some EmptyString else None
      end
  end.
Definition rsplit (s : string) : string := match before_last s with Some r => r | None => s end.

(** [sorted(names)]: lexicographic order of the characters. *)
Fixpoint sinsert (x : string) (l : list string) : list string :=
  match l with [] => [x] | y :: l' => if String.leb x y then x :: l else y :: sinsert x l' end.
Definition ssort (l : list string) : list string := fold_right sinsert [] l.

(** _io.py:40-45: the names grouped by base, in order of first appearance. *)
Definition group_names (names : list string) : list (string * list string) :=
  fold_left (fun j name =>
    let b := rsplit name in
    dict_set b (match dict_get b j with Some l => l | None => [] end ++ [name]) j) names [].

(** Two arrays have the same shape. *)
Definition same_shape (a b : nd) : bool :=
  ((if list_eq_dec Nat.eq_dec (nd_dims a) (nd_dims b) then true else false) &&
   Nat.eqb (List.length (nd_rows a)) (List.length (nd_rows b)))%bool.

(** _io.py:49 [np.stack(arrays, axis=1)]: ValueError unless all the shapes agree. *)
Definition stack1 (l : list nd) : res nd :=
  match l with
  | [] => Raise ValueError
  | a :: _ =>
      if forallb (same_shape a) l
      then Ok (mknd (List.length l :: nd_dims a)
                 (map (fun v => Node (map (fun s => nth v (nd_rows s) (Leaf NaN)) l)) (seq 0 (List.length (nd_rows a)))))
      else Raise ValueError
  end.

(** [[signals[n] for n in names]]. *)
Fixpoint lookup_all (d : sigs) (names : list string) : res (list nd) :=
  match names with
  | [] => Ok []
  | n :: r => match dict_get n d with None => Raise KeyError | Some s => bindr (lookup_all d r) (fun l => Ok (s :: l)) end
  end.

(** _io.py:46-52: one iteration of the second loop of _join_signals. *)
Definition join_one (d : res sigs) (g : string * list string) : res sigs :=
  bindr d (fun d =>
  if Nat.ltb 1 (List.length (snd g)) then
    let names := ssort (snd g) in
    bindr (lookup_all d names) (fun l =>
    bindr (stack1 l) (fun s =>
    fold_left (fun d n => bindr d (dict_del n)) names (Ok (dict_set (fst g) s d))))
  else Ok d).

(** _io.py:38-52 [_join_signals]. *)
Definition join_signals (d : sigs) : res sigs := fold_left join_one (group_names (map fst d)) (Ok d).

(** ** NetworkX *)

(** What the code uses of a nx.Graph / nx.DiGraph: the nodes in order with their numeric attributes, the
    edges with their "weight" attribute.  Nodes are numbered here; any hashable object could be. *)
Record nxgraph := mknx { nx_directed : bool; nx_nodes : list (nat * list (string * xval)); nx_edges : list (nat * nat * xval) }.

(** [float(x)] of a numpy value: the single number of an array of size one, TypeError otherwise. *)
Fixpoint cell_values (c : cell) : list xval :=
  match c with Leaf x => [x] | Node l => flat_map cell_values l end.
Definition convert (c : cell) : res xval :=
  match cell_values c with [x] => Ok x | _ => Raise TypeError end.

(** Mapping a function that may raise over a list (Python's comprehension). *)
Fixpoint mapres {A B} (f : A -> res B) (l : list A) : res (list B) :=
  match l with
  | [] => Ok []
  | a :: r => bindr (f a) (fun b => bindr (mapres f r) (fun s => Ok (b :: s)))
  end.

(** _io.py:129-135 [nodes()]: the attributes of one vertex. *)
Definition nx_attrs (S : sigs) (v : nat) : res (list (string * xval)) :=
  mapres (fun p => match nth_error (nd_rows (snd p)) v with
                   | None => Raise IndexError
                   | Some c => bindr (convert c) (fun x => Ok (fst p, x))
                   end) S.

(** [graph.add_edges_from]: the weight of an edge already there is replaced (unordered if undirected), a
    missing end point is added. *)
Definition same_edge (directed : bool) (e f : nat * nat) : bool :=
  ((Nat.eqb (fst e) (fst f) && Nat.eqb (snd e) (snd f)) ||
   (negb directed && Nat.eqb (fst e) (snd f) && Nat.eqb (snd e) (fst f)))%bool.
Definition nx_add_node (g : nxgraph) (v : nat) : nxgraph :=
  if existsb (fun p => Nat.eqb (fst p) v) (nx_nodes g) then g else mknx (nx_directed g) (nx_nodes g ++ [(v, [])]) (nx_edges g).
Fixpoint nx_put (directed : bool) (e : nat * nat * xval) (l : list (nat * nat * xval)) : list (nat * nat * xval) :=
  match l with
  | [] => [e]
  | f :: l' => if same_edge directed (fst e) (fst f) then (fst f, snd e) :: l' else f :: nx_put directed e l'
  end.
Definition nx_add_edge (g : nxgraph) (e : nat * nat * xval) : nxgraph :=
  let g := nx_add_node (nx_add_node g (fst (fst e))) (snd (fst e)) in
  mknx (nx_directed g) (nx_nodes g) (nx_put (nx_directed g) e (nx_edges g)).

(** _io.py:114-142 [to_networkx]: the exported graph, and the signals of [self] afterwards (they have been
    broken in place).  Not modelled: the graph's name. *)
Definition to_networkx (G : graph) (S : sigs) : res (nxgraph * sigs) :=
  bindr (break_signals S) (fun S' =>
  bindr (mapres (fun v => bindr (nx_attrs S' v) (fun a => Ok (v, a))) (seq 0 (g_n_vertices G))) (fun nodes =>
  bindr (get_edge_list (gW G)) (fun edges =>
  Ok (fold_left nx_add_edge (map (fun e => (fst e, Fin (snd e))) edges) (mknx (is_directed (gW G)) nodes []), S')))).

(** Position of a node in [list(G)]. *)
Fixpoint position (v : nat) (l : list nat) : nat :=
  match l with [] => 0%nat | a :: r => if Nat.eqb a v then 0%nat else S (position v r) end.

Definition xopp (x : xval) : xval := match x with Fin r => Fin (- r) | NaN => NaN | PInf => NInf | NInf => PInf end.

(** networkx 3 [to_scipy_sparse_array(G, weight=...)]: NetworkXError without nodes; an undirected edge is
    listed both ways, and a self-loop, then counted twice, is subtracted once. *)
Definition nx_coo (g : nxgraph) : list (nat * nat * xval) :=
  let idx := map (fun e => (position (fst (fst e)) (map fst (nx_nodes g)), position (snd (fst e)) (map fst (nx_nodes g)), snd e)) (nx_edges g) in
  if nx_directed g then idx
  else idx ++ map (fun e => (snd (fst e), fst (fst e), snd e)) idx ++
       map (fun e => (fst (fst e), fst (fst e), xopp (snd e))) (filter (fun e => Nat.eqb (fst (fst e)) (snd (fst e))) idx).

(** _io.py:285-295: the signals read from the node attributes; every attribute is a number here (a text
    attribute makes the assignment fail with ValueError). *)
Fixpoint upd {A} (i : nat) (a : A) (l : list A) : list A :=
  match l, i with [], _ => [] | _ :: r, O => a :: r | x :: r, S i => x :: upd i a r end.
Definition nx_read_attr (n i : nat) (S : list (string * list xval)) (a : string * xval) : list (string * list xval) :=
  let s := match dict_get (fst a) S with Some s => s | None => repeat NaN n end in
  dict_set (fst a) (upd i (snd a) s) S.
Definition nx_read (n : nat) (nodes : list (list (string * xval))) : list (string * list xval) :=
  fold_left (fun S p => fold_left (nx_read_attr n (fst p)) (snd p) S) (combine (seq 0 n) nodes) [].

(** _io.py:279-298 [from_networkx]. *)
Definition from_networkx (g : nxgraph) : res (graph * sigs) :=
  let n := List.length (nx_nodes g) in
  if Nat.eqb n 0 then Raise NetworkXError
  else bindr (graph_init (InCSR (csr_of_coo n n (nx_coo g))) Combinatorial None) (fun G =>
       bindr (join_signals (map (fun p => (fst p, mknd [] (map Leaf (snd p)))) (nx_read n (map snd (nx_nodes g))))) (fun S =>
       Ok (G, S))).

(** ** graph-tool *)

(** What the code uses of a graph_tool.Graph: vertices 0..gt_n-1, the edges with the "weight" property, the
    vertex properties. *)
Record gtgraph := mkgt { gt_directed : bool; gt_n : nat; gt_edges : list (nat * nat * xval); gt_props : list (string * list xval) }.

(** numpy [a[:] = b] for 1-D arrays: equal lengths, or b of length one (broadcast). *)
Definition np_assign (m : nat) (b : list xval) : res (list xval) :=
  if Nat.eqb (List.length b) m then Ok b
  else match b with [x] => Ok (repeat x m) | _ => Raise ValueError end.

(** The numbers of a signal that numpy assigns to a 1-D array: a 1-D one, or one whose axes but the last have length one
    (leading axes of length one are dropped); the others cannot be broadcast into the array: ValueError. *)
Definition flat1 (s : nd) : res (list xval) :=
  if forallb (Nat.eqb 1) (removelast (List.length (nd_rows s) :: nd_dims s))
  then Ok (flat_map cell_values (nd_rows s)) else Raise ValueError.

(** _io.py:202-217 [to_graphtool]: [add_edge_list] creates the vertices up to the largest index used by an
    edge; nothing else adds vertices. *)
Definition to_graphtool (G : graph) (S : sigs) : res (gtgraph * sigs) :=
  bindr (get_edge_list (gW G)) (fun edges =>
  let m := fold_left Nat.max (map (fun e => (Nat.max (fst (fst e)) (snd (fst e)) + 1)%nat) edges) 0%nat in
  bindr (break_signals S) (fun S' =>
  bindr (mapres (fun p => bindr (flat1 (snd p)) (fun b => bindr (np_assign m b) (fun b => Ok (fst p, b)))) S') (fun props =>
  Ok (mkgt (is_directed (gW G)) m (map (fun e => (fst e, Fin (snd e))) edges) props, S')))).

(** graph_tool.spectral.adjacency: entry (i,j) sums the weights of the edges j -> i, both ways if the graph is
    undirected; then an undirected self-loop is counted [loops] times (graph-tool documents 2). *)
Definition gt_adjacency (loops : nat) (g : gtgraph) : list (nat * nat * xval) :=
  let t := map (fun e => (snd (fst e), fst (fst e), snd e)) (gt_edges g) in
  if gt_directed g then t
  else filter (fun e => negb (Nat.eqb (fst (fst e)) (snd (fst e)))) (t ++ gt_edges g) ++
       flat_map (fun e => repeat e loops) (filter (fun e => Nat.eqb (fst (fst e)) (snd (fst e))) t).

(** [A.T]. *)
Definition coo_transpose (l : list (nat * nat * xval)) : list (nat * nat * xval) := map (fun e => (snd (fst e), fst (fst e), snd e)) l.

(** _io.py:359-372 [from_graphtool]. *)
Definition from_graphtool (loops : nat) (g : gtgraph) : res (graph * sigs) :=
  bindr (graph_init (InCOO (gt_n g) (gt_n g) (coo_transpose (gt_adjacency loops g))) Combinatorial None) (fun G =>
  bindr (mapres (fun p => bindr (check_signal G (snd p)) (fun s => Ok (fst p, mknd [] (map Leaf s)))) (gt_props g)) (fun S =>
  bindr (join_signals (fold_left (fun d p => dict_set (fst p) (snd p) d) S [])) (fun S =>
  Ok (G, S)))).

(** ** save and load *)

(** posixpath.splitext(path)[1]: what follows the last dot of the last component, that dot included, unless
    only dots precede it in the component. *)
Fixpoint last_component (s : string) : string :=
  match s with
  | EmptyString => EmptyString
  | String c s' => if existsb (Ascii.eqb "/"%char) (list_ascii_of_string s') then last_component s'
                   else if Ascii.eqb c "/"%char then s' else s
  end.
Fixpoint strip_dots (s : string) : string :=
  match s with String c s' => if Ascii.eqb c "."%char then strip_dots s' else s | EmptyString => EmptyString end.
Fixpoint from_last_dot (s : string) : string :=
  match s with
  | EmptyString => EmptyString
  | String c s' => if existsb (Ascii.eqb "."%char) (list_ascii_of_string s') then from_last_dot s'
                   else if Ascii.eqb c "."%char then s else EmptyString
  end.
Definition splitext (path : string) : string := from_last_dot (strip_dots (last_component path)).

(** _io.py:425-426, 532-533: [fmt] or [splitext(path)[1][1:]]. *)
Definition the_fmt (path : string) (fmt : option string) : string :=
  match fmt with Some f => f | None => match splitext path with String _ s => s | EmptyString => EmptyString end end.

(** _io.py:427, 534. *)
Definition fmt_ok (f : string) : bool := existsb (String.eqb f) ["graphml"; "gml"; "gexf"]%string.

Inductive backend := NetworkX | GraphTool.

(** _io.py:425-454 [load] and 532-560 [save]: [nx path fmt] and [gt path fmt] are the outcomes of
    load_networkx / save_networkx and load_graphtool / save_graphtool (they raise ImportError when the package is
    missing).  Returns the backends tried, in order, and the outcome. *)
Definition dispatch {A} (nx gt : string -> string -> res A) (path : string) (fmt backend_arg : option string)
  : list backend * res A :=
  let f := the_fmt path fmt in
  if negb (fmt_ok f) then ([], Raise ValueError)
  else match backend_arg with
  | Some b =>
      if String.eqb b "networkx" then ([NetworkX], nx path f)
      else if String.eqb b "graph-tool" then ([GraphTool], gt path f)
      else ([], Raise ValueError)
  | None =>
      match nx path f with
      | Raise ImportError => ([NetworkX; GraphTool], match gt path f with Raise ImportError => Raise ImportError | r => r end)
      | r => ([NetworkX], r)
      end
  end.
