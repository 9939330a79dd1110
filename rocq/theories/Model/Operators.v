(** Model of the constructor and the operators of pygsp/filters/filter.py: what a Filter stores, and [len],
    [[]], [+], call, [@] and [toarray] on it. *)
From Coq Require Import Reals List Arith Bool ZArith String.
From Verif.Base Require Import RSum Prelude LinAlg.
From Verif.Spec Require Import Matrix NdArray.
From Verif.Model Require Import Sparse Graph Traverse Cache Filter.
Import ListNotations.
Open Scope R_scope.

(** filter.py:56: what can be passed as [kernels].  A function is callable and not iterable.  Iterables: a
    list, a tuple, and an iterator or generator (iterable, no [len]).  Not modelled: numpy object arrays, and
    a Filter passed as the kernels of another. *)
Inductive kernels_arg :=
| OneKernel (k : kernel) | ListOf (l : list kernel) | TupleOf (l : list kernel) | IteratorOf (l : list kernel).

(** filter.py:63 [_kernels]: the container is kept as it was given. *)
Inductive container := CList | CTuple.
Record bank := mkbank { b_graph : view; b_kind : container; b_kernels : list kernel }.

(** filter.py:56-69 [Filter.__init__]: a single kernel is wrapped in a list; [len(kernels)] fails on an
    iterator. *)
Definition new_filter (G : view) (ks : kernels_arg) : res bank :=
  match ks with
  | OneKernel k => Ok (mkbank G CList [k])
  | ListOf l => Ok (mkbank G CList l)
  | TupleOf l => Ok (mkbank G CTuple l)
  | IteratorOf _ => Raise TypeError
  end.

(** filter.py:66-69, 83-85 [n_filters], [Nf] and [__len__]. *)
Definition n_filters (g : bank) : nat := List.length (b_kernels g).

(** What the container hands back: an element, or a container of the same kind. *)
Definition as_arg (c : container) (l : list kernel) : kernels_arg := match c with CList => ListOf l | CTuple => TupleOf l end.

(** filter.py:87-88 [__getitem__]. *)
Definition index (g : bank) (key : fkey) : res bank :=
  bindr (getitem (b_kernels g) key) (fun l =>
  match key, l with
  | KInt _, [k] => new_filter (b_graph g) (OneKernel k)
  | _, _ => new_filter (b_graph g) (as_arg (b_kind g) l)
  end).

(** filter.py:90-94 [__add__]: Python concatenates two lists or two tuples, and raises on one of each; when
    [__add__] answers NotImplemented and the other operand has no [__radd__], so does the expression. *)
Inductive operand := OFilter (g : bank) | OOther.
Definition plus (g : bank) (o : operand) : res bank :=
  match o with
  | OOther => Raise TypeError
  | OFilter h =>
      match b_kind g, b_kind h with
      | CList, CList => new_filter (b_graph g) (ListOf (b_kernels g ++ b_kernels h))
      | CTuple, CTuple => new_filter (b_graph g) (TupleOf (b_kernels g ++ b_kernels h))
      | _, _ => Raise TypeError
      end
  end.

(** filter.py:96-100 [__call__]: a graph re-targets the bank, anything else is evaluated. *)
Inductive call_arg := CGraph (G : view) | CValues (x : list R).
Inductive call_out := RBank (g : bank) | RValues (y : list (list R)).
Definition call (g : bank) (x : call_arg) : res call_out :=
  match x with
  | CGraph G => bindr (new_filter G (as_arg (b_kind g) (b_kernels g))) (fun h => Ok (RBank h))
  | CValues x => bindr (evaluate (b_kernels g) x) (fun y => Ok (RValues y))
  end.

(** filter.py:146 [filter] of the object, with its default method and order; 102-103 [__matmul__];
    105-110 [toarray]. *)
Definition default_method : fmethod := Chebyshev 30.
Definition filter_of (g : bank) (m : fmethod) (s : arr) : res arr := gfilter (b_graph g) (b_kernels g) m s.
Definition matmul (g : bank) (s : arr) : res arr := filter_of g default_method s.
Definition toarray (g : bank) : res arr := compute_frame (b_graph g) (b_kernels g) default_method.
