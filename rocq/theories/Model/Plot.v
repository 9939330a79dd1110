(** Model of the numerical part of pygsp/plotting.py: what [G.plot] checks and computes before it calls a
    plotting library.  The drawing itself is in Figures.v.
    Not modelled: colour names, titles. *)
From Coq Require Import Reals List Arith Bool String.
From Coq Require Import List.
From Verif.Base Require Import RSum Prelude.
From Verif.Spec Require Import NdArray.
From Verif.Model Require Import Sparse Graph Ring.
Import ListNotations.
Open Scope R_scope.
Open Scope list_scope.

(** An argument that can be left out, a number, or an array of numbers (shape, values in C order). *)
Inductive parg := Missing | Number (x : R) | Values (sh : list nat) (data : list R).

(** [x.min()], [x.max()]: ValueError on an empty array. *)
Definition np_min (x : list R) : res R := match x with [] => Raise ValueError | a :: l => Ok (fold_left Rmin l a) end.
Definition np_max (x : list R) : res R := match x with [] => Raise ValueError | a :: l => Ok (fold_left Rmax l a) end.

(** plotting.py:443-451 [check_shape]; [sh] is the shape after squeeze. *)
Definition check_shape (sh : list nat) (length : nat) (many : bool) : res unit :=
  match sh with
  | [] => Raise ValueError
  | d :: r => if negb (Nat.eqb d length) then Raise ValueError
              else if (negb many && negb (Nat.eqb (List.length r) 0))%bool then Raise ValueError else Ok tt
  end.

(** plotting.py:453-464 [normalize]. *)
Definition normalize (intercept : R) (x : list R) : res (list R) :=
  bindr (np_min x) (fun mn => bindr (np_max x) (fun mx =>
  let ptp := mx - mn in
  if Reqb ptp 0 then Ok (map (fun _ => 1 / 2) x)
  else Ok (map (fun v => (1 - intercept) * (v - mn) / ptp + intercept) x))).

(** One value for all, or one each. *)
Inductive sizes := One (x : R) | Each (l : list R).

(** plotting.py:493-498: the vertex sizes; [base] is G.plotting["vertex_size"]. *)
Definition vertex_sizes (base intercept : R) (N : nat) (a : parg) : res sizes :=
  match a with
  | Missing => Ok (One base)
  | Number x => Ok (One x)
  | Values sh x => bindr (check_shape (drop1 sh) N false) (fun _ => bindr (normalize intercept x) (fun y =>
                   Ok (Each (map (fun v => base * 4 * v ^ 2) y))))
  end.

(** plotting.py:466-477 [is_color] on an array of numbers ([mpl]: the backend is matplotlib).  matplotlib's [is_color_like]
    takes three or four numbers between 0 and 1 (also as an array of one row) for an RGB or RGBA colour; the second attempt takes an
    array all of whose items are colours, hence also an array without items. *)
Definition rgb_shape (sh : list nat) : bool :=
  existsb (fun k => existsb (fun c => if list_eq_dec Nat.eq_dec sh c then true else false) [[k]; [1%nat; k]]) [3%nat; 4%nat].
Definition unit_values (x : list R) : bool := forallb (fun v => Rleb 0 v && Rleb v 1)%bool x.
Definition is_color (mpl : bool) (sh : list nat) (x : list R) : bool :=
  (mpl && (rgb_shape sh && unit_values x ||
           match sh with [] => false | 0%nat :: _ => true | _ :: r => rgb_shape r && unit_values x end))%bool.

(** What is painted: the default colour, colours given by the caller, or one value per item. *)
Inductive paint := Default | Colours (sh : list nat) (x : list R) | Graded (l : list R).

(** plotting.py:503-513: the opacity of the edges when [edge_color] is an array of values.  A number is no colour: it is squeezed to
    a 0-dimensional array and rejected. *)
Definition edge_opacity (mpl : bool) (intercept : R) (Ne : nat) (a : parg) : res paint :=
  match a with
  | Missing => Ok Default
  | Number _ => Raise ValueError
  | Values sh x => if is_color mpl sh x then Ok (Colours sh x) else
                   bindr (check_shape (drop1 sh) Ne false) (fun _ => bindr (normalize intercept x) (fun y =>
                   Ok (Graded (map (fun v => 9 / 10 * v) y))))
  end.

(** plotting.py:515-520: the edge widths; [base] is G.plotting["edge_width"]. *)
Definition edge_widths (base intercept : R) (Ne : nat) (a : parg) : res sizes :=
  match a with
  | Missing => Ok (One base)
  | Number x => Ok (One x)
  | Values sh x => bindr (check_shape (drop1 sh) Ne false) (fun _ => bindr (normalize intercept x) (fun y =>
                   Ok (Each (map (fun v => base * 2 * v) y))))
  end.

(** plotting.py:479-491, 522-523: the values coloured and the limits of the colour scale. *)
Definition colour (mpl : bool) (N : nat) (one_dim : bool) (a : parg) (limits : option (R * R)) : res (paint * (R * R)) :=
  match a with
  | Missing => Ok (Default, (0, 0))
  | Number _ => Raise ValueError
  | Values sh x => if is_color mpl sh x then Ok (Colours sh x, (0, 0)) else bindr (check_shape (drop1 sh) N one_dim) (fun _ =>
      match limits with
      | Some l => Ok (Graded x, l)
      | None => bindr (np_min x) (fun mn => bindr (np_max x) (fun mx => Ok (Graded x, (1.05 * mn, 1.05 * mx))))
      end)
  end.

(** plotting.py:698, in _qtg_plot_signal: the position in the colour map, which goes from 1 to 64. *)
Definition qtg_colour (limits : R * R) (v : R) : R := 1 + 63 * (v - fst limits) / snd limits - fst limits.

Record drawing := mkdrawing {
  d_colour : paint; d_limits : R * R; d_sizes : sizes; d_edges : bool;
  d_opacity : paint; d_widths : sizes }.

(** The parameters of G.plotting used here (graph.py:146-154). *)
Record pparams := mkpp { pp_size : R; pp_width : R; pp_intercept : R }.
Definition default_pp := mkpp 100 2 (1 / 4).

(** plotting.py:430-438: the coordinates ([None]: no coordinates set; otherwise the shape of G.coords). *)
Definition check_coords (N : nat) (c : option (list nat)) : res unit :=
  match c with
  | None => Raise AttributeError
  | Some sh =>
      let bad := (negb (Nat.eqb (List.length sh) 2) || negb (existsb (Nat.eqb (nth 1 sh 0%nat)) [2%nat; 3%nat]))%bool in
      if (negb (Nat.eqb (List.length sh) 1) && bad)%bool then Raise AttributeError
      else if negb (Nat.eqb (nth 0 sh 0%nat) N) then Raise AttributeError else Ok tt
  end.

(** plotting.py:430-556 [_plot_graph] up to the drawing; [backend]: the argument or the module's default.  With the
    pyqtgraph backend, [G.coords.shape[1]] (lines 159, 659) fails on 1-D coordinates. *)
Definition plot_graph (pp : pparams) (N Ne : nat) (coords : option (list nat)) (vertex_color vertex_size : parg)
    (edges : option bool) (edge_color edge_width : parg) (limits : option (R * R)) (backend : string) : res drawing :=
  bindr (check_coords N coords) (fun _ =>
  let sh := match coords with Some s => s | None => [] end in
  let mpl := String.eqb backend "matplotlib" in
  bindr (colour mpl N (Nat.eqb (List.length sh) 1) vertex_color limits) (fun cl =>
  bindr (vertex_sizes (pp_size pp) (pp_intercept pp) N vertex_size) (fun vs =>
  let ed := match edges with Some b => b | None => Rltb (INR Ne) 10000 end in
  bindr (edge_opacity mpl (pp_intercept pp) Ne edge_color) (fun eo =>
  bindr (edge_widths (pp_width pp) (pp_intercept pp) Ne edge_width) (fun ew =>
  if String.eqb backend "pyqtgraph" then
    (if Nat.eqb (List.length sh) 1 then Raise IndexError else Ok (mkdrawing (fst cl) (snd cl) vs ed eo ew))
  else if String.eqb backend "matplotlib" then Ok (mkdrawing (fst cl) (snd cl) vs ed eo ew)
  else Raise ValueError))))).

(** plotting.py:788-803 [_get_coords]: the edges as pairs, and for 3-D coordinates the end points of the edges one after
    the other. *)
Definition edge_pairs (l : list (nat * nat * R)) : list (nat * nat) := map fst l.
Definition edge_line (coords : nat -> nat -> R) (d : nat) (l : list (nat * nat * R)) : list R :=
  flat_map (fun e => [coords (fst (fst e)) d; coords (snd (fst e)) d]) l.

(** plotting.py:722-745 [_plot_spectrogram]: line 743 unpacks in three the four values returned by [_import_qtg]
    (line 71); [installed]: whether pyqtgraph can be imported. *)
Definition plot_spectrogram (installed : bool) : res unit := if installed then Raise ValueError else Raise ImportError.

(** plotting.py:271-279, in _plt_plot_filter: the points where the filters are evaluated: [np.linspace(0, lmax, n)], with
    the eigenvalues if known, in increasing order. *)
Definition linspace (lmax : R) (n : nat) : list R :=
  map (fun i => if Nat.eqb n 1 then 0 else INR i * (lmax / (INR n - 1))) (seq 0 n).
Definition filter_points (lmax : R) (n : nat) (e : option (list R)) : list R :=
  match e with None => linspace lmax n | Some e => rsort (linspace lmax n ++ e) end.
