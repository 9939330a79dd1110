(** Model of the drawing part of pygsp/plotting.py: the figures pygsp opens and keeps track of, what [G.plot] draws with matplotlib once
    its arguments are checked (Plot.v), and what [Filter.plot] draws.  matplotlib (and pyqtgraph for that backend) are taken to be
    installed, and axes given by the caller to have as many dimensions as what is drawn on them.  Not modelled: colours and styles
    other than those listed, titles, the camera position, further keyword arguments handed to matplotlib. *)
From Coq Require Import Reals List Arith Bool String ZArith.
From Coq Require Import List.
From Verif.Base Require Import RSum Prelude.
From Verif.Spec Require Import Matrix NdArray.
From Verif.Model Require Import Sparse Graph Traverse Filter Plot.
Import ListNotations.
Open Scope R_scope.
Open Scope list_scope.

(** ** Windows *)

(** A window (a matplotlib figure or a pyqtgraph widget); who opened it is recorded for the statements only, the code never looks. *)
Inductive owner := Pygsp | User.
Definition window := (owner * nat)%type.
Definition owner_eqb (a b : owner) : bool := match a, b with Pygsp, Pygsp | User, User => true | _, _ => false end.
Definition win_eqb (a b : window) : bool := (owner_eqb (fst a) (fst b) && Nat.eqb (snd a) (snd b))%bool.
Definition close_win (w : window) (l : list window) : list window := filter (fun v => negb (win_eqb w v)) l.

(** The windows open on the screen, and the module variables [_plt_figures], [_qtg_widgets] (plotting.py:32-33). *)
Record screen := mkscreen { s_next : nat; s_figs : list window; s_widgets : list window; kept_figs : list window; kept_widgets : list window }.
Definition blank : screen := mkscreen 0 [] [] [] [].

(** [plt.figure()] called by pygsp or by the user; [plt.close(fig)] (closing a closed figure does nothing). *)
Definition open_figure (o : owner) (s : screen) : window * screen :=
  ((o, s_next s), mkscreen (S (s_next s)) ((o, s_next s) :: s_figs s) (s_widgets s) (kept_figs s) (kept_widgets s)).
Definition open_widget (o : owner) (s : screen) : window * screen :=
  ((o, s_next s), mkscreen (S (s_next s)) (s_figs s) ((o, s_next s) :: s_widgets s) (kept_figs s) (kept_widgets s)).
Definition close_figure (w : window) (s : screen) : screen :=
  mkscreen (s_next s) (close_win w (s_figs s)) (s_widgets s) (kept_figs s) (kept_widgets s).
Definition close_widget (w : window) (s : screen) : screen :=
  mkscreen (s_next s) (s_figs s) (close_win w (s_widgets s)) (kept_figs s) (kept_widgets s).

(** plotting.py:125-137 [close_all]. *)
Definition close_all (s : screen) : screen :=
  let s1 := fold_left (fun s w => close_widget w s) (kept_widgets s) s in
  let s2 := mkscreen (s_next s1) (s_figs s1) (s_widgets s1) (kept_figs s1) [] in
  let s3 := fold_left (fun s w => close_figure w s) (kept_figs s2) s2 in
  mkscreen (s_next s3) (s_figs s3) (s_widgets s3) [] (kept_widgets s3).

(** Axes: the figure they belong to, and whether they have three dimensions. *)
Record axes := mkaxes { ax_figure : window; ax_3d : bool }.

(** plotting.py:85-122 [_plt_handle_figure]: without axes a figure is opened and recorded before drawing; an exception of the drawing
    leaves it there.  With axes, [fig] is unbound at line 115 and the UnboundLocalError is caught as the NameError it is. *)
Definition handle_figure {A} (ax : option axes) (three_d : bool) (draw : res A) (s : screen) : res (axes * A) * screen :=
  match ax with
  | None =>
      let (f, s1) := open_figure Pygsp s in
      let s2 := mkscreen (s_next s1) (s_figs s1) (s_widgets s1) (kept_figs s1 ++ [f]) (kept_widgets s1) in
      (bindr draw (fun p => Ok (mkaxes f three_d, p)), s2)
  | Some x => (bindr draw (fun p => Ok (x, p)), s)
  end.

(** ** Drawing a graph *)

(** A python index: an integer, negative ones counted from the end. *)
Definition py_index (n : nat) (i : Z) : res nat :=
  if ((0 <=? i) && (i <? Z.of_nat n))%Z%bool then Ok (Z.to_nat i)
  else if ((- Z.of_nat n <=? i) && (i <? 0))%Z%bool then Ok (Z.to_nat (i + Z.of_nat n)) else Raise IndexError.
(** [highlight]: one vertex, or a sequence of vertices. *)
Inductive hlarg := HLone (i : Z) | HLmany (l : list Z).
(** plotting.py:597-601. *)
Definition highlighted (n : nat) (h : hlarg) : res (list nat) :=
  mapr (py_index n) (match h with HLone i => [i] | HLmany l => l end).

Record picture := mkpicture {
  segments : list (list R * list R);      (* straight lines between two points *)
  curves : list (list (R * R));           (* polygonal curves *)
  verticals : list R;                     (* vertical lines *)
  points : list (list R * R);             (* disks: position and size *)
  rings : list (list R * R);              (* rings around highlighted vertices *)
  texts : list (list R * nat);            (* vertex numbers *)
  colorbar_drawn : bool }.

Definition size_of (v : sizes) (i : nat) : R := match v with One x => x | Each l => nth i l 0 end.

(** matplotlib's [scatter] on n points: an array c with as many numbers as points is a signal; otherwise it stands for colours, one,
    one per point, or none. *)
Definition n_colours (sh : list nat) : nat := if rgb_shape sh then 1 else match sh with [] => 0 | k :: _ => k end.
Definition scatter_accepts (n : nat) (p : paint) : bool :=
  match p with
  | Default => true
  | Colours sh x => (Nat.eqb (List.length x) n || existsb (Nat.eqb (n_colours sh)) [0%nat; 1%nat; n])%bool
  | Graded x => Nat.eqb (List.length x) n
  end.

(** matplotlib's [plot(x, y)]: y must have as many rows as x has points; one curve per column. *)
Definition plot_curves (x : list R) (sh : list nat) (y : list R) : res (list (list (R * R))) :=
  match sh with
  | [n] => if Nat.eqb n (List.length x) then Ok [combine x y] else Raise ValueError
  | [n; k] => if Nat.eqb n (List.length x)
              then Ok (map (fun c => combine x (map (fun i => nth (i * k + c) y 0) (seq 0 n))) (seq 0 k)) else Raise ValueError
  | _ => Raise ValueError
  end.

(** graph.py:148: the default vertex colour. *)
Definition default_rgba : list R := [0.12; 0.47; 0.71; 0.5].

(** plotting.py:479-491, 604: the array given to [ax.plot] for 1-D coordinates: the default colour is wrapped in a tuple, colours are
    given as they are, a signal is squeezed. *)
Definition line_values (a : parg) (p : paint) : list nat * list R :=
  match p, a with
  | Default, _ => ([1%nat; 4%nat], default_rgba)
  | Colours sh x, _ => (sh, x)
  | Graded x, Values sh _ => (drop1 sh, x)
  | Graded x, _ => ([], x)
  end.

(** The arguments of [G.plot] (graph.py:1031-1063); coordinates: their shape and the coordinates of each vertex (a list of one number
    if they are 1-D). *)
Record gargs := mkgargs {
  ga_pp : pparams; ga_G : graph; ga_coords : option (list nat * (nat -> list R));
  ga_vertex_color : parg; ga_vertex_size : parg; ga_highlight : hlarg; ga_edges : option bool;
  ga_edge_color : parg; ga_edge_width : parg; ga_indices : bool; ga_colorbar : bool;
  ga_limits : option (R * R); ga_ax : option axes; ga_backend : string }.

(** plotting.py:479-491: no colour bar unless a signal is shown. *)
Definition colorbar_wanted (p : paint) (b : bool) : bool := match p with Graded _ => b | _ => false end.

(** plotting.py:559-653 [_plt_plot_graph] (without the figure handling); [d]: the checked arguments. *)
Definition draw_graph (a : gargs) (sh : list nat) (at_ : nat -> list R) (d : drawing) : res picture :=
  let n := g_n_vertices (ga_G a) in
  let flat := Nat.eqb (List.length sh) 1 in
  bindr (if (d_edges d && negb flat)%bool
         then bindr (get_edge_list (gW (ga_G a))) (fun l => Ok (map (fun e => (at_ (fst (fst e)), at_ (snd (fst e)))) l))
         else Ok []) (fun segs =>
  bindr (highlighted n (ga_highlight a)) (fun hl =>
  if flat then
    let v := line_values (ga_vertex_color a) (d_colour d) in
    bindr (plot_curves (map (fun i => hd 0 (at_ i)) (seq 0 n)) (fst v) (snd v)) (fun cs =>
    if (ga_indices a && negb (Nat.eqb n 0))%bool then Raise TypeError
    else Ok (mkpicture segs cs (map (fun i => hd 0 (at_ i)) hl) [] [] [] false))
  else
    if negb (scatter_accepts n (d_colour d)) then Raise ValueError else
    Ok (mkpicture segs [] [] (map (fun i => (at_ i, size_of (d_sizes d) i)) (seq 0 n))
          (map (fun i => (at_ i, 2 * size_of (d_sizes d) i)) hl)
          (if ga_indices a then map (fun i => (at_ i, i)) (seq 0 n) else [])
          (colorbar_wanted (d_colour d) (ga_colorbar a))))).

(** plotting.py:430-556 [_plot_graph] as a whole, with plotting.py:195-196, 718-719: pyqtgraph widgets are recorded too. *)
Definition plot_call (a : gargs) (s : screen) : res (option (axes * picture)) * screen :=
  match plot_graph (ga_pp a) (g_n_vertices (ga_G a)) (g_n_edges (ga_G a)) (option_map fst (ga_coords a)) (ga_vertex_color a) (ga_vertex_size a)
          (ga_edges a) (ga_edge_color a) (ga_edge_width a) (ga_limits a) (ga_backend a) with
  | Raise e => (Raise e, s)
  | Ok d =>
      let c := match ga_coords a with Some c => c | None => ([], fun _ => []) end in
      if String.eqb (ga_backend a) "pyqtgraph" then
        let (w, s1) := open_widget Pygsp s in
        (Ok None, mkscreen (s_next s1) (s_figs s1) (s_widgets s1) (kept_figs s1) (kept_widgets s1 ++ [w]))
      else
        let (r, s1) := handle_figure (ga_ax a) (Nat.eqb (nth 1 (fst c) 0%nat) 3) (draw_graph a (fst c) (snd c) d) s in
        (bindr r (fun x => Ok (Some x)), s1)
  end.

(** ** Drawing a filter bank *)

Inductive fcurve_label := LFilter (i : nat) | LSum.
Record fpicture := mkfpicture {
  f_curves : list (list (R * R)); f_sum : option (list (R * R)); f_legend : list fcurve_label;
  f_verticals : list R; f_dots : list (list (R * R)); f_sum_dots : option (list (R * R)) }.

(** The arguments of [Filter.plot] (filter.py:761-788), [G.lmax], [G.e], and whether the eigenvalues were already computed
    ([G._e is not None]). *)
Record fargs := mkfargs {
  fa_kernels : list kernel; fa_lmax : R; fa_e : list R; fa_known : bool; fa_n : nat;
  fa_eigenvalues : option bool; fa_sum : option bool; fa_labels : option bool; fa_ax : option axes }.

(** [np.sum(y**2, 1)] for the m evaluation points. *)
Definition sum_squares (m : nat) (y : list (list R)) : list R := map (fun j => lsum (map (fun r => (nth j r 0) ^ 2) y)) (seq 0 m).

(** plotting.py:269-323 [_plt_plot_filter] (without the figure handling). *)
Definition draw_filter (a : fargs) (eig sum labels : bool) : res fpicture :=
  let x := filter_points (fa_lmax a) (fa_n a) (if eig then Some (fa_e a) else None) in
  bindr (evaluate (fa_kernels a) x) (fun y =>
  bindr (if eig then evaluate (fa_kernels a) (fa_e a) else Ok []) (fun ye =>
  let e := fa_e a in
  Ok (mkfpicture (map (combine x) y)
        (if sum then Some (combine x (sum_squares (List.length x) y)) else None)
        (if labels then map LFilter (seq 0 (List.length y)) ++ (if sum then [LSum] else []) else [])
        (if eig then e else [])
        (if eig then map (combine e) ye else [])
        (if (eig && sum)%bool then Some (combine e (sum_squares (List.length e) ye)) else None)))).

(** plotting.py:199-266 [_plot_filter]. *)
Definition plot_filter_call (a : fargs) (s : screen) : res (axes * fpicture) * screen :=
  let many := Nat.ltb 1 (List.length (fa_kernels a)) in
  let eig := match fa_eigenvalues a with Some b => b | None => fa_known a end in
  let sum := match fa_sum a with Some b => b | None => many end in
  let labels := match fa_labels a with Some b => b | None => many end in
  handle_figure (fa_ax a) false (draw_filter a eig sum labels) s.

(** ** Histories *)

(** What can happen: the user opens and closes windows ([plotting.close], plotting.py:150-153, is [plt.close]), pygsp plots, and
    [close_all] is called. *)
Inductive event :=
  | UserOpensFigure | UserClosesFigure (w : window) | UserOpensWidget | UserClosesWidget (w : window)
  | PlotGraph (a : gargs) | PlotFilter (a : fargs) | CloseAll.
Definition happen (s : screen) (e : event) : screen :=
  match e with
  | UserOpensFigure => snd (open_figure User s)
  | UserClosesFigure w => close_figure w s
  | UserOpensWidget => snd (open_widget User s)
  | UserClosesWidget w => close_widget w s
  | PlotGraph a => snd (plot_call a s)
  | PlotFilter a => snd (plot_filter_call a s)
  | CloseAll => close_all s
  end.
Definition history (h : list event) : screen := fold_left happen h blank.
