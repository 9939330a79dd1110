(** repr() of graphs and filters, and the default title of the plots. Not modelled: how Python prints a float or a container
    (an argument of the model), how NumPy prints scalars. *)
From Coq Require Import Reals List Arith Bool String ZArith Decimal DecimalString.
From Verif.Base Require Import Prelude.
Import ListNotations.
Open Scope string_scope.
Open Scope list_scope.

(** The values constructors store on the object: None, booleans, integers, floats, strings, lists of numbers, and anything else
    (tuples, arrays), for which only str() matters. *)
Inductive pyval := PNone | PBool (b : bool) | PInt (z : Z) | PFloat (r : R) | PStr (s : string) | PNums (l : list pyval) | POther (s : string).

(** How Python prints floats and lists: str, format(x, ".<d>f"), format(x, ".0e"), str(list). *)
Record printer := mkprinter { p_float : R -> string; p_fixed : nat -> R -> string; p_exp : R -> string; p_list : list pyval -> string }.

Definition int_text (z : Z) : string := NilZero.string_of_int (Z.to_int z).
(** str(v), what an f-string prints for {v} *)
Definition to_str (P : printer) (v : pyval) : string :=
  match v with
  | PNone => "None" | PBool true => "True" | PBool false => "False" | PInt z => int_text z | PFloat r => p_float P r
  | PStr s => s | PNums l => p_list P l | POther s => s
  end.
(** The number a value formats as; bool is a subclass of int. *)
Definition num_of (v : pyval) : res R :=
  match v with
  | PBool b => Ok (if b then 1%R else 0%R) | PInt z => Ok (IZR z) | PFloat r => Ok r
  | PStr _ => Raise ValueError (* unknown format code 'f' for object of type 'str' *)
  | _ => Raise TypeError       (* unsupported format string passed to NoneType.__format__ *)
  end.

(** The attributes of an object. *)
Definition obj := list (string * pyval).
Fixpoint getattr (o : obj) (a : string) : res pyval :=
  match o with [] => Raise AttributeError | (b, v) :: o => if String.eqb b a then Ok v else getattr o a end.

(** One entry of the dictionaries returned by the _get_extra_repr methods: the attribute itself, formatted with d decimals, in
    scientific notation, element by element, only if it is a float, only if it is not None. *)
Inductive item := Show (a : string) | Fix (d : nat) (a : string) | Sci (a : string) | FixEach (a : string) | FixFloat (a : string) | FixSome (a : string)
  | FirstOf (a b c : string).
Fixpoint mapr {A B} (f : A -> res B) (l : list A) : res (list B) :=
  match l with [] => Ok [] | x :: l => bindr (f x) (fun y => bindr (mapr f l) (fun r => Ok (y :: r))) end.
Fixpoint joined (l : list string) : string :=
  match l with [] => "" | [s] => s | s :: r => s ++ ", " ++ joined r end.
Definition fixed (P : printer) (d : nat) (v : pyval) : res string := bindr (num_of v) (fun r => Ok (p_fixed P d r)).
Definition render (P : printer) (o : obj) (i : item) : res (list (string * string)) :=
  match i with
  | Show a => bindr (getattr o a) (fun v => Ok [(a, to_str P v)])
  | Fix d a => bindr (getattr o a) (fun v => bindr (fixed P d v) (fun s => Ok [(a, s)]))
  | Sci a => bindr (getattr o a) (fun v => bindr (num_of v) (fun r => Ok [(a, p_exp P r)]))
  | FixEach a => bindr (getattr o a) (fun v =>                                   (* heat.py:122, wave.py:126-127 *)
      match v with
      | PNums l => bindr (mapr (fixed P 2) l) (fun ss => Ok [(a, "[" ++ joined ss ++ "]")%string])
      | PNone | PBool _ | PInt _ | PFloat _ => Raise TypeError
      | _ => Raise ValueError
      end)
  | FixFloat a => bindr (getattr o a) (fun v => match v with PFloat r => Ok [(a, p_fixed P 2 r)] | _ => Ok [] end)  (* stochasticblockmodel.py:169-172 *)
  | FixSome a => bindr (getattr o a) (fun v => match v with PNone => Ok [] | _ => bindr (fixed P 2 v) (fun s => Ok [(a, s)]) end)  (* rectangular.py:79-82 *)
  | FirstOf a b c =>                                                            (* community.py:289-294 *)
      bindr (getattr o a) (fun v => match v with
      | PNone => bindr (getattr o b) (fun w => match w with
        | PNone => bindr (getattr o c) (fun x => bindr (fixed P 2 x) (fun s => Ok [(c, s)]))
        | _ => Ok [(b, to_str P w)] end)
      | _ => bindr (fixed P 2 v) (fun s => Ok [(a, s)]) end)
  end.
(** dict.update: an existing key keeps its place. *)
Fixpoint set_key (kv : string * string) (d : list (string * string)) : list (string * string) :=
  match d with [] => [kv] | (k, v) :: d => if String.eqb k (fst kv) then kv :: d else (k, v) :: set_key kv d end.
Definition update (d e : list (string * string)) : list (string * string) := fold_left (fun d kv => set_key kv d) e d.

(** The classes that can be shown; the others inherit one of these descriptions. *)
Inductive gclass := GGraph | GMinnesota | GSBM | GNNGraph | GSphere | GCube | GTwoMoons | GImgPatches | GSensor | GDavid | GPath | GStar | GSwiss
  | GGrid2d | GCommunity | GRandomRing | GRing | GRandomRegular | GComet | GLowStretch | GBA | GTorus.
(** nngraph.py:301-313 *)
Definition nn_items : list item :=
  [Show "NNtype"; Show "use_flann"; Show "center"; Show "rescale"; Show "k"; Fix 2 "sigma"; Fix 2 "epsilon"; Show "symmetrize_type"; Show "dist_type"; Show "order"].
(** graph.py:178-179, minnesota.py:54-55, stochasticblockmodel.py:167-181, sphere.py:62-71, cube.py:87-96, twomoons.py:116-126,
    imgpatches.py:102-105, sensor.py:77-78, davidsensornet.py:60-61, path.py:77-78, star.py:36-37, swissroll.py:107-117,
    grid2d.py:91-92, community.py:281-296, randomring.py:77-78, ring.py:92-93, randomregular.py:138-139, comet.py:75-76,
    lowstretchtree.py:89-90, barabasialbert.py:67-68, torus.py:109-110. Classes absent from the list (Airfoil, Bunny, ErdosRenyi,
    FullConnected, LineGraph, Logo) inherit the method of Graph, NNGraph or StochasticBlockModel. *)
Definition items (c : gclass) : list item :=
  match c with
  | GGraph | GStar => []
  | GMinnesota => [Show "connected"]
  | GSBM => [Show "k"; FixFloat "p"; FixFloat "q"; Show "directed"; Show "self_loops"; Show "connected"; Show "seed"]
  | GNNGraph => nn_items
  | GSphere | GCube => [Fix 2 "radius"; Show "nb_pts"; Show "nb_dim"; Show "sampling"; Show "seed"] ++ nn_items
  | GTwoMoons => [Show "moontype"; Show "dim"; Fix 2 "sigmag"; Fix 2 "sigmad"; Fix 2 "distance"; Show "seed"] ++ nn_items
  | GImgPatches => [Show "patch_shape"] ++ nn_items
  | GSensor => [Show "k"; Show "distributed"; Show "seed"]
  | GDavid | GRandomRing => [Show "seed"]
  | GPath => [Show "directed"]
  | GSwiss => [Show "a"; Show "b"; Show "dim"; Sci "thresh"; Fix 2 "s"; Show "noise"; Show "srtype"; Show "seed"]
  | GGrid2d => [Show "N1"; Show "N2"]
  | GCommunity => [Show "Nc"; Show "min_comm"; Show "comm_sizes"; Fix 2 "size_ratio"; Fix 2 "world_density"; FirstOf "comm_density" "k_neigh" "epsilon"; Show "seed"]
  | GRing | GComet | GLowStretch => [Show "k"]
  | GRandomRegular => [Show "k"; Show "seed"]
  | GBA => [Show "m0"; Show "m"; Show "seed"]
  | GTorus => [Show "Nv"; Show "Mv"]
  end.
Definition extra (P : printer) (o : obj) (its : list item) : res (list (string * string)) :=
  bindr (mapr (render P o) its) (fun ls => Ok (fold_left update ls [])).

(** graph.py:185-189: the loop over the extra attributes, which stops when i = limit - 2. *)
Fixpoint extra_loop (limit : option Z) (i : nat) (l : list (string * string)) : string :=
  match l with
  | [] => ""
  | kv :: l' =>
    if match limit with Some L => Z.eqb (Z.of_nat i) (L - 2) | None => false end then "..., "
    else fst kv ++ "=" ++ snd kv ++ ", " ++ extra_loop limit (S i) l'
  end%string.
(** s[:-2] *)
Definition cut2 (s : string) : string := substring 0 (String.length s - 2) s.
(** graph.py:181-190 *)
Definition graph_repr (name : string) (n_vertices n_edges : nat) (ex : res (list (string * string))) (limit : option Z) : res string :=
  bindr ex (fun l =>
  Ok (name ++ "(" ++ cut2 ("n_vertices=" ++ int_text (Z.of_nat n_vertices) ++ ", " ++ "n_edges=" ++ int_text (Z.of_nat n_edges) ++ ", " ++ extra_loop limit 0 l) ++ ")")%string).
(** plotting.py:525-526: the title of a plot; plotting.py:781 builds the one of a spectrogram in the same way. *)
Definition plot_title (title : option string) (name : string) (n_vertices n_edges : nat) (ex : res (list (string * string))) : res string :=
  match title with Some t => Ok t | None => graph_repr name n_vertices n_edges ex (Some 4%Z) end.

(** The attributes the constructors leave on a graph they built. [arg] is the value of a parameter after defaults, [auto] the
    number computed when the parameter was None (nngraph.py:218-219 and 257-258, swissroll.py:58-59, community.py:74-85).
    minnesota.py:34, stochasticblockmodel.py:76-81, 90-91, 101-103, nngraph.py:108-118, sphere.py:38-42, cube.py:38-42,
    twomoons.py:76-81, 106-113, imgpatches.py:52-53, sensor.py:51-52, 73-74, davidsensornet.py:31, path.py:60, swissroll.py:58-68,
    grid2d.py:41-45, community.py:74-95, randomring.py:34, ring.py:56, randomregular.py:50-52, comet.py:45, lowstretchtree.py:30,
    barabasialbert.py:47-49, torus.py:39-43. *)
Definition keep (arg : string -> pyval) (ks : list string) : obj := map (fun k => (k, arg k)) ks.
Definition or_auto (arg : string -> pyval) (auto : string -> pyval) (k : string) : string * pyval := (k, match arg k with PNone => auto k | v => v end).
Definition nn_attrs (arg auto : string -> pyval) : obj :=
  keep arg ["NNtype"; "use_flann"; "center"; "rescale"; "k"; "epsilon"; "symmetrize_type"; "dist_type"; "order"] ++ [or_auto arg auto "sigma"].
Definition attrs (c : gclass) (arg auto : string -> pyval) : obj :=
  match c with
  | GGraph => []
  | GStar | GRing | GComet | GLowStretch => keep arg ["k"]
  | GMinnesota => keep arg ["connected"]
  | GSBM => keep arg ["k"; "directed"; "self_loops"; "connected"; "n_try"; "seed"] ++
            match arg "M" with PNone => keep arg ["p"] ++ [or_auto arg auto "q"] | _ => [] end
  | GNNGraph => nn_attrs arg auto
  | GSphere | GCube => keep arg ["radius"; "nb_pts"; "nb_dim"; "sampling"; "seed"] ++ nn_attrs arg auto
  | GTwoMoons => keep arg ["moontype"; "dim"; "sigmag"; "sigmad"; "distance"; "seed"] ++ nn_attrs arg auto
  | GImgPatches => keep arg ["patch_shape"] ++ nn_attrs arg auto
  | GSensor => keep arg ["distributed"; "seed"] ++ nn_attrs arg auto
  | GDavid | GRandomRing => keep arg ["seed"]
  | GPath => keep arg ["directed"]
  | GSwiss => keep arg ["a"; "b"; "dim"; "thresh"] ++ [or_auto arg auto "s"] ++ keep arg ["noise"; "srtype"; "seed"]
  | GGrid2d => keep arg ["N1"] ++ [or_auto arg (fun _ => arg "N1") "N2"]
  | GCommunity => map (or_auto arg auto) ["Nc"; "min_comm"] ++ keep arg ["comm_sizes"; "size_ratio"] ++ [or_auto arg auto "world_density"] ++
                  keep arg ["comm_density"; "k_neigh"] ++ [or_auto arg auto "epsilon"] ++ keep arg ["seed"]
  | GRandomRegular => keep arg ["k"; "max_iter"; "seed"]
  | GBA => keep arg ["m0"; "m"; "seed"]
  | GTorus => keep arg ["Nv"] ++ [or_auto arg (fun _ => arg "Nv") "Mv"]
  end.
(** grid2dimgpatches.py:44-47: the description of the grid, updated with that of the patch graph. *)
Definition grid_patches_extra (P : printer) (grid patches : obj) : res (list (string * string)) :=
  bindr (extra P grid (items GGrid2d)) (fun d => bindr (extra P patches (items GImgPatches)) (fun e => Ok (update d e))).

(** The filters. filter.py:71-73, rectangular.py:77-83, expwin.py:77-84, wave.py:125-128, papadakis.py:66-67, mexicanhat.py:86-87,
    itersine.py:59-60, heat.py:121-123, abspline.py:110-111, simoncelli.py:66-67, held.py:73-74; the other classes inherit. *)
Inductive fclass := FFilter | FRectangular | FExpwin | FWave | FPapadakis | FMexicanHat | FItersine | FHeat | FAbspline | FSimoncelli | FHeld.
Definition fitems (c : fclass) : list item :=
  match c with
  | FFilter => []
  | FRectangular => [FixSome "band_min"; FixSome "band_max"]
  | FExpwin => [FixSome "band_min"; FixSome "band_max"; Fix 0 "slope"]
  | FWave => [FixEach "time"; FixEach "speed"]
  | FPapadakis | FSimoncelli | FHeld => [Fix 2 "a"]
  | FMexicanHat => [Fix 2 "lpfactor"; Show "normalize"]
  | FItersine => [Fix 2 "overlap"]
  | FHeat => [FixEach "scale"; Show "normalize"]
  | FAbspline => [Fix 2 "lpfactor"]
  end.
(** A number is replaced by the list of that number. heat.py:103-106, wave.py:92-99 *)
Definition listed (v : pyval) : pyval := match v with PNone | PBool _ | PInt _ | PFloat _ => PNums [v] | _ => v end.
(** rectangular.py:55-56, expwin.py:44-46, wave.py:92-102, papadakis.py:43, mexicanhat.py:56-57, itersine.py:38, heat.py:103-109,
    abspline.py:85, simoncelli.py:43, held.py:47 *)
Definition fattrs (c : fclass) (arg : string -> pyval) : obj :=
  match c with
  | FFilter => []
  | FRectangular => keep arg ["band_min"; "band_max"]
  | FExpwin => keep arg ["band_min"; "band_max"; "slope"]
  | FWave => map (fun k => (k, listed (arg k))) ["time"; "speed"]
  | FPapadakis | FSimoncelli | FHeld => keep arg ["a"]
  | FMexicanHat => keep arg ["lpfactor"; "normalize"]
  | FItersine => keep arg ["overlap"]
  | FHeat => [("scale", listed (arg "scale"))] ++ keep arg ["normalize"]
  | FAbspline => keep arg ["lpfactor"]
  end.
(** filter.py:75-81 *)
Definition filter_repr (name : string) (n_in n_out : nat) (ex : res (list (string * string))) : res string :=
  bindr ex (fun e =>
  let l := update [("in", int_text (Z.of_nat n_in)); ("out", int_text (Z.of_nat n_out))] e in
  Ok (name ++ "(" ++ cut2 (fold_left (fun s kv => s ++ fst kv ++ "=" ++ snd kv ++ ", ")%string l "") ++ ")")%string).
