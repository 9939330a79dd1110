(** Model of how the constructors of pygsp hand their keyword arguments on (pygsp/graphs/*.py), of Python's binding of
    arguments to parameters, and of the functions that never get past a wrong call or an unbound name:
    reduction.tree_multiresolution, optimization.prox_tv, approximations.lanczos_op.
    The arguments are opaque values; what the constructors compute with them is in the other models. *)
From Coq Require Import List Arith Bool String.
From Verif.Base Require Import Prelude.
Import ListNotations.
Open Scope string_scope.
Open Scope list_scope.

(** ** Python's calling convention (language reference, 6.3.4) *)

(** A signature: the parameters after self, each with "has a default", and whether there is a **kwargs. *)
Record signature := mksig { sg_params : list (string * bool); sg_kwargs : bool }.
Definition names {V} (l : list (string * V)) : list string := map fst l.
Definition mem (x : string) (l : list string) : bool := existsb (String.eqb x) l.
Fixpoint distinct (l : list string) : bool :=
  match l with [] => true | x :: r => (negb (mem x r) && distinct r)%bool end.
Fixpoint assoc {V} (x : string) (l : list (string * V)) : option V :=
  match l with [] => None | (y, v) :: r => if String.eqb x y then Some v else assoc x r end.

(** What the parameters are bound to, in order ([None]: the default), and what is left for **kwargs.  The keywords are those written
    in the call followed by those of a **dict: a repeated one is a TypeError. *)
Definition py_bind {V} (s : signature) (pos : list V) (kws : list (string * V)) : res (list (string * option V) * list (string * V)) :=
  let ps := sg_params s in
  let filled := names (firstn (List.length pos) ps) in
  let open := skipn (List.length pos) ps in
  if Nat.ltb (List.length ps) (List.length pos) then Raise TypeError                                 (* too many positional arguments *)
  else if negb (distinct (names kws)) then Raise TypeError                                           (* multiple values for a keyword *)
  else if existsb (fun k => mem k filled) (names kws) then Raise TypeError                           (* multiple values for an argument *)
  else if (negb (sg_kwargs s) && existsb (fun k => negb (mem k (names ps))) (names kws))%bool then Raise TypeError   (* unexpected keyword *)
  else if existsb (fun p => (negb (snd p) && negb (mem (fst p) (names kws)))%bool) open then Raise TypeError   (* missing argument *)
  else Ok ((combine filled (map Some pos) ++ map (fun p => (fst p, assoc (fst p) kws)) open)%list,
           filter (fun kv => negb (mem (fst kv) (names ps))) kws).

(** ** Classes and what they hand to the constructor of their base *)

(** An argument of super().__init__: computed by the class, or the value of one of its own parameters. *)
Inductive superarg := Made | Own (p : string).
(** A value on its way: the caller's, or one the class chose (a default of the class, or a computed value). *)
Definition superval {V} (b : list (string * option (option V))) (a : superarg) : option V :=
  match a with Made => None | Own p => match assoc p b with Some (Some v) => v | _ => None end end.

(** [Root]: Graph itself.  [Class s base pos kws]: own signature, the call of the base's constructor with its positional and keyword
    arguments, followed by **kwargs.  [Both s other opos okws base pos kws]: **kwargs goes to
    the constructor of another class first, and not to the base (Grid2dImgPatches). *)
Inductive cls :=
| Root (s : signature)
| Class (s : signature) (base : cls) (pos : list superarg) (kws : list (string * superarg))
| Both (s : signature) (other : cls) (opos : list superarg) (okws : list (string * superarg)) (base : cls) (pos : list superarg) (kws : list (string * superarg)).

Definition call_args {V} (b : list (string * option (option V))) (kws : list (string * superarg)) : list (string * option V) :=
  map (fun ka => (fst ka, superval b (snd ka))) kws.

(** The parameters of Graph.__init__ at the end of the chain of calls.  [None]: the default of Graph; [Some None]: a value of
    the class; [Some (Some v)]: the caller's. *)
Fixpoint construct {V} (c : cls) (pos : list (option V)) (kws : list (string * option V)) : res (list (string * option (option V))) :=
  match c with
  | Root s => bindr (py_bind s pos kws) (fun be => Ok (fst be))
  | Class s base bpos bkws =>
      bindr (py_bind s pos kws) (fun be =>
      construct base (map (superval (fst be)) bpos) (call_args (fst be) bkws ++ snd be))
  | Both s other opos okws base bpos bkws =>
      bindr (py_bind s pos kws) (fun be =>
      bindr (construct other (map (superval (fst be)) opos) (call_args (fst be) okws ++ snd be)) (fun _ =>
      construct base (map (superval (fst be)) bpos) (call_args (fst be) bkws)))
  end.

Definition sig_of (c : cls) : signature := match c with Root s => s | Class s _ _ _ => s | Both s _ _ _ _ _ _ => s end.
(** The parameters with which a class calls the constructor of the class it derives from (of the other class first, for [Both]): the first step of
    [construct], for the super().__init__ calls of graphs/*.py cited at each class below *)
Definition parent_call {V} (c : cls) (pos : list (option V)) (kws : list (string * option V)) : res (list (string * option (option V))) :=
  match c with
  | Root s => bindr (py_bind s pos kws) (fun be => Ok (fst be))
  | Class s base bpos bkws =>
      bindr (py_bind s pos kws) (fun be =>
      bindr (py_bind (sig_of base) (map (superval (fst be)) bpos) (call_args (fst be) bkws ++ snd be)) (fun be' => Ok (fst be')))
  | Both s other opos okws base bpos bkws =>
      bindr (py_bind s pos kws) (fun be =>
      bindr (py_bind (sig_of other) (map (superval (fst be)) opos) (call_args (fst be) okws ++ snd be)) (fun be' => Ok (fst be')))
  end.

(** ** The classes *)
Definition opt (l : list string) : list (string * bool) := map (fun x => (x, true)) l.
Definition made (l : list string) : list (string * superarg) := map (fun x => (x, Made)) l.

(** graph.py:98 *)
Definition Graph_c := Root (mksig (("adjacency", false) :: opt ["lap_type"; "coords"; "plotting"]) false).
(** A class that derives from Graph directly: own optional parameters, keywords given to Graph. *)
Definition direct (ps ks : list string) : cls := Class (mksig (opt ps) true) Graph_c [Made] (made ks).
(** airfoil.py:22,38 *)
Definition Airfoil_c := direct [] ["coords"; "plotting"].
(** barabasialbert.py:43,65 *)
Definition BarabasiAlbert_c := direct ["N"; "m0"; "m"; "seed"] [].
(** comet.py:37,73 *)
Definition Comet_c := direct ["N"; "k"] ["coords"].
(** community.py:59-73,279 *)
Definition Community_c := direct ["N"; "Nc"; "min_comm"; "min_deg"; "comm_sizes"; "size_ratio"; "world_density"; "comm_density"; "k_neigh"; "epsilon"; "seed"] ["coords"].
(** davidsensornet.py:30,58 *)
Definition DavidSensorNet_c := direct ["N"; "seed"] ["coords"; "plotting"].
(** fullconnected.py:27,31 *)
Definition FullConnected_c := direct ["N"] ["plotting"].
(** grid2d.py:40,89 *)
Definition Grid2d_c := direct ["N1"; "N2"; "diagonal"] ["coords"; "plotting"].
(** linegraph.py:34,53 *)
Definition LineGraph_c := Class (mksig [("graph", false)] true) Graph_c [Made] (made ["coords"; "plotting"]).
(** logo.py:21,33 *)
Definition Logo_c := direct [] ["coords"; "plotting"].
(** lowstretchtree.py:29,87 *)
Definition LowStretchTree_c := direct ["k"] ["coords"; "plotting"].
(** minnesota.py:33,52 *)
Definition Minnesota_c := direct ["connected"] ["coords"; "plotting"].
(** path.py:59,73 *)
Definition Path_c := direct ["N"; "directed"] ["plotting"].
(** randomregular.py:49,103 *)
Definition RandomRegular_c := direct ["N"; "k"; "max_iter"; "seed"] [].
(** randomring.py:33,75 *)
Definition RandomRing_c := direct ["N"; "angles"; "seed"] ["coords"; "plotting"].
(** ring.py:55,88 *)
Definition Ring_c := direct ["N"; "k"] ["plotting"].
(** stochasticblockmodel.py:61-75,165 *)
Definition SBM_c := direct ["N"; "k"; "z"; "M"; "p"; "q"; "directed"; "self_loops"; "connected"; "n_try"; "seed"] [].
(** swissroll.py:45-57,105 *)
Definition SwissRoll_c := direct ["N"; "a"; "b"; "dim"; "thresh"; "s"; "noise"; "srtype"; "seed"] ["coords"; "plotting"].
(** torus.py:38,107 *)
Definition Torus_c := direct ["Nv"; "Mv"] ["coords"; "plotting"].
(** star.py:31-34: [plotting] is a new dict, and stays in kwargs *)
Definition Star_c := Class (mksig (opt ["N"]) true) Comet_c [Own "N"; Made] (made ["plotting"]).
(** erdosrenyi.py:40-61 *)
Definition ErdosRenyi_c := Class (mksig (opt ["N"; "p"; "directed"; "self_loops"; "connected"; "n_try"; "seed"]) true) SBM_c []
  (("N", Own "N") :: ("k", Made) :: map (fun x => (x, Own x)) ["p"; "directed"; "self_loops"; "connected"; "n_try"; "seed"]).
(** nngraph.py:92-107,299 *)
Definition NNGraph_c := Class
  (mksig (("Xin", false) :: opt ["NNtype"; "use_flann"; "center"; "rescale"; "k"; "sigma"; "epsilon"; "plotting"; "symmetrize_type"; "dist_type"; "order"]) true)
  Graph_c [Made] [("plotting", Own "plotting"); ("coords", Made)].
(** bunny.py:25,35-43 *)
Definition Bunny_c := Class (mksig [] true) NNGraph_c [] (made ["Xin"; "epsilon"; "NNtype"; "center"; "rescale"; "plotting"]).
(** cube.py:35-37,83-85 *)
Definition Cube_c := Class (mksig (opt ["radius"; "nb_pts"; "nb_dim"; "sampling"; "seed"]) true) NNGraph_c [] (made ["Xin"; "k"; "center"; "rescale"; "plotting"]).
(** sphere.py:35-37,58-60 *)
Definition Sphere_c := Class (mksig (opt ["radius"; "nb_pts"; "nb_dim"; "sampling"; "seed"]) true) NNGraph_c [] (made ["Xin"; "k"; "center"; "rescale"; "plotting"]).
(** sensor.py:50,73-75 *)
Definition Sensor_c := Class (mksig (opt ["N"; "k"; "distributed"; "seed"]) true) NNGraph_c []
  [("Xin", Made); ("k", Own "k"); ("rescale", Made); ("center", Made); ("plotting", Made)].
(** twomoons.py:65-75,106-114 *)
Definition TwoMoons_c := Class (mksig (opt ["moontype"; "dim"; "sigmag"; "N"; "sigmad"; "distance"; "seed"]) true) NNGraph_c []
  [("Xin", Made); ("sigma", Own "sigmag"); ("k", Made); ("center", Made); ("rescale", Made); ("plotting", Made)].
(** imgpatches.py:51,100 *)
Definition ImgPatches_c := Class (mksig (("img", false) :: opt ["patch_shape"]) true) NNGraph_c [Made] [].
(** grid2dimgpatches.py:37-42 *)
Definition Grid2dImgPatches_c := Both (mksig (("img", false) :: opt ["aggregate"]) true) ImgPatches_c [Own "img"] []
  Graph_c [Made] (made ["coords"; "plotting"]).

(** ** Functions that never get past a wrong call or an unbound name *)

(** A name looked up in the scopes visible at that point. *)
Definition py_name (scope : list string) (x : string) : res unit := if mem x scope then Ok tt else Raise NameError.
(** An attribute looked up on an object whose attributes are known. *)
Definition py_attr (attrs : list string) (x : string) : res unit := if mem x attrs then Ok tt else Raise AttributeError.

(** reduction.py:634: _tree_depths begins with [graphs.Graph(A=A)].  The rest, from line 635, is not modelled: it
    answers [rest] here. *)
Definition tree_depths {T} (rest : res T) : res T :=
  bindr (py_bind (V := unit) (mksig (("adjacency", false) :: opt ["lap_type"; "coords"; "plotting"]) false) [] [("A", tt)]) (fun _ => rest).
(** reduction.py:690-704: [basis] is the outcome of G.compute_fourier_basis() (run if compute_full_eigen), [depths] and [levels] what
    the unmodelled rest of _tree_depths and the loop of lines 706-787 would do. *)
Definition tree_multiresolution {T U} (compute_full_eigen : bool) (basis : res unit) (depths : res T) (levels : T -> res U) : res U :=
  bindr (if compute_full_eigen then basis else Ok tt) (fun _ => bindr (tree_depths depths) levels).

(** The names visible in prox_tv (optimization.py:6-103): parameters and local names, module, builtins (the few used). *)
Definition prox_scope : list string :=
  ["x"; "gamma"; "G"; "A"; "At"; "nu"; "tol"; "maxit"; "use_matrix"; "tight"; "l1_nu"; "l1_a"; "l1_at"; "functions"; "_";
   "utils"; "logger"; "_import_pyunlocbox"; "prox_tv"].
(** optimization.py:71-103: [lmax] is the outcome of reading G.lmax, [pyunlocbox] that of the import.  The arguments of the
    last call are looked up in order; [norm_l1] is what the call would answer. *)
Definition prox_tv {T} (lmax pyunlocbox : res unit) (norm_l1 : res T) : res T :=
  bindr lmax (fun _ => bindr pyunlocbox (fun _ =>
  bindr (fold_left (fun r x => bindr r (fun _ => py_name prox_scope x))
           ["functions"; "x"; "gamma"; "l1_a"; "l1_at"; "tight"; "maxit"; "verbose"; "tol"] (Ok tt)) (fun _ => norm_l1))).

(** The attributes of a filter bank (filter.py:56-69 and the methods of the class). *)
Definition filter_attributes : list string :=
  ["G"; "_kernels"; "n_features_in"; "n_features_out"; "shape"; "n_filters"; "Nf"; "_get_extra_repr"; "toarray"; "evaluate"; "filter";
   "analyze"; "synthesize"; "localize"; "estimate_frame_bounds"; "compute_frame"; "complement"; "inverse"; "plot"].
(** approximations.py:246-278: [extra] are further attributes, set by subclasses (filters/*.py); [rest] is what lines 249-278 would answer. *)
Definition lanczos_op_call {T} (extra : list string) (rest : res T) : res T :=
  bindr (py_attr (filter_attributes ++ extra) "G") (fun _ => bindr (py_attr (filter_attributes ++ extra) "g") (fun _ => rest)).
