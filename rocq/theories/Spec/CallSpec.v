(** Which keyword arguments the graph classes take, as a user would tabulate it.  Models no code. *)
From Coq Require Import List String.
From Verif.Model Require Import PyCall.
Import ListNotations.
Open Scope string_scope.
Open Scope list_scope.

(** A row: the class, its own parameters in order (those it computes with), those without default among them, the further
    keywords it accepts. *)
Record row := mkrow { r_class : cls; r_params : list string; r_required : list string; r_more : list string }.
Definition nn_keywords : list string :=
  ["Xin"; "NNtype"; "use_flann"; "center"; "rescale"; "k"; "sigma"; "epsilon"; "plotting"; "symmetrize_type"; "dist_type"; "order"].
Definition class_table : list row := [
  mkrow Graph_c ["adjacency"; "lap_type"; "coords"; "plotting"] ["adjacency"] [];
  mkrow Airfoil_c [] [] ["lap_type"];
  mkrow BarabasiAlbert_c ["N"; "m0"; "m"; "seed"] [] ["lap_type"; "coords"; "plotting"];
  mkrow Comet_c ["N"; "k"] [] ["lap_type"; "plotting"];
  mkrow Community_c ["N"; "Nc"; "min_comm"; "min_deg"; "comm_sizes"; "size_ratio"; "world_density"; "comm_density"; "k_neigh"; "epsilon"; "seed"] []
    ["lap_type"; "plotting"];
  mkrow DavidSensorNet_c ["N"; "seed"] [] ["lap_type"];
  mkrow ErdosRenyi_c ["N"; "p"; "directed"; "self_loops"; "connected"; "n_try"; "seed"] [] ["z"; "M"; "q"; "lap_type"; "coords"; "plotting"];
  mkrow FullConnected_c ["N"] [] ["lap_type"; "coords"];
  mkrow Grid2d_c ["N1"; "N2"; "diagonal"] [] ["lap_type"];
  mkrow LineGraph_c ["graph"] ["graph"] ["lap_type"];
  mkrow Logo_c [] [] ["lap_type"];
  mkrow LowStretchTree_c ["k"] [] ["lap_type"];
  mkrow Minnesota_c ["connected"] [] ["lap_type"];
  mkrow Path_c ["N"; "directed"] [] ["lap_type"; "coords"];
  mkrow RandomRegular_c ["N"; "k"; "max_iter"; "seed"] [] ["lap_type"; "coords"; "plotting"];
  mkrow RandomRing_c ["N"; "angles"; "seed"] [] ["lap_type"];
  mkrow Ring_c ["N"; "k"] [] ["lap_type"; "coords"];
  mkrow Star_c ["N"] [] ["lap_type"];
  mkrow SBM_c ["N"; "k"; "z"; "M"; "p"; "q"; "directed"; "self_loops"; "connected"; "n_try"; "seed"] [] ["lap_type"; "coords"; "plotting"];
  mkrow SwissRoll_c ["N"; "a"; "b"; "dim"; "thresh"; "s"; "noise"; "srtype"; "seed"] [] ["lap_type"];
  mkrow Torus_c ["Nv"; "Mv"] [] ["lap_type"];
  mkrow NNGraph_c nn_keywords ["Xin"] ["lap_type"];
  mkrow Bunny_c [] [] ["use_flann"; "k"; "sigma"; "symmetrize_type"; "dist_type"; "order"; "lap_type"];
  mkrow Cube_c ["radius"; "nb_pts"; "nb_dim"; "sampling"; "seed"] []
    ["NNtype"; "use_flann"; "sigma"; "epsilon"; "symmetrize_type"; "dist_type"; "order"; "lap_type"];
  mkrow Sphere_c ["radius"; "nb_pts"; "nb_dim"; "sampling"; "seed"] []
    ["NNtype"; "use_flann"; "sigma"; "epsilon"; "symmetrize_type"; "dist_type"; "order"; "lap_type"];
  mkrow Sensor_c ["N"; "k"; "distributed"; "seed"] []
    ["NNtype"; "use_flann"; "sigma"; "epsilon"; "symmetrize_type"; "dist_type"; "order"; "lap_type"];
  mkrow TwoMoons_c ["moontype"; "dim"; "sigmag"; "N"; "sigmad"; "distance"; "seed"] []
    ["NNtype"; "use_flann"; "epsilon"; "symmetrize_type"; "dist_type"; "order"; "lap_type"];
  mkrow ImgPatches_c ["img"; "patch_shape"] ["img"]
    ["NNtype"; "use_flann"; "center"; "rescale"; "k"; "sigma"; "epsilon"; "plotting"; "symmetrize_type"; "dist_type"; "order"; "lap_type"];
  mkrow Grid2dImgPatches_c ["img"; "aggregate"] ["img"]
    ["patch_shape"; "NNtype"; "use_flann"; "center"; "rescale"; "k"; "sigma"; "epsilon"; "plotting"; "symmetrize_type"; "dist_type"; "order"; "lap_type"]].

(** The value the caller gives to parameter [p] of a function with parameters [params]: positionally or by keyword. *)
Fixpoint position (p : string) (l : list string) : option nat :=
  match l with [] => None | x :: r => if String.eqb p x then Some O else option_map S (position p r) end.
Definition given {V} (params : list string) (pos : list V) (kws : list (string * V)) (p : string) : option V :=
  match position p (firstn (List.length pos) params) with Some i => nth_error pos i | None => assoc p kws end.

(** What a class built on another class hands to it.  [Chosen]: its own choice; [From p]: its own parameter p; [Users q]: whatever the caller gives as q. *)
Inductive source := Chosen | From (p : string) | Users (q : string).
Record heir := mkheir { h_row : row; h_params : list string; h_source : string -> source }.
Fixpoint lookup (l : list (string * source)) (q : string) : source := match l with [] => Users q | (p, s) :: r => if String.eqb q p then s else lookup r q end.
Definition row_of (c : cls) (ps : list string) : row := mkrow c ps [] [].
Definition chosen (l : list string) : list (string * source) := map (fun x => (x, Chosen)) l.
Definition cloud_params : list string := ["radius"; "nb_pts"; "nb_dim"; "sampling"; "seed"].
Definition sbm_params : list string := ["N"; "k"; "z"; "M"; "p"; "q"; "directed"; "self_loops"; "connected"; "n_try"; "seed"].
Definition er_params : list string := ["N"; "p"; "directed"; "self_loops"; "connected"; "n_try"; "seed"].
Definition heir_table : list heir := [
  mkheir (row_of Star_c ["N"]) ["N"; "k"] (lookup [("N", From "N"); ("k", Chosen)]);
  mkheir (row_of ErdosRenyi_c er_params) sbm_params (lookup (("k", Chosen) :: map (fun x => (x, From x)) er_params));
  mkheir (row_of Bunny_c []) nn_keywords (lookup (chosen ["Xin"; "epsilon"; "NNtype"; "center"; "rescale"; "plotting"]));
  mkheir (row_of Cube_c cloud_params) nn_keywords (lookup (chosen ["Xin"; "k"; "center"; "rescale"; "plotting"]));
  mkheir (row_of Sphere_c cloud_params) nn_keywords (lookup (chosen ["Xin"; "k"; "center"; "rescale"; "plotting"]));
  mkheir (row_of Sensor_c ["N"; "k"; "distributed"; "seed"]) nn_keywords (lookup (("k", From "k") :: chosen ["Xin"; "center"; "rescale"; "plotting"]));
  mkheir (row_of TwoMoons_c ["moontype"; "dim"; "sigmag"; "N"; "sigmad"; "distance"; "seed"]) nn_keywords
    (lookup (("sigma", From "sigmag") :: chosen ["Xin"; "k"; "center"; "rescale"; "plotting"]));
  mkheir (row_of ImgPatches_c ["img"; "patch_shape"]) nn_keywords (lookup (chosen ["Xin"]));
  mkheir (row_of Grid2dImgPatches_c ["img"; "aggregate"]) ["img"; "patch_shape"] (lookup [("img", From "img")])].
