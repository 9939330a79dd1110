(** Model of pygsp/graphs/_layout.py: set_coordinates and the Fruchterman-Reingold layout. *)
From Coq Require Import Reals List Arith Bool String.
From Coq Require Import List.
From Verif.Base Require Import RSum Prelude.
From Verif.Spec Require Import Matrix NdArray.
From Verif.Model Require Import Sparse Graph.
Import ListNotations.
Open Scope R_scope.
Open Scope list_scope.

(** _layout.py:32-41: coordinates given as an array.  A squeezed array without dimension makes [coords.shape[0]] fail. *)
Definition set_array (N : nat) (a : arr) : res arr :=
  let c := squeeze a in
  match shape c with
  | [] => Raise IndexError
  | n :: r =>
      let check_1d := Nat.eqb (List.length r) 0 in
      let check_2d_3d := (Nat.eqb (List.length r) 1 && Nat.leb 2 (nth 0 r 0%nat) && Nat.leb (nth 0 r 0%nat) 3)%bool in
      if (negb (Nat.eqb n N) || negb (check_1d || check_2d_3d))%bool then Raise ValueError else Ok c
  end.

(** Coordinates as N points of dimension d. *)
Definition points (N d : nat) (x : nat -> nat -> R) : arr := mat_arr N d x.

(** _layout.py:43-62: the layouts computed from the number of vertices, or drawn ([u i d]: the draws of
    [rng.uniform], in [0, 1)). *)
Definition line1D (N : nat) : arr := vec_arr N INR.
Definition line2D (N : nat) : arr := points N 2 (fun i d => if Nat.eqb d 0 then INR i else 0).
Definition ring2D (N : nat) : arr :=
  points N 2 (fun i d => let angle := INR i * 2 * PI / INR N in if Nat.eqb d 0 then cos angle else sin angle).
Definition random2D (N : nat) (u : nat -> nat -> R) : arr := points N 2 u.
Definition random3D (N : nat) (u : nat -> nat -> R) : arr := points N 3 u.

(** _layout.py:64-111: the dictionary [self.info] as far as it is used; labels are natural numbers. *)
Record info := mkinfo { i_com : option (list nat); i_rad : option R; i_sizes : option (list nat) }.

(** _layout.py:80-89: centre number j (from 0) of Nc. *)
Definition com_centre (rad : R) (Nc j d : nat) : R :=
  rad * (let a := 2 * PI * INR (j + 1) / INR Nc in if Nat.eqb d 0 then cos a else sin a).

(** _layout.py:104-111: the loop over the vertices. *)
Fixpoint com_check (z sizes : list nat) (vs : list nat) : res unit :=
  match vs with
  | [] => Ok tt
  | i :: r => match nth_error z i with
              | None => Raise IndexError
              | Some c => if Nat.ltb c (List.length sizes) then com_check z sizes r else Raise IndexError
              end
  end.

(** _layout.py:64-111 [community2D]: the ValueError of line 66 is built but not raised; [Counter] (line 75) is not imported,
    so that missing sizes give a NameError.  For N >= 1 (without vertex the array has another shape).  Returns the coordinates and the updated [info]. *)
Definition community2D (N : nat) (inf : option info) (u : nat -> nat -> R) : res (arr * info) :=
  match inf with
  | None => Raise AttributeError
  | Some inf =>
      let rad := match i_rad inf with Some r => r | None => sqrt (INR N) end in
      match i_sizes inf with
      | None => Raise NameError
      | Some sizes =>
          match (match i_com inf with Some z => com_check z sizes (seq 0 N) | None => if Nat.eqb N 0 then Ok tt else Raise KeyError end) with
          | Raise e => Raise e
          | Ok _ =>
              let com := fun i => nth i (match i_com inf with Some z => z | None => [] end) 0%nat in
              Ok (points N 2 (fun i d => com_centre rad (List.length sizes) (com i) d +
                    sqrt (INR (nth (com i) sizes 0%nat)) * (u i 0%nat * (if Nat.eqb d 0 then cos (2 * PI * u i 1%nat) else sin (2 * PI * u i 1%nat)))),
                  mkinfo (i_com inf) (Some rad) (Some sizes))
          end
      end
  end.

(** ** Fruchterman-Reingold *)

Section FR.
Variables (N dim : nat) (adj : nat -> nat -> bool) (k : R) (fixed : list nat).

(** _layout.py:200-205: distance between two points, at least 0.01. *)
Definition fr_dist (pos : nat -> nat -> R) (i j : nat) : R :=
  let r := sqrt (\sum_(d < dim) (pos i d - pos j d) ^ 2) in if Rltb r 0.01 then 0.01 else r.

(** _layout.py:196-211: the force on vertex i; none on a fixed vertex. *)
Definition fr_disp (pos : nat -> nat -> R) (d i : nat) : R :=
  if existsb (Nat.eqb i) fixed then 0
  else \sum_(j < N) ((pos i d - pos j d) * (k * k / fr_dist pos i j ^ 2 - (if adj i j then 1 else 0) * fr_dist pos i j / k)).

(** _layout.py:213-214. *)
Definition fr_len (pos : nat -> nat -> R) (i : nat) : R :=
  let r := sqrt (\sum_(d < dim) fr_disp pos d i ^ 2) in if Rltb r 0.01 then 0.1 else r.

(** _layout.py:215. *)
Definition fr_step (t : R) (pos : nat -> nat -> R) : nat -> nat -> R :=
  fun i d => pos i d + fr_disp pos d i * t / fr_len pos i.

(** _layout.py:189-217: the loop, with the temperature decreasing by dt. *)
Fixpoint fr_loop (iters : nat) (t dt : R) (pos : nat -> nat -> R) : nat -> nat -> R :=
  match iters with O => pos | S m => fr_loop m (t - dt) dt (fr_step t pos) end.
Definition fr_run (iterations : nat) (pos : nat -> nat -> R) : nat -> nat -> R :=
  fr_loop iterations 0.1 (0.1 / (INR iterations + 1)) pos.
End FR.

(** The largest entry of an N x dim array (np.max; [pos[:, i].max()] for one column). *)
Definition col_max (N : nat) (x : nat -> R) : R := fold_left Rmax (map x (seq 1 (N - 1))) (x 0%nat).
Definition arr_max (N dim : nat) (x : nat -> nat -> R) : R :=
  fold_left Rmax (map (fun d => col_max N (fun i => x i d)) (seq 1 (dim - 1))) (col_max N (fun i => x i 0%nat)).

(** _layout.py:222-233 [_rescale_layout]: None when the limit is 0, where the division gives NaN coordinates. *)
Definition col_mean (N : nat) (x : nat -> R) : R := (\sum_(i < N) x i) / INR N.
Definition centred (N : nat) (pos : nat -> nat -> R) : nat -> nat -> R := fun i d => pos i d - col_mean N (fun i => pos i d).
Definition layout_lim (N dim : nat) (pos : nat -> nat -> R) : R :=
  fold_left (fun lim d => Rmax (col_max N (fun i => centred N pos i d)) lim) (seq 0 dim) 0.
Definition rescale_layout (N dim : nat) (scale : R) (pos : nat -> nat -> R) : option (nat -> nat -> R) :=
  let lim := layout_lim N dim pos in
  if Reqb lim 0 then None else Some (fun i d => centred N pos i d * (scale / lim)).

(** _layout.py:121-166, 169-186 [_fruchterman_reingold] on a graph with N >= 1 vertices.  [center]: the row of a 1 x m array;
    of a wrong size it is replaced by zero.  [pos]: the given positions; [u]: the draws used without them.  None: NaN
    coordinates (division by a zero [k] or a zero extent). *)
Definition spring (N dim : nat) (adj : nat -> nat -> bool) (k : option R) (pos : option (nat -> nat -> R)) (fixed : list nat)
    (iterations : nat) (scale : R) (center : option (list R)) (u : nat -> nat -> R) : option (nat -> nat -> R) :=
  let c := fun d => match center with Some l => if Nat.eqb (List.length l) dim then nth d l 0 else 0 | None => 0 end in
  let dom_size := match pos with None => 1 | Some p => arr_max N dim p end in
  let kk := match k with
            | Some k => k
            | None => if Nat.eqb (List.length fixed) 0 then sqrt (1 / INR N) else dom_size / sqrt (INR N)
            end in
  let p0 := match pos with None => u | Some p => p end in
  if Reqb kk 0 then None
  else
    let p := fr_run N dim adj kk fixed iterations p0 in
    if Nat.eqb (List.length fixed) 0 then
      match rescale_layout N dim scale p with Some q => Some (fun i d => q i d + c d) | None => None end
    else Some p.

(** _layout.py:31-119 [set_coordinates] by name.  [eig m]: the first m eigenvectors computed by the graph, or the exception
    (compute_fourier_basis); the spring layout is called with its default arguments. *)
Definition set_kind (N : nat) (adj : nat -> nat -> bool) (inf : option info) (u : nat -> nat -> R)
    (eig : nat -> res (nat -> nat -> R)) (kind : string) : res (option arr) :=
  if String.eqb kind "line1D" then Ok (Some (line1D N))
  else if String.eqb kind "line2D" then Ok (Some (line2D N))
  else if String.eqb kind "ring2D" then Ok (Some (ring2D N))
  else if String.eqb kind "random2D" then Ok (Some (random2D N u))
  else if String.eqb kind "random3D" then Ok (Some (random3D N u))
  else if String.eqb kind "spring" then
    Ok (match spring N 2 adj None None [] 50 1 None u with Some x => Some (points N 2 x) | None => None end)
  else if String.eqb kind "community2D" then bindr (community2D N inf u) (fun r => Ok (Some (fst r)))
  else if String.eqb kind "laplacian_eigenmap2D" then bindr (eig 3%nat) (fun U => Ok (Some (points N 2 (fun i d => U i (d + 1)%nat))))
  else if String.eqb kind "laplacian_eigenmap3D" then bindr (eig 4%nat) (fun U => Ok (Some (points N 3 (fun i d => U i (d + 1)%nat))))
  else Raise ValueError.
