(** Model of the generators that draw (or cut out) points and connect them:
    pygsp/graphs/nngraphs/{sensor,cube,sphere,twomoons,imgpatches,grid2dimgpatches}.py, pygsp/graphs/{swissroll,davidsensornet}.py.
    Random draws are arguments.  Not modelled: the contents of the data files, plotting, __repr__; floating-point rounding except
    the length of np.mgrid in [Sensor]. *)
From Coq Require Import Reals ZArith List Arith Bool String SpecFloat.
From Coq Require Import List.
From Verif.Base Require Import RSum Prelude.
From Verif.Spec Require Import Matrix.
From Verif.Model Require Import Sparse Graph Reduction Random Utils Generators NNGraph.
Import ListNotations.
Open Scope R_scope.
Open Scope list_scope.

(** The keyword arguments of NNGraph that every generator below forwards (nngraph.py:92-109).  [o_query] answers the neighbour query. *)
Record nnopt := mknnopt { o_nntype : string; o_eps : R; o_sym : string; o_dist : dist_type; o_query : nat -> list nat; o_lap : laptype }.
Definition nn_raw (N d : nat) (X : mat) (k : nat) (sigma : option R) (o : nnopt) : res graph :=
  NNGraph N d X (o_nntype o) false false k sigma (o_eps o) (o_sym o) (o_dist o) (o_query o) (o_lap o).

(** ** Sensor *)
(** Double-precision numbers.  np.mgrid[0:1:step] has int(math.ceil((1 - 0) / step)) points along each axis; here step = 1 / m. *)
Definition b64_of_nat (n : nat) : spec_float := binary_normalize 53 1024 (Z.of_nat n) 0 false.
Definition b64_div (x y : spec_float) : spec_float := SFdiv 53 1024 x y.
Definition b64_ceil (x : spec_float) : Z :=
  match x with
  | S754_finite s m e => let z := if s then Zneg m else Zpos m in if Z.leb 0 e then (z * 2 ^ e)%Z else (- ((- z) / 2 ^ (- e)))%Z
  | _ => 0%Z
  end.
Definition mgrid_len (m : nat) : nat := Z.to_nat (b64_ceil (b64_div (b64_of_nat 1) (b64_div (b64_of_nat 1) (b64_of_nat m)))).
(** sensor.py:56-71, N >= 1 when distributed.  [u v c] is the uniform draw in [0,1) that rng.uniform scales to its interval.
    Line 68 adds an N x 2 array in place: another number of grid points is an error. *)
Definition sensor_points (N : nat) (distributed : bool) (u : mat) : res mat :=
  if distributed then
    let m := Nat.sqrt N in
    if negb (Nat.eqb (m * m) N) then Raise ValueError
    else if negb (Nat.eqb (mgrid_len m * mgrid_len m) N) then Raise ValueError
    else Ok (fun v c => INR (if Nat.eqb c 0 then v / m else v mod m) / INR m + u v c / INR m)
  else Ok u.
(** sensor.py:50-75 *)
Definition Sensor (N k : nat) (distributed : bool) (u : mat) (sigma : option R) (o : nnopt) : res graph :=
  bindr (sensor_points N distributed u) (fun X => nn_raw N 2 X k sigma o).

(** ** Cube *)
(** cube.py:52-71: [u] is the stream of numbers drawn by the successive calls of rs.rand *)
Definition cube_face (n : nat) (u : nat -> R) (f r c : nat) : R :=
  match f, c with
  | 0, 0 => 0 | 0, 1 => u (2 * r)%nat | 0, _ => u (2 * r + 1)%nat
  | 1, 0 => 1 | 1, 1 => u (2 * n + 2 * r)%nat | 1, _ => u (2 * n + 2 * r + 1)%nat
  | 2, 0 => u (4 * n + r)%nat | 2, 1 => 0 | 2, _ => u (5 * n + r)%nat
  | 3, 0 => u (6 * n + r)%nat | 3, 1 => 1 | 3, _ => u (7 * n + r)%nat
  | 4, 0 => u (8 * n + 2 * r)%nat | 4, 1 => u (8 * n + 2 * r + 1)%nat | 4, _ => 0
  | _, 0 => u (10 * n + 2 * r)%nat | _, 1 => u (10 * n + 2 * r + 1)%nat | _, _ => 1
  end.
(** cube.py:45-74: number of points, dimension, points.  Nothing defines pts when nb_dim is below 2. *)
Definition cube_points (nb_pts nb_dim : nat) (sampling : string) (u : nat -> R) : res (nat * nat * mat) :=
  if Nat.ltb 3 nb_dim then Raise NotImplementedError
  else if String.eqb sampling "random" then
    if Nat.eqb nb_dim 2 then Ok (nb_pts, 2%nat, fun v c => u (v * 2 + c)%nat)
    else if Nat.eqb nb_dim 3 then let n := (nb_pts / 6)%nat in Ok ((n * 6)%nat, 3%nat, fun v c => cube_face n u (v / n) (v mod n) c)
    else Raise UnboundLocalError
  else Raise ValueError.
(** cube.py:35-85 *)
Definition Cube (radius : R) (nb_pts nb_dim : nat) (sampling : string) (u : nat -> R) (sigma : option R) (o : nnopt) : res graph :=
  bindr (cube_points nb_pts nb_dim sampling u) (fun p => nn_raw (fst (fst p)) (snd (fst p)) (snd p) 10 sigma o).

(** ** Sphere *)
(** sphere.py:46-49, nb_dim >= 1.  A row of zeros is divided by zero; the NaN it yields are rejected by KDTree (or the number of points
    is rejected before, with the same error). *)
Definition sphere_points (N d : nat) (z : mat) : res mat :=
  let norm i := sqrt (\sum_(c < d) (z i c * z i c)) in
  if existsb (fun i => Reqb (norm i) 0) (seq 0 N) then Raise ValueError else Ok (fun i c => z i c / norm i).
(** sphere.py:35-60; [z] are the normal draws *)
Definition Sphere (radius : R) (nb_pts nb_dim : nat) (sampling : string) (z : mat) (sigma : option R) (o : nnopt) : res graph :=
  if String.eqb sampling "random" then bindr (sphere_points nb_pts nb_dim z) (fun X => nn_raw nb_pts nb_dim X 10 sigma o)
  else Raise ValueError.

(** ** TwoMoons *)
(** what one generator draws in _create_arc_moon: two uniform arrays and a normal one *)
Record moon_draw := mkmoon { md_phi : nat -> R; md_rb : nat -> R; md_ab : nat -> R }.
(** twomoons.py:46-63: [second] is number == 2 *)
Definition arc_moon (sigmad distance : R) (second : bool) (m : moon_draw) : mat := fun i c =>
  let phi := md_phi m i * PI in
  let rb := sigmad * md_rb m i in
  let ab := md_ab m i * 2 * PI in
  let bx := rb * cos ab in
  let by_ := rb * sin ab in
  if second then match c with O => cos phi * 1 + bx - 1 / 2 | _ => sin phi * 1 + by_ + (distance - 1) / 2 end
  else match c with O => cos phi * 1 + bx + 1 / 2 | _ => - sin phi * 1 + by_ - (distance - 1) / 2 end.
(** The generators: a seed determines what a generator draws for a given size; without seed each one is fresh ([nth] tells them apart). *)
Record entropy := mkentropy { seeded : nat -> nat -> moon_draw; fresh : nat -> nat -> moon_draw }.
Definition moon_rng (e : entropy) (seed : option nat) (nth N : nat) : moon_draw :=
  match seed with Some s => seeded e s N | None => fresh e nth N end.
(** twomoons.py:83-98: sizes of the two classes, dimension, points.  [features] is the array of the data file, [frows] x 2000. *)
Definition moon_points (frows : nat) (features : mat) (moontype : string) (dim N : nat) (sigmad distance : R) (seed : option nat) (e : entropy)
  : res (nat * nat * nat * mat) :=
  if String.eqb moontype "standard" then Ok (1000%nat, 1000%nat, Nat.min dim frows, fun i c => features c i)
  else if String.eqb moontype "synthesized" then
    let N1 := (N / 2)%nat in let N2 := (N - N1)%nat in
    let m1 := arc_moon sigmad distance false (moon_rng e seed 0 N1) in
    let m2 := arc_moon sigmad distance true (moon_rng e seed 1 N2) in
    Ok (N1, N2, 2%nat, fun i c => if Nat.ltb i N1 then m1 i c else m2 (i - N1)%nat c)
  else Raise ValueError.
(** twomoons.py:65-114: the labels and the graph *)
Definition TwoMoons (frows : nat) (features : mat) (moontype : string) (dim : nat) (sigmag : R) (N : nat) (sigmad distance : R)
  (seed : option nat) (e : entropy) (o : nnopt) : res (list R * graph) :=
  bindr (moon_points frows features moontype dim N sigmad distance seed e) (fun p =>
  let '(N1, N2, d, X) := p in
  bindr (nn_raw (N1 + N2) d X 5 (Some sigmag) o) (fun G => Ok (repeat 0 N1 ++ repeat 1 N2, G))).

(** ** SwissRoll *)
(** swissroll.py:74-78 *)
Definition roll_angle (srtype : string) (a b y1 : R) : res R :=
  if String.eqb srtype "uniform" then Ok (sqrt ((b * b - a * a) * y1 + a * a) * PI)
  else if String.eqb srtype "classic" then Ok (((b - a) * y1 + a) * PI)
  else Raise UnboundLocalError.
(** swissroll.py:70-86: dim x N array.  [y1], [y2] uniform draws, [z] normal draws *)
Definition roll_points (dim : nat) (srtype : string) (noise : bool) (a b : R) (y1 y2 : nat -> R) (z : mat) : res mat :=
  if negb (String.eqb srtype "uniform" || String.eqb srtype "classic") then Raise UnboundLocalError
  else if negb (Nat.eqb dim 2 || Nat.eqb dim 3) then Raise UnboundLocalError
  else Ok (fun c i =>
    let tt := match roll_angle srtype a b (y1 i) with Ok t => t | Raise _ => 0 end in
    let x := if Nat.eqb dim 2 then match c with O => tt * cos tt | _ => tt * sin tt end
             else match c with O => tt * cos tt | S O => 21 * y2 i | _ => tt * sin tt end in
    if noise then x + z c i else x).
(** the rows of [rescale_center] before the division (utils.py:304-309): all zero when no row varies *)
Definition constant_rows (d n : nat) (x : mat) : bool := forallb (fun c => forallb (fun i => Reqb (x c i) (x c 0%nat)) (seq 0 n)) (seq 0 d).
(** swissroll.py:93-95 *)
Definition roll_weights (thresh s : R) (D : mat) : mat := fun i j =>
  let w := exp (- (D i j * D i j) / (2 * (s * s))) in
  let w := w - (if Nat.eqb i j then w else 0) in
  if Rltb w thresh then 0 else w.
(** swissroll.py:45-105, N >= 1 when s is not given.  Constant rows are divided by zero, and with s = 0 the diagonal is 0/0: the graph
    rejects the NaN.  Result: the attribute x and the graph. *)
Definition SwissRoll (N : nat) (a b : R) (dim : nat) (thresh : R) (s : option R) (noise : bool) (srtype : string)
  (y1 y2 : nat -> R) (z : mat) (lap : laptype) : res (mat * graph) :=
  let s := match s with Some s => s | None => sqrt (2 / INR N) end in
  bindr (roll_points dim srtype noise a b y1 y2 z) (fun x =>
  bindr (rescale_center dim N x) (fun y =>
  if (constant_rows dim N x || Reqb s 0)%bool then Raise ValueError
  else bindr (distanz (Pts2 dim N y) None) (fun D =>
  bindr (graph_init (InDense [N; N] (map Fin (dense N (roll_weights thresh s D)))) lap (Some (map (fun i => map (fun c => y c i) (seq 0 dim)) (seq 0 N))))
    (fun G => Ok (x, G))))).

(** ** DavidSensorNet *)
(** davidsensornet.py:48, 51-54; T = 0.6 *)
Definition david_cutoff (N : nat) : R := - (125 / 1000) * INR N / (436075 / 1000) + 2183 / 10000.
Definition david_weights (N : nat) (D : mat) : mat := fun i j =>
  let s := sqrt (- (david_cutoff N * david_cutoff N) / (2 * ln (6 / 10))) in
  let w := exp (- (D i j * D i j) / (2 * (s * s))) in
  let w := if Rltb w (6 / 10) then 0 else w in
  if Nat.eqb i j then 0 else w.
(** davidsensornet.py:30-58.  [file N] is the graph of the data files (N = 64, 500), [u] the uniform draws *)
Definition DavidSensorNet (N : nat) (file : nat -> res graph) (u : mat) (lap : laptype) : res graph :=
  if (Nat.eqb N 64 || Nat.eqb N 500)%bool then file N
  else bindr (distanz (Pts2 2 N (fun c i => u i c)) None) (fun D =>
  graph_init (InDense [N; N] (map Fin (dense N (david_weights N D)))) lap (Some (map (fun i => map (fun c => u i c) (seq 0 2)) (seq 0 N)))).

(** ** ImgPatches *)
(** An image: its shape and its values (row, column, channel). *)
Record image := mkimage { im_shape : list nat; im_get : nat -> nat -> nat -> R }.
(** int((r - 0.5) / 2.0), int((r + 0.5) / 2.0): imgpatches.py:70-73 *)
Definition pad_before (r : nat) : nat := ((2 * r - 1) / 4)%nat.
Definition pad_after (r : nat) : nat := ((2 * r + 1) / 4)%nat.
(** np.pad(mode='symmetric') along an axis of length h: the position read at distance t - before from the start *)
Definition reflect (h : nat) (t : Z) : nat :=
  let q := Z.to_nat (t mod (2 * Z.of_nat h)) in if Nat.ltb q h then q else (2 * h - 1 - q)%nat.
(** imgpatches.py:55-62: None is the case where nothing is assigned *)
Definition image_dims (s : list nat) : option (nat * nat * nat) :=
  match s with [h; w; d] => Some (h, w, d) | [h; w] => Some (h, w, 0%nat) | _ => None end.
(** imgpatches.py:64-68 *)
Definition patch_dims (p : list nat) : res (nat * nat) :=
  match p with [r; c] => Ok (r, c) | r :: _ => Ok (r, r) | [] => Raise IndexError end.
(** imgpatches.py:55-98: number of pixels, length of a patch, patches.  [skimage] tells whether it can be imported.  A third dimension of
    size 0 makes pad_width one entry short; np.pad refuses to extend an empty axis; view_as_windows refuses an empty window; the reshape
    needs as many windows as pixels. *)
Definition img_patches (skimage : bool) (im : image) (patch_shape : list nat) : res (nat * nat * mat) :=
  bindr (patch_dims patch_shape) (fun rc => let '(r, c) := rc in
  match image_dims (im_shape im) with
  | None => Raise UnboundLocalError
  | Some (h, w, d) =>
    if (Nat.eqb d 0 && Nat.eqb (List.length (im_shape im)) 3)%bool then Raise ValueError
    else let d := if Nat.eqb d 0 then 1%nat else d in
    let H := (pad_before r + h + pad_after r)%nat in
    let W := (pad_before c + w + pad_after c)%nat in
    if (Nat.eqb h 0 && negb (Nat.eqb H 0) || Nat.eqb w 0 && negb (Nat.eqb W 0))%bool then Raise ValueError
    else if negb skimage then Raise ImportError
    else if (Nat.ltb H r || Nat.ltb W c || Nat.ltb r 1 || Nat.ltb c 1)%bool then Raise ValueError
    else if negb (Nat.eqb ((H - r + 1) * (W - c + 1)) (h * w)) then Raise ValueError
    else Ok ((h * w)%nat, (r * c * d)%nat, fun v f =>
      let i := (v / (W - c + 1))%nat in let j := (v mod (W - c + 1))%nat in
      let a := (f / (c * d))%nat in let b := ((f / d) mod c)%nat in let e := (f mod d)%nat in
      im_get im (reflect h (Z.of_nat (i + a) - Z.of_nat (pad_before r))) (reflect w (Z.of_nat (j + b) - Z.of_nat (pad_before c))) e)
  end).
(** imgpatches.py:51-100; every keyword argument of NNGraph is forwarded *)
Definition ImgPatches (skimage : bool) (im : image) (patch_shape : list nat) (center rescale : bool) (k : nat) (sigma : option R) (o : nnopt) : res graph :=
  bindr (img_patches skimage im patch_shape) (fun p =>
  NNGraph (fst (fst p)) (snd (fst p)) (snd p) (o_nntype o) center rescale k sigma (o_eps o) (o_sym o) (o_dist o) (o_query o) (o_lap o)).
(** grid2dimgpatches.py:37-42.  [aggregate] acts on the two weight matrices (default: their sum).  The result keeps the default type of
    Laplacian. *)
Definition Grid2dImgPatches (aggregate : mat -> mat -> mat) (skimage : bool) (im : image) (patch_shape : list nat) (center rescale : bool)
  (k : nat) (sigma : option R) (o : nnopt) : res graph :=
  match im_shape im with
  | h :: w :: _ =>
    bindr (Grid2d h (Some w) 0 Combinatorial) (fun Gg =>
    bindr (ImgPatches skimage im patch_shape center rescale k sigma o) (fun Gp =>
    let N := (h * w)%nat in
    graph_init (InDense [N; N] (map Fin (dense N (aggregate (get (gW Gp)) (get (gW Gg)))))) Combinatorial (g_coords Gg)))
  | _ => Raise IndexError
  end.
