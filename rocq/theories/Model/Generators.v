(** Model of the deterministic generators: pygsp/graphs/{path,ring,grid2d,torus,comet,star,fullconnected}.py.
    Index arrays are written zipped: the list of (row, column) pairs handed to the sparse constructor with unit weights.
    set_coordinates after the base constructor is modelled as the coordinates argument.  Plotting options are not modelled. *)
From Coq Require Import Reals Lra Lia List Arith Bool String.
From Coq Require Import List.
From Verif.Base Require Import RSum Prelude.
From Verif.Spec Require Import Matrix.
From Verif.Model Require Import Sparse Graph Utils Reduction.
Import ListNotations.
Open Scope R_scope.
Open Scope list_scope.

Definition unit_coo (l : list (nat * nat)) : list (nat * nat * xval) := map (fun p => (p, Fin 1)) l.
Definition unit_init (n : nat) (l : list (nat * nat)) (lap : laptype) (coords : option rowarray) : res graph :=
  graph_init (InCOO n n (unit_coo l)) lap coords.

(** _layout.py:45-47 *)
Definition line2D (N : nat) : rowarray := map (fun i => [INR i; 0]) (seq 0 N).
(** _layout.py:49-51 *)
Definition ring2D (N : nat) : rowarray := map (fun i => let a := INR i * 2 * PI / INR N in [cos a; sin a]) (seq 0 N).

(** path.py:61-69 *)
Definition path_pairs (N : nat) (directed : bool) : list (nat * nat) :=
  if directed then map (fun t => (t, S t)) (seq 0 (N - 1))
  else map (fun t => (t, S t)) (seq 0 (N - 1)) ++ map (fun t => (S t, t)) (seq 0 (N - 1)).
(** path.py:59-75; N = 0 asks numpy for an array of negative length *)
Definition Path (N : nat) (directed : bool) (lap : laptype) : res graph :=
  if Nat.eqb N 0 then Raise ValueError else unit_init N (path_pairs N directed) lap (Some (line2D N)).

(** ring.py:65-82: the arrays are filled exactly when 2k < N (min(k, (N-1)//2) = k) and when 2k = N. In the latter case line 82
    overwrites i_inds where j_inds was meant, and j_inds keeps its initial zeros. *)
Definition ring_pairs (N k : nat) : list (nat * nat) :=
  flat_map (fun i => map (fun t => (t, Nat.modulo (t + i + 1) N)) (seq 0 N) ++ map (fun t => (Nat.modulo (t + i + 1) N, t)) (seq 0 N))
           (seq 0 (Nat.min k (Nat.div (N - 1) 2)))
  ++ (if Nat.eqb (2 * k) N then map (fun t => (Nat.modulo (t + k + 1) N, 0%nat)) (seq 0 N) else []).
(** ring.py:55-90 *)
Definition Ring (N k : nat) (lap : laptype) : res graph :=
  if Nat.ltb N 3 then Raise ValueError
  else if Nat.ltb N (2 * k) then Raise ValueError
  else unit_init N (ring_pairs N k) lap (Some (ring2D N)).

(** grid2d.py:51-61: the entries of sparse.diags, row i column j (i - j = 1: diag_1[j], i - j = N2: diag_2[j]) *)
Definition grid_base (N1 N2 : nat) : mat := fun i j =>
  (if (Nat.eqb i (j + 1) && Nat.ltb j (N1 * N2 - 1))%bool then (if Nat.eqb (Nat.modulo (j + 1) N2) 0 then 0 else 1) else 0) +
  (if (Nat.eqb i (j + N2) && Nat.ltb j (N1 * N2 - N2))%bool then 1 else 0).
(** grid2d.py:65-75 *)
Definition grid_diag (N1 N2 : nat) (diagonal : R) : mat := fun i j =>
  (if (Nat.eqb i (j + (N2 + 1)) && Nat.ltb j (N1 * N2 - N2 - 1))%bool then (if Nat.eqb (Nat.modulo (j + 1) N2) 0 then 0 else diagonal) else 0) +
  (if (Nat.eqb i (j + (N2 - 1)) && Nat.ltb j (N1 * N2 - N2 + 1))%bool then (if Nat.eqb (Nat.modulo j N2) 0 then 0 else diagonal) else 0).
(** grid2d.py:63-76 *)
Definition grid_matrix (N1 N2 : nat) (diagonal : R) : mat := fun i j =>
  grid_base N1 N2 i j + (if (Nat.ltb 1 (Nat.min N1 N2) && negb (Reqb diagonal 0))%bool then grid_diag N1 N2 diagonal i j else 0).
(** grid2d.py:80-83; the sorted-and-reversed kron product written out *)
Definition grid_coords (N1 N2 : nat) : rowarray :=
  map (fun v => [INR (Nat.modulo v N2) / INR N2; INR (N1 - 1 - Nat.div v N2) / INR N1]) (seq 0 (N1 * N2)).
(** grid2d.py:40-89.  N1 or N2 = 0: negative array lengths; N2 = 1: dia_matrix rejects the repeated offset -1.
    Sparse storage is abstracted (the base constructor drops stored zeros). *)
Definition Grid2d (N1 : nat) (N2 : option nat) (diagonal : R) (lap : laptype) : res graph :=
  let N2 := match N2 with Some n => n | None => N1 end in
  if (Nat.eqb N1 0 || Nat.eqb N2 0 || Nat.eqb N2 1)%bool then Raise ValueError
  else let N := (N1 * N2)%nat in
  bindr (symmetrize (mkmarg true N N (grid_matrix N1 N2 diagonal)) "tril"%string) (fun W =>
  graph_init (InDense [N; N] (map Fin (dense N W))) lap (Some (grid_coords N1 N2))).

(** torus.py:55-62, for Nv >= 1 *)
Definition torus_rows (Nv Mv : nat) : list (nat * nat) :=
  flat_map (fun i => [(i * Nv + (Nv - 1), i * Nv)%nat] ++ map (fun t => (i * Nv + t, i * Nv + S t)%nat) (seq 0 (Nv - 1)) ++
                     [(i * Nv, i * Nv + (Nv - 1))%nat] ++ map (fun t => (i * Nv + S t, i * Nv + t)%nat) (seq 0 (Nv - 1))) (seq 0 Mv).
(** torus.py:66-81 *)
Definition torus_cols (Nv Mv : nat) : list (nat * nat) :=
  flat_map (fun i => map (fun t => (i * Nv + t, (i + 1) * Nv + t)%nat) (seq 0 Nv) ++ map (fun t => ((i + 1) * Nv + t, i * Nv + t)%nat) (seq 0 Nv)) (seq 0 (Mv - 1))
  ++ map (fun t => (t, (Mv - 1) * Nv + t)%nat) (seq 0 Nv) ++ map (fun t => ((Mv - 1) * Nv + t, t)%nat) (seq 0 Nv).
(** torus.py:88-100 *)
Definition torus_coords (Nv Mv : nat) : rowarray :=
  map (fun v => let i := Nat.modulo v Nv in let j := Nat.div v Nv in
        let T := 1.5 + sin (INR j * 2 * PI / INR Mv) in
        [cos (INR i * 2 * PI / INR Nv) * T; sin (INR i * 2 * PI / INR Nv) * T; cos (INR j * 2 * PI / INR Mv)]) (seq 0 (Mv * Nv)).
(** torus.py:38-107, Nv, Mv >= 1 (smaller sizes are not modelled: reported as ValueError) *)
Definition Torus (Nv : nat) (Mv : option nat) (lap : laptype) : res graph :=
  let Mv := match Mv with Some m => m | None => Nv end in
  if (Nat.eqb Nv 0 || Nat.eqb Mv 0)%bool then Raise ValueError
  else unit_init (Mv * Nv) (torus_rows Nv Mv ++ torus_cols Nv Mv) lap (Some (torus_coords Nv Mv)).

(** comet.py:47-62 *)
Definition comet_pairs (N k : nat) : list (nat * nat) :=
  map (fun t => (0, S t)%nat) (seq 0 k) ++ map (fun t => (S t, 0)%nat) (seq 0 k) ++
  map (fun t => (t, S t)) (seq k (N - 1 - k)) ++ map (fun t => (S t, t)) (seq k (N - 1 - k)).
(** comet.py:67-71 *)
Definition comet_coords (N k : nat) : rowarray :=
  map (fun v => if Nat.eqb v 0 then [0; 0] else if Nat.leb v k then [cos (INR v * 2 * PI / INR k); sin (INR v * 2 * PI / INR k)] else [INR (v - k + 1); 0]) (seq 0 N).
(** comet.py:37-73, k >= 0 *)
Definition Comet (N k : nat) (lap : laptype) : res graph :=
  if Nat.ltb N (S k) then Raise ValueError else unit_init N (comet_pairs N k) lap (Some (comet_coords N k)).
(** star.py:31-34: plotting given by the caller is passed twice to Comet (TypeError). N = 0 gives k = -1 and N = 0: numpy rejects
    the array of length -2. *)
Definition Star (N : nat) (plotting_given : bool) (lap : laptype) : res graph :=
  if plotting_given then Raise TypeError else if Nat.eqb N 0 then Raise ValueError else Comet N (N - 1) lap.
(** fullconnected.py:27-31 *)
Definition FullConnected (N : nat) (lap : laptype) : res graph :=
  graph_init (InDense [N; N] (map Fin (dense N (fun i j => 1 - idm i j)))) lap None.
