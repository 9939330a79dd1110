(** Model of the lazily computed attributes of a Graph and of the calls that fill and invalidate
    them: pygsp/graphs/graph.py, fourier.py, difference.py.  A call is a state transformer that
    may raise; attributes assigned before the exception stay assigned. *)
From Coq Require Import Reals Lra Lia List Arith Bool String.
From Verif.Base Require Import RSum Prelude.
From Verif.Spec Require Import Matrix.
From Verif.Model Require Import Sparse Graph Difference Bounds Traverse.
Import ListNotations.
Open Scope R_scope.

(** graph.py:158-172 and 131-132: the attributes. [c_W] and [c_N] never change. *)
Record cache := mkcache {
  c_W : csr R;
  c_N : nat;
  c_lap : laptype;                  (* lap_type *)
  c_L : mat;                        (* L *)
  c_lmax : option xval;             (* _lmax *)
  c_method : option string;         (* _lmax_method *)
  c_basis : option (list R * mat);  (* _e, _U: always assigned together *)
  c_coh : option R;                 (* _coherence *)
  c_D : option mat;                 (* _D *)
  c_dir : option bool;              (* _directed *)
  c_conn : option bool }.           (* _connected *)

(** The attributes right after [Graph.__init__] (n_edges called is_directed, line 135). *)
Definition cache_init (G : graph) : cache :=
  mkcache (gW G) (g_n_vertices G) (g_lap_type G) (gL G) None None None None None
    (Some (is_directed (gW G))) None.

Definition set_lmax (s : cache) (v : option xval) : cache :=
  mkcache (c_W s) (c_N s) (c_lap s) (c_L s) v (c_method s) (c_basis s) (c_coh s) (c_D s) (c_dir s) (c_conn s).
Definition set_method (s : cache) (v : option string) : cache :=
  mkcache (c_W s) (c_N s) (c_lap s) (c_L s) (c_lmax s) v (c_basis s) (c_coh s) (c_D s) (c_dir s) (c_conn s).
Definition set_basis (s : cache) (v : option (list R * mat)) : cache :=
  mkcache (c_W s) (c_N s) (c_lap s) (c_L s) (c_lmax s) (c_method s) v (c_coh s) (c_D s) (c_dir s) (c_conn s).
Definition set_coh (s : cache) (v : option R) : cache :=
  mkcache (c_W s) (c_N s) (c_lap s) (c_L s) (c_lmax s) (c_method s) (c_basis s) v (c_D s) (c_dir s) (c_conn s).
Definition set_D (s : cache) (v : option mat) : cache :=
  mkcache (c_W s) (c_N s) (c_lap s) (c_L s) (c_lmax s) (c_method s) (c_basis s) (c_coh s) v (c_dir s) (c_conn s).
Definition set_dir (s : cache) (v : option bool) : cache :=
  mkcache (c_W s) (c_N s) (c_lap s) (c_L s) (c_lmax s) (c_method s) (c_basis s) (c_coh s) (c_D s) v (c_conn s).
Definition set_conn (s : cache) (v : option bool) : cache :=
  mkcache (c_W s) (c_N s) (c_lap s) (c_L s) (c_lmax s) (c_method s) (c_basis s) (c_coh s) (c_D s) (c_dir s) v.
Definition set_lap (s : cache) (t : laptype) (L : mat) : cache :=
  mkcache (c_W s) (c_N s) t L (c_lmax s) (c_method s) (c_basis s) (c_coh s) (c_D s) (c_dir s) (c_conn s).

(** What the eigensolvers can answer: scipy.linalg.eigh / sparse.linalg.eigsh (fourier.py:172-175)
    and sparse.linalg.eigsh with k=1 (graph.py:912-918). *)
Inductive eig_out := EigOk (e : list R) (U : mat) | EigFail (x : exn).
Inductive lan_out := LanOk (r : R) | LanNoConvergence | LanFail (x : exn).

Definition lap_eqb (a b : laptype) : bool :=
  match a, b with
  | Combinatorial, Combinatorial | Normalized, Normalized => true
  | OtherLap s, OtherLap t => String.eqb s t
  | _, _ => false
  end.

(** graph.py:602-630 [compute_laplacian].  [lap_type] is assigned before the type is validated. *)
Definition compute_laplacian (t : laptype) (s : cache) : cache * res unit :=
  let s1 := if lap_eqb t (c_lap s) then s
            else set_D (set_coh (set_basis (set_lmax s None) None) None) None in
  match laplacian (c_W s) t with
  | Ok L => (set_lap s1 t L, Ok tt)
  | Raise x => (set_lap s1 t (c_L s), Raise x)
  end.

(** Python comparison [r <= b] for a float b. *)
Definition fle (r : R) (b : xval) : bool :=
  match b with Fin x => Rleb r x | PInf => true | _ => false end.

(** graph.py:903-931 [estimate_lmax]. *)
Definition estimate_lmax (m : string) (o : lan_out) (s : cache) : cache * res unit :=
  if match c_method s with Some m' => String.eqb m m' | None => false end
  then (s, Ok tt)                                             (* 903-904 *)
  else
    let s1 := set_method s (Some m) in                                (* 905 *)
    if String.eqb m "lanczos" then
      match o with
      | LanOk r =>
          match upper_bound (c_W s) (c_lap s) with
          | Ok b => if fle r (xadd b (Fin (/ 10 ^ 12)))
                    then (set_lmax s1 (Some (Fin (r * 1.01))), Ok tt)
                    else (s1, Raise AssertionError)
          | Raise x => (s1, Raise x)
          end
      | LanNoConvergence => (s1, Raise ValueError)
      | LanFail x => (s1, Raise x)
      end
    else if String.eqb m "bounds" then
      match upper_bound (c_W s) (c_lap s) with
      | Ok b => (set_lmax s1 (Some b), Ok tt)
      | Raise x => (s1, Raise x)
      end
    else (s1, Raise ValueError).

(** graph.py:847-856 [lmax]. *)
Definition read_lmax (o : lan_out) (s : cache) : cache * res (option xval) :=
  match c_lmax s with
  | Some v => (s, Ok (Some v))
  | None => match estimate_lmax "lanczos" o s with
            | (s', Ok _) => (s', Ok (c_lmax s'))
            | (s', Raise x) => (s', Raise x)
            end
  end.

(** [np.max(np.abs(U))] of an array with n rows and m columns. *)
Definition maxabs (n m : nat) (U : mat) : R :=
  fold_left Rmax (flat_map (fun i => map (fun j => Rabs (U i j)) (seq 0 m)) (seq 0 n)) 0.

(** fourier.py:153-195 [compute_fourier_basis].  Lines 160-168 only log; lines 185-186 are dead code
    (a sum of absolute values is never negative). The eigensolver's answer is [o]. *)
Definition compute_fourier_basis (k : option nat) (o : eig_out) (s : cache) : cache * res unit :=
  let k := match k with None => c_N s | Some k => k end in                 (* 153-154 *)
  if match c_basis s with Some (e, _) => Nat.leb k (List.length e) | None => false end
  then (s, Ok tt)                                                          (* 156-157 *)
  else
    match o with
    | EigFail x => (s, Raise x)
    | EigOk e U =>                                                         (* 171-175 *)
        match e with
        | [] => (set_basis s (Some (e, U)), Raise IndexError)
        | e0 :: es =>
            if (Rltb (- / 10 ^ 5) e0 && Rltb e0 (/ 10 ^ 5))%bool then      (* 181 *)
              let e' := 0 :: es in                                         (* 182 *)
              let s2 := set_basis s (Some (e', U)) in
              match upper_bound (c_W s) (c_lap s) with
              | Raise x => (s2, Raise x)
              | Ok b =>
                  if fle (last e' 0) (xadd b (Fin (/ 10 ^ 5))) then        (* 189 *)
                    if forallb (fun x => Rleb x (last e' 0)) e' then       (* 191 *)
                      if Nat.eqb k (c_N s)                                 (* 192-195 *)
                      then (set_coh (set_method (set_lmax s2 (Some (Fin (last e' 0)))) (Some "fourier"%string))
                              (Some (maxabs (c_N s) (c_N s) U)), Ok tt)
                      else (s2, Ok tt)
                    else (s2, Raise AssertionError)
                  else (s2, Raise AssertionError)
              end
            else (set_basis s (Some (e, U)), Raise AssertionError)
        end
    end.

(** fourier.py:10-35 [U], [e]: compute the full basis when there is none. *)
Definition read_basis (o : eig_out) (s : cache) : cache * res (option (list R * mat)) :=
  match c_basis s with
  | Some b => (s, Ok (Some b))
  | None => match compute_fourier_basis None o s with
            | (s', Ok _) => (s', Ok (c_basis s'))
            | (s', Raise x) => (s', Raise x)
            end
  end.

(** fourier.py:37-95 [coherence]. *)
Definition read_coherence (o : eig_out) (s : cache) : cache * res (option R) :=
  match c_coh s with
  | Some c => (s, Ok (Some c))
  | None => match compute_fourier_basis None o s with
            | (s', Ok _) => (s', Ok (c_coh s'))
            | (s', Raise x) => (s', Raise x)
            end
  end.

(** difference.py:144-166 [compute_differential_operator]. *)
Definition compute_D (s : cache) : cache * res unit :=
  match diff_op (c_W s) (c_lap s) with
  | Ok D => (set_D s (Some D), Ok tt)
  | Raise x => (s, Raise x)
  end.

(** difference.py:10-24 [D]. *)
Definition read_D (s : cache) : cache * res (option mat) :=
  match c_D s with
  | Some D => (s, Ok (Some D))
  | None => match compute_D s with
            | (s', Ok _) => (s', Ok (c_D s'))
            | (s', Raise x) => (s', Raise x)
            end
  end.

(** graph.py:403-405 [is_directed]. *)
Definition read_directed (s : cache) : cache * res bool :=
  match c_dir s with
  | Some b => (s, Ok b)
  | None => (set_dir s (Some (is_directed (c_W s))), Ok (is_directed (c_W s)))
  end.

(** graph.py:340-366 [is_connected]; None: the traversal ran out of fuel (never happens). *)
Definition read_connected (pop pop' : popper) (s : cache) : cache * option (res bool) :=
  match c_conn s with
  | Some b => (s, Some (Ok b))
  | None => match is_connected pop pop' (c_W s) with
            | Some (Ok b) => (set_conn s (Some b), Some (Ok b))
            | r => (s, r)
            end
  end.

(** The calls a user can interleave; each carries the answer the external solver gives
    if it is consulted. *)
Inductive op :=
| OpLaplacian (t : laptype)
| OpEstimate (m : string) (o : lan_out)
| OpLmax (o : lan_out)
| OpBasis (k : option nat) (o : eig_out)
| OpReadBasis (o : eig_out)
| OpCoherence (o : eig_out)
| OpComputeD
| OpReadD
| OpDirected
| OpConnected (pop pop' : popper).

Inductive out :=
| OutUnit | OutLmax (v : option xval) | OutBasis (b : option (list R * mat)) | OutCoh (c : option R)
| OutD (D : option mat) | OutBool (b : bool) | OutFuel.

Definition lift {A} (f : A -> out) (r : cache * res A) : cache * res out :=
  (fst r, match snd r with Ok a => Ok (f a) | Raise x => Raise x end).

Definition step (s : cache) (c : op) : cache * res out :=
  match c with
  | OpLaplacian t => lift (fun _ => OutUnit) (compute_laplacian t s)
  | OpEstimate m o => lift (fun _ => OutUnit) (estimate_lmax m o s)
  | OpLmax o => lift OutLmax (read_lmax o s)
  | OpBasis k o => lift (fun _ => OutUnit) (compute_fourier_basis k o s)
  | OpReadBasis o => lift OutBasis (read_basis o s)
  | OpCoherence o => lift OutCoh (read_coherence o s)
  | OpComputeD => lift (fun _ => OutUnit) (compute_D s)
  | OpReadD => lift OutD (read_D s)
  | OpDirected => lift OutBool (read_directed s)
  | OpConnected p p' =>
      let (s', r) := read_connected p p' s in
      (s', match r with Some (Ok b) => Ok (OutBool b) | Some (Raise x) => Raise x | None => Ok OutFuel end)
  end.
