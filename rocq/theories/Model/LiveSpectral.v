(** Model of a whole Graph object: the attributes of Model.Live (which follow or ignore writes into the
    weight matrix) together with the spectral attributes _lmax, _lmax_method, _e, _U, _coherence, _D.
    In Model.Cache the weight matrix never changes; here it may. *)
From Coq Require Import Reals Lra Lia List Arith Bool String.
From Verif.Base Require Import RSum Prelude.
From Verif.Spec Require Import Matrix.
From Verif.Model Require Import Sparse Graph Difference Bounds Traverse Cache Live.
Import ListNotations.
Open Scope R_scope.

(** graph.py:109-176 and 158-163: the attributes. *)
Record whole := mkwhole {
  o_live : live;
  o_lmax : option xval;             (* _lmax *)
  o_method : option string;         (* _lmax_method *)
  o_basis : option (list R * mat);  (* _e, _U *)
  o_coh : option R;                 (* _coherence *)
  o_D : option mat }.               (* _D *)

(** graph.py:124-176: right after __init__. *)
Definition whole_init (W : csr R) (t : laptype) : whole :=
  mkwhole (fst (live_init W t)) None None None None None.

Definition with_live (s : whole) (v : live) : whole := mkwhole v (o_lmax s) (o_method s) (o_basis s) (o_coh s) (o_D s).
Definition with_lmax (s : whole) (v : option xval) : whole := mkwhole (o_live s) v (o_method s) (o_basis s) (o_coh s) (o_D s).
Definition with_method (s : whole) (v : option string) : whole := mkwhole (o_live s) (o_lmax s) v (o_basis s) (o_coh s) (o_D s).
Definition with_basis (s : whole) (v : option (list R * mat)) : whole := mkwhole (o_live s) (o_lmax s) (o_method s) v (o_coh s) (o_D s).
Definition with_coh (s : whole) (v : option R) : whole := mkwhole (o_live s) (o_lmax s) (o_method s) (o_basis s) v (o_D s).
Definition with_D (s : whole) (v : option mat) : whole := mkwhole (o_live s) (o_lmax s) (o_method s) (o_basis s) (o_coh s) v.

(** graph.py:602-630 [compute_laplacian]. *)
Definition whole_laplacian (t : laptype) (s : whole) : whole * res unit :=
  let s1 := if lap_eqb t (v_lap (o_live s)) then s
            else with_D (with_coh (with_basis (with_lmax s None) None) None) None in   (* 602-609 *)
  let (v, r) := live_laplacian t (o_live s1) in                                        (* 611-630 *)
  (with_live s1 v, r).

(** graph.py:955-956: [dw + W.dot(dw) / dw] with the remembered is_directed() and dw. *)
Definition merris_as (b : bool) (d : nat -> R) (n : nat) (W : csr R) (i : nat) : xval :=
  xadd (Fin (d i)) (xdiv (\sum_(j < n) (wlap_as b W i j * d j)) (d i)).
(** graph.py:936-960 [_get_upper_bound]: the matrix W as it is now, the remembered n_vertices, n_edges,
    is_directed() and dw.  (n_vertices is the size of the matrix: a write does not change the shape.) *)
Definition whole_bound (v : live) : live * res xval :=
  match v_lap v with
  | Normalized => (v, Ok (Fin 2))                                                      (* 936-937 *)
  | OtherLap _ => (v, Raise ValueError)                                                (* 959-960 *)
  | Combinatorial =>
      let (v, d) := live_dw v in
      let (v, b) := live_directed v in
      (v, bindr (max_weight (v_W v)) (fun mw =>                                        (* 941 *)
          bindr (np_max (map (fun i => Fin (d i)) (seq 0 (v_n v)))) (fun md =>         (* 944 *)
          bindr (if Nat.ltb 0 (v_ne v) then                                            (* 947-949 *)
                   bindr (snd (live_edges v)) (fun l =>
                   bindr (np_max (map (fun e => Fin (d (fst (fst e)) + d (snd (fst e)))) l)) (fun b => Ok [b]))
                 else Ok []) (fun b3 =>
          bindr (np_max (map (merris_as b d (v_n v) (v_W v)) (seq 0 (v_n v)))) (fun b4 =>   (* 951-956 *)
            py_min ([xscale (INR (v_n v)) mw; xscale 2 md] ++ b3 ++ [b4]))))))         (* 958 *)
  end.

(** graph.py:903-931 [estimate_lmax]. *)
Definition whole_estimate (m : string) (o : lan_out) (s : whole) : whole * res unit :=
  if match o_method s with Some m' => String.eqb m m' | None => false end
  then (s, Ok tt)                                             (* 903-904 *)
  else
    let s1 := with_method s (Some m) in                               (* 905 *)
    if String.eqb m "lanczos" then
      match o with
      | LanOk r =>
          let (v, ub) := whole_bound (o_live s1) in
          let s2 := with_live s1 v in
          match ub with
          | Ok b => if fle r (xadd b (Fin (/ 10 ^ 12)))
                    then (with_lmax s2 (Some (Fin (r * 1.01))), Ok tt)
                    else (s2, Raise AssertionError)
          | Raise x => (s2, Raise x)
          end
      | LanNoConvergence => (s1, Raise ValueError)
      | LanFail x => (s1, Raise x)
      end
    else if String.eqb m "bounds" then
      let (v, ub) := whole_bound (o_live s1) in
      let s2 := with_live s1 v in
      match ub with
      | Ok b => (with_lmax s2 (Some b), Ok tt)
      | Raise x => (s2, Raise x)
      end
    else (s1, Raise ValueError).
(** graph.py:847-856 [lmax]. *)
Definition whole_lmax (o : lan_out) (s : whole) : whole * res (option xval) :=
  match o_lmax s with
  | Some v => (s, Ok (Some v))
  | None => let (s', r) := whole_estimate "lanczos" o s in (s', bindr r (fun _ => Ok (o_lmax s')))
  end.

(** fourier.py:153-195 [compute_fourier_basis]; the eigensolver's answer is [o]. *)
Definition whole_fourier (k : option nat) (o : eig_out) (s : whole) : whole * res unit :=
  let n := v_n (o_live s) in
  let k := match k with None => n | Some k => k end in                     (* 153-154 *)
  if match o_basis s with Some (e, _) => Nat.leb k (List.length e) | None => false end
  then (s, Ok tt)                                                          (* 156-157 *)
  else
    match o with
    | EigFail x => (s, Raise x)
    | EigOk e U =>                                                         (* 171-175 *)
        match e with
        | [] => (with_basis s (Some (e, U)), Raise IndexError)
        | e0 :: es =>
            if (Rltb (- / 10 ^ 5) e0 && Rltb e0 (/ 10 ^ 5))%bool then      (* 181 *)
              let e' := 0 :: es in                                         (* 182 *)
              let s2 := with_basis s (Some (e', U)) in
              let (v, ub) := whole_bound (o_live s2) in
              let s3 := with_live s2 v in
              match ub with
              | Raise x => (s3, Raise x)
              | Ok b =>
                  if fle (last e' 0) (xadd b (Fin (/ 10 ^ 5))) then        (* 189 *)
                    if forallb (fun x => Rleb x (last e' 0)) e' then       (* 191 *)
                      if Nat.eqb k n                                       (* 192-195 *)
                      then (with_coh (with_method (with_lmax s3 (Some (Fin (last e' 0)))) (Some "fourier"%string))
                              (Some (maxabs n n U)), Ok tt)
                      else (s3, Ok tt)
                    else (s3, Raise AssertionError)
                  else (s3, Raise AssertionError)
              end
            else (with_basis s (Some (e, U)), Raise AssertionError)
        end
    end.
(** fourier.py:10-35 [U], [e] and 37-95 [coherence]. *)
Definition whole_basis (o : eig_out) (s : whole) : whole * res (option (list R * mat)) :=
  match o_basis s with
  | Some b => (s, Ok (Some b))
  | None => let (s', r) := whole_fourier None o s in (s', bindr r (fun _ => Ok (o_basis s')))
  end.
Definition whole_coherence (o : eig_out) (s : whole) : whole * res (option R) :=
  match o_coh s with
  | Some c => (s, Ok (Some c))
  | None => let (s', r) := whole_fourier None o s in (s', bindr r (fun _ => Ok (o_coh s')))
  end.

(** difference.py:151-161: the values of the edge (a, c, w), with the remembered dw and is_directed(). *)
Definition dvals_as (b : bool) (d : nat -> R) (t : laptype) (e : nat * nat * R) : R * R :=
  let '(a, c, w) := e in
  let z := if b then sqrt 2 else 1 in
  match t with
  | Normalized => (- sqrt (w / d a) / z, sqrt (w / d c) / z)
  | _ => (- sqrt w / z, - - sqrt w / z)
  end.
Definition dentry_as (b : bool) (d : nat -> R) (t : laptype) (i : nat) (e : nat * nat * R) : R :=
  (if Nat.eqb (fst (fst e)) i then fst (dvals_as b d t e) else 0) +
  (if Nat.eqb (snd (fst e)) i then snd (dvals_as b d t e) else 0).
(** difference.py:144-166 [compute_differential_operator]. *)
Definition whole_compute_D (s : whole) : whole * res unit :=
  let (v, r) := live_edges (o_live s) in                                   (* 144 *)
  match r with
  | Raise x => (with_live s v, Raise x)
  | Ok l =>
      match v_lap v with
      | OtherLap _ => (with_live s v, Raise ValueError)                    (* 157-158 *)
      | t =>
          let (v, d) := live_dw v in
          let (v, b) := live_directed v in                                 (* 160 *)
          (with_D (with_live s v) (Some (fun i k => dentry_as b d t i (nth k l (0%nat, 0%nat, 0)))), Ok tt)
      end
  end.
(** difference.py:10-24 [D]. *)
Definition whole_D (s : whole) : whole * res (option mat) :=
  match o_D s with
  | Some D => (s, Ok (Some D))
  | None => let (s', r) := whole_compute_D s in (s', bindr r (fun _ => Ok (o_D s')))
  end.

(** The calls: those of Model.Live, and those on the spectral attributes with the answer the external
    solver gives if it is consulted. *)
Inductive wcall :=
| Plain (c : call)
| Estimate (m : string) (o : lan_out) | Lmax (o : lan_out)
| Fourier (k : option nat) (o : eig_out) | Basis (o : eig_out) | Coherence (o : eig_out)
| ComputeD | ReadD.
Inductive wanswer := Attr (a : answer) | Spectral (a : out).
Definition wact (s : whole) (c : wcall) : whole * res wanswer :=
  match c with
  | Plain (Laplacian t) => let (s', r) := whole_laplacian t s in (s', bindr r (fun _ => Ok (Attr AnsNone)))
  | Plain c => let (v, r) := act (o_live s) c in (with_live s v, bindr r (fun a => Ok (Attr a)))
  | Estimate m o => let (s', r) := whole_estimate m o s in (s', bindr r (fun _ => Ok (Spectral OutUnit)))
  | Lmax o => let (s', r) := whole_lmax o s in (s', bindr r (fun v => Ok (Spectral (OutLmax v))))
  | Fourier k o => let (s', r) := whole_fourier k o s in (s', bindr r (fun _ => Ok (Spectral OutUnit)))
  | Basis o => let (s', r) := whole_basis o s in (s', bindr r (fun b => Ok (Spectral (OutBasis b))))
  | Coherence o => let (s', r) := whole_coherence o s in (s', bindr r (fun b => Ok (Spectral (OutCoh b))))
  | ComputeD => let (s', r) := whole_compute_D s in (s', bindr r (fun _ => Ok (Spectral OutUnit)))
  | ReadD => let (s', r) := whole_D s in (s', bindr r (fun b => Ok (Spectral (OutD b))))
  end.
