(** Model of the ready-made filter banks (pygsp/filters/*.py) and of utils.compute_log_scales.
    Real arithmetic is exact; frequencies are finite.  A bank is the list of its kernels. *)
From Coq Require Import Reals Lra Lia List Arith Bool String ZArith.
From Coq Require Import List.
From Verif.Base Require Import RSum Prelude.
From Verif.Spec Require Import Matrix NdArray.
From Verif.Model Require Import Sparse Graph Traverse Cache Filter.
Import ListNotations.
Open Scope R_scope.

(** scales[i] inside a kernel is looked up when the kernel is evaluated. *)
Definition with_scale (scales : list R) (i : nat) (g : R -> R -> R) : kernel := fun x =>
  match nth_error scales i with Some s => Ok (map (g s) x) | None => Raise IndexError end.

(** meyer.py:68-69 *)
Definition meyer_v (x : R) : R := x ^ 4 * (35 - 84 * x + 70 * x ^ 2 - 20 * x ^ 3).
(** meyer.py:71-80, kernel_type "scaling_function" *)
Definition meyer_scaling (x : R) : R :=
  if Rltb x (2 / 3) then 1
  else if Rltb x (4 / 3) then cos (PI / 2 * meyer_v (Rabs x / (2 / 3) - 1))
  else 0.
(** meyer.py:71-83, kernel_type "wavelet" *)
Definition meyer_wavelet (x : R) : R :=
  if Rltb x (2 / 3) then 0
  else if Rltb x (4 / 3) then sin (PI / 2 * meyer_v (Rabs x / (2 / 3) - 1))
  else if Rltb x (8 / 3) then cos (PI / 2 * meyer_v (Rabs x / (4 / 3) - 1))
  else 0.
(** np.power(2, np.arange(Nf - 2, -1, -1)): the powers 2^(Nf-2), ..., 2, 1 *)
Definition pow2_down (Nf : nat) : list R := map (fun i => 2 ^ (Nf - 2 - i)) (seq 0 (Nf - 1)).
(** len(scales) != Nf - 1 (Python integers: never equal when Nf = 0) *)
Definition scales_ok (scales : list R) (Nf : nat) : bool := Nat.eqb (S (List.length scales)) Nf.
(** meyer.py:41-52, 89 *)
Definition Meyer (lmax : R) (Nf : nat) (scales : option (list R)) : res (list kernel) :=
  let scales := match scales with Some s => s | None => map (fun p => 4 / (3 * lmax) * p) (pow2_down Nf) end in
  if negb (scales_ok scales Nf) then Raise ValueError
  else Ok (with_scale scales 0 (fun s x => meyer_scaling (s * x))
           :: map (fun i => with_scale scales i (fun s x => meyer_wavelet (s * x))) (seq 0 (Nf - 1))).

(** simpletight.py:66-67 *)
Definition st_h (x : R) : R := sin (PI * x / 2) ^ 2.
(** simpletight.py:69-76, "sf" *)
Definition st_scaling (x : R) : R :=
  if Rltb x (1 / 4) then 1
  else if Rltb x (1 / 2) then sqrt (1 - st_h (4 * x - 1) ^ 2)
  else 0.
(** simpletight.py:69-79, "wavelet" *)
Definition st_wavelet (x : R) : R :=
  if Rltb x (1 / 4) then 0
  else if Rltb x (1 / 2) then st_h (4 * (x - 1 / 4))
  else if Rltb x 1 then sqrt (1 - st_h (2 * x - 1) ^ 2)
  else 0.
(** simpletight.py:41, 85-97; [if not scales] also replaces an empty list by the default. *)
Definition SimpleTight (lmax : R) (Nf : nat) (scales : option (list R)) : res (list kernel) :=
  let scales := match scales with
                | Some (s :: r) => s :: r
                | _ => map (fun p => 1 / (2 * lmax) * p) (pow2_down Nf) end in
  if negb (scales_ok scales Nf) then Raise ValueError
  else Ok (with_scale scales 0 (fun s x => st_scaling (s * x))
           :: map (fun i => with_scale scales i (fun s x => st_wavelet (s * x))) (seq 0 (Nf - 1))).

(** itersine.py:43-46 *)
Definition itersine_kernel (x : R) : R :=
  sin (/ 2 * PI * cos (x * PI) ^ 2) * (if (Rleb (- / 2) x && Rleb x (/ 2))%bool then 1 else 0).
(** itersine.py:37-57 *)
Definition itersine_fun (lmax : R) (Nf overlap i : nat) (x : R) : R :=
  let scales := lmax / (INR Nf - INR overlap + 1) * INR overlap in
  itersine_kernel (x / scales - (INR i - INR overlap / 2) / INR overlap) * sqrt (2 / INR overlap).
Definition Itersine (lmax : R) (Nf overlap : nat) : list kernel :=
  map (fun i => pw (itersine_fun lmax Nf overlap i)) (seq 1 Nf).

(** halfcosine.py:36-50 *)
Definition halfcosine_kernel (dila x : R) : R :=
  (/ 2 + / 2 * cos (2 * PI * (x / dila - / 2))) * (if Rleb 0 x then 1 else 0) * (if Rleb x dila then 1 else 0).
Definition halfcosine_fun (lmax : R) (Nf i : nat) (x : R) : R :=
  let dila := lmax * 3 / (INR Nf - 2) in
  halfcosine_kernel dila (x - dila / 3 * (INR i - 2)).
(** halfcosine.py:32-52 *)
Definition HalfCosine (lmax : R) (Nf : nat) : res (list kernel) :=
  if Nat.leb Nf 2 then Raise ValueError
  else Ok (map (fun i => pw (halfcosine_fun lmax Nf i)) (seq 0 Nf)).

(** held.py:49-65, simoncelli.py:45-58, papadakis.py:45-58: 1 on [0,l1), [mid] on [l1,l2), 0 from l2.
    The entries of np.empty that no region covers are unspecified: [junk]. *)
Definition three_regions (junk l1 l2 : R) (mid : R -> R) (x : R) : R :=
  if Rleb l2 x then 0
  else if (Rleb l1 x && Rltb x l2)%bool then mid x
  else if (Rleb 0 x && Rltb x l1)%bool then 1
  else junk.
(** held.py:51-63 *)
Definition held_mu (x : R) : R := -1 + 24 * x - 144 * x ^ 2 + 256 * x ^ 3.
Definition held_kernel (junk a : R) : R -> R :=
  three_regions junk a (2 * a) (fun x => sin (2 * PI * held_mu (x / 8 / a))).
(** simoncelli.py:47-56 *)
Definition simoncelli_kernel (junk a : R) : R -> R :=
  three_regions junk a (2 * a) (fun x => cos (PI / 2 * ln (x / a) / ln 2)).
(** papadakis.py:47-56 *)
Definition papadakis_kernel (junk a : R) : R -> R :=
  three_regions junk a (a * 5 / 3) (fun x => sqrt ((1 - sin (3 * PI / (2 * a) * x)) / 2)).
(** regular.py:53-60 *)
Fixpoint iter_sin (n : nat) (y : R) : R := match n with O => y | S n => sin (PI * iter_sin n y / 2) end.
Definition regular_kernel (degree : nat) (x : R) : R :=
  match degree with
  | O => sin (PI / 4 * x)
  | _ => sin (PI / 4 * (1 + iter_sin (degree - 2) (sin (PI * (x - 1) / 2))))
  end.
(** held.py:67-71 and the same lines of the other three: a low-pass of x * 2 / lmax and its complement. *)
Definition with_complement (lmax : R) (g : R -> R) : list kernel :=
  let low := [pw (fun x => g (x * 2 / lmax))] in low ++ complement low (Some 1).
Definition Held (junk lmax a : R) : list kernel := with_complement lmax (held_kernel junk a).
Definition Simoncelli (junk lmax a : R) : list kernel := with_complement lmax (simoncelli_kernel junk a).
Definition Papadakis (junk lmax a : R) : list kernel := with_complement lmax (papadakis_kernel junk a).
Definition Regular (lmax : R) (degree : nat) : list kernel := with_complement lmax (regular_kernel degree).

(** A parameter that may be a number, a Python list or a numpy array. *)
Inductive param := Scalar (x : R) | PyList (l : list R) | NdArray (l : list R).
Definition pvals (p : param) : list R := match p with Scalar x => [x] | PyList l => l | NdArray l => l end.

(** heat.py:111-112 *)
Definition heat_fun (lmax s x : R) : R := Rmin (exp (- s * x / lmax)) 1.
(** heat.py:102-119; np.linalg.norm of the kernel at the eigenvalues. *)
Definition heat_norm (lmax : R) (e : list R) (s : R) : R :=
  sqrt (lsum (map (fun x => heat_fun lmax s x * heat_fun lmax s x) e)).
Definition Heat (F : view) (scale : param) (normalize : bool) : list kernel :=
  map (fun s => let norm := if normalize then heat_norm (v_lmax F) (v_e F) s else 1 in
                pw (fun x => heat_fun (v_lmax F) s x / norm)) (pvals scale).

(** wave.py:118-119.  np.arccos is NaN outside [-1,1]; Coq's acos is total, so the theorems stay inside. *)
Definition wave_arg (lmax speed x : R) : R := 1 - speed ^ 2 * x / lmax / 2.
Definition wave_fun (lmax time speed x : R) : R := cos (time * acos (wave_arg lmax speed x)).
(** [p * n] for a one-element sequence: a list is repeated, a numpy array (of numbers) is multiplied. *)
Definition py_times (p : param) (n : nat) : param :=
  match p with
  | Scalar x => PyList (List.concat (repeat [x] n))          (* was wrapped: [x] *)
  | PyList l => PyList (List.concat (repeat l n))
  | NdArray l => NdArray (map (fun x => x * INR n) l)
  end.
(** wave.py:91-123 *)
Definition Wave (lmax : R) (time speed : param) : res (list kernel) :=
  let nt := List.length (pvals time) in
  let ns := List.length (pvals speed) in
  bindr (if Nat.eqb nt ns then Ok (time, speed)
         else if Nat.eqb ns 1 then Ok (time, py_times speed nt)
         else if Nat.eqb nt 1 then Ok (py_times time ns, speed)
         else Raise ValueError) (fun ts =>
  if existsb (fun s => Rleb 2 s) (pvals (snd ts)) then Raise ValueError
  else Ok (map (fun p => pw (wave_fun lmax (fst p) (snd p))) (combine (pvals (fst ts)) (pvals (snd ts))))).

(** expwin.py:48-58 *)
Definition expwin_exp (slope x : R) : R := if Rleb x 0 then 0 else exp (- slope / x).
Definition expwin_h (slope x : R) : R := expwin_exp slope x / (expwin_exp slope x + expwin_exp slope (1 - x)).
(** expwin.py:60-73 *)
Definition expwin_fun (lmax slope : R) (band_min band_max : option R) (x : R) : R :=
  let low b := expwin_h slope (/ 2 - x / lmax + b) in
  let high b := expwin_h slope (/ 2 + x / lmax - b) in
  match band_min, band_max with
  | None, None => 1
  | None, Some b => low b
  | Some a, None => high a
  | Some a, Some b => low b * high a
  end.
(** rectangular.py:58-73; booleans count as 0 and 1. *)
Definition rect_fun (lmax : R) (band_min band_max : option R) (x : R) : R :=
  let low b := if Rleb (x / lmax) b then 1 else 0 in
  let high b := if Rleb b (x / lmax) then 1 else 0 in
  match band_min, band_max with
  | None, None => 1
  | None, Some b => low b
  | Some a, None => high a
  | Some a, Some b => low b * high a
  end.

(** np.linspace(a, b, num): num = 1 yields [a]. *)
Definition np_linspace (a b : R) (num : nat) : list R :=
  map (fun i => a + INR i * ((b - a) / INR (num - 1))) (seq 0 num).
(** utils.py:337-339 [compute_log_scales] (positive arguments: np.log of them is finite). *)
Definition compute_log_scales (lmin lmax : R) (Nscales : nat) (t1 t2 : R) : list R :=
  map exp (np_linspace (ln (t2 / lmin)) (ln (t1 / lmax)) Nscales).

(** mexicanhat.py:68-80 *)
Definition band_pass (x : R) : R := x * exp (- x).
Definition low_pass (x : R) : R := exp (- x ^ 4).
(** mexicanhat.py:55-84; Nf = 0 makes np.linspace raise. *)
Definition MexicanHat (lmax : R) (Nf : nat) (lpfactor : R) (scales : option (list R)) (normalize : bool) : res (list kernel) :=
  let lmin := lmax / lpfactor in
  bindr (match scales with
         | Some s => Ok s
         | None => if Nat.eqb Nf 0 then Raise ValueError else Ok (compute_log_scales lmin lmax (Nf - 1) 1 2) end) (fun scales =>
  if negb (scales_ok scales Nf) then Raise ValueError
  else Ok (pw (fun x => 1.2 * exp (-1) * low_pass (x / 0.4 / lmin))
           :: map (fun i => with_scale scales i (fun s x => (if normalize then sqrt s else 1) * band_pass (s * x)))
                  (seq 0 (Nf - 1)))).

(** abspline.py:44-60: [a] is what np.linalg.solve returns. *)
Definition abspline_system (alpha beta : nat) (t1 t2 a0 a1 a2 a3 : R) : Prop :=
  1 * a0 + t1 * a1 + t1 ^ 2 * a2 + t1 ^ 3 * a3 = 1 /\
  1 * a0 + t2 * a1 + t2 ^ 2 * a2 + t2 ^ 3 * a3 = 1 /\
  0 * a0 + 1 * a1 + 2 * t1 * a2 + 3 * t1 ^ 2 * a3 = / (t1 ^ alpha) * INR alpha * t1 ^ (alpha - 1) /\
  0 * a0 + 1 * a1 + 2 * t2 * a2 + 3 * t2 ^ 2 * a3 = - INR beta * / (t2 ^ (beta + 1)) * t2 ^ beta.
(** abspline.py:62-83 on an array: r1 = x <= t1, then r2 = t1 <= x < t2 overwrites, then r3 = x >= t2. *)
Definition abspline3 (alpha beta : nat) (t1 t2 a0 a1 a2 a3 x : R) : R :=
  if Rleb t2 x then / (x ^ beta) * t2 ^ beta
  else if Rleb t1 x then a0 + a1 * x + a2 * x ^ 2 + a3 * x ^ 3
  else x ^ alpha * / (t1 ^ alpha).
(** abspline.py:42, 85-108 with alpha = beta = 2, t1 = 1, t2 = 2; [xstar] is where
    optimize.minimize_scalar stops, in (1,2): there gamma_l is the polynomial's value.
    The number of scales is not checked: a missing one raises when the kernel is evaluated. *)
Definition Abspline (lmax : R) (Nf : nat) (lpfactor : R) (scales : option (list R)) (a0 a1 a2 a3 xstar : R) : res (list kernel) :=
  let lmin := lmax / lpfactor in
  bindr (match scales with
         | Some s => Ok s
         | None => if Nat.eqb Nf 0 then Raise ValueError else Ok (compute_log_scales lmin lmax (Nf - 1) 1 2) end) (fun scales =>
  let gamma := a0 + a1 * xstar + a2 * xstar ^ 2 + a3 * xstar ^ 3 in
  Ok (pw (fun x => gamma * exp (- (x / (0.6 * lmin)) ^ 4))
      :: map (fun i => with_scale scales i (fun s x => abspline3 2 2 1 2 a0 a1 a2 a3 (s * x))) (seq 0 (Nf - 1)))).

(** gabor.py:72-88.  [same_graph] is the answer of [kernel.G is graph]; kernel.evaluate returns a
    1 x len(x) array, which numpy assigns as a row. *)
Definition Gabor (F : view) (same_graph : bool) (mother : list kernel) : res (list kernel) :=
  if negb (Nat.eqb (List.length mother) 1) then Raise ValueError
  else if negb same_graph then Raise ValueError
  else Ok (map (fun i x => bindr (evaluate mother (map (fun t => t - nth i (v_e F) 0) x)) (fun y => Ok (nth 0 y [])))
               (seq 0 (v_N F))).
(** gabor.py:90-92: whatever method is asked, the exact one is used. *)
Definition gabor_filter (F : view) (ks : list kernel) (m : fmethod) (s : arr) : res arr := gfilter F ks Exact s.

(** modulation.py:126-144 *)
Definition Modulation_check (same_graph : bool) (mother : list kernel) : res unit :=
  if negb (Nat.eqb (List.length mother) 1) then Raise ValueError
  else if negb same_graph then Raise ValueError else Ok tt.
(** modulation.py:149-153: rows are frequencies, columns modulations.  (For one vertex the squeezed
    kernel values are 0-d and igft raises.) *)
Definition modulation_coefficients (F : view) (mother : list kernel) : res mat :=
  bindr (evaluate mother (v_e F)) (fun y =>
  bindr (igft F (squeeze (mat_arr (List.length mother) (List.length (v_e F)) (fun i j => nth j (nth i y []) 0)))) (fun c =>
  bindr (gft F (mat_arr (v_N F) (List.length (v_e F)) (fun n k => sqrt (INR (v_N F)) * v_U F n k * aget c [n]))) (fun z =>
  Ok (fun l k => aget z [l; k])))).
(** modulation.py:155-162: x[i] == G.e selects rows; the first one is used, none gives NaN. *)
Fixpoint find_eq (x : R) (e : list R) (i : nat) : option nat :=
  match e with [] => None | a :: r => if Reqb x a then Some i else find_eq x r (S i) end.
Definition modulation_evaluate (F : view) (mother : list kernel) (x : list R) : res (list (list (option R))) :=
  bindr (modulation_coefficients F mother) (fun co =>
  Ok (map (fun k => map (fun t => option_map (fun l => co l k) (find_eq t (v_e F) 0)) x) (seq 0 (v_N F)))).
(** modulation.py:164-169: modulation first; at the eigenvalues no NaN occurs, so the bank is a bank of
    kernels there. *)
Definition modulation_bank (F : view) (mother : list kernel) : list kernel :=
  map (fun k x => bindr (modulation_coefficients F mother) (fun co =>
         Ok (map (fun t => match find_eq t (v_e F) 0 with Some l => co l k | None => 0 end) x))) (seq 0 (v_N F)).
Definition modulation_filter_first (F : view) (mother : list kernel) (s : arr) : res arr :=
  gfilter F (modulation_bank F mother) Exact s.
(** modulation.py:170-177: localization first (the localization uses the default method), for a 1-D
    signal; [y[i] = sqrt(N) gft(s * localize(i))]. *)
Definition modulation_filter_last (F : view) (mother : list kernel) (m : fmethod) (s : vec) : res arr :=
  bindr (mapr (fun i => bindr (localize F mother m (Z.of_nat i)) (fun w =>
           bindr (gft F (vec_arr (v_N F) (fun n => s n * aget w [n]))) (fun z =>
           Ok (map (fun k => sqrt (INR (v_N F)) * aget z [k]) (seq 0 (v_N F)))))) (seq 0 (v_N F))) (fun rows =>
  Ok (Arr [v_N F; v_N F] (fun idx => nth (ix idx 1) (nth (ix idx 0) rows []) 0))).
