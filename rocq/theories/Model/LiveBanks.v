(** Model of the ready-made filter banks as objects that live beside their graph: which of them read
    the graph again whenever they are evaluated, and which only when they are built
    (pygsp/filters/*.py).  Graphs are objects, identified by a number; each has the attributes of
    Model.Cache. *)
From Coq Require Import Reals Lra Lia List Arith Bool String ZArith.
From Coq Require Import List.
From Verif.Base Require Import RSum Prelude.
From Verif.Spec Require Import Matrix NdArray.
From Verif.Model Require Import Sparse Graph Traverse Cache Filter Kernels.
Import ListNotations.
Open Scope R_scope.

(** The graph objects in memory. *)
Definition heap := nat -> cache.
Definition upd (h : heap) (g : nat) (s : cache) : heap := fun k => if Nat.eqb k g then s else h k.

(** A computation that may read G.lmax (graph.py:847-856) and G.e (fourier.py:24-35) of graph objects. *)
Inductive prog (A : Type) : Type :=
| Done (r : res A)
| GetLmax (g : nat) (k : R -> prog A)
| GetE (g : nat) (k : list R -> prog A).
Arguments Done {A}. Arguments GetLmax {A}. Arguments GetE {A}.

Fixpoint bindp {A B} (p : prog A) (f : A -> prog B) : prog B :=
  match p with
  | Done (Ok a) => f a
  | Done (Raise x) => Done (Raise x)
  | GetLmax g k => GetLmax g (fun l => bindp (k l) f)
  | GetE g k => GetE g (fun e => bindp (k e) f)
  end.
Fixpoint mapp {A B} (f : A -> prog B) (l : list A) : prog (list B) :=
  match l with
  | [] => Done (Ok [])
  | a :: r => bindp (f a) (fun b => bindp (mapp f r) (fun bs => Done (Ok (b :: bs))))
  end.

(** Running it.  [lan g s], [eig g s]: what the eigensolver would answer for graph object g in state
    s.  Arithmetic with lmax = None raises TypeError.  None: lmax is not a finite number (only
    estimate_lmax("bounds") can produce one), where floating-point infinities take over. *)
Section Run.
  Variable lan : nat -> cache -> lan_out.
  Variable eig : nat -> cache -> eig_out.
  Fixpoint run {A} (h : heap) (p : prog A) : heap * option (res A) :=
    match p with
    | Done r => (h, Some r)
    | GetLmax g k =>
        match read_lmax (lan g (h g)) (h g) with
        | (s, Ok (Some (Fin l))) => run (upd h g s) (k l)
        | (s, Ok (Some _)) => (upd h g s, None)
        | (s, Ok None) => (upd h g s, Some (Raise TypeError))
        | (s, Raise x) => (upd h g s, Some (Raise x))
        end
    | GetE g k =>
        match read_basis (eig g (h g)) (h g) with
        | (s, Ok (Some (e, _))) => run (upd h g s) (k e)
        | (s, Ok None) => (upd h g s, Some (Raise TypeError))
        | (s, Raise x) => (upd h g s, Some (Raise x))
        end
    end.
End Run.

(** A kernel of a bank object, and filter.py:60-69: a bank is a graph and kernels. *)
Definition lkernel := list R -> prog (list R).
Record bank := mkbank { b_graph : nat; b_kernels : list lkernel }.

(** filter.py:139-144 [evaluate]. *)
Definition evaluate_l (ks : list lkernel) (x : list R) : prog (list (list R)) :=
  mapp (fun k => bindp (k x) (fun y =>
    if Nat.eqb (List.length y) (List.length x) then Done (Ok y) else Done (Raise ValueError))) ks.

(** filter.py:87-88, 90-94 and 96-98: indexing (one position), concatenation, and g(H). *)
Definition get_l (b : bank) (i : nat) : res bank :=
  match nth_error (b_kernels b) i with Some k => Ok (mkbank (b_graph b) [k]) | None => Raise IndexError end.
Definition add_l (a b : bank) : bank := mkbank (b_graph a) (b_kernels a ++ b_kernels b).
Definition retarget (b : bank) (H : nat) : bank := mkbank H (b_kernels b).
(** filter.py:644-661 [complement]. *)
Definition complement_l (ks : list lkernel) (frame_bound : option R) : lkernel := fun x =>
  bindp (evaluate_l ks x) (fun y =>
    let s := sumsq y (List.length x) in
    Done (bindr (lmaxl s) (fun ymax =>
      match frame_bound with
      | None => Ok (map (fun v => sqrt (ymax - v)) s)
      | Some b => if Rltb b ymax then Raise ValueError else Ok (map (fun v => sqrt (b - v)) s)
      end))).

(** filter.py:267-301, method "exact", once the bank's own graph shows the view F: the shape of the signal is
    checked, the kernels are evaluated at G.e, and the responses multiply the spectrum. *)
Definition filter_exact_l (lan : nat -> cache -> lan_out) (eig : nat -> cache -> eig_out) (h : heap) (F : view)
    (ks : list lkernel) (s : arr) : heap * option (res arr) :=
  match to_3d (v_N F) (List.length ks) s with
  | Raise x => (h, Some (Raise x))
  | Ok _ =>
      match run lan eig h (evaluate_l ks (v_e F)) with
      | (h', Some (Ok y)) => (h', Some (gfilter F (map (fun r _ => Ok r) y) Exact s))
      | (h', Some (Raise x)) => (h', Some (Raise x))
      | (h', None) => (h', None)
      end
  end.

(** approximations.py:34-55 with utils.py:37-53 (N = None): for every kernel, G.lmax of the bank's graph, then the
    kernel at the nodes.  (The kernel is called once per coefficient, with the same argument: after the first call
    what it reads is there, and the answers are the same; one call is modelled.) *)
Definition cheby_coeff_l (H : nat) (ks : list lkernel) (m : nat) : prog (list (list R)) :=
  match ks with
  | [] => Done (Raise IndexError)
  | _ => mapp (fun k => GetLmax H (fun l => bindp (k (cheby_nodes l (S m))) (fun y =>
           Done (if negb (Nat.eqb (List.length y) (S m)) then Raise ValueError
                 else Ok (map (fun o => 2 / INR (S m) * \sum_(j < S m) (nth j y 0 * cos (PI * INR o * (INR j + /2) / INR (S m))))
                              (seq 0 (S m))))))) ks
  end.
(** filter.py:267-290, 303-328, the default method: the coefficients, then cheby_op, which reads G.lmax and G.L. *)
Definition filter_cheb_l (lan : nat -> cache -> lan_out) (eig : nat -> cache -> eig_out) (h : heap) (H : nat)
    (ks : list lkernel) (order : nat) (s : arr) : heap * option (res arr) :=
  match to_3d (c_N (h H)) (List.length ks) s with
  | Raise x => (h, Some (Raise x))
  | Ok s3 =>
      match run lan eig h (cheby_coeff_l H ks order) with
      | (h', Some (Ok c)) =>
          match c_lmax (h' H) with
          | Some (Fin l) =>
              let F := mkview (c_N (h' H)) (c_L (h' H)) l [] (fun _ _ => 0) in
              (h', Some (bindr (if Nat.eqb (ix (shape s3) 2) 1 then cheb_analysis F c (List.length ks) s3 else cheb_synthesis F c s3)
                               (fun out => Ok (squeeze out))))
          | _ => (h', None)                                     (* never: the coefficients have just read it *)
          end
      | (h', Some (Raise x)) => (h', Some (Raise x))
      | (h', None) => (h', None)
      end
  end.

(** A kernel that reads nothing, and one that is a function of the lmax read at each call. *)
Definition fixed (k : kernel) : lkernel := fun x => Done (k x).
Definition at_lmax (g : nat) (f : R -> R -> R) : lkernel := fun x => GetLmax g (fun l => Done (Ok (map (f l) x))).
Definition frozen (ks : res (list kernel)) : prog (list lkernel) := Done (bindr ks (fun ks => Ok (map fixed ks))).

(** The parameters of every bank but Gabor and Modulation. *)
Inductive kind :=
| KHeat (scale : param) (normalize : bool)
| KWave (time speed : param)
| KExpwin (band_min band_max : option R) (slope : R)
| KRectangular (band_min band_max : option R)
| KHeld (a : R) | KSimoncelli (a : R) | KPapadakis (a : R) | KRegular (degree : nat)
| KMeyer (Nf : nat) (scales : option (list R))
| KSimpleTight (Nf : nat) (scales : option (list R))
| KItersine (Nf overlap : nat)
| KHalfCosine (Nf : nat)
| KMexicanHat (Nf : nat) (lpfactor : R) (scales : option (list R)) (normalize : bool)
| KAbspline (Nf : nat) (lpfactor : R) (scales : option (list R)) (a0 a1 a2 a3 xstar : R).

(** wave.py:91-116: the (time, speed) pairs. *)
Definition wave_pairs (time speed : param) : res (list (R * R)) :=
  let nt := List.length (pvals time) in
  let ns := List.length (pvals speed) in
  bindr (if Nat.eqb nt ns then Ok (time, speed)
         else if Nat.eqb ns 1 then Ok (time, py_times speed nt)
         else if Nat.eqb nt 1 then Ok (py_times time ns, speed)
         else Raise ValueError) (fun ts =>
  if existsb (fun s => Rleb 2 s) (pvals (snd ts)) then Raise ValueError
  else Ok (combine (pvals (fst ts)) (pvals (snd ts)))).

(** heat.py:111-117: the norm is computed when the bank is built, from G.e and then G.lmax. *)
Definition heat_build (g : nat) (scale : param) (normalize : bool) : prog (list lkernel) :=
  mapp (fun s =>
    bindp (if normalize then GetE g (fun e => GetLmax g (fun l => Done (Ok (heat_norm l e s)))) else Done (Ok 1)) (fun norm =>
    Done (Ok (at_lmax g (fun l x => heat_fun l s x / norm))))) (pvals scale).

(** expwin.py:60-73: lmax is read once per half. *)
Definition expwin_l (g : nat) (band_min band_max : option R) (slope : R) : lkernel :=
  let low b l x := expwin_h slope (/ 2 - x / l + b) in
  let high b l x := expwin_h slope (/ 2 + x / l - b) in
  match band_min, band_max with
  | None, None => fixed (pw (fun _ => 1))
  | None, Some b => at_lmax g (low b)
  | Some a, None => at_lmax g (high a)
  | Some a, Some b => fun x => GetLmax g (fun l => GetLmax g (fun l' => Done (Ok (map (fun t => low b l t * high a l' t) x))))
  end.
(** rectangular.py:58-73 *)
Definition rect_l (g : nat) (band_min band_max : option R) : lkernel :=
  let low b l x := if Rleb (x / l) b then 1 else 0 in
  let high b l x := if Rleb b (x / l) then 1 else 0 in
  match band_min, band_max with
  | None, None => fixed (pw (fun _ => 1))
  | None, Some b => at_lmax g (low b)
  | Some a, None => at_lmax g (high a)
  | Some a, Some b => fun x => GetLmax g (fun l => GetLmax g (fun l' => Done (Ok (map (fun t => low b l t * high a l' t) x))))
  end.
(** held.py:67-69, simoncelli.py:60-62, papadakis.py:60-62, regular.py:62-64 *)
Definition pair_l (g : nat) (f : R -> R) : list lkernel :=
  let low := [at_lmax g (fun l x => f (x * 2 / l))] in low ++ [complement_l low (Some 1)].

(** The constructors.  [junk]: what np.empty leaves (Model.Kernels).  Those that need lmax to place their
    scales read it here, meyer.py:42-43 and simpletight.py:85-86 only without scales, itersine.py:39-41,
    halfcosine.py:33-36 after checking Nf, mexicanhat.py:59-62 and abspline.py:87-90 always; the second
    read of the last three returns the value just read. *)
Definition build (junk : R) (g : nat) (k : kind) : prog (list lkernel) :=
  match k with
  | KHeat scale normalize => heat_build g scale normalize
  | KWave time speed =>                                                       (* wave.py:91-123 *)
      Done (bindr (wave_pairs time speed) (fun ps => Ok (map (fun p => at_lmax g (fun l => wave_fun l (fst p) (snd p))) ps)))
  | KExpwin a b slope => Done (Ok [expwin_l g a b slope])
  | KRectangular a b => Done (Ok [rect_l g a b])
  | KHeld a => Done (Ok (pair_l g (held_kernel junk a)))
  | KSimoncelli a => Done (Ok (pair_l g (simoncelli_kernel junk a)))
  | KPapadakis a => Done (Ok (pair_l g (papadakis_kernel junk a)))
  | KRegular d => Done (Ok (pair_l g (regular_kernel d)))
  | KMeyer Nf (Some s) => frozen (Meyer 0 Nf (Some s))
  | KMeyer Nf None => GetLmax g (fun l => frozen (Meyer l Nf None))
  | KSimpleTight Nf (Some (s :: r)) => frozen (SimpleTight 0 Nf (Some (s :: r)))
  | KSimpleTight Nf sc => GetLmax g (fun l => frozen (SimpleTight l Nf sc))
  | KItersine Nf ov => GetLmax g (fun l => frozen (Ok (Itersine l Nf ov)))
  | KHalfCosine Nf => if Nat.leb Nf 2 then Done (Raise ValueError) else GetLmax g (fun l => frozen (HalfCosine l Nf))
  | KMexicanHat Nf lp sc nz => GetLmax g (fun l => frozen (MexicanHat l Nf lp sc nz))
  | KAbspline Nf lp sc a0 a1 a2 a3 xs => GetLmax g (fun l => frozen (Abspline l Nf lp sc a0 a1 a2 a3 xs))
  end.

(** gabor.py:72-88 for a mother bank of the same graph: G.e[i] is looked up at each evaluation, then the
    mother is evaluated; the number of kernels is fixed when the bank is built. *)
Definition gabor_l (g N : nat) (mother : list lkernel) : list lkernel :=
  map (fun i x => GetE g (fun e =>
         match nth_error e i with
         | None => Done (Raise IndexError)
         | Some a => bindp (evaluate_l mother (map (fun t => t - a) x)) (fun y => Done (Ok (nth 0 y [])))
         end)) (seq 0 N).

(** modulation.py:146-162: the object keeps [_coefficients] from its first evaluation on.  [F]: what the
    graph shows at the time of the call. *)
Definition modulation_call (F : view) (mother : list kernel) (kept : option mat) (x : list R)
  : option mat * res (list (list (option R))) :=
  let answer co := map (fun k => map (fun t => option_map (fun l => co l k) (find_eq t (v_e F) 0)) x) (seq 0 (v_N F)) in
  match kept with
  | Some co => (kept, Ok (answer co))
  | None => match modulation_coefficients F mother with
            | Ok co => (Some co, Ok (answer co))
            | Raise e => (None, Raise e)
            end
  end.
