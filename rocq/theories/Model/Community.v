(** Model of pygsp/graphs/community.py.  Logging and the attributes stored for display are not modelled. *)
From Coq Require Import Reals ZArith List Arith Bool.
From Coq Require Import List.
From Verif.Base Require Import RSum Prelude.
From Verif.Spec Require Import Matrix.
From Verif.Model Require Import Sparse Graph Traverse Generators.
Import ListNotations.
Open Scope R_scope.
Open Scope list_scope.

(** int(round(x)) for x >= 0: Python rounds halves to the even neighbour *)
Definition py_round (x : R) : nat :=
  let f := Int_part x in let d := x - IZR f in
  Z.to_nat (if Rltb d (1 / 2) then f else if Rltb (1 / 2) d then (f + 1)%Z else if Z.even f then f else (f + 1)%Z).
(** int(x) for x >= 0 *)
Definition py_int (x : R) : nat := Z.to_nat (Int_part x).

(** community.py:59-73: the arguments (sizes as naturals; min_deg only whether it was given) *)
Record comm_args : Type := mkcomm {
  c_N : nat; c_Nc : option nat; c_min_comm : option nat; c_min_deg : bool; c_sizes : option (list nat); c_ratio : R;
  c_world : option R; c_density : option R; c_k_neigh : option Z; c_eps : option R }.
(** What the generator answers: rng.choice(Nc, ...) (line 120), row i of rng.uniform(size=(N, 2)) (line 171), rng.permutation(n) for community i
    (line 197; index Nc for line 245), the t-th rng.integers(0, N, 2) (line 240) *)
Record comm_rng : Type := mkrng { r_choice : list nat; r_uniform : nat -> R * R; r_perm : nat -> nat -> list nat; r_ints : nat -> nat * nat }.

(** community.py:74-85, for N >= 1 and, when min_comm is None, Nc >= 1 (otherwise ZeroDivisionError) *)
Definition the_Nc (P : comm_args) : nat := match c_Nc P with Some n => n | None => py_round (sqrt (INR (c_N P)) / 2) end.
Definition the_min_comm (P : comm_args) : nat := match c_min_comm P with Some m => m | None => py_round (INR (c_N P) / INR (3 * the_Nc P)) end.
Definition the_world (P : comm_args) : R := match c_world P with Some w => w | None => 1 / INR (c_N P) end.
Definition the_eps (P : comm_args) : R := match c_eps P with Some e => e | None => sqrt (2 * sqrt (INR (c_N P))) / 2 end.

(** community.py:116-135; rng.choice(0, n) fails for n > 0 *)
Definition comm_labels (P : comm_args) (rng : comm_rng) : res (list nat) :=
  let N := c_N P in let Nc := the_Nc P in
  match c_sizes P with
  | None => if (Nat.eqb Nc 0 && Nat.ltb 0 N)%bool then Raise ValueError
            else Ok (isort (flat_map (fun _ => seq 0 Nc) (seq 0 (the_min_comm P)) ++ r_choice rng))
  | Some ss => if negb (Nat.eqb (List.length ss) Nc) then Raise ValueError
               else if negb (Nat.eqb (list_sum ss) N) then Raise ValueError
               else Ok (flat_map (fun c => repeat c (nth c ss 0%nat)) (seq 0 (List.length ss)))
  end.
(** community.py:137-138: the sizes of the communities that occur, by increasing label *)
Definition comm_counts (Nc : nat) (z : list nat) : list nat :=
  filter (fun s => negb (Nat.eqb s 0)) (map (fun c => count_occ Nat.eq_dec z c) (seq 0 Nc)).
(** community.py:139, 162-187 *)
Definition comm_coord (P : comm_args) (rng : comm_rng) (z ss : list nat) (v : nat) : R * R :=
  let c := nth v z 0%nat in let rad := c_ratio P * sqrt (INR (c_N P)) in let a := 2 * PI * INR (S c) / INR (the_Nc P) in
  let s := sqrt (INR (nth c ss 0%nat)) in let u := r_uniform rng v in
  (rad * cos a + s * (fst u * cos (2 * PI * snd u)), rad * sin a + s * (fst u * sin (2 * PI * snd u))).
(** np.tril_indices(n, -1), zipped *)
Definition tril_pairs (n : nat) : list (nat * nat) := flat_map (fun r => map (fun c => (r, c)) (seq 0 r)) (seq 0 n).
(** kdtree.query_pairs(eps) (line 224): the pairs a < b at Euclidean distance at most eps.  The order of the set is irrelevant. *)
Definition near_pairs (n : nat) (pos : nat -> R * R) (eps : R) : list (nat * nat) :=
  filter (fun p => Rleb (sqrt ((fst (pos (fst p)) - fst (pos (snd p))) * (fst (pos (fst p)) - fst (pos (snd p))) +
                               (snd (pos (fst p)) - snd (pos (snd p))) * (snd (pos (fst p)) - snd (pos (snd p))))) eps)
         (map (fun p => (snd p, fst p)) (tril_pairs n)).
(** community.py:190-228 for community i of s vertices starting at [first].  Line 209: the outer map is never consumed, pairs_set stays empty. *)
Definition comm_intra (P : comm_args) (rng : comm_rng) (pos : nat -> R * R) (i first s : nat) : list (nat * nat) :=
  match c_density P with
  | Some d => map (fun e => (first + snd (nth e (tril_pairs s) (0, 0)), first + fst (nth e (tril_pairs s) (0, 0)))%nat)
                  (firstn (py_int (d * (INR (s * (s - 1)) / 2))) (r_perm rng i (Nat.div (s * (s - 1)) 2)))
  | None => match c_k_neigh P with
            | Some _ => []
            | None => map (fun p => (first + fst p, first + snd p)%nat) (near_pairs s (fun a => pos (first + a)%nat) (the_eps P))
            end
  end.
(** community.py:238-242: the set as a list without repetition.  None: out of fuel. *)
Fixpoint comm_reject (fuel : nat) (z : list nat) (nb : nat) (ints : nat -> nat * nat) (t : nat) (acc : list (nat * nat)) : option (list (nat * nat)) :=
  if Nat.leb nb (List.length acc) then Some acc
  else match fuel with
  | O => None
  | S fuel' =>
    let lo := Nat.min (fst (ints t)) (snd (ints t)) in let hi := Nat.max (fst (ints t)) (snd (ints t)) in
    comm_reject fuel' z nb ints (S t)
      (if Nat.eqb (nth lo z 0%nat) (nth hi z 0%nat) then acc
       else if existsb (fun p => (Nat.eqb (fst p) lo && Nat.eqb (snd p) hi)%bool) acc then acc else acc ++ [(lo, hi)])
  end.
(** community.py:246-260 *)
Definition comm_points (Nc : nat) (ss : list nat) : list (nat * nat) :=
  flat_map (fun i => flat_map (fun j =>
      flat_map (fun r => map (fun c => (list_sum (firstn j ss) + r, list_sum (firstn i ss) + c)%nat) (seq 0 (nth i ss 0%nat))) (seq 0 (nth j ss 0%nat)))
    (seq (i + 1) (Nc - (i + 1)))) (seq 0 (Nc - 1)).
(** community.py:233-262 *)
Definition comm_inter (fuel : nat) (P : comm_args) (rng : comm_rng) (z ss : list nat) : option (list (nat * nat)) :=
  let sq := list_sum (map (fun s => s * s)%nat ss) in let N := c_N P in
  let nb := py_int (the_world P * ((INR (N * N) - INR sq) / 2)) in
  if Rltb (the_world P) (35 / 100) then comm_reject fuel z nb (r_ints rng) 0 []
  else Some (map (fun e => nth e (comm_points (the_Nc P) ss) (0, 0)%nat) (firstn nb (r_perm rng (the_Nc P) (Nat.div (N * N - sq) 2)))).
(** community.py:59-279; returns the graph and info["node_com"].  When some community is empty, lines 186 or 191 index past the end of comm_sizes. *)
Definition Community (fuel : nat) (P : comm_args) (rng : comm_rng) (lap : laptype) : option (res (graph * list nat)) :=
  let N := c_N P in let Nc := the_Nc P in
  if c_min_deg P then Some (Raise NotImplementedError)
  else if negb (Rleb 0 (the_world P) && Rleb (the_world P) 1) then Some (Raise ValueError)
  else if Nat.ltb N (the_min_comm P * Nc) then Some (Raise ValueError)
  else match comm_labels P rng with
  | Raise e => Some (Raise e)
  | Ok z =>
    let ss := comm_counts Nc z in
    if match c_density P with
       | Some d => negb (Rleb 0 d && Rleb d 1)
       | None => match c_k_neigh P with Some k => Z.ltb k 0 | None => false end
       end then Some (Raise ValueError)
    else if Nat.ltb (List.length ss) Nc then Some (Raise IndexError)
    else
      let pos := comm_coord P rng z ss in
      let intra := flat_map (fun i => comm_intra P rng pos i (list_sum (firstn i ss)) (nth i ss 0%nat)) (seq 0 Nc) in
      match comm_inter fuel P rng z ss with
      | None => None
      | Some inter =>
        let E := intra ++ inter in
        match unit_init N (E ++ map (fun p => (snd p, fst p)) E) lap (Some (map (fun v => [fst (pos v); snd (pos v)]) (seq 0 N))) with
        | Raise e => Some (Raise e)
        | Ok G => Some (Ok (G, z))
        end
      end
  end.
