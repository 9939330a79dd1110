(** C92: the rounded Laplacian of any graph, directed or not. *)
From Coq Require Import Reals Lra Lia List Arith Bool String ZArith Permutation.
From Flocq Require Import Core.
From Coq Require Import List.
From Verif.Base Require Import RSum Prelude LinAlg Spectral.
From Verif.Spec Require Import Matrix Rounding GraphSpec LapSpec CacheSpec.
From Verif.Model Require Import Sparse Graph Bounds Cache Utils Rounded.
From Verif.Proofs Require Import SparseFacts InitFacts EdgeFacts LapFacts BoundFacts SpectralFacts.
From Verif.Props Require Import Core Laplacian Traversal Caching SpectrumProps TightProps RoundProps SymRoundProps.
Import ListNotations.
Open Scope R_scope.
Open Scope list_scope.

(** [eta]: the error of a division by two (0 but for underflow). *)
Section Directed.
Variables (F : R -> Prop) (rnd : R -> R) (u eta : R) (tin tout : nat -> sumtree) (G : graph).
Hypothesis Hr : rounding F rnd u.
Hypothesis U1 : u <= 1.
Hypothesis Hh : forall x, F x -> Rabs (rnd (x / 2) - x / 2) <= eta.
Hypothesis Hb : built G.
Hypothesis Hp : nonneg_weights G.
Hypothesis Hdir : is_directed (gW G) = true.
Hypothesis Ht : g_lap_type G = Combinatorial.
Hypothesis HF : forall i j, (i < g_n_vertices G)%nat -> (j < g_n_vertices G)%nat -> F (wt G i j).
Hypothesis Hs : sums_all (g_n_vertices G) tin.
Hypothesis Hs' : sums_all (g_n_vertices G) tout.
Let n := g_n_vertices G.
Let Lh := r_lap_comb rnd tin tout (gW G).
Let d := dw (gW G).
Lemma dr_eta : 0 <= eta.
Proof. eapply Rle_trans; [apply Rabs_pos|apply (Hh 0), (r_zero _ _ _ Hr)]. Qed.
Lemma dr_sum i (t : nat -> sumtree) (f : nat -> R) : (i < n)%nat -> sums_all n t -> (forall k, (k < n)%nat -> F (f k)) -> (forall k, (k < n)%nat -> 0 <= f k) ->
  F (r_sum rnd (t i) f) /\ Rabs (r_sum rnd (t i) f - rsum n f) <= ((1 + u) ^ (n - 1) - 1) * rsum n f.
Proof.
  intros Hi Hs0 Hf H0. pose proof (Hs0 i Hi) as P. assert (HFl : forall k, In k (leaves (t i)) -> F (f k)).
  { intros k Hk. apply Hf. eapply Permutation_in in Hk; [|exact P]. apply in_seq in Hk. lia. }
  split; [apply (r_sum_in F rnd u Hr); exact HFl|].
  pose proof (r_sum_err F rnd u Hr (t i) f HFl) as E.
  rewrite (Permutation_length P), seq_length in E. rewrite (lsum_perm _ _ (Permutation_map _ P)) in E. rewrite (lsum_perm _ _ (Permutation_map (fun k => Rabs (f k)) P)) in E. rewrite !lsum_map_seq0 in E.
  rewrite (rsum_ext n (fun k => Rabs (f k)) f) in E by (intros k Hk; apply Rabs_pos_eq, H0; assumption). exact E.
Qed.
Lemma dr_dw i : (i < n)%nat -> d i = (\sum_(j < n) wt G j i + \sum_(j < n) wt G i j) / 2.
Proof. intros Hi. exact (proj1 (C08_weighted_degree G i Hb Hi)). Qed.
Lemma dr_dw_err i : (i < n)%nat -> F (r_dw rnd tin tout (gW G) i) /\ Rabs (r_dw rnd tin tout (gW G) i - d i) <= ((1 + u) ^ n - 1) * d i + eta.
Proof.
  intros Hi. unfold r_dw. rewrite Hdir. split; [apply (r_in _ _ _ Hr)|]. pose proof (r_unit _ _ _ Hr) as U0.
  destruct (dr_sum i tin (fun j => get (gW G) j i) Hi Hs) as (F1 & E1); [intros k Hk; apply HF; assumption|intros k Hk; apply Hp; assumption|].
  destruct (dr_sum i tout (fun j => get (gW G) i j) Hi Hs') as (F2 & E2); [intros k Hk; apply HF; assumption|intros k Hk; apply Hp; assumption|].
  rewrite (dr_dw i Hi). unfold wt. set (a := \sum_(j < n) get (gW G) j i) in *. set (b := \sum_(j < n) get (gW G) i j) in *.
  change (rsum n (fun j => get (gW G) j i)) with a in E1. change (rsum n (fun j => get (gW G) i j)) with b in E2.
  set (s := r_sum rnd (tin i) (fun j => get (gW G) j i)) in *. set (t := r_sum rnd (tout i) (fun j => get (gW G) i j)) in *.
  assert (A0 : 0 <= a) by (apply rsum_nonneg; intros k Hk; apply Hp; assumption). assert (B0 : 0 <= b) by (apply rsum_nonneg; intros k Hk; apply Hp; assumption).
  pose proof (r_plus _ _ _ Hr s t F1 F2) as P. pose proof (Hh _ (r_in _ _ _ Hr (s + t))) as Q.
  assert (Eg : (1 + u) ^ n = (1 + u) * (1 + u) ^ (n - 1)). { replace n with (S (n - 1)) at 1 by lia. reflexivity. }
  set (g := (1 + u) ^ (n - 1)) in *. assert (G1 : 1 <= g) by (apply pow_R1_Rle; lra). rewrite Eg.
  assert (A : Rabs (s + t - (a + b)) <= (g - 1) * (a + b)).
  { replace (s + t - (a + b)) with ((s - a) + (t - b)) by ring. eapply Rle_trans; [apply Rabs_triang|]. lra. }
  assert (B : Rabs (s + t) <= g * (a + b)).
  { replace (s + t) with ((s + t - (a + b)) + (a + b)) by ring. eapply Rle_trans; [apply Rabs_triang|]. rewrite (Rabs_pos_eq (a + b)) by lra. lra. }
  assert (C : Rabs (rnd (s + t) - (a + b)) <= ((1 + u) * g - 1) * (a + b)).
  { replace (rnd (s + t) - (a + b)) with ((rnd (s + t) - (s + t)) + (s + t - (a + b))) by ring. eapply Rle_trans; [apply Rabs_triang|].
    pose proof (Rmult_le_compat_l u _ _ U0 B). replace (((1 + u) * g - 1) * (a + b)) with (u * (g * (a + b)) + (g - 1) * (a + b)) by ring. lra. }
  replace (rnd (rnd (s + t) / 2) - (a + b) / 2) with ((rnd (rnd (s + t) / 2) - rnd (s + t) / 2) + (rnd (s + t) - (a + b)) * / 2) by field.
  eapply Rle_trans; [apply Rabs_triang|]. rewrite Rabs_mult, (Rabs_pos_eq (/ 2)) by lra. replace (((1 + u) * g - 1) * ((a + b) / 2)) with (((1 + u) * g - 1) * (a + b) * / 2) by field. lra.
Qed.
(** The symmetrized weights. *)
Lemma dr_avg i j : (i < n)%nat -> (j < n)%nat -> F (r_average rnd (get (gW G)) i j) /\
  Rabs (r_average rnd (get (gW G)) i j - (wt G i j + wt G j i) / 2) <= u * ((wt G i j + wt G j i) / 2) + eta.
Proof.
  intros Hi Hj. unfold r_average. split; [apply (r_in _ _ _ Hr)|]. pose proof (r_plus _ _ _ Hr _ _ (HF i j Hi Hj) (HF j i Hj Hi)) as P. unfold wt in *.
  set (a := get (gW G) i j + get (gW G) j i) in *. pose proof (Hh _ (r_in _ _ _ Hr a)) as Q. assert (A0 : 0 <= a) by (unfold a; pose proof (Hp i j Hi Hj); pose proof (Hp j i Hj Hi); unfold wt in *; lra).
  rewrite (Rabs_pos_eq a A0) in P. replace (rnd (rnd a / 2) - a / 2) with ((rnd (rnd a / 2) - rnd a / 2) + (rnd a - a) * / 2) by field.
  eapply Rle_trans; [apply Rabs_triang|]. rewrite Rabs_mult, (Rabs_pos_eq (/ 2)) by lra. lra.
Qed.
Lemma dr_exact i j : (i < n)%nat -> (j < n)%nat -> gL G i j = (if Nat.eqb i j then d i else 0) - (wt G i j + wt G j i) / 2.
Proof.
  intros Hi Hj. rewrite (built_comb G Hb Ht). unfold d, wt. unfold n in Hi, Hj. rewrite (tp_n G Hb) in Hi, Hj.
  destruct (Nat.eqb_spec i j) as [->|Hne].
  - rewrite lap_comb_diag by (try apply (tp_good G Hb); assumption). field.
  - rewrite lap_comb_entry by (try apply (tp_good G Hb); assumption). field.
Qed.
Lemma dr_off i j : (i < n)%nat -> (j < n)%nat -> i <> j -> Rabs (Lh i j - gL G i j) <= u * Rabs (gL G i j) + eta.
Proof.
  intros Hi Hj Hne. rewrite (dr_exact i j Hi Hj). destruct (dr_avg i j Hi Hj) as (Fa & Ea). unfold Lh, r_lap_comb. rewrite Hdir. destruct (Nat.eqb_spec i j); [contradiction|].
  rewrite !Rminus_0_l, (r_id _ _ _ Hr _ (r_opp _ _ _ Hr _ Fa)), Rabs_Ropp. pose proof (Hp i j Hi Hj). pose proof (Hp j i Hj Hi). rewrite (Rabs_pos_eq ((wt G i j + wt G j i) / 2)) by lra.
  replace (- r_average rnd (get (gW G)) i j - - ((wt G i j + wt G j i) / 2)) with (- (r_average rnd (get (gW G)) i j - (wt G i j + wt G j i) / 2)) by ring. rewrite Rabs_Ropp. exact Ea.
Qed.
Lemma dr_loop i : (i < n)%nat -> 0 <= wt G i i <= d i.
Proof.
  intros Hi. split; [apply Hp; assumption|]. rewrite (dr_dw i Hi).
  pose proof (rsum_ge_term n (fun j => wt G j i) i ltac:(intros j Hj; apply Hp; assumption) Hi). pose proof (rsum_ge_term n (fun j => wt G i j) i ltac:(intros j Hj; apply Hp; assumption) Hi). cbv beta in *. lra.
Qed.
Lemma dr_diag i : (i < n)%nat -> Rabs (Lh i i - gL G i i) <= ((1 + u) ^ (n + 2) - 1) * d i + 4 * eta.
Proof.
  intros Hi. destruct (dr_dw_err i Hi) as (Fd & E). pose proof (dr_loop i Hi) as (W0 & W1). pose proof (r_unit _ _ _ Hr) as U0. pose proof dr_eta as N0.
  destruct (dr_avg i i Hi Hi) as (Fa & Ea). replace ((wt G i i + wt G i i) / 2) with (wt G i i) in Ea by field.
  rewrite (dr_exact i i Hi Hi), Nat.eqb_refl. replace ((wt G i i + wt G i i) / 2) with (wt G i i) by field.
  unfold Lh, r_lap_comb. rewrite Hdir, Nat.eqb_refl. set (x := r_dw rnd tin tout (gW G) i) in *. set (w := wt G i i) in *. set (w' := r_average rnd (get (gW G)) i i) in *. set (di := d i) in *.
  pose proof (r_plus _ _ _ Hr x (- w') Fd (r_opp _ _ _ Hr _ Fa)) as Q. change (x + - w') with (x - w') in Q.
  rewrite pow_add. set (g := (1 + u) ^ n) in *. assert (G1 : 1 <= g) by (apply pow_R1_Rle; lra). cbn [pow].
  assert (D0 : 0 <= di) by lra. assert (Ud : u * w <= u * di) by (apply Rmult_le_compat_l; assumption).
  assert (Uw : u * w <= w) by (rewrite <- (Rmult_1_l w) at 2; apply Rmult_le_compat_r; assumption).
  assert (A : Rabs (x - w') <= g * di + 2 * eta).
  { replace (x - w') with ((x - di) + (di - w) + - (w' - w)) by ring. eapply Rle_trans; [apply Rabs_triang|]. rewrite Rabs_Ropp. pose proof (Rabs_triang (x - di) (di - w)) as T. rewrite (Rabs_pos_eq (di - w)) in T by lra. lra. }
  replace (rnd (x - w') - (di - w)) with ((rnd (x - w') - (x - w')) + (x - di) + - (w' - w)) by ring.
  eapply Rle_trans; [apply Rabs_triang|]. rewrite Rabs_Ropp. pose proof (Rabs_triang (rnd (x - w') - (x - w')) (x - di)) as T.
  pose proof (Rmult_le_compat_l u _ _ U0 A) as B. assert (Ue : u * eta <= eta) by (rewrite <- (Rmult_1_l eta) at 2; apply Rmult_le_compat_r; assumption).
  assert (Gd : di <= g * di) by (rewrite <- (Rmult_1_l di) at 1; apply Rmult_le_compat_r; assumption).
  pose proof (Rmult_le_compat_l u _ _ U0 Gd) as Gu. assert (0 <= u * u * (g * di)) by (apply Rmult_le_pos; [apply Rmult_le_pos; assumption|apply Rmult_le_pos; lra]).
  replace ((g * ((1 + u) * ((1 + u) * 1)) - 1) * di) with (g * di - di + 2 * (u * (g * di)) + u * u * (g * di)) by ring. lra.
Qed.
Lemma dr_quad x : Rabs (quad n Lh x - quad n (gL G) x) <= ((1 + u) ^ (n + 3) - 1) * (\sum_(i < n) (d i * (x i * x i))) + (INR n + 4) * eta * normsq n x.
Proof.
  pose proof (r_unit _ _ _ Hr) as U0. pose proof dr_eta as N0.
  set (om := fun i j => (wt G i j + wt G j i) / 2). set (D := fun i j => Lh i j - gL G i j).
  assert (Bd : forall i j, (i < n)%nat -> (j < n)%nat -> Rabs (D i j) <= (if Nat.eqb i j then ((1 + u) ^ (n + 2) - 1) * d i + 4 * eta else 0) + (u * om i j + eta)).
  { intros i j Hi Hj. assert (O : 0 <= om i j) by (unfold om; pose proof (Hp i j Hi Hj); pose proof (Hp j i Hj Hi); lra). pose proof (Rmult_le_pos _ _ U0 O). destruct (Nat.eqb_spec i j) as [<-|Hne].
    - pose proof (dr_diag i Hi). unfold D. lra.
    - pose proof (dr_off i j Hi Hj Hne) as H1. rewrite (dr_exact i j Hi Hj) in H1 at 2. destruct (Nat.eqb_spec i j); [contradiction|]. fold (om i j) in H1. rewrite Rminus_0_l, Rabs_Ropp, (Rabs_pos_eq (om i j) O) in H1. unfold D. lra. }
  assert (E : quad n Lh x - quad n (gL G) x = \sum_(i < n) \sum_(j < n) (D i j * (x i * x j))).
  { unfold quad, dot, mulv. rewrite <- rsum_minus. apply rsum_ext. intros i Hi. rewrite <- Rmult_minus_distr_l, <- rsum_minus, <- rsum_scal_l. apply rsum_ext. intros j Hj. unfold D. ring. }
  assert (W : forall i, (i < n)%nat -> \sum_(j < n) om i j = d i).
  { intros i Hi. rewrite (dr_dw i Hi). unfold om, Rdiv. rewrite rsum_scal_r, rsum_plus. change (rsum n (fun j => wt G i j)) with (\sum_(j < n) wt G i j). rewrite (Rplus_comm (\sum_(j < n) wt G j i)). reflexivity. }
  rewrite E. eapply Rle_trans; [apply rsum_abs|].
  apply Rle_trans with (\sum_(i < n) \sum_(j < n) (((if Nat.eqb i j then ((1 + u) ^ (n + 2) - 1) * d i + 4 * eta else 0) + (u * om i j + eta)) * ((x i * x i + x j * x j) / 2))).
  { apply rsum_le. intros i Hi. eapply Rle_trans; [apply rsum_abs|]. apply rsum_le. intros j Hj. rewrite Rabs_mult. apply Rmult_le_compat; try apply Rabs_pos; [apply Bd; assumption|].
    pose proof (Rle_0_sqr (x i - x j)) as Q1. pose proof (Rle_0_sqr (x i + x j)) as Q2. unfold Rsqr in Q1, Q2. clear - Q1 Q2. apply Rabs_le. split; lra. }
  set (b := fun i j => (if Nat.eqb i j then ((1 + u) ^ (n + 2) - 1) * d i + 4 * eta else 0) + (u * om i j + eta)).
  assert (Bs : forall i j, b i j = b j i). { intros i j. unfold b, om. rewrite (Nat.eqb_sym j i), (Rplus_comm (wt G j i)). destruct (Nat.eqb_spec i j) as [->|]; reflexivity. }
  assert (Sy : \sum_(i < n) \sum_(j < n) (b i j * ((x i * x i + x j * x j) / 2)) = \sum_(i < n) ((\sum_(j < n) b i j) * (x i * x i))).
  { rewrite (rsum_ext n _ (fun i => \sum_(j < n) (b i j * (x i * x i) / 2) + \sum_(j < n) (b i j * (x j * x j) / 2))) by (intros i Hi; rewrite <- rsum_plus; apply rsum_ext; intros; field).
    rewrite rsum_plus. rewrite (rsum_swap n n (fun i j => b i j * (x j * x j) / 2)). rewrite <- rsum_plus. apply rsum_ext. intros i Hi. rewrite <- rsum_plus, <- rsum_scal_r. apply rsum_ext. intros j Hj. rewrite (Bs j i). field. }
  change (\sum_(i < n) \sum_(j < n) (b i j * ((x i * x i + x j * x j) / 2)) <= ((1 + u) ^ (n + 3) - 1) * (\sum_(i < n) (d i * (x i * x i))) + (INR n + 4) * eta * normsq n x).
  rewrite Sy. unfold normsq, dot. rewrite <- !rsum_scal_l, <- rsum_plus. apply rsum_le. intros i Hi.
  assert (Rs : \sum_(j < n) b i j = ((1 + u) ^ (n + 2) - 1) * d i + 4 * eta + (u * d i + INR n * eta)).
  { unfold b. rewrite rsum_plus, rsum_plus, rsum_scal_l, rsum_const. change (rsum n (om i)) with (\sum_(j < n) om i j). rewrite (W i Hi). rewrite (rsum_single n _ i Hi); [rewrite Nat.eqb_refl; ring|]. intros j Hj Hne. destruct (Nat.eqb_spec i j); [congruence|reflexivity]. }
  rewrite Rs. replace (n + 3)%nat with (S (n + 2)) by lia. cbn [pow]. set (g := (1 + u) ^ (n + 2)). assert (G1 : 1 <= g) by (apply pow_R1_Rle; lra).
  pose proof (dr_loop i Hi) as (W0 & W1). assert (D0 : 0 <= d i) by lra. assert (u * d i <= u * (g * d i)) by (apply Rmult_le_compat_l; [exact U0|]; rewrite <- (Rmult_1_l (d i)) at 1; apply Rmult_le_compat_r; assumption).
  pose proof (Rle_0_sqr (x i)) as S2. unfold Rsqr in S2.
  replace (((1 + u) * g - 1) * (d i * (x i * x i)) + (INR n + 4) * eta * (x i * x i)) with ((((1 + u) * g - 1) * d i + (INR n + 4) * eta) * (x i * x i)) by ring.
  apply Rmult_le_compat_r; [exact S2|]. lra.
Qed.
End Directed.

(** Any graph with non-negative weights. [eta] is the error of a division by two. *)
Theorem C92_any_laplacian_error : forall F rnd u eta tin tout G, rounding F rnd u -> u <= 1 -> (forall x, F x -> Rabs (rnd (x / 2) - x / 2) <= eta) ->
  built G -> nonneg_weights G -> g_lap_type G = Combinatorial ->
  (forall i j, (i < g_n_vertices G)%nat -> (j < g_n_vertices G)%nat -> F (wt G i j)) -> sums_all (g_n_vertices G) tin -> sums_all (g_n_vertices G) tout ->
  let n := g_n_vertices G in let L := gL G in let L' := r_lap_comb rnd tin tout (gW G) in let d := dw (gW G) in
  (forall i j, (i < n)%nat -> (j < n)%nat -> i <> j -> Rabs (L' i j - L i j) <= u * Rabs (L i j) + eta) /\
  (forall i, (i < n)%nat -> Rabs (L' i i - L i i) <= ((1 + u) ^ (n + 2) - 1) * d i + 4 * eta) /\
  (forall x, Rabs (quad n L' x - quad n L x) <= ((1 + u) ^ (n + 3) - 1) * (\sum_(i < n) (d i * (x i * x i))) + (INR n + 4) * eta * normsq n x) /\
  (forall e U e' U' M, eigh_ok n L e U -> eigh_ok n L' e' U' -> (forall i, (i < n)%nat -> d i <= M) ->
     forall k, (k < n)%nat -> Rabs (e' k - e k) <= ((1 + u) ^ (n + 3) - 1) * M + (INR n + 4) * eta).
Proof.
  intros F rnd u eta tin tout G Hr U1 Hh Hb Hp Ht HF Hs Hs' n L L' d.
  pose proof (r_unit _ _ _ Hr) as U0. pose proof (dr_eta F rnd u eta Hr Hh) as N0.
  assert (Pw : forall a b, (a <= b)%nat -> (1 + u) ^ a <= (1 + u) ^ b) by (intros a b Hab; apply Rle_pow; [lra|exact Hab]).
  assert (D0 : forall i, (i < n)%nat -> 0 <= d i) by (intros i Hi; apply (dw_nonneg (gW G) (tp_good G Hb)); [exact (tp_nonneg G Hb Hp)|rewrite <- (tp_n G Hb); exact Hi]).
  assert (Nn : 0 <= (INR n + 4) * eta) by (apply Rmult_le_pos; [pose proof (pos_INR n); lra|exact N0]).
  assert (A : (forall i j, (i < n)%nat -> (j < n)%nat -> i <> j -> Rabs (L' i j - L i j) <= u * Rabs (L i j) + eta) /\
    (forall i, (i < n)%nat -> Rabs (L' i i - L i i) <= ((1 + u) ^ (n + 2) - 1) * d i + 4 * eta) /\
    (forall x, Rabs (quad n L' x - quad n L x) <= ((1 + u) ^ (n + 3) - 1) * (\sum_(i < n) (d i * (x i * x i))) + (INR n + 4) * eta * normsq n x)).
  { destruct (is_directed (gW G)) eqn:Ed.
    - split; [|split].
      + intros i j Hi Hj Hne. apply (dr_off F rnd u eta tin tout G Hr Hh Hb Hp Ed Ht HF i j Hi Hj Hne).
      + intros i Hi. apply (dr_diag F rnd u eta tin tout G Hr U1 Hh Hb Hp Ed Ht HF Hs Hs' i Hi).
      + intros x. apply (dr_quad F rnd u eta tin tout G Hr U1 Hh Hb Hp Ed Ht HF Hs Hs' x).
    - assert (Hu : undirected G). { intros i j Hi Hj. unfold wt. apply (proj1 (is_directed_false (gW G)) Ed); rewrite <- (tp_n G Hb); assumption. }
      destruct (C92_laplacian_error F rnd u tin tout G Hr Hb Hp Hu Ht HF Hs) as (Off & Di & _ & Qu & _). fold n L L' d in Off, Di, Qu. split; [|split].
      + intros i j Hi Hj Hne. rewrite (Off i j Hi Hj Hne), Rminus_eq_0, Rabs_R0. pose proof (Rmult_le_pos _ _ U0 (Rabs_pos (L i j))). lra.
      + intros i Hi. eapply Rle_trans; [apply Di; exact Hi|]. specialize (D0 i Hi). pose proof (Pw n (n + 2)%nat ltac:(lia)) as Q.
        pose proof (Rmult_le_compat_r (d i) _ _ D0 Q). lra.
      + intros x. eapply Rle_trans; [apply Qu|]. pose proof (Pw n (n + 3)%nat ltac:(lia)) as Q.
        assert (S0 : 0 <= \sum_(i < n) (d i * (x i * x i))) by (apply rsum_nonneg; intros i Hi; apply Rmult_le_pos; [apply D0; exact Hi|apply Rle_0_sqr]).
        pose proof (Rmult_le_compat_r _ _ _ S0 Q). pose proof (Rmult_le_pos _ _ Nn (normsq_nonneg n x)). lra. }
  destruct A as (A1 & A2 & A3). split; [exact A1|]. split; [exact A2|]. split; [exact A3|].
  intros e U e' U' M He He' HM. apply (eigh_close n L' L e' U' e U); [exact He'|exact He|]. intros x. eapply Rle_trans; [apply A3|].
  set (N4 := (INR n + 4) * eta). rewrite Rmult_plus_distr_r. apply Rplus_le_compat_r. rewrite Rmult_assoc. pose proof (Pw 0%nat (n + 3)%nat ltac:(lia)) as Q. rewrite pow_O in Q.
  apply Rmult_le_compat_l; [lra|]. unfold normsq, dot. rewrite <- rsum_scal_l. apply rsum_le; intros i Hi. apply Rmult_le_compat_r; [apply Rle_0_sqr|apply HM; exact Hi].
Qed.

(** compute_fourier_basis accepts every sorted answer whose eigenvalues are within 1e-5 of the exact ones, the last one being non-negative. *)
Lemma close_accepted G e U e0 U0 : built G -> nonneg_weights G -> (0 < g_n_vertices G)%nat -> List.length e = g_n_vertices G ->
  (forall k l, (k <= l)%nat -> (l < g_n_vertices G)%nat -> nth k e 0 <= nth l e 0) ->
  eigh_ok (g_n_vertices G) (gL G) e0 U0 -> (forall k, (k < g_n_vertices G)%nat -> Rabs (nth k e 0 - e0 k) < / 10 ^ 5) -> 0 <= nth (g_n_vertices G - 1) e 0 ->
  exists s, compute_fourier_basis None (EigOk e U) (cache_init G) = (s, Ok tt) /\ c_basis s = Some (0 :: tl e, U).
Proof.
  intros Hb Hp Hn Hlen Hso He0 Cl Top. set (n := g_n_vertices G) in *.
  assert (Z0 : e0 0%nat = 0) by (apply (first_eigenvalue_zero G e0 U0 Hb Hp Hn); exact He0).
  destruct e as [|a es]; [cbn in Hlen; lia|]. pose proof (Cl 0%nat Hn) as C0. cbn [nth] in C0. rewrite Z0, Rminus_0_r in C0. apply Rabs_def2 in C0. destruct C0 as (C1 & C2).
  unfold compute_fourier_basis. cbn [c_basis cache_init c_N].
  replace (Rltb (- / 10 ^ 5) a && Rltb a (/ 10 ^ 5))%bool with true by (symmetry; apply andb_true_intro; split; apply Rltb_true; assumption).
  destruct (C14_upper_bound_is_upper_bound G Hb Hp Hn) as (r & Er & Hrr). change (upper_bound (c_W (cache_init G)) (c_lap (cache_init G))) with (upper_bound (gW G) (g_lap_type G)). rewrite Er.
  assert (Hlast : last (0 :: es) 0 = if Nat.eqb n 1 then 0 else nth (n - 1) (a :: es) 0).
  { rewrite last_nth. cbn [List.length] in *. destruct (Nat.eqb_spec n 1) as [E|E]; [replace (S (List.length es) - 1)%nat with 0%nat by lia; reflexivity|]. rewrite Hlen. destruct (n - 1)%nat eqn:E2; [lia|reflexivity]. }
  assert (Hl0 : 0 <= last (0 :: es) 0) by (rewrite Hlast; destruct (Nat.eqb n 1); [lra|exact Top]).
  assert (E2 : fle (last (0 :: es) 0) (xadd (Fin r) (Fin (/ 10 ^ 5))) = true).
  { cbn [xadd fle]. apply Rleb_true. pose proof (Hrr _ _ (eigh_eigenpair n (gL G) e0 U0 He0 (n - 1)%nat ltac:(lia))) as R1. pose proof (Hrr _ _ (eigh_eigenpair n (gL G) e0 U0 He0 0%nat Hn)) as R0. rewrite Z0 in R0.
    assert (0 < / 10 ^ 5) by (apply Rinv_0_lt_compat; lra). rewrite Hlast. destruct (Nat.eqb n 1); [lra|].
    pose proof (Cl (n - 1)%nat ltac:(lia)) as C. apply Rabs_def2 in C. lra. }
  rewrite E2.
  assert (E3 : forallb (fun x => Rleb x (last (0 :: es) 0)) (0 :: es) = true).
  { apply forallb_forall. intros x Hx. apply Rleb_true. destruct Hx as [<-|Hx]; [exact Hl0|]. rewrite Hlast. destruct (In_nth _ _ 0 Hx) as (i & Hi & <-). cbn [List.length] in Hlen.
    destruct (Nat.eqb_spec n 1) as [E|E]; [lia|]. change (nth i es 0) with (nth (S i) (a :: es) 0). apply Hso; lia. }
  rewrite E3. fold n. rewrite Nat.eqb_refl. eexists. split; reflexivity.
Qed.
(** The assertions hold on any graph, directed or not, if the rounding errors and the error [delta] of the solver stay below 1e-5 and below the weight of some edge. *)
Theorem C92_any_graph_accepted : forall F rnd u eta tin tout G M delta A e U, rounding F rnd u -> u <= 1 -> (forall x, F x -> Rabs (rnd (x / 2) - x / 2) <= eta) ->
  built G -> nonneg_weights G -> g_lap_type G = Combinatorial ->
  (forall i j, (i < g_n_vertices G)%nat -> (j < g_n_vertices G)%nat -> F (wt G i j)) -> sums_all (g_n_vertices G) tin -> sums_all (g_n_vertices G) tout ->
  let n := g_n_vertices G in let eps := ((1 + u) ^ (n + 3) - 1) * M + (INR n + 4) * eta + delta in
  (forall i, (i < n)%nat -> dw (gW G) i <= M) -> eps < / 10 ^ 5 -> (exists i j, (i < n)%nat /\ (j < n)%nat /\ i <> j /\ eps <= wt G i j) ->
  (forall x, Rabs (quad n A x - quad n (r_lap_comb rnd tin tout (gW G)) x) <= delta * normsq n x) ->
  eigh_ok n A (fun k => nth k e 0) U -> List.length e = n ->
  exists s, compute_fourier_basis None (EigOk e U) (cache_init G) = (s, Ok tt) /\ c_basis s = Some (0 :: tl e, U).
Proof.
  intros F rnd u eta tin tout G M delta A e U Hr U1 Hh Hb Hp Ht HF Hs Hs' n eps HM Hsm (i & j & Hi & Hj & Hne & Hw) HA He Hlen.
  destruct (C92_any_laplacian_error F rnd u eta tin tout G Hr U1 Hh Hb Hp Ht HF Hs Hs') as (_ & _ & Qu & _). fold n in Qu.
  pose proof (r_unit _ _ _ Hr) as U0.
  assert (Cq : forall x, Rabs (quad n A x - quad n (gL G) x) <= eps * normsq n x).
  { intros x. specialize (Qu x). specialize (HA x). set (L' := r_lap_comb rnd tin tout (gW G)) in *.
    replace (quad n A x - quad n (gL G) x) with ((quad n A x - quad n L' x) + (quad n L' x - quad n (gL G) x)) by ring. eapply Rle_trans; [apply Rabs_triang|].
    assert (Q : ((1 + u) ^ (n + 3) - 1) * (\sum_(i < n) (dw (gW G) i * (x i * x i))) <= ((1 + u) ^ (n + 3) - 1) * M * normsq n x).
    { rewrite Rmult_assoc. apply Rmult_le_compat_l; [pose proof (pow_R1_Rle (1 + u) (n + 3)); lra|]. unfold normsq, dot. rewrite <- rsum_scal_l. apply rsum_le; intros a Ha. apply Rmult_le_compat_r; [apply Rle_0_sqr|apply HM; exact Ha]. }
    unfold eps. rewrite !Rmult_plus_distr_r. rewrite Rmult_plus_distr_r in Qu. lra. }
  assert (Hn : (0 < n)%nat) by lia.
  destruct (spectral_theorem n (gL G)) as (e0 & U0' & He0). { unfold n. rewrite (tp_n G Hb), (built_comb G Hb Ht). apply lap_comb_sym, (tp_good G Hb). }
  apply (close_accepted G e U e0 U0' Hb Hp Hn Hlen); [exact (eigh_sort _ _ _ _ He)|exact He0| |].
  - intros k Hk. eapply Rle_lt_trans; [|exact Hsm]. apply (eigh_close n A (gL G) (fun k => nth k e 0) U e0 U0' eps He He0 Cq k Hk).
  - assert (B : forall x, quad n A x <= nth (n - 1) e 0 * normsq n x) by (intros x; apply (eigh_quad_le n A _ U He); intros k Hk; apply (eigh_sort _ _ _ _ He k (n - 1)%nat); lia).
    set (x := fun k => 1 * unitv i k + -1 * unitv j k). specialize (B x). specialize (Cq x). unfold x in B, Cq. rewrite normsq_two in B, Cq by assumption. fold x in B, Cq.
    destruct (C09_combinatorial_structure G Hb Ht) as (_ & Hrow & Ho & _). fold n in Hrow, Ho.
    assert (Lp : forall a b, (a < n)%nat -> (b < n)%nat -> a <> b -> (wt G a b + wt G b a) / 2 <= gL G a a).
    { intros a b Ha Hb' Hab. pose proof (Hrow a Ha) as R0.
      assert (E : gL G a a = \sum_(l < n) (if Nat.eqb l a then 0 else - gL G a l)).
      { assert (E1 : \sum_(l < n) (if Nat.eqb l a then 0 else - gL G a l) = \sum_(l < n) ((if Nat.eqb l a then gL G a a else 0) - gL G a l)) by (apply rsum_ext; intros l Hl; destruct (Nat.eqb_spec l a) as [->|]; ring).
        rewrite E1, rsum_minus. change (rsum n (gL G a)) with (\sum_(l < n) gL G a l). rewrite R0, (rsum_single n _ a Ha); [rewrite Nat.eqb_refl; ring|]. intros l Hl Hla. destruct (Nat.eqb_spec l a); [contradiction|reflexivity]. }
      rewrite E. pose proof (rsum_ge_term n (fun l => if Nat.eqb l a then 0 else - gL G a l) b) as T. cbv beta in T. destruct (Nat.eqb_spec b a); [congruence|].
      rewrite (Ho a b Ha Hb' Hab) in T. replace ((wt G a b + wt G b a) / 2) with (- (- (wt G a b + wt G b a) / 2)) by field. apply T; [|exact Hb'].
      intros l Hl. destruct (Nat.eqb_spec l a); [lra|]. rewrite Ho by auto. pose proof (Hp a l Ha Hl). pose proof (Hp l a Hl Ha). lra. }
    assert (Qx : quad n (gL G) x = gL G i i + gL G j j + (wt G i j + wt G j i)).
    { unfold x. rewrite quad_two by assumption. rewrite (Ho i j Hi Hj Hne), (Ho j i Hj Hi) by auto. field. }
    pose proof (Lp i j Hi Hj Hne). pose proof (Lp j i Hj Hi ltac:(auto)). pose proof (Hp i j Hi Hj). pose proof (Hp j i Hj Hi).
    pose proof (Rle_abs (- (quad n A x - quad n (gL G) x))) as P. rewrite Rabs_Ropp in P. fold n. lra.
Qed.

(** Double precision: the assertions hold for n max(dw) up to 2e10 and a solver accurate to 1e-6, if some weight is at least 1e-5. *)
Theorem C92_any_graph_double_precision_accepted : forall tin tout G M delta A e U, built G -> nonneg_weights G -> g_lap_type G = Combinatorial ->
  (forall i j, (i < g_n_vertices G)%nat -> (j < g_n_vertices G)%nat -> b64_format (wt G i j)) -> sums_all (g_n_vertices G) tin -> sums_all (g_n_vertices G) tout ->
  let n := g_n_vertices G in
  (forall i, (i < n)%nat -> dw (gW G) i <= M) -> INR n <= 2 ^ 50 -> (INR n + 3) * M <= 3 * 10 ^ 10 -> delta <= / 10 ^ 6 ->
  (exists i j, (i < n)%nat /\ (j < n)%nat /\ i <> j /\ / 10 ^ 5 <= wt G i j) ->
  (forall x, Rabs (quad n A x - quad n (r_lap_comb b64_round tin tout (gW G)) x) <= delta * normsq n x) ->
  eigh_ok n A (fun k => nth k e 0) U -> List.length e = n ->
  exists s, compute_fourier_basis None (EigOk e U) (cache_init G) = (s, Ok tt) /\ c_basis s = Some (0 :: tl e, U).
Proof.
  intros tin tout G M delta A e U Hb Hp Ht HF Hs Hs' n HM H50 HnM Hd (i & j & Hi & Hj & Hne & Hw) HA He Hl.
  set (u := / 2 ^ 53). set (eta := bpow radix2 (-1075)). assert (Hu0 : 0 < u) by (apply Rinv_0_lt_compat, pow_lt; lra).
  assert (E53 : 2 ^ 53 * u = 1) by (unfold u; apply Rinv_r, pow_nonzero; lra).
  assert (Hn : (0 < n)%nat) by lia. assert (M0 : 0 <= M). { apply Rle_trans with (dw (gW G) 0); [|apply HM; exact Hn]. apply (dw_nonneg (gW G) (tp_good G Hb)); [exact (tp_nonneg G Hb Hp)|rewrite <- (tp_n G Hb); exact Hn]. }
  assert (P50 : 2 ^ 50 * 8 = 2 ^ 53) by (cbn; ring). assert (In : INR (n + 3) = INR n + 3) by (rewrite plus_INR; cbn [INR]; ring).
  assert (B50 : 10 <= 2 ^ 50) by (cbn; lra). assert (Hs1 : 2 * INR (n + 3) * u <= 1). { rewrite <- E53, In. apply Rmult_le_compat_r; [lra|]. lra. }
  pose proof (pow_small u (n + 3) ltac:(lra) Hs1) as P.
  assert (Q : ((1 + u) ^ (n + 3) - 1) * M <= 2 * u * (3 * 10 ^ 10)).
  { apply Rle_trans with (2 * INR (n + 3) * u * M); [apply Rmult_le_compat_r; assumption|]. rewrite In. replace (2 * (INR n + 3) * u * M) with (2 * u * ((INR n + 3) * M)) by ring. apply Rmult_le_compat_l; lra. }
  assert (U9 : u * (9 * 10 ^ 15) < 1). { rewrite <- E53, (Rmult_comm u). apply Rmult_lt_compat_r; [exact Hu0|]. cbn. lra. }
  assert (U8 : 2 * u * (3 * 10 ^ 10) < 6 / (9 * 10 ^ 5)). { replace (2 * u * (3 * 10 ^ 10)) with (u * (9 * 10 ^ 15) * (6 / (9 * 10 ^ 5))) by field. rewrite <- (Rmult_1_l (6 / (9 * 10 ^ 5))) at 2. apply Rmult_lt_compat_r; [apply Rdiv_lt_0_compat; lra|exact U9]. }
  assert (Et : eta <= u * u).
  { assert (Eu : u = bpow radix2 (-53)) by (unfold u; rewrite bpow_powerRZ; change (IZR radix2) with 2; cbn [powerRZ]; change (Pos.to_nat 53) with 53%nat; reflexivity).
    rewrite Eu. unfold eta. rewrite <- bpow_plus. apply bpow_le. lia. }
  assert (E4 : (INR n + 4) * eta <= u).
  { apply Rle_trans with ((INR n + 4) * (u * u)); [apply Rmult_le_compat_l; [pose proof (pos_INR n); lra|exact Et]|].
    assert ((INR n + 4) * u <= 1) by (rewrite <- E53; apply Rmult_le_compat_r; lra). replace ((INR n + 4) * (u * u)) with ((INR n + 4) * u * u) by ring. rewrite <- (Rmult_1_l u) at 3. apply Rmult_le_compat_r; lra. }
  assert (U7 : u < / 10 ^ 7) by (apply Rmult_lt_reg_r with (9 * 10 ^ 15); [lra|]; eapply Rlt_trans; [exact U9|]; lra).
  assert (Sm : ((1 + u) ^ (n + 3) - 1) * M + (INR n + 4) * eta + delta < / 10 ^ 5).
  { eapply Rle_lt_trans; [apply Rplus_le_compat; [apply Rplus_le_compat; [exact Q|exact E4]|exact Hd]|].
    eapply Rlt_trans; [apply Rplus_lt_compat_r, Rplus_lt_compat; [exact U8|exact U7]|]. lra. }
  apply (C92_any_graph_accepted b64_format b64_round u eta tin tout G M delta A e U b64_rounding); auto.
  - assert (1 <= 2 ^ 53) by (cbn; lra). rewrite <- E53. rewrite <- (Rmult_1_l u) at 1. apply Rmult_le_compat_r; lra.
  - exact b64_halving.
  - exists i, j. fold n. repeat (split; [assumption|]). lra.
Qed.

Definition two : nat -> sumtree := fun _ => Node (Leaf 0) (Leaf 1).
(** The hypotheses are met by a directed graph with one arc. *)
Example C92_any_ex : exists G e U, built G /\ nonneg_weights G /\ is_directed (gW G) = true /\ g_lap_type G = Combinatorial /\ g_n_vertices G = 2%nat /\
  (forall i j, (i < 2)%nat -> (j < 2)%nat -> b64_format (wt G i j)) /\ sums_all 2 two /\ (forall i, (i < 2)%nat -> dw (gW G) i <= 1) /\
  (exists i j, (i < 2)%nat /\ (j < 2)%nat /\ i <> j /\ / 10 ^ 5 <= wt G i j) /\
  eigh_ok 2 (r_lap_comb b64_round two two (gW G)) (fun k => nth k e 0) U /\ List.length e = 2%nat.
Proof.
  destruct (finite_entry_built 2 [0; 1; 0; 0] Combinatorial None eq_refl (or_introl eq_refl)) as (G & _ & Hb & Hn & Ht & _ & Hw). exists G.
  assert (Hp : nonneg_weights G) by (intros i j Hi Hj; rewrite Hn in *; rewrite Hw by assumption; destruct i as [|[|i]]; [| |lia]; (destruct j as [|[|j]]; [| |lia]); cbn; lra).
  destruct (eigh_list 2 (r_lap_comb b64_round two two (gW G))) as (e & U & Hl & HU).
  { intros i j Hi Hj. unfold tr. apply C92_laplacian_is_exactly_symmetric; [exact Hb|rewrite Hn; exact Hi|rewrite Hn; exact Hj]. }
  exists e, U. split; [exact Hb|]. split; [exact Hp|]. split.
  { destruct (is_directed (gW G)) eqn:E; [reflexivity|]. exfalso. pose proof (proj1 (is_directed_false (gW G)) E 0%nat 1%nat) as S. rewrite <- (tp_n G Hb), Hn in S. specialize (S ltac:(lia) ltac:(lia)).
    change (wt G 0 1 = wt G 1 0) in S. rewrite !Hw in S by lia. cbn in S. lra. }
  split; [exact Ht|]. split; [exact Hn|]. split.
  { intros i j Hi Hj. rewrite Hw by assumption. destruct i as [|[|i]]; [| |lia]; (destruct j as [|[|j]]; [| |lia]); cbn [nth Nat.mul Nat.add]; apply b64_one || apply (r_zero _ _ _ b64_rounding). }
  split; [intros i Hi; apply Permutation_refl|]. split.
  { intros i Hi. rewrite (proj1 (C08_weighted_degree G i Hb ltac:(rewrite Hn; exact Hi))), Hn. cbn [rsum]. rewrite !Hw by lia. destruct i as [|[|i]]; [| |lia]; cbn; lra. }
  split; [exists 0%nat, 1%nat; rewrite Hw by lia; cbn [nth Nat.mul Nat.add]; repeat (split; [lia|]); lra|]. split; assumption.
Qed.
