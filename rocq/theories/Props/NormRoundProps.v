(** C92, continued: the rounding of the normalized Laplacian. *)
From Coq Require Import Reals Lra Lia ZArith List Arith Bool String Permutation.
From Flocq Require Import Core Relative.
From Coq Require Import List.
From Verif.Base Require Import RSum Prelude LinAlg Spectral.
From Verif.Spec Require Import Matrix GraphSpec Reach LapSpec CacheSpec Rounding.
From Verif.Model Require Import Sparse Graph Bounds Cache Utils Rounded.
From Verif.Proofs Require Import SparseFacts InitFacts EdgeFacts LapFacts BoundFacts SpectralFacts.
From Verif.Props Require Import Core Laplacian Traversal Caching MonotoneProps TightProps RoundProps.
Import ListNotations.
Open Scope R_scope.
Open Scope list_scope.

(** ** Relative errors *)
(** [x] is [X] up to the relative error [a - 1]. *)
Definition near (a x X : R) : Prop := Rabs (x - X) <= (a - 1) * X.
(** The rounding of [x] is accurate (it does not underflow). *)
Definition accurate (rnd : R -> R) (u x : R) : Prop := Rabs (rnd x - x) <= u * Rabs x.
Lemma near_abs a x X : 0 <= X -> near a x X -> Rabs x <= a * X.
Proof. intros H0 H. unfold near in H. replace x with ((x - X) + X) by ring. eapply Rle_trans; [apply Rabs_triang|]. rewrite (Rabs_pos_eq X) by exact H0. lra. Qed.
Lemma near_mult a b x X y Y : 0 <= X -> 0 <= Y -> 1 <= a -> 1 <= b -> near a x X -> near b y Y -> near (a * b) (x * y) (X * Y).
Proof.
  intros HX HY Ha Hb Hx Hy. pose proof (near_abs b y Y HY Hy) as By. unfold near in *. replace (x * y - X * Y) with ((x - X) * y + X * (y - Y)) by ring.
  eapply Rle_trans; [apply Rabs_triang|]. rewrite !Rabs_mult, (Rabs_pos_eq X) by exact HX.
  assert (H1 : Rabs (x - X) * Rabs y <= ((a - 1) * X) * (b * Y)) by (apply Rmult_le_compat; try apply Rabs_pos; assumption).
  assert (H2 : X * Rabs (y - Y) <= X * ((b - 1) * Y)) by (apply Rmult_le_compat_l; assumption).
  replace ((a * b - 1) * (X * Y)) with ((a - 1) * X * (b * Y) + X * ((b - 1) * Y)) by ring. lra.
Qed.
Lemma near_round rnd u a x X : 0 <= u -> 0 <= X -> near a x X -> accurate rnd u x -> near (a * (1 + u)) (rnd x) X.
Proof.
  intros Hu HX Hx Ha. pose proof (near_abs a x X HX Hx) as B. unfold near, accurate in *. replace (rnd x - X) with ((rnd x - x) + (x - X)) by ring.
  eapply Rle_trans; [apply Rabs_triang|]. assert (u * Rabs x <= u * (a * X)) by (apply Rmult_le_compat_l; assumption). replace ((a * (1 + u) - 1) * X) with (u * (a * X) + (a - 1) * X) by ring. lra.
Qed.
Lemma near_invsqrt g d d' : 0 < d -> 1 <= g <= 3 / 2 -> near g d' d -> 0 < d' /\ near g (/ sqrt d') (/ sqrt d).
Proof.
  intros Hd Hg H. unfold near in H. assert (Hl : (2 - g) * d <= d' <= g * d). { pose proof (Rle_abs (d' - d)). pose proof (Rle_abs (- (d' - d))) as Q. rewrite Rabs_Ropp in Q. lra. }
  assert (Hd' : 0 < d') by (assert (0 < (2 - g) * d) by (apply Rmult_lt_0_compat; lra); lra). split; [exact Hd'|].
  set (s := sqrt d). set (t := sqrt d'). assert (S0 : 0 < s) by (apply sqrt_lt_R0; exact Hd). assert (T0 : 0 < t) by (apply sqrt_lt_R0; exact Hd').
  assert (Es : s * s = d) by (apply sqrt_sqrt; lra). assert (Et : t * t = d') by (apply sqrt_sqrt; lra).
  unfold near. replace (/ t - / s) with ((s - t) / (s * t)) by (field; lra). unfold Rdiv. rewrite Rabs_mult, (Rabs_pos_eq (/ (s * t))) by (left; apply Rinv_0_lt_compat, Rmult_lt_0_compat; assumption).
  replace ((g - 1) * / s) with (((g - 1) * t) * / (s * t)) by (field; lra). apply Rmult_le_compat_r; [left; apply Rinv_0_lt_compat, Rmult_lt_0_compat; assumption|].
  (* |s - t| <= (g-1) t, i.e. (2-g) t <= s <= g t *)
  apply Rabs_le. split.
  - cut ((2 - g) * t <= s); [lra|]. apply Rsqr_incr_0; [|apply Rmult_le_pos; lra|lra]. unfold Rsqr. replace ((2 - g) * t * ((2 - g) * t)) with ((2 - g) * ((2 - g) * (t * t))) by ring. rewrite Et, Es.
    assert (A : (2 - g) * ((2 - g) * d') <= (2 - g) * ((2 - g) * (g * d))) by (apply Rmult_le_compat_l; [lra|]; apply Rmult_le_compat_l; lra).
    assert (B : (2 - g) * (2 - g) * g <= 1). { set (h := g - 1). assert (Hh : 0 <= h <= / 2) by (unfold h; lra). replace g with (1 + h) by (unfold h; ring). assert (h * (1 - h * h + h) >= 0). { apply Rle_ge, Rmult_le_pos; [lra|]. assert (h * h <= / 2 * / 2) by (apply Rmult_le_compat; lra). lra. } nra. }
    assert (C : (2 - g) * (2 - g) * g * d <= 1 * d) by (apply Rmult_le_compat_r; lra). lra.
  - cut (s <= g * t); [lra|]. apply Rsqr_incr_0; [|lra|apply Rmult_le_pos; lra]. unfold Rsqr. replace (g * t * (g * t)) with (g * (g * (t * t))) by ring. rewrite Et, Es.
    assert (A : g * (g * ((2 - g) * d)) <= g * (g * d')) by (apply Rmult_le_compat_l; [lra|]; apply Rmult_le_compat_l; lra).
    assert (B : 1 <= g * g * (2 - g)). { set (h := g - 1). assert (Hh : 0 <= h <= / 2) by (unfold h; lra). replace g with (1 + h) by (unfold h; ring). assert (h * (1 - h - h * h) >= 0). { apply Rle_ge, Rmult_le_pos; [lra|]. assert (h * h <= / 2 * / 2) by (apply Rmult_le_compat; lra). lra. } nra. }
    assert (C : 1 * d <= g * g * (2 - g) * d) by (apply Rmult_le_compat_r; lra). lra.
Qed.

(** ** The entries of the rounded normalized Laplacian *)
Section Normalized.
Variables (F : R -> Prop) (rnd pw : R -> R) (u v : R) (tin tout : nat -> sumtree) (G : graph).
Hypothesis Hr : rounding F rnd u.
Hypothesis F1 : F 1.
Hypothesis Hb : built G.
Hypothesis Hp : nonneg_weights G.
Hypothesis Hu : undirected G.
Hypothesis Ht : g_lap_type G = Normalized.
Hypothesis HF : forall i j, (i < g_n_vertices G)%nat -> (j < g_n_vertices G)%nat -> F (wt G i j).
Hypothesis Hs : sums_all (g_n_vertices G) tin.
Hypothesis Hg : (1 + u) ^ (g_n_vertices G - 1) <= 3 / 2.
Hypothesis Hv : 0 <= v.
Hypothesis Hpw : forall i, (i < g_n_vertices G)%nat -> 0 < r_dw rnd tin tout (gW G) i -> near (1 + v) (pw (r_dw rnd tin tout (gW G) i)) (/ sqrt (r_dw rnd tin tout (gW G) i)).
Let n := g_n_vertices G.
Let g := (1 + u) ^ (n - 1).
Let s' := r_dinv rnd pw tin tout (gW G).
Let s := dinvsqrt (gW G).
Let q := g * (1 + v) * (1 + u) * (g * (1 + v)) * (1 + u).
Let pr (i j : nat) := s i * wt G i j * s j.
Lemma nr_unit : 0 <= u. Proof. exact (r_unit _ _ _ Hr). Qed.
Lemma nr_g : 1 <= g <= 3 / 2.
Proof. split; [apply pow_R1_Rle; pose proof nr_unit; lra|exact Hg]. Qed.
Lemma nr_gv : 1 <= g * (1 + v).
Proof. pose proof nr_g. rewrite <- (Rmult_1_l 1). apply Rmult_le_compat; lra. Qed.
Lemma nr_gvu : 1 <= g * (1 + v) * (1 + u).
Proof. pose proof nr_gv. pose proof nr_unit. rewrite <- (Rmult_1_l 1). apply Rmult_le_compat; lra. Qed.
Lemma nr_q : 1 <= q.
Proof.
  pose proof nr_gv. pose proof nr_gvu. pose proof nr_unit. unfold q. assert (1 * 1 <= g * (1 + v) * (1 + u) * (g * (1 + v))) by (apply Rmult_le_compat; lra).
  rewrite <- (Rmult_1_l 1). apply Rmult_le_compat; lra.
Qed.
Lemma nr_dw i : (i < n)%nat -> 0 <= dw (gW G) i.
Proof. intros Hi. apply (dw_nonneg (gW G) (tp_good G Hb)); [exact (tp_nonneg G Hb Hp)|rewrite <- (tp_n G Hb); exact Hi]. Qed.
Lemma nr_zero i : (i < n)%nat -> r_dw rnd tin tout (gW G) i = 0 <-> dw (gW G) i = 0.
Proof.
  intros Hi. destruct (r_dw_err F rnd u tin tout G Hr Hb Hp Hu HF Hs i Hi) as (_ & E). fold n in E. fold g in E. pose proof nr_g as Gg. pose proof (nr_dw i Hi) as D0. split; intros Z.
  - rewrite Z, Rminus_0_l, Rabs_Ropp, Rabs_pos_eq in E by exact D0. assert ((g - 1) * dw (gW G) i <= / 2 * dw (gW G) i) by (apply Rmult_le_compat_r; lra). lra.
  - rewrite Z, Rminus_0_r, Rmult_0_r in E. destruct (Req_dec (r_dw rnd tin tout (gW G) i) 0) as [Q|Q]; [exact Q|]. pose proof (Rabs_pos_lt _ Q). lra.
Qed.
Lemma nr_dinv i : (i < n)%nat -> near (g * (1 + v)) (s' i) (s i).
Proof.
  intros Hi. pose proof nr_g as Gg. unfold s', s, r_dinv, dinvsqrt. pose proof (nr_zero i Hi) as Z. pose proof (nr_dw i Hi) as D0. destruct (Reqb_spec (dw (gW G) i) 0) as [E|E].
  - rewrite (proj2 (Reqb_true _ _) (proj2 Z E)). unfold near. rewrite Rminus_0_r, Rabs_R0. lra.
  - rewrite (proj2 (Reqb_false _ _) (fun Q => E (proj1 Z Q))). destruct (r_dw_err F rnd u tin tout G Hr Hb Hp Hu HF Hs i Hi) as (_ & Er). fold n in Er. fold g in Er.
    destruct (near_invsqrt g (dw (gW G) i) (r_dw rnd tin tout (gW G) i)) as (P & N); [lra|exact Gg|exact Er|].
    pose proof (Hpw i Hi P) as Q. unfold near in *. set (x := pw _) in *. set (y := / sqrt (r_dw rnd tin tout (gW G) i)) in *. set (z := / sqrt (dw (gW G) i)) in *.
    assert (Z0 : 0 < z) by (apply Rinv_0_lt_compat, sqrt_lt_R0; lra).
    replace (x - z) with ((x - y) + (y - z)) by ring. eapply Rle_trans; [apply Rabs_triang|]. assert (y <= g * z). { pose proof (Rle_abs (y - z)). lra. }
    assert (v * y <= v * (g * z)) by (apply Rmult_le_compat_l; lra). replace (1 + v - 1) with v in Q by ring. replace ((g * (1 + v) - 1) * z) with (v * (g * z) + (g - 1) * z) by ring. lra.
Qed.
Lemma nr_s i : 0 <= s i.
Proof. apply dinvsqrt_nonneg. Qed.
Lemma nr_pr i j : (i < n)%nat -> (j < n)%nat -> 0 <= pr i j.
Proof. intros Hi Hj. unfold pr. apply Rmult_le_pos; [apply Rmult_le_pos; [apply nr_s|apply Hp; assumption]|apply nr_s]. Qed.
Lemma nr_L i j : (i < n)%nat -> (j < n)%nat -> gL G i j = (if (Nat.eqb i j && Reqb (dw (gW G) i) 0)%bool then 0 else (if Nat.eqb i j then 1 else 0)) - pr i j.
Proof.
  intros Hi Hj. rewrite (built_norm G Hb Ht). unfold lap_norm, pr, s, idm, wlap. rewrite (und_dir G Hb Hu). fold (wt G i j). unfold wt. destruct (Nat.eqb_spec i j) as [<-|Hne]; cbn [andb]; [|ring].
  destruct (Reqb_spec (dw (gW G) i) 0) as [E|E]; [|ring]. unfold dinvsqrt. rewrite (proj2 (Reqb_true _ _) E). ring.
Qed.
Lemma nr_loop i : (i < n)%nat -> pr i i <= 1.
Proof.
  intros Hi. destruct (dw_ge_loop G Hb Hp Hu i Hi) as (W0 & W1). unfold pr, s. destruct (Req_dec (dw (gW G) i) 0) as [E|E].
  - unfold dinvsqrt. rewrite (proj2 (Reqb_true _ _) E). lra.
  - pose proof (dinvsqrt_sq (gW G) i (nr_dw i Hi) E) as Q. rewrite <- Q. replace (dinvsqrt (gW G) i * wt G i i * dinvsqrt (gW G) i) with (dinvsqrt (gW G) i * dinvsqrt (gW G) i * wt G i i) by ring.
    apply Rmult_le_compat_l; [apply Rle_0_sqr|exact W1].
Qed.
Lemma nr_mass x : \sum_(i < n) \sum_(j < n) (pr i j * (Rabs (x i) * Rabs (x j))) <= normsq n x.
Proof.
  assert (P : 0 <= quad n (gL G) (fun i => Rabs (x i))).
  { unfold n. rewrite (tp_n G Hb), (built_norm G Hb Ht), quad_norm, quad_comb by (try apply (tp_good G Hb); exact (tp_nonneg G Hb Hp)).
    apply Rmult_le_pos; [|lra]. apply rsum_nonneg; intros i Hi. apply rsum_nonneg; intros j Hj. apply Rmult_le_pos; [apply (tp_nonneg G Hb Hp); assumption|apply Rle_0_sqr]. }
  assert (E : quad n (gL G) (fun i => Rabs (x i)) = \sum_(i < n) ((if Reqb (dw (gW G) i) 0 then 0 else 1) * (x i * x i)) - \sum_(i < n) \sum_(j < n) (pr i j * (Rabs (x i) * Rabs (x j)))).
  { unfold quad, dot, mulv. rewrite <- rsum_minus. apply rsum_ext. intros i Hi.
    rewrite (rsum_ext n _ (fun j => (if Nat.eqb i j then (if Reqb (dw (gW G) i) 0 then 0 else 1) * Rabs (x j) else 0) - pr i j * Rabs (x j))).
    - rewrite rsum_minus, (rsum_single n (fun j => if Nat.eqb i j then (if Reqb (dw (gW G) i) 0 then 0 else 1) * Rabs (x j) else 0) i Hi).
      + rewrite Nat.eqb_refl, Rmult_minus_distr_l, <- rsum_scal_l. f_equal; [|apply rsum_ext; intros j Hj; ring]. destruct (Reqb (dw (gW G) i) 0); [ring|]. rewrite !Rmult_1_l, <- Rabs_mult. apply Rabs_pos_eq, Rle_0_sqr.
      + intros j Hj Hne. destruct (Nat.eqb_spec i j); [congruence|reflexivity].
    - intros j Hj. rewrite nr_L by assumption. destruct (Nat.eqb_spec i j) as [<-|Hne]; cbn [andb]; [destruct (Reqb (dw (gW G) i) 0)|]; ring. }
  rewrite E in P. assert (\sum_(i < n) ((if Reqb (dw (gW G) i) 0 then 0 else 1) * (x i * x i)) <= normsq n x); [|lra].
  unfold normsq, dot. apply rsum_le; intros i Hi. pose proof (Rle_0_sqr (x i)) as Q. unfold Rsqr in Q. destruct (Reqb _ 0); lra.
Qed.

Lemma nr_quad A x : (forall i j, (i < n)%nat -> (j < n)%nat -> Rabs (A i j - gL G i j) <= (q - 1) * pr i j + (if Nat.eqb i j then u * q else 0)) ->
  Rabs (quad n A x - quad n (gL G) x) <= (q * (1 + u) - 1) * normsq n x.
Proof.
  intros H. pose proof nr_q as Q. pose proof nr_unit as U.
  assert (E : quad n A x - quad n (gL G) x = \sum_(i < n) \sum_(j < n) ((A i j - gL G i j) * (x i * x j))).
  { unfold quad, dot, mulv. rewrite <- rsum_minus. apply rsum_ext. intros i Hi. rewrite <- Rmult_minus_distr_l, <- rsum_minus, <- rsum_scal_l. apply rsum_ext. intros j Hj. ring. }
  rewrite E. eapply Rle_trans; [apply rsum_abs|]. eapply Rle_trans; [apply rsum_le; intros i Hi; apply rsum_abs|].
  apply Rle_trans with ((q - 1) * (\sum_(i < n) \sum_(j < n) (pr i j * (Rabs (x i) * Rabs (x j)))) + u * q * normsq n x).
  - rewrite <- rsum_scal_l. unfold normsq, dot. rewrite <- (rsum_scal_l n (u * q)), <- rsum_plus. apply rsum_le; intros i Hi.
    rewrite <- rsum_scal_l. replace (u * q * (x i * x i)) with (\sum_(j < n) (if Nat.eqb i j then u * q * (Rabs (x i) * Rabs (x j)) else 0)).
    + rewrite <- rsum_plus. apply rsum_le; intros j Hj. rewrite Rabs_mult, (Rabs_mult (x i)). specialize (H i j Hi Hj).
      assert (P : 0 <= Rabs (x i) * Rabs (x j)) by (apply Rmult_le_pos; apply Rabs_pos).
      replace ((q - 1) * (pr i j * (Rabs (x i) * Rabs (x j))) + (if Nat.eqb i j then u * q * (Rabs (x i) * Rabs (x j)) else 0))
        with (((q - 1) * pr i j + (if Nat.eqb i j then u * q else 0)) * (Rabs (x i) * Rabs (x j))) by (destruct (Nat.eqb i j); ring).
      apply Rmult_le_compat_r; assumption.
    + rewrite (rsum_single n _ i Hi); [rewrite Nat.eqb_refl, <- Rabs_mult, Rabs_pos_eq by apply Rle_0_sqr; reflexivity|]. intros j Hj Hne. destruct (Nat.eqb_spec i j); [congruence|reflexivity].
  - pose proof (nr_mass x) as Ms. assert ((q - 1) * (\sum_(i < n) \sum_(j < n) (pr i j * (Rabs (x i) * Rabs (x j)))) <= (q - 1) * normsq n x) by (apply Rmult_le_compat_l; lra).
    replace ((q * (1 + u) - 1) * normsq n x) with ((q - 1) * normsq n x + u * q * normsq n x) by ring. lra.
Qed.

Hypothesis Hacc : forall i j, (i < g_n_vertices G)%nat -> (j < g_n_vertices G)%nat ->
  accurate rnd u (r_dinv rnd pw tin tout (gW G) i * wt G i j) /\ accurate rnd u (rnd (r_dinv rnd pw tin tout (gW G) i * wt G i j) * r_dinv rnd pw tin tout (gW G) j).
Let Lh := r_lap_norm rnd pw tin tout (gW G).
Lemma nr_prod i j : (i < n)%nat -> (j < n)%nat -> near q (rnd (rnd (s' i * wt G i j) * s' j)) (pr i j).
Proof.
  intros Hi Hj. destruct (Hacc i j Hi Hj) as (A1 & A2). pose proof nr_unit as U. pose proof (Hp i j Hi Hj) as W0. unfold q, pr. apply near_round; [exact U|apply nr_pr; assumption| |exact A2].
  apply near_mult; [apply Rmult_le_pos; [apply nr_s|exact W0]|apply nr_s|exact nr_gvu|exact nr_gv| |apply nr_dinv; exact Hj].
  apply near_round; [exact U|apply Rmult_le_pos; [apply nr_s|exact W0]| |exact A1].
  replace (g * (1 + v)) with (g * (1 + v) * 1) by ring. apply near_mult; [apply nr_s|exact W0|exact nr_gv|lra|apply nr_dinv; exact Hi|]. unfold near. rewrite Rminus_eq_0, Rabs_R0. lra.
Qed.
Lemma nr_entry i j : (i < n)%nat -> (j < n)%nat -> Rabs (Lh i j - gL G i j) <= (q - 1) * pr i j + (if Nat.eqb i j then u * q else 0).
Proof.
  intros Hi Hj. pose proof (nr_prod i j Hi Hj) as N. pose proof (nr_pr i j Hi Hj) as P0. pose proof nr_unit as U. pose proof nr_q as Q. rewrite nr_L by assumption. unfold Lh, r_lap_norm. rewrite (und_dir G Hb Hu).
  fold s'. change (get (gW G) i j) with (wt G i j). set (p2 := rnd (rnd (s' i * wt G i j) * s' j)) in *. unfold near in N. pose proof (nr_zero i Hi) as Z.
  assert (Fp : F p2) by (apply (r_in _ _ _ Hr)). destruct (Nat.eqb_spec i j) as [Eij|Hne]; cbn [andb].
  - destruct (Reqb_spec (dw (gW G) i) 0) as [E|E].
    + rewrite (proj2 (Reqb_true _ _) (proj2 Z E)). assert (pr i j = 0) by (unfold pr, s, dinvsqrt; rewrite (proj2 (Reqb_true _ _) E); ring). rewrite H, !Rminus_0_r, Rabs_R0. rewrite Rmult_0_r, Rplus_0_l. apply Rmult_le_pos; lra.
    + rewrite (proj2 (Reqb_false _ _) (fun Y => E (proj1 Z Y))). pose proof (nr_loop i Hi) as L1. rewrite Eij in L1 at 2.
      pose proof (r_plus _ _ _ Hr 1 (- p2) F1 (r_opp _ _ _ Hr _ Fp)) as Er. change (1 + - p2) with (1 - p2) in Er.
      assert (B : Rabs (1 - p2) <= q). { replace (1 - p2) with ((1 - pr i j) - (p2 - pr i j)) by ring. eapply Rle_trans; [apply Rabs_triang|]. rewrite Rabs_Ropp, (Rabs_pos_eq (1 - pr i j)) by lra.
        destruct (Rle_dec q 2) as [L|L]; [assert ((q - 1) * pr i j <= 1 * pr i j) by (apply Rmult_le_compat_r; lra); lra|]. assert ((q - 2) * pr i j <= (q - 2) * 1) by (apply Rmult_le_compat_l; lra). lra. }
      assert (B2 : u * Rabs (1 - p2) <= u * q) by (apply Rmult_le_compat_l; assumption).
      replace (rnd (1 - p2) - (1 - pr i j)) with ((rnd (1 - p2) - (1 - p2)) - (p2 - pr i j)) by ring. eapply Rle_trans; [apply Rabs_triang|]. rewrite Rabs_Ropp. lra.
  - rewrite Rminus_0_l, (r_id _ _ _ Hr) by (apply (r_opp _ _ _ Hr); exact Fp). replace (- p2 - (0 - pr i j)) with (- (p2 - pr i j)) by ring. rewrite Rabs_Ropp. lra.
Qed.
Lemma nr_lower i j : (i < n)%nat -> (j < n)%nat -> Rabs (lower_triangle Lh i j - gL G i j) <= (q - 1) * pr i j + (if Nat.eqb i j then u * q else 0).
Proof.
  intros Hi Hj. unfold lower_triangle. destruct (Nat.leb j i); [apply nr_entry; assumption|]. pose proof (nr_entry j i Hj Hi) as E. rewrite (Nat.eqb_sym j i) in E.
  assert (Ep : pr j i = pr i j) by (unfold pr; rewrite (Hu j i Hj Hi); ring). rewrite Ep in E. replace (gL G i j) with (gL G j i); [exact E|].
  rewrite !nr_L by assumption. rewrite Ep, (Nat.eqb_sym j i). destruct (Nat.eqb_spec i j) as [->|]; reflexivity.
Qed.
Lemma nr_eps : (0 < n)%nat -> q * (1 + u) = (1 + u) ^ (2 * n + 1) * (1 + v) ^ 2.
Proof.
  intros Hn. unfold q, g. replace (2 * n + 1)%nat with ((n - 1) + (n - 1) + 3)%nat by lia. rewrite !pow_add. cbn [pow]. ring.
Qed.
End Normalized.

(** What is assumed of the arithmetic: the weights are representable; the sums of the columns are made in some order; [np.power(., -0.5)]
    has the relative error [v]; no product underflows. *)
Record norm_arithmetic (F : R -> Prop) (rnd pw : R -> R) (u v : R) (tin tout : nat -> sumtree) (G : graph) : Prop := {
  na_round : rounding F rnd u;
  na_one : F 1;
  na_weights : forall i j, (i < g_n_vertices G)%nat -> (j < g_n_vertices G)%nat -> F (wt G i j);
  na_sums : sums_all (g_n_vertices G) tin;
  na_few : (1 + u) ^ (g_n_vertices G - 1) <= 3 / 2;
  na_v : 0 <= v;
  na_power : forall i, (i < g_n_vertices G)%nat -> let d := r_dw rnd tin tout (gW G) i in 0 < d -> Rabs (pw d - / sqrt d) <= v * / sqrt d;
  na_products : forall i j, (i < g_n_vertices G)%nat -> (j < g_n_vertices G)%nat -> let s := r_dinv rnd pw tin tout (gW G) in
    accurate rnd u (s i * wt G i j) /\ accurate rnd u (rnd (s i * wt G i j) * s j)
}.

(** The normalized Laplacian of an undirected graph: every entry off the diagonal has a small relative error (so zeros stay zeros), the
    diagonal a small absolute one, and so do the quadratic form and the eigenvalues, of the matrix or of its lower triangle. *)
Theorem C92_normalized_error : forall F rnd pw u v tin tout G, norm_arithmetic F rnd pw u v tin tout G -> built G -> nonneg_weights G -> undirected G ->
  g_lap_type G = Normalized -> (0 < g_n_vertices G)%nat ->
  let n := g_n_vertices G in let L := gL G in let L' := r_lap_norm rnd pw tin tout (gW G) in let eps := (1 + u) ^ (2 * n + 1) * (1 + v) ^ 2 - 1 in
  (forall i j, (i < n)%nat -> (j < n)%nat -> i <> j -> Rabs (L' i j - L i j) <= eps * Rabs (L i j)) /\
  (forall i, (i < n)%nat -> Rabs (L' i i - L i i) <= eps) /\
  (forall x, Rabs (quad n L' x - quad n L x) <= eps * normsq n x) /\
  (forall x, Rabs (quad n (lower_triangle L') x - quad n L x) <= eps * normsq n x) /\
  (forall e U e' U', eigh_ok n L e U -> eigh_ok n (lower_triangle L') e' U' -> forall k, (k < n)%nat -> Rabs (e' k - e k) <= eps).
Proof.
  intros F rnd pw u v tin tout G [Hr F1 HF Hs Hg Hv Hpw Hacc] Hb Hp Hu Ht Hn n L L' eps.
  assert (Hpw' : forall i, (i < g_n_vertices G)%nat -> 0 < r_dw rnd tin tout (gW G) i -> near (1 + v) (pw (r_dw rnd tin tout (gW G) i)) (/ sqrt (r_dw rnd tin tout (gW G) i))).
  { intros i Hi P. unfold near. replace (1 + v - 1) with v by ring. exact (Hpw i Hi P). }
  pose proof (nr_entry F rnd pw u v tin tout G Hr F1 Hb Hp Hu Ht HF Hs Hg Hv Hpw' Hacc) as En. pose proof (nr_lower F rnd pw u v tin tout G Hr F1 Hb Hp Hu Ht HF Hs Hg Hv Hpw' Hacc) as El.
  pose proof (nr_quad F rnd u v G Hr Hb Hp Hu Ht Hg Hv) as Qu. pose proof (nr_eps u v G Hn) as Ee. pose proof (nr_q F rnd u v G Hr Hg Hv) as Q1. pose proof (r_unit _ _ _ Hr) as U.
  pose proof (nr_L G Hb Hu Ht) as HL. pose proof (nr_pr G Hp) as Hpr. pose proof (nr_loop G Hb Hp Hu) as Hlo. cbv beta in HL, Hpr, Hlo, En, El, Qu.
  match type of Q1 with 1 <= ?a => set (q := a) in * end. assert (Eq : q * (1 + u) - 1 = eps) by (unfold eps; rewrite Ee; reflexivity). rewrite Eq in Qu. fold n in HL, Hpr, Hlo, En, El, Qu. fold L L' in HL, En, El, Qu.
  assert (Uq : 0 <= u * q) by (apply Rmult_le_pos; lra).
  split; [|split; [|split; [|split]]].
  - intros i j Hi Hj Hne. specialize (En i j Hi Hj). specialize (HL i j Hi Hj). specialize (Hpr i j Hi Hj). rewrite (proj2 (Nat.eqb_neq i j) Hne) in En, HL. cbn [andb] in HL.
    assert (A : Rabs (L i j) = dinvsqrt (gW G) i * wt G i j * dinvsqrt (gW G) j) by (rewrite HL, Rminus_0_l, Rabs_Ropp; apply Rabs_pos_eq; exact Hpr).
    rewrite A. rewrite Rplus_0_r in En. eapply Rle_trans; [exact En|]. apply Rmult_le_compat_r; [exact Hpr|]. rewrite <- Eq. lra.
  - intros i Hi. specialize (En i i Hi Hi). specialize (Hpr i i Hi Hi). specialize (Hlo i Hi). rewrite Nat.eqb_refl in En. eapply Rle_trans; [exact En|]. rewrite <- Eq.
    assert ((q - 1) * (dinvsqrt (gW G) i * wt G i i * dinvsqrt (gW G) i) <= (q - 1) * 1) by (apply Rmult_le_compat_l; lra). lra.
  - intros x. apply Qu. exact En.
  - intros x. apply Qu. exact El.
  - intros e U0 e' U' He He'. apply (eigh_close n (lower_triangle L') L e' U' e U0 eps He' He). intros x. apply Qu. exact El.
Qed.

(** ** The checks of compute_fourier_basis *)
Lemma some_or_none n (P : nat -> Prop) : (forall j, P j \/ ~ P j) -> (exists j, (j < n)%nat /\ P j) \/ (forall j, (j < n)%nat -> ~ P j).
Proof.
  intros D. induction n as [|n [(j & Hj & H)|H]]; [right; intros; lia|left; exists j; split; [lia|exact H]|]. destruct (D n) as [Hn|Hn]; [left; exists n; split; [lia|exact Hn]|].
  right. intros j Hj. destruct (Nat.eq_dec j n) as [->|]; [exact Hn|apply H; lia].
Qed.
(** A graph without loops that has an edge has one that weighs at least 1/n after normalization. *)
Lemma heavy_edge G : built G -> nonneg_weights G -> undirected G -> (forall i, (i < g_n_vertices G)%nat -> wt G i i = 0) ->
  (exists i j, (i < g_n_vertices G)%nat /\ (j < g_n_vertices G)%nat /\ wt G i j <> 0) ->
  exists i j, (i < g_n_vertices G)%nat /\ (j < g_n_vertices G)%nat /\ i <> j /\ / INR (g_n_vertices G) <= dinvsqrt (gW G) i * wt G i j * dinvsqrt (gW G) j.
Proof.
  intros Hb Hp Hu Hl (a & b & Ha & Hb' & Hab). set (n := g_n_vertices G) in *. set (d := dw (gW G)).
  assert (Hd : forall i, (i < n)%nat -> d i = \sum_(j < n) wt G i j) by (intros i Hi; destruct (C08_weighted_degree G i Hb Hi) as (_ & D); apply (D Hu)).
  assert (Hmax : forall m, (0 < m)%nat -> exists i, (i < m)%nat /\ forall k, (k < m)%nat -> d k <= d i).
  { induction m as [|m IH]; [lia|]. intros _. destruct m as [|m]; [exists 0%nat; split; [lia|]; intros k Hk; replace k with 0%nat by lia; lra|]. destruct (IH ltac:(lia)) as (i & Hi & Hm).
    destruct (Rle_dec (d i) (d (S m))) as [L|L]; [exists (S m)|exists i]; (split; [lia|]); intros k Hk; (destruct (Nat.eq_dec k (S m)) as [->|Hk']; [lra|]); specialize (Hm k ltac:(lia)); lra. }
  destruct (Hmax n ltac:(lia)) as (i & Hi & Hm). assert (Hn0 : 0 < INR n) by (apply lt_0_INR; lia).
  assert (Pa : 0 < d a). { apply Rlt_le_trans with (wt G a b); [pose proof (Hp a b Ha Hb'); lra|]. rewrite (Hd a Ha). apply (rsum_ge_term n (fun j => wt G a j)); [|exact Hb']. intros; apply Hp; assumption. }
  assert (Pi : 0 < d i) by (specialize (Hm a Ha); lra).
  assert (Ei : dinvsqrt (gW G) i = / sqrt (d i)) by (unfold dinvsqrt; fold d; rewrite (proj2 (Reqb_false _ _)) by lra; reflexivity).
  assert (Si : 0 < sqrt (d i)) by (apply sqrt_lt_R0; exact Pi).
  (* some weight of the row is at least d i / n *)
  assert (Hj : exists j, (j < n)%nat /\ d i / INR n <= wt G i j).
  { destruct (some_or_none n (fun j => d i / INR n <= wt G i j)) as [H|H]; [intros j; destruct (Rle_dec (d i / INR n) (wt G i j)); auto|exact H|]. exfalso.
    assert (Hlt : \sum_(j < n) wt G i j < \sum_(j < n) (d i / INR n)) by (apply (rsum_lt n _ _ i); [|exact Hi|]; [intros j Hj; specialize (H j Hj); cbv beta in H; lra|specialize (H i Hi); cbv beta in H; lra]).
    rewrite <- (Hd i Hi), rsum_const in Hlt. replace (INR n * (d i / INR n)) with (d i) in Hlt by (field; lra). lra. }
  destruct Hj as (j & Hj & Hw). assert (Pw : 0 < wt G i j) by (assert (0 < d i / INR n) by (apply Rdiv_lt_0_compat; assumption); lra).
  exists i, j. split; [exact Hi|]. split; [exact Hj|]. split; [intros <-; rewrite (Hl i Hi) in Pw; lra|].
  assert (Pj : 0 < d j). { apply Rlt_le_trans with (wt G j i); [rewrite (Hu j i Hj Hi); exact Pw|]. rewrite (Hd j Hj). apply (rsum_ge_term n (fun k => wt G j k)); [|exact Hi]. intros; apply Hp; assumption. }
  assert (Ej : dinvsqrt (gW G) j = / sqrt (d j)) by (unfold dinvsqrt; fold d; rewrite (proj2 (Reqb_false _ _)) by lra; reflexivity).
  assert (Sj : 0 < sqrt (d j)) by (apply sqrt_lt_R0; exact Pj). rewrite Ei, Ej.
  assert (Sji : / sqrt (d i) <= / sqrt (d j)) by (apply Rinv_le_contravar; [exact Sj|]; apply sqrt_le_1_alt, Hm; exact Hj).
  assert (Ii : 0 < / sqrt (d i)) by (apply Rinv_0_lt_compat; exact Si).
  apply Rle_trans with (/ sqrt (d i) * (d i / INR n) * / sqrt (d i)).
  - right. rewrite <- (sqrt_sqrt (d i)) at 2 by lra. field. lra.
  - apply Rmult_le_compat; [|lra| |exact Sji].
    + apply Rmult_le_pos; [lra|]. left. apply Rdiv_lt_0_compat; assumption.
    + apply Rmult_le_compat_l; lra.
Qed.

(** An answer of the eigensolver that is exact for a matrix at most [delta] away from the lower triangle of the rounded Laplacian passes
    the three assertions, as long as the errors stay below 1e-5 and below 1/n.  Self-loops are excluded: see below. *)
Theorem C92_normalized_accepted : forall F rnd pw u v tin tout G delta A e U, norm_arithmetic F rnd pw u v tin tout G -> built G -> nonneg_weights G -> undirected G ->
  g_lap_type G = Normalized -> (0 < g_n_vertices G)%nat ->
  let n := g_n_vertices G in let eps := (1 + u) ^ (2 * n + 1) * (1 + v) ^ 2 - 1 in
  (forall i, (i < n)%nat -> wt G i i = 0) -> (exists i j, (i < n)%nat /\ (j < n)%nat /\ wt G i j <> 0) ->
  eps + delta < / 10 ^ 5 -> INR n * (eps + delta) <= 1 ->
  (forall x, Rabs (quad n A x - quad n (lower_triangle (r_lap_norm rnd pw tin tout (gW G))) x) <= delta * normsq n x) ->
  eigh_ok n A (fun k => nth k e 0) U -> List.length e = n ->
  exists s, compute_fourier_basis None (EigOk e U) (cache_init G) = (s, Ok tt) /\ c_basis s = Some (0 :: tl e, U).
Proof.
  intros F rnd pw u v tin tout G delta A e U Ha Hb Hp Hu Ht Hn n eps Hl Hed Hsm Hn1 HA He Hlen. 
  destruct (C92_normalized_error F rnd pw u v tin tout G Ha Hb Hp Hu Ht Hn) as (_ & _ & _ & Qu & _). fold n in Qu. fold eps in Qu. set (L' := lower_triangle (r_lap_norm rnd pw tin tout (gW G))) in *.
  destruct (spectral_theorem n (gL G)) as (e0 & U0 & He0).
  { intros i j Hi Hj. unfold tr. apply (C11_normalized_entries G Hb Ht Hp); assumption. }
  assert (Cl : forall k, (k < n)%nat -> Rabs (nth k e 0 - e0 k) < / 10 ^ 5).
  { intros k Hk. eapply Rle_lt_trans; [|exact Hsm]. apply (eigh_close n A (gL G) _ U e0 U0 (eps + delta) He He0); [|exact Hk]. intros x. specialize (HA x). specialize (Qu x).
    replace (quad n A x - quad n (gL G) x) with ((quad n A x - quad n L' x) + (quad n L' x - quad n (gL G) x)) by ring. eapply Rle_trans; [apply Rabs_triang|]. lra. }
  assert (Z0 : e0 0%nat = 0) by (apply (first_eigenvalue_zero G e0 U0 Hb Hp Hn); exact He0).
  assert (Top : 0 <= nth (n - 1) e 0).
  { assert (B : forall x, quad n A x <= nth (n - 1) e 0 * normsq n x) by (intros x; apply (eigh_quad_le n A _ U He); intros k Hk; apply (eigh_sort _ _ _ _ He k (n - 1)%nat); lia).
    destruct (heavy_edge G Hb Hp Hu Hl Hed) as (i & j & Hi & Hj & Hne & Hw). fold n in Hi, Hj, Hw.
    set (x := fun k => 1 * unitv i k + -1 * unitv j k). specialize (B x). specialize (HA x). specialize (Qu x). 
    assert (Nx : normsq n x = 2) by (unfold x; rewrite normsq_two by assumption; ring). rewrite Nx in *.
    assert (Qx : quad n (gL G) x = gL G i i + gL G j j - (gL G i j + gL G j i)) by (unfold x; rewrite quad_two by assumption; ring).
    pose proof (nr_L G Hb Hu Ht i j Hi Hj) as Lij. pose proof (nr_L G Hb Hu Ht j i Hj Hi) as Lji. cbv beta in Lij, Lji. rewrite (proj2 (Nat.eqb_neq i j) Hne) in Lij. rewrite (proj2 (Nat.eqb_neq j i) (not_eq_sym Hne)) in Lji. cbn [andb] in Lij, Lji. rewrite (Hu j i Hj Hi) in Lji.
    assert (Dg : forall k, (k < n)%nat -> 0 <= gL G k k).
    { intros k Hk. rewrite (nr_L G Hb Hu Ht k k Hk Hk), Nat.eqb_refl, (Hl k Hk). cbn [andb]. destruct (Reqb _ 0); lra. }
    pose proof (Dg i Hi). pose proof (Dg j Hj). pose proof (Rle_abs (- (quad n A x - quad n L' x))) as P. rewrite Rabs_Ropp in P. pose proof (Rle_abs (- (quad n L' x - quad n (gL G) x))) as P'. rewrite Rabs_Ropp in P'.
    assert (Hin : 0 < INR n) by (apply lt_0_INR; exact Hn).
    assert (eps + delta <= / INR n). { apply (Rmult_le_reg_l (INR n)); [exact Hin|]. rewrite Rinv_r by lra. exact Hn1. }
    replace (dinvsqrt (gW G) j * wt G i j * dinvsqrt (gW G) i) with (dinvsqrt (gW G) i * wt G i j * dinvsqrt (gW G) j) in Lji by ring. lra. }
  destruct e as [|a es]; [cbn in Hlen; lia|]. pose proof (Cl 0%nat Hn) as C0. cbn [nth] in C0. rewrite Z0, Rminus_0_r in C0. apply Rabs_def2 in C0. destruct C0 as (C1 & C2).
  unfold compute_fourier_basis. cbn [c_basis cache_init c_N]. 
  replace (Rltb (- / 10 ^ 5) a && Rltb a (/ 10 ^ 5))%bool with true by (symmetry; apply andb_true_intro; split; apply Rltb_true; assumption).
  destruct (C14_upper_bound_is_upper_bound G Hb Hp Hn) as (r & Er & Hrr). change (upper_bound (c_W (cache_init G)) (c_lap (cache_init G))) with (upper_bound (gW G) (g_lap_type G)). rewrite Er.
  assert (Hlast : last (0 :: es) 0 = if Nat.eqb n 1 then 0 else nth (n - 1) (a :: es) 0).
  { rewrite last_nth. cbn [List.length] in *. destruct (Nat.eqb_spec n 1) as [E|E]; [replace (S (List.length es) - 1)%nat with 0%nat by lia; reflexivity|]. rewrite Hlen. destruct (n - 1)%nat eqn:E2; [lia|reflexivity]. }
  assert (Hl0 : 0 <= last (0 :: es) 0) by (rewrite Hlast; destruct (Nat.eqb n 1); [lra|exact Top]).
  assert (E2 : fle (last (0 :: es) 0) (xadd (Fin r) (Fin (/ 10 ^ 5))) = true).
  { cbn [xadd fle]. apply Rleb_true. pose proof (Hrr _ _ (eigh_eigenpair n (gL G) e0 U0 He0 (n - 1)%nat ltac:(lia))) as R1. pose proof (Hrr _ _ (eigh_eigenpair n (gL G) e0 U0 He0 0%nat Hn)) as R0. rewrite Z0 in R0.
    assert (0 < / 10 ^ 5) by (apply Rinv_0_lt_compat; lra). rewrite Hlast. destruct (Nat.eqb n 1); [lra|].
    pose proof (Cl (n - 1)%nat ltac:(lia)) as C. apply Rabs_def2 in C. lra. }
  rewrite E2.
  assert (E3 : forallb (fun x => Rleb x (last (0 :: es) 0)) (0 :: es) = true).
  { apply forallb_forall. intros x Hx. apply Rleb_true. destruct Hx as [<-|Hx]; [exact Hl0|]. rewrite Hlast. destruct (In_nth _ _ 0 Hx) as (i & Hi & <-). cbn [List.length] in Hlen.
    destruct (Nat.eqb_spec n 1) as [E|E]; [lia|]. change (nth i es 0) with (nth (S i) (a :: es) 0). apply (eigh_sort _ _ _ _ He (S i) (n - 1)%nat); lia. }
  rewrite E3. fold n. rewrite Nat.eqb_refl. eexists. split; reflexivity.
Qed.

(** ** Double precision *)
Lemma bpow_neg k : bpow radix2 (- Z.of_nat k) = / 2 ^ k.
Proof. rewrite bpow_opp, bpow_powerRZ, <- pow_powerRZ. reflexivity. Qed.
Lemma b64_accurate x : x = 0 \/ / 2 ^ 1022 <= Rabs x -> accurate b64_round (/ 2 ^ 53) x.
Proof.
  pose proof b64_valid as V. assert (HP : Prec_gt_0 53) by exact eq_refl. unfold accurate. intros [->|H].
  - rewrite (r_id _ _ _ b64_rounding 0 (r_zero _ _ _ b64_rounding)), Rminus_eq_0, Rabs_R0. lra.
  - pose proof (relative_error_N_FLT radix2 (-1074) 53 HP (fun z => negb (Z.even z)) x) as E. change (-1074 + 53 - 1)%Z with (- Z.of_nat 1022)%Z in E. rewrite bpow_neg in E. specialize (E H).
    change (bpow radix2 (Z.opp 53 + 1)%Z) with (bpow radix2 (- Z.of_nat 52)) in E. rewrite bpow_neg in E. replace (/ 2 * / 2 ^ 52) with (/ 2 ^ 53) in E; [exact E|]. replace (2 ^ 53) with (2 * 2 ^ 52) by reflexivity. rewrite Rinv_mult. reflexivity.
Qed.
Lemma near_ge a x X : 0 <= X -> a <= 3 / 2 -> near a x X -> X / 2 <= x.
Proof. intros H0 Ha H. unfold near in H. pose proof (Rle_abs (- (x - X))) as Q. rewrite Rabs_Ropp in Q. assert ((a - 1) * X <= / 2 * X) by (apply Rmult_le_compat_r; lra). lra. Qed.
Lemma pow_inv_le a b : (a <= b)%nat -> / 2 ^ b <= / 2 ^ a.
Proof. intros H. apply Rinv_le_contravar; [apply pow_lt; lra|apply Rle_pow; [lra|exact H]]. Qed.
Lemma pow_inv_mult a b : / 2 ^ a * / 2 ^ b = / 2 ^ (a + b).
Proof. rewrite pow_add, Rinv_mult. reflexivity. Qed.
Lemma b64_unit : 0 < / 2 ^ 53 /\ / 2 ^ 53 * (9 * 10 ^ 15) < 1.
Proof.
  assert (P : 0 < / 2 ^ 53) by (apply Rinv_0_lt_compat, pow_lt; lra). split; [exact P|]. assert (E : / 2 ^ 53 * 2 ^ 53 = 1) by (apply Rinv_l, pow_nonzero; lra). apply Rlt_le_trans with (/ 2 ^ 53 * 2 ^ 53); [|rewrite E; lra]. apply Rmult_lt_compat_l; [exact P|]. cbn. lra.
Qed.
(** The accumulated error of ten million vertices. *)
Lemma b64_eps n : INR n <= 10 ^ 7 -> (1 + / 2 ^ 53) ^ (2 * n + 1) * (1 + / 2 ^ 52) ^ 2 - 1 <= / 10 ^ 8.
Proof.
  intros Hn. destruct b64_unit as (P & U9). replace (/ 2 ^ 52) with (2 * / 2 ^ 53) by (replace (2 ^ 53) with (2 * 2 ^ 52) by reflexivity; rewrite Rinv_mult; lra). set (u := / 2 ^ 53) in *. 
  assert (A : 1 + 2 * u <= (1 + u) ^ 2) by (cbn; assert (0 <= u * u) by (apply Rle_0_sqr); lra).
  assert (B : (1 + 2 * u) ^ 2 <= (1 + u) ^ 2 * (1 + u) ^ 2) by (cbn [pow] in *; rewrite Rmult_1_r in *; rewrite Rmult_1_r; apply Rmult_le_compat; lra).
  assert (C : (1 + u) ^ (2 * n + 1) * (1 + 2 * u) ^ 2 <= (1 + u) ^ (2 * n + 5)).
  { replace (2 * n + 5)%nat with ((2 * n + 1) + (2 + 2))%nat by lia. rewrite (pow_add (1 + u) (2 * n + 1)), (pow_add _ 2 2). apply Rmult_le_compat_l; [apply pow_le; lra|exact B]. }
  assert (I : INR (2 * n + 5) = 2 * INR n + 5) by (rewrite plus_INR, mult_INR; cbn; ring). pose proof (pos_INR n) as N0.
  assert (D : 2 * INR (2 * n + 5) * u <= 5 * 10 ^ 7 * u) by (apply Rmult_le_compat_r; [lra|]; rewrite I; lra).
  assert (E : 5 * 10 ^ 7 * u <= / 10 ^ 8). { replace (5 * 10 ^ 7 * u) with (u * (9 * 10 ^ 15) * (5 / (9 * 10 ^ 8))) by field. rewrite <- (Rmult_1_l (/ 10 ^ 8)). apply Rmult_le_compat; lra. }
  pose proof (pow_small u (2 * n + 5) ltac:(lra)) as Q. assert (/ 10 ^ 8 <= 1) by lra. specialize (Q ltac:(lra)). lra.
Qed.
(** numpy's power function, accurate to a unit in the last place. *)
Definition power_one_ulp (pw : R -> R) : Prop := forall x, b64_format x -> 0 < x < 2 ^ 1024 -> Rabs (pw x - / sqrt x) <= / 2 ^ 52 * / sqrt x.
(** Double precision meets the assumptions for weights between 2^-300 and 2^300 and up to ten million vertices. *)
Lemma b64_arithmetic pw tin tout G : built G -> nonneg_weights G -> undirected G -> power_one_ulp pw ->
  (forall i j, (i < g_n_vertices G)%nat -> (j < g_n_vertices G)%nat -> b64_format (wt G i j) /\ (wt G i j = 0 \/ / 2 ^ 300 <= wt G i j <= 2 ^ 300)) ->
  sums_all (g_n_vertices G) tin -> INR (g_n_vertices G) <= 10 ^ 7 -> norm_arithmetic b64_format b64_round pw (/ 2 ^ 53) (/ 2 ^ 52) tin tout G.
Proof.
  intros Hb Hp Hu Hpw HW Hs Hn. set (n := g_n_vertices G) in *. destruct b64_unit as (U0 & U9). pose proof (b64_eps n Hn) as He. set (u := / 2 ^ 53) in *. set (v := / 2 ^ 52) in *.
  assert (V0 : 0 < v) by (apply Rinv_0_lt_compat, pow_lt; lra).
  assert (HF : forall i j, (i < n)%nat -> (j < n)%nat -> b64_format (wt G i j)) by (intros i j Hi Hj; apply (HW i j Hi Hj)).
  assert (V2 : 1 <= (1 + v) ^ 2) by (apply pow_R1_Rle; lra). assert (Ug : 1 <= (1 + u) ^ (2 * n + 1)) by (apply pow_R1_Rle; lra).
  assert (G0 : (1 + u) ^ (n - 1) <= (1 + u) ^ (2 * n + 1)) by (apply Rle_pow; [lra|lia]).
  assert (E8 : / 10 ^ 8 <= / 4) by lra.
  assert (G1 : (1 + u) ^ (2 * n + 1) <= 1 + / 4). { apply Rle_trans with ((1 + u) ^ (2 * n + 1) * (1 + v) ^ 2); [|lra]. rewrite <- (Rmult_1_r ((1 + u) ^ (2 * n + 1))) at 1. apply Rmult_le_compat_l; lra. }
  assert (Hg : (1 + u) ^ (n - 1) <= 3 / 2) by lra.
  assert (Hdw : forall i, (i < n)%nat -> 0 <= dw (gW G) i <= 2 ^ 324).
  { intros i Hi. split; [apply (nr_dw G Hb Hp); exact Hi|]. destruct (C08_weighted_degree G i Hb Hi) as (_ & D). rewrite (D Hu). apply Rle_trans with (\sum_(j < n) 2 ^ 300).
    - apply rsum_le; intros j Hj. destruct (HW i j Hi Hj) as (_ & [->|[_ L]]); [left; apply pow_lt; lra|exact L].
    - rewrite rsum_const. replace (2 ^ 324) with (2 ^ 24 * 2 ^ 300) by (rewrite <- pow_add; reflexivity). apply Rmult_le_compat_r; [left; apply pow_lt; lra|]. eapply Rle_trans; [exact Hn|]. cbn. lra. }
  assert (Hpw' : forall i, (i < n)%nat -> 0 < r_dw b64_round tin tout (gW G) i -> near (1 + v) (pw (r_dw b64_round tin tout (gW G) i)) (/ sqrt (r_dw b64_round tin tout (gW G) i))).
  { intros i Hi P. destruct (r_dw_err b64_format b64_round u tin tout G b64_rounding Hb Hp Hu HF Hs i Hi) as (Fd & E). fold n in E. destruct (Hdw i Hi) as (D0 & D1). unfold near. replace (1 + v - 1) with v by ring. apply Hpw; [exact Fd|]. split; [exact P|].
    pose proof (Rle_abs (r_dw b64_round tin tout (gW G) i - dw (gW G) i)) as Q. assert (((1 + u) ^ (n - 1) - 1) * dw (gW G) i <= / 2 * dw (gW G) i) by (apply Rmult_le_compat_r; lra).
    assert (S : 2 * 2 ^ 324 = 2 ^ 325) by reflexivity. assert (S2 : 2 ^ 325 < 2 ^ 1024) by (apply Rlt_pow; [lra|lia]). assert (0 < 2 ^ 324) by (apply pow_lt; lra). lra. }
  assert (Gv : (1 + u) ^ (n - 1) * (1 + v) <= 3 / 2).
  { assert (1 * (1 + v) <= (1 + v) ^ 2) by (cbn [pow]; rewrite Rmult_1_r; apply Rmult_le_compat_r; lra). apply Rle_trans with ((1 + u) ^ (2 * n + 1) * (1 + v) ^ 2); [|lra]. apply Rmult_le_compat; try lra. apply pow_le; lra. }
  assert (Sge : forall i, (i < n)%nat -> dw (gW G) i <> 0 -> / 2 ^ 163 <= r_dinv b64_round pw tin tout (gW G) i).
  { intros i Hi Hne. pose proof (nr_dinv b64_format b64_round pw u v tin tout G b64_rounding Hb Hp Hu HF Hs Hg ltac:(lra) Hpw' i Hi) as N. cbv beta in N.
    pose proof (near_ge _ _ _ (dinvsqrt_nonneg (gW G) i) Gv N) as Q. eapply Rle_trans; [|exact Q]. unfold dinvsqrt. rewrite (proj2 (Reqb_false _ _) Hne). destruct (Hdw i Hi) as (D0 & D1).
    replace (/ 2 ^ 163) with (/ 2 ^ 162 / 2) by (replace (2 ^ 163) with (2 * 2 ^ 162) by reflexivity; rewrite Rinv_mult; lra). apply Rmult_le_compat_r; [lra|].
    apply Rinv_le_contravar; [apply sqrt_lt_R0; lra|]. apply Rsqr_incr_0; [|apply sqrt_pos|left; apply pow_lt; lra]. rewrite Rsqr_sqrt by lra. unfold Rsqr. rewrite <- pow_add. exact D1. }
  constructor; [exact b64_rounding|exact b64_one|exact HF|exact Hs|exact Hg|lra| |].
  - intros i Hi d P. specialize (Hpw' i Hi P). unfold near in Hpw'. replace (1 + v - 1) with v in Hpw' by ring. exact Hpw'.
  - intros i j Hi Hj s. destruct (HW i j Hi Hj) as (_ & [W0|[Wl _]]).
    + rewrite W0, Rmult_0_r. rewrite (r_id _ _ _ b64_rounding 0 (r_zero _ _ _ b64_rounding)), Rmult_0_l. split; apply b64_accurate; left; reflexivity.
    + assert (Wp : 0 < wt G i j) by (eapply Rlt_le_trans; [|exact Wl]; apply Rinv_0_lt_compat, pow_lt; lra).
      assert (Di : dw (gW G) i <> 0). { destruct (C08_weighted_degree G i Hb Hi) as (_ & D). rewrite (D Hu). assert (wt G i j <= \sum_(k < n) wt G i k) by (apply (rsum_ge_term n (fun k => wt G i k)); [intros; apply Hp; assumption|exact Hj]). fold n. lra. }
      assert (Dj : dw (gW G) j <> 0). { destruct (C08_weighted_degree G j Hb Hj) as (_ & D). rewrite (D Hu). assert (wt G j i <= \sum_(k < n) wt G j k) by (apply (rsum_ge_term n (fun k => wt G j k)); [intros; apply Hp; assumption|exact Hi]). rewrite (Hu j i Hj Hi) in H. fold n. lra. }
      pose proof (Sge i Hi Di) as Si. pose proof (Sge j Hj Dj) as Sj. fold s in Si, Sj.
      assert (Pk : forall k, 0 < / 2 ^ k) by (intros k; apply Rinv_0_lt_compat, pow_lt; lra).
      assert (P1 : / 2 ^ 463 <= s i * wt G i j). { change 463%nat with (163 + 300)%nat. rewrite <- pow_inv_mult. apply Rmult_le_compat; try assumption; left; apply Pk. }
      assert (A1 : accurate b64_round u (s i * wt G i j)). { apply b64_accurate. right. rewrite Rabs_pos_eq by (pose proof (Pk 463%nat); lra). eapply Rle_trans; [|exact P1]. apply pow_inv_le. lia. }
      split; [exact A1|]. apply b64_accurate. right.
      assert (P2 : / 2 ^ 464 <= b64_round (s i * wt G i j)).
      { unfold accurate in A1. rewrite (Rabs_pos_eq (s i * wt G i j)) in A1 by (pose proof (Pk 463%nat); lra). pose proof (Rle_abs (- (b64_round (s i * wt G i j) - s i * wt G i j))) as Q. rewrite Rabs_Ropp in Q.
        assert (u * (s i * wt G i j) <= / 2 * (s i * wt G i j)) by (apply Rmult_le_compat_r; [pose proof (Pk 463%nat); lra|lra]).
        replace (/ 2 ^ 464) with (/ 2 ^ 463 / 2) by (replace (2 ^ 464) with (2 * 2 ^ 463) by reflexivity; rewrite Rinv_mult; lra). lra. }
      assert (P3 : / 2 ^ 627 <= b64_round (s i * wt G i j) * s j). { change 627%nat with (464 + 163)%nat. rewrite <- pow_inv_mult. apply Rmult_le_compat; try assumption; left; apply Pk. }
      rewrite Rabs_pos_eq by (pose proof (Pk 627%nat); lra). eapply Rle_trans; [|exact P3]. apply pow_inv_le. lia.
Qed.
(** In double precision the assertions never fail on a loopless graph with an edge. *)
Theorem C92_double_precision_normalized_accepted : forall pw tin tout G delta A e U, built G -> nonneg_weights G -> undirected G -> g_lap_type G = Normalized -> power_one_ulp pw ->
  let n := g_n_vertices G in
  (forall i j, (i < n)%nat -> (j < n)%nat -> b64_format (wt G i j) /\ (wt G i j = 0 \/ / 2 ^ 300 <= wt G i j <= 2 ^ 300)) -> sums_all n tin -> INR n <= 10 ^ 7 ->
  (forall i, (i < n)%nat -> wt G i i = 0) -> (exists i j, (i < n)%nat /\ (j < n)%nat /\ wt G i j <> 0) -> delta <= / 10 ^ 8 ->
  (forall x, Rabs (quad n A x - quad n (lower_triangle (r_lap_norm b64_round pw tin tout (gW G))) x) <= delta * normsq n x) ->
  eigh_ok n A (fun k => nth k e 0) U -> List.length e = n ->
  exists s, compute_fourier_basis None (EigOk e U) (cache_init G) = (s, Ok tt) /\ c_basis s = Some (0 :: tl e, U).
Proof.
  intros pw tin tout G delta A e U Hb Hp Hu Ht Hpw n HW Hs Hn Hl Hed Hdel HA He Hlen. pose proof (b64_eps n Hn) as Ep.
  assert (N0 : (0 < g_n_vertices G)%nat) by (destruct Hed as (i & _ & Hi & _); fold n; lia).
  apply (C92_normalized_accepted b64_format b64_round pw (/ 2 ^ 53) (/ 2 ^ 52) tin tout G delta A e U (b64_arithmetic pw tin tout G Hb Hp Hu Hpw HW Hs Hn) Hb Hp Hu Ht); auto; fold n.
  - eapply Rle_lt_trans; [apply Rplus_le_compat; [exact Ep|exact Hdel]|]. lra.
  - apply Rle_trans with (INR n * (2 * / 10 ^ 8)); [apply Rmult_le_compat_l; [apply pos_INR|lra]|]. apply Rle_trans with (10 ^ 7 * (2 * / 10 ^ 8)); [apply Rmult_le_compat_r; lra|lra].
Qed.

(** ** Where it goes wrong *)
(** A number near [m / 2^k], with the 53-bit integer m, is rounded to it. *)
Lemma b64_round_eq (m P : Z) (k : nat) x : (4503599627370496 <= m < 9007199254740992)%Z -> (k <= 1074)%nat -> P = (2 ^ Z.of_nat k)%Z ->
  IZR m - / 2 < x * IZR P < IZR m + / 2 -> 4503599627370496 <= x * IZR P < 9007199254740992 -> b64_round x = IZR m / IZR P.
Proof.
  intros Hm Hk HP Hx Hb. assert (EP : IZR P = bpow radix2 (Z.of_nat k)) by (rewrite HP, <- IZR_Zpower by lia; reflexivity).
  assert (P0 : 0 < IZR P) by (rewrite EP; apply bpow_gt_0).
  assert (Em : mag radix2 x = (53 - Z.of_nat k)%Z :> Z).
  { apply mag_unique_pos. replace (53 - Z.of_nat k - 1)%Z with (52 + - Z.of_nat k)%Z by lia. replace (53 - Z.of_nat k)%Z with (53 + - Z.of_nat k)%Z by lia. rewrite !bpow_plus, bpow_opp, <- EP.
    change (bpow radix2 52) with 4503599627370496. change (bpow radix2 53) with 9007199254740992. replace x with (x * IZR P * / IZR P) by (field; lra).
    split; [apply Rmult_le_compat_r; [left; apply Rinv_0_lt_compat; exact P0|lra]|apply Rmult_lt_compat_r; [apply Rinv_0_lt_compat; exact P0|lra]]. }
  unfold b64_round, round, scaled_mantissa, cexp. rewrite Em. assert (Ex : b64_exp (53 - Z.of_nat k) = (- Z.of_nat k)%Z) by (unfold b64_exp, FLT_exp; lia). rewrite Ex, Z.opp_involutive, <- EP.
  assert (Ez : ZnearestE (x * IZR P) = m). { apply Znearest_imp. apply Rabs_def1; lra. }
  rewrite Ez. unfold F2R. cbn [Fnum Fexp]. rewrite bpow_opp, <- EP. reflexivity.
Qed.
(** The correctly rounded inverse square root. *)
Definition b64_power (x : R) : R := b64_round (/ sqrt x).
Lemma b64_power_ok : power_one_ulp b64_power.
Proof.
  intros x _ (X0 & X1). assert (S0 : 0 < sqrt x) by (apply sqrt_lt_R0; exact X0). assert (I0 : 0 < / sqrt x) by (apply Rinv_0_lt_compat; exact S0).
  assert (S1 : sqrt x <= 2 ^ 512). { apply Rsqr_incr_0; [|lra|left; apply pow_lt; lra]. rewrite Rsqr_sqrt by lra. unfold Rsqr. rewrite <- pow_add. left. exact X1. }
  assert (L : / 2 ^ 1022 <= Rabs (/ sqrt x)). { rewrite Rabs_pos_eq by lra. apply Rle_trans with (/ 2 ^ 512); [apply pow_inv_le; lia|]. apply Rinv_le_contravar; assumption. }
  pose proof (b64_accurate (/ sqrt x) (or_intror L)) as A. unfold accurate in A. rewrite (Rabs_pos_eq (/ sqrt x)) in A by lra. unfold b64_power. eapply Rle_trans; [exact A|]. apply Rmult_le_compat_r; [lra|].
  apply pow_inv_le. lia.
Qed.
Lemma b64_int k : (0 <= k <= 1000000)%Z -> b64_format (IZR k).
Proof. intros H. replace (IZR k) with (IZR (2 * k) / 2) by (rewrite mult_IZR; field). apply b64_half. change (2 ^ 53 - 1)%Z with 9007199254740991%Z. lia. Qed.
Lemma b64_int_id k : (0 <= k <= 1000000)%Z -> b64_round (IZR k) = IZR k.
Proof. intros H. apply (r_id _ _ _ b64_rounding), b64_int, H. Qed.
Ltac b64 x m k := let P := eval vm_compute in (2 ^ Z.of_nat k)%Z in rewrite (b64_round_eq m P k x); [|lia|lia|reflexivity|lra|lra].
Lemma bpow_54 : bpow radix2 (Z.neg 54) = / 18014398509481984.
Proof. change (Z.neg 54) with (- Z.of_nat 54)%Z. rewrite bpow_neg. f_equal. cbn. lra. Qed.
Lemma bpow_52 : bpow radix2 (Z.neg 52) = / 4503599627370496.
Proof. change (Z.neg 52) with (- Z.of_nat 52)%Z. rewrite bpow_neg. f_equal. cbn. lra. Qed.

(** A triangle with the weights 7, 2 and 18, hence the degrees 9, 25 and 20.  The combinatorial Laplacian is exactly symmetric whatever
    the rounding (above); the normalized one is not: the two products of an entry are made in different orders. *)
Definition tri : list R := [0; 7; 2;  7; 0; 18;  2; 18; 0].
Lemma tri_sym G : built G -> g_n_vertices G = 3%nat -> (forall i j, (i < 3)%nat -> (j < 3)%nat -> wt G i j = nth (i * 3 + j) tri 0) -> undirected G /\ nonneg_weights G /\
  (forall i j, (i < 3)%nat -> (j < 3)%nat -> b64_format (wt G i j) /\ (wt G i j = 0 \/ / 2 ^ 300 <= wt G i j <= 2 ^ 300)) /\ (forall i, (i < 3)%nat -> wt G i i = 0).
Proof.
  intros Hb Hn Hw. split; [|split; [|split]].
  - intros i j Hi Hj. rewrite Hn in Hi, Hj. rewrite !Hw by assumption. do 3 (destruct i as [|i]; [do 3 (destruct j as [|j]; [reflexivity|]); lia|]). lia.
  - intros i j Hi Hj. rewrite Hn in Hi, Hj. rewrite Hw by assumption. do 3 (destruct i as [|i]; [do 3 (destruct j as [|j]; [cbn; lra|]); lia|]). lia.
  - intros i j Hi Hj. rewrite Hw by assumption. assert (B : 18 <= 2 ^ 300) by (apply Rle_trans with (2 ^ 5); [cbn; lra|apply Rle_pow; [lra|lia]]). assert (A : / 2 ^ 300 <= 1) by (rewrite <- Rinv_1; apply Rinv_le_contravar; lra).
    assert (Hnum : forall k, (1 <= k <= 18)%Z -> b64_format (IZR k) /\ (IZR k = 0 \/ / 2 ^ 300 <= IZR k <= 2 ^ 300)).
    { intros k Hk. split; [apply b64_int; lia|]. right. destruct Hk as (K1 & K2). apply IZR_le in K1, K2. lra. }
    pose proof (Hnum 7%Z ltac:(lia)) as N7. pose proof (Hnum 2%Z ltac:(lia)) as N2. pose proof (Hnum 18%Z ltac:(lia)) as N18.
    assert (N0 : b64_format 0 /\ (0 = 0 \/ / 2 ^ 300 <= 0 <= 2 ^ 300)) by (split; [apply (b64_int 0); lia|left; reflexivity]).
    do 3 (destruct i as [|i]; [do 3 (destruct j as [|j]; [cbn [nth tri Nat.mul Nat.add]; assumption|]); lia|]). lia.
  - intros i Hi. rewrite Hw by assumption. do 3 (destruct i as [|i]; [reflexivity|]). lia.
Qed.
Lemma sqrt_square x : 0 <= x -> sqrt (x * x) = x.
Proof. apply sqrt_square. Qed.
Theorem C92_normalized_not_symmetric_refuted : exists G, built G /\ nonneg_weights G /\ undirected G /\ g_lap_type G = Normalized /\ g_n_vertices G = 3%nat /\
  norm_arithmetic b64_format b64_round b64_power (/ 2 ^ 53) (/ 2 ^ 52) in_order in_order G /\
  r_lap_norm b64_round b64_power in_order in_order (gW G) 0%nat 1%nat <> r_lap_norm b64_round b64_power in_order in_order (gW G) 1%nat 0%nat.
Proof.
  destruct (finite_entry_built 3 tri Normalized None eq_refl (or_intror eq_refl)) as (G & _ & Hb & Hn & Ht & _ & Hw). exists G.
  destruct (tri_sym G Hb Hn Hw) as (Hu & Hp & HF & _).
  split; [exact Hb|]. split; [exact Hp|]. split; [exact Hu|]. split; [exact Ht|]. split; [exact Hn|]. split.
  { apply b64_arithmetic; auto using b64_power_ok; rewrite Hn; [exact HF|apply in_order_ok|cbn; lra]. }
  assert (Hdir : is_directed (gW G) = false) by (apply und_dir; assumption).
  assert (D0 : r_dw b64_round in_order in_order (gW G) 0 = 9).
  { unfold r_dw. rewrite Hdir. cbn [in_order r_sum]. change (get (gW G)) with (wt G). rewrite !Hw by lia. cbn [nth tri Nat.mul Nat.add]. rewrite Rplus_0_l, (b64_int_id 7) by lia. replace (7 + 2) with 9 by ring. apply (b64_int_id 9). lia. }
  assert (D1 : r_dw b64_round in_order in_order (gW G) 1 = 25).
  { unfold r_dw. rewrite Hdir. cbn [in_order r_sum]. change (get (gW G)) with (wt G). rewrite !Hw by lia. cbn [nth tri Nat.mul Nat.add]. rewrite Rplus_0_r, (b64_int_id 7) by lia. replace (7 + 18) with 25 by ring. apply (b64_int_id 25). lia. }
  unfold r_lap_norm. rewrite Hdir. cbn [Nat.eqb andb]. unfold r_dinv. rewrite D0, D1. rewrite !(proj2 (Reqb_false _ _)) by lra. change (get (gW G)) with (wt G). rewrite !Hw by lia. cbn [nth tri Nat.mul Nat.add]. unfold b64_power.
  replace 9 with (3 * 3) by ring. replace 25 with (5 * 5) by ring. rewrite !sqrt_square by lra.
  b64 (/ 3) 6004799503160661%Z 54%nat. b64 (/ 5) 7205759403792794%Z 55%nat.
  b64 (6004799503160661 / 18014398509481984 * 7) 5254199565265578%Z 51%nat. b64 (7205759403792794 / 36028797018963968 * 7) 6305039478318695%Z 52%nat.
  b64 (5254199565265578 / 2251799813685248 * (7205759403792794 / 36028797018963968)) 8406719304424925%Z 54%nat.
  b64 (6305039478318695 / 4503599627370496 * (6004799503160661 / 18014398509481984)) 8406719304424926%Z 54%nat.
  rewrite !Rminus_0_l.
  assert (Fo : forall m, (0 <= m < 9007199254740992)%Z -> b64_round (- (IZR m / 18014398509481984)) = - (IZR m / 18014398509481984)).
  { intros m Hm. apply (r_id _ _ _ b64_rounding), (r_opp _ _ _ b64_rounding). apply generic_format_FLT. exists (Float radix2 m (-54)); cbn [Fnum Fexp]; [|change (Z.abs m < 9007199254740992)%Z; lia|discriminate].
    unfold F2R. cbn [Fnum Fexp]. rewrite bpow_54. reflexivity. }
  rewrite !Fo by lia. lra.
Qed.

(** Two vertices with a self-loop of weight 8649 = 93^2 each and no other edge.  Exactly, the normalized Laplacian is 0; in double
    precision (1/93 * 8649) * 1/93 is a hair above 1, both eigenvalues are -2^-52, compute_fourier_basis sets the first one to 0 and then
    fails because the last one is not the maximum.  The second call succeeds. *)
Definition in_pair : nat -> sumtree := fun _ => Node (Leaf 0) (Leaf 1).
Theorem C92_normalized_loops_refuted : exists G, built G /\ nonneg_weights G /\ undirected G /\ g_lap_type G = Normalized /\ g_n_vertices G = 2%nat /\
  norm_arithmetic b64_format b64_round b64_power (/ 2 ^ 53) (/ 2 ^ 52) in_pair in_pair G /\
  (forall i j, (i < 2)%nat -> (j < 2)%nat -> gL G i j = 0) /\
  forall e U, eigh_ok 2 (lower_triangle (r_lap_norm b64_round b64_power in_pair in_pair (gW G))) (fun k => nth k e 0) U -> List.length e = 2%nat ->
    e = [- / 2 ^ 52; - / 2 ^ 52] /\
    exists s, compute_fourier_basis None (EigOk e U) (cache_init G) = (s, Raise AssertionError) /\ (forall o, compute_fourier_basis None o s = (s, Ok tt)) /\ c_basis s = Some ([0; - / 2 ^ 52], U).
Proof.
  destruct (finite_entry_built 2 [8649; 0; 0; 8649] Normalized None eq_refl (or_intror eq_refl)) as (G & _ & Hb & Hn & Ht & _ & Hw). exists G.
  assert (Hu : undirected G). { intros i j Hi Hj. rewrite Hn in Hi, Hj. rewrite !Hw by assumption. do 2 (destruct i as [|i]; [do 2 (destruct j as [|j]; [reflexivity|]); lia|]). lia. }
  assert (Hp : nonneg_weights G). { intros i j Hi Hj. rewrite Hn in Hi, Hj. rewrite Hw by assumption. do 2 (destruct i as [|i]; [do 2 (destruct j as [|j]; [cbn; lra|]); lia|]). lia. }
  assert (HF : forall i j, (i < 2)%nat -> (j < 2)%nat -> b64_format (wt G i j) /\ (wt G i j = 0 \/ / 2 ^ 300 <= wt G i j <= 2 ^ 300)).
  { intros i j Hi Hj. rewrite Hw by assumption. assert (B : 8649 <= 2 ^ 300) by (apply Rle_trans with (2 ^ 14); [cbn; lra|apply Rle_pow; [lra|lia]]). assert (A : / 2 ^ 300 <= 1) by (rewrite <- Rinv_1; apply Rinv_le_contravar; lra).
    assert (N : b64_format 8649 /\ (8649 = 0 \/ / 2 ^ 300 <= 8649 <= 2 ^ 300)) by (split; [apply (b64_int 8649); lia|right; lra]).
    assert (N0 : b64_format 0 /\ (0 = 0 \/ / 2 ^ 300 <= 0 <= 2 ^ 300)) by (split; [apply (b64_int 0); lia|left; reflexivity]).
    do 2 (destruct i as [|i]; [do 2 (destruct j as [|j]; [cbn [nth Nat.mul Nat.add]; assumption|]); lia|]). lia. }
  split; [exact Hb|]. split; [exact Hp|]. split; [exact Hu|]. split; [exact Ht|]. split; [exact Hn|]. split.
  { apply b64_arithmetic; auto using b64_power_ok; rewrite Hn; [exact HF|intros i Hi; apply Permutation_refl|cbn; lra]. }
  assert (Hdir : is_directed (gW G) = false) by (apply und_dir; assumption).
  assert (Hdw : forall i, (i < 2)%nat -> dw (gW G) i = 8649).
  { intros i Hi. destruct (C08_weighted_degree G i Hb ltac:(rewrite Hn; exact Hi)) as (_ & D). rewrite (D Hu), Hn. cbn [rsum]. rewrite !Hw by lia. do 2 (destruct i as [|i]; [cbn; lra|]). lia. }
  split.
  { intros i j Hi Hj. rewrite (nr_L G Hb Hu Ht i j) by (rewrite Hn; assumption). rewrite (Hdw i Hi), (proj2 (Reqb_false 8649 0)) by lra. rewrite andb_false_r, Hw by assumption.
    destruct i as [|[|i]]; [| |lia]; (destruct j as [|[|j]]; [| |lia]); cbn [nth Nat.mul Nat.add Nat.eqb]; try ring.
    - pose proof (dinvsqrt_sq (gW G) 0 ltac:(rewrite Hdw by lia; lra) ltac:(rewrite Hdw by lia; lra)) as Q. rewrite Hdw in Q by lia. lra.
    - pose proof (dinvsqrt_sq (gW G) 1 ltac:(rewrite Hdw by lia; lra) ltac:(rewrite Hdw by lia; lra)) as Q. rewrite Hdw in Q by lia. lra. }
  set (L' := r_lap_norm b64_round b64_power in_pair in_pair (gW G)).
  assert (Rd : forall i, (i < 2)%nat -> r_dw b64_round in_pair in_pair (gW G) i = 8649).
  { intros i Hi. unfold r_dw. rewrite Hdir. cbn [in_pair r_sum]. change (get (gW G)) with (wt G). rewrite !Hw by lia. do 2 (destruct i as [|i]; [cbn [nth Nat.mul Nat.add]; rewrite ?Rplus_0_l, ?Rplus_0_r; apply (b64_int_id 8649); lia|]). lia. }
  assert (I0 : b64_round 0 = 0) by (apply (b64_int_id 0); lia).
  assert (E1 : b64_round (/ 93) = 6198502712940038 / 576460752303423488) by (b64 (/ 93) 6198502712940038%Z 59%nat; reflexivity).
  assert (E2 : b64_round (6198502712940038 / 576460752303423488 * 8649) = 6544293208522753 / 70368744177664) by (b64 (6198502712940038 / 576460752303423488 * 8649) 6544293208522753%Z 46%nat; reflexivity).
  assert (E3 : b64_round (6544293208522753 / 70368744177664 * (6198502712940038 / 576460752303423488)) = 4503599627370497 / 4503599627370496) by (b64 (6544293208522753 / 70368744177664 * (6198502712940038 / 576460752303423488)) 4503599627370497%Z 52%nat; reflexivity).
  assert (E52 : / 2 ^ 52 = / 4503599627370496) by (f_equal; cbn; lra).
  assert (E4 : b64_round (1 - 4503599627370497 / 4503599627370496) = - / 2 ^ 52).
  { rewrite E52. replace (1 - 4503599627370497 / 4503599627370496) with (- / 4503599627370496) by lra. apply (r_id _ _ _ b64_rounding), (r_opp _ _ _ b64_rounding). apply generic_format_FLT.
    exists (Float radix2 1 (-52)); cbn [Fnum Fexp]; [|reflexivity|discriminate]. unfold F2R. cbn [Fnum Fexp]. rewrite bpow_52. lra. }
  assert (HL : forall i j, (i < 2)%nat -> (j < 2)%nat -> L' i j = if Nat.eqb i j then - / 2 ^ 52 else 0).
  { intros i j Hi Hj. unfold L', r_lap_norm. rewrite Hdir. unfold r_dinv. rewrite !Rd by assumption. rewrite (proj2 (Reqb_false 8649 0)) by lra. rewrite andb_false_r. change (get (gW G)) with (wt G). rewrite Hw by assumption.
    unfold b64_power. replace (/ sqrt 8649) with (/ 93) by (replace 8649 with (93 * 93) by ring; rewrite sqrt_square by lra; reflexivity). rewrite E1.
    destruct i as [|[|i]]; [| |lia]; (destruct j as [|[|j]]; [| |lia]); cbn [nth Nat.mul Nat.add Nat.eqb]; rewrite ?Rmult_0_r, ?I0, ?Rmult_0_l, ?I0, ?Rminus_0_r, ?I0, ?E2, ?E3, ?E4; reflexivity. }
  intros e U He Hl. set (t := / 2 ^ 52) in *.
  assert (Hlt : forall i j, (i < 2)%nat -> (j < 2)%nat -> lower_triangle L' i j = if Nat.eqb i j then - t else 0).
  { intros i j Hi Hj. unfold lower_triangle. destruct (Nat.leb j i); rewrite HL by assumption; [reflexivity|]. rewrite Nat.eqb_sym. reflexivity. }
  assert (Ek : forall k, (k < 2)%nat -> nth k e 0 = - t).
  { intros k Hk. assert (Hev : forall i, (i < 2)%nat -> - t * U i k = nth k e 0 * U i k).
    { intros i Hi. rewrite <- (eigh_eig _ _ _ _ He i k Hi Hk). unfold mulv. rewrite (rsum_single 2 (fun j => lower_triangle L' i j * U j k) i Hi) by (intros j Hj Hne; rewrite Hlt by assumption; destruct (Nat.eqb_spec i j); [congruence|ring]).
      rewrite Hlt, Nat.eqb_refl by assumption. reflexivity. }
    pose proof (eigh_eigenpair 2 _ _ U He k Hk) as (Hnz & _).
    destruct (Req_dec (nth k e 0) (- t)) as [E|E]; [exact E|]. exfalso. apply Hnz. intros i Hi. specialize (Hev i Hi). 
    destruct (Rmult_integral (nth k e 0 - - t) (U i k)) as [Z|Z]; [lra|exfalso; apply E; lra|exact Z]. }
  destruct e as [|a [|b [|c e]]]; try discriminate. pose proof (Ek 0%nat ltac:(lia)) as Ea. pose proof (Ek 1%nat ltac:(lia)) as Eb. cbn [nth] in Ea, Eb. rewrite Ea, Eb. split; [reflexivity|].
  assert (T0 : 0 < t) by (unfold t; apply Rinv_0_lt_compat, pow_lt; lra). assert (T1 : t < / 10 ^ 5) by (rewrite E52; lra).
  unfold compute_fourier_basis at 1. cbn [c_basis cache_init c_N].
  replace (Rltb (- / 10 ^ 5) (- t) && Rltb (- t) (/ 10 ^ 5))%bool with true by (symmetry; apply andb_true_intro; split; apply Rltb_true; lra).
  change (upper_bound (c_W (cache_init G)) (c_lap (cache_init G))) with (upper_bound (gW G) (g_lap_type G)). rewrite Ht. cbn [upper_bound last].
  replace (fle (- t) (xadd (Fin 2) (Fin (/ 10 ^ 5)))) with true by (symmetry; cbn [xadd fle]; apply Rleb_true; lra).
  replace (forallb (fun x => Rleb x (- t)) [0; - t]) with false by (symmetry; cbn [forallb]; destruct (Rleb_spec 0 (- t)); [lra|reflexivity]).
  eexists. split; [reflexivity|]. split; [|reflexivity]. intros o. unfold compute_fourier_basis. cbn [c_basis set_basis c_N cache_init]. rewrite Hn. reflexivity.
Qed.
(** The triangle meets the hypotheses of the acceptance theorem, with an exact eigensolver. *)
Example C92_normalized_ex : exists G, built G /\ nonneg_weights G /\ undirected G /\ g_lap_type G = Normalized /\ g_n_vertices G = 3%nat /\
  (exists e U, eigh_ok 3 (lower_triangle (r_lap_norm b64_round b64_power in_order in_order (gW G))) (fun k => nth k e 0) U /\ List.length e = 3%nat /\
    exists s, compute_fourier_basis None (EigOk e U) (cache_init G) = (s, Ok tt) /\ c_basis s = Some (0 :: tl e, U)).
Proof.
  destruct (finite_entry_built 3 tri Normalized None eq_refl (or_intror eq_refl)) as (G & _ & Hb & Hn & Ht & _ & Hw). exists G. destruct (tri_sym G Hb Hn Hw) as (Hu & Hp & HF & Hl).
  split; [exact Hb|]. split; [exact Hp|]. split; [exact Hu|]. split; [exact Ht|]. split; [exact Hn|].
  set (L' := lower_triangle (r_lap_norm b64_round b64_power in_order in_order (gW G))).
  destruct (spectral_theorem 3 L') as (e & U & H).
  { intros i j Hi Hj. unfold tr, L', lower_triangle. destruct (Nat.leb_spec j i); destruct (Nat.leb_spec i j); try reflexivity; try lia. replace i with j by lia. reflexivity. }
  assert (E : forall k, (k < 3)%nat -> nth k [e 0%nat; e 1%nat; e 2%nat] 0 = e k) by (intros k Hk; do 3 (destruct k as [|k]; [reflexivity|]); lia).
  assert (He : eigh_ok 3 L' (fun k => nth k [e 0%nat; e 1%nat; e 2%nat] 0) U).
  { destruct H as [Hc Hr Hei Hs]. constructor; [exact Hc|exact Hr| |].
    - intros i k Hi Hk. rewrite Hei, E by assumption. reflexivity.
    - intros k l Hkl Hl'. rewrite !E by lia. apply Hs; assumption. }
  exists [e 0%nat; e 1%nat; e 2%nat], U. split; [exact He|]. split; [reflexivity|].
  apply (C92_double_precision_normalized_accepted b64_power in_order in_order G 0 L'); auto; rewrite ?Hn; auto using b64_power_ok, in_order_ok; try (cbn; lra).
  - exists 0%nat, 1%nat. split; [lia|]. split; [lia|]. rewrite Hw by lia. cbn. lra.
  - intros x. fold L'. rewrite Rminus_eq_0, Rabs_R0. lra.
Qed.
