(** Property C86: heat filtering is a diffusion. *)
From Coq Require Import Reals Lra Lia Arith Bool String ZArith List.
From Verif.Base Require Import RSum Prelude LinAlg Spectral.
From Verif.Spec Require Import Matrix GraphSpec NdArray FilterSpec Reach LapSpec.
From Verif.Model Require Import Sparse Graph Traverse Cache Filter Kernels.
From Verif.Proofs Require Import InitFacts SpectralFacts SpectrumFacts FilterFacts MaxPrinciple.
From Verif.Props Require Import Core Laplacian Traversal Caching Filtering Banks KernelProps UtilsProps SpectrumProps.
Import ListNotations.
Open Scope R_scope.

(** ** Limits *)

Lemma cv_const c : Un_cv (fun _ => c) c.
Proof. intros eps He. exists 0%nat. intros. unfold R_dist. rewrite Rminus_diag_eq, Rabs_R0 by reflexivity. exact He. Qed.
Lemma cv_rsum n (u : nat -> nat -> R) (l : nat -> R) : (forall k, (k < n)%nat -> Un_cv (fun m => u m k) (l k)) ->
  Un_cv (fun m => \sum_(k < n) u m k) (\sum_(k < n) l k).
Proof.
  induction n as [|n IH]; intros H; [exact (cv_const 0)|]. cbn [rsum]. apply (CV_plus (fun m => \sum_(k < n) u m k) (fun m => u m n)).
  - apply IH. intros k Hk. apply H. lia.
  - apply H. lia.
Qed.
Lemma cv_ext u v l : (forall n, u n = v n) -> Un_cv u l -> Un_cv v l.
Proof. intros E H eps He. destruct (H eps He) as (N & HN). exists N. intros n Hn. rewrite <- E. apply HN. exact Hn. Qed.
Lemma cv_ge u l c m0 : (forall m, (m0 <= m)%nat -> c <= u m) -> Un_cv u l -> c <= l.
Proof.
  intros H Hu. apply Rnot_lt_le. intros Hlt. destruct (Hu (c - l) ltac:(lra)) as (N & HN).
  specialize (HN (Nat.max N m0) ltac:(lia)). specialize (H (Nat.max N m0) ltac:(lia)). unfold R_dist in HN. apply Rabs_def2 in HN. lra.
Qed.
Lemma exp_cv y : Un_cv (fun m => \sum_(j < S m) (y ^ j / INR (fact j))) (exp y).
Proof.
  assert (E : forall m, sum_f_R0 (fun i => / INR (fact i) * y ^ i) m = \sum_(j < S m) (y ^ j / INR (fact j))).
  { induction m as [|m IH]; [cbn; lra|]. change (sum_f_R0 (fun i => / INR (fact i) * y ^ i) (S m)) with (sum_f_R0 (fun i => / INR (fact i) * y ^ i) m + / INR (fact (S m)) * y ^ S m).
    rewrite IH. change (\sum_(j < S (S m)) (y ^ j / INR (fact j))) with (\sum_(j < S m) (y ^ j / INR (fact j)) + y ^ S m / INR (fact (S m))). unfold Rdiv. ring. }
  apply (cv_ext _ _ _ E). exact (proj2_sig (exist_exp y)).
Qed.

(** ** exp(-tau L) has non-negative entries *)

Section Positivity.
  Variable F : view.
  Hypothesis HF : spectral F.
  Hypothesis HL : is_laplacian (v_N F) (v_L F).
  Local Notation n := (v_N F).
  Local Notation e := (fun k => nth k (v_e F) 0).

  Let d : R := \sum_(i < n) Rabs (v_L F i i).
  Let M : mat := fun i j => (if Nat.eqb i j then d else 0) - v_L F i j.

  Lemma M_nonneg i j : (i < n)%nat -> (j < n)%nat -> 0 <= M i j.
  Proof.
    intros Hi Hj. unfold M. destruct (Nat.eqb_spec i j) as [<-|Hne].
    - pose proof (rsum_ge_term n (fun i => Rabs (v_L F i i)) i (fun k _ => Rabs_pos _) Hi) as H. cbn beta in H. fold d in H.
      pose proof (Rle_abs (v_L F i i)). lra.
    - destruct HL as (_ & _ & Ho). specialize (Ho i j Hi Hj Hne). lra.
  Qed.
  Lemma M_apply y i : (i < n)%nat -> mulv n M y i = d * y i - mulv n (v_L F) y i.
  Proof.
    intros Hi. unfold mulv, M. rewrite (rsum_ext n _ (fun j => (if Nat.eqb i j then d * y j else 0) - v_L F i j * y j)).
    - rewrite rsum_minus. f_equal. rewrite (rsum_single n (fun j => if Nat.eqb i j then d * y j else 0) i Hi); [rewrite Nat.eqb_refl; reflexivity|].
      intros j Hj Hne. destruct (Nat.eqb_spec i j); [congruence|reflexivity].
    - intros j Hj. destruct (Nat.eqb i j); ring.
  Qed.
  Fixpoint powM (k : nat) (x : vec) : vec := match k with O => x | S k => mulv n M (powM k x) end.
  Lemma powM_nonneg k x : (forall i, (i < n)%nat -> 0 <= x i) -> forall i, (i < n)%nat -> 0 <= powM k x i.
  Proof.
    intros Hx. induction k as [|k IH]; intros i Hi; [apply Hx; exact Hi|]. cbn [powM]. unfold mulv. apply rsum_nonneg. intros j Hj.
    apply Rmult_le_pos; [apply M_nonneg; assumption|apply IH; exact Hj].
  Qed.
  Lemma powM_mult k x i : (i < n)%nat -> mult F (fun l => (d - e l) ^ k) x i = powM k x i.
  Proof.
    revert i. induction k as [|k IH]; intros i Hi; [cbn [pow powM]; apply mult_1; assumption|].
    cbn [powM]. rewrite M_apply by exact Hi. rewrite <- (IH i Hi).
    rewrite (mulv_ext n (v_L F) (v_L F) (powM k x) (mult F (fun l => (d - e l) ^ k) x) i); [|intros; reflexivity|intros j Hj; symmetry; apply IH; exact Hj].
    rewrite (mulv_mult F HF _ x i Hi).
    transitivity (d * mult F (fun l => (d - e l) ^ k) x i + -1 * mult F (fun l => e l * (d - e l) ^ k) x i); [|ring].
    rewrite <- mult_lin_h. apply mult_ext; [|intros j Hj; reflexivity]. intros l Hl. cbn [pow]. ring.
  Qed.

  Variable tau : R.
  Hypothesis Htau : 0 <= tau.

  Lemma series_cv x i : (i < n)%nat ->
    Un_cv (fun m => \sum_(j < S m) (tau ^ j / INR (fact j) * powM j x i)) (mult F (fun k => exp (tau * (d - e k))) x i).
  Proof.
    intros Hi.
    assert (E : forall m, mult F (fun k => \sum_(j < S m) ((tau * (d - e k)) ^ j / INR (fact j))) x i = \sum_(j < S m) (tau ^ j / INR (fact j) * powM j x i)).
    { intros m. rewrite mult_sum_h. apply rsum_ext. intros j Hj. rewrite <- (powM_mult j x i Hi).
      transitivity (tau ^ j / INR (fact j) * mult F (fun l => (d - e l) ^ j) x i + 0 * mult F (fun _ => 0) x i); [|ring].
      rewrite <- mult_lin_h. apply mult_ext; [|intros a Ha; reflexivity]. intros k Hk. rewrite Rpow_mult_distr. unfold Rdiv. ring. }
    apply (cv_ext _ _ _ E). unfold mult. apply (cv_rsum n (fun m k => v_U F i k * ((\sum_(j < S m) ((tau * (d - e k)) ^ j / INR (fact j))) * fhat F x k))
      (fun k => v_U F i k * (exp (tau * (d - e k)) * fhat F x k))).
    intros k Hk. apply (CV_mult (fun _ => v_U F i k)); [apply cv_const|]. apply CV_mult; [apply exp_cv|apply cv_const].
  Qed.

  Lemma heat_split x i : mult F (fun k => exp (- (tau * e k))) x i = exp (- (tau * d)) * mult F (fun k => exp (tau * (d - e k))) x i.
  Proof.
    transitivity (exp (- (tau * d)) * mult F (fun k => exp (tau * (d - e k))) x i + 0 * mult F (fun _ => 0) x i); [|ring].
    rewrite <- mult_lin_h. apply mult_ext; [|intros a Ha; reflexivity]. intros k Hk. rewrite <- exp_plus, Rmult_0_l, Rplus_0_r. f_equal. ring.
  Qed.

  (** Each term of the series is a lower bound. *)
  Lemma heat_ge_term x i k : (forall j, (j < n)%nat -> 0 <= x j) -> (i < n)%nat ->
    exp (- (tau * d)) * (tau ^ k / INR (fact k) * powM k x i) <= mult F (fun k => exp (- (tau * e k))) x i.
  Proof.
    intros Hx Hi. rewrite heat_split. apply Rmult_le_compat_l; [apply Rlt_le, exp_pos|].
    apply (cv_ge _ _ _ k (fun m Hm => rsum_ge_term (S m) (fun j => tau ^ j / INR (fact j) * powM j x i) k
      (fun j _ => Rmult_le_pos _ _ (Rmult_le_pos _ _ (pow_le tau j Htau) (Rlt_le _ _ (Rinv_0_lt_compat _ (INR_fact_lt_0 j)))) (powM_nonneg j x Hx i Hi)) ltac:(lia)) (series_cv x i Hi)).
  Qed.
  Lemma heat_nonneg x i : (forall j, (j < n)%nat -> 0 <= x j) -> (i < n)%nat -> 0 <= mult F (fun k => exp (- (tau * e k))) x i.
  Proof.
    intros Hx Hi. eapply Rle_trans; [|apply (heat_ge_term x i 0 Hx Hi)]. cbn [pow powM fact]. apply Rmult_le_pos; [apply Rlt_le, exp_pos|].
    apply Rmult_le_pos; [|apply Hx; exact Hi]. change (INR 1) with 1. lra.
  Qed.

  Lemma M_positive i j : (i < n)%nat -> (j < n)%nat -> i <> j -> v_L F i j <> 0 -> 0 < M i j.
  Proof.
    intros Hi Hj Hne HLij. unfold M. destruct (Nat.eqb_spec i j); [contradiction|]. destruct HL as (_ & _ & Ho). specialize (Ho i j Hi Hj Hne). lra.
  Qed.
  Lemma walk_positive x i j : (forall a, (a < n)%nat -> 0 <= x a) -> reach (lap_edge n (v_L F)) i j -> (i < n)%nat -> 0 < x i -> exists k, 0 < powM k x j.
  Proof.
    intros Hx H Hi Hxi. induction H as [u|u v w Hr IH He]; [exists 0%nat; exact Hxi|].
    destruct (IH Hi Hxi) as (k & Hk). exists (S k). cbn [powM]. unfold mulv. destruct He as (Hv & Hw & Hne & HLvw).
    assert (HLwv : v_L F w v <> 0) by (destruct HL as (Hs & _); rewrite (Hs w v Hw Hv); exact HLvw).
    apply (rsum_pos n (fun j => M w j * powM k x j) v); [|exact Hv|].
    - intros a Ha. apply Rmult_le_pos; [apply M_nonneg; assumption|apply powM_nonneg; assumption].
    - apply Rmult_lt_0_compat; [|exact Hk]. apply M_positive; auto.
  Qed.
End Positivity.

(** ** The filters of the heat bank *)

Lemma normsq_eq n (x y : vec) : (forall i, (i < n)%nat -> x i = y i) -> normsq n x = normsq n y.
Proof. intros H. unfold normsq. apply dot_ext; exact H. Qed.
Lemma quad_eq n A (x y : vec) : (forall i, (i < n)%nat -> x i = y i) -> quad n A x = quad n A y.
Proof. intros H. unfold quad. apply dot_ext; [exact H|]. intros i Hi. apply mulv_ext; [intros; reflexivity|exact H]. Qed.

Lemma spectral_nonneg G lmax e U : built G -> nonneg_weights G -> g_lap_type G = Combinatorial ->
  spectral (mkview (g_n_vertices G) (gL G) lmax e U) -> forall k, (k < g_n_vertices G)%nat -> 0 <= nth k e 0.
Proof.
  intros Hb Hp Ht (_ & HU) k Hk. cbn [v_N v_L v_e v_U] in HU. pose proof (graph_is_laplacian G Hb Hp Ht) as HL.
  pose proof (eigh_eigenpair _ _ _ _ HU k Hk) as Hpair. apply (eigenvalue_ge_quad _ _ _ _ 0 Hpair).
  rewrite Rmult_0_l. apply (lap_psd _ _ HL).
Qed.

Lemma heat_out G lmax e U scale x out f n : built G -> nonneg_weights G -> g_lap_type G = Combinatorial -> 0 < lmax ->
  let F := mkview (g_n_vertices G) (gL G) lmax e U in
  spectral F -> gfilter F (Heat F scale false) Exact (vec_arr (g_n_vertices G) x) = Ok out ->
  (f < List.length (pvals scale))%nat -> 0 <= nth f (pvals scale) 0 -> (n < g_n_vertices G)%nat ->
  ans F (List.length (pvals scale)) out f n = mult F (fun k => exp (- (nth f (pvals scale) 0 / lmax * nth k e 0))) x n.
Proof.
  intros Hb Hp Ht Hl F HF E Hf Hs Hn.
  assert (EK : Heat F scale false = map pw (map (fun s t => heat_fun lmax s t / 1) (pvals scale))) by (unfold Heat; rewrite map_map; reflexivity).
  rewrite EK in E. pose proof (response_pw F (map (fun s t => heat_fun lmax s t / 1) (pvals scale)) HF) as R.
  pose proof (ans_of F _ _ _ x out HF R E f n Hn) as A. rewrite !map_length in A. rewrite (A Hf). apply mult_ext; [|intros j Hj; reflexivity].
  intros k Hk. rewrite (nth_indep _ _ ((fun s t => heat_fun lmax s t / 1) 0)) by (rewrite map_length; exact Hf).
  rewrite (map_nth (fun s t => heat_fun lmax s t / 1)). cbn [v_e F]. rewrite heat_exp; [|exact Hl|exact Hs|apply (spectral_nonneg G lmax e U Hb Hp Ht HF k Hk)].
  unfold Rdiv at 1. rewrite Rinv_1, Rmult_1_r. f_equal. field. lra.
Qed.

Lemma heat_total G lmax e U scale x : spectral (mkview (g_n_vertices G) (gL G) lmax e U) ->
  exists out, gfilter (mkview (g_n_vertices G) (gL G) lmax e U) (Heat (mkview (g_n_vertices G) (gL G) lmax e U) scale false) Exact (vec_arr (g_n_vertices G) x) = Ok out.
Proof.
  intros HF. set (F := mkview (g_n_vertices G) (gL G) lmax e U) in *.
  assert (EK : Heat F scale false = map pw (map (fun s t => heat_fun lmax s t / 1) (pvals scale))) by (unfold Heat; rewrite map_map; reflexivity).
  rewrite EK. destruct (one_signal F _ _ _ x HF (response_pw F (map (fun s t => heat_fun lmax s t / 1) (pvals scale)) HF)) as (out & E & _). exists out. exact E.
Qed.

Lemma heat_const F tau c i : spectral F -> is_laplacian (v_N F) (v_L F) -> (i < v_N F)%nat -> mult F (fun k => exp (- (tau * nth k (v_e F) 0))) (fun _ => c) i = c.
Proof.
  intros HF HL Hi. destruct (Req_dec c 0) as [->|Hc].
  - unfold mult, fhat. apply rsum_0. intros k Hk. rewrite (rsum_0 _ (fun i => v_U F i k * 0)); [ring|]. intros; ring.
  - assert (P : eigenpair (v_N F) (v_L F) 0 (fun _ => c)).
    { split; [intros Z; apply Hc; exact (Z i Hi)|]. intros j Hj. rewrite (lap_apply _ _ _ j HL Hj). rewrite Rmult_0_l. apply rsum_0. intros; ring. }
    rewrite (mult_eigenpair F HF (fun t => exp (- (tau * t))) 0 _ i P Hi). rewrite Rmult_0_r, Ropp_0, exp_0. ring.
Qed.

Lemma scale_nonneg s lmax : 0 < lmax -> 0 <= s -> 0 <= s / lmax.
Proof. intros Hl Hs. apply div_nonneg; assumption. Qed.

(** ** Theorems *)

(** Diffusion conserves the total mass, and never leaves the range of the initial signal (maximum principle): it only averages. *)
Theorem C86_heat_averages :
  forall G lmax e U scale x, built G -> nonneg_weights G -> g_lap_type G = Combinatorial -> 0 < lmax ->
    let F := mkview (g_n_vertices G) (gL G) lmax e U in spectral F ->
    exists out, gfilter F (Heat F scale false) Exact (vec_arr (g_n_vertices G) x) = Ok out /\
      forall f, (f < List.length (pvals scale))%nat -> 0 <= nth f (pvals scale) 0 ->
        \sum_(n < g_n_vertices G) ans F (List.length (pvals scale)) out f n = \sum_(n < g_n_vertices G) x n /\
        forall lo hi, (forall i, (i < g_n_vertices G)%nat -> lo <= x i <= hi) ->
          forall n, (n < g_n_vertices G)%nat -> lo <= ans F (List.length (pvals scale)) out f n <= hi.
Proof.
  intros G lmax e U scale x Hb Hp Ht Hl F HF. destruct (heat_total G lmax e U scale x HF) as (out & E). fold F in E. exists out. split; [exact E|].
  intros f Hf Hs. pose proof (graph_is_laplacian G Hb Hp Ht) as HL. set (tau := nth f (pvals scale) 0 / lmax).
  assert (Htau : 0 <= tau) by (apply scale_nonneg; assumption).
  assert (A : forall n, (n < g_n_vertices G)%nat -> ans F (List.length (pvals scale)) out f n = mult F (fun k => exp (- (tau * nth k e 0))) x n)
    by (intros n Hn; apply (heat_out G lmax e U scale x out f n); assumption).
  assert (C : forall c i, (i < g_n_vertices G)%nat -> mult F (fun k => exp (- (tau * nth k e 0))) (fun _ => c) i = c) by (intros c i Hi; apply (heat_const F tau c i HF HL Hi)).
  split.
  - rewrite (rsum_ext _ _ (fun n => mult F (fun k => exp (- (tau * nth k e 0))) x n * 1)) by (intros n Hn; rewrite A by exact Hn; ring).
    refine (eq_trans (mult_adj F HF (fun k => exp (- (tau * nth k e 0))) x (fun _ => 1)) _). unfold dot. apply rsum_ext. intros i Hi. rewrite C by exact Hi. ring.
  - intros lo hi Hx n Hn. rewrite A by exact Hn. split.
    + assert (P : 0 <= mult F (fun k => exp (- (tau * nth k e 0))) (fun i => 1 * x i + -1 * lo) n).
      { apply (heat_nonneg F HF HL tau Htau); [|exact Hn]. intros j Hj. specialize (Hx j Hj). lra. }
      rewrite (mult_lin_x F _ 1 (-1) x (fun _ => lo)), C in P by exact Hn. lra.
    + assert (P : 0 <= mult F (fun k => exp (- (tau * nth k e 0))) (fun i => 1 * hi + -1 * x i) n).
      { apply (heat_nonneg F HF HL tau Htau); [|exact Hn]. intros j Hj. specialize (Hx j Hj). lra. }
      rewrite (mult_lin_x F _ 1 (-1) (fun _ => hi) x), C in P by exact Hn. lra.
Qed.

(** On a connected graph heat reaches every vertex at once: however far the sources are, and however small the scale. *)
Theorem C86_heat_reaches_every_vertex :
  forall G lmax e U scale x i, built G -> nonneg_weights G -> g_lap_type G = Combinatorial -> 0 < lmax -> connected G ->
    let F := mkview (g_n_vertices G) (gL G) lmax e U in spectral F ->
    (forall j, (j < g_n_vertices G)%nat -> 0 <= x j) -> (i < g_n_vertices G)%nat -> 0 < x i ->
    exists out, gfilter F (Heat F scale false) Exact (vec_arr (g_n_vertices G) x) = Ok out /\
      forall f n, (f < List.length (pvals scale))%nat -> 0 < nth f (pvals scale) 0 -> (n < g_n_vertices G)%nat ->
        0 < ans F (List.length (pvals scale)) out f n.
Proof.
  intros G lmax e U scale x i Hb Hp Ht Hl HC F HF Hx Hi Hxi. destruct (heat_total G lmax e U scale x HF) as (out & E). fold F in E. exists out. split; [exact E|].
  intros f n Hf Hs Hn. pose proof (graph_is_laplacian G Hb Hp Ht) as HL. pose proof (connected_lap G Hb Hp Ht HC i n Hi Hn) as Hr.
  pose proof (heat_out G lmax e U scale x out f n Hb Hp Ht Hl HF E Hf (Rlt_le _ _ Hs) Hn) as A. cbn zeta in A. fold F in A. rewrite A. set (tau := nth f (pvals scale) 0 / lmax).
  assert (Htau : 0 < tau) by (apply Rdiv_lt_0_compat; assumption).
  destruct (walk_positive F HL x i n Hx Hr Hi Hxi) as (k & Hk).
  eapply Rlt_le_trans; [|apply (heat_ge_term F HF HL tau (Rlt_le _ _ Htau) x n k Hx Hn)].
  apply Rmult_lt_0_compat; [apply exp_pos|]. apply Rmult_lt_0_compat; [|exact Hk]. apply Rdiv_lt_0_compat; [apply pow_lt; exact Htau|apply INR_fact_lt_0].
Qed.

(** The energy of the signal, and its variations over the edges, never increase. *)
Theorem C86_heat_smooths :
  forall G lmax e U scale x, built G -> nonneg_weights G -> g_lap_type G = Combinatorial -> 0 < lmax ->
    let F := mkview (g_n_vertices G) (gL G) lmax e U in spectral F ->
    exists out, gfilter F (Heat F scale false) Exact (vec_arr (g_n_vertices G) x) = Ok out /\
      forall f, (f < List.length (pvals scale))%nat -> 0 <= nth f (pvals scale) 0 ->
        normsq (g_n_vertices G) (ans F (List.length (pvals scale)) out f) <= normsq (g_n_vertices G) x /\
        quad (g_n_vertices G) (gL G) (ans F (List.length (pvals scale)) out f) <= quad (g_n_vertices G) (gL G) x.
Proof.
  intros G lmax e U scale x Hb Hp Ht Hl F HF. destruct (heat_total G lmax e U scale x HF) as (out & E). fold F in E. exists out. split; [exact E|].
  intros f Hf Hs. set (tau := nth f (pvals scale) 0 / lmax).
  assert (Htau : 0 <= tau) by (apply scale_nonneg; assumption).
  assert (A : forall n, (n < g_n_vertices G)%nat -> ans F (List.length (pvals scale)) out f n = mult F (fun k => exp (- (tau * nth k e 0))) x n)
    by (intros n Hn; apply (heat_out G lmax e U scale x out f n); assumption).
  pose proof (spectral_nonneg G lmax e U Hb Hp Ht HF) as He.
  assert (Hh : forall k, (k < g_n_vertices G)%nat -> exp (- (tau * nth k e 0)) * exp (- (tau * nth k e 0)) <= 1).
  { intros k Hk. specialize (He k Hk). pose proof (Rmult_le_pos _ _ Htau He). pose proof (exp_pos (- (tau * nth k e 0))).
    assert (exp (- (tau * nth k e 0)) <= 1) by (rewrite <- exp_0; destruct (Req_dec (tau * nth k e 0) 0) as [->|Hne]; [rewrite Ropp_0; lra|apply Rlt_le, exp_increasing; lra]). nra. }
  split.
  - rewrite (normsq_eq _ _ _ A). change (g_n_vertices G) with (v_N F). rewrite (mult_normsq F HF), <- (fhat_normsq F HF). apply rsum_le. intros k Hk. specialize (Hh k Hk).
    pose proof (Rle_0_sqr (fhat F x k)) as Hq. unfold Rsqr in Hq. nra.
  - rewrite (quad_eq _ _ _ _ A).
    destruct HF as (Hlen & HU). pose proof (eigh_quad _ _ _ _ HU) as Q. cbn [v_N v_L v_e v_U F] in Q. rewrite !Q. apply rsum_le. intros k Hk.
    pose proof (fhat_mult F (conj Hlen HU) (fun k => exp (- (tau * nth k e 0))) x k Hk) as Ef. cbn beta in Ef.
    change (coef (g_n_vertices G) U (mult F (fun k => exp (- (tau * nth k e 0))) x) k) with (fhat F (mult F (fun k => exp (- (tau * nth k e 0))) x) k).
    change (coef (g_n_vertices G) U x k) with (fhat F x k). rewrite Ef. specialize (Hh k Hk). specialize (He k Hk).
    pose proof (Rle_0_sqr (fhat F x k)) as Hq. unfold Rsqr in Hq.
    pose proof (Rmult_le_pos _ _ He Hq) as Hz. nra.
Qed.

(** ** Convergence to the mean *)

Definition mean (n : nat) (x : vec) : R := (\sum_(i < n) x i) / INR n.

(** On a connected graph the first eigenvalue is zero, the second is positive, and removing the mean removes the first coefficient. *)
Lemma spectral_gap G lmax e U : built G -> nonneg_weights G -> g_lap_type G = Combinatorial -> connected G -> (1 < g_n_vertices G)%nat ->
  let F := mkview (g_n_vertices G) (gL G) lmax e U in spectral F ->
  nth 0 e 0 = 0 /\ 0 < nth 1 e 0 /\ (forall k, (1 <= k)%nat -> (k < g_n_vertices G)%nat -> nth 1 e 0 <= nth k e 0) /\
  forall x, fhat F (fun i => 1 * x i + -1 * mean (g_n_vertices G) x) 0%nat = 0.
Proof.
  intros Hb Hp Ht HC HN F HF. pose proof (graph_is_laplacian G Hb Hp Ht) as HL. pose proof (connected_lap G Hb Hp Ht HC) as HCL.
  pose proof (spectral_nonneg G lmax e U Hb Hp Ht HF) as He.
  pose proof HF as (Hlen & HU). cbn [v_N v_L v_e v_U F] in HU, Hlen.
  (* an eigenvector of a zero eigenvalue is constant *)
  assert (K : forall k, (k < g_n_vertices G)%nat -> nth k e 0 = 0 -> forall i j, (i < g_n_vertices G)%nat -> (j < g_n_vertices G)%nat -> U i k = U j k).
  { intros k Hk Z. apply (lap_kernel _ _ _ HL HCL). intros i Hi. destruct (eigh_eigenpair _ _ _ _ HU k Hk) as (_ & Hek). rewrite Hek by exact Hi. cbn beta. rewrite Z. ring. }
  assert (K0 : nth 0 e 0 = 0).
  { assert (P : eigenpair (g_n_vertices G) (gL G) 0 (fun _ => 1)).
    { split; [intros Z; specialize (Z 0%nat ltac:(lia)); lra|]. intros j Hj. rewrite (lap_apply _ _ _ j HL Hj). rewrite Rmult_0_l. apply rsum_0. intros; ring. }
    pose proof (eigh_first_le _ _ _ _ HU (fun _ => 1) 0 ltac:(lia) P) as H0. cbn beta in H0. specialize (He 0%nat ltac:(lia)). lra. }
  split; [exact K0|]. split; [|split].
  - destruct (Req_dec (nth 1 e 0) 0) as [Z|Hne]; [|specialize (He 1%nat ltac:(lia)); lra]. exfalso.
    pose proof (K 0%nat ltac:(lia) K0) as C0. pose proof (K 1%nat HN Z) as C1.
    pose proof (eigh_cols _ _ _ _ HU) as O. pose proof (O 0%nat 1%nat ltac:(lia) HN) as O01. pose proof (O 0%nat 0%nat ltac:(lia) ltac:(lia)) as O00. pose proof (O 1%nat 1%nat HN HN) as O11.
    cbn [Nat.eqb] in O01, O00, O11. unfold dot in O01, O00, O11.
    rewrite (rsum_ext _ _ (fun _ => U 0%nat 0%nat * U 0%nat 1%nat)) in O01 by (intros i Hi; rewrite (C0 i 0%nat), (C1 i 0%nat) by lia; reflexivity).
    rewrite (rsum_ext _ _ (fun _ => U 0%nat 0%nat * U 0%nat 0%nat)) in O00 by (intros i Hi; rewrite (C0 i 0%nat) by lia; reflexivity).
    rewrite (rsum_ext _ _ (fun _ => U 0%nat 1%nat * U 0%nat 1%nat)) in O11 by (intros i Hi; rewrite (C1 i 0%nat) by lia; reflexivity).
    rewrite rsum_const in O01, O00, O11. nra.
  - intros k Hk Hk'. exact (eigh_sort _ _ _ _ HU 1%nat k Hk Hk').
  - intros x. unfold fhat. cbn [v_N v_U F]. rewrite (rsum_ext _ _ (fun i => U 0%nat 0%nat * (1 * x i + -1 * mean (g_n_vertices G) x))).
    + rewrite rsum_scal_l. rewrite rsum_plus, !rsum_scal_l, rsum_const. unfold mean. change (fun i => x i) with x. field. apply not_0_INR. lia.
    + intros i Hi. rewrite (K 0%nat ltac:(lia) K0 i 0%nat) by lia. reflexivity.
Qed.

(** Filters that shrink every coefficient but the first by c bring the signal closer to its mean by the factor c. *)
Lemma gap_shrinks G lmax e U h c x : built G -> nonneg_weights G -> g_lap_type G = Combinatorial -> connected G -> (1 < g_n_vertices G)%nat ->
  let F := mkview (g_n_vertices G) (gL G) lmax e U in spectral F -> (forall t, 0 <= t -> 0 <= h t) -> h 0 = 1 ->
  (forall k, (1 <= k)%nat -> (k < g_n_vertices G)%nat -> h (nth k e 0) <= c) ->
  normsq (g_n_vertices G) (fun n => mult F (fun k => h (nth k e 0)) x n - mean (g_n_vertices G) x) <= c ^ 2 * normsq (g_n_vertices G) (fun n => x n - mean (g_n_vertices G) x).
Proof.
  intros Hb Hp Ht HC HN F HF Hpos H0 Hc. destruct (spectral_gap G lmax e U Hb Hp Ht HC HN HF) as (_ & _ & _ & Y0). fold F in Y0.
  pose proof (graph_is_laplacian G Hb Hp Ht) as HL. pose proof (spectral_nonneg G lmax e U Hb Hp Ht HF) as He.
  set (mu := mean (g_n_vertices G) x). set (y := fun i => 1 * x i + -1 * mu).
  rewrite (normsq_eq _ _ (mult F (fun k => h (nth k e 0)) y)).
  2:{ intros n Hn. unfold y. rewrite (mult_lin_x F _ 1 (-1) x (fun _ => mu)).
      assert (C : mult F (fun k => h (nth k e 0)) (fun _ => mu) n = mu); [|rewrite C; ring].
      destruct (Req_dec mu 0) as [->|Hmu]; [unfold mult, fhat; apply rsum_0; intros k Hk; rewrite (rsum_0 _ (fun i => v_U F i k * 0)) by (intros; ring); ring|].
      assert (P : eigenpair (v_N F) (v_L F) 0 (fun _ => mu)).
      { split; [intros Z; apply Hmu; exact (Z n Hn)|]. intros j Hj. rewrite (lap_apply _ _ _ j HL Hj). rewrite Rmult_0_l. apply rsum_0. intros; ring. }
      pose proof (mult_eigenpair F HF h 0 _ n P Hn) as Q. cbn [v_e F] in Q. rewrite Q, H0. ring. }
  rewrite (normsq_eq _ (fun n => x n - mu) y) by (intros n Hn; unfold y; ring).
  change (g_n_vertices G) with (v_N F). rewrite (mult_normsq F HF), <- (fhat_normsq F HF), <- rsum_scal_l. apply rsum_le. intros k Hk.
  specialize (Y0 x). fold mu y in Y0. destruct k as [|k]; [rewrite Y0; lra|].
  pose proof (Hc (S k) ltac:(lia) Hk) as Hm. pose proof (Hpos _ (He (S k) Hk)) as Hh. pose proof (Rle_0_sqr (fhat F y (S k))) as Hq. unfold Rsqr in Hq.
  apply Rmult_le_compat_r; [exact Hq|]. cbn [pow]. nra.
Qed.

(** On a connected graph the second smallest eigenvalue e_1 is positive, and the distance of the diffused signal to the mean
    of the initial signal decays like exp(-scale e_1 / lmax). *)
Theorem C86_heat_decays_to_the_mean :
  forall G lmax e U scale x, built G -> nonneg_weights G -> g_lap_type G = Combinatorial -> 0 < lmax -> connected G -> (1 < g_n_vertices G)%nat ->
    let F := mkview (g_n_vertices G) (gL G) lmax e U in spectral F ->
    0 < nth 1 e 0 /\
    exists out, gfilter F (Heat F scale false) Exact (vec_arr (g_n_vertices G) x) = Ok out /\
      forall f, (f < List.length (pvals scale))%nat -> 0 <= nth f (pvals scale) 0 ->
        normsq (g_n_vertices G) (fun n => ans F (List.length (pvals scale)) out f n - mean (g_n_vertices G) x) <=
          (exp (- (nth f (pvals scale) 0 / lmax * nth 1 e 0))) ^ 2 * normsq (g_n_vertices G) (fun n => x n - mean (g_n_vertices G) x).
Proof.
  intros G lmax e U scale x Hb Hp Ht Hl HC HN F HF. destruct (spectral_gap G lmax e U Hb Hp Ht HC HN HF) as (_ & E1 & Hsort & _).
  split; [exact E1|]. destruct (heat_total G lmax e U scale x HF) as (out & E). fold F in E. exists out. split; [exact E|].
  intros f Hf Hs. set (tau := nth f (pvals scale) 0 / lmax). assert (Htau : 0 <= tau) by (apply scale_nonneg; assumption).
  rewrite (normsq_eq _ _ (fun n => mult F (fun k => exp (- (tau * nth k e 0))) x n - mean (g_n_vertices G) x))
    by (intros n Hn; f_equal; apply (heat_out G lmax e U scale x out f n); assumption).
  apply (gap_shrinks G lmax e U (fun t => exp (- (tau * t)))); try assumption.
  - intros t _. apply Rlt_le, exp_pos.
  - rewrite Rmult_0_r, Ropp_0. apply exp_0.
  - intros k H1 Hk. specialize (Hsort k H1 Hk).
    destruct (Req_dec (tau * nth k e 0) (tau * nth 1 e 0)) as [->|Hne]; [lra|]. apply Rlt_le, exp_increasing. pose proof (Rmult_le_compat_l tau _ _ Htau Hsort). lra.
Qed.

(** In the limit of large scales only the mean is left: after a long enough time the signal is as flat as one wants. *)
Theorem C86_heat_flattens :
  forall G lmax e U x eps, built G -> nonneg_weights G -> g_lap_type G = Combinatorial -> 0 < lmax -> connected G -> (1 < g_n_vertices G)%nat ->
    let F := mkview (g_n_vertices G) (gL G) lmax e U in spectral F -> 0 < eps ->
    exists s0, forall s, s0 <= s -> exists out, gfilter F (Heat F (Scalar s) false) Exact (vec_arr (g_n_vertices G) x) = Ok out /\
      forall n, (n < g_n_vertices G)%nat -> Rabs (ans F 1 out 0 n - mean (g_n_vertices G) x) <= eps.
Proof.
  intros G lmax e U x eps Hb Hp Ht Hl HC HN F HF Heps.
  destruct (C86_heat_decays_to_the_mean G lmax e U (Scalar 0) x Hb Hp Ht Hl HC HN HF) as (E1 & _).
  set (Q := normsq (g_n_vertices G) (fun n => x n - mean (g_n_vertices G) x)).
  assert (HQ : 0 <= Q) by apply normsq_nonneg. set (r := nth 1 e 0 / lmax). assert (Hr : 0 < r) by (apply Rdiv_lt_0_compat; assumption).
  set (c := sqrt Q / eps + 1). assert (Hc : 1 <= c).
  { unfold c. assert (0 <= sqrt Q / eps) by (apply div_nonneg; [apply sqrt_pos|exact Heps]). lra. }
  exists (ln c / r). intros s Hs.
  assert (Hs0 : 0 <= s).
  { apply Rle_trans with (ln c / r); [|exact Hs]. apply div_nonneg; [|exact Hr]. destruct (Req_dec c 1) as [->|Hne]; [rewrite ln_1; lra|].
    rewrite <- ln_1. apply Rlt_le, ln_increasing; lra. }
  destruct (C86_heat_decays_to_the_mean G lmax e U (Scalar s) x Hb Hp Ht Hl HC HN HF) as (_ & out & E & D). exists out. split; [exact E|]. intros n Hn.
  specialize (D 0%nat ltac:(cbn; lia) ltac:(cbn; lra)). cbn [pvals nth List.length] in D. fold Q F in D.
  set (a := fun n => ans F 1 out 0 n - mean (g_n_vertices G) x) in *.
  assert (T : a n * a n <= normsq (g_n_vertices G) a).
  { unfold normsq, dot. apply (rsum_ge_term (g_n_vertices G) (fun i => a i * a i) n); [intros k Hk; apply Rle_0_sqr|exact Hn]. }
  assert (X : exp (- (s / lmax * nth 1 e 0)) <= / c).
  { replace (/ c) with (exp (- ln c)) by (rewrite exp_Ropp, exp_ln by lra; reflexivity).
    assert (L : ln c <= s / lmax * nth 1 e 0).
    { replace (s / lmax * nth 1 e 0) with (s * r) by (unfold r; field; lra). replace (ln c) with (ln c / r * r) by (field; lra). apply Rmult_le_compat_r; lra. }
    destruct (Req_dec (ln c) (s / lmax * nth 1 e 0)) as [->|Hne]; [lra|]. apply Rlt_le, exp_increasing. lra. }
  pose proof (exp_pos (- (s / lmax * nth 1 e 0))) as Xp. set (h := exp (- (s / lmax * nth 1 e 0))) in *.
  change (Rabs (a n) <= eps).
  assert (S1 : sqrt Q * sqrt Q = Q) by (apply sqrt_sqrt; exact HQ).
  assert (S2 : h * sqrt Q <= eps).
  { apply Rle_trans with (/ c * sqrt Q); [apply Rmult_le_compat_r; [apply sqrt_pos|exact X]|].
    apply Rmult_le_reg_l with c; [lra|]. rewrite <- Rmult_assoc, Rinv_r, Rmult_1_l by lra. unfold c. replace ((sqrt Q / eps + 1) * eps) with (sqrt Q + eps) by (field; lra). lra. }
  pose proof (sqrt_pos Q) as S0. pose proof (Rmult_le_pos h (sqrt Q) (Rlt_le _ _ Xp) S0) as S3.
  assert (S4 : a n * a n <= eps * eps).
  { apply Rle_trans with (h * sqrt Q * (h * sqrt Q)); [|apply Rmult_le_compat; assumption]. replace (h * sqrt Q * (h * sqrt Q)) with (h ^ 2 * (sqrt Q * sqrt Q)) by ring. rewrite S1. lra. }
  apply Rabs_le. split; apply Rnot_lt_le; intros Hlt; nra.
Qed.

(** The hypotheses are met by every connected graph with non-negative weights; the numbers for two joined vertices. *)
Example C86_ex : exists G e U, built G /\ nonneg_weights G /\ g_lap_type G = Combinatorial /\ connected G /\ (1 < g_n_vertices G)%nat /\
  spectral (mkview (g_n_vertices G) (gL G) 2 e U) /\ nth 1 e 0 = 2.
Proof.
  destruct (finite_entry_built 2 [0; 1; 1; 0] Combinatorial None eq_refl (or_introl eq_refl)) as (G & _ & Hb & Hn & Ht & _ & Hw).
  destruct (k2_lap G Hb Hn Hw) as (Hp & _ & L00 & L11 & L01 & L10).
  exists G, [0; 2], k2U. split; [exact Hb|]. split; [exact Hp|]. split; [exact Ht|]. split; [apply (k2_connected G Hb Hn Hw)|]. rewrite Hn.
  split; [lia|]. split; [|reflexivity]. split; [reflexivity|]. cbn [v_N v_L v_e v_U].
  apply (eigh_ok_ext 2 (gL G) _ k2U k2e k2U); [|reflexivity|apply k2_eigh; assumption]. intros i Hi. destruct i as [|[|i]]; try lia; reflexivity.
Qed.
