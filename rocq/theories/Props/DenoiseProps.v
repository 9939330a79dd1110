(** Property C87: Tikhonov regression as a denoiser. *)
From Coq Require Import Reals Lra Lia List Arith Bool.
From Coq Require Import List.
From Verif.Base Require Import RSum Prelude LinAlg Solve.
From Verif.Spec Require Import Matrix NdArray GraphSpec FilterSpec Reach LapSpec LearnSpec.
From Verif.Model Require Import Sparse Graph Traverse Cache Filter Utils Learning.
From Verif.Proofs Require Import InitFacts SpectralFacts SpectrumFacts FilterFacts MaxPrinciple TikhonovFacts.
From Verif.Props Require Import Core Laplacian Traversal Caching Filtering Banks UtilsProps SpectrumProps ReductionProps LearningProps HeatProps.
Import ListNotations.
Open Scope R_scope.

Lemma eig_nonneg G lmax e U : built G -> nonneg_weights G ->
  spectral (mkview (g_n_vertices G) (gL G) lmax e U) -> forall k, (k < g_n_vertices G)%nat -> 0 <= nth k e 0.
Proof.
  intros Hb Hp (_ & HU) k Hk. cbn [v_N v_L v_e v_U] in HU. destruct (energy_profile G Hb Hp) as (p & _ & Q).
  pose proof (eigh_eigenpair _ _ _ _ HU k Hk) as Hpair. apply (eigenvalue_ge_quad _ _ _ _ 0 Hpair).
  rewrite Rmult_0_l, Q. apply Rmult_le_pos; [|lra]. apply rsum_nonneg. intros i Hi. apply rsum_nonneg. intros j Hj.
  apply Rmult_le_pos; [apply Hp; assumption|apply Rle_0_sqr].
Qed.

(** What the solver finds when every vertex is labelled. *)
Lemma full_mask_solution G lmax e U M tau y x : built G -> nonneg_weights G -> 0 < tau ->
  let F := mkview (g_n_vertices G) (gL G) lmax e U in spectral F ->
  (forall i, (i < g_n_vertices G)%nat -> labelled M i) -> cg_ok G M tau y x ->
  forall i, (i < g_n_vertices G)%nat -> x i = mult F (fun k => 1 / (1 + tau * nth k e 0)) y i.
Proof.
  intros Hb Hp Ht F HF HM Hx i Hi. pose proof (eig_nonneg G lmax e U Hb Hp HF) as He.
  rewrite <- (mult_1 F HF x i Hi).
  assert (Ey : forall k, (k < g_n_vertices G)%nat -> fhat F y k = (1 + tau * nth k e 0) * fhat F x k).
  { intros k Hk. destruct HF as (Hlen & HU). pose proof (coef_mulv _ _ _ _ HU x k Hk) as Ec. cbn [v_N v_L v_e v_U F] in Ec. cbn beta in Ec.
    unfold fhat. cbn [v_N v_U F]. rewrite (rsum_ext _ (fun i => U i k * y i) (fun i => U i k * x i + tau * (U i k * mulv (g_n_vertices G) (gL G) x i))).
    - rewrite rsum_plus, rsum_scal_l. unfold coef in Ec. rewrite Ec. ring.
    - intros j Hj. specialize (Hx j Hj). rewrite (HM j Hj) in Hx. rewrite <- Hx. ring. }
  unfold mult. apply rsum_ext. intros k Hk. rewrite (Ey k Hk). specialize (He k Hk). pose proof (Rmult_le_pos _ _ (Rlt_le _ _ Ht) He). field. lra.
Qed.

(** With every vertex labelled, regression_tikhonov is the filter with kernel 1 / (1 + tau x), for both types of Laplacian. *)
Theorem C87_denoising_is_a_low_pass_filter :
  forall G lmax e U b y c sig M tau sol, built G -> nonneg_weights G -> 0 < tau ->
    let F := mkview (g_n_vertices G) (gL G) lmax e U in spectral F ->
    columns (g_n_vertices G) y c sig -> List.length M = g_n_vertices G -> (forall i, (i < g_n_vertices G)%nat -> labelled M i) ->
    (forall j, (j < c)%nat -> cg_ok G M tau (sig j) (sol j)) ->
    exists x, regression_tikhonov G b y M tau sol = Ok x /\ shape x = shape y /\ exists xs, columns (g_n_vertices G) x c xs /\
      forall j, (j < c)%nat -> exists out, gfilter F [pw (fun t => 1 / (1 + tau * t))] Exact (vec_arr (g_n_vertices G) (sig j)) = Ok out /\
        forall n, (n < g_n_vertices G)%nat -> xs j n = ans F 1 out 0 n.
Proof.
  intros G lmax e U b y c sig M tau sol Hb Hp Ht F HF Hy HM Hall Hs.
  destruct (regression_pos G b y c sig M tau sol Hy HM Ht) as (x & E & Sx & xs & Hx & Ex).
  exists x. split; [exact E|]. split; [exact Sx|]. exists xs. split; [exact Hx|]. intros j Hj.
  destruct (one_signal F [pw (fun t => 1 / (1 + tau * t))] Exact _ (sig j) HF (response_pw F [fun t => 1 / (1 + tau * t)] HF)) as (out & Eo & _ & Ho).
  exists out. split; [exact Eo|]. intros n Hn. rewrite Ex by exact Hj. cbn [List.length] in Ho. rewrite (Ho 0%nat n Hn ltac:(lia)). cbn [nth].
  apply (full_mask_solution G lmax e U M tau (sig j) (sol j)); try assumption. apply Hs. exact Hj.
Qed.

(** Close to the measurements when tau is small, close to their mean when tau is large. *)
Theorem C87_small_and_large_tau :
  forall G lmax e U M tau y x, built G -> nonneg_weights G -> g_lap_type G = Combinatorial -> 0 < tau ->
    let F := mkview (g_n_vertices G) (gL G) lmax e U in spectral F ->
    (forall i, (i < g_n_vertices G)%nat -> labelled M i) -> cg_ok G M tau y x ->
    normsq (g_n_vertices G) (fun i => x i - y i) <= tau ^ 2 * normsq (g_n_vertices G) (mulv (g_n_vertices G) (gL G) y) /\
    (connected G -> (1 < g_n_vertices G)%nat -> 0 < nth 1 e 0 /\
      normsq (g_n_vertices G) (fun i => x i - mean (g_n_vertices G) y) <= (1 / (1 + tau * nth 1 e 0)) ^ 2 * normsq (g_n_vertices G) (fun i => y i - mean (g_n_vertices G) y)).
Proof.
  intros G lmax e U M tau y x Hb Hp Hlt Ht F HF Hall Hx. pose proof (full_mask_solution G lmax e U M tau y x Hb Hp Ht HF Hall Hx) as S. cbn zeta in S. fold F in S.
  pose proof (eig_nonneg G lmax e U Hb Hp HF) as He.
  assert (P : forall t, 0 <= t -> 0 < 1 + tau * t) by (intros t Ht0; pose proof (Rmult_le_pos _ _ (Rlt_le _ _ Ht) Ht0); lra).
  split.
  - rewrite (normsq_eq _ _ (mult F (fun k => 1 * (1 / (1 + tau * nth k e 0)) + -1 * 1) y)).
    2:{ intros i Hi. rewrite mult_lin_h, <- (S i Hi), (mult_1 F HF y i Hi). ring. }
    rewrite (normsq_eq _ (mulv (g_n_vertices G) (gL G) y) (mult F (fun k => nth k e 0) y)) by (intros i Hi; apply (mulv_is_mult F HF y i Hi)).
    change (g_n_vertices G) with (v_N F). rewrite !(mult_normsq F HF), <- rsum_scal_l. apply rsum_le. intros k Hk. specialize (He k Hk). specialize (P _ He).
    set (a := nth k e 0) in *. set (q := fhat F y k).
    replace ((1 * (1 / (1 + tau * a)) + -1 * 1) * (1 * (1 / (1 + tau * a)) + -1 * 1) * (q * q)) with ((/ (1 + tau * a)) ^ 2 * ((tau * a) ^ 2 * (q * q))) by (field; lra).
    replace (tau ^ 2 * (a * a * (q * q))) with (1 * ((tau * a) ^ 2 * (q * q))) by ring.
    apply Rmult_le_compat_r; [apply Rmult_le_pos; [apply pow2_ge_0|apply Rle_0_sqr]|].
    assert (0 < / (1 + tau * a) <= 1).
    { split; [apply Rinv_0_lt_compat; exact P|]. rewrite <- Rinv_1. apply Rinv_le_contravar; [lra|]. pose proof (Rmult_le_pos _ _ (Rlt_le _ _ Ht) He). lra. }
    cbn [pow]. nra.
  - intros HC HN. destruct (spectral_gap G lmax e U Hb Hp Hlt HC HN HF) as (_ & E1 & Hsort & _). split; [exact E1|].
    rewrite (normsq_eq _ _ (fun n => mult F (fun k => 1 / (1 + tau * nth k e 0)) y n - mean (g_n_vertices G) y)) by (intros n Hn; rewrite (S n Hn); reflexivity).
    apply (gap_shrinks G lmax e U (fun t => 1 / (1 + tau * t))); try assumption.
    + intros t Ht0. specialize (P t Ht0). apply Rlt_le, Rdiv_lt_0_compat; lra.
    + field.
    + intros k H1 Hk. specialize (Hsort k H1 Hk). unfold Rdiv. rewrite !Rmult_1_l. apply Rinv_le_contravar; [apply P; lra|].
      pose proof (Rmult_le_compat_l tau _ _ (Rlt_le _ _ Ht) Hsort). lra.
Qed.

(** The trade-off controlled by tau, with any mask: a larger tau gives a smoother signal and a larger error on the labels. *)
Theorem C87_tau_trades_fidelity_for_smoothness :
  forall G M tau tau' y x x', built G -> nonneg_weights G -> g_lap_type G = Combinatorial -> 0 < tau -> tau <= tau' ->
    cg_ok G M tau y x -> cg_ok G M tau' y x' ->
    quad (g_n_vertices G) (gL G) x' <= quad (g_n_vertices G) (gL G) x /\
    tik_cost (g_n_vertices G) (gL G) M 0 y x <= tik_cost (g_n_vertices G) (gL G) M 0 y x'.
Proof.
  intros G M tau tau' y x x' Hb Hp Hl Ht Hle Hx Hx'.
  assert (Opt : forall t v w, 0 < t -> cg_ok G M t y v -> tik_cost (g_n_vertices G) (gL G) M t y v <= tik_cost (g_n_vertices G) (gL G) M t y w).
  { intros t v w H0 Hv. pose proof (C39_inexact_solver G M t y v w Hb Hp Hl H0) as I. cbn zeta in I.
    rewrite (rsum_0 _ (fun i => (w i - v i) * _)) in I; [lra|]. intros i Hi. specialize (Hv i Hi). rewrite Hv. ring. }
  pose proof (Opt tau x x' Ht Hx) as A. pose proof (Opt tau' x' x ltac:(lra) Hx') as B. unfold tik_cost in *.
  set (f := \sum_(i < g_n_vertices G) (if nth i M false then (x i - y i) * (x i - y i) else 0)) in *.
  set (f' := \sum_(i < g_n_vertices G) (if nth i M false then (x' i - y i) * (x' i - y i) else 0)) in *.
  set (q := quad (g_n_vertices G) (gL G) x) in *. set (q' := quad (g_n_vertices G) (gL G) x') in *.
  destruct (Req_dec tau tau') as [<-|Hne].
  - (* same tau: both are minimisers, and the difference has no energy and vanishes on the labels *)
    pose proof (graph_is_laplacian G Hb Hp Hl) as HL. pose proof HL as (Hsym & _).
    set (n := g_n_vertices G) in *. set (d := fun i => x' i - x i).
    assert (D : forall i, (i < n)%nat -> mval M i * d i + tau * mulv n (gL G) d i = 0).
    { intros i Hi. pose proof (Hx i Hi) as X1. pose proof (Hx' i Hi) as X2. fold n in X1, X2. unfold d.
      assert (Em : mulv n (gL G) (fun i => x' i - x i) i = mulv n (gL G) x' i - mulv n (gL G) x i).
      { unfold mulv. rewrite <- rsum_minus. apply rsum_ext. intros; ring. }
      rewrite Em. unfold mval. destruct (nth i M false); lra. }
    assert (Z : \sum_(i < n) (mval M i * (d i * d i)) + tau * quad n (gL G) d = 0).
    { unfold quad, dot. rewrite <- rsum_scal_l, <- rsum_plus. apply rsum_0. intros i Hi. specialize (D i Hi).
      transitivity (d i * (mval M i * d i + tau * mulv n (gL G) d i)); [ring|rewrite D; ring]. }
    assert (Z1 : 0 <= \sum_(i < n) (mval M i * (d i * d i))).
    { apply rsum_nonneg. intros i Hi. apply Rmult_le_pos; [unfold mval; destruct (nth i M false); lra|apply Rle_0_sqr]. }
    pose proof (lap_psd _ _ HL d) as Z2. assert (Zq : quad n (gL G) d = 0) by nra. assert (Zm : \sum_(i < n) (mval M i * (d i * d i)) = 0) by nra.
    assert (Zi : forall i, (i < n)%nat -> nth i M false = true -> d i = 0).
    { intros i Hi Em. assert (T : mval M i * (d i * d i) <= 0).
      { rewrite <- Zm. apply (rsum_ge_term n (fun i => mval M i * (d i * d i)) i); [|exact Hi]. intros k Hk. apply Rmult_le_pos; [unfold mval; destruct (nth k M false); lra|apply Rle_0_sqr]. }
      unfold mval in T. rewrite Em in T. nra. }
    assert (F' : f' = f).
    { unfold f, f'. apply rsum_ext. intros i Hi. destruct (nth i M false) eqn:Em; [|reflexivity]. pose proof (Zi i Hi Em) as Q. unfold d in Q. replace (x' i) with (x i) by lra. reflexivity. }
    assert (q' <= q) by nra. split; [assumption|]. rewrite F'. lra.
  - assert (q' <= q) by nra. split; [assumption|]. nra.
Qed.

(** Comparison principle: larger measurements give a larger signal, everywhere. *)
Theorem C87_order_is_preserved :
  forall G M tau y y' x x', built G -> nonneg_weights G -> g_lap_type G = Combinatorial -> 0 < tau -> covered G M ->
    (forall i, (i < g_n_vertices G)%nat -> labelled M i -> y i <= y' i) -> cg_ok G M tau y x -> cg_ok G M tau y' x' ->
    forall i, (i < g_n_vertices G)%nat -> x i <= x' i.
Proof.
  intros G M tau y y' x x' Hb Hp Hl Ht HC Hy Hx Hx' i Hi.
  assert (Hd : cg_ok G M tau (fun i => y' i - y i) (fun i => x' i - x i)).
  { intros j Hj. pose proof (Hx j Hj) as X1. pose proof (Hx' j Hj) as X2.
    assert (Em : mulv (g_n_vertices G) (gL G) (fun i => x' i - x i) j = mulv (g_n_vertices G) (gL G) x' j - mulv (g_n_vertices G) (gL G) x j).
    { unfold mulv. rewrite <- rsum_minus. apply rsum_ext. intros; ring. }
    rewrite Em. destruct (nth j M false); lra. }
  destruct (C39_unique_and_in_range G M tau (fun i => y' i - y i) Hb Hp Hl Ht HC) as (_ & _ & R).
  destruct (R _ i Hd Hi) as (a & _ & Ha & _ & La & _ & B & _). specialize (Hy a Ha La). cbn beta in B. lra.
Qed.

(** Two joined vertices, measurements (1, 0), tau = 1: the answer is (2/3, 1/3). *)
Example C87_ex : exists G e U, built G /\ nonneg_weights G /\ g_lap_type G = Combinatorial /\ connected G /\ (1 < g_n_vertices G)%nat /\
  spectral (mkview (g_n_vertices G) (gL G) 2 e U) /\ covered G [true; true] /\ List.length [true; true] = g_n_vertices G /\
  (forall i, (i < g_n_vertices G)%nat -> labelled [true; true] i) /\
  cg_ok G [true; true] 1 (fun i => if Nat.eqb i 0 then 1 else 0) (fun i => if Nat.eqb i 0 then 2 / 3 else 1 / 3).
Proof.
  destruct (finite_entry_built 2 [0; 1; 1; 0] Combinatorial None eq_refl (or_introl eq_refl)) as (G & _ & Hb & Hn & Ht & _ & Hw).
  destruct (k2_lap G Hb Hn Hw) as (Hp & _ & L00 & L11 & L01 & L10).
  assert (La : forall i, (i < g_n_vertices G)%nat -> labelled [true; true] i).
  { intros i Hi. rewrite Hn in Hi. destruct i as [|[|i]]; [reflexivity|reflexivity|lia]. }
  exists G, [0; 2], k2U. split; [exact Hb|]. split; [exact Hp|]. split; [exact Ht|]. split; [apply (k2_connected G Hb Hn Hw)|].
  split; [lia|]. split.
  { rewrite Hn. split; [reflexivity|]. cbn [v_N v_L v_e v_U].
    apply (eigh_ok_ext 2 (gL G) _ k2U k2e k2U); [|reflexivity|apply k2_eigh; assumption]. intros i Hi. destruct i as [|[|i]]; try lia; reflexivity. }
  split; [intros v Hv; exists v; split; [exact Hv|]; split; [apply La; exact Hv|apply reach_refl]|]. split; [rewrite Hn; reflexivity|]. split; [exact La|].
  intros i Hi. rewrite Hn in *. unfold mulv. cbn [rsum]. destruct i as [|[|i]]; [| |lia]; cbn [nth Nat.eqb]; rewrite ?L00, ?L01, ?L10, ?L11; lra.
Qed.
