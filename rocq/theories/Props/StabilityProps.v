(** C93: filtering and the Fourier transform with an inexact eigenbasis, and on graphs whose weights are slightly different. *)
From Coq Require Import Reals Lra Lia List Arith Bool String.
From Coq Require Import List.
From Verif.Base Require Import RSum Prelude LinAlg Spectral.
From Verif.Spec Require Import Matrix NdArray GraphSpec FilterSpec CacheSpec StabSpec Rounding.
From Verif.Model Require Import Sparse Graph Bounds Cache Filter Kernels Rounded.
From Verif.Proofs Require Import SparseFacts InitFacts EdgeFacts LapFacts SpectralFacts FilterFacts.
From Verif.Props Require Import Core Laplacian Caching Filtering SpectrumProps TightProps RoundProps.
Import ListNotations.
Open Scope R_scope.
Open Scope list_scope.

(** ** Norms *)
Lemma norm2_nonneg n x : 0 <= norm2 n x.
Proof. apply sqrt_pos. Qed.
Lemma norm2_sq n x : norm2 n x * norm2 n x = normsq n x.
Proof. unfold norm2. apply sqrt_sqrt, normsq_nonneg. Qed.
Lemma sq_le a b : 0 <= b -> a * a <= b * b -> a <= b.
Proof. intros Hb H. apply Rnot_lt_le. intros L. assert (b * b < a * a) by (apply Rmult_le_0_lt_compat; lra). lra. Qed.
Lemma norm2_le n x c : 0 <= c -> normsq n x <= c * c -> norm2 n x <= c.
Proof. intros Hc H. apply sq_le; [exact Hc|]. rewrite norm2_sq. exact H. Qed.
Lemma norm2_ext n x y : (forall i, (i < n)%nat -> x i = y i) -> norm2 n x = norm2 n y.
Proof. intros H. unfold norm2. f_equal. apply dot_ext; exact H. Qed.
Lemma dot_le_norm n x y : dot n x y <= norm2 n x * norm2 n y.
Proof.
  apply sq_le; [apply Rmult_le_pos; apply norm2_nonneg|]. replace (norm2 n x * norm2 n y * (norm2 n x * norm2 n y)) with (normsq n x * normsq n y) by (rewrite <- !norm2_sq; ring).
  apply rsum_cauchy_schwarz.
Qed.
Lemma norm2_plus n x y : norm2 n (fun i => x i + y i) <= norm2 n x + norm2 n y.
Proof.
  pose proof (norm2_nonneg n x). pose proof (norm2_nonneg n y). apply norm2_le; [lra|].
  assert (E : normsq n (fun i => x i + y i) = normsq n x + 2 * dot n x y + normsq n y).
  { unfold normsq, dot. rewrite <- rsum_scal_l, <- !rsum_plus. apply rsum_ext. intros; ring. }
  rewrite E, <- !norm2_sq. pose proof (dot_le_norm n x y). lra.
Qed.
Lemma norm2_scal n c x : norm2 n (fun i => c * x i) = Rabs c * norm2 n x.
Proof.
  unfold norm2. rewrite <- (sqrt_Rsqr_abs c), <- sqrt_mult by (try apply Rle_0_sqr; apply normsq_nonneg). f_equal.
  unfold normsq, dot, Rsqr. rewrite <- rsum_scal_l. apply rsum_ext. intros; ring.
Qed.
Lemma fro_sq n A : fro n A * fro n A = \sum_(i < n) \sum_(j < n) (A i j * A i j).
Proof. apply sqrt_sqrt. apply rsum_nonneg. intros. apply rsum_nonneg. intros. apply Rle_0_sqr. Qed.
Lemma fro_nonneg n A : 0 <= fro n A.
Proof. apply sqrt_pos. Qed.

(** ** The two bounds *)
Section Inexact.
Variables (n : nat) (L : mat) (mu : vec) (V : mat) (e : vec) (U : mat) (K C delta lo hi : R) (g : R -> R).
Hypothesis HV : eigh_ok n L mu V.
Hypothesis He : forall k, (k < n)%nat -> lo <= e k <= hi.
Hypothesis Hmu : forall k, (k < n)%nat -> lo <= mu k <= hi.
Hypothesis Hg : lipschitz g K lo hi.
Hypothesis HK : 0 <= K.
Hypothesis HC : forall k, (k < n)%nat -> Rabs (g (mu k)) <= C.
Hypothesis Ho : nearly_orthogonal n U delta.

Let T (x : vec) : vec := fun k => \sum_(j < n) (U j k * x j).
Let S' (c : vec) : vec := fun i => \sum_(k < n) (U i k * c k).
Lemma coef_S c i : coef n V (S' c) i = \sum_(k < n) (coef n V (fun j => U j k) i * c k).
Proof.
  unfold coef, S'. rewrite (rsum_ext n _ (fun j => \sum_(k < n) (V j i * U j k * c k))) by (intros; rewrite <- rsum_scal_l; apply rsum_ext; intros; ring).
  rewrite rsum_swap. apply rsum_ext. intros k Hk. rewrite <- rsum_scal_r. apply rsum_ext. intros; ring.
Qed.
Lemma T_norm x : normsq n (T x) <= (1 + delta) * normsq n x.
Proof.
  set (d := fun i => S' (T x) i - x i).
  assert (E : normsq n (T x) = normsq n x + dot n x d).
  { assert (dot n x (S' (T x)) = normsq n (T x)) as <-.
    { unfold normsq, dot, S'. rewrite (rsum_ext n _ (fun i => \sum_(k < n) (U i k * x i * T x k))) by (intros; rewrite <- rsum_scal_l; apply rsum_ext; intros; ring).
      rewrite rsum_swap. apply rsum_ext. intros k Hk. rewrite rsum_scal_r. reflexivity. }
    unfold normsq, dot. rewrite <- rsum_plus. apply rsum_ext. intros i Hi. unfold d. ring. }
  rewrite E. pose proof (dot_le_norm n x d) as H. pose proof (proj2 Ho x) as H2. change (norm2 n d <= delta * norm2 n x) in H2.
  assert (norm2 n x * norm2 n d <= delta * normsq n x). { rewrite <- norm2_sq. replace (delta * (norm2 n x * norm2 n x)) with (norm2 n x * (delta * norm2 n x)) by ring. apply Rmult_le_compat_l; [apply norm2_nonneg|exact H2]. }
  lra.
Qed.
Lemma cross_bound c : normsq n (fun i => \sum_(k < n) (coef n V (fun j => U j k) i * (g (e k) - g (mu i)) * c k)) <=
  (K * fro n (residual n L e U)) * (K * fro n (residual n L e U)) * normsq n c.
Proof.
  set (M := fun i k => coef n V (fun j => U j k) i).
  assert (R1 : forall i k, (i < n)%nat -> (k < n)%nat -> coef n V (fun j => residual n L e U j k) i = (mu i - e k) * M i k).
  { intros i k Hi Hk. unfold residual. transitivity (coef n V (mulv n L (fun j => U j k)) i - e k * M i k).
    - unfold M, coef. rewrite <- rsum_scal_l, <- rsum_minus. apply rsum_ext. intros; ring.
    - rewrite (coef_mulv n L mu V HV) by assumption. unfold M. ring. }
  assert (R2 : \sum_(i < n) \sum_(k < n) (((mu i - e k) * M i k) * ((mu i - e k) * M i k)) = fro n (residual n L e U) * fro n (residual n L e U)).
  { rewrite fro_sq, rsum_swap. rewrite (rsum_swap n n (fun i j => residual n L e U i j * residual n L e U i j)). apply rsum_ext. intros k Hk.
    transitivity (normsq n (coef n V (fun j => residual n L e U j k))).
    - apply rsum_ext. intros i Hi. rewrite R1 by assumption. reflexivity.
    - rewrite (coef_normsq n L mu V HV). reflexivity. }
  replace (K * fro n (residual n L e U) * (K * fro n (residual n L e U))) with (K * K * (fro n (residual n L e U) * fro n (residual n L e U))) by ring.
  rewrite <- R2, <- rsum_scal_l, <- rsum_scal_r. apply rsum_le. intros i Hi.
  eapply Rle_trans; [apply (rsum_cauchy_schwarz n (fun k => M i k * (g (e k) - g (mu i))) c)|]. apply Rmult_le_compat_r; [apply normsq_nonneg|].
  rewrite <- rsum_scal_l. apply rsum_le. intros k Hk. pose proof (Hg (e k) (mu i) (He k Hk) (Hmu i Hi)) as H.
  replace (M i k * (g (e k) - g (mu i)) * (M i k * (g (e k) - g (mu i)))) with (M i k * M i k * ((g (e k) - g (mu i)) * (g (e k) - g (mu i)))) by ring.
  replace (K * K * ((mu i - e k) * M i k * ((mu i - e k) * M i k))) with (M i k * M i k * ((K * (e k - mu i)) * (K * (e k - mu i)))) by ring.
  apply Rmult_le_compat_l; [apply Rle_0_sqr|]. apply (Rsqr_le_abs_1 (g (e k) - g (mu i)) (K * (e k - mu i))). rewrite Rabs_mult, (Rabs_pos_eq K HK). exact H.
Qed.
Lemma inexact_bound x : norm2 n (fun i => S' (fun k => g (e k) * T x k) i - \sum_(k < n) (V i k * (g (mu k) * coef n V x k))) <=
  (K * fro n (residual n L e U) * sqrt (1 + delta) + C * delta) * norm2 n x.
Proof.
  set (w := fun i => S' (fun k => g (e k) * T x k) i - \sum_(k < n) (V i k * (g (mu k) * coef n V x k))).
  set (p := fun i => \sum_(k < n) (coef n V (fun j => U j k) i * (g (e k) - g (mu i)) * T x k)).
  set (d := fun i => S' (T x) i - x i). set (q := fun i => g (mu i) * coef n V d i).
  assert (D0 : 0 <= delta) by apply Ho. pose proof (norm2_nonneg n x) as X0. pose proof (fro_nonneg n (residual n L e U)) as F0.
  assert (W : norm2 n w = norm2 n (fun i => p i + q i)).
  { unfold norm2. f_equal. rewrite <- (coef_normsq n L mu V HV w). apply dot_ext; intros i Hi.
    all: unfold w; transitivity (coef n V (S' (fun k => g (e k) * T x k)) i - coef n V (fun i => \sum_(k < n) (V i k * (g (mu k) * coef n V x k))) i);
      [unfold coef; rewrite <- rsum_minus; apply rsum_ext; intros; ring|].
    all: rewrite (coef_synth n L mu V HV (fun k => g (mu k) * coef n V x k) i Hi), coef_S; unfold p, q, d.
    all: assert (Ed : coef n V (fun i => S' (T x) i - x i) i = coef n V (S' (T x)) i - coef n V x i) by (unfold coef; rewrite <- rsum_minus; apply rsum_ext; intros; ring).
    all: rewrite Ed, coef_S.
    all: rewrite (rsum_ext n (fun k => coef n V (fun j => U j k) i * (g (e k) - g (mu i)) * T x k) (fun k => coef n V (fun j => U j k) i * (g (e k) * T x k) - g (mu i) * (coef n V (fun j => U j k) i * T x k))) by (intros; ring).
    all: rewrite rsum_minus, rsum_scal_l; ring. }
  rewrite W. eapply Rle_trans; [apply norm2_plus|]. rewrite Rmult_plus_distr_r. apply Rplus_le_compat.
  - apply norm2_le; [repeat apply Rmult_le_pos; auto; apply sqrt_pos|]. eapply Rle_trans; [apply cross_bound|].
    replace (K * fro n (residual n L e U) * sqrt (1 + delta) * norm2 n x * (K * fro n (residual n L e U) * sqrt (1 + delta) * norm2 n x))
      with ((K * fro n (residual n L e U)) * (K * fro n (residual n L e U)) * ((sqrt (1 + delta) * sqrt (1 + delta)) * (norm2 n x * norm2 n x))) by ring.
    rewrite norm2_sq, sqrt_sqrt by lra. apply Rmult_le_compat_l; [apply Rle_0_sqr|]. apply T_norm.
  - destruct (Nat.eq_dec n 0) as [En|En]; [unfold norm2, normsq, dot; rewrite En; cbn [rsum]; rewrite sqrt_0; lra|].
    assert (C0 : 0 <= C). { pose proof (HC 0%nat ltac:(lia)). pose proof (Rabs_pos (g (mu 0%nat))). lra. }
    apply norm2_le; [repeat apply Rmult_le_pos; auto|].
    assert (Hd : norm2 n d <= delta * norm2 n x) by (apply (proj2 Ho x)). pose proof (norm2_nonneg n d) as Dn.
    apply Rle_trans with (C * C * normsq n d).
    + rewrite <- (coef_normsq n L mu V HV d). unfold normsq at 2, dot. rewrite <- rsum_scal_l. apply rsum_le. intros i Hi. unfold q.
      replace (g (mu i) * coef n V d i * (g (mu i) * coef n V d i)) with ((g (mu i) * g (mu i)) * (coef n V d i * coef n V d i)) by ring.
      apply Rmult_le_compat_r; [apply Rle_0_sqr|]. apply (Rsqr_le_abs_1 (g (mu i)) C). rewrite (Rabs_pos_eq C C0). apply HC; exact Hi.
    + rewrite <- norm2_sq. replace (C * delta * norm2 n x * (C * delta * norm2 n x)) with (C * C * ((delta * norm2 n x) * (delta * norm2 n x))) by ring.
      apply Rmult_le_compat_l; [apply Rle_0_sqr|]. apply Rmult_le_compat; auto.
Qed.
End Inexact.

(** ** The exact method needs no more than a square basis to give U g(e) U^T x *)
Lemma exact_any F gs x : List.length (v_e F) = v_N F ->
  exists out, gfilter F (map pw gs) Exact (vec_arr (v_N F) x) = Ok out /\
    forall f i, (i < v_N F)%nat -> (f < List.length gs)%nat -> ans F (List.length gs) out f i = mult F (fun k => nth f gs (fun _ => 0) (nth k (v_e F) 0)) x i.
Proof.
  intros Hlen. destruct (to_3d_batch (v_N F) (List.length (map pw gs)) _ _ _ (batch1 _ _ (fun idx => x (hd 0%nat idx)))) as (s3 & E3 & S3 & H3).
  unfold gfilter. change (vec_arr (v_N F) x) with (Arr [v_N F] (fun idx => x (hd 0%nat idx))). rewrite E3. cbn [bindr filter3].
  set (a := Arr [v_N F; 1%nat; List.length (map pw gs)] (fun idx => \sum_(k < List.length (v_e F)) (v_U F (hd 0%nat idx) k *
     (\sum_(i < 1) ((\sum_(l < v_N F) (v_U F l k * aget s3 [l; ix (tl idx) 0; i])) * nth k (nth (ix (tl idx) 1) (map (fun g => map g (v_e F)) gs) []) 0))))).
  assert (Ea : filter_exact3 F (map pw gs) s3 = Ok a).
  { destruct s3 as [sh g3]. cbn [shape] in S3. subst sh. unfold filter_exact3, gft, igft, check_arr. rewrite evaluate_pw. cbn [ix nth bindr Nat.eqb shape hd tl aget].
    repeat (progress (rewrite ?Nat.eqb_refl, ?Hlen; cbn [ix nth bindr shape hd tl andb negb])). unfold a. rewrite Hlen. reflexivity. }
  rewrite Ea. cbn [bindr]. exists (squeeze a). split; [reflexivity|]. intros f i Hi Hf. unfold ans. replace [v_N F; 1%nat; List.length gs] with (shape a) by (unfold a; rewrite map_length; reflexivity).
  rewrite rd_squeeze. { unfold a. cbn [aget hd tl ix nth]. rewrite Hlen. unfold mult, fhat. apply rsum_ext. intros k Hk. cbn [rsum]. rewrite Rplus_0_l. f_equal. rewrite Rmult_comm. f_equal.
    - rewrite (nth_indep (map (fun g => map g (v_e F)) gs) [] (map (fun _ => 0) (v_e F))) by (rewrite map_length; exact Hf).
      rewrite (map_nth (fun g => map g (v_e F)) gs (fun _ => 0)).
      rewrite (nth_indep (map (nth f gs (fun _ => 0)) (v_e F)) 0 (nth f gs (fun _ => 0) 0)) by (rewrite map_length, Hlen; exact Hk). rewrite map_nth. reflexivity.
    - apply rsum_ext. intros l Hl. rewrite H3 by lia. reflexivity. }
  unfold a. cbn [shape]. rewrite map_length. repeat constructor; assumption.
Qed.

(** ** C93: an inexact eigenbasis *)
(** Whatever the eigensolver returned as (G.e, G.U): the output of the exact method is off the ideal one (the kernel applied to the
    Laplacian) by at most K times the residual of the eigenproblem, plus the defect of orthogonality times the largest value of
    the kernel. *)
Theorem C93_filtering_with_an_inexact_basis : forall F gs f mu V K C delta lo hi x,
  let n := v_N F in let L := v_L F in let F' := mkview n L (v_lmax F) mu V in let g := nth f gs (fun _ => 0) in
  List.length (v_e F) = n -> spectral F' -> (f < List.length gs)%nat ->
  (forall t, In t (v_e F) -> lo <= t <= hi) -> (forall t, In t mu -> lo <= t <= hi) ->
  lipschitz g K lo hi -> 0 <= K -> (forall t, In t mu -> Rabs (g t) <= C) -> nearly_orthogonal n (v_U F) delta ->
  exists out out', gfilter F (map pw gs) Exact (vec_arr n x) = Ok out /\ gfilter F' (map pw gs) Exact (vec_arr n x) = Ok out' /\
    norm2 n (vminus (ans F (List.length gs) out f) (ans F' (List.length gs) out' f)) <=
      (K * fro n (residual n L (fun k => nth k (v_e F) 0) (v_U F)) * sqrt (1 + delta) + C * delta) * norm2 n x.
Proof.
  intros F gs f mu V K C delta lo hi x n L F' g Hl HF Hf He Hmu Hg HK HC Ho.
  destruct (exact_any F gs x Hl) as (out & E & A). destruct (exact_any F' gs x (proj1 HF)) as (out' & E' & A').
  exists out, out'. split; [exact E|]. split; [exact E'|].
  eapply Rle_trans; [right|apply (inexact_bound n L (fun k => nth k mu 0) V (fun k => nth k (v_e F) 0) (v_U F) K C delta lo hi g (proj2 HF))]; auto.
  - apply norm2_ext. intros i Hi. unfold vminus. rewrite A, A' by assumption. reflexivity.
  - intros k Hk. apply He, nth_In. rewrite Hl. exact Hk.
  - intros k Hk. apply Hmu, nth_In. pose proof (proj1 HF) as Hm. cbn [v_e F' v_N] in Hm. rewrite Hm. exact Hk.
  - intros k Hk. apply HC, nth_In. pose proof (proj1 HF) as Hm. cbn [v_e F' v_N] in Hm. rewrite Hm. exact Hk.
Qed.

(** The Fourier transform with such a basis: igft(gft(s)) is s up to delta, and gft preserves the energy up to delta. *)
Theorem C93_round_trip_with_an_inexact_basis : forall F delta x, List.length (v_e F) = v_N F -> nearly_orthogonal (v_N F) (v_U F) delta ->
  exists t y, gft F (vec_arr (v_N F) x) = Ok t /\ igft F t = Ok y /\
    norm2 (v_N F) (fun i => aget y [i] - x i) <= delta * norm2 (v_N F) x /\
    Rabs (normsq (v_N F) (fun k => aget t [k]) - normsq (v_N F) x) <= delta * normsq (v_N F) x.
Proof.
  intros F delta x Hl Ho. set (n := v_N F) in *. unfold gft, igft, check_arr. change (shape (vec_arr n x)) with [n]. cbn beta iota. fold n. rewrite Nat.eqb_refl. cbn [bindr].
  eexists. eexists. split; [reflexivity|]. cbn [shape tl]. rewrite Hl, Nat.eqb_refl. cbn [bindr shape hd]. rewrite Nat.eqb_refl. cbn [negb]. split; [reflexivity|]. cbn [aget hd tl].
  pose proof (proj2 Ho x) as H. split; [exact H|].
  set (d := fun i => \sum_(k < n) (v_U F i k * \sum_(j < n) (v_U F j k * x j)) - x i) in H. set (t := fun k => \sum_(i < n) (v_U F i k * x i)).
  assert (E : normsq n t = normsq n x + dot n x d).
  { assert (dot n x (fun i => \sum_(k < n) (v_U F i k * t k)) = normsq n t) as <-.
    { unfold normsq, dot. rewrite (rsum_ext n _ (fun i => \sum_(k < n) (v_U F i k * x i * t k))) by (intros; rewrite <- rsum_scal_l; apply rsum_ext; intros; ring).
      rewrite rsum_swap. apply rsum_ext. intros k Hk. rewrite rsum_scal_r. reflexivity. }
    unfold normsq, dot. rewrite <- rsum_plus. apply rsum_ext. intros i Hi. change (d i) with (\sum_(k < n) (v_U F i k * t k) - x i). ring. }
  change (Rabs (normsq n t - normsq n x) <= delta * normsq n x). rewrite E. replace (normsq n x + dot n x d - normsq n x) with (dot n x d) by ring.
  assert (B : norm2 n x * norm2 n d <= delta * normsq n x). { rewrite <- norm2_sq. replace (delta * (norm2 n x * norm2 n x)) with (norm2 n x * (delta * norm2 n x)) by ring. apply Rmult_le_compat_l; [apply norm2_nonneg|exact H]. }
  apply Rabs_le. split; [|pose proof (dot_le_norm n x d); lra].
  pose proof (dot_le_norm n (fun i => -1 * x i) d) as H1. rewrite norm2_scal in H1. replace (Rabs (-1)) with 1 in H1 by (rewrite Rabs_left; lra). rewrite Rmult_1_l in H1.
  assert (dot n (fun i => -1 * x i) d = - dot n x d) by (unfold dot; rewrite <- rsum_opp; apply rsum_ext; intros; ring). lra.
Qed.

(** ** C93: another graph *)
Lemma exact_orthogonal n L mu V : eigh_ok n L mu V -> nearly_orthogonal n V 0.
Proof.
  intros H. split; [lra|]. intros x. rewrite Rmult_0_l. apply norm2_le; [lra|]. rewrite Rmult_0_l. right. apply rsum_0. intros i Hi.
  pose proof (eigh_expand n L mu V H x i Hi) as E. unfold coef in E. rewrite E. ring.
Qed.
Lemma fro_residual n L1 L2 e U : eigh_ok n L2 e U -> fro n (residual n L1 e U) = fro n (fun i j => L1 i j - L2 i j).
Proof.
  intros H. unfold fro. f_equal. apply rsum_ext. intros i Hi.
  transitivity (normsq n (coef n U (fun j => L1 i j - L2 i j))).
  - apply rsum_ext. intros k Hk. assert (E : residual n L1 e U i k = coef n U (fun j => L1 i j - L2 i j) k).
    { unfold residual. rewrite <- (eigh_eig _ _ _ _ H i k Hi Hk). unfold mulv, coef. rewrite <- rsum_minus. apply rsum_ext. intros; ring. }
    rewrite E. reflexivity.
  - rewrite (coef_normsq n L2 e U H). reflexivity.
Qed.
Lemma norm2_mult F h eps x : spectral F -> (forall k, (k < v_N F)%nat -> Rabs (h k) <= eps) -> 0 <= eps -> norm2 (v_N F) (mult F h x) <= eps * norm2 (v_N F) x.
Proof.
  intros HF Hh He. apply norm2_le; [apply Rmult_le_pos; [exact He|apply norm2_nonneg]|]. rewrite (mult_normsq F HF).
  replace (eps * norm2 (v_N F) x * (eps * norm2 (v_N F) x)) with (eps * eps * (norm2 (v_N F) x * norm2 (v_N F) x)) by ring. rewrite norm2_sq, <- (fhat_normsq F HF), <- rsum_scal_l.
  apply rsum_le. intros k Hk. apply Rmult_le_compat_r; [apply Rle_0_sqr|]. apply (Rsqr_le_abs_1 (h k) eps). rewrite (Rabs_pos_eq eps He). apply Hh; exact Hk.
Qed.
(** Two graphs on the same vertices and two kernels that are close to each other, the first of them Lipschitz on an interval with
    both spectra. *)
Theorem C93_filtering_is_stable : forall F1 F2 gs1 gs2 f K eps lo hi x,
  let n := v_N F1 in let g1 := nth f gs1 (fun _ => 0) in let g2 := nth f gs2 (fun _ => 0) in
  spectral F1 -> spectral F2 -> v_N F2 = n -> (f < List.length gs1)%nat -> (f < List.length gs2)%nat ->
  (forall t, In t (v_e F1) \/ In t (v_e F2) -> lo <= t <= hi) -> lipschitz g1 K lo hi -> 0 <= K -> 0 <= eps ->
  (forall t, In t (v_e F2) -> Rabs (g2 t - g1 t) <= eps) ->
  exists out1 out2, gfilter F1 (map pw gs1) Exact (vec_arr n x) = Ok out1 /\ gfilter F2 (map pw gs2) Exact (vec_arr n x) = Ok out2 /\
    norm2 n (vminus (ans F2 (List.length gs2) out2 f) (ans F1 (List.length gs1) out1 f)) <=
      (K * fro n (fun i j => v_L F1 i j - v_L F2 i j) + eps) * norm2 n x.
Proof.
  intros F1 F2 gs1 gs2 f K eps lo hi x n g1 g2 H1 H2 En Hf1 Hf2 Hs Hg HK He Hd.
  destruct (exact_any F1 gs1 x (proj1 H1)) as (o1 & E1 & A1). destruct (exact_any F2 gs2 x (proj1 H2)) as (o2 & E2 & A2). rewrite En in E2, A2.
  exists o1, o2. split; [exact E1|]. split; [exact E2|].
  set (y := mult F2 (fun k => g1 (nth k (v_e F2) 0)) x).
  assert (D : norm2 n (fun i => y i - mult F1 (fun k => g1 (nth k (v_e F1) 0)) x i) <= K * fro n (fun i j => v_L F1 i j - v_L F2 i j) * norm2 n x).
  { pose proof (proj2 H2) as Q2. rewrite En in Q2.
    set (C := \sum_(k < n) Rabs (g1 (nth k (v_e F1) 0))).
    eapply Rle_trans; [right|eapply Rle_trans; [apply (inexact_bound n (v_L F1) (fun k => nth k (v_e F1) 0) (v_U F1) (fun k => nth k (v_e F2) 0) (v_U F2) K C 0 lo hi g1 (proj2 H1))|]].
    - unfold y, mult, fhat. rewrite En. reflexivity.
    - intros k Hk. apply Hs. right. apply nth_In. rewrite (proj1 H2), En. exact Hk.
    - intros k Hk. apply Hs. left. apply nth_In. rewrite (proj1 H1). exact Hk.
    - exact Hg.
    - exact HK.
    - intros k Hk. apply (rsum_ge_term n (fun k => Rabs (g1 (nth k (v_e F1) 0))) k); [intros; apply Rabs_pos|exact Hk].
    - apply (exact_orthogonal _ _ _ _ Q2).
    - rewrite (fro_residual _ _ _ _ _ Q2), Rplus_0_r, sqrt_1. right. ring. }
  assert (D' : norm2 n (fun i => mult F2 (fun k => g2 (nth k (v_e F2) 0) - g1 (nth k (v_e F2) 0)) x i) <= eps * norm2 n x).
  { rewrite <- En. apply (norm2_mult F2 (fun k => g2 (nth k (v_e F2) 0) - g1 (nth k (v_e F2) 0)) eps x H2); [|exact He]. intros k Hk. apply Hd, nth_In. rewrite (proj1 H2). exact Hk. }
  eapply Rle_trans; [right; apply (norm2_ext n _ (fun i => mult F2 (fun k => g2 (nth k (v_e F2) 0) - g1 (nth k (v_e F2) 0)) x i + (y i - mult F1 (fun k => g1 (nth k (v_e F1) 0)) x i)))|].
  - intros i Hi. unfold vminus. rewrite A1, A2 by assumption. fold g1 g2. unfold y.
    rewrite (mult_ext F2 (fun k => g2 (nth k (v_e F2) 0) - g1 (nth k (v_e F2) 0)) (fun k => 1 * g2 (nth k (v_e F2) 0) + -1 * g1 (nth k (v_e F2) 0)) x x i) by (intros ? ?; ring). rewrite mult_lin_h. ring.
  - eapply Rle_trans; [apply norm2_plus|]. rewrite Rmult_plus_distr_r, (Rplus_comm (K * _ * _)). apply Rplus_le_compat; [exact D'|exact D].
Qed.

(** The spectrum itself. *)
Lemma quad_fro n A x : Rabs (quad n A x) <= fro n A * normsq n x.
Proof.
  assert (B : forall z, quad n A z <= fro n A * normsq n z).
  { intros z. eapply Rle_trans; [apply dot_le_norm|]. rewrite <- norm2_sq. replace (fro n A * (norm2 n z * norm2 n z)) with (norm2 n z * (fro n A * norm2 n z)) by ring.
    apply Rmult_le_compat_l; [apply norm2_nonneg|]. apply norm2_le; [apply Rmult_le_pos; [apply fro_nonneg|apply norm2_nonneg]|].
    replace (fro n A * norm2 n z * (fro n A * norm2 n z)) with ((fro n A * fro n A) * (norm2 n z * norm2 n z)) by ring. rewrite norm2_sq, fro_sq, <- rsum_scal_r.
    apply rsum_le. intros i Hi. apply rsum_cauchy_schwarz. }
  assert (B' : forall z, - quad n A z <= fro n A * normsq n z).
  { intros z. unfold quad. assert (E : - dot n z (mulv n A z) = dot n (fun i => -1 * z i) (mulv n A z)) by (unfold dot; rewrite <- rsum_opp; apply rsum_ext; intros; ring). rewrite E.
    eapply Rle_trans; [apply dot_le_norm|]. rewrite norm2_scal. replace (Rabs (-1)) with 1 by (rewrite Rabs_left; lra). rewrite Rmult_1_l.
    rewrite <- norm2_sq. replace (fro n A * (norm2 n z * norm2 n z)) with (norm2 n z * (fro n A * norm2 n z)) by ring.
    apply Rmult_le_compat_l; [apply norm2_nonneg|]. apply norm2_le; [apply Rmult_le_pos; [apply fro_nonneg|apply norm2_nonneg]|].
    replace (fro n A * norm2 n z * (fro n A * norm2 n z)) with ((fro n A * fro n A) * (norm2 n z * norm2 n z)) by ring. rewrite norm2_sq, fro_sq, <- rsum_scal_r.
    apply rsum_le. intros i Hi. apply rsum_cauchy_schwarz. }
  apply Rabs_le. pose proof (B x). pose proof (B' x). lra.
Qed.
Theorem C93_spectrum_is_stable : forall F1 F2, spectral F1 -> spectral F2 -> v_N F2 = v_N F1 ->
  forall k, (k < v_N F1)%nat -> Rabs (nth k (v_e F1) 0 - nth k (v_e F2) 0) <= fro (v_N F1) (fun i j => v_L F1 i j - v_L F2 i j).
Proof.
  intros F1 F2 H1 H2 En k Hk. pose proof (proj2 H2) as Q2. rewrite En in Q2.
  apply (eigh_close (v_N F1) (v_L F1) (v_L F2) (fun k => nth k (v_e F1) 0) (v_U F1) (fun k => nth k (v_e F2) 0) (v_U F2)); [exact (proj2 H1)|exact Q2| |exact Hk].
  intros x. eapply Rle_trans; [right|apply (quad_fro (v_N F1) (fun i j => v_L F1 i j - v_L F2 i j) x)]. f_equal.
  unfold quad, dot, mulv. rewrite <- rsum_minus. apply rsum_ext. intros i Hi. rewrite <- Rmult_minus_distr_l, <- rsum_minus. f_equal. apply rsum_ext. intros; ring.
Qed.

(** How far the Laplacians are if no weight changed by more than eta. *)
Lemma fro_rows n A b : (0 < n)%nat -> 0 <= b -> (forall i, (i < n)%nat -> \sum_(j < n) A i j = 0) -> (forall i j, (i < n)%nat -> (j < n)%nat -> i <> j -> Rabs (A i j) <= b) ->
  fro n A <= INR n * sqrt (INR (n - 1)) * b.
Proof.
  intros Hn Hb Hr Ha. pose proof (pos_INR n) as Pn. pose proof (pos_INR (n - 1)) as Pm. assert (Em : INR (n - 1) = INR n - 1) by (rewrite minus_INR by lia; reflexivity).
  apply sq_le; [repeat apply Rmult_le_pos; auto; apply sqrt_pos|]. rewrite fro_sq.
  replace (INR n * sqrt (INR (n - 1)) * b * (INR n * sqrt (INR (n - 1)) * b)) with (INR n * (INR n * (sqrt (INR (n - 1)) * sqrt (INR (n - 1))) * (b * b))) by ring. rewrite sqrt_sqrt by exact Pm.
  rewrite <- rsum_const. apply rsum_le. intros i Hi.
  assert (Sum : forall c, \sum_(j < n) (if Nat.eqb j i then 0 else c) = INR (n - 1) * c).
  { intros c. rewrite (rsum_ext n _ (fun j => c - (if Nat.eqb j i then c else 0))) by (intros j _; destruct (Nat.eqb j i); ring). rewrite rsum_minus, rsum_const, (rsum_delta n (fun _ => c) i Hi), Em. ring. }
  assert (D : Rabs (A i i) <= INR (n - 1) * b).
  { assert (E : A i i = - \sum_(j < n) (if Nat.eqb j i then 0 else A i j)).
    { assert (E2 : \sum_(j < n) (if Nat.eqb j i then 0 else A i j) = \sum_(j < n) A i j - \sum_(j < n) (if Nat.eqb j i then A i j else 0)) by (rewrite <- rsum_minus; apply rsum_ext; intros j _; destruct (Nat.eqb j i); ring).
      rewrite E2, (Hr i Hi), (rsum_delta n (fun j => A i j) i Hi). ring. }
    rewrite E, Rabs_Ropp. eapply Rle_trans; [apply rsum_abs|]. rewrite <- Sum. apply rsum_le. intros j Hj. destruct (Nat.eqb_spec j i) as [->|Hne]; [rewrite Rabs_R0; lra|apply Ha; auto]. }
  apply Rle_trans with (\sum_(j < n) ((if Nat.eqb j i then 0 else b * b) + (if Nat.eqb j i then (INR (n - 1) * b) * (INR (n - 1) * b) else 0))).
  - apply rsum_le. intros j Hj. destruct (Nat.eqb_spec j i) as [->|Hne].
    + rewrite Rplus_0_l. apply (Rsqr_le_abs_1 (A i i) (INR (n - 1) * b)). rewrite (Rabs_pos_eq (INR (n - 1) * b)); [exact D|apply Rmult_le_pos; auto].
    + rewrite Rplus_0_r. apply (Rsqr_le_abs_1 (A i j) b). rewrite (Rabs_pos_eq b Hb). apply Ha; auto.
  - rewrite rsum_plus, Sum, (rsum_delta n (fun _ => INR (n - 1) * b * (INR (n - 1) * b)) i Hi). right. rewrite Em. ring.
Qed.
(** C93: graphs whose weights differ by at most eta. *)
Theorem C93_close_weights : forall G1 G2 lmax1 lmax2 e1 U1 e2 U2 gs f K eta lo hi x,
  let n := g_n_vertices G1 in let F1 := mkview n (gL G1) lmax1 e1 U1 in let F2 := mkview n (gL G2) lmax2 e2 U2 in let g := nth f gs (fun _ => 0) in
  built G1 -> built G2 -> g_lap_type G1 = Combinatorial -> g_lap_type G2 = Combinatorial -> g_n_vertices G2 = n -> (0 < n)%nat -> 0 <= eta ->
  (forall i j, (i < n)%nat -> (j < n)%nat -> Rabs (wt G1 i j - wt G2 i j) <= eta) ->
  spectral F1 -> spectral F2 -> (f < List.length gs)%nat -> (forall t, In t e1 \/ In t e2 -> lo <= t <= hi) -> lipschitz g K lo hi -> 0 <= K ->
  (forall k, (k < n)%nat -> Rabs (nth k e1 0 - nth k e2 0) <= INR n * sqrt (INR (n - 1)) * eta) /\
  exists out1 out2, gfilter F1 (map pw gs) Exact (vec_arr n x) = Ok out1 /\ gfilter F2 (map pw gs) Exact (vec_arr n x) = Ok out2 /\
    norm2 n (vminus (ans F2 (List.length gs) out2 f) (ans F1 (List.length gs) out1 f)) <= K * (INR n * sqrt (INR (n - 1)) * eta) * norm2 n x.
Proof.
  intros G1 G2 lmax1 lmax2 e1 U1 e2 U2 gs f K eta lo hi x n F1 F2 g B1 B2 T1 T2 En Hn Heta HW H1 H2 Hf Hs Hg HK.
  destruct (C09_combinatorial_structure G1 B1 T1) as (_ & R1 & O1 & _). destruct (C09_combinatorial_structure G2 B2 T2) as (_ & R2 & O2 & _). fold n in R1, O1. rewrite En in R2, O2.
  assert (HF : fro n (fun i j => gL G1 i j - gL G2 i j) <= INR n * sqrt (INR (n - 1)) * eta).
  { apply fro_rows; auto.
    - intros i Hi. rewrite rsum_minus, R1, R2 by exact Hi. ring.
    - intros i j Hi Hj Hne. rewrite O1, O2 by assumption.
      replace (- (wt G1 i j + wt G1 j i) / 2 - - (wt G2 i j + wt G2 j i) / 2) with (- (((wt G1 i j - wt G2 i j) + (wt G1 j i - wt G2 j i)) / 2)) by field.
      pose proof (HW i j Hi Hj) as P1. pose proof (HW j i Hj Hi) as P2. pose proof (Rabs_triang (wt G1 i j - wt G2 i j) (wt G1 j i - wt G2 j i)) as P3.
      rewrite Rabs_Ropp. unfold Rdiv. rewrite Rabs_mult, (Rabs_pos_eq (/ 2)) by lra. lra. }
  split.
  - intros k Hk. eapply Rle_trans; [apply (C93_spectrum_is_stable F1 F2 H1 H2 eq_refl k Hk)|exact HF].
  - destruct (C93_filtering_is_stable F1 F2 gs gs f K 0 lo hi x H1 H2 eq_refl Hf Hf Hs Hg HK (Rle_refl 0)) as (o1 & o2 & E1 & E2 & Hb).
    + intros t Ht. fold g. rewrite Rminus_eq_0, Rabs_R0. lra.
    + exists o1, o2. split; [exact E1|]. split; [exact E2|]. eapply Rle_trans; [exact Hb|]. rewrite Rplus_0_r. apply Rmult_le_compat_r; [apply norm2_nonneg|]. apply Rmult_le_compat_l; [exact HK|exact HF].
Qed.

(** ** C93: heat filters *)
Lemma exp_lip a b : 0 <= a -> 0 <= b -> Rabs (exp (- a) - exp (- b)) <= Rabs (a - b).
Proof.
  assert (H : forall a b, 0 <= a -> a <= b -> Rabs (exp (- a) - exp (- b)) <= Rabs (a - b)).
  { clear. intros a b Ha Hab. replace (exp (- b)) with (exp (- a) * exp (- (b - a))) by (rewrite <- exp_plus; f_equal; ring).
    assert (P : 0 < exp (- a) <= 1). { split; [apply exp_pos|]. rewrite <- exp_0. destruct (Req_dec a 0) as [->|]; [right; f_equal; ring|left; apply exp_increasing; lra]. }
    assert (Q : exp (- (b - a)) <= 1). { rewrite <- exp_0. destruct (Req_dec a b) as [->|]; [right; f_equal; ring|left; apply exp_increasing; lra]. }
    pose proof (exp_ineq1_le (- (b - a))) as I. replace (exp (- a) - exp (- a) * exp (- (b - a))) with (exp (- a) * (1 - exp (- (b - a)))) by ring.
    rewrite Rabs_pos_eq by (apply Rmult_le_pos; lra). rewrite (Rabs_minus_sym a b), (Rabs_pos_eq (b - a)) by lra.
    apply Rle_trans with (1 * (1 - exp (- (b - a)))); [apply Rmult_le_compat_r; lra|lra]. }
  intros Ha Hb. destruct (Rle_or_lt a b) as [L|L]; [apply H; assumption|]. rewrite Rabs_minus_sym, (Rabs_minus_sym a b). apply H; lra.
Qed.
Lemma heat_exp lmax s x : 0 < lmax -> 0 <= s -> heat_fun lmax s x = exp (- (s / lmax * Rmax x 0)).
Proof.
  intros Hl Hs. assert (Q : 0 <= s / lmax) by (apply Rmult_le_pos; [exact Hs|left; apply Rinv_0_lt_compat; exact Hl]).
  unfold heat_fun. replace (- s * x / lmax) with (- (s / lmax * x)) by (field; lra). unfold Rmax. destruct (Rle_dec x 0) as [L|L].
  - rewrite Rmult_0_r, Ropp_0, exp_0. apply Rmin_right. rewrite <- exp_0 at 1. pose proof (Rmult_le_compat_l (s / lmax) x 0 Q L) as P. rewrite Rmult_0_r in P.
    destruct P as [P|P]; [left; apply exp_increasing; lra|right; f_equal; lra].
  - apply Rmin_left. rewrite <- exp_0. pose proof (Rmult_le_pos (s / lmax) x Q ltac:(lra)) as P. destruct P as [P|P]; [left; apply exp_increasing; lra|right; f_equal; lra].
Qed.
Lemma heat_lipschitz lmax s lo hi : 0 < lmax -> 0 <= s -> lipschitz (fun x => heat_fun lmax s x / 1) (s / lmax) lo hi.
Proof.
  intros Hl Hs a b _ _. rewrite !heat_exp by assumption. unfold Rdiv. rewrite Rinv_1, !Rmult_1_r. fold (s / lmax).
  assert (Q : 0 <= s / lmax) by (apply Rmult_le_pos; [exact Hs|left; apply Rinv_0_lt_compat; exact Hl]).
  pose proof (Rmax_r a 0). pose proof (Rmax_r b 0). eapply Rle_trans; [apply exp_lip; apply Rmult_le_pos; assumption|]. rewrite <- Rmult_minus_distr_l, Rabs_mult, (Rabs_pos_eq _ Q).
  apply Rmult_le_compat_l; [exact Q|]. unfold Rmax. destruct (Rle_dec a 0), (Rle_dec b 0); unfold Rabs; repeat destruct Rcase_abs; lra.
Qed.
Lemma Heat_pw F scale : Heat F scale false = map pw (map (fun s x => heat_fun (v_lmax F) s x / 1) (pvals scale)).
Proof. unfold Heat. rewrite map_map. reflexivity. Qed.
Lemma lsum_abs_ge t l : In t l -> Rabs t <= lsum (map Rabs l).
Proof.
  assert (P : forall l, 0 <= lsum (map Rabs l)) by (intros m; induction m as [|a m IH]; [apply Rle_refl|cbn [map lsum fold_right]; fold (lsum (map Rabs m)); pose proof (Rabs_pos a); lra]).
  induction l as [|a l IH]; [intros []|]. cbn [map lsum fold_right]. fold (lsum (map Rabs l)). pose proof (P l). pose proof (Rabs_pos a).
  intros [->|H']; [lra|specialize (IH H'); lra].
Qed.
(** The kernels of Heat depend on lmax, which changes with the graph; the bound accounts for that. *)
Theorem C93_heat_is_stable : forall F1 F2 scale f s x,
  let n := v_N F1 in let l1 := v_lmax F1 in let l2 := v_lmax F2 in let m := List.length (pvals scale) in
  spectral F1 -> spectral F2 -> v_N F2 = n -> nth_error (pvals scale) f = Some s -> 0 <= s -> 0 < l1 -> 0 < l2 -> (forall t, In t (v_e F2) -> 0 <= t <= l2) ->
  exists out1 out2, gfilter F1 (Heat F1 scale false) Exact (vec_arr n x) = Ok out1 /\ gfilter F2 (Heat F2 scale false) Exact (vec_arr n x) = Ok out2 /\
    norm2 n (vminus (ans F2 m out2 f) (ans F1 m out1 f)) <= s / l1 * (fro n (fun i j => v_L F1 i j - v_L F2 i j) + Rabs (l1 - l2)) * norm2 n x.
Proof.
  intros F1 F2 scale f s x n l1 l2 m H1 H2 En Hf Hs Hl1 Hl2 He2.
  set (gs1 := map (fun s x => heat_fun l1 s x / 1) (pvals scale)). set (gs2 := map (fun s x => heat_fun l2 s x / 1) (pvals scale)).
  assert (Hm : (f < m)%nat) by (apply nth_error_Some; rewrite Hf; discriminate). assert (Q : 0 <= s / l1) by (apply Rmult_le_pos; [exact Hs|left; apply Rinv_0_lt_compat; exact Hl1]).
  assert (Ns : nth f (pvals scale) 0 = s) by (apply nth_error_nth; exact Hf).
  assert (N1 : forall t, nth f gs1 (fun _ => 0) t = heat_fun l1 s t / 1). { intros t. unfold gs1. rewrite (nth_indep _ (fun _ => 0) (fun x => heat_fun l1 0 x / 1)) by (rewrite map_length; exact Hm). rewrite (map_nth (fun s x => heat_fun l1 s x / 1)), Ns. reflexivity. }
  assert (N2 : forall t, nth f gs2 (fun _ => 0) t = heat_fun l2 s t / 1). { intros t. unfold gs2. rewrite (nth_indep _ (fun _ => 0) (fun x => heat_fun l2 0 x / 1)) by (rewrite map_length; exact Hm). rewrite (map_nth (fun s x => heat_fun l2 s x / 1)), Ns. reflexivity. }
  destruct (C93_filtering_is_stable F1 F2 gs1 gs2 f (s / l1) (s / l1 * Rabs (l1 - l2)) (- lsum (map Rabs (v_e F1 ++ v_e F2))) (lsum (map Rabs (v_e F1 ++ v_e F2))) x H1 H2 En) as (o1 & o2 & E1 & E2 & B).
  - unfold gs1. rewrite map_length. exact Hm.
  - unfold gs2. rewrite map_length. exact Hm.
  - intros t Ht. assert (I : In t (v_e F1 ++ v_e F2)) by (apply in_app_iff; exact Ht).
    pose proof (lsum_abs_ge t) as G.
    specialize (G _ I). pose proof (Rle_abs t). pose proof (Rle_abs (- t)) as P. rewrite Rabs_Ropp in P. lra.
  - intros a b Ha Hb. rewrite !N1. apply (heat_lipschitz l1 s _ _ Hl1 Hs a b Ha Hb).
  - exact Q.
  - apply Rmult_le_pos; [exact Q|apply Rabs_pos].
  - intros t Ht. rewrite N1, N2. unfold Rdiv. rewrite Rinv_1, !Rmult_1_r, !heat_exp by assumption. destruct (He2 t Ht) as (T0 & T1). fold l2 in T1.
    rewrite Rmax_left by lra. assert (Q2 : 0 <= s / l2) by (apply Rmult_le_pos; [exact Hs|left; apply Rinv_0_lt_compat; exact Hl2]).
    eapply Rle_trans; [apply exp_lip; apply Rmult_le_pos; assumption|]. replace (s / l2 * t - s / l1 * t) with ((s / l1) * ((t / l2) * (l1 - l2))) by (field; lra). rewrite Rabs_mult, (Rabs_pos_eq (s / l1) Q). apply Rmult_le_compat_l; [exact Q|].
    rewrite Rabs_mult, (Rabs_pos_eq (t / l2)) by (apply Rmult_le_pos; [exact T0|left; apply Rinv_0_lt_compat; exact Hl2]). rewrite <- (Rmult_1_l (Rabs (l1 - l2))) at 2. apply Rmult_le_compat_r; [apply Rabs_pos|].
    apply Rmult_le_reg_r with l2; [exact Hl2|]. unfold Rdiv. rewrite Rmult_assoc, Rinv_l by lra. lra.
  - exists o1, o2. rewrite !Heat_pw. split; [exact E1|]. split; [exact E2|]. unfold gs1, gs2 in B. rewrite !map_length in B. eapply Rle_trans; [exact B|]. right. rewrite (Rmult_plus_distr_l (s / l1)). reflexivity.
Qed.
(** With the largest eigenvalue as lmax on both graphs. *)
Theorem C93_heat_is_stable_exact_lmax : forall F1 F2 scale f s x,
  let n := v_N F1 in let m := List.length (pvals scale) in
  spectral F1 -> spectral F2 -> v_N F2 = n -> (0 < n)%nat -> v_lmax F1 = nth (n - 1) (v_e F1) 0 -> v_lmax F2 = nth (n - 1) (v_e F2) 0 -> 0 < v_lmax F1 -> 0 < v_lmax F2 ->
  psd n (v_L F2) -> nth_error (pvals scale) f = Some s -> 0 <= s ->
  exists out1 out2, gfilter F1 (Heat F1 scale false) Exact (vec_arr n x) = Ok out1 /\ gfilter F2 (Heat F2 scale false) Exact (vec_arr n x) = Ok out2 /\
    norm2 n (vminus (ans F2 m out2 f) (ans F1 m out1 f)) <= 2 * s / v_lmax F1 * fro n (fun i j => v_L F1 i j - v_L F2 i j) * norm2 n x.
Proof.
  intros F1 F2 scale f s x n m H1 H2 En Hn L1 L2 P1 P2 Hpsd Hf Hs. pose proof (proj2 H2) as Q2. rewrite En in Q2.
  destruct (C93_heat_is_stable F1 F2 scale f s x H1 H2 En Hf Hs P1 P2) as (o1 & o2 & E1 & E2 & B).
  - intros t Ht. apply (In_nth _ _ 0) in Ht as (k & Hk & <-). rewrite (proj1 H2), En in Hk. fold n in Hk. split.
    + pose proof (eigh_eigenpair _ _ _ _ Q2 k Hk) as Ep. pose proof (eigenpair_quad n (v_L F2) _ _ Ep) as Eq. pose proof (Hpsd (fun i => v_U F2 i k)) as Pq.
      assert (N : normsq n (fun i => v_U F2 i k) = 1). { pose proof (eigh_cols _ _ _ _ Q2 k k Hk Hk) as C. rewrite Nat.eqb_refl in C. exact C. }
      rewrite Eq, N in Pq. lra.
    + rewrite L2. apply (eigh_sort _ _ _ _ Q2 k (n - 1)%nat); lia.
  - exists o1, o2. split; [exact E1|]. split; [exact E2|]. eapply Rle_trans; [exact B|]. apply Rmult_le_compat_r; [apply norm2_nonneg|].
    pose proof (C93_spectrum_is_stable F1 F2 H1 H2 En (n - 1)%nat ltac:(fold n; lia)) as D. rewrite <- L1, <- L2 in D. fold n in D.
    assert (Q : 0 <= s / v_lmax F1) by (apply Rmult_le_pos; [exact Hs|left; apply Rinv_0_lt_compat; exact P1]).
    replace (2 * s / v_lmax F1 * fro n (fun i j => v_L F1 i j - v_L F2 i j)) with (s / v_lmax F1 * (fro n (fun i j => v_L F1 i j - v_L F2 i j) + fro n (fun i j => v_L F1 i j - v_L F2 i j))) by (field; lra).
    apply Rmult_le_compat_l; [exact Q|]. fold n. lra.
Qed.

(** ** C93: rounding *)
(** The weighted degrees and the Laplacian are computed in floating point and the eigensolver is exact: the output is off by at
    most K ((1+u)^n - 1) sqrt(sum dw^2). *)
Theorem C93_filtering_with_a_rounded_laplacian : forall Fl rnd u tin tout G lmax e U e' U' gs f K lo hi x,
  let n := g_n_vertices G in let L' := r_lap_comb rnd tin tout (gW G) in let F := mkview n (gL G) lmax e U in let F' := mkview n L' lmax e' U' in
  rounding Fl rnd u -> built G -> nonneg_weights G -> undirected G -> g_lap_type G = Combinatorial ->
  (forall i j, (i < n)%nat -> (j < n)%nat -> Fl (wt G i j)) -> sums_all n tin ->
  spectral F -> spectral F' -> (f < List.length gs)%nat -> (forall t, In t e \/ In t e' -> lo <= t <= hi) -> lipschitz (nth f gs (fun _ => 0)) K lo hi -> 0 <= K ->
  exists out out', gfilter F (map pw gs) Exact (vec_arr n x) = Ok out /\ gfilter F' (map pw gs) Exact (vec_arr n x) = Ok out' /\
    norm2 n (vminus (ans F' (List.length gs) out' f) (ans F (List.length gs) out f)) <= K * (((1 + u) ^ n - 1) * norm2 n (dw (gW G))) * norm2 n x.
Proof.
  intros Fl rnd u tin tout G lmax e U e' U' gs f K lo hi x n L' F F' Hr Hb Hp Hu Ht HF Hs H1 H2 Hf Hr' Hg HK.
  destruct (C92_laplacian_error Fl rnd u tin tout G Hr Hb Hp Hu Ht HF Hs) as (Off & Dia & _). fold n L' in Off, Dia.
  assert (G1 : 0 <= (1 + u) ^ n - 1). { pose proof (r_unit _ _ _ Hr). pose proof (pow_R1_Rle (1 + u) n). lra. }
  assert (HB : fro n (fun i j => gL G i j - L' i j) <= ((1 + u) ^ n - 1) * norm2 n (dw (gW G))).
  { apply sq_le; [apply Rmult_le_pos; [exact G1|apply norm2_nonneg]|]. rewrite fro_sq.
    replace (((1 + u) ^ n - 1) * norm2 n (dw (gW G)) * (((1 + u) ^ n - 1) * norm2 n (dw (gW G)))) with (((1 + u) ^ n - 1) * ((1 + u) ^ n - 1) * (norm2 n (dw (gW G)) * norm2 n (dw (gW G)))) by ring.
    rewrite norm2_sq. unfold normsq, dot. rewrite <- rsum_scal_l. apply rsum_le. intros i Hi.
    rewrite (rsum_single n _ i Hi). 2:{ intros j Hj Hne. rewrite (Off i j Hi Hj) by auto. ring. }
    specialize (Dia i Hi). rewrite Rabs_minus_sym in Dia.
    replace (((1 + u) ^ n - 1) * ((1 + u) ^ n - 1) * (dw (gW G) i * dw (gW G) i)) with ((((1 + u) ^ n - 1) * dw (gW G) i) * (((1 + u) ^ n - 1) * dw (gW G) i)) by ring.
    apply (Rsqr_le_abs_1 (gL G i i - L' i i)). eapply Rle_trans; [exact Dia|apply Rle_abs]. }
  destruct (C93_filtering_is_stable F F' gs gs f K 0 lo hi x H1 H2 eq_refl Hf Hf Hr' Hg HK (Rle_refl 0)) as (o1 & o2 & E1 & E2 & B).
  { intros t _. rewrite Rminus_eq_0, Rabs_R0. lra. }
  exists o1, o2. split; [exact E1|]. split; [exact E2|]. eapply Rle_trans; [exact B|]. rewrite Rplus_0_r. apply Rmult_le_compat_r; [apply norm2_nonneg|]. apply Rmult_le_compat_l; [exact HK|exact HB].
Qed.

(** ** C93: discontinuous kernels are not stable *)
(** Two edges of weight 1 and t. *)
Definition two_edges (t : R) : list R := [0; 1; 0; 0;  1; 0; 0; 0;  0; 0; 0; t;  0; 0; t; 0].
Lemma two_edges_graph t : 0 < t <= 1 -> exists G, built G /\ nonneg_weights G /\ undirected G /\ g_lap_type G = Combinatorial /\ g_n_vertices G = 4%nat /\
  (forall i j, (i < 4)%nat -> (j < 4)%nat -> wt G i j = nth (i * 4 + j) (two_edges t) 0) /\
  eigenpair 4 (gL G) 2 (fun i => nth i [1; -1; 0; 0] 0) /\ eigenpair 4 (gL G) (2 * t) (fun i => nth i [0; 0; 1; -1] 0) /\
  (forall mu y, eigenpair 4 (gL G) mu y -> 0 <= mu <= 2).
Proof.
  intros Ht0. destruct (finite_entry_built 4 (two_edges t) Combinatorial None eq_refl (or_introl eq_refl)) as (G & _ & Hb & Hn & Ht & _ & Hw). exists G.
  assert (Hp : nonneg_weights G).
  { intros i j Hi Hj. rewrite Hn in Hi, Hj. rewrite Hw by assumption. do 4 (destruct i as [|i]; [do 4 (destruct j as [|j]; [cbn; lra|]); lia|]). lia. }
  assert (Hu : undirected G).
  { intros i j Hi Hj. rewrite Hn in Hi, Hj. rewrite !Hw by assumption. do 4 (destruct i as [|i]; [do 4 (destruct j as [|j]; [reflexivity|]); lia|]). lia. }
  destruct (C09_combinatorial_structure G Hb Ht) as (_ & R1 & O1 & _). rewrite Hn in R1, O1.
  assert (Lx : forall x i, (i < 4)%nat -> mulv 4 (gL G) x i = nth i [x 0%nat - x 1%nat; x 1%nat - x 0%nat; t * (x 2%nat - x 3%nat); t * (x 3%nat - x 2%nat)] 0).
  { assert (OD : forall i j, (i < 4)%nat -> (j < 4)%nat -> i <> j -> gL G i j = - nth (i * 4 + j) (two_edges t) 0).
    { intros i j Hi Hj Hne. rewrite O1 by assumption. rewrite (Hu j i) by (rewrite Hn; assumption). rewrite Hw by assumption. field. }
    assert (Dg : forall i, (i < 4)%nat -> gL G i i = nth i [1; 1; t; t] 0).
    { intros i Hi. specialize (R1 i Hi). cbn [rsum] in R1. destruct i as [|[|[|[|i]]]]; try lia;
        repeat match type of R1 with context [gL G ?a ?b] => rewrite (OD a b) in R1 by lia end; cbn in R1 |- *; lra. }
    intros x i Hi. unfold mulv. cbn [rsum]. destruct i as [|[|[|[|i]]]]; try lia;
      repeat match goal with |- context [gL G ?a ?a] => rewrite (Dg a) by lia | |- context [gL G ?a ?b] => rewrite (OD a b) by lia end; cbn; ring. }
  split; [exact Hb|]. split; [exact Hp|]. split; [exact Hu|]. split; [exact Ht|]. split; [exact Hn|]. split; [exact Hw|]. split; [|split].
  - split; [intros Z; specialize (Z 0%nat ltac:(lia)); cbn in Z; lra|]. intros i Hi. rewrite Lx by exact Hi. do 4 (destruct i as [|i]; [cbn; lra|]). lia.
  - split; [intros Z; specialize (Z 2%nat ltac:(lia)); cbn in Z; lra|]. intros i Hi. rewrite Lx by exact Hi. do 4 (destruct i as [|i]; [cbn; lra|]). lia.
  - intros mu y (Hz & He). assert (E : forall i, (i < 4)%nat -> nth i [y 0%nat - y 1%nat; y 1%nat - y 0%nat; t * (y 2%nat - y 3%nat); t * (y 3%nat - y 2%nat)] 0 = mu * y i) by (intros i Hi; rewrite <- Lx by exact Hi; apply He; exact Hi).
    pose proof (E 0%nat ltac:(lia)) as E0. pose proof (E 1%nat ltac:(lia)) as E1. pose proof (E 2%nat ltac:(lia)) as E2. pose proof (E 3%nat ltac:(lia)) as E3. cbn [nth] in E0, E1, E2, E3.
    (* mu (y0 + y1) = 0 and (mu - 2) (y0 - y1) = 0; likewise (mu - 2t) (y2 - y3) = 0 *)
    destruct (Req_dec mu 0) as [->|M0]; [lra|]. destruct (Req_dec mu 2) as [->|M2]; [lra|]. destruct (Req_dec mu (2 * t)) as [->|Mt]; [lra|]. exfalso. apply Hz.
    assert (S01 : y 0%nat + y 1%nat = 0). { apply Rmult_eq_reg_l with mu; [|exact M0]. lra. }
    assert (S23 : y 2%nat + y 3%nat = 0). { apply Rmult_eq_reg_l with mu; [|exact M0]. lra. }
    assert (D01 : y 0%nat - y 1%nat = 0). { apply Rmult_eq_reg_l with (mu - 2); lra. }
    assert (D23 : y 2%nat - y 3%nat = 0). { apply Rmult_eq_reg_l with (mu - 2 * t); lra. }
    intros i Hi. do 4 (destruct i as [|i]; [lra|]). lia.
Qed.
(** Rectangular(G, band_max=1/2): for every eps there are two graphs with the same lmax whose weights differ by less than eps, and a
    signal of norm sqrt 2 which one filter keeps and the other annihilates. *)
Theorem C93_rectangular_refuted : forall eps, 0 < eps -> exists G1 G2 x, built G1 /\ built G2 /\ nonneg_weights G1 /\ nonneg_weights G2 /\ undirected G1 /\ undirected G2 /\
  g_lap_type G1 = Combinatorial /\ g_lap_type G2 = Combinatorial /\ g_n_vertices G1 = 4%nat /\ g_n_vertices G2 = 4%nat /\
  (forall i j, (i < 4)%nat -> (j < 4)%nat -> Rabs (wt G1 i j - wt G2 i j) < eps) /\
  (forall G, G = G1 \/ G = G2 -> (exists y, eigenpair 4 (gL G) 2 y) /\ (forall mu y, eigenpair 4 (gL G) mu y -> mu <= 2)) /\
  normsq 4 x = 2 /\
  forall e1 U1 e2 U2, let F1 := mkview 4 (gL G1) 2 e1 U1 in let F2 := mkview 4 (gL G2) 2 e2 U2 in spectral F1 -> spectral F2 ->
    exists out1 out2, gfilter F1 [pw (rect_fun 2 None (Some (/ 2)))] Exact (vec_arr 4 x) = Ok out1 /\ gfilter F2 [pw (rect_fun 2 None (Some (/ 2)))] Exact (vec_arr 4 x) = Ok out2 /\
      (forall i, (i < 4)%nat -> ans F1 1 out1 0 i = x i) /\ (forall i, (i < 4)%nat -> ans F2 1 out2 0 i = 0).
Proof.
  intros eps He. set (d := Rmin (eps / 2) (/ 4)). assert (D : 0 < d <= / 4 /\ d < eps) by (unfold d; split; [split; [apply Rmin_glb_lt; lra|apply Rmin_r]|pose proof (Rmin_l (eps / 2) (/ 4)); lra]).
  destruct (two_edges_graph (/ 2) ltac:(lra)) as (G1 & B1 & P1 & U1 & T1 & N1 & W1 & A1 & Z1 & M1).
  destruct (two_edges_graph (/ 2 + d) ltac:(lra)) as (G2 & B2 & P2 & U2 & T2 & N2 & W2 & A2 & Z2 & M2).
  exists G1, G2, (fun i => nth i [0; 0; 1; -1] 0).
  split; [exact B1|]. split; [exact B2|]. split; [exact P1|]. split; [exact P2|]. split; [exact U1|]. split; [exact U2|]. split; [exact T1|]. split; [exact T2|]. split; [exact N1|]. split; [exact N2|].
  split; [|split; [|split]].
  - intros i j Hi Hj. rewrite W1, W2 by assumption. do 4 (destruct i as [|i]; [do 4 (destruct j as [|j]; [cbn; unfold Rabs; destruct Rcase_abs; lra|]); lia|]). lia.
  - intros G [ -> | -> ]; (split; [eexists; eassumption|]); intros mu y Hy; [apply (M1 mu y Hy)|apply (M2 mu y Hy)].
  - unfold normsq, dot. cbn. lra.
  - intros e1 V1 e2 V2 F1 F2 H1 H2.
    destruct (C19_eigenvectors_are_scaled_by_the_kernel F1 [rect_fun 2 None (Some (/ 2))] _ _ H1 Z1) as (o1 & E1 & Q1).
    destruct (C19_eigenvectors_are_scaled_by_the_kernel F2 [rect_fun 2 None (Some (/ 2))] _ _ H2 Z2) as (o2 & E2 & Q2).
    exists o1, o2. split; [exact E1|]. split; [exact E2|]. split; intros i Hi.
    + pose proof (Q1 0%nat i ltac:(cbn; lia) Hi) as Q. cbn [List.length] in Q. rewrite Q. clear Q. cbn [nth]. unfold rect_fun. destruct (Rleb_spec (2 * / 2 / 2) (/ 2)); [ring|lra].
    + pose proof (Q2 0%nat i ltac:(cbn; lia) Hi) as Q. cbn [List.length] in Q. rewrite Q. clear Q. cbn [nth]. unfold rect_fun. destruct (Rleb_spec (2 * (/ 2 + d) / 2) (/ 2)); [lra|ring].
Qed.

(** ** Instances *)
(** A basis that is 1% too long: every hypothesis about inexact bases is met with delta = 0.0201. *)
Example C93_inexact_ex :
  let F := mkview 2 (v_L (k2_view 2)) 2 [0; 2] (fun i k => 1.01 * k2U i k) in let gs := [fun t => heat_fun 2 3 t / 1] in
  List.length (v_e F) = v_N F /\ spectral (mkview 2 (v_L F) 2 [0; 2] k2U) /\ (forall t, In t (v_e F) -> 0 <= t <= 2) /\
  lipschitz (nth 0 gs (fun _ => 0)) (3 / 2) 0 2 /\ (forall t, In t [0; 2] -> Rabs (nth 0 gs (fun _ => 0) t) <= 1) /\ nearly_orthogonal 2 (v_U F) 0.0201.
Proof.
  cbv zeta. split; [reflexivity|]. split; [exact (k2_spectral 2)|]. split; [intros t [<-|[<-|[]]]; lra|]. split; [apply heat_lipschitz; lra|]. split.
  - intros t Ht. cbn [nth]. unfold Rdiv at 1. rewrite Rinv_1, Rmult_1_r, heat_exp by lra. rewrite Rabs_pos_eq by (left; apply exp_pos). rewrite <- exp_0.
    assert (P : 0 <= 3 / 2 * Rmax t 0) by (apply Rmult_le_pos; [lra|apply Rmax_r]). destruct P as [P|P]; [left; apply exp_increasing; lra|right; f_equal; lra].
  - split; [lra|]. intros x. cbn [v_U]. pose proof (proj2 (k2_spectral 2)) as H. cbn [v_N v_L v_e v_U k2_view] in H.
    rewrite (norm2_ext 2 _ (fun i => 0.0201 * x i)); [rewrite norm2_scal, Rabs_pos_eq by lra; lra|].
    intros i Hi. pose proof (eigh_expand 2 _ _ _ H x i Hi) as E. unfold coef in E.
    rewrite (rsum_ext 2 _ (fun k => (1.01 * 1.01) * (k2U i k * \sum_(j < 2) (k2U j k * x j)))) by (intros k Hk; rewrite (rsum_ext 2 (fun j => 1.01 * k2U j k * x j) (fun j => 1.01 * (k2U j k * x j))) by (intros; ring); rewrite rsum_scal_l; ring).
    rewrite rsum_scal_l, E. lra.
Qed.
(** Two close graphs. *)
Example C93_weights_ex : exists G1 G2 e1 U1 e2 U2, built G1 /\ built G2 /\ g_lap_type G1 = Combinatorial /\ g_lap_type G2 = Combinatorial /\ g_n_vertices G1 = 4%nat /\ g_n_vertices G2 = 4%nat /\
  (forall i j, (i < 4)%nat -> (j < 4)%nat -> Rabs (wt G1 i j - wt G2 i j) <= 0.1) /\ spectral (mkview 4 (gL G1) 2 e1 U1) /\ spectral (mkview 4 (gL G2) 2 e2 U2) /\
  (forall t, In t e1 \/ In t e2 -> 0 <= t <= 2) /\ (exists i j, wt G1 i j <> wt G2 i j) /\ psd 4 (gL G2) /\ nth 3 e1 0 = 2 /\ nth 3 e2 0 = 2.
Proof.
  destruct (two_edges_graph 0.5 ltac:(lra)) as (G1 & B1 & P1 & Q1 & T1 & N1 & W1 & A1 & Z1 & M1).
  destruct (two_edges_graph 0.6 ltac:(lra)) as (G2 & B2 & P2 & Q2 & T2 & N2 & W2 & A2 & Z2 & M2).
  destruct (C82_every_graph_has_a_fourier_basis G1 2 B1) as (e1 & U1 & S1). destruct (C82_every_graph_has_a_fourier_basis G2 2 B2) as (e2 & U2 & S2). rewrite N1 in S1. rewrite N2 in S2.
  exists G1, G2, e1, U1, e2, U2. split; [exact B1|]. split; [exact B2|]. split; [exact T1|]. split; [exact T2|]. split; [exact N1|]. split; [exact N2|].
  assert (R : forall G e U, spectral (mkview 4 (gL G) 2 e U) -> (forall mu y, eigenpair 4 (gL G) mu y -> 0 <= mu <= 2) -> eigenpair 4 (gL G) 2 (fun i => nth i [1; -1; 0; 0] 0) ->
    (forall t, In t e -> 0 <= t <= 2) /\ nth 3 e 0 = 2).
  { intros G e U S M A. assert (H : forall t, In t e -> 0 <= t <= 2). { intros t Ht. apply (In_nth _ _ 0) in Ht as (k & Hk & <-). pose proof (proj1 S) as Hl. cbn [v_e v_N] in Hl. rewrite Hl in Hk. apply (M _ _ (eigh_eigenpair _ _ _ _ (proj2 S) k Hk)). }
    split; [exact H|]. destruct (eigh_complete _ _ _ _ (proj2 S) _ _ A) as (k & Hk & Ek). cbn [v_N v_e] in Hk, Ek. apply Rle_antisym.
    - apply H, nth_In. pose proof (proj1 S) as Hl. cbn [v_e v_N] in Hl. rewrite Hl. lia.
    - rewrite <- Ek. apply (eigh_sort _ _ _ _ (proj2 S) k 3%nat); cbn [v_N]; lia. }
  destruct (R G1 e1 U1 S1 M1 A1) as (R1 & E1). destruct (R G2 e2 U2 S2 M2 A2) as (R2 & E2).
  split; [|split; [exact S1|split; [exact S2|split; [intros t [H|H]; auto|split; [|split; [|split; assumption]]]]]].
  - intros i j Hi Hj. rewrite W1, W2 by assumption. do 4 (destruct i as [|i]; [do 4 (destruct j as [|j]; [cbn; unfold Rabs; destruct Rcase_abs; lra|]); lia|]). lia.
  - exists 2%nat, 3%nat. rewrite W1, W2 by lia. cbn. lra.
  - intros x. pose proof (eigh_quad_ge _ _ _ _ (proj2 S2) x 0) as H. cbn [v_N v_L v_e v_U] in H. specialize (H ltac:(intros k Hk; apply R2, nth_In; pose proof (proj1 S2) as Hl; cbn [v_e v_N] in Hl; rewrite Hl; exact Hk)). lra.
Qed.
