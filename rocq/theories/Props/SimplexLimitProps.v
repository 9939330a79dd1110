(** C115: classification_tikhonov_simplex against classification_tikhonov: the constraint is never active, and the solver converges to the same logits. *)
From Coq Require Import Reals Lra Lia List Arith Bool String ZArith Classical.
From Verif.Base Require Import RSum Prelude LinAlg Solve.
From Verif.Spec Require Import Matrix NdArray GraphSpec Reach LapSpec LearnSpec StabSpec.
From Verif.Model Require Import Sparse Graph Traverse Utils Learning.
From Verif.Proofs Require Import SparseFacts InitFacts EdgeFacts LapFacts MaxPrinciple TikhonovFacts TraverseFacts.
From Verif.Props Require Import Core Laplacian Traversal Caching UtilsProps ReductionProps LearningProps StabilityProps VotingProps SimplexProps SampProps ClassProps.
Import ListNotations.
Open Scope R_scope.
Open Scope list_scope.

(** With tau > 0 the logits are what the solver answered, one column per class up to the largest one. *)
Lemma logits_pos G y M tau sol : (0 < g_n_vertices G)%nat -> List.length M = g_n_vertices G -> List.length y = g_n_vertices G -> 0 < tau ->
  let C := S (list_max (mask_labels M y)) in
  exists x, classification_tikhonov G y M tau sol = Ok x /\ shape x = [g_n_vertices G; C] /\ forall v c, (c < C)%nat -> aget x [v; c] = sol c v.
Proof.
  intros Hn HM Hy Ht C. set (n := g_n_vertices G) in *.
  assert (Lm : List.length (mask_labels M y) = n) by (unfold mask_labels; rewrite map_length, seq_length; exact Hy).
  set (g := fun idx => if Nat.eqb (nth 1 idx 0%nat) (nth (nth 0 idx 0%nat) (mask_labels M y) 0%nat) then 1 else 0).
  assert (EY : to_logits (mask_labels M y) = Ok (Arr [n; C] g)). { unfold to_logits. rewrite Lm. destruct (mask_labels M y) eqn:E; [cbn in Lm; lia|]. reflexivity. }
  unfold classification_tikhonov. rewrite Hy, HM, Nat.eqb_refl. cbn [negb]. rewrite EY. cbn [bindr].
  destruct (regression_pos G false (Arr [n; C] g) C _ M tau sol (columns2 n C g) HM Ht) as (x & E & Sx & xs & Hx & Ex).
  exists x. split; [exact E|]. split; [exact Sx|]. intros v c Hc. rewrite <- (Ex c v Hc). inversion Hx; subst; [discriminate Sx|reflexivity].
Qed.

Lemma nat_above a : exists K, a < INR K.
Proof.
  exists (Z.to_nat (up a)). destruct (archimed a) as (H & _). apply Rlt_le_trans with (1 := H). rewrite INR_IZR_INZ. apply IZR_le. lia.
Qed.
Lemma mdist2_nonneg n d a b : 0 <= mdist2 n d a b.
Proof. apply rsum_nonneg. intros i Hi. apply rsum_nonneg. intros c Hc. apply Rle_0_sqr. Qed.
Lemma mdist2_entry n d a b i c : (i < n)%nat -> (c < d)%nat -> (a i c - b i c) * (a i c - b i c) <= mdist2 n d a b.
Proof.
  intros Hi Hc. apply Rle_trans with (dist2 d (a i) (b i)).
  - apply (rsum_ge_term d (fun c => (a i c - b i c) * (a i c - b i c)) c); [intros; apply Rle_0_sqr|exact Hc].
  - apply (rsum_ge_term n (fun i => dist2 d (a i) (b i)) i); [intros; apply rsum_nonneg; intros; apply Rle_0_sqr|exact Hi].
Qed.

Lemma grad_zero n d L M y tau X : (forall c i, (c < d)%nat -> (i < n)%nat -> tik_op n L M tau (fun v => X v c) i = zero_unlabelled M (onehot y c) i) ->
  forall i c, (i < n)%nat -> (c < d)%nat -> smooth_grad n L M (masked_logits M y) tau X i c = 0.
Proof.
  intros HX i c Hi Hc. specialize (HX c i Hc Hi). unfold tik_op, zero_unlabelled, onehot in HX. unfold smooth_grad, masked_logits, mval in *.
  destruct (nth i M false).
  - replace (1 * (1 * X i c - (if Nat.eqb c (nth i y 0%nat) then 1 else 0)) + tau * mulv n L (fun j => X j c) i) with 0 by lra. ring.
  - replace (0 * (0 * X i c - 0) + tau * mulv n L (fun j => X j c) i) with 0 by lra. ring.
Qed.
(** Around the solutions of the systems of the classes the objective grows at least like nu times the squared distance. *)
Lemma cost_gap n d L M y tau nu X z : symmetric n L -> (forall s, nu * normsq n s <= tik_cost n L M tau (fun _ => 0) s) ->
  (forall c i, (c < d)%nat -> (i < n)%nat -> tik_op n L M tau (fun v => X v c) i = zero_unlabelled M (onehot y c) i) ->
  class_cost n d L M y tau X + nu * mdist2 n d z X <= class_cost n d L M y tau z.
Proof.
  intros HS Hnu HX.
  assert (Ex : class_cost n d L M y tau z = class_cost n d L M y tau (fun i c => X i c + (z i c - X i c))).
  { unfold class_cost. f_equal; [f_equal; apply rsum_ext; intros c Hc; unfold quad; apply dot_ext; [intros i Hi; ring|intros i Hi; apply mulv_ext; [intros ? ?; reflexivity|intros j Hj; ring]]|].
    apply rsum_ext. intros i Hi. destruct (nth i M false); [|reflexivity]. apply rsum_ext. intros c Hc. ring. }
  rewrite Ex, cost_expand by exact HS.
  assert (Z : frob n d (smooth_grad n L M (masked_logits M y) tau X) (fun i c => z i c - X i c) = 0).
  { apply rsum_0. intros i Hi. apply rsum_0. intros c Hc. rewrite (grad_zero n d L M y tau X HX i c Hi Hc). ring. }
  rewrite Z.
  assert (S : \sum_(c < d) tik_cost n L M tau (fun _ => 0) (fun i => z i c - X i c) =
    tau * (\sum_(c < d) quad n L (fun i => z i c - X i c)) + \sum_(i < n) (if nth i M false then \sum_(c < d) ((z i c - X i c) * (z i c - X i c)) else 0)).
  { unfold tik_cost. rewrite rsum_plus, rsum_scal_l, rsum_swap. rewrite Rplus_comm. f_equal. apply rsum_ext. intros i Hi. destruct (nth i M false).
    - apply rsum_ext. intros c Hc. ring.
    - apply rsum_0. reflexivity. }
  rewrite <- S.
  assert (Q : nu * mdist2 n d z X = \sum_(c < d) (nu * normsq n (fun i => z i c - X i c))).
  { rewrite rsum_scal_l. f_equal. unfold mdist2, dist2, normsq, dot. apply rsum_swap. }
  rewrite Q. assert (\sum_(c < d) (nu * normsq n (fun i => z i c - X i c)) <= \sum_(c < d) tik_cost n L M tau (fun _ => 0) (fun i => z i c - X i c)) by (apply rsum_le; intros c Hc; apply Hnu). lra.
Qed.

(** For a graph with a label in every component there is one constant for all labels and numbers of classes. *)
Lemma gap_constant G M tau : built G -> nonneg_weights G -> g_lap_type G = Combinatorial -> 0 < tau -> covered G M ->
  exists nu, 0 < nu /\ forall s, nu * normsq (g_n_vertices G) s <= tik_cost (g_n_vertices G) (gL G) M tau (fun _ => 0) s.
Proof. intros Hb Hp Hl Ht HC. exact (C106_noisy_constant G M tau Hb Hp Hl Ht HC). Qed.

Lemma logits_core G M tau y sol : built G -> nonneg_weights G -> g_lap_type G = Combinatorial -> covered G M ->
  let n := g_n_vertices G in (0 < n)%nat -> List.length M = n -> List.length y = n -> 0 < tau -> solves_classes G M tau y sol ->
  exists x, let C := S (list_max (mask_labels M y)) in classification_tikhonov G y M tau sol = Ok x /\ shape x = [n; C] /\
    on_simplex n C (fun v c => aget x [v; c]) /\
    forall c i, (c < C)%nat -> (i < n)%nat -> tik_op n (gL G) M tau (fun v => aget x [v; c]) i = zero_unlabelled M (onehot y c) i.
Proof.
  intros Hb Hp Hl HC n Hn HM Ly Ht S.
  destruct (C41_rows_are_probabilities G y M tau sol Hb Hp Hl HC Hn Ly HM (or_introl Ht)) as (x & C & E & Sx & _ & _ & HR).
  { intros c. split; [apply (S c)|intros; lra]. }
  destruct (logits_pos G y M tau sol Hn HM Ly Ht) as (x' & E' & Sx' & Ex). rewrite E in E'. injection E' as <-. rewrite Sx in Sx'. injection Sx' as EC.
  exists x. cbv zeta. rewrite <- EC in *. split; [exact E|]. split; [exact Sx|]. split.
  { intros v Hv. destruct (HR v Hv) as (H1 & H2 & _). split; [intros c Hc; apply (H2 c Hc)|exact H1]. }
  intros c i Hc Hi. rewrite <- (cg_op G M tau (onehot y c) (sol c) (proj1 (S c) Ht) i Hi). unfold tik_op. rewrite Ex by exact Hc. f_equal. f_equal.
  apply mulv_ext; [intros ? ?; reflexivity|]. intros j Hj. apply Ex. exact Hc.
Qed.

(** The logits of classification_tikhonov are a point of the simplex, minimise the objective of classification_tikhonov_simplex over all matrices,
    and are the only minimiser of it on the simplex.  Both functions use the same number of classes. *)
Theorem C115_the_constraint_is_not_active : forall G M tau y sol lmax, built G -> nonneg_weights G -> g_lap_type G = Combinatorial -> covered G M ->
  let n := g_n_vertices G in (0 < n)%nat -> List.length M = n -> List.length y = n -> 0 < tau -> solves_classes G M tau y sol ->
  exists x C x0, classification_tikhonov G y M tau sol = Ok x /\ shape x = [n; C] /\ simplex_problem true y M tau lmax = Ok (C, x0, fb_step tau lmax) /\
    let X := fun v c => aget x [v; c] in
    on_simplex n C X /\
    (forall z, class_cost n C (gL G) M y tau X <= class_cost n C (gL G) M y tau z) /\
    (forall z, on_simplex n C z -> (forall w, on_simplex n C w -> class_cost n C (gL G) M y tau z <= class_cost n C (gL G) M y tau w) ->
      forall v c, (v < n)%nat -> (c < C)%nat -> z v c = X v c).
Proof.
  intros G M tau y sol lmax Hb Hp Hl HC n Hn HM Ly Ht S. pose proof (graph_is_laplacian G Hb Hp Hl) as HL. fold n in HL. pose proof HL as (HS & _).
  destruct (logits_core G M tau y sol Hb Hp Hl HC Hn HM Ly Ht S) as (x & E & Sx & OS & HX). set (C := Datatypes.S (list_max (mask_labels M y))) in *. fold n in Sx, OS, HX.
  destruct (gap_constant G M tau Hb Hp Hl Ht HC) as (nu & Hnu & Hgap).
  pose proof (fun z => cost_gap n C (gL G) M y tau nu (fun v c => aget x [v; c]) z HS Hgap HX) as Gap.
  exists x, C, (masked_logits M y). split; [exact E|]. split; [exact Sx|]. split.
  { unfold simplex_problem. cbn [negb]. destruct (Rleb tau 0) eqn:T; [apply Rleb_true in T; lra|]. rewrite Ly, HM, Nat.eqb_refl. cbn [negb].
    destruct y; [cbn in Ly; lia|]. reflexivity. }
  intros X. change (on_simplex n C X) in OS.
  split; [exact OS|]. split.
  - intros z. specialize (Gap z). pose proof (Rmult_le_pos nu _ (Rlt_le _ _ Hnu) (mdist2_nonneg n C z X)) as P. fold X in Gap. lra.
  - intros z Hz Hmin v c Hv Hc. specialize (Hmin X OS). specialize (Gap z). fold X in Gap.
    assert (D : mdist2 n C z X <= 0). { apply (Rmult_le_reg_l nu); [exact Hnu|]. lra. }
    pose proof (mdist2_entry n C z X v c Hv Hc) as D1. pose proof (Rle_0_sqr (z v c - X v c)) as D2. unfold Rsqr in D2.
    assert (Q : z v c - X v c = 0) by (apply Rmult_integral with (1 := Rle_antisym _ _ (Rle_trans _ _ _ D1 D) D2) || (apply Rsqr_0_uniq; unfold Rsqr; lra)). lra.
Qed.

(** The fixed points of the solver of classification_tikhonov_simplex are these logits, wherever it starts it converges to them: without
    acceleration geometrically, with it at least like 1 / k^2.  The constant nu depends on the graph, the mask and tau only. *)
Theorem C115_the_solver_converges_to_the_logits : forall G M tau, built G -> nonneg_weights G -> g_lap_type G = Combinatorial -> covered G M ->
  let n := g_n_vertices G in (0 < n)%nat -> List.length M = n -> 0 < tau ->
  exists nu, 0 < nu /\ forall y sol lmax, List.length y = n -> solves_classes G M tau y sol -> 0 <= lmax -> bounds_lap n (gL G) lmax ->
  exists x C, classification_tikhonov G y M tau sol = Ok x /\ shape x = [n; C] /\
    let X := fun v c => aget x [v; c] in let step := fb_step tau lmax in
    (forall z, fb_next n C (gL G) M y tau step z z <-> forall v c, (v < n)%nat -> (c < C)%nat -> z v c = X v c) /\
    (forall z, (forall k, fb_next n C (gL G) M y tau step (z k) (z (S k))) ->
       forall k, mdist2 n C (z k) X <= mdist2 n C (z 0%nat) X / (1 + 2 * step * nu) ^ k) /\
    (forall z u, fista_run n C (gL G) M y tau step z u ->
       forall k, mdist2 n C (z (S k)) X <= 2 * mdist2 n C (z 0%nat) X / (step * nu * INR (k + 2) ^ 2)).
Proof.
  intros G M tau Hb Hp Hl HC n Hn HM Ht. pose proof (graph_is_laplacian G Hb Hp Hl) as HL. fold n in HL. pose proof HL as (HS & _). pose proof (lap_psd _ _ HL) as HP.
  destruct (gap_constant G M tau Hb Hp Hl Ht HC) as (nu & Hnu & Hgap). fold n in Hgap. exists nu. split; [exact Hnu|]. intros y sol lmax Ly S Hlm HB.
  destruct (logits_core G M tau y sol Hb Hp Hl HC Hn HM Ly Ht S) as (x & E & Sx & OS & HX). set (C := Datatypes.S (list_max (mask_labels M y))) in *. fold n in Sx, OS, HX.
  exists x, C. split; [exact E|]. split; [exact Sx|]. intros X step. change (on_simplex n C X) in OS.
  assert (HCp : (0 < C)%nat) by (unfold C; lia).
  pose proof (fun z => cost_gap n C (gL G) M y tau nu X z HS Hgap HX) as Gap.
  assert (Htl : 0 <= tau * lmax) by (apply Rmult_le_pos; lra).
  assert (Hs : 0 < step) by (unfold step, fb_step; apply Rdiv_lt_0_compat; lra).
  assert (Hsn : 0 < step * nu) by (apply Rmult_lt_0_compat; assumption).
  assert (One : forall z z', fb_next n C (gL G) M y tau step z z' -> (1 + 2 * step * nu) * mdist2 n C z' X <= mdist2 n C z X).
  { intros z z' HF. pose proof (proj2 (fb_key n C (gL G) M y tau lmax z z' X HS HP HCp Ht Hlm HB HF OS)) as K. fold step in K. specialize (Gap z').
    assert (2 * step * (nu * mdist2 n C z' X) <= 2 * step * (class_cost n C (gL G) M y tau z' - class_cost n C (gL G) M y tau X)) by (apply Rmult_le_compat_l; lra). lra. }
  split; [|split].
  - intros z. split.
    + intros HF v c Hv Hc. specialize (One z z HF). pose proof (mdist2_nonneg n C z X) as P.
      assert (D : mdist2 n C z X <= 0). { apply (Rmult_le_reg_l (2 * step * nu)); [lra|]. lra. }
      pose proof (mdist2_entry n C z X v c Hv Hc) as D1. pose proof (Rle_0_sqr (z v c - X v c)) as D2. unfold Rsqr in D2.
      assert (Q : z v c - X v c = 0) by (apply Rsqr_0_uniq; unfold Rsqr; lra). lra.
    + intros Ez i Hi.
      assert (Hz : forall c j, (c < C)%nat -> (j < n)%nat -> tik_op n (gL G) M tau (fun v => z v c) j = zero_unlabelled M (onehot y c) j).
      { intros c j Hc Hj. rewrite <- (HX c j Hc Hj). unfold tik_op. rewrite (Ez j c Hj Hc). f_equal. f_equal. apply mulv_ext; [intros ? ?; reflexivity|]. intros k Hk. apply Ez; assumption. }
      set (p := fun c => z i c - step * smooth_grad n (gL G) M (masked_logits M y) tau z i c).
      destruct (sorts_exists C p) as (idx & HSo). destruct (C42_projection_is_the_closest_point C p idx HCp HSo) as (r & Er & _ & Hcl).
      exists idx, r. cbv zeta. fold p. split; [exact HSo|]. split; [exact Er|]. intros c Hc.
      assert (Sz : simplex C (z i)). { destruct (OS i Hi) as (S1 & S2). split; [intros k Hk; rewrite (Ez i k Hi Hk); apply S1; exact Hk|]. rewrite <- S2. apply rsum_ext. intros k Hk. apply Ez; assumption. }
      specialize (Hcl (z i) Sz).
      assert (P0 : dist2 C p (z i) = 0). { apply rsum_0. intros k Hk. unfold p. rewrite (grad_zero n C (gL G) M y tau z Hz i k Hi Hk). ring. }
      assert (P1 : 0 <= dist2 C p r) by (apply rsum_nonneg; intros; apply Rle_0_sqr).
      pose proof (rsum_ge_term C (fun c => (r c - z i c) * (r c - z i c)) c ltac:(intros; apply Rle_0_sqr) Hc) as D1. fold (dist2 C r (z i)) in D1.
      pose proof (Rle_0_sqr (r c - z i c)) as D2. unfold Rsqr in D2. cbn beta in D1.
      assert (Q : r c - z i c = 0) by (apply Rsqr_0_uniq; unfold Rsqr; lra). lra.
  - intros z HF k. assert (Pq : forall j, 0 < (1 + 2 * step * nu) ^ j) by (intros j; apply pow_lt; lra).
    induction k as [|k IH]; [cbn; lra|]. specialize (One _ _ (HF k)).
    apply (Rmult_le_reg_r ((1 + 2 * step * nu) ^ Datatypes.S k)); [apply Pq|].
    replace (mdist2 n C (z 0%nat) X / (1 + 2 * step * nu) ^ Datatypes.S k * (1 + 2 * step * nu) ^ Datatypes.S k) with (mdist2 n C (z 0%nat) X) by (field; pose proof (Pq (Datatypes.S k)); lra).
    apply (Rmult_le_compat_r ((1 + 2 * step * nu) ^ k)) in One; [|left; apply Pq].
    apply (Rmult_le_compat_r ((1 + 2 * step * nu) ^ k)) in IH; [|left; apply Pq].
    replace (mdist2 n C (z 0%nat) X / (1 + 2 * step * nu) ^ k * (1 + 2 * step * nu) ^ k) with (mdist2 n C (z 0%nat) X) in IH by (field; pose proof (Pq k); lra).
    cbn [pow]. lra.
  - intros z u HF k. pose proof (proj2 (C43_accelerated_rate G C M y tau lmax z u Hb Hp Hl HCp Ht Hlm HB HF k) X OS) as K. fold n in K. fold step in K. specialize (Gap (z (Datatypes.S k))).
    assert (Ik : 0 < INR (k + 2) ^ 2) by (apply pow_lt; apply lt_0_INR; lia). set (q := INR (k + 2) ^ 2) in *.
    assert (K2 : nu * mdist2 n C (z (Datatypes.S k)) X <= 2 * mdist2 n C (z 0%nat) X / (step * q)) by lra.
    apply (Rmult_le_reg_l nu); [exact Hnu|]. replace (nu * (2 * mdist2 n C (z 0%nat) X / (step * nu * q))) with (2 * mdist2 n C (z 0%nat) X / (step * q)) by (field; repeat split; lra). exact K2.
Qed.

(** Hence with either solver, from some step on, every entry is within eps of the logits, and at a vertex where one class has the largest logit it has the largest value. *)
Theorem C115_same_predictions_in_the_limit : forall G M tau y sol lmax z u, built G -> nonneg_weights G -> g_lap_type G = Combinatorial -> covered G M ->
  let n := g_n_vertices G in (0 < n)%nat -> List.length M = n -> List.length y = n -> 0 < tau -> solves_classes G M tau y sol ->
  0 <= lmax -> bounds_lap n (gL G) lmax ->
  exists x C, classification_tikhonov G y M tau sol = Ok x /\ shape x = [n; C] /\
    ((forall k, fb_next n C (gL G) M y tau (fb_step tau lmax) (z k) (z (S k))) \/ fista_run n C (gL G) M y tau (fb_step tau lmax) z u ->
     (forall eps, 0 < eps -> exists K, forall k, (K <= k)%nat -> forall v c, (v < n)%nat -> (c < C)%nat -> Rabs (z k v c - aget x [v; c]) <= eps) /\
     (forall v c, (v < n)%nat -> (c < C)%nat -> (forall c', (c' < C)%nat -> c' <> c -> aget x [v; c'] < aget x [v; c]) ->
        exists K, forall k, (K <= k)%nat -> forall c', (c' < C)%nat -> c' <> c -> z k v c' < z k v c)).
Proof.
  intros G M tau y sol lmax z u Hb Hp Hl HC n Hn HM Ly Ht S Hlm HB.
  destruct (C115_the_solver_converges_to_the_logits G M tau Hb Hp Hl HC Hn HM Ht) as (nu & Hnu & H).
  destruct (H y sol lmax Ly S Hlm HB) as (x & C & E & Sx & _ & H1 & H2). fold n in Sx, H1, H2. exists x, C. split; [exact E|]. split; [exact Sx|]. intros HF.
  assert (Htl : 0 <= tau * lmax) by (apply Rmult_le_pos; lra).
  assert (Hs : 0 < fb_step tau lmax) by (unfold fb_step; apply Rdiv_lt_0_compat; lra). set (step := fb_step tau lmax) in *.
  assert (Hsn : 0 < step * nu) by (apply Rmult_lt_0_compat; assumption). set (X := fun v c => aget x [v; c]) in *. set (D := mdist2 n C (z 0%nat) X) in *. pose proof (mdist2_nonneg n C (z 0%nat) X) as D0. fold D in D0.
  (* a bound that goes to 0 like 1 / k *)
  assert (B : forall k, mdist2 n C (z (Datatypes.S k)) X * (step * nu * INR (Datatypes.S k)) <= 2 * D).
  { intros k. pose proof (lt_0_INR (Datatypes.S k) ltac:(lia)) as Ik. assert (Pk : 0 < step * nu * INR (Datatypes.S k)) by (apply Rmult_lt_0_compat; assumption). destruct HF as [HF|HF].
    - specialize (H1 z HF (Datatypes.S k)). fold D in H1. pose proof (poly (Datatypes.S k) (2 * step * nu) ltac:(lra)) as Be.
      assert (Pq : 0 < (1 + 2 * step * nu) ^ Datatypes.S k) by (apply pow_lt; lra). set (q := (1 + 2 * step * nu) ^ Datatypes.S k) in *.
      apply Rle_trans with (D / q * (step * nu * INR (Datatypes.S k))); [apply Rmult_le_compat_r; lra|].
      apply Rle_trans with (D / q * q); [apply Rmult_le_compat_l; [apply Rmult_le_pos; [exact D0|left; apply Rinv_0_lt_compat; exact Pq]|lra]|].
      replace (D / q * q) with D by (field; lra). lra.
    - specialize (H2 z u HF k). fold D in H2. assert (Iq : INR (Datatypes.S k) <= INR (k + 2) ^ 2).
      { apply Rle_trans with (INR (k + 2)); [apply le_INR; lia|]. assert (1 <= INR (k + 2)) by (replace 1 with (INR 1) by reflexivity; apply le_INR; lia). cbn [pow]. nra. }
      assert (Pq : 0 < INR (k + 2) ^ 2) by lra. set (q := INR (k + 2) ^ 2) in *.
      apply Rle_trans with (2 * D / (step * nu * q) * (step * nu * q)).
      + apply Rle_trans with (2 * D / (step * nu * q) * (step * nu * INR (Datatypes.S k))); [apply Rmult_le_compat_r; lra|].
        apply Rmult_le_compat_l; [apply Rmult_le_pos; [lra|left; apply Rinv_0_lt_compat; apply Rmult_lt_0_compat; lra]|apply Rmult_le_compat_l; lra].
      + replace (2 * D / (step * nu * q) * (step * nu * q)) with (2 * D) by (field; lra). lra. }
  assert (Lim : forall eps, 0 < eps -> exists K, forall k, (K <= k)%nat -> forall v c, (v < n)%nat -> (c < C)%nat -> Rabs (z k v c - aget x [v; c]) <= eps).
  { intros eps He. destruct (nat_above (2 * D / (step * nu * (eps * eps)))) as (K & HK). exists (Datatypes.S K). intros k Hk v c Hv Hc.
    destruct k as [|k]; [lia|]. pose proof (mdist2_entry n C (z (Datatypes.S k)) X v c Hv Hc) as D1. specialize (B k). set (w := z (Datatypes.S k) v c - X v c) in *.
    change (Rabs w <= eps). assert (E2 : 0 < eps * eps) by (apply Rmult_lt_0_compat; lra).
    assert (IK : INR K <= INR (Datatypes.S k)) by (apply le_INR; lia).
    assert (W : w * w <= eps * eps).
    { apply Rle_trans with (1 := D1). set (m := mdist2 n C (z (Datatypes.S k)) X) in *. destruct (Rle_dec m (eps * eps)) as [|N]; [assumption|exfalso]. apply Rnot_le_lt in N.
      assert (I2 : 2 * D / (step * nu * (eps * eps)) < INR (Datatypes.S k)) by lra.
      apply (Rmult_lt_compat_r (step * nu * (eps * eps))) in I2; [|apply Rmult_lt_0_compat; assumption].
      replace (2 * D / (step * nu * (eps * eps)) * (step * nu * (eps * eps))) with (2 * D) in I2 by (field; repeat split; lra).
      assert (Pk : 0 < step * nu * INR (Datatypes.S k)) by (apply Rmult_lt_0_compat; [exact Hsn|apply lt_0_INR; lia]).
      pose proof (Rmult_lt_compat_r _ _ _ Pk N). lra. }
    apply Rsqr_incr_0_var; [|lra]. unfold Rsqr. rewrite <- Rabs_mult, Rabs_right by (apply Rle_ge; apply Rle_0_sqr). exact W. }
  split; [exact Lim|]. intros v c Hv Hc Hmax.
  assert (Gp : exists eps, 0 < eps /\ forall c', (c' < C)%nat -> c' <> c -> aget x [v; c'] + 3 * eps <= aget x [v; c]).
  { clear -Hmax. induction C as [|C IH]; [exists 1; split; [lra|intros; lia]|].
    destruct IH as (e & He & IH); [intros c' Hc' Ne; apply Hmax; [lia|exact Ne]|]. destruct (Nat.eq_dec C c) as [->|Ne].
    - exists e. split; [exact He|]. intros c' Hc' Ne. apply IH; [lia|exact Ne].
    - pose proof (Hmax C ltac:(lia) Ne) as Q. exists (Rmin e ((aget x [v; c] - aget x [v; C]) / 3)). split; [apply Rmin_pos; lra|]. intros c' Hc' Ne'.
      pose proof (Rmin_l e ((aget x [v; c] - aget x [v; C]) / 3)). pose proof (Rmin_r e ((aget x [v; c] - aget x [v; C]) / 3)).
      destruct (Nat.eq_dec c' C) as [->|]; [lra|]. specialize (IH c' ltac:(lia) Ne'). lra. }
  destruct Gp as (eps & He & Gp). destruct (Lim eps He) as (K & HK). exists K. intros k Hk c' Hc' Ne. specialize (Gp c' Hc' Ne).
  pose proof (HK k Hk v c Hv Hc) as A1. pose proof (HK k Hk v c' Hv Hc') as A2. pose proof (Rle_abs (z k v c' - aget x [v; c'])). pose proof (Rle_abs (- (z k v c - aget x [v; c]))) as A3. rewrite Rabs_Ropp in A3. lra.
Qed.

(** The hypotheses can be met: three vertices in a row, the ends labelled 0 and 1; the logits are (3/4, 1/4), (1/2, 1/2), (1/4, 3/4), and both solvers can run from every point. *)
Example C115_ex : exists G, built G /\ nonneg_weights G /\ g_lap_type G = Combinatorial /\ g_n_vertices G = 3%nat /\ covered G [true; false; true] /\
  bounds_lap 3 (gL G) 3 /\ exists sol, solves_classes G [true; false; true] 1 [0; 0; 1]%nat sol /\
  (exists x, classification_tikhonov G [0; 0; 1]%nat [true; false; true] 1 sol = Ok x /\ aget x [0; 1]%nat = 1 / 4 /\ aget x [0; 0]%nat = 3 / 4) /\
  forall x0, exists x v, x 0%nat = x0 /\ fista_run 3 2 (gL G) [true; false; true] [0; 0; 1]%nat 1 (fb_step 1 3) x v.
Proof.
  destruct (p3_graph None) as (G & Hb & Hn & Ht & _ & Hp & Hu & HC & HL). exists G.
  split; [exact Hb|]. split; [exact Hp|]. split; [exact Ht|]. split; [exact Hn|].
  split; [intros v Hv; exists 0%nat; split; [lia|]; split; [reflexivity|]; apply HC; lia|]. split.
  { intros v. rewrite (quad_ext 3 _ _ v HL). unfold quad, normsq, dot, mulv. cbn.
    pose proof (Rle_0_sqr (v 0%nat + v 1%nat + v 2%nat)). pose proof (Rle_0_sqr (v 0%nat - v 2%nat)). unfold Rsqr in *. nra. }
  exists (fun c => match c with 0%nat => fun v => nth v [3 / 4; 1 / 2; 1 / 4] 0 | 1%nat => fun v => nth v [1 / 4; 1 / 2; 3 / 4] 0 | _ => fun _ => 0 end).
  split.
  { intros c; split; [intros _|lra]; intros i Hi; rewrite Hn in *.
    unfold mulv. rewrite (rsum_ext 3 _ (fun j => nth (i * 3 + j) [1; -1; 0; -1; 2; -1; 0; -1; 1] 0 * (match c with 0%nat => fun v => nth v [3 / 4; 1 / 2; 1 / 4] 0 | 1%nat => fun v => nth v [1 / 4; 1 / 2; 3 / 4] 0 | _ => fun _ => 0 end) j)).
    2:{ intros j Hj. rewrite HL by assumption. reflexivity. }
    destruct c as [|[|c]]; destruct i as [|[|[|i]]]; try lia; cbn; lra. }
  split; [|intros x0; apply fista_runs; lia].
  destruct (logits_pos G [0; 0; 1]%nat [true; false; true] 1 (fun c => match c with 0%nat => fun v => nth v [3 / 4; 1 / 2; 1 / 4] 0 | 1%nat => fun v => nth v [1 / 4; 1 / 2; 3 / 4] 0 | _ => fun _ => 0 end)) as (x & E & _ & Ex); try (rewrite Hn; (lia || reflexivity)); [lra|].
  exists x. split; [exact E|]. rewrite (Ex 0%nat 1%nat) by (cbn; lia). rewrite (Ex 0%nat 0%nat) by (cbn; lia). split; reflexivity.
Qed.
