(** C39-C41: Tikhonov regression and classification. *)
From Coq Require Import Reals Lra Lia List Arith Bool.
From Coq Require Import List.
From Verif.Base Require Import RSum Prelude LinAlg Solve.
From Verif.Spec Require Import Matrix NdArray GraphSpec Reach LapSpec LearnSpec.
From Verif.Model Require Import Sparse Graph Traverse Filter Utils Reduction Learning.
From Verif.Proofs Require Import SparseFacts InitFacts EdgeFacts LapFacts SubgraphFacts MaxPrinciple SchurFacts TikhonovFacts.
From Verif.Props Require Import Core Laplacian Traversal Caching UtilsProps ReductionProps.
Import ListNotations.
Open Scope R_scope.

(** every vertex has a path to a labelled vertex *)
Definition covered (G : graph) (M : list bool) : Prop :=
  forall v, (v < g_n_vertices G)%nat -> exists b, (b < g_n_vertices G)%nat /\ labelled M b /\ reach (has_arc G) v b.
Lemma covered_lcov G M : built G -> nonneg_weights G -> g_lap_type G = Combinatorial -> covered G M -> lcov (g_n_vertices G) (gL G) M.
Proof.
  intros Hb Hp Ht HC i Hi. destruct (HC i Hi) as (b & Hb' & HB & R). exists b. split; [exact Hb'|]. split; [exact HB|]. apply arc_lap_reach; assumption.
Qed.
(** What cg is asked for: the solution of (M + tau L) x = M y. *)
Definition cg_ok (G : graph) (M : list bool) (tau : R) (y x : vec) : Prop :=
  forall i, (i < g_n_vertices G)%nat ->
    (if nth i M false then x i else 0) + tau * mulv (g_n_vertices G) (gL G) x i = (if nth i M false then y i else 0).
Lemma cg_op G M tau y x : cg_ok G M tau y x -> forall i, (i < g_n_vertices G)%nat -> tik_op (g_n_vertices G) (gL G) M tau x i = zero_unlabelled M y i.
Proof.
  intros H i Hi. specialize (H i Hi). unfold tik_op, zero_unlabelled, mval. destruct (nth i M false); lra.
Qed.
Lemma tau_pos tau : 0 < tau -> Rltb 0 tau = true. Proof. intros H. apply Rltb_true. exact H. Qed.
Lemma tau_zero tau : tau <= 0 -> Rltb 0 tau = false. Proof. intros H. destruct (Rltb 0 tau) eqn:E; [apply Rltb_true in E; lra|reflexivity]. Qed.

(** ** C39: tau > 0 *)
(** The output has the shape of the measurements, and each column is what the solver returned for the masked column. *)
Lemma regression_pos G b y c sig M tau sol : columns (g_n_vertices G) y c sig -> List.length M = g_n_vertices G -> 0 < tau ->
  exists x, regression_tikhonov G b y M tau sol = Ok x /\ shape x = shape y /\ exists xs, columns (g_n_vertices G) x c xs /\
    forall j i, (j < c)%nat -> xs j i = sol j i.
Proof.
  intros Hy HM Ht. unfold regression_tikhonov. rewrite (tau_pos tau Ht).
  inversion Hy as [g|c' g]; subst; cbn [shape]; rewrite HM, Nat.eqb_refl; cbn [negb];
    (eexists; split; [reflexivity|]; split; [reflexivity|]); eexists; (split; [constructor|]); intros j i Hj; cbn; [|reflexivity].
  assert (j = 0)%nat by lia. subst. reflexivity.
Qed.
Theorem C39_minimises G b y c sig M tau sol : built G -> nonneg_weights G -> g_lap_type G = Combinatorial ->
  columns (g_n_vertices G) y c sig -> List.length M = g_n_vertices G -> 0 < tau ->
  (forall j, (j < c)%nat -> cg_ok G M tau (sig j) (sol j)) ->
  exists x, regression_tikhonov G b y M tau sol = Ok x /\ shape x = shape y /\ exists xs, columns (g_n_vertices G) x c xs /\
    forall j z, (j < c)%nat ->
      tik_cost (g_n_vertices G) (gL G) M tau (sig j) (xs j) <= tik_cost (g_n_vertices G) (gL G) M tau (sig j) z.
Proof.
  intros Hb Hp Hl Hy HM Ht Hs. destruct (regression_pos G b y c sig M tau sol Hy HM Ht) as (x & E & Sx & xs & Hx & Ex).
  exists x. split; [exact E|]. split; [exact Sx|]. exists xs. split; [exact Hx|]. intros j z Hj.
  pose proof (graph_is_laplacian G Hb Hp Hl) as HL. pose proof HL as (Hsym & _).
  rewrite (tik_expand _ _ M tau (sig j) (xs j) z Hsym). rewrite rsum_0.
  - pose proof (tik_cost_nonneg (g_n_vertices G) (gL G) M tau (fun _ => 0) (fun i => z i - xs j i) (lap_psd _ _ HL) ltac:(lra)). lra.
  - intros i Hi. assert (EE : tik_op (g_n_vertices G) (gL G) M tau (xs j) i = zero_unlabelled M (sig j) i); [|rewrite EE; ring].
    rewrite <- (cg_op G M tau (sig j) (sol j) (Hs j Hj) i Hi). unfold tik_op. rewrite (Ex j i Hj). f_equal. f_equal.
    apply mulv_ext; [intros ? ?; reflexivity|]. intros k Hk. apply Ex. exact Hj.
Qed.
(** If the solver stops with residual r, the objective is at most 2 |<r, z - x>| above that of any other signal z. *)
Theorem C39_inexact_solver G M tau y x z : built G -> nonneg_weights G -> g_lap_type G = Combinatorial -> 0 < tau ->
  let n := g_n_vertices G in
  let r := fun i => (if nth i M false then y i else 0) - ((if nth i M false then x i else 0) + tau * mulv n (gL G) x i) in
  tik_cost n (gL G) M tau y x <= tik_cost n (gL G) M tau y z + 2 * (\sum_(i < n) ((z i - x i) * r i)).
Proof.
  intros Hb Hp Hl Ht n r. pose proof (graph_is_laplacian G Hb Hp Hl) as HL. fold n in HL. pose proof HL as (Hsym & _).
  rewrite (tik_expand n (gL G) M tau y x z Hsym).
  pose proof (tik_cost_nonneg n (gL G) M tau (fun _ => 0) (fun i => z i - x i) (lap_psd _ _ HL) ltac:(lra)).
  assert (E : \sum_(i < n) ((z i - x i) * (tik_op n (gL G) M tau x i - zero_unlabelled M y i)) = - \sum_(i < n) ((z i - x i) * r i)).
  { rewrite <- rsum_opp. apply rsum_ext. intros i Hi. unfold r, tik_op, zero_unlabelled, mval. destruct (nth i M false); ring. }
  rewrite E. lra.
Qed.
(** With a labelled vertex in every component the problem has exactly one solution, and it lies between the labels. *)
Theorem C39_unique_and_in_range G M tau y : built G -> nonneg_weights G -> g_lap_type G = Combinatorial -> 0 < tau -> covered G M ->
  let n := g_n_vertices G in
  (exists x, cg_ok G M tau y x) /\
  (forall x z, cg_ok G M tau y x -> (forall w, tik_cost n (gL G) M tau y z <= tik_cost n (gL G) M tau y w) -> veq n x z) /\
  (forall x v, cg_ok G M tau y x -> (v < n)%nat -> exists a b, (a < n)%nat /\ (b < n)%nat /\ labelled M a /\ labelled M b /\ y a <= x v <= y b).
Proof.
  intros Hb Hp Hl Ht HC n. pose proof (graph_is_laplacian G Hb Hp Hl) as HL. fold n in HL. pose proof HL as (Hsym & _).
  pose proof (covered_lcov G M Hb Hp Hl HC) as HC'. fold n in HC'. split; [|split].
  - destruct (tik_solvable n (gL G) M tau y HL Ht HC') as (x & Hx). exists x. intros i Hi. specialize (Hx i Hi).
    unfold tik_op, zero_unlabelled, mval in Hx. fold n. destruct (nth i M false); lra.
  - intros x z Hx Hz v Hv. specialize (Hz x). rewrite (tik_expand n (gL G) M tau y x z Hsym) in Hz.
    rewrite rsum_0 in Hz; [|intros i Hi; pose proof (cg_op G M tau y x Hx i Hi) as Q; fold n in Q; rewrite Q; ring].
    set (d := fun i => z i - x i) in *.
    pose proof (tik_cost_nonneg n (gL G) M tau (fun _ => 0) d (lap_psd _ _ HL) ltac:(lra)) as H0.
    assert (H1 : tik_cost n (gL G) M tau (fun _ => 0) d = 0) by lra. clear H0 Hz.
    (* the cost of d vanishes: so does its gradient *)
    assert (K : forall w, 0 <= 2 * (\sum_(i < n) ((w i - d i) * tik_op n (gL G) M tau d i)) + tik_cost n (gL G) M tau (fun _ => 0) (fun i => w i - d i)).
    { intros w. pose proof (tik_expand n (gL G) M tau (fun _ => 0) d w Hsym) as E. rewrite H1 in E.
      pose proof (tik_cost_nonneg n (gL G) M tau (fun _ => 0) w (lap_psd _ _ HL) ltac:(lra)).
      rewrite (rsum_ext n _ (fun i => (w i - d i) * tik_op n (gL G) M tau d i)) in E; [lra|].
      intros i Hi. unfold zero_unlabelled. destruct (nth i M false); ring. }
    assert (Hd : vzero n d).
    { apply (tik_kernel n (gL G) M tau d HL Ht HC').
      set (g := tik_op n (gL G) M tau d). set (gg := \sum_(i < n) (g i * g i)).
      assert (Hgg : gg = 0).
      { assert (Hgg0 : 0 <= gg) by (apply rsum_nonneg; intros; apply Rle_0_sqr).
        set (C := tik_cost n (gL G) M tau (fun _ => 0) g). assert (HC0 : 0 <= C) by (apply tik_cost_nonneg; [apply lap_psd; exact HL|lra]).
        assert (K2 : forall t, 0 <= - 2 * t * gg + t * t * C).
        { intros t. specialize (K (fun i => d i - t * g i)).
          rewrite (rsum_ext n _ (fun i => - t * (g i * g i))) in K by (intros i Hi; fold g; ring). rewrite rsum_scal_l in K. fold gg in K.
          replace (tik_cost n (gL G) M tau (fun _ => 0) (fun i => d i - t * g i - d i)) with (t * t * C) in K; [lra|].
          unfold C, tik_cost. rewrite Rmult_plus_distr_l. f_equal.
          - rewrite <- rsum_scal_l. apply rsum_ext. intros i Hi. destruct (nth i M false); ring.
          - unfold quad. rewrite (dot_ext n (fun i => d i - t * g i - d i) (fun i => - t * g i) (mulv n (gL G) (fun i => d i - t * g i - d i)) (fun i => - t * mulv n (gL G) g i)).
            + rewrite dot_scal_l, dot_scal_r. ring.
            + intros i Hi. ring.
            + intros i Hi. rewrite <- mulv_scal. apply mulv_ext; [intros ? ?; reflexivity|]. intros k Hk. ring. }
        destruct (Rle_lt_or_eq_dec 0 gg Hgg0) as [Hpos|<-]; [|reflexivity]. exfalso.
        specialize (K2 (gg / (C + 1))). assert (HC1 : 0 < C + 1) by lra.
        assert (E : - 2 * (gg / (C + 1)) * gg + gg / (C + 1) * (gg / (C + 1)) * C = - (gg / (C + 1)) * (gg / (C + 1)) * (C + 2)) by (field; lra).
        rewrite E in K2. assert (0 < gg / (C + 1)) by (apply Rdiv_lt_0_compat; assumption).
        assert (0 < gg / (C + 1) * (gg / (C + 1)) * (C + 2)) by (apply Rmult_lt_0_compat; [apply Rmult_lt_0_compat; assumption|lra]). lra. }
      intros i Hi. apply (normsq_zero n g Hgg i Hi). }
    specialize (Hd v Hv). unfold d in Hd. lra.
  - intros x v Hx Hv. destruct (tik_lower n (gL G) M tau y x HL Ht HC' (cg_op G M tau y x Hx) v Hv) as (a & Ha & HA & H1).
    destruct (tik_upper n (gL G) M tau y x HL Ht HC' (cg_op G M tau y x Hx) v Hv) as (b & Hb' & HB & H2).
    exists a, b. repeat (split; [assumption|]). assumption.
Qed.

(** ** C40: tau = 0 *)
(** What spsolve is asked for: L_uu s = W_ul y_l on the unlabelled vertices (in increasing order). *)
Definition spsolve_labels_ok (G : graph) (M : list bool) (y s : vec) : Prop :=
  let u := filter (fun v => negb (nth v M false)) (seq 0 (g_n_vertices G)) in
  let l := filter (fun v => nth v M false) (seq 0 (g_n_vertices G)) in
  forall k, (k < List.length u)%nat ->
    \sum_(i < List.length u) (gL G (nth k u 0%nat) (nth i u 0%nat) * s i) = - \sum_(j < List.length l) (gL G (nth k u 0%nat) (nth j l 0%nat) * y (nth j l 0%nat)).
Lemma spsolve_labels G M y s : List.length M = g_n_vertices G -> spsolve_labels_ok G M y s -> forall k, (k < List.length (indu M))%nat ->
    mulv (List.length (indu M)) (Luu (gL G) M) s k = \sum_(j < List.length (indl M)) (Wul (gL G) M k j * y (nth j (indl M) 0%nat)).
Proof.
  intros HM H k Hk. unfold spsolve_labels_ok in H. rewrite <- HM in H. specialize (H k Hk). unfold mulv, Luu, Wul.
  change (\sum_(i < List.length (indu M)) (gL G (nth k (indu M) 0%nat) (nth i (indu M) 0%nat) * s i) = - \sum_(j < List.length (indl M)) (gL G (nth k (indu M) 0%nat) (nth j (indl M) 0%nat) * y (nth j (indl M) 0%nat))) in H.
  rewrite H, <- rsum_opp. apply rsum_ext. intros; ring.
Qed.
Lemma regression_zero G y c sig M tau sol : columns (g_n_vertices G) y c sig -> List.length M = g_n_vertices G -> tau <= 0 ->
  (shape y = [g_n_vertices G] \/ c <> 1%nat \/ List.length (indu M) = 1%nat) ->
  exists x, regression_tikhonov G false y M tau sol = Ok x /\ shape x = shape y /\ exists xs, columns (g_n_vertices G) x c xs /\
    forall j i, (j < c)%nat -> xs j i = assign (sig j) (indu M) (sol j) i.
Proof.
  intros Hy HM Ht Hc. unfold regression_tikhonov. rewrite (tau_zero tau Ht), HM, Nat.eqb_refl. cbn [negb].
  inversion Hy as [g|c' g]; subst; cbn [shape] in *; rewrite Nat.eqb_refl; cbn [negb].
  - eexists. split; [reflexivity|]. split; [reflexivity|]. eexists. split; [constructor|]. intros j i Hj. assert (j = 0)%nat by lia. subst. reflexivity.
  - assert (E : (Nat.eqb c 1 && negb (Nat.eqb (List.length (indu M)) 1))%bool = false).
    { destruct (Nat.eqb_spec c 1); [|reflexivity]. cbn [andb]. destruct Hc as [Hc|[Hc|Hc]]; [discriminate|lia|]. rewrite Hc. reflexivity. }
    rewrite E. eexists. split; [reflexivity|]. split; [reflexivity|]. eexists. split; [constructor|]. intros j i Hj. reflexivity.
Qed.
Theorem C40_interpolates_with_least_energy G y c sig M tau sol : built G -> nonneg_weights G -> g_lap_type G = Combinatorial ->
  columns (g_n_vertices G) y c sig -> List.length M = g_n_vertices G -> tau <= 0 ->
  (shape y = [g_n_vertices G] \/ c <> 1%nat) -> covered G M ->
  (forall j, (j < c)%nat -> spsolve_labels_ok G M (sig j) (sol j)) ->
  let n := g_n_vertices G in
  exists x, regression_tikhonov G false y M tau sol = Ok x /\ shape x = shape y /\ exists xs, columns n x c xs /\
    forall j, (j < c)%nat ->
      (forall v, (v < n)%nat -> labelled M v -> xs j v = sig j v) /\
      (forall v, (v < n)%nat -> ~ labelled M v -> mulv n (gL G) (xs j) v = 0) /\
      (forall z, (forall v, (v < n)%nat -> labelled M v -> z v = sig j v) -> quad n (gL G) (xs j) <= quad n (gL G) z) /\
      (forall z, (forall v, (v < n)%nat -> labelled M v -> z v = sig j v) -> quad n (gL G) z = quad n (gL G) (xs j) -> veq n z (xs j)) /\
      (forall v, (v < n)%nat -> exists a b, (a < n)%nat /\ (b < n)%nat /\ labelled M a /\ labelled M b /\ sig j a <= xs j v <= sig j b).
Proof.
  intros Hb Hp Hl Hy HM Ht Hc HC Hs n.
  destruct (regression_zero G y c sig M tau sol Hy HM Ht ltac:(tauto)) as (x & E & Sx & xs & Hx & Ex).
  exists x. split; [exact E|]. split; [exact Sx|]. exists xs. split; [exact Hx|]. intros j Hj.
  pose proof (graph_is_laplacian G Hb Hp Hl) as HL. fold n in HL. pose proof HL as (Hsym & _).
  pose proof (covered_lcov G M Hb Hp Hl HC) as HC'. fold n in HC'. unfold labelled.
  pose proof (spsolve_labels G M (sig j) (sol j) HM (Hs j Hj)) as HS.
  assert (Xm : forall v, mulv n (gL G) (xs j) v = mulv n (gL G) (assign (sig j) (indu M) (sol j)) v).
  { intros v. apply mulv_ext; [intros ? ?; reflexivity|]. intros k Hk. apply Ex. exact Hj. }
  assert (Hlab : forall v, (v < n)%nat -> nth v M false = true -> xs j v = sig j v).
  { intros v Hv HB. rewrite Ex by exact Hj. apply harm_label. exact HB. }
  assert (Hharm : forall v, (v < n)%nat -> nth v M false = false -> mulv n (gL G) (xs j) v = 0).
  { intros v Hv Hf. rewrite Xm. apply (harm_zero n (gL G) M (sig j) (sol j) HM HS v Hv Hf). }
  assert (Hmin : forall z, (forall v, (v < n)%nat -> nth v M false = true -> z v = sig j v) -> quad n (gL G) (xs j) <= quad n (gL G) z).
  { intros z Hz. apply (harm_min n (gL G) M (xs j) z Hsym (lap_psd _ _ HL) Hharm). intros v Hv HB. rewrite (Hz v Hv HB), (Hlab v Hv HB). reflexivity. }
  split; [exact Hlab|]. split; [|split; [exact Hmin|split]].
  - intros v Hv Hn. apply Hharm; [exact Hv|]. destruct (nth v M false); [contradiction|reflexivity].
  - intros z Hz Hq v Hv.
    (* a minimiser is harmonic: the energy cannot decrease in any direction vanishing on the labels *)
    assert (Hzh : forall v, (v < n)%nat -> nth v M false = false -> mulv n (gL G) z v = 0).
    { intros w Hw Hf. set (g := mulv n (gL G) z w). set (C := gL G w w).
      assert (K : forall t, 0 <= 2 * t * g + t * t * C).
      { intros t. set (u := fun i => z i + t * unitv w i).
        assert (Hu : forall a, (a < n)%nat -> nth a M false = true -> u a = sig j a).
        { intros a Ha HA. unfold u, unitv. destruct (Nat.eqb_spec a w); [subst; congruence|]. rewrite (Hz a Ha HA). ring. }
        specialize (Hmin u Hu). rewrite <- Hq in Hmin.
        assert (Eu : quad n (gL G) u = quad n (gL G) z + 2 * t * g + t * t * C).
        { assert (D : forall f, dot n (unitv w) f = f w).
          { intros f. unfold dot, unitv. rewrite (rsum_single n _ w); [rewrite Nat.eqb_refl; ring|exact Hw|].
            intros i Hi Hne. destruct (Nat.eqb_spec i w); [contradiction|ring]. }
          assert (MU : mulv n (gL G) (unitv w) w = C).
          { unfold mulv, unitv. rewrite (rsum_single n _ w); [rewrite Nat.eqb_refl; unfold C; ring|exact Hw|].
            intros i Hi Hne. destruct (Nat.eqb_spec i w); [contradiction|ring]. }
          unfold quad. rewrite (dot_ext n u (fun i => z i + t * unitv w i) (mulv n (gL G) u) (fun i => mulv n (gL G) z i + t * mulv n (gL G) (unitv w) i)).
          - rewrite dot_plus_l, !dot_plus_r, !dot_scal_l, !dot_scal_r. rewrite !D. rewrite (dot_mulv_sym n (gL G) z (unitv w) Hsym), (dot_comm n (mulv n (gL G) z)), D, MU.
            fold g. ring.
          - intros i Hi. reflexivity.
          - intros i Hi. rewrite <- mulv_scal, <- mulv_plus. reflexivity. }
        rewrite Eu in Hmin. lra. }
      destruct (Req_dec g 0) as [|Hg]; [assumption|]. exfalso.
      assert (HCn : 0 <= C). { pose proof (K 1). pose proof (K (-1)). pose proof (K 2). pose proof (K (-2)). lra. }
      specialize (K (- g / (C + 1))). assert (HC1 : 0 < C + 1) by lra.
      assert (EK : 2 * (- g / (C + 1)) * g + - g / (C + 1) * (- g / (C + 1)) * C = - ((g / (C + 1)) * (g / (C + 1)) * (C + 2))) by (field; lra).
      rewrite EK in K. assert (Hgn : g / (C + 1) <> 0) by (apply Rmult_integral_contrapositive_currified; [exact Hg|apply Rinv_neq_0_compat; lra]).
      assert (0 < g / (C + 1) * (g / (C + 1))) by (apply Rsqr_pos_lt in Hgn; exact Hgn).
      assert (0 < g / (C + 1) * (g / (C + 1)) * (C + 2)) by (apply Rmult_lt_0_compat; lra). lra. }
    apply (harm_unique n (gL G) M z (xs j) HL HC'); [|intros a Ha HA; rewrite (Hz a Ha HA), (Hlab a Ha HA); reflexivity|exact Hv].
    intros a Ha Hf. rewrite (Hzh a Ha Hf), (Hharm a Ha Hf). reflexivity.
  - intros v Hv. destruct (harm_range n (gL G) M (xs j) HL HC' Hharm v Hv) as (a & b & Ha & Hb' & HA & HB & H).
    exists a, b. repeat (split; [assumption|]). rewrite (Hlab a Ha HA), (Hlab b Hb' HB) in H. exact H.
Qed.
(** The linear system is solvable whenever every component has a label. *)
Theorem C40_solvable G M y : built G -> nonneg_weights G -> g_lap_type G = Combinatorial -> List.length M = g_n_vertices G -> covered G M ->
  exists s, spsolve_labels_ok G M y s.
Proof.
  intros Hb Hp Hl HM HC. pose proof (graph_is_laplacian G Hb Hp Hl) as HL.
  destruct (harm_solvable _ (gL G) M y HL HM (covered_lcov G M Hb Hp Hl HC)) as (s & Hs). exists s. unfold spsolve_labels_ok.
  rewrite <- HM. intros k Hk. specialize (Hs k Hk). unfold mulv, Luu, Wul in Hs.
  change (\sum_(i < List.length (indu M)) (gL G (nth k (indu M) 0%nat) (nth i (indu M) 0%nat) * s i) = - \sum_(j < List.length (indl M)) (gL G (nth k (indu M) 0%nat) (nth j (indl M) 0%nat) * y (nth j (indl M) 0%nat))).
  rewrite Hs, <- rsum_opp. apply rsum_ext. intros; ring.
Qed.
(** A mask of the wrong length is rejected. *)
Theorem C40_mask_length G b y M tau sol : tau <= 0 -> List.length M <> g_n_vertices G -> regression_tikhonov G b y M tau sol = Raise ValueError.
Proof.
  intros Ht HM. unfold regression_tikhonov. rewrite (tau_zero tau Ht). destruct (Nat.eqb_spec (List.length M) (g_n_vertices G)); [contradiction|reflexivity].
Qed.
(** Measurements of shape (N, 1) are rejected when tau = 0, unless exactly one vertex is unlabelled. *)
Theorem C40_single_column_refuted G b g M tau sol : tau <= 0 -> List.length M = g_n_vertices G -> List.length (indu M) <> 1%nat ->
  regression_tikhonov G b (Arr [g_n_vertices G; 1%nat] g) M tau sol = Raise ValueError.
Proof.
  intros Ht HM Hu. unfold regression_tikhonov. rewrite (tau_zero tau Ht), HM, Nat.eqb_refl. cbn [negb shape]. rewrite Nat.eqb_refl. cbn [negb Nat.eqb andb].
  destruct (Nat.eqb_spec (List.length (indu M)) 1); [contradiction|reflexivity].
Qed.

(** Integer measurements: with tau = 0 the solution is written into an integer copy of the measurements and loses its fractional part. *)
Lemma trunc_half : trunc (/ 2) = 0.
Proof.
  unfold trunc. assert (E : Rleb 0 (/ 2) = true) by (apply Rleb_true; lra). rewrite E. 
  destruct (base_Int_part (/ 2)) as (H1 & H2). assert (IZR (Int_part (/2)) < 1) by lra. assert (-1 < IZR (Int_part (/2))) by lra.
  apply lt_IZR in H. apply (lt_IZR (-1)) in H0. replace (Int_part (/ 2)) with 0%Z by lia. reflexivity.
Qed.
Lemma trunc_spec x : exists k, trunc x = IZR k /\ Rabs (trunc x) <= Rabs x < Rabs (trunc x) + 1 /\ 0 <= trunc x * x.
Proof.
  assert (P : forall z, 0 <= z -> exists k, IZR (Int_part z) = IZR k /\ 0 <= IZR (Int_part z) <= z /\ z < IZR (Int_part z) + 1).
  { intros z Hz. destruct (base_Int_part z) as (H1 & H2). exists (Int_part z). split; [reflexivity|]. assert (-1 < IZR (Int_part z)) by lra.
    apply (lt_IZR (-1)) in H. assert (0 <= Int_part z)%Z by lia. apply IZR_le in H0. lra. }
  unfold trunc. destruct (Rleb 0 x) eqn:E.
  - apply Rleb_true in E. destruct (P x E) as (k & Ek & (H1 & H2) & H3). exists k. split; [exact Ek|]. rewrite !Rabs_pos_eq by assumption. split; [lra|]. apply Rmult_le_pos; assumption.
  - assert (L : x < 0) by (apply Rnot_le_lt; intros Q; apply Rleb_true in Q; congruence). destruct (P (- x) ltac:(lra)) as (k & Ek & (H1 & H2) & H3). exists (- k)%Z. split; [rewrite opp_IZR, Ek; reflexivity|].
    rewrite Rabs_Ropp, (Rabs_pos_eq _ H1), (Rabs_left x L). split; [lra|]. replace (- IZR (Int_part (- x)) * x) with (IZR (Int_part (- x)) * - x) by ring. apply Rmult_le_pos; lra.
Qed.
(** With integer measurements and tau = 0, the answer on the unlabelled vertices is the one for the same real measurements with its
    fractional part cut off: an integer, less than 1 away, towards zero. *)
Theorem C40_integer_measurements : forall G y M tau sol, shape y = [g_n_vertices G] -> List.length M = g_n_vertices G -> tau <= 0 ->
  exists x xr, regression_tikhonov G true y M tau sol = Ok x /\ regression_tikhonov G false y M tau sol = Ok xr /\ shape x = shape xr /\
    forall v, (v < g_n_vertices G)%nat ->
      (labelled M v -> aget x [v] = aget y [v] /\ aget xr [v] = aget y [v]) /\
      (~ labelled M v -> exists k, aget x [v] = IZR k /\ Rabs (aget x [v]) <= Rabs (aget xr [v]) < Rabs (aget x [v]) + 1 /\ 0 <= aget x [v] * aget xr [v]).
Proof.
  intros G y M tau sol Hy HM Ht. unfold regression_tikhonov. rewrite (tau_zero tau Ht), HM, Nat.eqb_refl, Hy, Nat.eqb_refl. cbn [negb].
  do 2 eexists. split; [reflexivity|]. split; [reflexivity|]. split; [reflexivity|]. intros v Hv. cbn [aget ix nth]. unfold labelled. split.
  - intros HB. split; rewrite harm_label by exact HB; reflexivity.
  - intros HB. assert (Hf : nth v M false = false) by (destruct (nth v M false); [exfalso; apply HB; reflexivity|reflexivity]).
    assert (I : In v (indu M)) by (apply filter_In; split; [apply in_seq; lia|rewrite Hf; reflexivity]).
    destruct (In_nth _ _ 0%nat I) as (k & Hk & <-). unfold store. rewrite !assign_in by (try exact Hk; apply NoDup_filter, seq_NoDup). apply trunc_spec.
Qed.
Theorem C40_integer_measurements_refuted : exists G y M sol x z,
  built G /\ nonneg_weights G /\ g_lap_type G = Combinatorial /\ covered G M /\ List.length M = g_n_vertices G /\ shape y = [g_n_vertices G] /\
  (forall v, labelled M v -> exists k, aget y [v] = INR k) /\
  spsolve_labels_ok G M (fun v => aget y [v]) (sol 0%nat) /\
  regression_tikhonov G true y M 0 sol = Ok x /\
  (forall v, labelled M v -> z v = aget x [v]) /\
  quad (g_n_vertices G) (gL G) z < quad (g_n_vertices G) (gL G) (fun v => aget x [v]).
Proof.
  destruct (p3_graph None) as (G & Hb & Hn & Ht & Hc & Hp & Hu & HC & HL).
  pose (y := Arr [3%nat] (fun idx => match idx with [v] => if Nat.eqb v 2 then 1 else 0 | _ => 0 end)).
  pose (M := [true; false; true]). pose (sol := fun _ _ : nat => / 2).
  exists G, y, M, sol, (Arr [3%nat] (fun idx => assign (fun v => aget y [v]) (indu M) (fun k => trunc (sol 0%nat k)) (ix idx 0))), (fun v => INR v / 2).
  split; [exact Hb|]. split; [exact Hp|]. split; [exact Ht|]. split.
  { intros v Hv. exists 0%nat. split; [lia|]. split; [reflexivity|]. apply HC; lia. }
  split; [rewrite Hn; reflexivity|]. split; [rewrite Hn; reflexivity|]. split.
  { intros v _. cbn. destruct (Nat.eqb v 2); [exists 1%nat|exists 0%nat]; cbn; lra. }
  split. { unfold spsolve_labels_ok. rewrite Hn. cbn. intros k Hk. destruct k; [|lia]. rewrite !HL by lia. unfold sol. cbn. lra. }
  split. { unfold regression_tikhonov. rewrite (tau_zero 0) by lra. rewrite Hn. reflexivity. }
  split. { intros v Hv. unfold labelled, M in Hv. destruct v as [|[|[|v]]]; cbn in Hv; try discriminate; cbn; [lra|lra|destruct v; discriminate]. }
  rewrite Hn. rewrite !(quad_ext 3 _ _ _ HL). unfold quad, dot, mulv. cbn [rsum aget ix nth].
  replace (assign (fun v => aget y [v]) (indu M) (fun k => trunc (sol 0%nat k)) 0%nat) with 0 by reflexivity.
  replace (assign (fun v => aget y [v]) (indu M) (fun k => trunc (sol 0%nat k)) 1%nat) with (trunc (/ 2)) by reflexivity.
  replace (assign (fun v => aget y [v]) (indu M) (fun k => trunc (sol 0%nat k)) 2%nat) with 1 by reflexivity.
  rewrite trunc_half. cbn. lra.
Qed.

(** ** C41 *)
Definition onehot (y : list nat) (c : nat) : vec := fun v => if Nat.eqb c (nth v y 0%nat) then 1 else 0.
Lemma mask_labels_nth M y i : (i < List.length y)%nat -> nth i (mask_labels M y) 0%nat = if nth i M false then nth i y 0%nat else 0%nat.
Proof.
  intros Hi. unfold mask_labels. rewrite nth_map_seq by exact Hi. reflexivity.
Qed.
Lemma list_max_ge l i : (i < List.length l)%nat -> (nth i l 0 <= list_max l)%nat.
Proof.
  intros Hi. assert (H : Forall (fun k => (k <= list_max l)%nat) l) by (apply list_max_le; lia).
  rewrite Forall_forall in H. apply H. apply nth_In. exact Hi.
Qed.
Lemma list_max_in l : l <> [] -> In (list_max l) l.
Proof.
  induction l as [|a l IH]; [congruence|]. intros _. cbn [list_max fold_right]. change (fold_right Nat.max 0%nat l) with (list_max l).
  destruct (Nat.max_spec a (list_max l)) as [(Hm & ->)|(_ & ->)]; [|left; reflexivity].
  destruct l; [left|right; apply IH; discriminate]. cbn in *. lia.
Qed.
Lemma rsum_onehot C k : (k < C)%nat -> \sum_(c < C) (if Nat.eqb c k then 1 else 0) = 1.
Proof.
  intros Hk. rewrite (rsum_single C _ k); [rewrite Nat.eqb_refl; reflexivity|exact Hk|]. intros c Hc Hne. destruct (Nat.eqb_spec c k); [contradiction|reflexivity].
Qed.
Lemma mulv_sum n L C (x : nat -> vec) i : mulv n L (fun v => \sum_(c < C) x c v) i = \sum_(c < C) mulv n L (x c) i.
Proof.
  unfold mulv. rewrite rsum_swap. apply rsum_ext. intros j Hj. rewrite <- rsum_scal_l. reflexivity.
Qed.
Lemma lap_const n L i : is_laplacian n L -> (i < n)%nat -> mulv n L (fun _ => 1) i = 0.
Proof. intros (_ & Hr & _) Hi. unfold mulv. rewrite <- (Hr i Hi). apply rsum_ext. intros; ring. Qed.

(** The logits: for every class, the solver solves the regression of the class indicator; the output has a column for every class occurring
    among the labels, every row is a probability vector, and with tau = 0 labelled vertices keep their label. *)
Theorem C41_rows_are_probabilities G y M tau sol : built G -> nonneg_weights G -> g_lap_type G = Combinatorial -> covered G M ->
  let n := g_n_vertices G in
  (0 < n)%nat -> List.length y = n -> List.length M = n ->
  (0 < tau \/ tau <= 0 /\ exists v, labelled M v /\ nth v y 0%nat <> 0%nat) ->
  (forall c, (0 < tau -> cg_ok G M tau (onehot y c) (sol c)) /\ (tau <= 0 -> spsolve_labels_ok G M (onehot y c) (sol c))) ->
  exists x C, classification_tikhonov G y M tau sol = Ok x /\ shape x = [n; C] /\
    (forall v, labelled M v -> (nth v y 0 < C)%nat) /\ (C = 1%nat \/ exists v, labelled M v /\ C = S (nth v y 0%nat)) /\
    forall v, (v < n)%nat -> \sum_(c < C) aget x [v; c] = 1 /\ (forall c, (c < C)%nat -> 0 <= aget x [v; c] <= 1) /\
      (tau <= 0 -> labelled M v -> forall c, (c < C)%nat -> aget x [v; c] = if Nat.eqb c (nth v y 0%nat) then 1 else 0).
Proof.
  intros Hb Hp Hl HC n Hn Hy HM Hcls Hsol. pose proof (graph_is_laplacian G Hb Hp Hl) as HL. fold n in HL.
  pose proof (covered_lcov G M Hb Hp Hl HC) as HC'. fold n in HC'.
  set (C := S (list_max (mask_labels M y))).
  assert (Lm : List.length (mask_labels M y) = n) by (unfold mask_labels; rewrite map_length, seq_length; exact Hy).
  assert (Hlt : forall v, (v < n)%nat -> (nth v (mask_labels M y) 0 < C)%nat).
  { intros v Hv. unfold C. pose proof (list_max_ge (mask_labels M y) v ltac:(lia)). lia. }
  assert (Hlab : forall v, labelled M v -> (v < n)%nat /\ nth v (mask_labels M y) 0%nat = nth v y 0%nat).
  { intros v Hv. assert (v < n)%nat. { destruct (lt_dec v n); [assumption|]. unfold labelled in Hv. rewrite nth_overflow in Hv by lia. discriminate. }
    split; [assumption|]. rewrite mask_labels_nth by lia. unfold labelled in Hv. rewrite Hv. reflexivity. }
  set (g := fun idx => if Nat.eqb (ix idx 1) (nth (ix idx 0) (mask_labels M y) 0%nat) then 1 else 0).
  assert (EY : to_logits (mask_labels M y) = Ok (Arr [n; C] g)).
  { unfold to_logits. rewrite Lm. destruct (mask_labels M y) eqn:E; [cbn in Lm; lia|]. reflexivity. }
  assert (Hone : forall v, (v < n)%nat -> \sum_(c < C) g [v; c] = 1).
  { intros v Hv. unfold g, ix. cbn [nth]. apply rsum_onehot. apply Hlt. exact Hv. }
  assert (Hg : forall v c, labelled M v -> g [v; c] = onehot y c v).
  { intros v c Hv. unfold g, ix, onehot. cbn [nth]. destruct (Hlab v Hv) as (_ & ->). reflexivity. }
  assert (HC1 : C = 1%nat \/ exists v, labelled M v /\ C = S (nth v y 0%nat)).
  { assert (Hne : mask_labels M y <> []) by (intros E; rewrite E in Lm; cbn in Lm; lia).
    pose proof (list_max_in _ Hne) as Hin. destruct (In_nth _ _ 0%nat Hin) as (v & Hv & Ev). rewrite Lm in Hv.
    rewrite mask_labels_nth in Ev by lia. destruct (nth v M false) eqn:EM.
    - right. exists v. split; [exact EM|]. unfold C. rewrite <- Ev. reflexivity.
    - left. unfold C. rewrite <- Ev. reflexivity. }
  unfold classification_tikhonov. rewrite Hy, HM, Nat.eqb_refl. cbn [negb]. rewrite EY. cbn [bindr].
  destruct (Rlt_dec 0 tau) as [Ht|Ht].
  - destruct (regression_pos G false (Arr [n; C] g) C _ M tau sol (columns2 _ _ _) HM Ht) as (x & E & Sx & xs & Hx & Ex).
    exists x, C. split; [exact E|]. split; [exact Sx|]. split; [intros v Hv; destruct (Hlab v Hv) as (Hv' & <-); apply Hlt; exact Hv'|]. split; [exact HC1|].
    assert (Exx : forall v c, (c < C)%nat -> aget x [v; c] = sol c v).
    { intros v c Hc. rewrite <- (Ex c v Hc). inversion Hx; subst; [discriminate Sx|reflexivity]. }
    pose proof (fun c => proj1 (Hsol c) Ht) as Hcg. intros v Hv. split; [|split].
    + rewrite (rsum_ext C _ (fun c => sol c v)) by (intros c Hc; apply Exx; exact Hc).
      assert (U : vzero n (fun v => (\sum_(c < C) sol c v) - 1)).
      { apply (tik_kernel n (gL G) M tau _ HL Ht HC'). intros i Hi. rewrite (tik_sub n (gL G) M tau (fun v => \sum_(c < C) sol c v) (fun _ => 1) i).
        unfold tik_op. rewrite mulv_sum, lap_const by assumption.
        assert (S1 : mval M i * (\sum_(c < C) sol c i) + tau * (\sum_(c < C) mulv n (gL G) (sol c) i) = \sum_(c < C) zero_unlabelled M (onehot y c) i).
        { rewrite <- !rsum_scal_l, <- rsum_plus. apply rsum_ext. intros c Hc. apply (cg_op G M tau (onehot y c) (sol c) (Hcg c) i Hi). }
        rewrite S1. unfold zero_unlabelled, mval. destruct (nth i M false) eqn:EM; [|rewrite rsum_0 by reflexivity; ring].
        rewrite <- (rsum_ext C (fun c => g [i; c])) by (intros c Hc; apply Hg; exact EM). rewrite (Hone i Hi). ring. }
      specialize (U v Hv). cbv beta in U. lra.
    + intros c Hc. rewrite Exx by exact Hc.
      destruct (tik_lower n (gL G) M tau (onehot y c) (sol c) HL Ht HC' (cg_op G M tau _ _ (Hcg c)) v Hv) as (a & _ & _ & H1).
      destruct (tik_upper n (gL G) M tau (onehot y c) (sol c) HL Ht HC' (cg_op G M tau _ _ (Hcg c)) v Hv) as (b & _ & _ & H2).
      unfold onehot in H1, H2. destruct (Nat.eqb c (nth a y 0%nat)), (Nat.eqb c (nth b y 0%nat)); lra.
    + intros Ht'. lra.
  - assert (Ht0 : tau <= 0) by lra. assert (HCne : C <> 1%nat).
    { destruct Hcls as [|(_ & v & Hv & Hne)]; [lra|]. destruct (Hlab v Hv) as (Hv' & Ev). pose proof (Hlt v Hv'). rewrite Ev in H. lia. }
    destruct (regression_zero G (Arr [n; C] g) C _ M tau sol (columns2 _ _ _) HM Ht0 ltac:(tauto)) as (x & E & Sx & xs & Hx & Ex).
    exists x, C. split; [exact E|]. split; [exact Sx|]. split; [intros v Hv; destruct (Hlab v Hv) as (Hv' & <-); apply Hlt; exact Hv'|]. split; [exact HC1|].
    set (f := fun c v => assign (fun i => g [i; c]) (indu M) (sol c) v).
    assert (Exx : forall v c, (c < C)%nat -> aget x [v; c] = f c v).
    { intros v c Hc. unfold f. rewrite <- (Ex c v Hc). inversion Hx; subst; [discriminate Sx|reflexivity]. }
    pose proof (fun c => spsolve_labels G M _ _ HM (proj2 (Hsol c) Ht0)) as HS.
    assert (HS' : forall c k, (k < List.length (indu M))%nat -> mulv (List.length (indu M)) (Luu (gL G) M) (sol c) k =
       \sum_(j < List.length (indl M)) (Wul (gL G) M k j * g [nth j (indl M) 0%nat; c])).
    { intros c k Hk. rewrite (HS c k Hk). apply rsum_ext. intros j Hj. rewrite Hg; [reflexivity|]. apply indl_in. apply nth_In. exact Hj. }
    assert (Fl : forall c v, nth v M false = true -> f c v = onehot y c v).
    { intros c v Hv. unfold f. rewrite harm_label by exact Hv. apply Hg. exact Hv. }
    assert (Fh : forall c v, (v < n)%nat -> nth v M false = false -> mulv n (gL G) (f c) v = 0).
    { intros c v Hv Hf. unfold f. apply (harm_zero n (gL G) M _ (sol c) HM (HS' c)); assumption. }
    intros v Hv. split; [|split].
    + rewrite (rsum_ext C _ (fun c => f c v)) by (intros c Hc; apply Exx; exact Hc).
      apply (harm_unique n (gL G) M (fun v => \sum_(c < C) f c v) (fun _ => 1) HL HC'); [| |exact Hv].
      * intros i Hi Hf. rewrite mulv_sum, lap_const by assumption. apply rsum_0. intros c Hc. apply Fh; assumption.
      * intros i Hi HB. rewrite <- (Hone i Hi). apply rsum_ext. intros c Hc. rewrite (Fl c i HB). symmetry. apply Hg. exact HB.
    + intros c Hc. rewrite Exx by exact Hc. destruct (harm_range n (gL G) M (f c) HL HC' (Fh c) v Hv) as (a & b & _ & _ & HA & HB & H).
      rewrite (Fl c a HA), (Fl c b HB) in H. unfold onehot in H. destruct (Nat.eqb c (nth a y 0%nat)), (Nat.eqb c (nth b y 0%nat)); lra.
    + intros _ Hv' c Hc. rewrite Exx by exact Hc. apply Fl. exact Hv'.
Qed.
(** With tau = 0, labels that are all of class 0 are rejected (unless exactly one vertex is unlabelled). *)
Theorem C41_single_class_refuted G y M tau sol : tau <= 0 -> (0 < g_n_vertices G)%nat -> List.length y = g_n_vertices G -> List.length M = g_n_vertices G ->
  (forall v, labelled M v -> nth v y 0%nat = 0%nat) -> List.length (indu M) <> 1%nat ->
  classification_tikhonov G y M tau sol = Raise ValueError.
Proof.
  intros Ht Hn Hy HM H0 Hu. unfold classification_tikhonov. rewrite Hy, HM, Nat.eqb_refl. cbn [negb].
  assert (Lm : List.length (mask_labels M y) = g_n_vertices G) by (unfold mask_labels; rewrite map_length, seq_length; exact Hy).
  assert (Hm : list_max (mask_labels M y) = 0%nat).
  { assert (Hne : mask_labels M y <> []) by (intros E; rewrite E in Lm; cbn in Lm; lia).
    pose proof (list_max_in _ Hne) as Hin. destruct (In_nth _ _ 0%nat Hin) as (v & Hv & Ev). rewrite Lm in Hv. rewrite mask_labels_nth in Ev by lia.
    rewrite <- Ev. destruct (nth v M false) eqn:EM; [apply H0; exact EM|reflexivity]. }
  unfold to_logits. rewrite Lm, Hm. destruct (mask_labels M y); [cbn in Lm; lia|]. cbn [bindr]. apply C40_single_column_refuted; assumption.
Qed.

(** The hypotheses can be met: the path with three vertices, the ends labelled. *)
Example C39_C40_ex : exists G M, built G /\ nonneg_weights G /\ g_lap_type G = Combinatorial /\ covered G M /\ List.length M = g_n_vertices G /\
  (exists x, cg_ok G M 1 (fun v => INR v) x) /\ (exists s, spsolve_labels_ok G M (fun v => INR v) s) /\
  (exists v, labelled M v /\ nth v [0; 0; 2]%nat 0%nat <> 0%nat).
Proof.
  destruct (p3_graph None) as (G & Hb & Hn & Ht & Hc & Hp & Hu & HC & HL). exists G, [true; false; true].
  assert (Hcov : covered G [true; false; true]). { intros v Hv. exists 0%nat. split; [lia|]. split; [reflexivity|]. apply HC; lia. }
  assert (HM : List.length [true; false; true] = g_n_vertices G) by (rewrite Hn; reflexivity).
  repeat (split; [assumption|]). split; [|split].
  - apply (C39_unique_and_in_range G [true; false; true] 1 (fun v => INR v) Hb Hp Ht ltac:(lra) Hcov).
  - apply C40_solvable; assumption.
  - exists 2%nat. split; [reflexivity|]. cbn. lia.
Qed.
