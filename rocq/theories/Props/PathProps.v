(** C112: how the predictions of regression_tikhonov depend on tau: Lipschitz down to tau = 0, whose answer is the limit; the mean of the labels at the other end. *)
From Coq Require Import Reals Lra Lia List Arith Bool String ZArith Classical.
From Verif.Base Require Import RSum Prelude LinAlg Solve Spectral.
From Verif.Spec Require Import Matrix NdArray GraphSpec Reach FilterSpec CacheSpec LapSpec LearnSpec StabSpec SetSpec.
From Verif.Model Require Import Sparse Graph Traverse Bounds Cache Filter Utils Reduction Learning Kernels.
From Verif.Proofs Require Import SparseFacts InitFacts EdgeFacts LapFacts MaxPrinciple TikhonovFacts TraverseFacts SpectralFacts.
From Verif.Props Require Import Core Laplacian Traversal Caching UtilsProps ReductionProps LearningProps StabilityProps VotingProps SpectrumProps SpectraProps CutProps SetsProps.
Import ListNotations.
Open Scope R_scope.
Open Scope list_scope.

(** Number and mean of the labels, and their spread (sum of the squared distances to the mean). *)
Definition n_labels (n : nat) (M : list bool) : R := \sum_(i < n) (if nth i M false then 1 else 0).
Definition label_mean (n : nat) (M : list bool) (y : vec) : R := (\sum_(i < n) (if nth i M false then y i else 0)) / n_labels n M.
Definition label_spread (n : nat) (M : list bool) (y : vec) : R :=
  \sum_(i < n) (if nth i M false then (y i - label_mean n M y) ^ 2 else 0).

Section Path.
  Variables (n : nat) (L : mat) (M : list bool).
  Hypothesis HL : is_laplacian n L.
  Hypothesis HC : lcov n L M.
  (** the change of the prediction is itself a prediction, of measurements proportional to L x *)
  Lemma path_diff t t' y x x' : predicts n L M t y x -> predicts n L M t' y x' ->
    predicts n L M t' (fun i => (t - t') * mulv n L x i) (fun i => x' i - x i).
  Proof using Type.
    intros P P' i Hi. specialize (P i Hi). specialize (P' i Hi). cbv beta in *. rewrite mulv_minus. destruct (nth i M false); nra.
  Qed.
  Lemma path_bound t t' y x x' K : 0 <= t' -> predicts n L M t y x -> predicts n L M t' y x' ->
    (forall i, (i < n)%nat -> nth i M false = true -> Rabs ((t - t') * mulv n L x i) <= K) -> forall v, (v < n)%nat -> Rabs (x' v - x v) <= K.
  Proof using HL HC.
    intros Ht P P' HK v Hv. destruct (predicts_range n L M t' HL HC Ht _ _ v (path_diff t t' y x x' P P') Hv) as (a & b & Ha & Hb & La & Lb & H).
    pose proof (HK a Ha La) as Ka. pose proof (HK b Hb Lb) as Kb. apply Rabs_le.
    pose proof (Rle_abs ((t - t') * mulv n L x b)). pose proof (Rle_abs (- ((t - t') * mulv n L x a))) as Q. rewrite Rabs_Ropp in Q. lra.
  Qed.
  Lemma predicts_between t y x lo hi : 0 <= t -> predicts n L M t y x -> (forall i, (i < n)%nat -> nth i M false = true -> lo <= y i <= hi) ->
    forall v, (v < n)%nat -> lo <= x v <= hi.
  Proof using HL HC.
    intros Ht P Hy v Hv. destruct (predicts_range n L M t HL HC Ht _ _ v P Hv) as (a & b & Ha & Hb & La & Lb & H).
    pose proof (Hy a Ha La). pose proof (Hy b Hb Lb). lra.
  Qed.
  (** the predictions at the labels have the mean of the labels *)
  Lemma label_sum t y x : predicts n L M t y x -> 0 < t -> \sum_(i < n) (if nth i M false then x i - y i else 0) = 0.
  Proof using HL.
    intros P Ht. pose proof HL as (Hs & Hr & _).
    assert (S0 : rsum n (mulv n L x) = 0).
    { change (\sum_(i < n) \sum_(j < n) (L i j * x j) = 0). rewrite rsum_swap. apply rsum_0. intros j Hj. rewrite rsum_scal_r. rewrite (rsum_ext n _ (fun i => L j i)) by (intros i Hi; apply Hs; assumption).
      rewrite Hr by exact Hj. ring. }
    rewrite (rsum_ext n _ (fun i => - t * mulv n L x i)).
    - rewrite (rsum_scal_l n (- t) (mulv n L x)), S0. ring.
    - intros i Hi. specialize (P i Hi). cbv beta in P. destruct (nth i M false); [lra|rewrite P; ring].
  Qed.
  Lemma energy_at_most t y x c : predicts n L M t y x -> 0 < t ->
    \sum_(i < n) (if nth i M false then (x i - y i) ^ 2 else 0) <= \sum_(i < n) (if nth i M false then (y i - c) ^ 2 else 0).
  Proof using HL.
    intros P Ht. pose proof (lap_psd n L HL x) as Q. 
    assert (E : t * quad n L x = \sum_(i < n) (if nth i M false then (y i - x i) * (x i - c) else 0)).
    { rewrite (rsum_ext n _ (fun i => t * (x i * mulv n L x i) - c * (if nth i M false then y i - x i else 0))).
      - rewrite rsum_minus, !rsum_scal_l. unfold quad, dot.
        assert (Z : \sum_(i < n) (if nth i M false then y i - x i else 0) = 0).
        { pose proof (label_sum t y x P Ht) as S0.
          assert (E : (\sum_(i < n) (if nth i M false then x i - y i else 0)) + (\sum_(i < n) (if nth i M false then y i - x i else 0)) = 0).
          { rewrite <- rsum_plus. apply rsum_0. intros i Hi. destruct (nth i M false); ring. }
          lra. }
        rewrite Z. ring.
      - intros i Hi. specialize (P i Hi). cbv beta in P. destruct (nth i M false); [replace (y i - x i) with (t * mulv n L x i) by lra; ring|rewrite P; ring]. }
    assert (E2 : \sum_(i < n) (if nth i M false then (x i - y i) ^ 2 else 0) <= \sum_(i < n) (if nth i M false then (y i - c) ^ 2 else 0) - 2 * (t * quad n L x)).
    { rewrite E, <- rsum_scal_l, <- rsum_minus. apply rsum_le. intros i Hi. destruct (nth i M false); [|lra].
      pose proof (Rle_0_sqr (x i - c)) as S. unfold Rsqr in S. nra. }
    pose proof (Rmult_le_pos t (quad n L x) (Rlt_le _ _ Ht) Q). lra.
  Qed.
End Path.

(** ** Large tau *)
Section Large.
  Variables (G : graph) (e : vec) (U : mat) (M : list bool).
  Hypothesis Hb : built G.
  Hypothesis Hp : nonneg_weights G.
  Hypothesis Ht : g_lap_type G = Combinatorial.
  Let n := g_n_vertices G.
  Hypothesis HU : eigh_ok n (gL G) e U.
  Hypothesis Hn : (1 < n)%nat.
  Hypothesis Hl : exists l, (l < n)%nat /\ nth l M false = true.
  Hypothesis He : 0 < e 1%nat.

  Lemma labels_pos : 0 < n_labels n M.
  Proof using Hl.
    destruct Hl as (l & Hln & E). unfold n_labels. apply (rsum_pos n _ l); [intros i Hi; destruct (nth i M false); lra|exact Hln|rewrite E; lra].
  Qed.
  Lemma centred t y x : predicts n (gL G) M t y x -> 0 < t -> \sum_(i < n) (if nth i M false then x i - label_mean n M y else 0) = 0.
  Proof using Hb Hp Ht Hl.
    intros P Ht0. pose proof (label_sum n (gL G) M (graph_is_laplacian G Hb Hp Ht) t y x P Ht0) as S0. pose proof labels_pos as Q.
    set (c := label_mean n M y). assert (Ec : c * n_labels n M = \sum_(i < n) (if nth i M false then y i else 0)) by (unfold c, label_mean; field; lra).
    rewrite (rsum_ext n _ (fun i => (if nth i M false then x i - y i else 0) + ((if nth i M false then y i else 0) - c * (if nth i M false then 1 else 0)))).
    - rewrite rsum_plus, S0, rsum_minus, rsum_scal_l. fold (n_labels n M). lra.
    - intros i Hi. destruct (nth i M false); ring.
  Qed.
  Lemma below_and_above t y x : predicts n (gL G) M t y x -> 0 < t -> let c := label_mean n M y in
    (exists i, (i < n)%nat /\ x i <= c) /\ exists i, (i < n)%nat /\ c <= x i.
  Proof using Hb Hp Ht Hl.
    intros P Ht0 c. pose proof (centred t y x P Ht0) as S0. fold c in S0. destruct Hl as (l & Hln & El). split; apply NNPP; intros N.
    - assert (Q : 0 < \sum_(i < n) (if nth i M false then x i - c else 0)).
      { apply (rsum_pos n _ l); [intros i Hi; destruct (nth i M false); [|lra]|exact Hln|rewrite El].
        - destruct (Rle_dec (x i) c) as [A|A]; [exfalso; apply N; exists i; tauto|lra].
        - destruct (Rle_dec (x l) c) as [A|A]; [exfalso; apply N; exists l; tauto|lra]. }
      lra.
    - assert (Q : 0 < \sum_(i < n) (- (if nth i M false then x i - c else 0))).
      { apply (rsum_pos n _ l); [intros i Hi; destruct (nth i M false); [|lra]|exact Hln|rewrite El].
        - destruct (Rle_dec c (x i)) as [A|A]; [exfalso; apply N; exists i; tauto|lra].
        - destruct (Rle_dec c (x l)) as [A|A]; [exfalso; apply N; exists l; tauto|lra]. }
      rewrite rsum_opp in Q. lra.
  Qed.
  Lemma far_tau t y x : predicts n (gL G) M t y x -> 0 < t -> forall v, (v < n)%nat ->
    (x v - label_mean n M y) ^ 2 <= 2 * label_spread n M y / (t * e 1%nat) ^ 2.
  Proof using Hb Hp Ht HU Hn Hl He.
    intros P Ht0 v Hv. pose proof (graph_is_laplacian G Hb Hp Ht) as HLap. fold n in HLap. pose proof HLap as (Hs & Hr & _).
    set (xb := rsum n x / INR n). set (z := fun i => x i - xb). pose proof (lt_0_INR n ltac:(lia)) as Pn.
    assert (Mz : rsum n z = 0).
    { unfold z. rewrite (rsum_minus n x (fun _ => xb)), rsum_const. unfold xb. field. lra. }
    pose proof (at_least G e U Hb Hp Ht HU Hn z Mz) as A. fold n in A.
    set (R := \sum_(i < n) (if nth i M false then (x i - y i) ^ 2 else 0)).
    pose proof (energy_at_most n (gL G) M HLap t y x (label_mean n M y) P Ht0) as RV. fold R in RV. fold (label_spread n M y) in RV.
    pose (g := fun i => if nth i M false then y i - x i else 0).
    assert (Q : t * quad n (gL G) z = \sum_(i < n) (z i * g i)).
    { unfold quad, dot. rewrite <- rsum_scal_l. apply rsum_ext. intros i Hi.
      assert (Lz : mulv n (gL G) z i = mulv n (gL G) x i).
      { unfold mulv, z. rewrite (rsum_ext n _ (fun j => gL G i j * x j - xb * gL G i j)) by (intros; ring). rewrite rsum_minus, rsum_scal_l, Hr by exact Hi. ring. }
      rewrite Lz. specialize (P i Hi). cbv beta in P. unfold g. destruct (nth i M false); [replace (y i - x i) with (t * mulv n (gL G) x i) by lra; ring|rewrite P; ring]. }
    pose proof (rsum_cauchy_schwarz n z g) as CS. fold (normsq n z) in CS.
    assert (ER : rsum n (fun i => g i * g i) = R) by (apply rsum_ext; intros i Hi; unfold g; destruct (nth i M false); ring).
    change (\sum_(i < n) (z i * z i)) with (normsq n z) in CS. rewrite ER, <- Q in CS.
    set (N := normsq n z) in *. assert (N0 : 0 <= N) by apply normsq_nonneg. assert (R0 : 0 <= R).
    { apply rsum_nonneg. intros i Hi. destruct (nth i M false); [apply pow2_ge_0|lra]. }
    assert (B : (t * e 1%nat) ^ 2 * N <= R).
    { destruct (Req_dec N 0) as [Z|Z]; [rewrite Z, Rmult_0_r; exact R0|]. assert (0 < N) by lra. apply (Rmult_le_reg_r N); [assumption|].
      pose proof (Rmult_le_compat_l t _ _ (Rlt_le _ _ Ht0) A) as A2.
      assert (0 <= t * (e 1%nat * N)) by (apply Rmult_le_pos; [lra|]; apply Rmult_le_pos; lra).
      pose proof (Rmult_le_compat _ _ _ _ H0 H0 A2 A2) as A3. nra. }
    assert (D : 0 < (t * e 1%nat) ^ 2) by (apply pow_lt; apply Rmult_lt_0_compat; assumption).
    apply (Rle_trans _ (2 * N)).
    2:{ apply (Rmult_le_reg_r ((t * e 1%nat) ^ 2)); [exact D|]. unfold Rdiv. rewrite (Rmult_assoc (2 * label_spread n M y)), Rinv_l by lra. nra. }
    assert (T : forall w, (w < n)%nat -> (x v - x w) ^ 2 <= 2 * N).
    { intros w Hw. destruct (Nat.eq_dec v w) as [->|Ne]; [replace (x w - x w) with 0 by ring; cbn; lra|].
      assert (S2 : z v * z v + z w * z w <= N).
      { unfold N, normsq, dot. set (f := fun i => if Nat.eqb i v then z i * z i else if Nat.eqb i w then z i * z i else 0).
        replace (z v * z v + z w * z w) with (rsum n f).
        - apply rsum_le. intros i Hi. unfold f. pose proof (Rle_0_sqr (z i)) as S. unfold Rsqr in S. destruct (Nat.eqb i v), (Nat.eqb i w); lra.
        - rewrite (rsum_two n f v w Hv Hw Ne).
          + unfold f. rewrite !Nat.eqb_refl. destruct (Nat.eqb_spec w v); [exfalso; auto|reflexivity].
          + intros i Hi N1 N2. unfold f. destruct (Nat.eqb_spec i v); [contradiction|]. destruct (Nat.eqb_spec i w); [contradiction|reflexivity]. }
      replace (x v - x w) with (z v - z w) by (unfold z; ring). pose proof (Rle_0_sqr (z v + z w)) as S. unfold Rsqr in S. nra. }
    destruct (below_and_above t y x P Ht0) as ((a & Ha & La) & (b & Hb2 & Lb)). set (c := label_mean n M y) in *.
    destruct (Rle_dec c (x v)) as [C|C].
    - apply (Rle_trans _ ((x v - x a) ^ 2)); [|apply T; exact Ha]. apply pow_incr. lra.
    - apply (Rle_trans _ ((x v - x b) ^ 2)); [|apply T; exact Hb2]. replace ((x v - c) ^ 2) with ((c - x v) ^ 2) by ring.
      replace ((x v - x b) ^ 2) with ((x b - x v) ^ 2) by ring. apply pow_incr. lra.
  Qed.
End Large.

(** ** The API *)

Lemma pair_bound G M tau tau' y s s' : built G -> nonneg_weights G -> g_lap_type G = Combinatorial -> covered G M ->
  let n := g_n_vertices G in 0 <= tau -> 0 <= tau' -> predicts n (gL G) M tau y s -> predicts n (gL G) M tau' y s' ->
  forall lo hi, (forall i, labelled M i -> lo <= y i <= hi) -> forall v, (v < n)%nat ->
      (forall D, (forall i, labelled M i -> strength G i <= D) -> Rabs (s' v - s v) <= Rabs (tau' - tau) * (D * (hi - lo))) /\
      (0 < tau -> Rabs (s' v - s v) <= Rabs (tau' - tau) / tau * (hi - lo)).
Proof.
  intros Hb Hp Hl HC n T0 T1 P1 P2 lo hi Hy2 v Hv.
  pose proof (graph_is_laplacian G Hb Hp Hl) as HL. fold n in HL. pose proof (covered_lcov G M Hb Hp Hl HC) as HC'. fold n in HC'.
  assert (Hy3 : forall i, (i < n)%nat -> nth i M false = true -> lo <= y i <= hi) by (intros i _ Li; apply Hy2; exact Li).
  pose proof (predicts_between n (gL G) M HL HC' tau _ s lo hi T0 P1 Hy3) as B.
  assert (E0 : Rabs (tau' - tau) = Rabs (tau - tau')) by apply Rabs_minus_sym. rewrite E0. split.
  - intros D HD. apply (path_bound n (gL G) M HL HC' tau tau' (y) s s' _ T1 P1 P2); [|exact Hv].
    intros i Hi Li. rewrite Rabs_mult. apply Rmult_le_compat_l; [apply Rabs_pos|].
    pose proof (mulv_strength G s i Hb Hl Hi) as W. fold n in W. rewrite W. unfold strength. fold n. rewrite <- rsum_scal_r, <- rsum_minus.
    eapply Rle_trans; [apply rsum_abs|]. apply (Rle_trans _ (strength G i * (hi - lo))).
    + unfold strength. fold n. rewrite <- rsum_scal_r. apply rsum_le. intros k Hk. pose proof (B i Hi). pose proof (B k Hk). pose proof (mean_wt_nonneg G i k Hp Hi Hk) as Q.
      destruct (Nat.eqb k i); [replace (0 * s i - 0) with 0 by ring; rewrite Rabs_R0; lra|].
      replace (mean_wt G i k * s i - mean_wt G i k * s k) with (mean_wt G i k * (s i - s k)) by ring. rewrite Rabs_mult, (Rabs_pos_eq _ Q).
      apply Rmult_le_compat_l; [exact Q|]. apply Rabs_le. lra.
    + apply Rmult_le_compat_r; [pose proof (B i Hi); lra|apply HD; exact Li].
  - intros Tp. apply (path_bound n (gL G) M HL HC' tau tau' (y) s s' _ T1 P1 P2); [|exact Hv].
    intros i Hi Li. pose proof (P1 i Hi) as Q. cbv beta in Q. rewrite Li in Q. replace (mulv n (gL G) s i) with ((y i - s i) / tau) by (field_simplify; [|lra]; apply (Rmult_eq_reg_r tau); [|lra]; field_simplify; [lra|lra]).
    rewrite Rabs_mult. unfold Rdiv. rewrite !Rmult_assoc. apply Rmult_le_compat_l; [apply Rabs_pos|]. rewrite Rabs_mult, (Rabs_pos_eq (/ tau)) by (left; apply Rinv_0_lt_compat; exact Tp).
    rewrite Rmult_comm. apply Rmult_le_compat_l; [left; apply Rinv_0_lt_compat; exact Tp|]. pose proof (B i Hi). pose proof (Hy2 i Li). apply Rabs_le. lra.
Qed.

(** From one tau to another: the predictions move by at most the change of tau times the largest total weight at a label times the range of the labels
    (tau = 0 included), and by at most the relative change of tau times that range. *)
Theorem C112_tau_to_tau : forall G M tau tau' b y c sig sol sol', built G -> nonneg_weights G -> g_lap_type G = Combinatorial -> covered G M ->
  let n := g_n_vertices G in List.length M = n -> columns n y c sig -> 0 <= tau -> 0 <= tau' ->
  (0 < tau /\ 0 < tau' \/ b = false /\ (shape y = [n] \/ c <> 1%nat)) ->
  (forall j, (j < c)%nat -> solves G M tau (sig j) (sol j) /\ solves G M tau' (sig j) (sol' j)) ->
  exists x xs x' xs', regression_tikhonov G b y M tau sol = Ok x /\ columns n x c xs /\ regression_tikhonov G b y M tau' sol' = Ok x' /\ columns n x' c xs' /\
    forall j lo hi, (j < c)%nat -> (forall i, labelled M i -> lo <= sig j i <= hi) -> forall v, (v < n)%nat ->
      (forall D, (forall i, labelled M i -> strength G i <= D) -> Rabs (xs' j v - xs j v) <= Rabs (tau' - tau) * (D * (hi - lo))) /\
      (0 < tau -> Rabs (xs' j v - xs j v) <= Rabs (tau' - tau) / tau * (hi - lo)).
Proof.
  intros G M tau tau' b y c sig sol sol' Hb Hp Hl HC n HM Hy T0 T1 Hc Hs.
  pose proof (graph_is_laplacian G Hb Hp Hl) as HL. fold n in HL. pose proof (covered_lcov G M Hb Hp Hl HC) as HC'. fold n in HC'.
  destruct (regression_answer G M tau HM b y c sig sol Hy ltac:(fold n; tauto)) as (x & E & _ & xs & Hx & Ex).
  destruct (regression_answer G M tau' HM b y c sig sol' Hy ltac:(fold n; tauto)) as (x' & E' & _ & xs' & Hx' & Ex').
  exists x, xs, x', xs'. split; [exact E|]. split; [exact Hx|]. split; [exact E'|]. split; [exact Hx'|]. intros j lo hi Hj Hy2 v Hv.
  rewrite (Ex j v Hj), (Ex' j v Hj). destruct (Hs j Hj) as (S1 & S2).
  pose proof (answer_predicts G M tau HM _ _ S1) as P1. pose proof (answer_predicts G M tau' HM _ _ S2) as P2. fold n in P1, P2.
  rewrite Rmax_right in P1, P2 by assumption. set (s := answer M tau (sig j) (sol j)) in *. set (s' := answer M tau' (sig j) (sol' j)) in *.
  apply (pair_bound G M tau tau' (sig j) s s' Hb Hp Hl HC T0 T1 P1 P2 lo hi Hy2 v Hv).
Qed.

(** Large tau on a connected graph: the mean of the labels. *)
Theorem C112_large_tau : forall G m e U M tau b y c sig sol, built G -> nonneg_weights G -> g_lap_type G = Combinatorial -> connected G ->
  let n := g_n_vertices G in (1 < m)%nat -> exact_eig n (gL G) m e U -> List.length M = n -> (exists l, labelled M l) -> columns n y c sig -> 0 < tau ->
  (forall j, (j < c)%nat -> solves G M tau (sig j) (sol j)) ->
  0 < nth 1 e 0 /\ exists x xs, regression_tikhonov G b y M tau sol = Ok x /\ columns n x c xs /\
    forall j v, (j < c)%nat -> (v < n)%nat -> (xs j v - label_mean n M (sig j)) ^ 2 <= 2 * label_spread n M (sig j) / (tau * nth 1 e 0) ^ 2.
Proof.
  intros G m e U M tau b y c sig sol Hb Hp Ht HC n Hm (El & Hm2 & e' & U' & HU & He & _) HM (l & Ll) Hy Tp Hs.
  assert (Hn : (1 < n)%nat) by lia. rewrite He by lia.
  assert (P : 0 < e' 1%nat).
  { pose proof (exact_nonneg G e' U' Hb Hp HU 1%nat Hn) as Q. destruct (Req_dec (e' 1%nat) 0) as [Z|Z]; [|lra]. apply (zero_simple G e' U' 1%nat Hb Hp Ht HC HU Hn) in Z. lia. }
  split; [exact P|]. destruct (regression_answer G M tau HM b y c sig sol Hy ltac:(tauto)) as (x & E & _ & xs & Hx & Ex).
  exists x, xs. split; [exact E|]. split; [exact Hx|]. intros j v Hj Hv. rewrite (Ex j v Hj).
  pose proof (answer_predicts G M tau HM _ _ (Hs j Hj)) as P1. fold n in P1. rewrite Rmax_right in P1 by lra.
  assert (Hl : exists l, (l < n)%nat /\ nth l M false = true).
  { exists l. split; [|exact Ll]. destruct (le_lt_dec n l) as [Q|Q]; [|exact Q]. unfold labelled in Ll. rewrite nth_overflow in Ll by lia. discriminate. }
  apply (far_tau G e' U' M Hb Hp Ht HU Hn Hl P tau _ _ P1 Tp v Hv).
Qed.

(** Hence the predictions are uniformly continuous in tau down to tau = 0, where they interpolate the labels, and tend to the mean of the labels
    as tau grows. *)
Theorem C112_limits : forall G M y c sig sols, built G -> nonneg_weights G -> g_lap_type G = Combinatorial -> covered G M -> (1 < g_n_vertices G)%nat ->
  let n := g_n_vertices G in List.length M = n -> columns n y c sig -> (shape y = [n] \/ c <> 1%nat) ->
  (forall tau j, 0 <= tau -> (j < c)%nat -> solves G M tau (sig j) (sols tau j)) ->
  exists X, (forall tau, 0 <= tau -> exists x xs, regression_tikhonov G false y M tau (sols tau) = Ok x /\ columns n x c xs /\ forall j v, (j < c)%nat -> xs j v = X tau j v) /\
    (forall j i, (j < c)%nat -> (i < n)%nat -> labelled M i -> X 0 j i = sig j i) /\
    forall j eps, (j < c)%nat -> 0 < eps -> exists delta T, 0 < delta /\ forall v, (v < n)%nat ->
      (forall tau tau', 0 <= tau -> 0 <= tau' -> Rabs (tau' - tau) < delta -> Rabs (X tau' j v - X tau j v) < eps) /\
      (connected G -> forall tau, T < tau -> Rabs (X tau j v - label_mean n M (sig j)) < eps).
Proof.
  intros G M y c sig sols Hb Hp Hl HC Hn n HM Hy Hc Hs.
  exists (fun tau j => answer M tau (sig j) (sols tau j)). split; [|split].
  - intros tau T0. destruct (regression_answer G M tau HM false y c sig (sols tau) Hy ltac:(fold n; tauto)) as (x & E & _ & xs & Hx & Ex).
    exists x, xs. split; [exact E|]. split; [exact Hx|]. intros j v Hj. apply Ex. exact Hj.
  - intros j i Hj Hi Li. pose proof (answer_predicts G M 0 HM _ _ (Hs 0 j (Rle_refl 0) Hj)) as P. fold n in P. rewrite Rmax_right in P by lra.
    specialize (P i Hi). cbv beta in P. unfold labelled in Li. rewrite Li in P. lra.
  - intros j eps Hj He.
    destruct (argmax_exists n (sig j) ltac:(unfold n; lia)) as (a & Ha & Ma). destruct (argmin_exists n (sig j) ltac:(unfold n; lia)) as (a' & Ha' & Ma').
    destruct (argmax_exists n (strength G) ltac:(unfold n; lia)) as (d & Hd & Md).
    assert (Lt : forall i, labelled M i -> (i < n)%nat).
    { intros i Li. destruct (le_lt_dec n i) as [Q|Q]; [|exact Q]. unfold labelled in Li. rewrite nth_overflow in Li by lia. discriminate. }
    set (K := strength G d * (sig j a - sig j a')).
    assert (K0 : 0 <= K).
    { apply Rmult_le_pos; [|pose proof (Ma a' Ha'); lra]. apply rsum_nonneg. intros k Hk. destruct (Nat.eqb k d); [lra|]. apply mean_wt_nonneg; assumption. }
    destruct (C82_every_graph_has_a_fourier_basis G 1 Hb) as (e & U & (El & HU)). cbn [v_N v_e v_L v_U] in El, HU. fold n in El, HU.
    set (V := label_spread n M (sig j)). set (e1 := nth 1 e 0).
    exists (eps / (K + 1)), ((Rabs V + 1) * 2 * (/ e1 ^ 2) / eps ^ 2 + 1).
    split; [apply Rdiv_lt_0_compat; lra|]. intros v Hv. split.
    + intros tau tau' T0 T1 Hd2.
      pose proof (answer_predicts G M tau HM _ _ (Hs tau j T0 Hj)) as P1. pose proof (answer_predicts G M tau' HM _ _ (Hs tau' j T1 Hj)) as P2. fold n in P1, P2.
      rewrite Rmax_right in P1, P2 by assumption.
      destruct (pair_bound G M tau tau' _ _ _ Hb Hp Hl HC T0 T1 P1 P2 (sig j a') (sig j a) (fun i Li => conj (Ma' i (Lt i Li)) (Ma i (Lt i Li))) v Hv) as (B & _).
      specialize (B (strength G d) (fun i Li => Md i (Lt i Li))). fold K in B. eapply Rle_lt_trans; [exact B|].
      apply (Rle_lt_trans _ (Rabs (tau' - tau) * (K + 1))); [apply Rmult_le_compat_l; [apply Rabs_pos|lra]|].
      apply (Rmult_lt_compat_r (K + 1)) in Hd2; [|lra]. unfold Rdiv in Hd2. rewrite Rmult_assoc, Rinv_l, Rmult_1_r in Hd2 by lra. exact Hd2.
    + intros HCn tau HT.
      assert (P1e : 0 < e1).
      { pose proof (exact_nonneg G _ U Hb Hp HU 1%nat Hn) as Q. cbv beta in Q. fold e1 in Q. destruct (Req_dec e1 0) as [Z|Z]; [|lra].
        apply (zero_simple G _ U 1%nat Hb Hp Hl HCn HU Hn) in Z. lia. }
      set (A := (Rabs V + 1) * 2 * (/ e1 ^ 2) / eps ^ 2) in *.
      assert (D1 : 0 < e1 ^ 2) by (apply pow_lt; exact P1e). assert (D2 : 0 < eps ^ 2) by (apply pow_lt; exact He).
      pose proof (Rabs_pos V) as RV. pose proof (Rle_abs V) as RV2.
      assert (A0 : 0 < A) by (unfold A, Rdiv; repeat apply Rmult_lt_0_compat; try lra; apply Rinv_0_lt_compat; assumption).
      assert (T0 : 0 < tau) by lra. pose proof (answer_predicts G M tau HM _ _ (Hs tau j (Rlt_le _ _ T0) Hj)) as P. fold n in P. rewrite Rmax_right in P by lra.
      assert (Hll : exists l, (l < n)%nat /\ nth l M false = true).
      { destruct (HC 0%nat ltac:(lia)) as (l & Hln & Ll & _). exists l. split; assumption. }
      pose proof (far_tau G _ U M Hb Hp Hl HU Hn Hll P1e tau _ _ P T0 v Hv) as F. fold n in F. cbv beta in F. fold V e1 in F.
      assert (F2 : 2 * V / (tau * e1) ^ 2 < eps ^ 2).
      { assert (D3 : 0 < (tau * e1) ^ 2) by (apply pow_lt; apply Rmult_lt_0_compat; assumption).
        apply (Rmult_lt_reg_r ((tau * e1) ^ 2)); [exact D3|]. unfold Rdiv. rewrite (Rmult_assoc (2 * V)), Rinv_l, Rmult_1_r by lra.
        assert (EA : A * (eps ^ 2 * e1 ^ 2) = 2 * (Rabs V + 1)) by (unfold A; field; split; lra).
        assert (TT : A < tau ^ 2) by nra. assert (0 < eps ^ 2 * e1 ^ 2) by (apply Rmult_lt_0_compat; assumption).
        apply (Rmult_lt_compat_r (eps ^ 2 * e1 ^ 2)) in TT; [|assumption]. rewrite EA in TT. replace (eps ^ 2 * (tau * e1) ^ 2) with (tau ^ 2 * (eps ^ 2 * e1 ^ 2)) by ring. lra. }
      set (w := answer M tau (sig j) (sols tau j) v - label_mean n M (sig j)) in *.
      destruct (Rlt_le_dec (Rabs w) eps) as [Q|Q]; [exact Q|exfalso]. assert (eps ^ 2 <= Rabs w ^ 2) by (apply pow_incr; lra). rewrite pow2_abs in H. lra.
Qed.

(** The path of three vertices of C98_ex, labelled 0 and 4 at its ends: the prediction at the first vertex is 2 tau / (1 + tau), for every tau >= 0; the mean is 2. *)
Example C112_ex : exists G e U, built G /\ nonneg_weights G /\ g_lap_type G = Combinatorial /\ connected G /\ covered G [true; false; true] /\ g_n_vertices G = 3%nat /\
  exact_eig (g_n_vertices G) (gL G) 3 e U /\ strength G 0 = 1 /\ strength G 2 = 1 /\
  (forall tau, 0 <= tau -> solves G [true; false; true] tau (fun v => nth v [0; 7; 4] 0) (fun v => if Rlt_dec 0 tau then nth v [2 * tau / (1 + tau); 2; (4 + 2 * tau) / (1 + tau)] 0 else 2)) /\
  label_mean 3 [true; false; true] (fun v => nth v [0; 7; 4] 0) = 2 /\ label_spread 3 [true; false; true] (fun v => nth v [0; 7; 4] 0) = 8.
Proof.
  destruct (p3_graph None) as (G & Hb & Hn & Ht & _ & Hp & Hu & HC & HL).
  destruct (C82_every_graph_has_a_fourier_basis G 1 Hb) as (e & U & (El & HU)). cbn [v_N v_e v_L v_U] in El, HU.
  exists G, e, U. split; [exact Hb|]. split; [exact Hp|]. split; [exact Ht|]. split; [exact HC|].
  split; [intros v Hv; exists 0%nat; split; [lia|]; split; [reflexivity|]; apply HC; lia|]. split; [exact Hn|].
  split. { split; [rewrite El; exact Hn|]. split; [lia|]. exists (fun k => nth k e 0), U. split; [exact HU|]. split; intros; reflexivity. }
  destruct (comb_entry G Hb Ht) as (_ & D). split; [rewrite <- D, HL by lia; reflexivity|]. split; [rewrite <- D, HL by lia; reflexivity|].
  split.
  { intros tau T0. split; intros T; (destruct (Rlt_dec 0 tau) as [Q|Q]; [|try lra]); try lra.
    - intros i Hi. rewrite Hn in *. unfold mulv. rewrite (rsum_ext 3 _ (fun j => nth (i * 3 + j) [1; -1; 0; -1; 2; -1; 0; -1; 1] 0 * nth j [2 * tau / (1 + tau); 2; (4 + 2 * tau) / (1 + tau)] 0)) by (intros j Hj; rewrite HL by assumption; reflexivity).
      destruct i as [|[|[|i]]]; [| | |lia]; cbn; field; lra.
    - unfold spsolve_labels_ok. rewrite Hn. cbn. intros k Hk. destruct k; [|lia]. rewrite !HL by lia. cbn. lra. }
  assert (E : label_mean 3 [true; false; true] (fun v => nth v [0; 7; 4] 0) = 2) by (unfold label_mean, n_labels; cbn; lra).
  split; [exact E|]. unfold label_spread. rewrite E. cbn. lra.
Qed.
