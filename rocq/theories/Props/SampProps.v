(** C106: how well regression_tikhonov recovers a signal from its values on the labelled vertices. *)
From Coq Require Import Reals Lra Lia List Arith Bool String ZArith Classical.
From Verif.Base Require Import RSum Prelude LinAlg Spectral Solve.
From Verif.Spec Require Import Matrix NdArray GraphSpec FilterSpec CacheSpec Reach HopSpec LapSpec LearnSpec SampSpec.
From Verif.Model Require Import Sparse Graph Traverse Filter Generators Reduction Learning.
From Verif.Proofs Require Import SparseFacts InitFacts LapFacts MaxPrinciple SchurFacts SpectralFacts TikhonovFacts.
From Verif.Props Require Import Core Laplacian Traversal Caching Filtering UtilsProps ReductionProps LearningProps LocalityProps PartProps NodalProps.
Import ListNotations.
Open Scope R_scope.
Open Scope list_scope.

(** ** One signal *)

(** x vanishes off the labels after L, d vanishes on them. *)
Lemma cross_zero n L M x d : (forall v, (v < n)%nat -> ~ labelled M v -> mulv n L x v = 0) ->
  (forall v, (v < n)%nat -> labelled M v -> d v = 0) -> dot n d (mulv n L x) = 0.
Proof.
  intros Hx Hd. unfold dot. apply rsum_0. intros v Hv. destruct (nth v M false) eqn:E.
  - rewrite (Hd v Hv E). ring.
  - rewrite (Hx v Hv); [ring|]. unfold labelled. rewrite E. discriminate.
Qed.
Lemma quad_shift n L x z : symmetric n L ->
  quad n L z = quad n L x + 2 * dot n (fun i => z i - x i) (mulv n L x) + quad n L (fun i => z i - x i).
Proof.
  intros Hs. pose proof (tik_expand n L [] 1 (fun _ => 0) x z Hs) as E. unfold tik_cost in E.
  rewrite !(rsum_0 n (fun i => if nth i [] false then _ else _)) in E by (intros i Hi; destruct i; reflexivity).
  rewrite !Rplus_0_l, !Rmult_1_l in E. rewrite E. f_equal. f_equal. f_equal. unfold dot. apply rsum_ext. intros i Hi.
  unfold tik_op, zero_unlabelled, mval. destruct i; cbn [nth]; ring.
Qed.
(** The interpolant and the error are orthogonal for the energy. *)
Lemma energy_splits n L M x z : symmetric n L -> (forall v, (v < n)%nat -> ~ labelled M v -> mulv n L x v = 0) -> agree n M z x ->
  quad n L z = quad n L x + quad n L (fun i => z i - x i).
Proof.
  intros Hs Hx Hz. rewrite (quad_shift n L x z Hs), (cross_zero n L M x); [ring|exact Hx|]. intros v Hv HM. rewrite (Hz v Hv HM). ring.
Qed.
Lemma bandlimited_energy n L e U w x : eigh_ok n L e U -> bandlimited n e U w x -> quad n L x <= w * normsq n x.
Proof.
  intros HU HB. rewrite (eigh_quad n L e U HU x), <- (coef_normsq n L e U HU x). unfold normsq, dot. rewrite <- rsum_scal_l. apply rsum_le. intros k Hk.
  destruct (Rle_dec (e k) w) as [H|H]; [apply Rmult_le_compat_r; [apply Rle_0_sqr|exact H]|].
  assert (E : coef n U x k = 0) by (apply (HB k Hk); lra). rewrite E. lra.
Qed.
Lemma bandlimited_minus n e U w x y : bandlimited n e U w x -> bandlimited n e U w y -> bandlimited n e U w (fun i => x i - y i).
Proof.
  intros Hx Hy k Hk Hw. rewrite (rsum_ext n _ (fun i => U i k * x i - U i k * y i)) by (intros; ring). rewrite rsum_minus.
  pose proof (Hx k Hk Hw) as A. pose proof (Hy k Hk Hw) as B. change (rsum n (fun i => U i k * x i) - rsum n (fun i => U i k * y i) = 0). lra.
Qed.

(** Interpolation (tau = 0): the energy of a signal with these labels splits between the result and the error, so that the error is
    at most the excess energy over mu; for a signal without components above w, at most w / mu times its own size. *)
Theorem C106_interpolation_error : forall G y c sig M tau sol, built G -> nonneg_weights G -> g_lap_type G = Combinatorial ->
  columns (g_n_vertices G) y c sig -> List.length M = g_n_vertices G -> tau <= 0 -> (shape y = [g_n_vertices G] \/ c <> 1%nat) -> covered G M ->
  (forall j, (j < c)%nat -> spsolve_labels_ok G M (sig j) (sol j)) ->
  let n := g_n_vertices G in
  exists x xs, regression_tikhonov G false y M tau sol = Ok x /\ columns n x c xs /\
    forall j z, (j < c)%nat -> agree n M z (sig j) ->
      quad n (gL G) z = quad n (gL G) (xs j) + quad n (gL G) (fun i => z i - xs j i) /\
      forall mu, 0 < mu -> sampling_constant n (gL G) M mu ->
        normsq n (fun i => z i - xs j i) <= (quad n (gL G) z - quad n (gL G) (xs j)) / mu /\
        forall e U w, eigh_ok n (gL G) e U -> bandlimited n e U w z -> normsq n (fun i => z i - xs j i) <= w / mu * normsq n z.
Proof.
  intros G y c sig M tau sol Hb Hp Ht Hy HM Hta Hsh HC Hs n.
  destruct (C40_interpolates_with_least_energy G y c sig M tau sol Hb Hp Ht Hy HM Hta Hsh HC Hs) as (x & E & _ & xs & Hx & H).
  exists x, xs. split; [exact E|]. split; [exact Hx|]. intros j z Hj Hz. destruct (H j Hj) as (Hlab & Hharm & _). fold n in Hlab, Hharm.
  pose proof (graph_is_laplacian G Hb Hp Ht) as HL. fold n in HL. pose proof HL as (Hsym & _).
  assert (Hag : agree n M z (xs j)) by (intros v Hv Hm; rewrite (Hz v Hv Hm); symmetry; apply Hlab; assumption).
  pose proof (energy_splits n (gL G) M (xs j) z Hsym Hharm Hag) as ES. split; [exact ES|]. intros mu Hmu Hsc.
  assert (B : mu * normsq n (fun i => z i - xs j i) <= quad n (gL G) (fun i => z i - xs j i)).
  { apply Hsc. intros v Hv Hm. rewrite (Hag v Hv Hm). ring. }
  assert (D : normsq n (fun i => z i - xs j i) <= (quad n (gL G) z - quad n (gL G) (xs j)) / mu).
  { apply (Rmult_le_reg_l mu _ _ Hmu). replace (mu * ((quad n (gL G) z - quad n (gL G) (xs j)) / mu)) with (quad n (gL G) z - quad n (gL G) (xs j)) by (field; lra). lra. }
  split; [exact D|]. intros e U w HU HB. pose proof (bandlimited_energy n (gL G) e U w z HU HB) as Q. pose proof (lap_psd n (gL G) HL (xs j)) as P.
  eapply Rle_trans; [exact D|]. replace (w / mu * normsq n z) with ((w * normsq n z) / mu) by (field; lra).
  apply Rmult_le_compat_r; [left; apply Rinv_0_lt_compat; exact Hmu|]. lra.
Qed.

(** Noisy labels (tau > 0): when every signal has ||M y||^2 + tau y^T L y >= nu ||y||^2, the result is within
    (noise energy + tau times the energy of the signal) / nu of the signal that was measured. *)
Theorem C106_noisy_measurements : forall G b y c sig M tau sol, built G -> nonneg_weights G -> g_lap_type G = Combinatorial ->
  columns (g_n_vertices G) y c sig -> List.length M = g_n_vertices G -> 0 < tau ->
  (forall j, (j < c)%nat -> cg_ok G M tau (sig j) (sol j)) ->
  let n := g_n_vertices G in
  exists x xs, regression_tikhonov G b y M tau sol = Ok x /\ columns n x c xs /\
    forall j z nu, (j < c)%nat -> 0 < nu -> (forall s, nu * normsq n s <= tik_cost n (gL G) M tau (fun _ => 0) s) ->
      normsq n (fun i => z i - xs j i) <= ((\sum_(i < n) (if nth i M false then (z i - sig j i) * (z i - sig j i) else 0)) + tau * quad n (gL G) z) / nu.
Proof.
  intros G b y c sig M tau sol Hb Hp Ht Hy HM Hta Hs n.
  destruct (regression_pos G b y c sig M tau sol Hy HM Hta) as (x & E & _ & xs & Hx & Ex). exists x, xs. split; [exact E|]. split; [exact Hx|].
  intros j z nu Hj Hnu Hst. pose proof (graph_is_laplacian G Hb Hp Ht) as HL. fold n in HL. pose proof HL as (Hsym & _).
  pose proof (tik_expand n (gL G) M tau (sig j) (xs j) z Hsym) as TE. rewrite (rsum_0 n) in TE.
  2:{ intros i Hi. assert (EE : tik_op n (gL G) M tau (xs j) i = zero_unlabelled M (sig j) i); [|rewrite EE; ring].
      rewrite <- (cg_op G M tau (sig j) (sol j) (Hs j Hj) i Hi). fold n. unfold tik_op. rewrite (Ex j i Hj). f_equal. f_equal.
      apply mulv_ext; [intros ? ?; reflexivity|]. intros k Hk. apply Ex. exact Hj. }
  pose proof (Hst (fun i => z i - xs j i)) as B.
  assert (P : 0 <= tik_cost n (gL G) M tau (sig j) (xs j)) by (apply tik_cost_nonneg; [apply lap_psd; exact HL|lra]).
  apply (Rmult_le_reg_l nu _ _ Hnu).
  match goal with |- _ <= nu * (?t / nu) => replace (nu * (t / nu)) with t by (field; lra) end.
  change (nu * normsq n (fun i => z i - xs j i) <= tik_cost n (gL G) M tau (sig j) z). lra.
Qed.

(** Two signals without components at or above mu with the same values on the labelled vertices are the same signal. *)
Theorem C106_smooth_signals_are_determined : forall n L M mu w e U x y, eigh_ok n L e U -> sampling_constant n L M mu -> w < mu ->
  bandlimited n e U w x -> bandlimited n e U w y -> agree n M x y -> veq n x y.
Proof.
  intros n L M mu w e U x y HU Hsc Hw Hx Hy Ha. set (d := fun i => x i - y i).
  pose proof (bandlimited_energy n L e U w d HU (bandlimited_minus n e U w x y Hx Hy)) as Q.
  assert (B : mu * normsq n d <= quad n L d) by (apply Hsc; intros v Hv Hm; unfold d; rewrite (Ha v Hv Hm); ring).
  assert (Z : normsq n d = 0). { pose proof (normsq_nonneg n d). apply Rle_antisym; [|assumption]. apply (Rmult_le_reg_l (mu - w)); lra. }
  intros v Hv. pose proof (normsq_zero n d Z v Hv) as E. unfold d in E. lra.
Qed.

(** ** Sampling constants *)

(** With fewer labels than eigenvalues up to w, some non-zero signal without components above w vanishes on every label; and no
    sampling constant exceeds the eigenvalue whose (zero-based) index is the number of labels. *)
Lemma vanish_conditions n M : exists C : nat -> vec,
  forall x, (forall k, (k < labels n M)%nat -> dot n (C k) x = 0) -> forall v, (v < n)%nat -> labelled M v -> x v = 0.
Proof.
  set (l := filter (fun v => nth v M false) (seq 0 n)). exists (fun k i => if Nat.eqb i (nth k l 0%nat) then 1 else 0). intros x H v Hv Hm.
  assert (I : In v l) by (apply filter_In; split; [apply in_seq; lia|exact Hm]).
  destruct (In_nth _ _ 0%nat I) as (k & Hk & Ek). specialize (H k). unfold labels in H. rewrite ncount_filter_seq in H. specialize (H Hk).
  unfold dot in H. cbv beta in H. rewrite Ek in H. rewrite (rsum_single n _ v Hv) in H.
  - rewrite Nat.eqb_refl in H. lra.
  - intros i Hi Hne. destruct (Nat.eqb_spec i v); [contradiction|ring].
Qed.
Theorem C106_too_few_samples : forall n L M e U k, eigh_ok n L e U -> (labels n M <= k)%nat -> (k < n)%nat ->
  (exists x, ~ vzero n x /\ bandlimited n e U (e k) x /\ agree n M x (fun _ => 0)) /\
  forall mu, sampling_constant n L M mu -> mu <= e k.
Proof.
  intros n L M e U k HU Hl Hk. destruct (vanish_conditions n M) as (C & HC).
  destruct (three_conditions n (labels n M) (n - 1 - k) 0 C (fun l i => U i (k + 1 + l)%nat) C ltac:(lia)) as (x & Hx & H1 & H2 & _).
  assert (HV : forall v, (v < n)%nat -> labelled M v -> x v = 0) by (apply HC; exact H1).
  assert (HB : bandlimited n e U (e k) x).
  { intros l Hln Hlt. destruct (le_lt_dec l k) as [Hle|Hgt]; [pose proof (eigh_sort _ _ _ _ HU l k Hle Hk); lra|].
    specialize (H2 (l - (k + 1))%nat ltac:(lia)). unfold dot in H2. replace (k + 1 + (l - (k + 1)))%nat with l in H2 by lia. exact H2. }
  split; [exists x; split; [exact Hx|split; [exact HB|exact HV]]|]. intros mu Hsc.
  pose proof (bandlimited_energy n L e U (e k) x HU HB) as Q. pose proof (Hsc x HV) as B. pose proof (normsq_pos n x Hx) as P.
  apply (Rmult_le_reg_r (normsq n x)); [exact P|lra].
Qed.

(** More labels never lower the constant. *)
Theorem C106_more_samples : forall n L M M' mu, (forall v, (v < n)%nat -> labelled M v -> labelled M' v) -> sampling_constant n L M mu -> sampling_constant n L M' mu.
Proof. intros n L M M' mu HM Hsc y Hy. apply Hsc. intros v Hv Hm. apply Hy; auto. Qed.

Lemma linked_lcov G M : built G -> nonneg_weights G -> g_lap_type G = Combinatorial ->
  (forall v, (v < g_n_vertices G)%nat -> exists b, (b < g_n_vertices G)%nat /\ labelled M b /\ reach (linked G) v b) -> lcov (g_n_vertices G) (gL G) M.
Proof.
  intros Hb Hp Ht HC i Hi. destruct (HC i Hi) as (b & Hb' & HB & R). exists b. split; [exact Hb'|]. split; [exact HB|].
  destruct (C09_combinatorial_structure G Hb Ht) as (_ & _ & H3 & _). clear HB. revert Hi. induction R as [u|u v w R IH (L1 & L2 & L3)]; intros Hi; [apply reach_refl|].
  destruct (Nat.eq_dec v w) as [<-|Hne]; [apply IH; assumption|]. eapply reach_step; [apply IH; assumption|]. split; [exact L1|]. split; [exact L2|]. split; [exact Hne|].
  rewrite H3 by assumption. pose proof (Hp v w L1 L2). pose proof (Hp w v L2 L1). unfold wt in *. destruct L3; lra.
Qed.
(** The smallest eigenvalue of M + tau L is positive. *)
Lemma stable n L M tau : is_laplacian n L -> 0 < tau -> lcov n L M ->
  exists nu, 0 < nu /\ forall s, nu * normsq n s <= tik_cost n L M tau (fun _ => 0) s.
Proof.
  intros HL Ht HC. pose proof HL as (Hsym & _). set (A := fun i j => (if Nat.eqb i j then if nth i M false then 1 else 0 else 0) + tau * L i j).
  assert (HA : forall x i, (i < n)%nat -> mulv n A x i = tik_op n L M tau x i).
  { intros x i Hi. unfold mulv, A, tik_op, mval. rewrite (rsum_ext n _ (fun j => (if Nat.eqb i j then if nth i M false then 1 else 0 else 0) * x j + tau * (L i j * x j))) by (intros; ring).
    rewrite rsum_plus, rsum_scal_l. unfold mulv. f_equal. rewrite (rsum_single n _ i Hi).
    - rewrite Nat.eqb_refl. destruct (nth i M false); ring.
    - intros j Hj Hne. destruct (Nat.eqb_spec i j); [congruence|ring]. }
  assert (HQ : forall x, quad n A x = tik_cost n L M tau (fun _ => 0) x).
  { intros x. unfold quad, tik_cost, dot. rewrite (rsum_ext n _ (fun i => (if nth i M false then (x i - 0) * (x i - 0) else 0) + tau * (x i * mulv n L x i))).
    - rewrite rsum_plus, rsum_scal_l. reflexivity.
    - intros i Hi. rewrite (HA x i Hi). unfold tik_op, mval. destruct (nth i M false); ring. }
  destruct (spectral_theorem n A) as (e & U & HU).
  { intros i j Hi Hj. unfold A, tr. rewrite (Hsym i j Hi Hj). unfold tr. rewrite (Nat.eqb_sym j i). destruct (Nat.eqb_spec i j); [subst; ring|ring]. }
  destruct (Nat.eq_dec n 0) as [E0|E0].
  { exists 1. split; [lra|]. intros s. pose proof (tik_cost_nonneg n L M tau (fun _ => 0) s (lap_psd n L HL) ltac:(lra)). rewrite E0 at 1. unfold normsq, dot, rsum. lra. }
  exists (e 0%nat). assert (H0 : forall s, e 0%nat * normsq n s <= quad n A s).
  { intros s. apply (eigh_quad_ge n A e U HU). intros k Hk. apply (eigh_sort _ _ _ _ HU); lia. }
  split; [|intros s; rewrite <- HQ; apply H0].
  pose proof (eigenpair_quad n A (e 0%nat) (fun i => U i 0%nat) (eigh_eigenpair n A e U HU 0%nat ltac:(lia))) as Q.
  assert (N1 : normsq n (fun i => U i 0%nat) = 1) by (apply (eigh_cols _ _ _ _ HU 0%nat 0%nat); lia). rewrite N1, Rmult_1_r in Q.
  pose proof (tik_cost_nonneg n L M tau (fun _ => 0) (fun i => U i 0%nat) (lap_psd n L HL) ltac:(lra)) as P. rewrite <- HQ, Q in P.
  destruct P as [P|P]; [exact P|exfalso]. assert (Z : vzero n (fun i => U i 0%nat)).
  { apply (tik_kernel n L M tau _ HL Ht HC). intros i Hi. rewrite <- (HA _ i Hi), (eigh_eig _ _ _ _ HU i 0%nat Hi ltac:(lia)), <- P. ring. }
  assert (E : normsq n (fun i => U i 0%nat) = 0) by (apply rsum_0; intros i Hi; rewrite (Z i Hi); ring). lra.
Qed.

(** A positive constant exists exactly when every vertex is linked, by a path, to a labelled one. *)
Theorem C106_when_samples_suffice : forall G M, built G -> nonneg_weights G -> g_lap_type G = Combinatorial ->
  let n := g_n_vertices G in
  (exists mu, 0 < mu /\ sampling_constant n (gL G) M mu) <->
  (forall v, (v < n)%nat -> exists b, (b < n)%nat /\ labelled M b /\ reach (linked G) v b).
Proof.
  intros G M Hb Hp Ht n. pose proof (graph_is_laplacian G Hb Hp Ht) as HL. fold n in HL. split.
  - intros (mu & Hmu & Hsc) v Hv. apply NNPP. intros HN. destruct (indicator (reach (linked G) v) n) as (p & Hpp).
    assert (Q : quad n (gL G) p = 0).
    { rewrite (lap_energy n (gL G) p HL). rewrite (rsum_0 n); [ring|]. intros i Hi. apply rsum_0. intros j Hj.
      destruct (Nat.eq_dec i j) as [->|Hne]; [ring|]. destruct (C09_combinatorial_structure G Hb Ht) as (_ & _ & H3 & _). rewrite H3 by assumption.
      destruct (classic (linked G i j)) as [HK|HK].
      - assert (E : p i = p j); [|rewrite E; ring]. assert (HK' : linked G j i) by (destruct HK as (A & B & [C|C]); split; auto).
        destruct (Hpp i Hi) as [(R & ->)|(R & ->)], (Hpp j Hj) as [(R' & ->)|(R' & ->)]; try reflexivity; exfalso.
        + apply R'. eapply reach_step; eassumption.
        + apply R. eapply reach_step; eassumption.
      - assert (E : wt G i j = 0 /\ wt G j i = 0). { split; apply NNPP; intros N; apply HK; split; auto. } destruct E as (-> & ->). lra. }
    assert (V : forall b, (b < n)%nat -> labelled M b -> p b = 0).
    { intros b Hb' HB. destruct (Hpp b Hb') as [(R & _)|(_ & E)]; [exfalso; apply HN; exists b; auto|exact E]. }
    specialize (Hsc p V). rewrite Q in Hsc.
    assert (PZ : ~ vzero n p). { intros Z. specialize (Z v Hv). destruct (Hpp v Hv) as [(_ & E)|(R & _)]; [lra|]. apply R. apply reach_refl. }
    pose proof (normsq_pos n p PZ) as P. pose proof (Rmult_lt_0_compat _ _ Hmu P). lra.
  - intros HC. destruct (stable n (gL G) M 1 HL ltac:(lra) (linked_lcov G M Hb Hp Ht HC)) as (nu & Hnu & Hst). exists nu. split; [exact Hnu|].
    intros y Hy. specialize (Hst y). unfold tik_cost in Hst. rewrite (rsum_0 n) in Hst; [lra|]. intros i Hi. destruct (nth i M false) eqn:E; [|reflexivity]. rewrite (Hy i Hi E). ring.
Qed.
(** Under the same condition the constant nu of C106_noisy_measurements exists. *)
Theorem C106_noisy_constant : forall G M tau, built G -> nonneg_weights G -> g_lap_type G = Combinatorial -> 0 < tau -> covered G M ->
  let n := g_n_vertices G in exists nu, 0 < nu /\ forall s, nu * normsq n s <= tik_cost n (gL G) M tau (fun _ => 0) s.
Proof. intros G M tau Hb Hp Ht Hta HC n. apply stable; [apply graph_is_laplacian; assumption|exact Hta|apply covered_lcov; assumption]. Qed.

(** Labels next to every vertex: the weight of its links to labelled vertices is a constant. *)
Theorem C106_every_vertex_next_to_samples : forall G M mu, built G -> nonneg_weights G -> g_lap_type G = Combinatorial ->
  let n := g_n_vertices G in
  (forall v, (v < n)%nat -> ~ labelled M v -> mu <= \sum_(b < n) (if nth b M false then (wt G v b + wt G b v) / 2 else 0)) ->
  sampling_constant n (gL G) M mu.
Proof.
  intros G M mu Hb Hp Ht n Hmu y Hy. pose proof (graph_is_laplacian G Hb Hp Ht) as HL. fold n in HL. destruct (C09_combinatorial_structure G Hb Ht) as (Hs & _ & H3 & _).
  set (K := fun i j => if nth i M false then 0 else if nth j M false then (wt G i j + wt G j i) / 2 * (y i * y i) else 0).
  assert (T : forall i j, (i < n)%nat -> (j < n)%nat -> K i j + K j i <= - gL G i j * ((y i - y j) * (y i - y j))).
  { intros i j Hi Hj. destruct (Nat.eq_dec i j) as [->|Hne].
    - replace (y j - y j) with 0 by ring. unfold K. destruct (nth j M false); lra.
    - rewrite H3 by assumption. pose proof (Hp i j Hi Hj) as P1. pose proof (Hp j i Hj Hi) as P2. fold (wt G i j) in P1. fold (wt G j i) in P2.
      pose proof (Rle_0_sqr (y i - y j)) as Sq. unfold Rsqr in Sq. unfold K. destruct (nth i M false) eqn:Ei, (nth j M false) eqn:Ej.
      + rewrite (Hy i Hi Ei), (Hy j Hj Ej). lra.
      + rewrite (Hy i Hi Ei). lra.
      + rewrite (Hy j Hj Ej). lra.
      + assert (0 <= (wt G i j + wt G j i) * ((y i - y j) * (y i - y j))) by (apply Rmult_le_pos; lra). lra. }
  rewrite (lap_energy n (gL G) y HL).
  assert (E : \sum_(i < n) \sum_(j < n) (K i j + K j i) = 2 * \sum_(i < n) \sum_(j < n) K i j).
  { rewrite (rsum_ext n _ (fun i => (\sum_(j < n) K i j) + \sum_(j < n) K j i)) by (intros; rewrite rsum_plus; reflexivity).
    rewrite rsum_plus, (rsum_swap n n (fun i j => K j i)). change (\sum_(i < n) \sum_(j < n) K i j + \sum_(i < n) \sum_(j < n) K i j = 2 * \sum_(i < n) \sum_(j < n) K i j). ring. }
  assert (B : \sum_(i < n) \sum_(j < n) (K i j + K j i) <= \sum_(i < n) \sum_(j < n) (- gL G i j * ((y i - y j) * (y i - y j)))).
  { apply rsum_le. intros i Hi. apply rsum_le. intros j Hj. apply T; assumption. }
  assert (C : mu * normsq n y <= \sum_(i < n) \sum_(j < n) K i j).
  { unfold normsq, dot. rewrite <- rsum_scal_l. apply rsum_le. intros i Hi. destruct (nth i M false) eqn:Ei.
    - rewrite (Hy i Hi Ei). unfold K. rewrite Ei. rewrite (rsum_0 n (fun _ => 0)); [lra|reflexivity].
    - assert (Ni : ~ labelled M i) by (unfold labelled; rewrite Ei; discriminate). specialize (Hmu i Hi Ni).
      rewrite (rsum_ext n _ (fun j => y i * y i * (if nth j M false then (wt G i j + wt G j i) / 2 else 0))).
      2:{ intros j Hj. unfold K. rewrite Ei. destruct (nth j M false); ring. }
      rewrite rsum_scal_l. rewrite (Rmult_comm mu). apply Rmult_le_compat_l; [apply Rle_0_sqr|exact Hmu]. }
  lra.
Qed.

(** Labels within D hops of every vertex, along links of weight w or more. *)
Theorem C106_samples_within_hops : forall G M D w, built G -> nonneg_weights G -> g_lap_type G = Combinatorial -> 0 < w ->
  let n := g_n_vertices G in
  let link i j := (i < n)%nat /\ (j < n)%nat /\ w <= (wt G i j + wt G j i) / 2 in
  (0 < D)%nat -> (0 < n)%nat -> (forall v, (v < n)%nat -> exists b, labelled M b /\ (b < n)%nat /\ within link D v b) ->
  sampling_constant n (gL G) M (w / (INR n * (INR D * INR D))).
Proof.
  intros G M D w Hb Hp Ht Hw n link HD Hn HC y Hy. pose proof (graph_is_laplacian G Hb Hp Ht) as HL. fold n in HL.
  destruct (C09_combinatorial_structure G Hb Ht) as (Hs & _ & H3 & _). pose proof HL as (_ & _ & Hneg).
  set (q := quad n (gL G) y). pose proof (lap_psd n (gL G) HL y) as Q0. fold q in Q0. set (r := sqrt (q / w)).
  assert (Hqw : 0 <= q / w) by (apply Rmult_le_pos; [exact Q0|left; apply Rinv_0_lt_compat; exact Hw]). pose proof (sqrt_pos (q / w)) as R0. fold r in R0.
  assert (step : forall i j, link i j -> Rabs (y i - y j) <= r).
  { intros i j (Hi & Hj & Hwij). destruct (Nat.eq_dec i j) as [->|Hne]; [rewrite Rminus_diag_eq, Rabs_R0 by reflexivity; exact R0|].
    assert (T : w * ((y i - y j) * (y i - y j)) <= q).
    { unfold q. rewrite (lap_energy n (gL G) y HL). set (t := fun a b => - gL G a b * ((y a - y b) * (y a - y b))).
      assert (Tn : forall a b, (a < n)%nat -> (b < n)%nat -> 0 <= t a b).
      { intros a b Ha Hb'. unfold t. destruct (Nat.eq_dec a b) as [->|Hn']; [replace (y b - y b) with 0 by ring; lra|].
        apply Rmult_le_pos; [specialize (Hneg a b Ha Hb' Hn'); lra|apply Rle_0_sqr]. }
      assert (Hrow : forall a b, (a < n)%nat -> (b < n)%nat -> t a b <= \sum_(c < n) t a c).
      { intros a b Ha Hb'. apply (Rle_trans _ (\sum_(c < n) (if Nat.eqb c b then t a b else 0))).
        - rewrite (rsum_single n _ b Hb'); [rewrite Nat.eqb_refl; lra|]. intros c Hc Hcb. destruct (Nat.eqb_spec c b); [contradiction|reflexivity].
        - apply rsum_le. intros c Hc. destruct (Nat.eqb_spec c b) as [->|]; [lra|apply Tn; assumption]. }
      assert (S2 : t i j + t j i <= \sum_(a < n) \sum_(b < n) t a b).
      { apply (Rle_trans _ (\sum_(a < n) ((if Nat.eqb a i then t i j else 0) + (if Nat.eqb a j then t j i else 0)))).
        - rewrite rsum_plus, (rsum_single n _ i Hi), (rsum_single n _ j Hj).
          + rewrite !Nat.eqb_refl. lra.
          + intros a Ha Haj. destruct (Nat.eqb_spec a j); [contradiction|reflexivity].
          + intros a Ha Hai. destruct (Nat.eqb_spec a i); [contradiction|reflexivity].
        - apply rsum_le. intros x Hx. destruct (Nat.eqb_spec x i) as [Exi|Exi], (Nat.eqb_spec x j) as [Exj|Exj]; try subst x.
          + contradiction.
          + pose proof (Hrow i j Hi Hj). lra.
          + pose proof (Hrow j i Hj Hi). lra.
          + assert (0 <= \sum_(b < n) t x b) by (apply rsum_nonneg; intros; apply Tn; assumption). lra. }
      assert (E1 : t i j = (wt G i j + wt G j i) / 2 * ((y i - y j) * (y i - y j))) by (unfold t; rewrite H3 by assumption; field).
      assert (E2 : t j i = (wt G i j + wt G j i) / 2 * ((y i - y j) * (y i - y j))) by (unfold t; rewrite H3 by auto; field).
      pose proof (Rmult_le_compat_r _ _ _ (Rle_0_sqr (y i - y j)) Hwij) as M1. unfold Rsqr in M1. change (w * ((y i - y j) * (y i - y j)) <= / 2 * \sum_(a < n) \sum_(b < n) t a b). lra. }
    rewrite <- (sqrt_Rsqr_abs (y i - y j)). unfold r. apply sqrt_le_1_alt. unfold Rsqr. apply (Rmult_le_reg_l w _ _ Hw).
    replace (w * (q / w)) with q by (field; lra). exact T. }
  assert (walk : forall k v b, within link k v b -> Rabs (y v - y b) <= INR k * r).
  { intros k v b Hk. induction Hk as [k u|k u v' w' He Hk IH].
    - rewrite Rminus_diag_eq, Rabs_R0 by reflexivity. apply Rmult_le_pos; [apply pos_INR|exact R0].
    - rewrite S_INR. replace (y u - y w') with ((y u - y v') + (y v' - y w')) by ring. pose proof (Rabs_triang (y u - y v') (y v' - y w')). pose proof (step u v' He). lra. }
  assert (HDr : 0 < INR D) by (apply lt_0_INR; exact HD). assert (HNr : 0 < INR n) by (apply lt_0_INR; exact Hn).
  assert (pt : forall v, (v < n)%nat -> y v * y v <= INR D * INR D * (q / w)).
  { intros v Hv. destruct (HC v Hv) as (b & Hlab & Hb' & Hk). pose proof (walk D v b Hk) as Wk. rewrite (Hy b Hb' Hlab), Rminus_0_r in Wk.
    replace (q / w) with (r * r) by (apply sqrt_sqrt; exact Hqw). replace (INR D * INR D * (r * r)) with ((INR D * r) * (INR D * r)) by ring.
    replace (y v * y v) with (Rabs (y v) * Rabs (y v)). 2:{ rewrite <- Rabs_mult. apply Rabs_right. apply Rle_ge, Rle_0_sqr. }
    pose proof (Rabs_pos (y v)). apply Rmult_le_compat; assumption. }
  assert (Nq : normsq n y <= INR n * (INR D * INR D * (q / w))).
  { unfold normsq, dot. apply (Rle_trans _ (\sum_(i < n) (INR D * INR D * (q / w)))); [apply rsum_le; exact pt|]. rewrite rsum_const. lra. }
  assert (Hc : 0 < w / (INR n * (INR D * INR D))) by (apply Rdiv_lt_0_compat; [exact Hw|apply Rmult_lt_0_compat; [exact HNr|apply Rmult_lt_0_compat; exact HDr]]).
  pose proof (Rmult_le_compat_l _ _ _ (Rlt_le _ _ Hc) Nq) as F. eapply Rle_trans; [exact F|]. apply Req_le. field. split; [|split]; lra.
Qed.

(** The hypotheses can be met: the path with three vertices. Its ends give the constant 2, above the second eigenvalue 1 and below
    the third, 3; one end gives a constant too; its second mode is a signal without components above 1. *)
Example C106_ex : exists G e U, built G /\ nonneg_weights G /\ g_lap_type G = Combinatorial /\ g_n_vertices G = 3%nat /\
  eigh_ok 3 (gL G) e U /\ e 1%nat = 1 /\ e 2%nat = 3 /\
  covered G [true; false; true] /\ labels 3 [true; false; true] = 2%nat /\
  (exists s, spsolve_labels_ok G [true; false; true] (fun i => U i 1%nat) s) /\ (exists s, cg_ok G [true; false; true] 1 (fun i => U i 1%nat) s) /\
  sampling_constant 3 (gL G) [true; false; true] 2 /\ sampling_constant 3 (gL G) [true; false; false] (1 / 12) /\
  bandlimited 3 e U 1 (fun i => U i 1%nat) /\ ~ vzero 3 (fun i => U i 1%nat).
Proof.
  destruct (p3_weights None) as (G & (Hb & Hn & Ht & Hc & Hp & Hu & HC & HL) & HW).
  destruct (p3_eigh (gL G) HL) as (_ & _ & e & U & HU & He & _). pose proof (He 1%nat ltac:(lia)) as E1. pose proof (He 2%nat ltac:(lia)) as E2. cbn in E1, E2.
  exists G, e, U. repeat (split; [assumption|]). split; [symmetry; exact E1|]. split; [symmetry; exact E2|].
  assert (Hcov : covered G [true; false; true]) by (intros v Hv; exists 0%nat; split; [lia|]; split; [reflexivity|]; apply HC; lia).
  split; [exact Hcov|]. split; [reflexivity|]. split; [apply C40_solvable; [exact Hb|exact Hp|exact Ht|rewrite Hn; reflexivity|exact Hcov]|].
  split; [apply (C39_unique_and_in_range G [true; false; true] 1 (fun i => U i 1%nat) Hb Hp Ht ltac:(lra) Hcov)|].
  split; [|split; [|split]].
  - pose proof (C106_every_vertex_next_to_samples G [true; false; true] 2 Hb Hp Ht) as K. cbv zeta in K. rewrite Hn in K. apply K. clear K. intros v Hv Nl.
    destruct v as [|[|[|v]]]; try lia; try (exfalso; apply Nl; reflexivity). cbn [rsum nth]. rewrite !HW by lia. cbn [nth Nat.mul Nat.add]. lra.
  - pose proof (C106_samples_within_hops G [true; false; false] 2 1 Hb Hp Ht ltac:(lra)) as K. cbv zeta in K. rewrite Hn in K. specialize (K ltac:(lia) ltac:(lia)).
    replace (1 / 12) with (1 / (INR 3 * (INR 2 * INR 2))) by (cbn; field). apply K. clear K. intros v Hv. exists 0%nat. split; [reflexivity|]. split; [lia|].
    assert (St : forall i j, (i < 3)%nat -> (j < 3)%nat -> (i = S j) -> (i < 3)%nat /\ (j < 3)%nat /\ 1 <= (wt G i j + wt G j i) / 2).
    { intros i j Hi Hj ->. split; [exact Hi|]. split; [exact Hj|]. rewrite !HW by lia. destruct j as [|[|j]]; try lia; cbn; lra. }
    destruct v as [|[|[|v]]]; try lia.
    + apply within_here.
    + eapply within_step; [apply (St 1%nat 0%nat); lia|apply within_here].
    + eapply within_step; [apply (St 2%nat 1%nat); lia|]. eapply within_step; [apply (St 1%nat 0%nat); lia|apply within_here].
  - intros k Hk Hw. pose proof (eigh_cols _ _ _ _ HU k 1%nat Hk ltac:(lia)) as O. destruct (Nat.eqb_spec k 1) as [->|]; [lra|exact O].
  - intros Z. pose proof (eigh_cols _ _ _ _ HU 1%nat 1%nat ltac:(lia) ltac:(lia)) as O. cbn [Nat.eqb] in O. rewrite (rsum_0 3) in O; [lra|]. intros i Hi. rewrite (Z i Hi). ring.
Qed.
