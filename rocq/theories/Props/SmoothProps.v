(** C100: the Fourier basis sorts signals by smoothness; truncation, ideal low-pass filters and eigenmap layouts. *)
From Coq Require Import Reals Lra Lia List Arith Bool String ZArith.
From Verif.Base Require Import RSum Prelude LinAlg Spectral.
From Verif.Spec Require Import Matrix NdArray GraphSpec FilterSpec CacheSpec.
From Verif.Model Require Import Sparse Graph Bounds Cache Filter Kernels Layout Generators.
From Verif.Proofs Require Import SparseFacts InitFacts EdgeFacts LapFacts SpectralFacts FilterFacts.
From Verif.Props Require Import Core Laplacian Caching Filtering Banks KernelProps UtilsProps SpectrumProps DenoiseProps GenProps SpectraProps.
Import ListNotations.
Open Scope R_scope.
Open Scope list_scope.

(** Column k of U as a signal. *)
Definition column (n : nat) (U : mat) (k : nat) : list R := map (fun i => U i k) (seq 0 n).
Lemma column_nth n U k i : (i < n)%nat -> nth i (column n U k) 0 = U i k.
Proof. intros Hi. unfold column. apply (nth_map_seq (fun i => U i k)). exact Hi. Qed.
Lemma column_length n U k : List.length (column n U k) = n.
Proof. unfold column. rewrite map_length, seq_length. reflexivity. Qed.

Lemma quad_vec n A x y : veq n x y -> quad n A x = quad n A y.
Proof. intros H. unfold quad. apply dot_ext; [exact H|]. intros i Hi. apply mulv_ext; [intros ? ?; reflexivity|exact H]. Qed.
(** The weights e, sorted, against proportions between 0 and 1 whose sum is m: the smallest total is that of the first m. *)
Lemma sorted_total n m (e p : nat -> R) : (m <= n)%nat -> (forall k l, (k <= l)%nat -> (l < n)%nat -> e k <= e l) ->
  (forall k, (k < n)%nat -> 0 <= p k <= 1) -> rsum n p = INR m -> rsum m e <= \sum_(k < n) (e k * p k).
Proof.
  intros Hm Hs Hp Hsum. destruct (Nat.eq_dec m 0) as [->|Hm0].
  - cbn [rsum]. right. symmetry. rewrite (rsum_ext n _ (fun _ => 0)), rsum_const; [ring|]. intros k Hk.
    rewrite (rsum_zero_all n p) by (try assumption; intros; apply Hp; assumption). ring.
  - set (b := e (m - 1)%nat). set (q := fun k => if Nat.ltb k m then 1 else 0).
    assert (Q : rsum n q = INR m).
    { replace n with (m + (n - m))%nat by lia. rewrite rsum_split, (rsum_ext m q (fun _ => 1)), rsum_const by (intros i Hi; unfold q; destruct (Nat.ltb_spec i m); [reflexivity|lia]).
      rewrite (rsum_ext (n - m) _ (fun _ => 0)), rsum_const by (intros i Hi; unfold q; destruct (Nat.ltb_spec (m + i) m); [lia|reflexivity]). ring. }
    assert (St : rsum m e = \sum_(k < n) (e k * q k)).
    { replace n with (m + (n - m))%nat by lia. rewrite rsum_split, (rsum_ext m (fun k => e k * q k) e) by (intros i Hi; unfold q; destruct (Nat.ltb_spec i m); [ring|lia]).
      change (rsum m (fun k => e k)) with (rsum m e). rewrite (rsum_ext (n - m) _ (fun _ => 0)), rsum_const by (intros i Hi; unfold q; destruct (Nat.ltb_spec (m + i) m); [lia|ring]). ring. }
    assert (D : 0 <= \sum_(k < n) ((e k - b) * (p k - q k))).
    { apply rsum_nonneg. intros k Hk. specialize (Hp k Hk). unfold q. destruct (Nat.ltb_spec k m) as [L|L].
      - pose proof (Hs k (m - 1)%nat ltac:(lia) ltac:(lia)) as H. fold b in H. replace ((e k - b) * (p k - 1)) with ((b - e k) * (1 - p k)) by ring. apply Rmult_le_pos; lra.
      - pose proof (Hs (m - 1)%nat k ltac:(lia) Hk) as H. fold b in H. apply Rmult_le_pos; lra. }
    rewrite (rsum_ext n _ (fun k => (e k * p k - e k * q k) - b * (p k - q k))) in D by (intros; ring).
    rewrite !rsum_minus, rsum_scal_l, rsum_minus in D. change (rsum n (fun k => p k)) with (rsum n p) in D. change (rsum n (fun k => q k)) with (rsum n q) in D.
    rewrite Hsum, Q, <- St in D. lra.
Qed.
(** Bessel. *)
Lemma bessel n m Q u : orthonormal_cols n m Q -> normsq n u = 1 -> \sum_(j < m) (dot n (fun i => Q i j) u * dot n (fun i => Q i j) u) <= 1.
Proof.
  intros HQ Hu. set (c := fun j => dot n (fun i => Q i j) u).
  assert (P : 0 <= normsq n (fun i => u i - \sum_(j < m) (c j * Q i j))) by apply normsq_nonneg.
  assert (E : normsq n (fun i => u i - \sum_(j < m) (c j * Q i j)) = normsq n u - \sum_(j < m) (c j * c j)); [|rewrite E, Hu in P; unfold c in P; cbv beta in P; lra].
  unfold normsq, dot. set (s := fun i => \sum_(j < m) (c j * Q i j)).
  rewrite (rsum_ext n _ (fun i => (u i * u i - u i * s i) - (u i - s i) * s i)) by (intros i Hi; change (\sum_(j < m) (c j * Q i j)) with (s i); ring).
  rewrite !rsum_minus. assert (A : \sum_(i < n) (u i * s i) = \sum_(j < m) (c j * c j)).
  { unfold s. rewrite (rsum_ext n _ (fun i => \sum_(j < m) (c j * (Q i j * u i)))) by (intros i Hi; rewrite <- rsum_scal_l; apply rsum_ext; intros; ring).
    rewrite rsum_swap. apply rsum_ext. intros j Hj. rewrite rsum_scal_l. reflexivity. }
  assert (B : \sum_(i < n) ((u i - s i) * s i) = 0).
  { unfold s at 2. rewrite (rsum_ext n _ (fun i => \sum_(j < m) (c j * (Q i j * (u i - s i))))) by (intros i Hi; rewrite <- rsum_scal_l; apply rsum_ext; intros; ring).
    rewrite rsum_swap, (rsum_ext m _ (fun _ => 0)), rsum_const; [ring|]. intros j Hj. rewrite rsum_scal_l.
    assert (Z : \sum_(i < n) (Q i j * (u i - s i)) = 0); [|rewrite Z; ring].
    rewrite (rsum_ext n _ (fun i => Q i j * u i - Q i j * s i)) by (intros; ring). rewrite rsum_minus.
    assert (C : \sum_(i < n) (Q i j * s i) = c j).
    { unfold s. rewrite (rsum_ext n _ (fun i => \sum_(l < m) (c l * (Q i j * Q i l)))) by (intros i Hi; rewrite <- rsum_scal_l; apply rsum_ext; intros; ring).
      rewrite rsum_swap, (rsum_single m _ j Hj).
      - rewrite rsum_scal_l, (HQ j j Hj Hj), Nat.eqb_refl. ring.
      - intros l Hl Hne. rewrite rsum_scal_l, (HQ j l Hj Hl). destruct (Nat.eqb_spec j l); [congruence|ring]. }
    rewrite C. unfold c, dot. ring. }
  rewrite A, B. ring.
Qed.
(** Ky Fan: no m orthonormal signals have a smaller total energy than the m first eigenvectors. *)
Lemma ky_fan n A e U m Q : eigh_ok n A e U -> (m <= n)%nat -> orthonormal_cols n m Q -> rsum m e <= \sum_(j < m) quad n A (fun i => Q i j).
Proof.
  intros HU Hm HQ. rewrite (rsum_ext m (fun j => quad n A (fun i => Q i j)) (fun j => \sum_(k < n) (e k * (coef n U (fun i => Q i j) k * coef n U (fun i => Q i j) k)))) by (intros j Hj; apply (eigh_quad _ _ _ _ HU)).
  rewrite rsum_swap. rewrite (rsum_ext n _ (fun k => e k * \sum_(j < m) (coef n U (fun i => Q i j) k * coef n U (fun i => Q i j) k))) by (intros k Hk; apply rsum_scal_l).
  apply sorted_total; [exact Hm|exact (eigh_sort _ _ _ _ HU)| |].
  - intros k Hk. split; [apply rsum_nonneg; intros; nra|].
    eapply Rle_trans; [|apply (bessel n m Q (fun i => U i k) HQ)].
    + right. apply rsum_ext. intros j Hj. unfold coef, dot. rewrite (rsum_ext n (fun i => U i k * Q i j) (fun i => Q i j * U i k)) by (intros; ring). reflexivity.
    + unfold normsq, dot. rewrite (eigh_cols _ _ _ _ HU k k Hk Hk), Nat.eqb_refl. reflexivity.
  - rewrite rsum_swap, (rsum_ext m _ (fun _ => 1)), rsum_const; [ring|]. intros j Hj.
    transitivity (normsq n (fun i => Q i j)); [exact (coef_normsq n A e U HU (fun i => Q i j))|]. unfold normsq, dot. rewrite (HQ j j Hj Hj), Nat.eqb_refl. reflexivity.
Qed.

(** ** The columns of U, sorted by smoothness *)
(** [e], [U]: the first m eigenpairs (any exact answer).  The Dirichlet energy of column k is e[k], and no signal of norm one that is
    orthogonal to the columns before has a smaller one. *)
Theorem C100_columns_are_the_smoothest_signals : forall G m e U k, built G -> exact_eig (g_n_vertices G) (gL G) m e U -> (k < m)%nat ->
  let n := g_n_vertices G in
  dirichlet_energy G (column n U k) = Ok (nth k e 0) /\
  forall x, List.length x = n -> \sum_(i < n) (nth i x 0 * nth i x 0) = 1 -> (forall l, (l < k)%nat -> \sum_(i < n) (U i l * nth i x 0) = 0) ->
    exists E, dirichlet_energy G x = Ok E /\ nth k e 0 <= E.
Proof.
  intros G m e U k Hb (Hl & Hm & e' & U' & HU & He & HUU) Hk n. fold n in HU, Hm, HUU.
  assert (Hkn : (k < n)%nat) by lia. split.
  - rewrite energy_ok by apply column_length. f_equal. fold n. transitivity (quad n (gL G) (fun i => U' i k)).
    + apply quad_vec. intros i Hi. rewrite column_nth, HUU by assumption. reflexivity.
    + unfold quad, dot. rewrite (rsum_ext n _ (fun i => e' k * (U' i k * U' i k))) by (intros i Hi; rewrite (eigh_eig _ _ _ _ HU i k Hi Hkn); ring).
      rewrite rsum_scal_l, (eigh_cols _ _ _ _ HU k k Hkn Hkn), Nat.eqb_refl, Rmult_1_r, He by exact Hk. reflexivity.
  - intros x Hx H1 Ho. rewrite energy_ok by exact Hx. eexists. split; [reflexivity|]. fold n. rewrite (eigh_quad _ _ _ _ HU), (He k Hk).
    set (c := coef n U' (fun i => nth i x 0)). assert (N1 : \sum_(l < n) (c l * c l) = 1) by (transitivity (normsq n (fun i => nth i x 0)); [exact (coef_normsq n (gL G) e' U' HU (fun i => nth i x 0))|exact H1]).
    rewrite <- (Rmult_1_r (e' k)), <- N1, <- rsum_scal_l. apply rsum_le. intros l Hln. destruct (lt_dec l k) as [L|L].
    + assert (Z : c l = 0); [|rewrite Z; lra]. unfold c, coef. refine (eq_trans _ (Ho l L)). apply rsum_ext. intros i Hi. rewrite HUU by (assumption || lia). reflexivity.
    + apply Rmult_le_compat_r; [nra|]. apply (eigh_sort _ _ _ _ HU); lia.
Qed.
(** No m orthonormal signals are smoother in total than the first m columns. *)
Theorem C100_total_smoothness : forall G m e U Q, built G -> exact_eig (g_n_vertices G) (gL G) m e U -> orthonormal_cols (g_n_vertices G) m Q ->
  exists E : nat -> R, (forall j, (j < m)%nat -> dirichlet_energy G (column (g_n_vertices G) Q j) = Ok (E j)) /\ \sum_(k < m) nth k e 0 <= \sum_(j < m) E j.
Proof.
  intros G m e U Q Hb (Hl & Hm & e' & U' & HU & He & HUU) HQ. set (n := g_n_vertices G) in *. exists (fun j => quad n (gL G) (fun i => Q i j)). split.
  - intros j Hj. rewrite energy_ok by apply column_length. f_equal. apply quad_vec. intros i Hi. apply column_nth. exact Hi.
  - rewrite (rsum_ext m (fun k => nth k e 0) e') by exact He. apply (ky_fan n (gL G) e' U' m Q HU ltac:(lia) HQ).
Qed.

(** ** Layouts *)
(** Squared lengths of the edges, weighted, when vertex i is drawn at (c i 0, ..., c i (d-1)). *)
Definition edge_lengths (G : graph) (d : nat) (c : nat -> nat -> R) : R :=
  \sum_(i < g_n_vertices G) \sum_(j < g_n_vertices G) (wt G i j * \sum_(k < d) (c j k - c i k) ^ 2).
Lemma edge_lengths_quad G d c : built G -> g_lap_type G = Combinatorial ->
  edge_lengths G d c = 2 * \sum_(k < d) quad (g_n_vertices G) (gL G) (fun i => c i k).
Proof.
  intros Hb Ht. set (n := g_n_vertices G).
  assert (E : forall k, quad n (gL G) (fun i => c i k) = / 2 * \sum_(i < n) \sum_(j < n) (wt G i j * (c j k - c i k) ^ 2)).
  { intros k. pose proof (C10_energy_combinatorial G (column n c k) Hb Ht (column_length _ _ _)) as H. rewrite energy_ok in H by apply column_length. cbv zeta in H. fold n in H.
    injection H as H. rewrite (quad_vec n (gL G) (fun i => c i k) (fun i => nth i (column n c k) 0)) by (intros i Hi; rewrite column_nth by exact Hi; reflexivity).
    rewrite H. f_equal. apply rsum_ext. intros i Hi. apply rsum_ext. intros j Hj. rewrite !column_nth by assumption. reflexivity. }
  rewrite (rsum_ext d _ (fun k => / 2 * \sum_(i < n) \sum_(j < n) (wt G i j * (c j k - c i k) ^ 2))) by (intros k Hk; apply E).
  rewrite rsum_scal_l, <- Rmult_assoc, Rinv_r, Rmult_1_l by lra. unfold edge_lengths. fold n. symmetry. rewrite rsum_swap. apply rsum_ext. intros i Hi.
  rewrite rsum_swap. apply rsum_ext. intros j Hj. rewrite rsum_scal_l. reflexivity.
Qed.
(** Among the layouts that are centred, with coordinates of unit norm and orthogonal to each other, the eigenmap has the shortest edges. *)
Theorem C100_eigenmaps_have_the_shortest_edges : forall G m e U adj inf u eig d name, built G -> nonneg_weights G -> g_lap_type G = Combinatorial -> connected G ->
  (name = "laplacian_eigenmap2D" /\ d = 2%nat \/ name = "laplacian_eigenmap3D" /\ d = 3%nat)%string ->
  exact_eig (g_n_vertices G) (gL G) m e U -> (d < m)%nat -> eig (d + 1)%nat = Ok U ->
  let n := g_n_vertices G in
  exists a, set_kind n adj inf u eig name = Ok (Some a) /\ shape a = [n; d] /\ let c := fun i k => aget a [i; k] in
    (forall k, (k < d)%nat -> \sum_(i < n) c i k = 0) /\ orthonormal_cols n d c /\
    forall c', (forall k, (k < d)%nat -> \sum_(i < n) c' i k = 0) -> orthonormal_cols n d c' -> edge_lengths G d c <= edge_lengths G d c'.
Proof.
  intros G m e U adj inf u eig d name Hb Hp Ht HC Hname (Hl & Hm & e' & U' & HU & He & HUU) Hd Ee n. fold n in HU, Hm, HUU.
  assert (A : exists a, set_kind n adj inf u eig name = Ok (Some a) /\ shape a = [n; d] /\ forall i k, aget a [i; k] = U i (k + 1)%nat).
  { destruct Hname as [(-> & ->)|(-> & ->)]; cbn [Nat.add] in Ee; unfold set_kind; cbn [String.eqb Ascii.eqb Bool.eqb]; rewrite Ee; cbn [bindr]; eexists; (split; [reflexivity|]); split; reflexivity. }
  destruct A as (a & Ea & Sa & Ha). exists a. split; [exact Ea|]. split; [exact Sa|]. intros c.
  assert (Hc : forall i k, (i < n)%nat -> (k < d)%nat -> c i k = U' i (k + 1)%nat) by (intros i k Hi Hk; unfold c; rewrite Ha; apply HUU; [exact Hi|lia]).
  assert (Hn : (0 < n)%nat) by lia. assert (HnR : 0 < INR n) by (apply lt_0_INR; exact Hn).
  pose proof (first_eigenvalue_zero G e' U' Hb Hp Hn HU) as E0.
  assert (Hcst : forall i j, (i < n)%nat -> (j < n)%nat -> U' i 0%nat = U' j 0%nat).
  { apply (proj1 (C72_kernel G (fun i => U' i 0%nat) Hb Hp Ht HC)). intros i Hi. fold n in Hi |- *. rewrite (eigh_eig n (gL G) e' U' HU i 0%nat Hi Hn), E0. ring. }
  assert (Nz : U' 0%nat 0%nat <> 0).
  { intros Z. pose proof (eigh_cols n (gL G) e' U' HU 0%nat 0%nat Hn Hn) as E. cbn [Nat.eqb] in E.
    rewrite (rsum_ext n _ (fun _ => 0)), rsum_const in E by (intros i Hi; rewrite (Hcst i 0%nat Hi Hn), Z; ring). lra. }
  split; [|split].
  - intros k Hk. rewrite (rsum_ext n _ (fun i => U' i (k + 1)%nat)) by (intros i Hi; apply Hc; assumption).
    pose proof (eigh_cols n (gL G) e' U' HU 0%nat (k + 1)%nat Hn ltac:(lia)) as E. destruct (Nat.eqb_spec 0 (k + 1)); [lia|].
    rewrite (rsum_ext n _ (fun i => U' 0%nat 0%nat * U' i (k + 1)%nat)), rsum_scal_l in E by (intros i Hi; rewrite (Hcst i 0%nat Hi Hn); reflexivity).
    apply Rmult_integral in E. destruct E as [E|E]; [contradiction|exact E].
  - intros k l Hk Hll. rewrite (rsum_ext n _ (fun i => U' i (k + 1)%nat * U' i (l + 1)%nat)) by (intros i Hi; rewrite !Hc by assumption; reflexivity).
    rewrite (eigh_cols n (gL G) e' U' HU) by lia. destruct (Nat.eqb_spec k l); destruct (Nat.eqb_spec (k + 1) (l + 1)); (lia || reflexivity).
  - intros c' Hz Ho. rewrite !edge_lengths_quad by assumption. apply Rmult_le_compat_l; [lra|]. fold n.
    set (Q := fun i k => match k with 0%nat => / sqrt (INR n) | Datatypes.S k => c' i k end).
    assert (Hsq : / sqrt (INR n) * / sqrt (INR n) = / INR n) by (rewrite <- Rinv_mult, sqrt_sqrt by lra; reflexivity).
    assert (HQ : orthonormal_cols n (Datatypes.S d) Q).
    { intros [|k] [|l] Hk Hll; cbn [Q Nat.eqb].
      - rewrite rsum_const, Hsq. apply Rinv_r. lra.
      - rewrite rsum_scal_l, Hz by lia. ring.
      - rewrite rsum_scal_r, Hz by lia. ring.
      - apply Ho; lia. }
    pose proof (ky_fan n (gL G) e' U' (Datatypes.S d) Q HU ltac:(lia) HQ) as KF. rewrite !rsum_S_first in KF. cbn [Q] in KF.
    assert (Z0 : quad n (gL G) (fun _ => / sqrt (INR n)) = 0).
    { pose proof (edge_lengths_quad G 1 (fun _ _ => / sqrt (INR n)) Hb Ht) as E. cbn [rsum] in E. fold n in E.
      assert (Ez : edge_lengths G 1 (fun _ _ => / sqrt (INR n)) = 0); [|rewrite Ez in E; lra]. unfold edge_lengths.
      rewrite (rsum_ext _ _ (fun _ => 0)), rsum_const; [ring|]. intros i Hi. rewrite (rsum_ext _ _ (fun _ => 0)), rsum_const; [ring|]. intros j Hj. cbn [rsum]. ring. }
    rewrite Z0, E0, !Rplus_0_l in KF. eapply Rle_trans; [|exact KF]. right. apply rsum_ext. intros k Hk.
    rewrite (quad_vec n (gL G) _ (fun i => U' i (Datatypes.S k))) by (intros i Hi; rewrite Hc by assumption; rewrite Nat.add_1_r; reflexivity).
    unfold quad, dot. rewrite (rsum_ext n _ (fun i => e' (Datatypes.S k) * (U' i (Datatypes.S k) * U' i (Datatypes.S k)))) by (intros i Hi; rewrite (eigh_eig _ _ _ _ HU i (Datatypes.S k) Hi ltac:(lia)); ring).
    rewrite rsum_scal_l, (eigh_cols _ _ _ _ HU) by lia. rewrite Nat.eqb_refl. ring.
Qed.

(** ** Truncation *)
Section Parts.
  Variables (G : graph) (lmax : R) (e : list R) (U : mat).
  Let n := g_n_vertices G.
  Let F := mkview n (gL G) lmax e U.
  Hypothesis (Hb : built G) (Hp : nonneg_weights G) (HF : spectral F).
  Lemma quad_fhat x : quad n (gL G) x = \sum_(k < n) (nth k e 0 * (fhat F x k * fhat F x k)).
  Proof. exact (eigh_quad _ _ _ _ (proj2 HF) x). Qed.
  Lemma e_pos k : (k < n)%nat -> 0 <= nth k e 0.
  Proof. intros Hk. exact (eig_nonneg G lmax e U Hb Hp HF k Hk). Qed.
  Lemma rest_normsq h x : \sum_(i < n) ((x i - mult F h x i) * (x i - mult F h x i)) = \sum_(k < n) ((1 - h k) * (1 - h k) * (fhat F x k * fhat F x k)).
  Proof.
    transitivity (normsq n (mult F (fun k => 1 - h k) x)); [|exact (mult_normsq F HF (fun k => 1 - h k) x)]. apply rsum_ext. intros i Hi.
    assert (E : mult F (fun k => 1 - h k) x i = x i - mult F h x i); [|rewrite E; reflexivity].
    rewrite <- (mult_1 F HF x i Hi) at 1. pose proof (mult_lin_h F 1 (-1) (fun _ => 1) h x i) as L.
    rewrite (mult_ext F (fun k => 1 - h k) (fun k => 1 * 1 + -1 * h k) x x i); [rewrite L; ring| |intros ? ?; reflexivity]. intros k Hk. ring.
  Qed.
  (** What a filter with the gains h between 0 and 1 does to the energy. *)
  Lemma parts_energy h x : (forall k, (k < n)%nat -> 0 <= h k <= 1) -> quad n (gL G) (mult F h x) <= quad n (gL G) x.
  Proof.
    intros Hh. rewrite !quad_fhat. apply rsum_le. intros k Hk. rewrite (fhat_mult F HF) by exact Hk. pose proof (e_pos k Hk). specialize (Hh k Hk).
    replace (h k * fhat F x k * (h k * fhat F x k)) with (h k * h k * (fhat F x k * fhat F x k)) by ring. apply Rmult_le_compat_l; [assumption|].
    pose proof (Rle_0_sqr (fhat F x k)) as S. unfold Rsqr in S. assert (h k * h k <= 1) by (clear S; nra). rewrite <- (Rmult_1_l (fhat F x k * fhat F x k)) at 2. apply Rmult_le_compat_r; assumption.
  Qed.
  Lemma parts_rest (b : R) (h x : vec) : (forall k, (k < n)%nat -> 0 <= h k <= 1) -> (forall k, (k < n)%nat -> nth k e 0 < b -> h k = 1) ->
    b * (\sum_(i < n) ((x i - mult F h x i) * (x i - mult F h x i))) <= quad n (gL G) x.
  Proof.
    intros Hh H1. rewrite rest_normsq, quad_fhat, <- rsum_scal_l. apply rsum_le. intros k Hk. pose proof (e_pos k Hk). specialize (Hh k Hk).
    pose proof (Rle_0_sqr (fhat F x k)) as S. unfold Rsqr in S. rewrite <- Rmult_assoc. apply Rmult_le_compat_r; [exact S|].
    destruct (Rlt_dec (nth k e 0) b) as [L|L]; [rewrite (H1 k Hk L); lra|]. assert (0 <= (1 - h k) * (1 - h k) <= 1) by nra. nra.
  Qed.
End Parts.
(** Keeping the first K coefficients of a signal: the result is smoother than the signal, is the closest of all signals made of the first K columns,
    and the smoother the signal the smaller the error. *)
Theorem C100_truncation : forall G lmax e U x K t y, built G -> nonneg_weights G ->
  let n := g_n_vertices G in let F := mkview n (gL G) lmax e U in spectral F -> List.length x = n ->
  gft F (vec_arr n (fun i => nth i x 0)) = Ok t -> igft F (vec_arr n (fun k => if Nat.ltb k K then aget t [k] else 0)) = Ok y ->
  let err := fun z => \sum_(i < n) ((nth i x 0 - aget z [i]) * (nth i x 0 - aget z [i])) in
  exists Ex Ey, dirichlet_energy G x = Ok Ex /\ dirichlet_energy G (map (fun i => aget y [i]) (seq 0 n)) = Ok Ey /\ Ey <= Ex /\
    ((K < n)%nat -> nth K e 0 * err y <= Ex) /\ ((n <= K)%nat -> err y = 0) /\
    forall s z, (forall k, (K <= k < n)%nat -> s k = 0) -> igft F (vec_arr n s) = Ok z -> err y <= err z.
Proof.
  intros G lmax e U x K t y Hb Hp n F HF Hx Et Ey err. set (xv := fun i => nth i x 0).
  destruct (gft_ok F (vec_arr n xv) [] HF eq_refl) as (t' & E & _ & Ht). fold xv in Et. rewrite Et in E. injection E as <-.
  set (h := fun k => if Nat.ltb k K then 1 else 0).
  assert (Hh : forall k, (k < n)%nat -> 0 <= h k <= 1) by (intros k Hk; unfold h; destruct (Nat.ltb k K); lra).
  assert (Hig : forall s z, igft F (vec_arr n s) = Ok z -> forall i, aget z [i] = \sum_(k < n) (U i k * s k)).
  { intros s z Ez i. destruct (igft_ok F (vec_arr n s) [] HF eq_refl) as (z' & E & _ & Hz). rewrite Ez in E. injection E as <-. exact (Hz i []). }
  assert (Hy : forall i, aget y [i] = mult F h xv i).
  { intros i. rewrite (Hig _ _ Ey i). unfold mult. cbn [v_N F v_U]. apply rsum_ext. intros k Hk. unfold h. rewrite (Ht k []). destruct (Nat.ltb k K); [|ring]. rewrite Rmult_1_l. reflexivity. }
  exists (quad n (gL G) xv), (quad n (gL G) (mult F h xv)). split; [apply energy_ok; exact Hx|]. split.
  { rewrite energy_ok by (rewrite map_length, seq_length; reflexivity). f_equal. apply quad_vec. intros i Hi. rewrite nth_map_seq by exact Hi. apply Hy. }
  assert (Ee : err y = \sum_(i < n) ((xv i - mult F h xv i) * (xv i - mult F h xv i))) by (apply rsum_ext; intros i Hi; rewrite Hy; reflexivity).
  split; [apply (parts_energy G lmax e U Hb Hp HF); exact Hh|]. split; [|split].
  - intros HK. rewrite Ee. apply (parts_rest G lmax e U Hb Hp HF); [exact Hh|]. intros k Hk Hlt. unfold h. destruct (Nat.ltb_spec k K) as [L|L]; [reflexivity|].
    pose proof (eigh_sort _ _ _ _ (proj2 HF) K k L Hk) as Q. cbn [v_e F] in Q. lra.
  - intros HK. rewrite Ee, (rest_normsq G lmax e U HF). fold n F. rewrite (rsum_ext n _ (fun _ => 0)), rsum_const; [ring|]. intros k Hk. unfold h. destruct (Nat.ltb_spec k K); [ring|lia].
  - intros s z Hs Ez. rewrite Ee, (rest_normsq G lmax e U HF). fold n F.
    assert (Ezz : err z = \sum_(k < n) ((fhat F xv k - s k) * (fhat F xv k - s k))).
    { transitivity (normsq n (fun i => xv i - aget z [i])); [reflexivity|]. rewrite <- (fhat_normsq F HF). apply rsum_ext. intros k Hk.
      assert (Q : fhat F (fun i => xv i - aget z [i]) k = fhat F xv k - s k); [|rewrite Q; reflexivity].
      pose proof (fhat_lin F 1 (-1) xv (fun i => aget z [i]) k) as L. unfold fhat in L |- *. cbn [v_N F v_U] in L |- *.
      rewrite (rsum_ext n _ (fun i => U i k * (1 * xv i + -1 * aget z [i]))) by (intros; ring). rewrite L.
      assert (Qs : \sum_(i < n) (U i k * aget z [i]) = s k).
      { rewrite <- (coef_synth n (gL G) _ U (proj2 HF) s k Hk). apply rsum_ext. intros i Hi. rewrite (Hig s z Ez i). reflexivity. }
      rewrite Qs. ring. }
    rewrite Ezz. apply rsum_le. intros k Hk. unfold h. destruct (Nat.ltb_spec k K) as [L|L]; [replace ((1 - 1) * (1 - 1) * (fhat F xv k * fhat F xv k)) with 0 by ring; apply Rle_0_sqr|].
    rewrite (Hs k) by lia. right. ring.
Qed.
(** filters.Rectangular(G, band_max=b), exact: the result is smoother than the signal, contains no more energy than the band allows, the error is bounded by
    the roughness of the signal, and filtering again changes nothing. *)
Theorem C100_ideal_low_pass : forall G lmax e U b x out, built G -> nonneg_weights G ->
  let n := g_n_vertices G in let F := mkview n (gL G) lmax e U in spectral F -> 0 < lmax -> 0 <= b -> List.length x = n ->
  let g := [pw (rect_fun lmax None (Some b))] in
  gfilter F g Exact (vec_arr n (fun i => nth i x 0)) = Ok out ->
  let y := ans F 1 out 0 in
  exists Ex Ey, dirichlet_energy G x = Ok Ex /\ dirichlet_energy G (map y (seq 0 n)) = Ok Ey /\ Ey <= Ex /\
    Ey <= b * lmax * (\sum_(i < n) (nth i x 0 * nth i x 0)) /\
    b * lmax * (\sum_(i < n) ((nth i x 0 - y i) * (nth i x 0 - y i))) <= Ex /\
    exists out2, gfilter F g Exact (vec_arr n y) = Ok out2 /\ forall i, (i < n)%nat -> ans F 1 out2 0 i = y i.
Proof.
  intros G lmax e U b x out Hb Hp n F HF Hl Hb0 Hx g Eo y. set (xv := fun i => nth i x 0).
  pose proof (response_pw F [rect_fun lmax None (Some b)] HF) as Hr. cbn [map] in Hr. fold g in Hr.
  set (h := fun k => rect_fun lmax None (Some b) (nth k e 0)).
  assert (Hy : forall i, (i < n)%nat -> y i = mult F h xv i) by (intros i Hi; exact (ans_of F g Exact _ xv out HF Hr Eo 0%nat i Hi ltac:(cbn; lia))).
  assert (H1 : forall k, nth k e 0 <= b * lmax -> h k = 1).
  { intros k Hk. apply (proj1 (C30_rectangular_is_the_indicator lmax None (Some b) (nth k e 0) Hl)); [discriminate|]. intros b' Eb. injection Eb as <-. exact Hk. }
  assert (H0 : forall k, b * lmax < nth k e 0 -> h k = 0).
  { intros k Hk. apply (proj2 (C30_rectangular_is_the_indicator lmax None (Some b) (nth k e 0) Hl)). right. exists b. auto. }
  assert (Hh : forall k, (k < n)%nat -> 0 <= h k <= 1) by (intros k _; destruct (Rle_dec (nth k e 0) (b * lmax)) as [L|L]; [rewrite (H1 k L)|rewrite (H0 k ltac:(lra))]; lra).
  exists (quad n (gL G) xv), (quad n (gL G) (mult F h xv)). split; [apply energy_ok; exact Hx|]. split.
  { rewrite energy_ok by (rewrite map_length, seq_length; reflexivity). f_equal. apply quad_vec. intros i Hi. rewrite nth_map_seq by exact Hi. apply Hy. exact Hi. }
  split; [apply (parts_energy G lmax e U Hb Hp HF); exact Hh|]. split; [|split].
  - rewrite (quad_fhat G lmax e U HF). fold n F.
    change (\sum_(i < n) (nth i x 0 * nth i x 0)) with (normsq (v_N F) xv). rewrite <- (fhat_normsq F HF xv), <- rsum_scal_l. apply rsum_le. intros k Hk. rewrite (fhat_mult F HF) by exact Hk.
    pose proof (Rle_0_sqr (fhat F xv k)) as S. unfold Rsqr in S. destruct (Rle_dec (nth k e 0) (b * lmax)) as [L|L].
    + rewrite (H1 k L), !Rmult_1_l. apply Rmult_le_compat_r; assumption.
    + rewrite (H0 k) by lra. rewrite !Rmult_0_l, Rmult_0_r. apply Rmult_le_pos; [apply Rmult_le_pos; lra|exact S].
  - rewrite (rsum_ext n _ (fun i => (xv i - mult F h xv i) * (xv i - mult F h xv i))) by (intros i Hi; rewrite Hy by exact Hi; reflexivity).
    apply (parts_rest G lmax e U Hb Hp HF); [exact Hh|]. intros k Hk Hlt. apply H1. lra.
  - destruct (one_signal F g Exact _ y HF Hr) as (o2 & E2 & _ & Ho2). exists o2. split; [exact E2|]. intros i Hi. change 1%nat with (List.length g). rewrite Ho2 by (exact Hi || (cbn; lia)).
    rewrite Hy by exact Hi. transitivity (mult F h (mult F h xv) i); [apply mult_ext; [intros ? ?; reflexivity|exact Hy]|].
    rewrite (mult_mult F HF). apply mult_ext; [|intros ? ?; reflexivity]. intros k Hk. destruct (Rle_dec (nth k e 0) (b * lmax)) as [L|L]; [rewrite (H1 k L)|rewrite (H0 k ltac:(lra))]; ring.
Qed.

(** The hypotheses are met: stars of any size are connected and have a basis, hence eigenmaps, truncations and low-pass filters. *)
Example C100_ex : forall N x, (4 <= N)%nat -> List.length x = N -> exists G e U t y out, Star N false Combinatorial = Ok G /\ g_n_vertices G = N /\
  let F := mkview N (gL G) (INR N) e U in
  built G /\ nonneg_weights G /\ g_lap_type G = Combinatorial /\ connected G /\ spectral F /\ exact_eig N (gL G) N e U /\ (3 < N)%nat /\
  gft F (vec_arr N (fun i => nth i x 0)) = Ok t /\ igft F (vec_arr N (fun k => if Nat.ltb k 2 then aget t [k] else 0)) = Ok y /\
  gfilter F [pw (rect_fun (INR N) None (Some (/ 5)))] Exact (vec_arr N (fun i => nth i x 0)) = Ok out.
Proof.
  intros N x HN Hx. destruct (C48_star N Combinatorial ltac:(lia) (or_introl eq_refl)) as (G & EG & _).
  destruct (star_lap N G ltac:(lia) EG) as (Hb & Hp & HC & Ht & Hn & _).
  destruct (C82_every_graph_has_a_fourier_basis G (INR N) Hb) as (e & U & HF). rewrite Hn in HF.
  set (F := mkview N (gL G) (INR N) e U) in *.
  destruct (gft_ok F (vec_arr N (fun i => nth i x 0)) [] HF eq_refl) as (t & Et & _).
  destruct (igft_ok F (vec_arr N (fun k => if Nat.ltb k 2 then aget t [k] else 0)) [] HF eq_refl) as (y & Ey & _).
  destruct (one_signal F [pw (rect_fun (INR N) None (Some (/ 5)))] Exact _ (fun i => nth i x 0) HF (response_pw F [rect_fun (INR N) None (Some (/ 5))] HF)) as (out & Eo & _).
  exists G, e, U, t, y, out. split; [exact EG|]. split; [exact Hn|]. cbv zeta. fold F. repeat (split; [assumption|]). split; [|split; [lia|split; [exact Et|split; assumption]]].
  destruct HF as (Hl & HU). split; [exact Hl|]. split; [lia|]. eexists. exists U. split; [exact HU|]. split; auto.
Qed.
