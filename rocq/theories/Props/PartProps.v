(** C104: the spectrum and the filters of a part of a graph (subgraphs, Kron reductions, connected components) against those of
    the whole graph. *)
From Coq Require Import Reals Lra Lia List Arith Bool String ZArith Classical Permutation.
From Verif.Base Require Import RSum Prelude LinAlg Spectral.
From Verif.Spec Require Import Matrix NdArray GraphSpec FilterSpec CacheSpec Reach HopSpec LapSpec CutSpec.
From Verif.Model Require Import Sparse Graph Traverse Bounds Cache Filter Kernels Generators Reduction.
From Verif.Proofs Require Import SparseFacts InitFacts EdgeFacts LapFacts MaxPrinciple SpectralFacts SchurFacts SpectrumFacts FilterFacts GenFacts.
From Verif.Props Require Import Core Laplacian Traversal Caching Filtering Banks UtilsProps ReductionProps GenProps GridProps SpectrumProps TransformProps SpectraProps LocalityProps SmoothProps CutProps.
Import ListNotations.
Open Scope R_scope.
Open Scope list_scope.

(** ** Interlacing *)

Lemma three_conditions n a b c (A B C : nat -> vec) : (a + b + c < n)%nat ->
  exists x, ~ vzero n x /\ (forall k, (k < a)%nat -> dot n (A k) x = 0) /\ (forall k, (k < b)%nat -> dot n (B k) x = 0) /\
    (forall k, (k < c)%nat -> dot n (C k) x = 0).
Proof.
  intros H. destruct (few_conditions n (a + b + c) (fun l => if Nat.ltb l a then A l else if Nat.ltb l (a + b) then B (l - a)%nat else C (l - a - b)%nat) H) as (x & Hx & Ho).
  exists x. split; [exact Hx|]. split; [|split]; intros k Hk.
  - specialize (Ho k ltac:(lia)). cbn beta in Ho. destruct (Nat.ltb_spec k a); [exact Ho|lia].
  - specialize (Ho (a + k)%nat ltac:(lia)). cbn beta in Ho. destruct (Nat.ltb_spec (a + k) a); [lia|]. destruct (Nat.ltb_spec (a + k) (a + b)); [|lia].
    replace (a + k - a)%nat with k in Ho by lia. exact Ho.
  - specialize (Ho (a + b + k)%nat ltac:(lia)). cbn beta in Ho. destruct (Nat.ltb_spec (a + b + k) a); [lia|]. destruct (Nat.ltb_spec (a + b + k) (a + b)); [lia|].
    replace (a + b + k - a - b)%nat with k in Ho by lia. exact Ho.
Qed.

Lemma above n A e U k x : eigh_ok n A e U -> (k < n)%nat -> (forall l, (l < k)%nat -> coef n U x l = 0) -> e k * normsq n x <= quad n A x.
Proof.
  intros HU Hk H0. rewrite (eigh_quad n A e U HU x), <- (coef_normsq n A e U HU x). unfold normsq, dot. rewrite <- rsum_scal_l. apply rsum_le. intros l Hl.
  destruct (lt_dec l k) as [Hlk|Hlk]; [rewrite (H0 l Hlk); lra|].
  apply Rmult_le_compat_r; [apply Rle_0_sqr|]. apply (eigh_sort n A e U HU); lia.
Qed.
Lemma below n A e U k x : eigh_ok n A e U -> (k < n)%nat -> (forall l, (k < l < n)%nat -> coef n U x l = 0) -> quad n A x <= e k * normsq n x.
Proof.
  intros HU Hk H0. rewrite (eigh_quad n A e U HU x), <- (coef_normsq n A e U HU x). unfold normsq, dot. rewrite <- rsum_scal_l. apply rsum_le. intros l Hl.
  destruct (lt_dec k l) as [Hlk|Hlk]; [rewrite (H0 l ltac:(lia)); lra|].
  apply Rmult_le_compat_r; [apply Rle_0_sqr|]. apply (eigh_sort n A e U HU); lia.
Qed.

Section Part.
  Variables (n : nat) (v : list nat).
  Hypothesis Hnd : NoDup v.
  Hypothesis Hin : forall i, In i v -> (i < n)%nat.
  Let m := List.length v.
  Let off := setdiff n v.

  Lemma off_length : (List.length off + m = n)%nat.
  Proof using Hnd Hin.
    pose proof (Permutation_length (split_perm n v Hnd Hin)) as H. rewrite seq_length, app_length in H. unfold off, m. lia.
  Qed.
  Lemma part_normsq w : normsq n w = normsq m (on v w) + \sum_(k < List.length off) (w (nth k off 0%nat) * w (nth k off 0%nat)).
  Proof using Hnd Hin. unfold normsq, dot. apply (split_sum n v Hnd Hin (fun i => w i * w i)). Qed.
  Lemma part_normsq_le w : normsq m (on v w) <= normsq n w.
  Proof using Hnd Hin.
    rewrite part_normsq. assert (0 <= \sum_(k < List.length off) (w (nth k off 0%nat) * w (nth k off 0%nat))); [|lra].
    apply rsum_nonneg. intros k Hk. apply Rle_0_sqr.
  Qed.
  (** the vector that tests the restriction of w against y *)
  Let up (y : vec) : vec := glue n v y (fun _ => 0).
  Lemma up_dot y w : dot n (up y) w = dot m y (on v w).
  Proof using Hnd Hin.
    unfold dot. rewrite (split_sum n v Hnd Hin). rewrite (rsum_0 (List.length (setdiff n v))).
    - rewrite Rplus_0_r. apply rsum_ext. intros i Hi. unfold up. rewrite (glue_ind n v Hnd); [reflexivity|exact Hi].
    - intros k Hk. unfold up. rewrite (glue_comp n v); [ring|exact Hk].
  Qed.

  (** the k-th value of a form on the part is at least that of the whole when the form dominates on a subspace of codimension n - m *)
  Lemma lower A B e U f W (C : nat -> vec) D k : eigh_ok n A e U -> eigh_ok m B f W ->
    (forall w, (forall l, (l < List.length off)%nat -> dot n (C l) w = 0) -> quad n A w <= quad m B (on v w) + D * normsq m (on v w)) ->
    (k < m)%nat -> 0 <= f k + D -> e k <= f k + D.
  Proof using Hnd Hin.
    intros HU HW HQ Hk Hf. pose proof off_length as Hlen.
    destruct (three_conditions n k (List.length off) (m - 1 - k) (fun l i => U i l) C (fun l => up (fun i => W i (k + 1 + l)%nat)) ltac:(lia)) as (w & Hw & H1 & H2 & H3).
    pose proof (normsq_pos n w Hw) as Hp. specialize (HQ w H2).
    pose proof (above n A e U k w HU ltac:(lia) H1) as Q1.
    assert (Q2 : quad m B (on v w) <= f k * normsq m (on v w)).
    { apply (below m B f W); [exact HW|exact Hk|]. intros l Hl. specialize (H3 (l - (k + 1))%nat ltac:(lia)). rewrite up_dot in H3.
      replace (k + 1 + (l - (k + 1)))%nat with l in H3 by lia. exact H3. }
    pose proof (part_normsq_le w) as Q3. apply (Rmult_le_reg_r (normsq n w)); [exact Hp|].
    pose proof (Rmult_le_compat_l (f k + D) _ _ Hf Q3). lra.
  Qed.
  Lemma upper A B e U f W k : eigh_ok n A e U -> eigh_ok m B f W ->
    (forall w, (forall i, (i < n)%nat -> ~ In i v -> w i = 0) -> quad m B (on v w) <= quad n A w) -> (k < m)%nat -> f k <= e (k + (n - m))%nat.
  Proof using Hnd Hin.
    intros HU HW HQ Hk. pose proof off_length as Hlen.
    destruct (three_conditions n k (List.length off) (m - 1 - k) (fun l => up (fun i => W i l)) (fun l i => if Nat.eqb i (nth l off 0%nat) then 1 else 0)
       (fun l i => U i (k + (n - m) + 1 + l)%nat) ltac:(lia)) as (w & Hw & H1 & H2 & H3).
    pose proof (normsq_pos n w Hw) as Hp.
    assert (Hoff : forall l, (l < List.length off)%nat -> w (nth l off 0%nat) = 0).
    { intros l Hl. specialize (H2 l Hl). unfold dot in H2. pose proof (comp_lt n v l Hl) as (Hc & _). fold off in Hc.
      rewrite (rsum_single n _ (nth l off 0%nat) Hc) in H2; [rewrite Nat.eqb_refl in H2; lra|]. intros j Hj Hne.
      destruct (Nat.eqb_spec j (nth l off 0%nat)); [contradiction|ring]. }
    specialize (HQ w). 
    assert (Q3 : normsq n w = normsq m (on v w)).
    { rewrite part_normsq. rewrite (rsum_0 (List.length off)); [ring|]. intros l Hl. rewrite (Hoff l Hl). ring. }
    pose proof (above m B f W k (on v w) HW Hk) as Q1. pose proof (below n A e U (k + (n - m)) w HU ltac:(lia)) as Q2.
    assert (E1 : quad m B (on v w) <= quad n A w).
    { apply HQ. intros i Hi Hni. destruct (comp_onto n v i Hi Hni) as (l & Hl & <-). apply Hoff. exact Hl. }
    assert (E2 : f k * normsq m (on v w) <= quad m B (on v w)).
    { apply Q1. intros l Hl. specialize (H1 l Hl). rewrite up_dot in H1. exact H1. }
    assert (E3 : quad n A w <= e (k + (n - m))%nat * normsq n w).
    { apply Q2. intros l Hl. specialize (H3 (l - (k + (n - m) + 1))%nat ltac:(lia)).
      replace (k + (n - m) + 1 + (l - (k + (n - m) + 1)))%nat with l in H3 by lia. exact H3. }
    apply (Rmult_le_reg_r (normsq n w)); [exact Hp|]. rewrite <- Q3 in E2. lra.
  Qed.
End Part.

(** ** Kron reduction *)

(** The eigenvalues of the Kron reduction of a graph onto the vertices ind interlace those of the graph: the k-th is at least the k-th
    eigenvalue of the graph and at most the eigenvalue of rank k plus the number of eliminated vertices. *)
Theorem C104_kron_reduction_interlaces :
  forall G ind X Gn lmax e U lmax' e' U', built G -> nonneg_weights G -> NoDup ind -> reaches G ind ->
    spsolve_ok (g_n_vertices G) (gL G) ind X -> kron_reduction G ind X = Ok Gn ->
    spectral (mkview (g_n_vertices G) (gL G) lmax e U) -> spectral (mkview (g_n_vertices Gn) (gL Gn) lmax' e' U') ->
    forall k, (k < List.length ind)%nat ->
      nth k e 0 <= nth k e' 0 <= nth (k + (g_n_vertices G - List.length ind)) e 0.
Proof.
  intros G ind X Gn lmax e U lmax' e' U' Hb Hp Hnd Hre HX HK (_ & HU) (_ & HU') k Hk. cbn [v_N v_L v_e v_U] in *.
  destruct (kron_reduction_ok G ind X Gn Hb Hp Hnd Hre HX HK) as (Ht & Hu & Hin & _ & Hb' & Hn' & Ht' & _).
  destruct (C35_kron_graph G ind X Gn Hb Hp Hnd Hre HX HK) as (_ & _ & _ & Hp' & Hu' & _ & _ & Hh & _).
  rewrite Hn' in HU'. split.
  - pose proof (lower (g_n_vertices G) ind Hnd Hin (gL G) (gL Gn) _ _ _ _ (fun l => gL G (nth l (setdiff (g_n_vertices G) ind) 0%nat)) 0 k HU HU') as L.
    rewrite Rplus_0_r in L. apply L; [|exact Hk|].
    + intros w Hw. rewrite Rmult_0_l, Rplus_0_r. apply Req_le. unfold quad, dot. rewrite (split_sum (g_n_vertices G) ind Hnd Hin).
      assert (Z : forall c, (c < g_n_vertices G)%nat -> ~ In c ind -> mulv (g_n_vertices G) (gL G) w c = 0).
      { intros c Hc Hnc. destruct (comp_onto (g_n_vertices G) ind c Hc Hnc) as (l & Hl & <-). apply (Hw l Hl). }
      rewrite (rsum_0 (List.length (setdiff (g_n_vertices G) ind))).
      * rewrite Rplus_0_r. apply rsum_ext. intros i Hi. rewrite (Hh w Z i Hi). reflexivity.
      * intros l Hl. destruct (comp_lt (g_n_vertices G) ind l Hl) as (H1 & H2). rewrite (Z _ H1 H2). ring.
    + pose proof (graph_is_laplacian Gn Hb' Hp' Ht') as HL'. rewrite Hn' in HL'.
      apply (eigenvalue_ge_quad (List.length ind) (gL Gn) _ (fun i => U' i k) 0 (eigh_eigenpair _ _ _ _ HU' k Hk)). rewrite Rmult_0_l. apply lap_psd. exact HL'.
  - apply (upper (g_n_vertices G) ind Hnd Hin (gL G) (gL Gn) (fun k => nth k e 0) U (fun k => nth k e' 0) U' k HU HU'); [|exact Hk].
    intros w _. apply (proj1 (C35_energy G ind X Gn (on ind w) Hb Hp Hnd Hre HX HK)). intros i Hi. reflexivity.
Qed.

(** ** Subgraphs *)

(** Total weight between vertex a and the vertices outside the list v (arcs of directed graphs counted half in each direction). *)
Definition outside (G : graph) (v : list nat) (a : nat) : R :=
  \sum_(j < g_n_vertices G) (if in_dec Nat.eq_dec j v then 0 else (wt G a j + wt G j a) / 2).

Section Sub.
  Variables (G G' : graph) (v : list nat).
  Hypothesis Hb : built G.
  Hypothesis Hb' : built G'.
  Hypothesis Ht : g_lap_type G = Combinatorial.
  Hypothesis Ht' : g_lap_type G' = Combinatorial.
  Hypothesis Hn' : g_n_vertices G' = List.length v.
  Hypothesis Hnd : NoDup v.
  Hypothesis Hin : forall i, In i v -> (i < g_n_vertices G)%nat.
  Hypothesis Hw : forall a b, (a < List.length v)%nat -> (b < List.length v)%nat -> wt G' a b = wt G (nth a v 0%nat) (nth b v 0%nat).

  Lemma outside_sum a : outside G v a = \sum_(k < List.length (setdiff (g_n_vertices G) v))
     ((wt G a (nth k (setdiff (g_n_vertices G) v) 0%nat) + wt G (nth k (setdiff (g_n_vertices G) v) 0%nat) a) / 2).
  Proof using Hnd Hin.
    unfold outside. rewrite (split_sum (g_n_vertices G) v Hnd Hin). rewrite (rsum_0 (List.length v)).
    - rewrite Rplus_0_l. apply rsum_ext. intros k Hk. destruct (comp_lt (g_n_vertices G) v k Hk) as (_ & H).
      destruct (in_dec Nat.eq_dec (nth k (setdiff (g_n_vertices G) v) 0%nat) v); [contradiction|reflexivity].
    - intros i Hi. destruct (in_dec Nat.eq_dec (nth i v 0%nat) v) as [_|H]; [reflexivity|]. exfalso. apply H, nth_In, Hi.
  Qed.
  Lemma part_degree a : (a < List.length v)%nat -> dw (gW G) (nth a v 0%nat) = dw (gW G') a + outside G v (nth a v 0%nat).
  Proof using Hb Hb' Hn' Hnd Hin Hw.
    intros Ha. pose proof (ind_lt (g_n_vertices G) v Hin a Ha) as Hva.
    rewrite (proj1 (C08_weighted_degree G (nth a v 0%nat) Hb Hva)), (proj1 (C08_weighted_degree G' a Hb' ltac:(lia))), outside_sum, Hn'.
    rewrite (split_sum (g_n_vertices G) v Hnd Hin (fun j => wt G j (nth a v 0%nat))), (split_sum (g_n_vertices G) v Hnd Hin (fun j => wt G (nth a v 0%nat) j)).
    rewrite (rsum_ext (List.length v) (fun j => wt G' j a) (fun i => wt G (nth i v 0%nat) (nth a v 0%nat))) by (intros; apply Hw; assumption).
    rewrite (rsum_ext (List.length v) (fun j => wt G' a j) (fun i => wt G (nth a v 0%nat) (nth i v 0%nat))) by (intros; apply Hw; assumption).
    rewrite (rsum_ext _ (fun k => (wt G (nth a v 0%nat) (nth k (setdiff (g_n_vertices G) v) 0%nat) + wt G (nth k (setdiff (g_n_vertices G) v) 0%nat) (nth a v 0%nat)) / 2)
      (fun k => / 2 * wt G (nth a v 0%nat) (nth k (setdiff (g_n_vertices G) v) 0%nat) + / 2 * wt G (nth k (setdiff (g_n_vertices G) v) 0%nat) (nth a v 0%nat)))
      by (intros; lra).
    rewrite rsum_plus, !rsum_scal_l. lra.
  Qed.
  Lemma part_entry a b : (a < List.length v)%nat -> (b < List.length v)%nat ->
    gL G (nth a v 0%nat) (nth b v 0%nat) = gL G' a b + (if Nat.eqb a b then outside G v (nth a v 0%nat) else 0).
  Proof using All.
    intros Ha Hb0. pose proof (ind_lt (g_n_vertices G) v Hin a Ha) as Hva. pose proof (ind_lt (g_n_vertices G) v Hin b Hb0) as Hvb.
    destruct (C09_combinatorial_structure G Hb Ht) as (_ & _ & O & Dg). destruct (C09_combinatorial_structure G' Hb' Ht') as (_ & _ & O' & Dg').
    destruct (Nat.eqb_spec a b) as [<-|Hne].
    - rewrite Dg, Dg', Hw, (part_degree a Ha) by (rewrite ?Hn'; assumption). ring.
    - rewrite O, O', !Hw by (rewrite ?Hn'; try assumption; intros E; apply Hne; apply (proj1 (NoDup_nth v 0%nat) Hnd); assumption). ring.
  Qed.
  (** the energy of a signal that vanishes off the part *)
  Lemma part_energy w : (forall i, (i < g_n_vertices G)%nat -> ~ In i v -> w i = 0) ->
    quad (g_n_vertices G) (gL G) w = quad (List.length v) (gL G') (on v w) + \sum_(a < List.length v) (outside G v (nth a v 0%nat) * (on v w a * on v w a)).
  Proof using All.
    intros H0. unfold quad, dot. rewrite (split_sum (g_n_vertices G) v Hnd Hin). rewrite (rsum_0 (List.length (setdiff (g_n_vertices G) v))).
    2:{ intros k Hk. destruct (comp_lt (g_n_vertices G) v k Hk) as (H1 & H2). rewrite (H0 _ H1 H2). ring. }
    rewrite Rplus_0_r, <- rsum_plus. apply rsum_ext. intros a Ha. unfold mulv. rewrite (split_sum (g_n_vertices G) v Hnd Hin).
    rewrite (rsum_0 (List.length (setdiff (g_n_vertices G) v))).
    2:{ intros k Hk. destruct (comp_lt (g_n_vertices G) v k Hk) as (H1 & H2). rewrite (H0 _ H1 H2). ring. }
    rewrite Rplus_0_r.
    rewrite (rsum_ext (List.length v) _ (fun b => gL G' a b * on v w b + (if Nat.eqb a b then outside G v (nth a v 0%nat) else 0) * on v w b)).
    2:{ intros b Hb0. rewrite (part_entry a b Ha Hb0). unfold on. ring. }
    rewrite rsum_plus. rewrite (rsum_single (List.length v) (fun b => (if Nat.eqb a b then outside G v (nth a v 0%nat) else 0) * on v w b) a Ha).
    - rewrite Nat.eqb_refl. unfold on. ring.
    - intros b _ Hne. destruct (Nat.eqb_spec a b); [congruence|ring].
  Qed.
End Sub.

Lemma denotes_in n sel v : denotes n sel v -> forall i, In i v -> (i < n)%nat.
Proof.
  destruct sel as [l|msk]; cbn [denotes].
  - intros H. induction H as [|z i l v (Hi & _) _ IH]; [intros j []|]. intros j [<-|Hj]; [exact Hi|apply IH; exact Hj].
  - intros (_ & _ & H) i Hi. apply H. exact Hi.
Qed.

Lemma denotes_idx n c : (forall i, In i c -> (i < n)%nat) -> denotes n (VIdx (map Z.of_nat c)) c.
Proof.
  intros H. cbn. induction c as [|i c IH]; [constructor|].
  constructor; [split; [apply H; left; reflexivity|left; reflexivity]|apply IH; intros j Hj; apply H; right; exact Hj].
Qed.

(** Eigenvalues of a subgraph (combinatorial Laplacian) against those of the graph: the k-th is at most the eigenvalue of rank k plus the
    number of removed vertices, and at least the k-th eigenvalue minus the weight D that a kept vertex can lose. *)
Theorem C104_subgraph_eigenvalues :
  forall G sel v G' D lmax e U lmax' e' U', built G -> nonneg_weights G -> g_lap_type G = Combinatorial ->
    (forall c, g_coords G = Some c -> List.length c = g_n_vertices G) ->
    denotes (g_n_vertices G) sel v -> NoDup v -> subgraph G sel = Ok G' ->
    (forall a, In a v -> outside G v a <= D) ->
    spectral (mkview (g_n_vertices G) (gL G) lmax e U) -> spectral (mkview (g_n_vertices G') (gL G') lmax' e' U') ->
    forall k, (k < List.length v)%nat ->
      nth k e 0 - D <= nth k e' 0 <= nth (k + (g_n_vertices G - List.length v)) e 0.
Proof.
  intros G sel v G' D lmax e U lmax' e' U' Hb Hp Ht Hco Hd Hnd Es HD (_ & HU) (_ & HU') k Hk. cbn [v_N v_L v_e v_U] in *.
  destruct (C07_subgraph_restricts G sel v Hb Hd Hco) as (G0 & E0 & Hb' & Hn' & Hw & Ht' & _). assert (G0 = G') by congruence. subst G0.
  pose proof (denotes_in _ _ _ Hd) as Hin. rewrite Ht in Ht'.
  assert (Hp' : nonneg_weights G').
  { intros i j Hi Hj. rewrite Hn' in Hi, Hj. rewrite Hw by assumption. apply Hp; apply Hin, nth_In; assumption. }
  assert (Hout : forall a, In a v -> 0 <= outside G v a).
  { intros a Ha. unfold outside. apply rsum_nonneg. intros j Hj. destruct (in_dec Nat.eq_dec j v); [lra|].
    pose proof (Hp a j (Hin a Ha) Hj). pose proof (Hp j a Hj (Hin a Ha)). lra. }
  pose proof (graph_is_laplacian G' Hb' Hp' Ht') as HL'. rewrite Hn' in HU', HL'.
  assert (He' : 0 <= nth k e' 0).
  { apply (eigenvalue_ge_quad (List.length v) (gL G') _ (fun i => U' i k) 0 (eigh_eigenpair _ _ _ _ HU' k Hk)). rewrite Rmult_0_l. apply lap_psd. exact HL'. }
  assert (HD0 : 0 <= D).
  { assert (Hi : In (nth 0 v 0%nat) v) by (apply nth_In; lia). pose proof (Hout _ Hi). pose proof (HD _ Hi). lra. }
  split.
  - assert (nth k e 0 <= nth k e' 0 + D); [|lra].
    apply (lower (g_n_vertices G) v Hnd Hin (gL G) (gL G') (fun k => nth k e 0) U (fun k => nth k e' 0) U'
      (fun l i => if Nat.eqb i (nth l (setdiff (g_n_vertices G) v) 0%nat) then 1 else 0) D k HU HU'); [|exact Hk|lra].
    intros w Hc. assert (H0 : forall i, (i < g_n_vertices G)%nat -> ~ In i v -> w i = 0).
    { intros i Hi Hni. destruct (comp_onto (g_n_vertices G) v i Hi Hni) as (l & Hl & <-). specialize (Hc l Hl). unfold dot in Hc.
      rewrite (rsum_single (g_n_vertices G) _ _ Hi) in Hc; [rewrite Nat.eqb_refl in Hc; lra|]. intros j Hj Hne.
      destruct (Nat.eqb_spec j (nth l (setdiff (g_n_vertices G) v) 0%nat)); [contradiction|ring]. }
    rewrite (part_energy G G' v Hb Hb' Ht Ht' Hn' Hnd Hin Hw w H0). apply Rplus_le_compat_l. unfold normsq, dot. rewrite <- rsum_scal_l. apply rsum_le.
    intros a Ha. apply Rmult_le_compat_r; [apply Rle_0_sqr|]. apply HD, nth_In, Ha.
  - apply (upper (g_n_vertices G) v Hnd Hin (gL G) (gL G') (fun k => nth k e 0) U (fun k => nth k e' 0) U' k HU HU'); [|exact Hk].
    intros w H0. rewrite (part_energy G G' v Hb Hb' Ht Ht' Hn' Hnd Hin Hw w H0).
    assert (0 <= \sum_(a < List.length v) (outside G v (nth a v 0%nat) * (on v w a * on v w a))); [|lra].
    apply rsum_nonneg. intros a Ha. apply Rmult_le_pos; [apply Hout, nth_In, Ha|apply Rle_0_sqr].
Qed.

(** Fiedler's bound: when removing the vertices outside v disconnects two of the remaining ones, the second eigenvalue of the graph is at most
    the weight D that a remaining vertex loses; with weights at most 1, at most the number of removed vertices. *)
Theorem C104_disconnecting_sets :
  forall G sel v G' D lmax e U a b, built G -> nonneg_weights G -> g_lap_type G = Combinatorial ->
    (forall c, g_coords G = Some c -> List.length c = g_n_vertices G) ->
    denotes (g_n_vertices G) sel v -> NoDup v -> subgraph G sel = Ok G' ->
    spectral (mkview (g_n_vertices G) (gL G) lmax e U) ->
    (a < List.length v)%nat -> (b < List.length v)%nat -> ~ reach (linked G') a b ->
    ((forall i, In i v -> outside G v i <= D) -> nth 1 e 0 <= D) /\
    ((forall i j, (i < g_n_vertices G)%nat -> (j < g_n_vertices G)%nat -> wt G i j <= 1) -> nth 1 e 0 <= INR (g_n_vertices G - List.length v)).
Proof.
  intros G sel v G' D lmax e U a b Hb Hp Ht Hco Hd Hnd Es HF Ha Hbv Hdis.
  destruct (C07_subgraph_restricts G sel v Hb Hd Hco) as (G0 & E0 & Hb' & Hn' & Hw & Ht' & _). assert (G0 = G') by congruence. subst G0.
  pose proof (denotes_in _ _ _ Hd) as Hin. rewrite Ht in Ht'.
  assert (Hp' : nonneg_weights G').
  { intros i j Hi Hj. rewrite Hn' in Hi, Hj. rewrite Hw by assumption. apply Hp; apply Hin, nth_In; assumption. }
  destruct (C82_every_graph_has_a_fourier_basis G' 1 Hb') as (e' & U' & HF').
  assert (Hab : a <> b) by (intros ->; apply Hdis, reach_refl).
  assert (Z : nth 1 e' 0 <= 0).
  { destruct (indicator (reach (linked G') a) (List.length v)) as (p & Hpi).
    destruct HF' as (Hl' & HU'). cbn [v_N v_L v_e v_U] in *. set (S := fun i => Rltb 0 (p i)).
    assert (S1 : forall i, (i < List.length v)%nat -> reach (linked G') a i -> S i = true).
    { intros i Hi R. unfold S. apply Rltb_true. destruct (Hpi i Hi) as [(_ & ->)|(N & _)]; [lra|contradiction]. }
    assert (S0 : forall i, (i < List.length v)%nat -> ~ reach (linked G') a i -> S i = false).
    { intros i Hi R. unfold S. apply Rltb_false. destruct (Hpi i Hi) as [(N & _)|(_ & ->)]; [contradiction|lra]. }
    pose proof (exact_nonneg G' (fun k => nth k e' 0) U' Hb' Hp' HU') as He0. pose proof (comb_quad G' Hb' Ht') as HQ.
    pose proof (cut_lower (g_n_vertices G') (gL G') (fun k => nth k e' 0) U' (wt G') (fun _ => 1) HU' ltac:(lia) Hp' (fun _ _ => Rlt_0_1) HQ He0 S) as C.
    cbv beta in C. rewrite Hn' in C.
    assert (Cz : cut (List.length v) (wt G') S = 0).
    { unfold cut. apply Rmult_eq_0_compat_l. apply rsum_0. intros i Hi. apply rsum_0. intros j Hj.
      destruct (Req_dec (wt G' i j) 0) as [->|Nz]; [destruct (Bool.eqb _ _); reflexivity|].
      assert (Lk : linked G' i j) by (repeat split; [lia|lia|left; exact Nz]). assert (Lk' : linked G' j i) by (repeat split; [lia|lia|right; exact Nz]).
      destruct (classic (reach (linked G') a i)) as [R|R]; destruct (classic (reach (linked G') a j)) as [R'|R'].
      - rewrite (S1 i Hi R), (S1 j Hj R'). reflexivity.
      - exfalso. apply R'. eapply reach_step; eassumption.
      - exfalso. apply R. eapply reach_step; eassumption.
      - rewrite (S0 i Hi R), (S0 j Hj R'). reflexivity. }
    rewrite Cz in C.
    assert (P1 : 0 < mass (List.length v) (fun _ => 1) S).
    { unfold mass. apply (rsum_pos _ _ a); [intros i Hi; cbv beta; destruct (S i); lra|exact Ha|]. cbv beta. rewrite (S1 a Ha (reach_refl _ a)). lra. }
    assert (P2 : 0 < mass (List.length v) (fun _ => 1) (fun i => negb (S i))).
    { unfold mass. apply (rsum_pos _ _ b); [intros i Hi; cbv beta; destruct (negb (S i)); lra|exact Hbv|]. cbv beta. rewrite (S0 b Hbv Hdis). cbn [negb]. lra. }
    assert (P3 : 0 < rsum (List.length v) (fun _ => 1)) by (apply (rsum_pos _ _ a); [intros; lra|exact Ha|lra]).
    apply Rnot_lt_le. intros Q. assert (0 < nth 1 e' 0 * (mass (List.length v) (fun _ => 1) S * mass (List.length v) (fun _ => 1) (fun i => negb (S i)) / rsum (List.length v) (fun _ => 1))); [|lra].
    apply Rmult_lt_0_compat; [exact Q|]. apply Rmult_lt_0_compat; [apply Rmult_lt_0_compat; assumption|apply Rinv_0_lt_compat; exact P3]. }
  assert (K : forall D, (forall i, In i v -> outside G v i <= D) -> nth 1 e 0 <= D).
  { intros D0 HD. pose proof (C104_subgraph_eigenvalues G sel v G' D0 lmax e U 1 e' U' Hb Hp Ht Hco Hd Hnd Es HD HF HF' 1%nat ltac:(lia)). lra. }
  split; [apply K|]. intros H1. apply K. intros i Hi. rewrite (outside_sum G v Hnd Hin).
  replace (g_n_vertices G - List.length v)%nat with (List.length (setdiff (g_n_vertices G) v)) by (pose proof (off_length (g_n_vertices G) v Hnd Hin); lia).
  rewrite <- (Rmult_1_r (INR (List.length _))), <- rsum_const. apply rsum_le. intros k Hk. pose proof (comp_lt (g_n_vertices G) v k Hk) as (Hc & _).
  pose proof (H1 i _ (Hin i Hi) Hc). pose proof (H1 _ i Hc (Hin i Hi)). lra.
Qed.

(** ** Parts without edges to the rest *)

(** No edge leaves the list v. *)
Definition closed_part (G : graph) (v : list nat) : Prop := forall i j, In i v -> linked G i j -> In j v.

Section Closed.
  Variables (G G' : graph) (v : list nat).
  Hypothesis Hb : built G.
  Hypothesis Hb' : built G'.
  Hypothesis Hp : nonneg_weights G.
  Hypothesis Htt : g_lap_type G' = g_lap_type G.
  Hypothesis Hn' : g_n_vertices G' = List.length v.
  Hypothesis Hnd : NoDup v.
  Hypothesis Hin : forall i, In i v -> (i < g_n_vertices G)%nat.
  Hypothesis Hw : forall a b, (a < List.length v)%nat -> (b < List.length v)%nat -> wt G' a b = wt G (nth a v 0%nat) (nth b v 0%nat).
  Hypothesis Hcl : closed_part G v.
  Let n := g_n_vertices G.
  Let m := List.length v.

  Lemma closed_degree a : (a < m)%nat -> dw (gW G) (nth a v 0%nat) = dw (gW G') a.
  Proof using Hb Hb' Hn' Hnd Hin Hw Hcl.
    intros Ha. rewrite (part_degree G G' v Hb Hb' Hn' Hnd Hin Hw a Ha). rewrite outside_sum by assumption. rewrite rsum_0; [ring|]. intros k Hk.
    destruct (comp_lt (g_n_vertices G) v k Hk) as (H1 & H2). set (c := nth k (setdiff (g_n_vertices G) v) 0%nat) in *.
    assert (N : ~ linked G (nth a v 0%nat) c) by (intros L; apply H2, (Hcl (nth a v 0%nat) c); [apply nth_In, Ha|exact L]).
    assert (Ia : (nth a v 0 < g_n_vertices G)%nat) by (apply Hin, nth_In, Ha).
    destruct (Req_dec (wt G (nth a v 0%nat) c) 0) as [->|E]; [|exfalso; apply N; repeat split; auto].
    destruct (Req_dec (wt G c (nth a v 0%nat)) 0) as [->|E]; [|exfalso; apply N; repeat split; auto]. field.
  Qed.
  Lemma closed_lap a b : (a < m)%nat -> (b < m)%nat -> gL G' a b = gL G (nth a v 0%nat) (nth b v 0%nat).
  Proof using All.
    intros Ha Hb0. assert (Va : (nth a v 0 < n)%nat) by (apply Hin, nth_In, Ha). assert (Vb : (nth b v 0 < n)%nat) by (apply Hin, nth_In, Hb0).
    assert (Hinj : nth a v 0%nat = nth b v 0%nat -> a = b) by (apply (proj1 (NoDup_nth v 0%nat) Hnd); assumption).
    pose proof (closed_degree a Ha) as Da. pose proof (closed_degree b Hb0) as Db.
    assert (Hv : valid_lap (g_lap_type G)) by (apply (laplacian_ok (gW G)); destruct (built_good G Hb) as (_ & _ & _ & HL); eauto).
    destruct Hv as [E|E].
    - destruct (C09_combinatorial_structure G Hb E) as (_ & _ & Ho & Hd). destruct (C09_combinatorial_structure G' Hb' (eq_trans Htt E)) as (_ & _ & Ho' & Hd').
      rewrite Hn' in *. destruct (Nat.eq_dec a b) as [<-|Hij].
      + rewrite Hd, Hd', Da, Hw by assumption. reflexivity.
      + rewrite Ho, Ho', !Hw by (try assumption; intros Hx; apply Hij, Hinj, Hx). reflexivity.
    - assert (Hnn' : nonneg_weights G').
      { intros i j Hi Hj. rewrite Hn' in *. rewrite Hw by assumption. apply Hp; apply Hin, nth_In; assumption. }
      destruct (C11_normalized_entries G Hb E Hp) as (Sy & Hd & Ho & Hz). destruct (C11_normalized_entries G' Hb' (eq_trans Htt E) Hnn') as (Sy' & Hd' & Ho' & Hz').
      rewrite Hn' in *. fold n in Sy, Hd, Ho, Hz. fold m in Sy', Hd', Ho', Hz'.
      destruct (Req_dec (dw (gW G) (nth a v 0%nat)) 0) as [Za|Na]; [rewrite Hz, Hz' by (try assumption; lra); reflexivity|].
      destruct (Req_dec (dw (gW G) (nth b v 0%nat)) 0) as [Zb|Nb].
      { rewrite (Sy (nth a v 0%nat) (nth b v 0%nat) Va Vb), (Sy' a b Ha Hb0). unfold tr. rewrite Hz, Hz' by (try assumption; lra). reflexivity. }
      destruct (Nat.eq_dec a b) as [<-|Hij].
      + rewrite Hd, Hd', Da, Hw by (try assumption; lra). reflexivity.
      + rewrite Ho, Ho', !Hw, Da, Db by (try assumption; try lra; intros Hx; apply Hij, Hinj, Hx). reflexivity.
  Qed.
  (** the Laplacian of the graph, applied to a signal carried by the part *)
  Lemma closed_apply x : forall i, (i < n)%nat ->
    mulv n (gL G) (glue n v x (fun _ => 0)) i = glue n v (mulv m (gL G') x) (fun _ => 0) i.
  Proof using All.
    assert (S : forall i, mulv n (gL G) (glue n v x (fun _ => 0)) i = \sum_(b < m) (gL G i (nth b v 0%nat) * x b)).
    { intros i. unfold mulv. rewrite (split_sum n v Hnd Hin). rewrite (rsum_0 (List.length (setdiff n v))).
      - rewrite Rplus_0_r. apply rsum_ext. intros b Hb0. rewrite (glue_ind n v Hnd); [reflexivity|exact Hb0].
      - intros k Hk. rewrite (glue_comp n v); [ring|exact Hk]. }
    intros i Hi. rewrite S. destruct (in_dec Nat.eq_dec i v) as [Iv|Nv].
    - destruct (ind_onto v i Iv) as (a & Ha & <-). rewrite (glue_ind n v Hnd) by exact Ha. unfold mulv. apply rsum_ext. intros b Hb0.
      rewrite (closed_lap a b Ha Hb0). reflexivity.
    - destruct (comp_onto n v i Hi Nv) as (k & Hk & <-). rewrite (glue_comp n v) by exact Hk. apply rsum_0. intros b Hb0.
      destruct (comp_lt n v k Hk) as (H1 & H2). set (c := nth k (setdiff n v) 0%nat) in *.
      assert (Ib : In (nth b v 0%nat) v) by (apply nth_In, Hb0).
      rewrite (lap_linked G c (nth b v 0%nat) Hb H1 (Hin _ Ib)); [ring|intros E; apply H2; rewrite E; exact Ib|].
      intros (L1 & L2 & L3). apply H2. apply (Hcl _ c Ib). repeat split; try assumption. destruct L3; [right|left]; assumption.
  Qed.

  Variables (lmax lmax' : R) (e e' : list R) (U U' : mat).
  Let F := mkview n (gL G) lmax e U.
  Let F' := mkview m (gL G') lmax' e' U'.
  Hypothesis HF : spectral F.
  Hypothesis HF' : spectral F'.

  Lemma closed_reach i j : In i v -> reach (linked G) i j -> In j v.
  Proof using Hcl. intros Hi R. induction R as [u|u w x R IH L]; [exact Hi|]. apply (Hcl w x); [apply IH, Hi|exact L]. Qed.

  (** filtering the whole graph, read on the part, is filtering the part *)
  Lemma closed_mult (g : R -> R) x a : (a < m)%nat ->
    mult F (fun k => g (nth k e 0)) x (nth a v 0%nat) = mult F' (fun k => g (nth k e' 0)) (on v x) a.
  Proof using All.
    intros Ha. assert (Ia : In (nth a v 0%nat) v) by (apply nth_In, Ha).
    set (y := on v x). destruct HF' as (Hl' & HU'). cbn [v_N v_L v_e v_U F'] in *.
    transitivity (mult F (fun k => g (nth k e 0)) (glue n v y (fun _ => 0)) (nth a v 0%nat)).
    { apply (mult_component G lmax e U _ _ _ _ Hb HF); [intros k l _ _ ->; reflexivity|apply Hin, Ia|]. intros i Hi R.
      pose proof (closed_reach _ _ Ia R) as Iv. destruct (ind_onto v i Iv) as (b & Hb0 & <-). rewrite (glue_ind n v Hnd) by exact Hb0. reflexivity. }
    transitivity (\sum_(k < m) (coef m U' y k * mult F (fun k => g (nth k e 0)) (glue n v (fun b => U' b k) (fun _ => 0)) (nth a v 0%nat))).
    { rewrite (mult_ext F _ (fun k => g (nth k e 0)) _ (fun i => \sum_(k < m) (coef m U' y k * glue n v (fun b => U' b k) (fun _ => 0) i)) (nth a v 0%nat)); [|intros ? ?; reflexivity|].
      - unfold mult, fhat. change (v_N F) with n. change (v_U F) with U.
        rewrite (rsum_ext n _ (fun k => \sum_(l < m) (coef m U' y l * (U (nth a v 0%nat) k * (g (nth k e 0) * \sum_(i < n) (U i k * glue n v (fun b => U' b l) (fun _ => 0) i)))))).
        + rewrite rsum_swap. apply rsum_ext. intros l Hl. rewrite rsum_scal_l. reflexivity.
        + intros k Hk.
          rewrite (rsum_ext n _ (fun i => \sum_(l < m) (coef m U' y l * (U i k * glue n v (fun b => U' b l) (fun _ => 0) i)))).
          2:{ intros i Hi. rewrite <- rsum_scal_l. apply rsum_ext. intros l Hl. ring. }
          rewrite rsum_swap. rewrite <- !rsum_scal_l. apply rsum_ext. intros l Hl. rewrite rsum_scal_l. ring.
      - intros i Hi. change (v_N F) with n in Hi. destruct (in_dec Nat.eq_dec i v) as [Iv|Nv].
        + destruct (ind_onto v i Iv) as (b & Hb0 & <-). rewrite (glue_ind n v Hnd) by exact Hb0. rewrite <- (eigh_expand m (gL G') _ U' HU' y b Hb0).
          apply rsum_ext. intros k Hk. rewrite (glue_ind n v Hnd) by exact Hb0. ring.
        + destruct (comp_onto n v i Hi Nv) as (k & Hk & <-). rewrite (glue_comp n v) by exact Hk. symmetry. apply rsum_0. intros l Hl.
          rewrite (glue_comp n v) by exact Hk. ring. }
    unfold mult at 2. cbn [v_N v_U v_e F']. apply rsum_ext. intros k Hk. change (fhat F' y k) with (coef m U' y k).
    rewrite (mult_eigenspace F g (nth k e' 0) (glue n v (fun b => U' b k) (fun _ => 0)) _ HF); [|intros j Hj|apply Hin, Ia].
    - rewrite (glue_ind n v Hnd) by exact Ha. ring.
    - change (v_N F) with n in *. change (v_L F) with (gL G). rewrite (closed_apply (fun b => U' b k) j Hj).
      destruct (in_dec Nat.eq_dec j v) as [Iv|Nv].
      + destruct (ind_onto v j Iv) as (b & Hb0 & <-). rewrite !(glue_ind n v Hnd) by exact Hb0. apply (eigh_eig m (gL G') _ U' HU'); assumption.
      + destruct (comp_onto n v j Hj Nv) as (l & Hl & <-). rewrite !(glue_comp n v) by exact Hl. ring.
  Qed.
End Closed.

(** Filtering a graph gives, on a part that no edge leaves, the answer of filtering the subgraph alone (either Laplacian, either method, the
    same lmax for the Chebyshev method). *)
Theorem C104_a_closed_part_filters_alone :
  forall G sel v G' lmax e U e' U' ks mt s s' q sig, built G -> nonneg_weights G ->
    (forall c, g_coords G = Some c -> List.length c = g_n_vertices G) ->
    denotes (g_n_vertices G) sel v -> NoDup v -> subgraph G sel = Ok G' -> closed_part G v ->
    let F := mkview (g_n_vertices G) (gL G) lmax e U in let F' := mkview (List.length v) (gL G') lmax e' U' in
    spectral F -> spectral F' -> (mt = Exact -> exists gs, ks = map pw gs) -> (exists H, response F ks mt H) ->
    batch (g_n_vertices G) (List.length ks) s q sig -> batch (List.length v) (List.length ks) s' q (fun j a => sig j (nth a v 0%nat)) ->
    exists out out', gfilter F ks mt s = Ok out /\ gfilter F' ks mt s' = Ok out' /\
      forall a j f, (a < List.length v)%nat -> (j < q)%nat -> (f < List.length ks)%nat ->
        rd [List.length v; q; List.length ks] out' [a; j; f] = rd [g_n_vertices G; q; List.length ks] out [nth a v 0%nat; j; f].
Proof.
  intros G sel v G' lmax e U e' U' ks mt s s' q sig Hb Hp Hco Hd Hnd Es Hcl F F' HF HF' Hpw (H0 & Hr) Hs Hs'.
  destruct (C07_subgraph_restricts G sel v Hb Hd Hco) as (G0 & E0 & Hb' & Hn' & Hw & Ht' & _). assert (G0 = G') by congruence. subst G0.
  pose proof (denotes_in _ _ _ Hd) as Hin.
  assert (K : exists h : nat -> R -> R, response F ks mt (fun f k => h f (nth k e 0)) /\ response F' ks mt (fun f k => h f (nth k e' 0))).
  { destruct mt as [|order|nm]; [| |contradiction].
    - destruct (Hpw eq_refl) as (gs & ->). exists (fun f => nth f gs (fun _ => 0)). split; apply response_pw; assumption.
    - destruct Hr as (c & Ec & Ho & Hpos & HH). exists (fun f t => cheb_series (nth f c []) (2 * t / lmax - 1)). split; exists c; auto. }
  destruct K as (h & R1 & R2).
  destruct (C19_analysis_multiplies_the_spectrum F ks mt _ s q sig HF R1 Hs) as (out & E & _ & Ho).
  destruct (C19_analysis_multiplies_the_spectrum F' ks mt _ s' q _ HF' R2 Hs') as (out' & E' & _ & Ho').
  exists out, out'. split; [exact E|]. split; [exact E'|]. intros a j f Ha Hj Hf. change (v_N F) with (g_n_vertices G) in Ho. change (v_N F') with (List.length v) in Ho'.
  rewrite Ho, Ho' by (try assumption; apply Hin, nth_In, Ha). symmetry.
  apply (closed_mult G G' v Hb Hb' Hp Ht' Hn' Hnd Hin Hw Hcl lmax lmax e e' U U' HF HF' (h f) (sig j) a Ha).
Qed.

(** the trace of a function of the Laplacian *)
Lemma mult_trace F (h : vec) : spectral F ->
  \sum_(i < v_N F) mult F h (fun j => if Nat.eqb j i then 1 else 0) i = \sum_(k < v_N F) h k.
Proof.
  intros (_ & HU).
  rewrite (rsum_ext (v_N F) _ (fun i => \sum_(k < v_N F) (h k * (v_U F i k * v_U F i k)))).
  - rewrite rsum_swap. apply rsum_ext. intros k Hk. rewrite rsum_scal_l. pose proof (eigh_cols _ _ _ _ HU k k Hk Hk) as E. rewrite Nat.eqb_refl in E. rewrite E. ring.
  - intros i Hi. unfold mult. apply rsum_ext. intros k Hk. unfold fhat. rewrite (rsum_single (v_N F) _ i Hi).
    + rewrite Nat.eqb_refl. ring.
    + intros j Hj Hne. destruct (Nat.eqb_spec j i); [contradiction|ring].
Qed.

Lemma nodup_left {A} (a b : list A) : NoDup (a ++ b) -> NoDup a.
Proof.
  induction a as [|x a IH]; [intros _; constructor|]. cbn [app]. intros H. inversion H as [|x0 l0 Hn Hr]; subst. constructor; [|apply IH; exact Hr].
  intros Hx. apply Hn, in_or_app. left. exact Hx.
Qed.
Lemma nodup_right {A} (a b : list A) : NoDup (a ++ b) -> NoDup b.
Proof. induction a as [|x a IH]; [intros H; exact H|]. cbn [app]. intros H. inversion H; subst. auto. Qed.
Lemma nodup_part {A} (ll : list (list A)) c : NoDup (List.concat ll) -> In c ll -> NoDup c.
Proof.
  induction ll as [|d ll IH]; [intros _ []|]. cbn [List.concat]. intros H [<-|Hc]; [eapply nodup_left; exact H|apply IH; [eapply nodup_right; exact H|exact Hc]].
Qed.
Lemma count_lsum lam l : INR (count_occ Req_EM_T l lam) = lsum (map (fun t => if Req_EM_T t lam then 1 else 0) l).
Proof.
  induction l as [|x l IH]; [reflexivity|]. cbn [count_occ map]. rewrite lsum_cons, <- IH. destruct (Req_EM_T x lam); [rewrite S_INR; ring|ring].
Qed.
Lemma rsum_reals (l : list R) g : \sum_(k < List.length l) g (nth k l 0) = lsum (map g l).
Proof.
  induction l as [|a l IH]; [reflexivity|]. cbn [List.length]. rewrite rsum_S_first. cbn [nth map]. rewrite lsum_cons. f_equal. exact IH.
Qed.

(** The spectrum of a graph is the union, with multiplicities, of the spectra of its connected components (either Laplacian). *)
Theorem C104_spectrum_of_the_components :
  forall G pop l lmax e U es, built G -> pop_ok pop -> undirected G -> nonneg_weights G ->
    (forall c, g_coords G = Some c -> List.length c = g_n_vertices G) ->
    extract_components pop G = Some (Ok l) -> spectral (mkview (g_n_vertices G) (gL G) lmax e U) ->
    Forall2 (fun part e' => exists lmax' U', spectral (mkview (g_n_vertices (fst part)) (gL (fst part)) lmax' e' U')) l es ->
    Permutation e (List.concat es).
Proof.
  intros G pop l lmax e U es Hb Hpop Hu Hp Hco El HF Hes.
  destruct (C06_components_partition G pop Hb Hpop Hu Hco) as (l' & El' & Hne & Hnd & Hcov & Hre & Hsub).
  rewrite El in El'. assert (l' = l) by congruence. subst l'. clear El'.
  set (n := g_n_vertices G) in *.
  assert (Part : forall g : R -> R, forall G' c e', In (G', c) l -> (exists lmax' U', spectral (mkview (g_n_vertices G') (gL G') lmax' e' U')) ->
    lsum (map (fun i => mult (mkview n (gL G) lmax e U) (fun k => g (nth k e 0)) (fun j => if Nat.eqb j i then 1 else 0) i) c) = lsum (map g e')).
  { intros g G' c e' Hin (lmax' & U' & HF'). destruct (Hsub G' c Hin) as (Es & Hn' & Hw).
    assert (Hc : In c (map snd l)) by (apply in_map_iff; exists (G', c); auto).
    assert (Hcn : forall i, In i c -> (i < n)%nat) by (intros i Hi; apply Hcov, in_concat; eauto).
    assert (Hd : denotes n (VIdx (map Z.of_nat c)) c).
    { apply denotes_idx. exact Hcn. }
    pose proof (nodup_part _ c Hnd Hc) as Hndc.
    destruct (C07_subgraph_restricts G _ c Hb Hd Hco) as (G0 & E0 & Hb' & _ & _ & Ht' & _). assert (G0 = G') by congruence. subst G0.
    assert (Hcl : closed_part G c).
    { intros i j Hi (L1 & L2 & L3). apply (Hre c i j Hc Hi). eapply reach_step; [apply reach_refl|]. repeat split; try assumption.
      pose proof (Hp i j L1 L2). pose proof (Hp j i L2 L1). pose proof (Hu i j L1 L2). destruct L3; lra. }
    rewrite <- rsum_list.
    rewrite (rsum_ext (List.length c) _ (fun a => mult (mkview (List.length c) (gL G') lmax' e' U') (fun k => g (nth k e' 0)) (fun j => if Nat.eqb j a then 1 else 0) a)).
    - rewrite Hn' in HF'. pose proof (mult_trace _ (fun k => g (nth k e' 0)) HF') as T. cbn [v_N] in T. rewrite T.
      destruct HF' as (Hl' & _). cbn [v_N v_e] in Hl'. rewrite <- Hl'. apply rsum_reals.
    - intros a Ha. rewrite Hn' in HF'. rewrite (closed_mult G G' c Hb Hb' Hp Ht' Hn' Hndc Hcn Hw Hcl lmax lmax' e e' U U' HF HF' g _ a Ha).
      apply mult_ext; [intros ? ?; reflexivity|]. intros b Hb0. cbn [v_N] in Hb0. unfold on.
      destruct (Nat.eqb_spec b a) as [->|Hne0]; [rewrite Nat.eqb_refl; reflexivity|].
      destruct (Nat.eqb_spec (nth b c 0%nat) (nth a c 0%nat)) as [E|_]; [|reflexivity]. exfalso. apply Hne0, (proj1 (NoDup_nth c 0%nat) Hndc); assumption. }
  assert (Tot : forall g : R -> R, lsum (map g e) = lsum (map g (List.concat es))).
  { intros g. set (y := fun i => mult (mkview n (gL G) lmax e U) (fun k => g (nth k e 0)) (fun j => if Nat.eqb j i then 1 else 0) i) in *.
    transitivity (rsum n y).
    - unfold y. pose proof (mult_trace _ (fun k => g (nth k e 0)) HF) as T. cbn [v_N] in T. rewrite T. destruct HF as (Hl & _). cbn [v_N v_e] in Hl. rewrite <- Hl, rsum_reals. reflexivity.
    - rewrite <- lsum_map_seq0.
      rewrite (lsum_perm _ (map y (List.concat (map snd l)))).
      2:{ apply Permutation_map, NoDup_Permutation; [apply seq_NoDup|exact Hnd|]. intros i. rewrite in_seq, Hcov. lia. }
      clear - Part Hes. assert (Part' : forall G' c e', In (G', c) l -> (exists lmax' U', spectral (mkview (g_n_vertices G') (gL G') lmax' e' U')) -> lsum (map y c) = lsum (map g e')) by (intros; apply (Part g G'); assumption).
      clear Part. induction Hes as [|(G', c) e' l es H1 _ IH]; [reflexivity|]. cbn [map snd List.concat]. rewrite !map_app, !lsum_app. f_equal.
      + apply (Part' G'); [left; reflexivity|exact H1].
      + apply IH. intros G0 c0 e0 Hi. apply Part'. right. exact Hi. }
  apply (Permutation_count_occ Req_EM_T). intros lam. apply INR_eq. rewrite !count_lsum. apply Tot.
Qed.

(** The reduction of the path 0 - 1 - 2 onto its ends. *)
Example C104_kron_ex : exists G X Gn e U e' U', built G /\ nonneg_weights G /\ NoDup [0; 2]%nat /\ reaches G [0; 2]%nat /\
  spsolve_ok (g_n_vertices G) (gL G) [0; 2]%nat X /\ kron_reduction G [0; 2]%nat X = Ok Gn /\ wt Gn 0%nat 1%nat = / 2 /\
  spectral (mkview (g_n_vertices G) (gL G) 1 e U) /\ spectral (mkview (g_n_vertices Gn) (gL Gn) 1 e' U').
Proof.
  destruct C35_ex as (G & X & Gn & Hb & Hp & HC & Hre & HX & HK & Hw).
  assert (Hnd : NoDup [0; 2]%nat) by (repeat constructor; cbn; intuition discriminate).
  destruct (C82_every_graph_has_a_fourier_basis G 1 Hb) as (e & U & HF).
  destruct (C82_every_graph_has_a_fourier_basis Gn 1 (proj1 (C35_kron_graph G _ X Gn Hb Hp Hnd Hre HX HK))) as (e' & U' & HF').
  exists G, X, Gn, e, U, e', U'. repeat (split; [assumption|]). exact HF'.
Qed.

(** Fiedler's bound is attained: removing the middle of the path 0 - 1 - 2 separates its ends, and its second eigenvalue is 1. *)
Example C104_path_ex : exists G G' e U, built G /\ nonneg_weights G /\ g_lap_type G = Combinatorial /\
  (forall c, g_coords G = Some c -> List.length c = g_n_vertices G) /\ denotes (g_n_vertices G) (VIdx [0; -1]%Z) [0; 2]%nat /\ NoDup [0; 2]%nat /\
  subgraph G (VIdx [0; -1]%Z) = Ok G' /\ spectral (mkview (g_n_vertices G) (gL G) 1 e U) /\ ~ reach (linked G') 0 1 /\
  (forall i, In i [0; 2]%nat -> outside G [0; 2]%nat i <= 1) /\ nth 1 e 0 = 1.
Proof.
  destruct (finite_entry_built 3 [0; 1; 0; 1; 0; 1; 0; 1; 0] Combinatorial None eq_refl (or_introl eq_refl)) as (G & _ & Hb & Hn & Ht & Hc & Hw).
  assert (Hp : nonneg_weights G).
  { intros i j Hi Hj. rewrite Hn in *. rewrite Hw by assumption. destruct i as [|[|[|i]]]; try lia; destruct j as [|[|[|j]]]; try lia; cbn; lra. }
  assert (Hco : forall c, g_coords G = Some c -> List.length c = g_n_vertices G) by (rewrite Hc; discriminate).
  assert (Hd : denotes (g_n_vertices G) (VIdx [0; -1]%Z) [0; 2]%nat).
  { rewrite Hn. cbn. apply Forall2_cons; [split; [lia|left; reflexivity]|]. apply Forall2_cons; [split; [lia|right; reflexivity]|]. constructor. }
  assert (Hnd : NoDup [0; 2]%nat) by (repeat constructor; cbn; intuition discriminate).
  destruct (C07_subgraph_restricts G _ _ Hb Hd Hco) as (G' & Es & Hb' & Hn' & Hw' & _).
  destruct (C82_every_graph_has_a_fourier_basis G 1 Hb) as (e & U & HF).
  exists G, G', e, U. repeat (split; [assumption|]).
  assert (Dis : ~ reach (linked G') 0 1).
  { assert (N : forall x y, linked G' x y -> x = 0%nat -> y = 0%nat).
    { intros x y (L1 & L2 & L3) ->. rewrite Hn' in *. cbn [List.length] in *. destruct y as [|[|y]]; [reflexivity| |lia]. exfalso.
      rewrite !Hw' in L3 by (cbn; lia). cbn [nth] in L3. rewrite !Hw in L3 by lia. cbn in L3. destruct L3; lra. }
    assert (K : forall a b, reach (linked G') a b -> a = 0%nat -> b = 0%nat).
    { clear - N. intros a b R. induction R as [u|u x y R IH L]; [auto|]. intros Eu. apply (N x y L), IH, Eu. }
    intros R. specialize (K 0%nat 1%nat R eq_refl). discriminate. }
  assert (Out : forall i, In i [0; 2]%nat -> outside G [0; 2]%nat i <= 1).
  { intros i Hi. unfold outside. rewrite Hn. cbn [rsum].
    destruct (in_dec Nat.eq_dec 0%nat [0; 2]%nat) as [_|N]; [|exfalso; apply N; cbn; tauto].
    destruct (in_dec Nat.eq_dec 1%nat [0; 2]%nat) as [N|_]; [exfalso; cbn in N; intuition discriminate|].
    destruct (in_dec Nat.eq_dec 2%nat [0; 2]%nat) as [_|N]; [|exfalso; apply N; cbn; tauto].
    destruct Hi as [<-|[<-|[]]]; rewrite !Hw by lia; cbn; lra. }
  split; [exact Dis|]. split; [exact Out|].
  pose proof (proj1 (C104_disconnecting_sets G _ _ G' 1 1 e U 0 1 Hb Hp Ht Hco Hd Hnd Es HF ltac:(cbn; lia) ltac:(cbn; lia) Dis) Out) as Up.
  assert (E1 : forall j, (j < 3)%nat -> mulv 3 (gL G) (fun i => 1 - INR i) j = 1 * (1 - INR j)).
  { destruct (C09_combinatorial_structure G Hb Ht) as (_ & Ho & Hoff & Hdiag). rewrite Hn in *.
    assert (D : forall i, (i < 3)%nat -> gL G i i = - \sum_(j < 3) (if Nat.eqb j i then 0 else gL G i j)).
    { intros i Hi. specialize (Ho i Hi). cbn [rsum] in *. destruct i as [|[|[|i]]]; try lia; cbn [Nat.eqb]; lra. }
    intros j Hj. unfold mulv. cbn [rsum INR]. destruct j as [|[|[|j]]]; try lia; rewrite ?D by lia; cbn [rsum Nat.eqb INR];
      rewrite ?(Hoff 0%nat 1%nat), ?(Hoff 0%nat 2%nat), ?(Hoff 1%nat 0%nat), ?(Hoff 1%nat 2%nat), ?(Hoff 2%nat 0%nat), ?(Hoff 2%nat 1%nat) by lia; rewrite !Hw by lia; cbn; lra. }
  destruct HF as (Hl & HU). cbn [v_N v_L v_e v_U] in *. rewrite Hn in *.
  assert (Q : exists k, (k < 3)%nat /\ nth k e 0 = 1).
  { destruct (eigh_complete 3 (gL G) _ U HU 1 (fun i => 1 - INR i)) as (k & Hk & Ek).
    - split; [|exact E1]. intros Z. specialize (Z 0%nat ltac:(lia)). cbn in Z. lra.
    - exists k. split; [exact Hk|exact Ek]. }
  destruct Q as (k & Hk & Ek).
  pose proof (eigh_sort 3 (gL G) _ U HU) as So. apply Rle_antisym; [exact Up|].
  (* 0 < e 1 <= e 2, and the trace is 4 *)
  destruct k as [|[|[|k]]]; try lia; [|lra|].
  - pose proof (So 0%nat 1%nat ltac:(lia) ltac:(lia)). lra.
  - exfalso. pose proof (C82_trace G 1 e U Hb Ht) as T. rewrite Hn in T. specialize (T (conj Hl HU)). destruct T as (T & _).
    destruct e as [|e0 [|e1 [|e2 [|e3 e]]]]; cbn [List.length] in Hl; try discriminate. cbn [nth] in *. rewrite !lsum_cons in T. cbn [lsum fold_right] in T. cbn [rsum Nat.eqb] in T.
    rewrite !Hw in T by lia. cbn in T. pose proof (So 0%nat 1%nat ltac:(lia) ltac:(lia)) as S1. cbn [nth] in S1. lra.
Qed.

(** Two disjoint edges 0 - 2 and 1 - 3 of weights 1 and 2: the part [2; 0] is closed, and the heat kernel acts on it alone. *)
Example C104_parts_ex : exists G G' l e U e' U' es, built G /\ undirected G /\ nonneg_weights G /\
  (forall c, g_coords G = Some c -> List.length c = g_n_vertices G) /\ denotes (g_n_vertices G) (VIdx [2; 0]%Z) [2; 0]%nat /\ NoDup [2; 0]%nat /\
  subgraph G (VIdx [2; 0]%Z) = Ok G' /\ closed_part G [2; 0]%nat /\ wt G' 0 1 = 1 /\ wt G 1 3 = 2 /\
  spectral (mkview (g_n_vertices G) (gL G) 4 e U) /\ spectral (mkview (List.length [2; 0]%nat) (gL G') 4 e' U') /\
  (exists H, response (mkview (g_n_vertices G) (gL G) 4 e U) (map pw [fun t => exp (- t)]) Exact H) /\
  extract_components pop_first G = Some (Ok l) /\
  Forall2 (fun part e' => exists lmax' U', spectral (mkview (g_n_vertices (fst part)) (gL (fst part)) lmax' e' U')) l es.
Proof.
  destruct (finite_entry_built 4 [0; 0; 1; 0; 0; 0; 0; 2; 1; 0; 0; 0; 0; 2; 0; 0] Combinatorial None eq_refl (or_introl eq_refl)) as (G & _ & Hb & Hn & Ht & Hc & Hw).
  assert (Hp : nonneg_weights G).
  { intros i j Hi Hj. rewrite Hn in *. rewrite Hw by assumption. destruct i as [|[|[|[|i]]]]; try lia; destruct j as [|[|[|[|j]]]]; try lia; cbn; lra. }
  assert (Hu : undirected G).
  { intros i j Hi Hj. rewrite Hn in *. rewrite !Hw by assumption. destruct i as [|[|[|[|i]]]]; try lia; destruct j as [|[|[|[|j]]]]; try lia; reflexivity. }
  assert (Hco : forall c, g_coords G = Some c -> List.length c = g_n_vertices G) by (rewrite Hc; discriminate).
  assert (Hd : denotes (g_n_vertices G) (VIdx [2; 0]%Z) [2; 0]%nat).
  { rewrite Hn. apply (denotes_idx 4 [2; 0]%nat). intros i [<-|[<-|[]]]; lia. }
  assert (Hnd : NoDup [2; 0]%nat) by (repeat constructor; cbn; intuition discriminate).
  destruct (C07_subgraph_restricts G _ _ Hb Hd Hco) as (G' & Es & Hb' & Hn' & Hw' & _).
  destruct (C82_every_graph_has_a_fourier_basis G 4 Hb) as (e & U & HF). destruct (C82_every_graph_has_a_fourier_basis G' 4 Hb') as (e' & U' & HF').
  destruct (C06_components_partition G pop_first Hb pop_first_ok Hu Hco) as (l & El & _ & _ & Hcov & _ & Hs).
  assert (HE : exists es, Forall2 (fun part e' => exists lmax' U', spectral (mkview (g_n_vertices (fst part)) (gL (fst part)) lmax' e' U')) l es).
  { assert (B : forall G' c, In (G', c) l -> built G').
    { intros G0 c Hi. destruct (Hs G0 c Hi) as (E0 & _).
      assert (Hdc : denotes (g_n_vertices G) (VIdx (map Z.of_nat c)) c).
      { apply denotes_idx. intros i Hic. apply Hcov, in_concat. exists c. split; [apply in_map_iff; exists (G0, c); auto|exact Hic]. }
      destruct (C07_subgraph_restricts G _ c Hb Hdc Hco) as (G1 & E1 & H1 & _). assert (G1 = G0) by congruence. subst G1. exact H1. }
    clear - B. induction l as [|(G0, c) l IH]; [exists []; constructor|]. destruct IH as (es & IH); [intros; eapply B; right; eassumption|].
    destruct (C82_every_graph_has_a_fourier_basis G0 1 (B G0 c (or_introl eq_refl))) as (e0 & U0 & H0). exists (e0 :: es). constructor; [exists 1, U0; exact H0|exact IH]. }
  destruct HE as (es & HE). exists G, G', l, e, U, e', U', es. repeat (split; [assumption|]). split; [|split; [|split; [|split; [exact HF|split; [|split; [|split; [exact El|exact HE]]]]]]].
  - intros i j Hi (L1 & L2 & L3). rewrite Hn in *. rewrite !Hw in L3 by assumption. destruct Hi as [<-|[<-|[]]]; destruct j as [|[|[|[|j]]]]; try lia; cbn in L3 |- *; try tauto; exfalso; destruct L3; lra.
  - rewrite Hw' by (cbn; lia). cbn [nth]. rewrite Hw by lia. reflexivity.
  - rewrite Hw by lia. reflexivity.
  - rewrite <- Hn'. exact HF'.
  - eexists. apply (response_pw _ [fun t => exp (- t)] HF).
Qed.
