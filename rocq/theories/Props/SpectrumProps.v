(** Property C82: the spectrum of a graph exists, is determined by the graph alone, and does not see the numbering of the vertices. *)
From Coq Require Import Reals Lra Lia Arith Bool String ZArith Sorted List.
From Verif.Base Require Import RSum Prelude LinAlg Solve Spectral.
From Verif.Spec Require Import Matrix GraphSpec CacheSpec NdArray FilterSpec Card Reach LapSpec.
From Verif.Model Require Import Sparse Graph Difference Bounds Traverse Cache Filter.
From Verif.Proofs Require Import SparseFacts InitFacts EdgeFacts LapFacts SpectralFacts SpectrumFacts CacheFacts FilterFacts.
From Verif.Props Require Import Core Laplacian Traversal Caching Filtering UtilsProps.
Import ListNotations.
Open Scope R_scope.

(** ** Existence *)

Lemma built_symmetric G : built G -> symmetric (g_n_vertices G) (gL G).
Proof.
  intros Hb. destruct (built_good G Hb) as (Hg & Hn & _ & HL). rewrite Hn.
  assert (Hv : valid_lap (g_lap_type G)) by (apply (laplacian_ok (gW G)); eauto).
  destruct Hv as [E|E]; [rewrite (built_comb G Hb E); apply lap_comb_sym; exact Hg|rewrite (built_norm G Hb E); apply lap_norm_sym_any].
Qed.

Lemma eigh_list n A : symmetric n A -> exists e U, List.length e = n /\ eigh_ok n A (fun k => nth k e 0) U.
Proof.
  intros Hs. destruct (spectral_theorem n A Hs) as (e & U & HU). exists (map e (seq 0 n)), U.
  split; [rewrite map_length, seq_length; reflexivity|].
  apply (eigh_ok_ext n A _ U e U); [|reflexivity|exact HU]. intros i Hi. apply nth_map_seq. exact Hi.
Qed.

(** Every graph has a full Fourier basis: the [spectral] premise of C17-C31 can be met for every graph the constructor builds. *)
Theorem C82_every_graph_has_a_fourier_basis :
  forall G lmax, built G -> exists e U, spectral (mkview (g_n_vertices G) (gL G) lmax e U).
Proof. intros G lmax Hb. destruct (eigh_list _ _ (built_symmetric G Hb)) as (e & U & H1 & H2). exists e, U. split; assumption. Qed.

(** After any history of calls, an exact eigensolver has an answer for every requested number k of eigenpairs, and with it
    compute_fourier_basis succeeds. *)
Theorem C82_basis_can_always_be_computed :
  forall G cs s k, built G -> nonneg_weights G -> (0 < g_n_vertices G)%nat -> known_types cs ->
    history exact_eig ritz (cache_init G) cs s ->
    (match k with None => True | Some k => (1 <= k <= g_n_vertices G)%nat end) ->
    exists e U s', legal exact_eig ritz s (OpBasis k (EigOk e U)) /\ compute_fourier_basis k (EigOk e U) s = (s', Ok tt).
Proof.
  intros G cs s k Hb Hp Hn Hk Hh Hkk.
  destruct (current_graph G cs _ _ s exact_sized Hb Hk Hh) as (G' & Hb' & HW & HN & Ht & HL & IW & IN).
  pose proof (built_symmetric G' Hb') as Hs. rewrite HN, HL in Hs.
  destruct (spectral_theorem _ _ Hs) as (e & U & HU).
  set (kk := match k with None => g_n_vertices G | Some k => k end).
  assert (Hkk' : (1 <= kk <= g_n_vertices G)%nat) by (unfold kk; destruct k; lia).
  assert (Hl : legal exact_eig ritz s (OpBasis k (EigOk (map e (seq 0 kk)) U))).
  { cbn. rewrite IN. fold kk. split; [rewrite map_length, seq_length; reflexivity|]. split; [exact Hkk'|].
    exists e, U. split; [exact HU|]. split; [|reflexivity]. intros i Hi. apply nth_map_seq. exact Hi. }
  destruct (C16_basis_computation_never_fails G cs s k _ U Hb Hp Hn Hk Hh Hl) as (s' & _ & _ & E & _).
  exists (map e (seq 0 kk)), U, s'. split; assumption.
Qed.

(** ** Uniqueness *)

(** Any two eigensolvers give the same eigenvalues, in the same order. *)
Theorem C82_eigenvalues_are_unique :
  forall F F', spectral F -> spectral F' -> v_N F' = v_N F -> meq (v_N F) (v_N F) (v_L F') (v_L F) -> v_e F' = v_e F.
Proof.
  intros F F' (Hl & HU) (Hl' & HU') HN HL. rewrite HN in *. apply nth_ext with (d := 0) (d' := 0); [congruence|].
  intros k Hk. rewrite Hl' in Hk. apply (eigh_unique (v_N F) (v_L F) (fun k => nth k (v_e F') 0) (v_U F') (fun k => nth k (v_e F) 0) (v_U F)); [|exact HU|exact Hk].
  destruct HU' as [A1 A2 A3 A4]. split; [exact A1|exact A2| |exact A4].
  intros i l Hi Hll. rewrite <- (A3 i l Hi Hll). apply mulv_ext; [|intros j Hj; reflexivity]. intros j Hj. symmetry. apply HL; assumption.
Qed.

Lemma spectral_swap F F' : spectral F -> spectral F' -> v_N F' = v_N F -> meq (v_N F) (v_N F) (v_L F') (v_L F) ->
  eigh_ok (v_N F) (v_L F) (fun k => nth k (v_e F) 0) (v_U F').
Proof.
  intros HF HF' HN HL. pose proof (C82_eigenvalues_are_unique F F' HF HF' HN HL) as Ee. destruct HF' as (_ & [A1 A2 A3 A4]).
  rewrite HN, Ee in *. split; [exact A1|exact A2| |exact A4].
  intros i l Hi Hll. rewrite <- (A3 i l Hi Hll). apply mulv_ext; [|intros j Hj; reflexivity]. intros j Hj. symmetry. apply HL; assumption.
Qed.

Lemma mult_unique F F' h x i : spectral F -> spectral F' -> v_N F' = v_N F -> meq (v_N F) (v_N F) (v_L F') (v_L F) ->
  (forall k l, (k < v_N F)%nat -> (l < v_N F)%nat -> nth k (v_e F) 0 = nth l (v_e F) 0 -> h k = h l) -> (i < v_N F)%nat ->
  mult F' h x i = mult F h x i.
Proof.
  intros HF HF' HN HL Hh Hi. pose proof (spectral_swap F F' HF HF' HN HL) as HU'. destruct HF as (_ & HU).
  unfold mult, fhat. rewrite HN. symmetry. apply (eigh_function _ _ _ _ _ h HU HU' Hh x i Hi).
Qed.

(** A gain that depends on the eigenvalue only. *)
Lemma gains F F' ks m : spectral F -> spectral F' -> v_N F' = v_N F -> meq (v_N F) (v_N F) (v_L F') (v_L F) -> v_lmax F' = v_lmax F ->
  (m = Exact -> exists gs, ks = map pw gs) -> (exists H, response F ks m H) ->
  exists H, response F ks m H /\ response F' ks m H /\
    forall f k l, (k < v_N F)%nat -> (l < v_N F)%nat -> nth k (v_e F) 0 = nth l (v_e F) 0 -> H f k = H f l.
Proof.
  intros HF HF' HN HL Hlm Hpw (H & Hr). pose proof (C82_eigenvalues_are_unique F F' HF HF' HN HL) as Ee.
  destruct m as [|order|nm]; [| |contradiction].
  - destruct (Hpw eq_refl) as (gs & ->). exists (fun i k => nth i gs (fun _ => 0) (nth k (v_e F) 0)).
    split; [apply response_pw; exact HF|]. split; [pose proof (response_pw F' gs HF') as R; rewrite Ee in R; exact R|].
    intros f k l Hk Hl E. rewrite E. reflexivity.
  - destruct Hr as (c & Ec & Ho & Hp & HH).
    exists (fun i k => cheb_series (nth i c []) (2 * nth k (v_e F) 0 / v_lmax F - 1)).
    split; [exists c; auto|]. split; [exists c; rewrite Hlm, Ee; auto|]. intros f k l Hk Hl E. rewrite E. reflexivity.
Qed.

(** Filtering never depends on which orthonormal eigenvectors the solver chose (signs, rotations inside an eigenspace): all
    signals of a batch get the same answer with two Fourier bases of the same Laplacian. *)
Theorem C82_filtering_does_not_depend_on_the_basis :
  forall F F' ks m s v sig, spectral F -> spectral F' -> v_N F' = v_N F -> meq (v_N F) (v_N F) (v_L F') (v_L F) -> v_lmax F' = v_lmax F ->
    (m = Exact -> exists gs, ks = map pw gs) -> (exists H, response F ks m H) -> batch (v_N F) (List.length ks) s v sig ->
    exists out out', gfilter F ks m s = Ok out /\ gfilter F' ks m s = Ok out' /\ shape out' = shape out /\
      forall n j f, (n < v_N F)%nat -> (j < v)%nat -> (f < List.length ks)%nat ->
        rd [v_N F; v; List.length ks] out' [n; j; f] = rd [v_N F; v; List.length ks] out [n; j; f].
Proof.
  intros F F' ks m s v sig HF HF' HN HL Hlm Hpw Hr Hs.
  destruct (gains F F' ks m HF HF' HN HL Hlm Hpw Hr) as (H & R & R' & Hinv).
  destruct (C19_analysis_multiplies_the_spectrum F ks m H s v sig HF R Hs) as (out & E & Sh & Ho).
  assert (Hs' : batch (v_N F') (List.length ks) s v sig) by (rewrite HN; exact Hs).
  destruct (C19_analysis_multiplies_the_spectrum F' ks m H s v sig HF' R' Hs') as (out' & E' & Sh' & Ho').
  rewrite HN in Sh', Ho'. exists out, out'. split; [exact E|]. split; [exact E'|]. split; [congruence|].
  intros n j f Hn Hj Hf. rewrite Ho, Ho' by assumption. apply mult_unique; try assumption. intros k l. apply Hinv.
Qed.

(** ** What the eigenvalues say about the graph *)

(** Combinatorial Laplacian: the eigenvalues sum to the total weight of the edges between distinct vertices (each undirected
    edge counted twice), and their squares sum to the squared Frobenius norm of L. *)
Theorem C82_trace :
  forall G lmax e U, built G -> g_lap_type G = Combinatorial -> spectral (mkview (g_n_vertices G) (gL G) lmax e U) ->
    lsum e = \sum_(i < g_n_vertices G) \sum_(j < g_n_vertices G) (if Nat.eqb i j then 0 else wt G i j) /\
    lsum (map (fun x => x * x) e) = \sum_(i < g_n_vertices G) \sum_(j < g_n_vertices G) (gL G i j * gL G i j).
Proof.
  intros G lmax e U Hb Ht (Hl & HU). cbn [v_N v_L v_e v_U] in *.
  assert (LS : forall l : list R, lsum l = \sum_(k < List.length l) nth k l 0).
  { induction l as [|x l IH]; [reflexivity|]. change (List.length (x :: l)) with (1 + List.length l)%nat. rewrite rsum_split. cbn [lsum fold_right rsum nth Nat.add]. fold (lsum l). rewrite IH. lra. }
  split.
  - rewrite LS, Hl, (eigh_trace _ _ _ _ HU).
    destruct (C09_combinatorial_structure G Hb Ht) as (_ & Hr & Ho & _).
    assert (E : forall i, (i < g_n_vertices G)%nat -> gL G i i = \sum_(j < g_n_vertices G) (if Nat.eqb i j then 0 else (wt G i j + wt G j i) / 2)).
    { intros i Hi. specialize (Hr i Hi).
      rewrite (rsum_ext _ (fun j => gL G i j) (fun j => (if Nat.eqb i j then gL G i i else 0) - (if Nat.eqb i j then 0 else (wt G i j + wt G j i) / 2))) in Hr.
      - rewrite rsum_minus in Hr. rewrite (rsum_single _ (fun j => if Nat.eqb i j then gL G i i else 0) i Hi) in Hr.
        + rewrite Nat.eqb_refl in Hr. lra.
        + intros j Hj Hne. destruct (Nat.eqb_spec i j); [lia|reflexivity].
      - intros j Hj. destruct (Nat.eqb_spec i j) as [<-|Hne]; [lra|]. rewrite Ho by assumption. lra. }
    erewrite rsum_ext; [|exact E].
    transitivity (/ 2 * (\sum_(i < g_n_vertices G) \sum_(j < g_n_vertices G) (if Nat.eqb i j then 0 else wt G i j)) +
                  / 2 * (\sum_(i < g_n_vertices G) \sum_(j < g_n_vertices G) (if Nat.eqb i j then 0 else wt G j i))).
    + rewrite <- !rsum_scal_l, <- rsum_plus. apply rsum_ext. intros i Hi. rewrite <- !rsum_scal_l, <- rsum_plus. apply rsum_ext. intros j Hj.
      destruct (Nat.eqb i j); lra.
    + rewrite (rsum_swap _ _ (fun i j => if Nat.eqb i j then 0 else wt G j i)).
      erewrite (rsum_ext _ (fun j => \sum_(i < g_n_vertices G) (if Nat.eqb i j then 0 else wt G j i))).
      2:{ intros j Hj. apply rsum_ext. intros i Hi. rewrite Nat.eqb_sym. reflexivity. }
      lra.
  - rewrite LS, map_length, Hl, <- (eigh_frobenius _ _ _ _ HU). apply rsum_ext. intros k Hk.
    rewrite (nth_indep _ 0 (0 * 0)) by (rewrite map_length; lia). rewrite (map_nth (fun x => x * x) e 0). reflexivity.
Qed.

(** *** Zero eigenvalues and connected components *)

(** Up to a positive profile (1, or the root of the degree), both Laplacians measure differences along edges. *)
Lemma energy_profile G : built G -> nonneg_weights G ->
  exists p : vec, (forall i, (i < g_n_vertices G)%nat -> 0 < p i) /\
    forall x, quad (g_n_vertices G) (gL G) x =
      (\sum_(i < g_n_vertices G) \sum_(j < g_n_vertices G) (wt G i j * ((x j / p j - x i / p i) * (x j / p j - x i / p i)))) / 2.
Proof.
  intros Hb Hp. destruct (built_good G Hb) as (Hg & Hn & _ & HL). pose proof (nonneg_W G Hb Hp) as HpW.
  assert (Hv : valid_lap (g_lap_type G)) by (apply (laplacian_ok (gW G)); eauto).
  destruct Hv as [E|E].
  - exists (fun _ => 1). split; [intros; lra|]. intros x. rewrite Hn, (built_comb G Hb E), (quad_comb _ _ Hg). f_equal.
    apply sum2_ext. intros i j Hi Hj. unfold wt, Rdiv. rewrite Rinv_1. ring.
  - exists (fun i => if Reqb (dw (gW G) i) 0 then 1 else sqrt (dw (gW G) i)).
    assert (Hd : forall i, (i < g_n_vertices G)%nat -> 0 <= dw (gW G) i).
    { intros i Hi. destruct (C08_weighted_degree G i Hb Hi) as (-> & _).
      pose proof (rsum_nonneg (g_n_vertices G) (fun j => wt G j i) (fun j Hj => Hp j i Hj Hi)).
      pose proof (rsum_nonneg (g_n_vertices G) (fun j => wt G i j) (fun j Hj => Hp i j Hi Hj)). lra. }
    split.
    + intros i Hi. destruct (Reqb_spec (dw (gW G) i) 0) as [_|Hne]; [lra|]. apply sqrt_lt_R0. specialize (Hd i Hi). lra.
    + intros x. rewrite Hn in Hd |- *. rewrite (built_norm G Hb E), (quad_norm _ _ Hg HpW), (quad_comb _ _ Hg). f_equal.
      apply sum2_ext. intros i j Hi Hj. unfold wt. destruct (Req_dec (get (gW G) i j) 0) as [Ez|Hne]; [rewrite Ez; ring|].
      assert (Hw : 0 < get (gW G) i j) by (pose proof (HpW i j Hi Hj); lra).
      assert (Di : 0 < dw (gW G) i).
      { rewrite (dw_avg _ _ Hg Hi). pose proof (rsum_nonneg (nrow (gW G)) (fun j => get (gW G) j i) (fun j Hj => HpW j i Hj Hi)).
        pose proof (rsum_ge_term (nrow (gW G)) (fun j => get (gW G) i j) j (fun j Hj => HpW i j Hi Hj) Hj) as G1. cbn beta in G1. lra. }
      assert (Dj : 0 < dw (gW G) j).
      { rewrite (dw_avg _ _ Hg Hj). pose proof (rsum_nonneg (nrow (gW G)) (fun i => get (gW G) j i) (fun i Hi => HpW j i Hj Hi)).
        pose proof (rsum_ge_term (nrow (gW G)) (fun i => get (gW G) i j) i (fun i Hi => HpW i j Hi Hj) Hi) as G1. cbn beta in G1. lra. }
      unfold dinvsqrt. destruct (Reqb_spec (dw (gW G) i) 0) as [Z|_]; [lra|]. destruct (Reqb_spec (dw (gW G) j) 0) as [Z|_]; [lra|].
      f_equal. unfold Rdiv. rewrite ?(Rmult_comm (/ sqrt (dw (gW G) j))), ?(Rmult_comm (/ sqrt (dw (gW G) i))), ?Rmult_1_l. ring.
Qed.

(** The number of the first class containing v. *)
Fixpoint class_of (cs : list (list nat)) (v : nat) : nat :=
  match cs with [] => 0%nat | c :: r => if existsb (Nat.eqb v) c then 0%nat else S (class_of r v) end.
Lemma class_in cs v : In v (concat cs) -> (class_of cs v < List.length cs)%nat /\ In v (nth (class_of cs v) cs []).
Proof.
  induction cs as [|c r IH]; cbn; [contradiction|]. intros H. apply in_app_or in H.
  destruct (existsb (Nat.eqb v) c) eqn:E.
  - apply existsb_exists in E. destruct E as (w & Hw & Ew). apply Nat.eqb_eq in Ew. subst. split; [lia|exact Hw].
  - destruct H as [H|H].
    + exfalso. assert (existsb (Nat.eqb v) c = true) by (apply existsb_exists; exists v; split; [exact H|apply Nat.eqb_refl]). congruence.
    + destruct (IH H) as (H1 & H2). split; [lia|exact H2].
Qed.
Lemma class_unique cs t v : NoDup (concat cs) -> (t < List.length cs)%nat -> In v (nth t cs []) -> class_of cs v = t.
Proof.
  revert t. induction cs as [|c r IH]; intros t Hnd Ht Hin; cbn in Ht; [lia|]. cbn [class_of]. cbn [concat] in Hnd.
  destruct t as [|t].
  - cbn in Hin. replace (existsb (Nat.eqb v) c) with true; [reflexivity|]. symmetry. apply existsb_exists. exists v. split; [exact Hin|apply Nat.eqb_refl].
  - cbn in Hin. destruct (existsb (Nat.eqb v) c) eqn:E.
    + exfalso. apply existsb_exists in E. destruct E as (w & Hw & Ew). apply Nat.eqb_eq in Ew. subst w.
      assert (Hv : In v (concat r)). { apply in_concat. exists (nth t r []). split; [apply nth_In; lia|exact Hin]. }
      clear - Hnd Hw Hv. induction c as [|x c IH]; [contradiction|]. cbn in Hnd. inversion Hnd as [|? ? Hni Hnd']; subst.
      destruct Hw as [->|Hw]; [apply Hni; apply in_or_app; right; exact Hv|apply IH; assumption].
    + f_equal. apply IH; [|lia|exact Hin]. clear - Hnd. induction c as [|x c IH]; [exact Hnd|]. cbn in Hnd. inversion Hnd; auto.
Qed.

(** On an undirected graph with non-negative weights the eigenvalue 0 occurs exactly as often as extract_components returns
    graphs, for both Laplacians: G.e[k] = 0 for k below that number and G.e[k] > 0 above. *)
Theorem C82_zero_eigenvalues_count_the_components :
  forall G pop l lmax e U, built G -> pop_ok pop -> undirected G -> nonneg_weights G ->
    (forall c, g_coords G = Some c -> List.length c = g_n_vertices G) ->
    extract_components pop G = Some (Ok l) -> spectral (mkview (g_n_vertices G) (gL G) lmax e U) ->
    forall k, (k < g_n_vertices G)%nat -> (nth k e 0 = 0 <-> (k < List.length l)%nat) /\ 0 <= nth k e 0.
Proof.
  intros G pop l lmax e U Hb Hpop Hu Hp Hco El (Hlen & HU). cbn [v_N v_L v_e v_U] in *.
  destruct (C06_components_partition G pop Hb Hpop Hu Hco) as (l' & El' & Hne & Hnd & Hcov & Hre & _).
  rewrite El in El'. assert (l' = l) by congruence. subst l'. clear El'.
  set (cs := map snd l) in *. set (n := g_n_vertices G) in *.
  destruct (energy_profile G Hb Hp) as (p & Hpp & Hq). fold n in Hpp, Hq.
  assert (Hpsd : psd n (gL G)).
  { intros x. rewrite Hq. apply Rmult_le_pos; [|lra]. apply sum2_nonneg. intros i j Hi Hj.
    apply Rmult_le_pos; [apply Hp; assumption|apply Rle_0_sqr]. }
  assert (Hlab : forall i, (i < n)%nat -> (class_of cs i < List.length cs)%nat /\ In i (nth (class_of cs i) cs [])).
  { intros i Hi. apply class_in. apply Hcov. exact Hi. }
  assert (Hlen_cs : List.length cs = List.length l) by apply map_length.
  assert (Hcls : forall i j, (i < n)%nat -> (j < n)%nat -> (class_of cs i = class_of cs j <-> reach (has_pos_edge G) i j)).
  { intros i j Hi Hj. destruct (Hlab i Hi) as (L1 & I1). destruct (Hlab j Hj) as (L2 & I2).
    assert (Hc : In (nth (class_of cs i) cs []) cs) by (apply nth_In; exact L1).
    rewrite <- (Hre _ i j Hc I1). split.
    - intros E. rewrite E. exact I2.
    - intros Hin. symmetry. apply class_unique; assumption. }
  intros k Hk. split.
  - rewrite <- Hlen_cs. apply (zero_multiplicity n (List.length cs) (gL G) (fun k => nth k e 0) U p (class_of cs)); try assumption.
    + intros i Hi. apply Hlab. exact Hi.
    + intros t Ht. destruct (Hne (nth t cs []) (nth_In cs [] Ht)) as (Hnn & _). destruct (nth t cs []) as [|v c] eqn:E; [contradiction|].
      exists v. assert (Hin : In v (nth t cs [])) by (rewrite E; left; reflexivity). split.
      * apply Hcov. apply in_concat. exists (nth t cs []). split; [apply nth_In; exact Ht|exact Hin].
      * apply class_unique; assumption.
    + intros x. rewrite Hq.
      assert (Hxy : forall i j, (i < n)%nat -> (j < n)%nat -> (x i * p j = x j * p i <-> x i / p i = x j / p j)).
      { intros i j Hi Hj. pose proof (Hpp i Hi). pose proof (Hpp j Hj). split; intros E.
        - apply (Rmult_eq_reg_r (p i * p j)); [|nra]. replace (x i / p i * (p i * p j)) with (x i * p j) by (field; lra). rewrite E. field. lra.
        - replace (x i * p j) with (x i / p i * (p i * p j)) by (field; lra). rewrite E. field. lra. }
      split.
      * intros Hz i j Hi Hj E. apply Hxy; [assumption|assumption|]. apply Hcls in E; [|assumption|assumption].
        assert (Z : forall a b, (a < n)%nat -> (b < n)%nat -> 0 < wt G a b -> x a / p a = x b / p b).
        { intros a b Ha Hbn Hw.
          assert (Z2 : \sum_(i < n) \sum_(j < n) (wt G i j * ((x j / p j - x i / p i) * (x j / p j - x i / p i))) = 0) by lra.
          pose proof (rsum_zero_all n (fun i => \sum_(j < n) (wt G i j * ((x j / p j - x i / p i) * (x j / p j - x i / p i))))) as Z3. cbn beta in Z3.
          specialize (Z3 ltac:(intros i' Hi'; apply rsum_nonneg; intros j' Hj'; apply Rmult_le_pos; [apply Hp; assumption|apply Rle_0_sqr]) Z2 a Ha).
          pose proof (rsum_zero_all n (fun j => wt G a j * ((x j / p j - x a / p a) * (x j / p j - x a / p a)))) as Z4. cbn beta in Z4.
          specialize (Z4 ltac:(intros j' Hj'; apply Rmult_le_pos; [apply Hp; assumption|apply Rle_0_sqr]) Z3 b Hbn).
          apply Rmult_integral in Z4. destruct Z4 as [Z4|Z4]; [lra|]. apply Rmult_integral in Z4. destruct Z4; lra. }
        clear Hi Hj. induction E as [a|a b c R IH Hs]; [reflexivity|]. rewrite IH. destruct Hs as (S1 & S2 & S3). apply Z; assumption.
      * intros Hc. assert (Z : \sum_(i < n) \sum_(j < n) (wt G i j * ((x j / p j - x i / p i) * (x j / p j - x i / p i))) = 0); [|rewrite Z; lra].
        apply rsum_0. intros i Hi. apply rsum_0. intros j Hj. destruct (Req_dec (wt G i j) 0) as [Ez|Hnz]; [rewrite Ez; ring|].
        assert (E : x i / p i = x j / p j).
        { apply Hxy; [assumption|assumption|]. apply Hc; [assumption|assumption|]. apply Hcls; [assumption|assumption|]. apply reach_one.
          split; [exact Hi|]. split; [exact Hj|]. pose proof (Hp i j Hi Hj). lra. }
        rewrite E. ring.
  - apply (eigenvalue_ge_quad n (gL G) _ (fun i => U i k) 0 (eigh_eigenpair n (gL G) (fun k => nth k e 0) U HU k Hk)). rewrite Rmult_0_l. apply Hpsd.
Qed.

(** ** Relabelling the vertices *)

(** G' is G with vertex i renamed p i. *)
Definition renamed (G G' : graph) (p q : nat -> nat) : Prop :=
  g_n_vertices G' = g_n_vertices G /\ g_lap_type G' = g_lap_type G /\
  (forall i, (i < g_n_vertices G)%nat -> (p i < g_n_vertices G)%nat /\ q (p i) = i) /\
  (forall i, (i < g_n_vertices G)%nat -> (q i < g_n_vertices G)%nat /\ p (q i) = i) /\
  (forall i j, (i < g_n_vertices G)%nat -> (j < g_n_vertices G)%nat -> wt G' (p i) (p j) = wt G i j).

Lemma renamed_dw G G' p q i : built G -> built G' -> renamed G G' p q -> (i < g_n_vertices G)%nat -> dw (gW G') (p i) = dw (gW G) i.
Proof.
  intros Hb Hb' (HN & _ & Hp & Hq & Hw) Hi. pose proof (Hp i Hi) as (Hpi & _).
  rewrite (proj1 (C08_weighted_degree G i Hb Hi)). rewrite (proj1 (C08_weighted_degree G' (p i) Hb' ltac:(lia))). rewrite HN.
  rewrite <- (relabel_sum _ p q (fun j => wt G' j (p i))) by (split; assumption).
  rewrite <- (relabel_sum _ p q (fun j => wt G' (p i) j)) by (split; assumption).
  f_equal. f_equal; apply rsum_ext; intros j Hj; apply Hw; assumption.
Qed.

Lemma renamed_L G G' p q : built G -> built G' -> nonneg_weights G -> renamed G G' p q ->
  forall i j, (i < g_n_vertices G)%nat -> (j < g_n_vertices G)%nat -> gL G' (p i) (p j) = gL G i j.
Proof.
  intros Hb Hb' Hnn Hr i j Hi Hj. pose proof Hr as (HN & Ht & Hp & Hq & Hw).
  pose proof (Hp i Hi) as (Hpi & Hqi). pose proof (Hp j Hj) as (Hpj & Hqj).
  assert (Hne : p i = p j -> i = j) by (intros E; rewrite <- Hqi, <- Hqj, E; reflexivity).
  pose proof (renamed_dw G G' p q i Hb Hb' Hr Hi) as Di. pose proof (renamed_dw G G' p q j Hb Hb' Hr Hj) as Dj.
  assert (Hv : valid_lap (g_lap_type G)) by (apply (laplacian_ok (gW G)); destruct (built_good G Hb) as (_ & _ & _ & HL); eauto).
  destruct Hv as [E|E].
  - destruct (C09_combinatorial_structure G Hb E) as (_ & _ & Ho & Hd). destruct (C09_combinatorial_structure G' Hb' (eq_trans Ht E)) as (_ & _ & Ho' & Hd').
    rewrite HN in *. destruct (Nat.eq_dec i j) as [<-|Hij].
    + rewrite Hd, Hd', Di, Hw by assumption. reflexivity.
    + rewrite Ho, Ho', !Hw by (try assumption; intros Hx; apply Hij, Hne, Hx). reflexivity.
  - assert (Hnn' : nonneg_weights G').
    { intros a b Ha Hbn. rewrite HN in *. destruct (Hq a Ha) as (Qa & <-). destruct (Hq b Hbn) as (Qb & <-). rewrite Hw by assumption. apply Hnn; assumption. }
    destruct (C11_normalized_entries G Hb E Hnn) as (Sy & Hd & Ho & Hz). destruct (C11_normalized_entries G' Hb' (eq_trans Ht E) Hnn') as (Sy' & Hd' & Ho' & Hz').
    rewrite HN in *.
    destruct (Req_dec (dw (gW G) i) 0) as [Zi|Nzi]; [rewrite Hz, Hz' by (try assumption; lra); reflexivity|].
    destruct (Req_dec (dw (gW G) j) 0) as [Zj|Nzj].
    { rewrite (Sy i j Hi Hj), (Sy' (p i) (p j) Hpi Hpj). unfold tr. rewrite Hz, Hz' by (try assumption; lra). reflexivity. }
    destruct (Nat.eq_dec i j) as [<-|Hij].
    + rewrite Hd by assumption. rewrite Hd' by (try assumption; rewrite Di; assumption). rewrite Di, Hw by assumption. reflexivity.
    + rewrite Ho by assumption. rewrite Ho' by first [assumption|intros Hx; apply Hij, Hne, Hx|rewrite Di; assumption|rewrite Dj; assumption].
      rewrite Di, Dj, !Hw by assumption. reflexivity.
Qed.

(** Renaming the vertices permutes the Laplacian, leaves the spectrum unchanged, and filtering a renamed signal gives the
    renamed result, whatever bases the two graphs' eigensolvers chose. *)
Theorem C82_vertex_numbering_is_irrelevant :
  forall G G' p q lmax e U e' U', built G -> built G' -> nonneg_weights G -> renamed G G' p q ->
    let F := mkview (g_n_vertices G) (gL G) lmax e U in let F' := mkview (g_n_vertices G) (gL G') lmax e' U' in
    spectral F -> spectral F' ->
    (forall i j, (i < g_n_vertices G)%nat -> (j < g_n_vertices G)%nat -> gL G' (p i) (p j) = gL G i j) /\
    e' = e /\
    forall ks m x, (m = Exact -> exists gs, ks = map pw gs) -> (exists H, response F ks m H) ->
      exists out out', gfilter F ks m (vec_arr (g_n_vertices G) x) = Ok out /\
        gfilter F' ks m (vec_arr (g_n_vertices G) (fun i => x (q i))) = Ok out' /\ shape out' = shape out /\
        forall f i, (f < List.length ks)%nat -> (i < g_n_vertices G)%nat ->
          ans F' (List.length ks) out' f (p i) = ans F (List.length ks) out f i.
Proof.
  intros G G' p q lmax e U e' U' Hb Hb' Hnn Hr F F' HF HF'. set (n := g_n_vertices G) in *.
  pose proof (renamed_L G G' p q Hb Hb' Hnn Hr) as HL. fold n in HL. destruct Hr as (HN & Ht & Hp & Hq & Hw). fold n in Hp, Hq.
  assert (Hrel : relabel n p q) by (split; assumption).
  set (F1 := mkview n (gL G') lmax e (fun i k => U (q i) k)).
  assert (HF1 : spectral F1).
  { destruct HF as (Hlen & HU). split; [exact Hlen|]. apply (relabel_eigh n p q (gL G)); assumption. }
  pose proof (C82_eigenvalues_are_unique F1 F' HF1 HF' eq_refl (fun i j Hi Hj => eq_refl)) as Ee. cbn in Ee.
  split; [exact HL|]. split; [exact Ee|]. intros ks m x Hpw (H0 & Hr0).
  assert (R1 : exists H, response F1 ks m H) by (exists H0; destruct m; exact Hr0).
  destruct (gains F1 F' ks m HF1 HF' eq_refl (fun i j Hi Hj => eq_refl) eq_refl Hpw R1) as (H & RH & RH' & Hinv).
  assert (RF : response F ks m H) by (destruct m; exact RH).
  destruct (one_signal F ks m H x HF RF) as (out & E & Sh & Ho).
  destruct (one_signal F' ks m H (fun i => x (q i)) HF' RH') as (out' & E' & Sh' & Ho').
  exists out, out'. split; [exact E|]. split; [exact E'|]. split; [rewrite Sh, Sh'; reflexivity|].
  intros f i Hf Hi. pose proof (Hp i Hi) as (Hpi & Hqi). rewrite Ho, Ho' by assumption.
  rewrite (mult_unique F1 F' (H f) _ (p i) HF1 HF' eq_refl (fun i j Hi Hj => eq_refl)); [|intros k l; apply Hinv|exact Hpi].
  unfold mult, fhat. cbn [F1 F v_N v_U]. rewrite Hqi. apply rsum_ext. intros k Hk. do 2 f_equal.
  apply (relabel_sum n q p (fun j => U j k * x j)). apply relabel_sym. exact Hrel.
Qed.

(** A path 0 -1- 1 -2- 2 and the same path numbered backwards. *)
Example C82_ex : exists G G' e U e' U', built G /\ built G' /\ nonneg_weights G /\ undirected G /\ renamed G G' (fun i => 2 - i)%nat (fun i => 2 - i)%nat /\
  wt G 0 1 <> wt G' 0 1 /\
  spectral (mkview (g_n_vertices G) (gL G) 6 e U) /\ spectral (mkview (g_n_vertices G) (gL G') 6 e' U') /\
  (forall c, g_coords G = Some c -> List.length c = g_n_vertices G) /\
  response (mkview (g_n_vertices G) (gL G) 6 e U) (map pw [fun t => exp (- t)]) Exact (fun i k => nth i [fun t => exp (- t)] (fun _ => 0) (nth k e 0)).
Proof.
  destruct (finite_entry_built 3 [0; 1; 0; 1; 0; 2; 0; 2; 0] Combinatorial None eq_refl (or_introl eq_refl)) as (G & _ & Hb & Hn & Ht & Hc & Hw).
  destruct (finite_entry_built 3 [0; 2; 0; 2; 0; 1; 0; 1; 0] Combinatorial None eq_refl (or_introl eq_refl)) as (G' & _ & Hb' & Hn' & Ht' & Hc' & Hw').
  destruct (C82_every_graph_has_a_fourier_basis G 6 Hb) as (e & U & HF). destruct (C82_every_graph_has_a_fourier_basis G' 6 Hb') as (e' & U' & HF').
  exists G, G', e, U, e', U'. split; [exact Hb|]. split; [exact Hb'|]. split.
  { intros i j Hi Hj. rewrite Hn in *. rewrite Hw by assumption. destruct i as [|[|[|i]]]; try lia; destruct j as [|[|[|j]]]; try lia; cbn; lra. }
  split.
  { intros i j Hi Hj. rewrite Hn in *. rewrite !Hw by assumption. destruct i as [|[|[|i]]]; try lia; destruct j as [|[|[|j]]]; try lia; cbn; lra. }
  split.
  { unfold renamed. rewrite Hn, Hn', Ht, Ht'. split; [reflexivity|]. split; [reflexivity|]. split; [intros; lia|]. split; [intros; lia|].
    intros i j Hi Hj. rewrite Hw, Hw' by lia. destruct i as [|[|[|i]]]; try lia; destruct j as [|[|[|j]]]; try lia; reflexivity. }
  split; [rewrite Hw, Hw' by lia; cbn; lra|]. split; [exact HF|]. split; [rewrite Hn in *; rewrite <- Hn'; exact HF'|].
  split; [intros c E; congruence|]. apply (response_pw (mkview (g_n_vertices G) (gL G) 6 e U) [fun t => exp (- t)] HF).
Qed.

(** An edge and an isolated vertex: two components, so G.e = 0, 0, positive. *)
Example C82_ex_components : exists G l e U, built G /\ undirected G /\ nonneg_weights G /\ extract_components pop_first G = Some (Ok l) /\
  spectral (mkview (g_n_vertices G) (gL G) 1 e U) /\ List.length l = 2%nat /\ nth 1 e 0 = 0 /\ 0 < nth 2 e 0.
Proof.
  destruct (finite_entry_built 3 [0; 1; 0; 1; 0; 0; 0; 0; 0] Normalized None eq_refl (or_intror eq_refl)) as (G & _ & Hb & Hn & Ht & Hc & Hw).
  destruct (C82_every_graph_has_a_fourier_basis G 1 Hb) as (e & U & HF).
  assert (Hu : undirected G).
  { intros i j Hi Hj. rewrite Hn in *. rewrite !Hw by assumption. destruct i as [|[|[|i]]]; try lia; destruct j as [|[|[|j]]]; try lia; cbn; lra. }
  assert (Hp : nonneg_weights G).
  { intros i j Hi Hj. rewrite Hn in *. rewrite Hw by assumption. destruct i as [|[|[|i]]]; try lia; destruct j as [|[|[|j]]]; try lia; cbn; lra. }
  assert (Hcc : forall c, g_coords G = Some c -> List.length c = g_n_vertices G) by (intros c E; congruence).
  destruct (C06_components_partition G pop_first Hb pop_first_ok Hu Hcc) as (l & El & Hne & Hnd & Hcov & Hre & _).
  pose proof (C82_zero_eigenvalues_count_the_components G pop_first l 1 e U Hb pop_first_ok Hu Hp Hcc El HF) as Hz. rewrite Hn in Hz.
  assert (R01 : reach (has_pos_edge G) 0 1).
  { apply reach_one. unfold has_pos_edge. rewrite Hn, Hw by lia. cbn. split; [lia|]. split; [lia|lra]. }
  assert (R2 : forall u v, reach (has_pos_edge G) u v -> u = 2%nat -> v = 2%nat).
  { intros u v R E. induction R as [a|a b c R IH Hs]; [exact E|]. specialize (IH E). subst b. destruct Hs as (S1 & S2 & S3). rewrite Hn in *.
    rewrite Hw in S3 by lia. destruct c as [|[|[|c]]]; try lia; cbn in S3; lra. }
  assert (HL : List.length l = 2%nat).
  { rewrite <- (map_length snd l). set (cs := map snd l) in *.
    assert (C0 : In 0%nat (concat cs)) by (apply Hcov; lia). assert (C1 : In 1%nat (concat cs)) by (apply Hcov; lia). assert (C2 : In 2%nat (concat cs)) by (apply Hcov; lia).
    apply class_in in C0, C1, C2. destruct C0 as (L0 & I0), C1 as (L1 & I1), C2 as (L2 & I2).
    assert (E01 : class_of cs 0 = class_of cs 1).
    { symmetry. apply class_unique; [exact Hnd|exact L0|]. apply (Hre _ 0%nat 1%nat (nth_In cs [] L0) I0). exact R01. }
    assert (E02 : class_of cs 2 <> class_of cs 0).
    { intros E. rewrite E in I2. apply (Hre _ 2%nat 0%nat (nth_In cs [] L0) I2) in I0. specialize (R2 _ _ I0 eq_refl). discriminate R2. }
    assert (All : forall t, (t < List.length cs)%nat -> t = class_of cs 0 \/ t = class_of cs 2).
    { intros t Ht0. destruct (Hne _ (nth_In cs [] Ht0)) as (Hnn & _). destruct (nth t cs []) as [|v c] eqn:Ev; [contradiction|].
      assert (Hin : In v (nth t cs [])) by (rewrite Ev; left; reflexivity).
      assert (Hv : (v < 3)%nat). { rewrite <- Hn. apply Hcov. apply in_concat. exists (nth t cs []). split; [apply nth_In; exact Ht0|exact Hin]. }
      pose proof (class_unique cs t v Hnd Ht0 Hin) as Ec. destruct v as [|[|[|v]]]; lia. }
    destruct (List.length cs) as [|[|[|m]]] eqn:EL; try lia.
    destruct (All 0%nat ltac:(lia)), (All 1%nat ltac:(lia)), (All 2%nat ltac:(lia)); lia. }
  exists G, l, e, U. split; [exact Hb|]. split; [exact Hu|]. split; [exact Hp|]. split; [exact El|]. split; [exact HF|]. split; [exact HL|].
  split; [apply (Hz 1%nat ltac:(lia)); lia|]. destruct (Hz 2%nat ltac:(lia)) as (H1 & H2). destruct (Req_dec (nth 2 e 0) 0) as [E|E]; [|lra].
  apply H1 in E. lia.
Qed.
