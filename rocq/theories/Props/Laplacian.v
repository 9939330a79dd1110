(** Properties C09-C14: Laplacians, Dirichlet energy, differential operator, spectral bound. *)
From Coq Require Import Reals Lra Lia List Arith Bool Permutation String.
From Verif.Base Require Import RSum Prelude LinAlg.
From Verif.Spec Require Import Matrix GraphSpec Card.
From Verif.Model Require Import Sparse Graph Difference Bounds.
From Verif.Proofs Require Import SparseFacts InitFacts EdgeFacts LapFacts BoundFacts.
From Verif.Props Require Import Core.
Import ListNotations.
Open Scope R_scope.

Lemma built_comb G : built G -> g_lap_type G = Combinatorial -> gL G = lap_comb (gW G).
Proof. intros Hb E. destruct (built_good G Hb) as (_ & _ & _ & HL). rewrite E in HL. injection HL as <-. reflexivity. Qed.
Lemma built_norm G : built G -> g_lap_type G = Normalized -> gL G = lap_norm (gW G).
Proof. intros Hb E. destruct (built_good G Hb) as (_ & _ & _ & HL). rewrite E in HL. injection HL as <-. reflexivity. Qed.
Lemma nonneg_W G : built G -> nonneg_weights G -> nonnegW (gW G).
Proof. intros Hb H. destruct (built_good G Hb) as (_ & Hn & _ & _). unfold nonneg_weights in H. rewrite Hn in H. exact H. Qed.

(** ** C09 *)

Theorem C09_combinatorial_structure :
  forall G, built G -> g_lap_type G = Combinatorial ->
    let n := g_n_vertices G in
    symmetric n (gL G) /\
    (forall i, (i < n)%nat -> \sum_(j < n) gL G i j = 0) /\
    (forall i j, (i < n)%nat -> (j < n)%nat -> i <> j -> gL G i j = - (wt G i j + wt G j i) / 2) /\
    (forall i, (i < n)%nat -> gL G i i = dw (gW G) i - wt G i i).
Proof.
  intros G Hb Ht n. destruct (built_good G Hb) as (Hg & Hn & _ & _). unfold n. rewrite Hn, (built_comb G Hb Ht).
  unfold wt. split; [apply lap_comb_sym; exact Hg|]. split; [apply lap_comb_row_sum; exact Hg|].
  split; [apply lap_comb_entry; exact Hg|]. apply lap_comb_diag; exact Hg.
Qed.

Theorem C09_psd :
  forall G, built G -> g_lap_type G = Combinatorial -> nonneg_weights G ->
    psd (g_n_vertices G) (gL G).
Proof.
  intros G Hb Ht Hp x. destruct (built_good G Hb) as (Hg & Hn & _ & _). pose proof (nonneg_W G Hb Hp) as HpW.
  rewrite Hn, (built_comb G Hb Ht). rewrite (quad_ext _ _ _ x (lap_comb_abs _ Hg)).
  apply abs_psd; intros; [apply wlap_sym|apply wlap_nonneg]; assumption.
Qed.

(** Self-loops are not seen: two graphs that agree off the diagonal have the same Laplacian. *)
Theorem C09_blind_to_self_loops :
  forall G G', built G -> built G' -> g_lap_type G = Combinatorial -> g_lap_type G' = Combinatorial ->
    g_n_vertices G' = g_n_vertices G ->
    (forall i j, (i < g_n_vertices G)%nat -> (j < g_n_vertices G)%nat -> i <> j -> wt G' i j = wt G i j) ->
    meq (g_n_vertices G) (g_n_vertices G) (gL G') (gL G).
Proof.
  intros G G' Hb Hb' Ht Ht' Hnn Hw i j Hi Hj.
  destruct (C09_combinatorial_structure G Hb Ht) as (_ & Hr & Ho & _).
  destruct (C09_combinatorial_structure G' Hb' Ht') as (_ & Hr' & Ho' & _). rewrite Hnn in *.
  assert (Hoff : forall a b, (a < g_n_vertices G)%nat -> (b < g_n_vertices G)%nat -> a <> b -> gL G' a b = gL G a b).
  { intros a b Ha Hb0 Hne. rewrite Ho, Ho' by assumption. rewrite !Hw by auto. reflexivity. }
  destruct (Nat.eq_dec i j) as [<-|Hne]; [|apply Hoff; assumption].
  specialize (Hr i Hi). specialize (Hr' i Hi).
  assert (E : \sum_(k < g_n_vertices G) (gL G' i k - gL G i k) = gL G' i i - gL G i i).
  { apply (rsum_single _ (fun k => gL G' i k - gL G i k) i Hi). intros k Hk Hki. rewrite Hoff by auto. lra. }
  rewrite rsum_minus in E. change (rsum (g_n_vertices G) (gL G' i)) with (\sum_(k < g_n_vertices G) gL G' i k) in E.
  change (rsum (g_n_vertices G) (gL G i)) with (\sum_(k < g_n_vertices G) gL G i k) in E.
  rewrite Hr, Hr' in E. lra.
Qed.

Example C09_ex : exists G, built G /\ g_lap_type G = Combinatorial /\ nonneg_weights G /\ gL G 1%nat 1%nat = 3.
Proof.
  destruct (ex_graph Combinatorial (or_introl eq_refl)) as (G & Hb & Hn & Ht & Hw). exists G.
  split; [exact Hb|]. split; [exact Ht|]. split.
  - intros i j Hi Hj. rewrite Hn in Hi, Hj. rewrite Hw by assumption.
    destruct i as [|[|[|i]]]; try lia; destruct j as [|[|[|j]]]; try lia; cbn; lra.
  - destruct (C09_combinatorial_structure G Hb Ht) as (_ & _ & _ & Hd). rewrite Hn in Hd. rewrite (Hd 1%nat) by lia.
    rewrite (proj1 (C08_weighted_degree G 1 Hb ltac:(lia))). rewrite Hn. cbn [rsum]. rewrite !Hw by lia. cbn. lra.
Qed.

(** ** C10 *)

Lemma energy_ok G x : List.length x = g_n_vertices G ->
  dirichlet_energy G x = Ok (quad (g_n_vertices G) (gL G) (fun i => nth i x 0)).
Proof.
  intros Hl. unfold dirichlet_energy, check_signal. rewrite Hl, Nat.eqb_refl. reflexivity.
Qed.

Theorem C10_energy_combinatorial :
  forall G x, built G -> g_lap_type G = Combinatorial -> List.length x = g_n_vertices G ->
    let n := g_n_vertices G in
    dirichlet_energy G x =
    Ok (/ 2 * \sum_(i < n) \sum_(j < n) (wt G i j * (nth j x 0 - nth i x 0) ^ 2)).
Proof.
  intros G x Hb Ht Hl n. destruct (built_good G Hb) as (Hg & Hn & _ & _).
  rewrite (energy_ok G x Hl). unfold n, wt. rewrite Hn, (built_comb G Hb Ht), (quad_comb _ _ Hg). f_equal.
  rewrite Rmult_comm. unfold Rdiv. f_equal. apply sum2_ext; intros; ring.
Qed.

Theorem C10_energy_normalized :
  forall G x, built G -> g_lap_type G = Normalized -> nonneg_weights G -> List.length x = g_n_vertices G ->
    let n := g_n_vertices G in
    let d := fun i => (\sum_(j < n) wt G j i + \sum_(j < n) wt G i j) / 2 in
    dirichlet_energy G x =
    Ok (/ 2 * \sum_(i < n) \sum_(j < n) (wt G i j * (nth j x 0 / sqrt (d j) - nth i x 0 / sqrt (d i)) ^ 2)).
Proof.
  intros G x Hb Ht Hp Hl n d. destruct (built_good G Hb) as (Hg & Hn & _ & _). pose proof (nonneg_W G Hb Hp) as HpW.
  rewrite (energy_ok G x Hl). unfold n, wt in *. rewrite Hn, (built_norm G Hb Ht), (quad_norm _ _ Hg HpW), (quad_comb _ _ Hg). f_equal.
  rewrite Rmult_comm. unfold Rdiv at 1. f_equal. apply sum2_ext; intros i j Hi Hj.
  destruct (Req_dec (get (gW G) i j) 0) as [E|E]; [rewrite E; ring|].
  assert (Hd : forall k, (k < nrow (gW G))%nat -> d k = dw (gW G) k).
  { intros k Hk. unfold d, wt. rewrite Hn. symmetry. apply dw_avg; assumption. }
  assert (Hdi : dw (gW G) i <> 0).
  { intros E0. pose proof (dw_zero_wlap _ Hg HpW i Hi E0 j Hj) as Hz. rewrite wlap_avg in Hz by assumption.
    pose proof (HpW i j Hi Hj). pose proof (HpW j i Hj Hi). apply E. lra. }
  assert (Hdj : dw (gW G) j <> 0).
  { intros E0. pose proof (dw_zero_wlap _ Hg HpW j Hj E0 i Hi) as Hz. rewrite wlap_avg in Hz by assumption.
    pose proof (HpW i j Hi Hj). pose proof (HpW j i Hj Hi). apply E. lra. }
  rewrite !Hd by assumption. unfold dinvsqrt. rewrite (proj2 (Reqb_false _ _) Hdi), (proj2 (Reqb_false _ _) Hdj).
  unfold Rdiv. ring.
Qed.

Theorem C10_rejects_wrong_length :
  forall G x, List.length x <> g_n_vertices G -> dirichlet_energy G x = Raise ValueError.
Proof.
  intros G x H. unfold dirichlet_energy, check_signal.
  destruct (Nat.eqb_spec (List.length x) (g_n_vertices G)); [contradiction|reflexivity].
Qed.

(** The docstring's formula for the normalized Laplacian (division by d instead of sqrt d) is wrong. *)
Theorem C10_documented_normalized_formula_refuted :
  exists G x, built G /\ g_lap_type G = Normalized /\ nonneg_weights G /\ undirected G /\
    List.length x = g_n_vertices G /\
    let n := g_n_vertices G in let d := dw (gW G) in
    dirichlet_energy G x <>
    Ok (/ 2 * \sum_(i < n) \sum_(j < n) (wt G i j * (nth j x 0 / d j - nth i x 0 / d i) ^ 2)).
Proof.
  destruct (finite_entry_built 2 [0; 4; 4; 0] Normalized None eq_refl (or_intror eq_refl))
    as (G & _ & Hb & Hn & Ht & _ & Hw).
  exists G, [1; 0].
  assert (Hp : nonneg_weights G).
  { intros i j Hi Hj. rewrite Hn in Hi, Hj. rewrite Hw by assumption.
    destruct i as [|[|i]]; try lia; destruct j as [|[|j]]; try lia; cbn; lra. }
  assert (Hu : undirected G).
  { intros i j Hi Hj. rewrite Hn in Hi, Hj. rewrite !Hw by assumption.
    destruct i as [|[|i]]; try lia; destruct j as [|[|j]]; try lia; cbn; lra. }
  split; [exact Hb|]. split; [exact Ht|]. split; [exact Hp|]. split; [exact Hu|]. split; [cbn; congruence|].
  intros n d. unfold n, d. rewrite (C10_energy_normalized G [1; 0] Hb Ht Hp) by (cbn; congruence).
  assert (Ed : forall i, (i < 2)%nat -> dw (gW G) i = 4).
  { intros i Hi. rewrite (proj2 (C08_weighted_degree G i Hb ltac:(lia)) Hu). rewrite Hn. cbn [rsum].
    destruct i as [|[|i]]; try lia; rewrite !Hw by lia; cbn; lra. }
  rewrite Hn. cbn [rsum]. rewrite !Ed by lia. rewrite !Hw by lia. cbn [nth Nat.mul Nat.add].
  intros H. injection H as H. revert H.
  repeat match goal with |- context [sqrt ?e] => 
    lazymatch e with 2 * 2 => fail | _ => replace e with (2 * 2) by lra end end.
  rewrite sqrt_square by lra. lra.
Qed.

Example C10_ex : exists G x, built G /\ g_lap_type G = Combinatorial /\ List.length x = g_n_vertices G /\
  dirichlet_energy G x = Ok 3.
Proof.
  destruct (ex_graph Combinatorial (or_introl eq_refl)) as (G & Hb & Hn & Ht & Hw). exists G, [0; 1; 2].
  split; [exact Hb|]. split; [exact Ht|]. split; [rewrite Hn; reflexivity|].
  rewrite (C10_energy_combinatorial G [0; 1; 2] Hb Ht) by (rewrite Hn; reflexivity).
  rewrite Hn. cbn [rsum]. rewrite !Hw by lia. cbn. f_equal. lra.
Qed.

(** ** C11 *)

Theorem C11_normalized_entries :
  forall G, built G -> g_lap_type G = Normalized -> nonneg_weights G ->
    let n := g_n_vertices G in let d := dw (gW G) in
    symmetric n (gL G) /\
    (forall i, (i < n)%nat -> d i <> 0 -> gL G i i = 1 - wt G i i / d i) /\
    (forall i j, (i < n)%nat -> (j < n)%nat -> i <> j -> d i <> 0 -> d j <> 0 ->
       gL G i j = - ((wt G i j + wt G j i) / 2) / (sqrt (d i) * sqrt (d j))) /\
    (forall i j, (i < n)%nat -> (j < n)%nat -> d i = 0 -> gL G i j = 0).
Proof.
  intros G Hb Ht Hp n d. destruct (built_good G Hb) as (Hg & Hn & _ & _). pose proof (nonneg_W G Hb Hp) as HpW.
  unfold n, d, wt. rewrite Hn, (built_norm G Hb Ht).
  pose proof (dw_nonneg _ Hg HpW) as Hd0.
  assert (Hsq : forall i, (i < nrow (gW G))%nat -> dw (gW G) i <> 0 -> 0 < sqrt (dw (gW G) i)).
  { intros i Hi E. apply sqrt_lt_R0. specialize (Hd0 i Hi). lra. }
  split; [apply lap_norm_sym; assumption|]. split; [|split].
  - intros i Hi E. rewrite (lap_norm_scaled _ Hg HpW i i Hi Hi), (lap_comb_diag _ Hg i Hi).
    pose proof (dinvsqrt_sq _ i (Hd0 i Hi) E) as Hs.
    replace (dinvsqrt (gW G) i * (dw (gW G) i - get (gW G) i i) * dinvsqrt (gW G) i) with
      (dinvsqrt (gW G) i * dinvsqrt (gW G) i * dw (gW G) i
       - get (gW G) i i / dw (gW G) i * (dinvsqrt (gW G) i * dinvsqrt (gW G) i * dw (gW G) i)) by (field; exact E).
    rewrite Hs. ring.
  - intros i j Hi Hj Hne Ei Ej. rewrite (lap_norm_scaled _ Hg HpW i j Hi Hj), (lap_comb_entry _ Hg i j Hi Hj Hne).
    unfold dinvsqrt. rewrite (proj2 (Reqb_false _ _) Ei), (proj2 (Reqb_false _ _) Ej).
    pose proof (Hsq i Hi Ei). pose proof (Hsq j Hj Ej). field. lra.
  - intros i j Hi Hj E. rewrite (lap_norm_scaled _ Hg HpW i j Hi Hj).
    unfold dinvsqrt at 1. rewrite (proj2 (Reqb_true _ _) E). ring.
Qed.

Theorem C11_spectrum_in_0_2 :
  forall G lam x, built G -> g_lap_type G = Normalized -> nonneg_weights G ->
    eigenpair (g_n_vertices G) (gL G) lam x -> 0 <= lam <= 2.
Proof.
  intros G lam x Hb Ht Hp He. destruct (built_good G Hb) as (Hg & Hn & _ & _). pose proof (nonneg_W G Hb Hp) as HpW.
  rewrite Hn, (built_norm G Hb Ht) in He. split.
  - apply (eigenvalue_ge_quad _ _ _ _ 0 He). rewrite Rmult_0_l, (quad_norm _ _ Hg HpW).
    rewrite (quad_ext _ _ _ _ (lap_comb_abs _ Hg)).
    apply abs_psd; intros; [apply wlap_sym|apply wlap_nonneg]; assumption.
  - apply (eigenvalue_le_quad _ _ _ _ 2 He). apply lap_norm_bound; assumption.
Qed.

Theorem C11_psd :
  forall G, built G -> g_lap_type G = Normalized -> nonneg_weights G -> psd (g_n_vertices G) (gL G).
Proof.
  intros G Hb Ht Hp x. destruct (built_good G Hb) as (Hg & Hn & _ & _). pose proof (nonneg_W G Hb Hp) as HpW.
  rewrite Hn, (built_norm G Hb Ht), (quad_norm _ _ Hg HpW), (quad_ext _ _ _ _ (lap_comb_abs _ Hg)).
  apply abs_psd; intros; [apply wlap_sym|apply wlap_nonneg]; assumption.
Qed.

(** sqrt(d) is in the kernel. *)
Theorem C11_sqrt_degree_in_kernel :
  forall G i, built G -> g_lap_type G = Normalized -> nonneg_weights G -> (i < g_n_vertices G)%nat ->
    mulv (g_n_vertices G) (gL G) (fun j => sqrt (dw (gW G) j)) i = 0.
Proof.
  intros G i Hb Ht Hp Hi. destruct (built_good G Hb) as (Hg & Hn & _ & _). pose proof (nonneg_W G Hb Hp) as HpW.
  rewrite Hn in *. rewrite (built_norm G Hb Ht). unfold mulv.
  rewrite (rsum_ext _ _ (fun j => dinvsqrt (gW G) i * lap_comb (gW G) i j)).
  - rewrite rsum_scal_l. change (rsum (nrow (gW G)) (lap_comb (gW G) i)) with (\sum_(j < nrow (gW G)) lap_comb (gW G) i j).
    rewrite (lap_comb_row_sum _ Hg i Hi). ring.
  - intros j Hj. rewrite (lap_norm_scaled _ Hg HpW i j Hi Hj).
    pose proof (dw_nonneg _ Hg HpW j Hj) as Hdj. unfold dinvsqrt at 2. destruct (Reqb_spec (dw (gW G) j) 0) as [E|E].
    + rewrite E, sqrt_0.
      assert (Hz : dinvsqrt (gW G) i * lap_comb (gW G) i j = 0); [|rewrite Hz; ring].
      destruct (Nat.eq_dec i j) as [->|Hne].
      * unfold dinvsqrt. rewrite (proj2 (Reqb_true _ _) E). ring.
      * rewrite (lap_comb_entry _ Hg i j Hi Hj Hne).
        pose proof (dw_zero_wlap _ Hg HpW j Hj E i Hi) as Hz. rewrite wlap_avg in Hz by assumption.
        replace (- (get (gW G) i j + get (gW G) j i) / 2) with 0 by lra. ring.
    + assert (0 < sqrt (dw (gW G) j)) by (apply sqrt_lt_R0; lra). field. lra.
Qed.

(** The kernel: L x = 0 iff x / sqrt(d) takes equal values at the two ends of every edge. *)
Theorem C11_kernel :
  forall G x, built G -> g_lap_type G = Normalized -> nonneg_weights G ->
    let n := g_n_vertices G in
    (forall i, (i < n)%nat -> mulv n (gL G) x i = 0) <->
    (forall i j, (i < n)%nat -> (j < n)%nat -> wt G i j <> 0 ->
       x i / sqrt (dw (gW G) i) = x j / sqrt (dw (gW G) j)).
Proof.
  intros G x Hb Ht Hp n. destruct (built_good G Hb) as (Hg & Hn & _ & _). pose proof (nonneg_W G Hb Hp) as HpW.
  unfold n, wt. rewrite Hn, (built_norm G Hb Ht).
  set (W := gW G) in *. set (y := fun i => dinvsqrt W i * x i).
  assert (Hedge : forall i j, (i < nrow W)%nat -> (j < nrow W)%nat -> get W i j <> 0 ->
     dw W i <> 0 /\ dw W j <> 0).
  { intros i j Hi Hj E. split; intros E0.
    - pose proof (dw_zero_wlap _ Hg HpW i Hi E0 j Hj) as Hz. fold W in Hz. rewrite wlap_avg in Hz by assumption.
      pose proof (HpW i j Hi Hj). pose proof (HpW j i Hj Hi). apply E. lra.
    - pose proof (dw_zero_wlap _ Hg HpW j Hj E0 i Hi) as Hz. fold W in Hz. rewrite wlap_avg in Hz by assumption.
      pose proof (HpW i j Hi Hj). pose proof (HpW j i Hj Hi). apply E. lra. }
  assert (Hy : forall i, dw W i <> 0 -> y i = x i / sqrt (dw W i)).
  { intros i E. unfold y, dinvsqrt. rewrite (proj2 (Reqb_false _ _) E). unfold Rdiv. ring. }
  assert (Hws : forall i j, (i < nrow W)%nat -> (j < nrow W)%nat -> wlap W i j = wlap W j i) by (intros; apply wlap_sym; assumption).
  split.
  - intros H0 i j Hi Hj Hnz.
    assert (Hq : quad (nrow W) (lap_comb W) y = 0).
    { unfold y. rewrite <- (quad_norm W x Hg HpW). unfold quad. apply rsum_0. intros k Hk. rewrite (H0 k Hk). ring. }
    rewrite (quad_comb W y Hg) in Hq.
    assert (Hs0 : \sum_(a < nrow W) \sum_(b < nrow W) (get W a b * ((y b - y a) * (y b - y a))) = 0) by lra.
    assert (Hpos : forall a b, (a < nrow W)%nat -> (b < nrow W)%nat -> 0 <= get W a b * ((y b - y a) * (y b - y a))).
    { intros a b Ha Hbb. apply Rmult_le_pos; [apply HpW; assumption|apply Rle_0_sqr]. }
    assert (Ht0 : get W i j * ((y j - y i) * (y j - y i)) = 0).
    { pose proof (rsum_zero_all _ _ (fun a Ha => rsum_nonneg _ _ (fun b Hbb => Hpos a b Ha Hbb)) Hs0 i Hi) as H1.
      cbn in H1. apply (rsum_zero_all _ _ (fun b Hbb => Hpos i b Hi Hbb) H1 j Hj). }
    destruct (Hedge i j Hi Hj Hnz) as (Ei & Ej). rewrite <- (Hy i Ei), <- (Hy j Ej).
    destruct (Rmult_integral _ _ Ht0) as [E|E]; [contradiction|]. destruct (Rmult_integral _ _ E); lra.
  - intros H i Hi. unfold mulv.
    rewrite (rsum_ext _ _ (fun j => dinvsqrt W i * (lap_comb W i j * y j))).
    2:{ intros j Hj. rewrite (lap_norm_scaled W Hg HpW i j Hi Hj). unfold y. ring. }
    rewrite rsum_scal_l.
    replace (\sum_(j < nrow W) (lap_comb W i j * y j)) with 0; [ring|]. symmetry.
    change (mulv (nrow W) (lap_comb W) y i = 0).
    transitivity (mulv (nrow W) (fun i j => (if Nat.eqb i j then \sum_(k < nrow W) wlap W i k else 0) - wlap W i j) y i).
    { apply rsum_ext. intros j Hj. rewrite (lap_comb_abs W Hg i j Hi Hj). reflexivity. }
    rewrite (abs_mulv (nrow W) (wlap W) y i Hi). apply rsum_0. intros j Hj. rewrite wlap_avg by assumption.
    assert (Hd : get W i j <> 0 \/ get W j i <> 0 \/ (get W i j = 0 /\ get W j i = 0)).
    { destruct (Req_dec (get W i j) 0), (Req_dec (get W j i) 0); auto. }
    destruct Hd as [Hnz|[Hnz|(E1 & E2)]].
    + destruct (Hedge i j Hi Hj Hnz) as (Ei & Ej). rewrite (Hy i Ei), (Hy j Ej), (H i j Hi Hj Hnz). ring.
    + destruct (Hedge j i Hj Hi Hnz) as (Ej & Ei). rewrite (Hy i Ei), (Hy j Ej), (H j i Hj Hi Hnz). ring.
    + rewrite E1, E2. field.
Qed.

Lemma ex_nonneg G : g_n_vertices G = 3%nat ->
  (forall i j, (i < 3)%nat -> (j < 3)%nat -> wt G i j = nth (i * 3 + j) ex_data 0) -> nonneg_weights G.
Proof.
  intros Hn Hw i j Hi Hj. rewrite Hn in Hi, Hj. rewrite Hw by assumption.
  destruct i as [|[|[|i]]]; try lia; destruct j as [|[|[|j]]]; try lia; cbn; lra.
Qed.

Example C11_ex : exists G lam x, built G /\ g_lap_type G = Normalized /\ nonneg_weights G /\
  eigenpair (g_n_vertices G) (gL G) lam x.
Proof.
  destruct (ex_graph Normalized (or_intror eq_refl)) as (G & Hb & Hn & Ht & Hw).
  pose proof (ex_nonneg G Hn Hw) as Hp. exists G, 0, (fun j => sqrt (dw (gW G) j)).
  split; [exact Hb|]. split; [exact Ht|]. split; [exact Hp|]. split.
  - intros Hz. specialize (Hz 0%nat). rewrite Hn in Hz. specialize (Hz ltac:(lia)). cbn beta in Hz.
    rewrite (proj1 (C08_weighted_degree G 0 Hb ltac:(lia))), Hn in Hz. cbn [rsum] in Hz. rewrite !Hw in Hz by lia.
    cbn in Hz. apply sqrt_eq_0 in Hz; lra.
  - intros i Hi. rewrite (C11_sqrt_degree_in_kernel G i Hb Ht Hp Hi). ring.
Qed.

(** ** C12 *)

Theorem C12_factorisation :
  forall G, built G -> nonneg_weights G ->
    exists D, diff_op (gW G) (g_lap_type G) = Ok D /\
      forall i j, (i < g_n_vertices G)%nat -> (j < g_n_vertices G)%nat ->
        \sum_(k < g_n_edges G) (D i k * D j k) = gL G i j.
Proof.
  intros G Hb Hp. destruct (built_good G Hb) as (Hg & Hn & He & HL). pose proof (nonneg_W G Hb Hp) as HpW.
  rewrite Hn, He. exact (diff_op_factor _ _ _ Hg HpW HL).
Qed.

Example C12_ex : exists G, built G /\ nonneg_weights G /\ g_lap_type G = Normalized /\ has_loops (gW G) = true.
Proof.
  destruct (ex_graph Normalized (or_intror eq_refl)) as (G & Hb & Hn & Ht & Hw).
  exists G. split; [exact Hb|]. split; [exact (ex_nonneg G Hn Hw)|]. split; [exact Ht|].
  apply C03_has_loops_iff_nonzero_diagonal; [exact Hb|]. exists 2%nat. split; [lia|]. rewrite Hw by lia. cbn; lra.
Qed.

(** ** C13 *)

(** The value of the gradient on the k-th edge (a, b, w) of get_edge_list. *)
Theorem C13_gradient_values :
  forall G x l, built G -> nonneg_weights G -> List.length x = g_n_vertices G ->
    get_edge_list (gW G) = Ok l ->
    exists y, grad G x = Ok y /\ List.length y = g_n_edges G /\
      forall k a b w, (k < g_n_edges G)%nat -> nth k l (0%nat, 0%nat, 0) = (a, b, w) ->
        let c := if is_directed (gW G) then w / 2 else w in
        (g_lap_type G = Combinatorial -> nth k y 0 = sqrt c * (nth b x 0 - nth a x 0)) /\
        (g_lap_type G = Normalized ->
           nth k y 0 = sqrt c * (nth b x 0 / sqrt (dw (gW G) b) - nth a x 0 / sqrt (dw (gW G) a))).
Proof.
  intros G x l Hb Hp Hlx Hl. destruct (built_good G Hb) as (Hg & Hn & He & HL). pose proof (nonneg_W G Hb Hp) as HpW.
  assert (Ht : g_lap_type G = Combinatorial \/ g_lap_type G = Normalized).
  { destruct (g_lap_type G); cbn in HL; auto; discriminate. }
  set (W := gW G) in *.
  unfold grad, check_signal. rewrite Hlx, Nat.eqb_refl. cbn [bindr]. fold W.
  assert (HD : diff_op W (g_lap_type G) = Ok (fun i k => dentry W (g_lap_type G) i (nth k l (0%nat, 0%nat, 0)))).
  { unfold diff_op. rewrite Hl. cbn [bindr]. destruct Ht as [E|E]; rewrite E; reflexivity. }
  rewrite HD. cbn [bindr]. eexists. split; [reflexivity|]. split; [rewrite map_length, seq_length; reflexivity|].
  intros k a b w Hk Hkl. set (c := if is_directed W then w / 2 else w).
  rewrite nth_map_seq by exact Hk. rewrite Hkl.
  assert (Hlen : List.length l = g_n_edges G).
  { destruct (edge_list_ok W Hg) as (l' & Hl' & _ & Hlen). rewrite Hl in Hl'. injection Hl' as <-. rewrite He. exact Hlen. }
  assert (Hin : In (a, b, w) l) by (rewrite <- Hkl; apply nth_In; lia).
  apply (edge_list_in W l a b w Hg Hl) in Hin. destruct Hin as (Ha & Hbb & Hw & Hnz & _).
  assert (Hw0 : 0 <= w) by (rewrite Hw; apply HpW; assumption).
  assert (Hc : sqrt w / dscale W = sqrt c).
  { unfold dscale, c. fold W. destruct (is_directed W); [|field].
    symmetry. apply sqrt_div_alt. lra. }
  rewrite (rsum_ext _ _ (fun i => (if Nat.eqb i b then sqrt c * (vscale W (g_lap_type G) i * nth i x 0) else 0)
                                - (if Nat.eqb i a then sqrt c * (vscale W (g_lap_type G) i * nth i x 0) else 0))).
  2:{ intros i Hi. rewrite (dentry_eq W _ i a b w Hg HpW Ht Ha Hbb Hw), Hc. unfold kron.
      rewrite (Nat.eqb_sym b i), (Nat.eqb_sym a i). destruct (Nat.eqb i b), (Nat.eqb i a); ring. }
  rewrite rsum_minus.
  rewrite (rsum_delta _ (fun i => sqrt c * (vscale W (g_lap_type G) i * nth i x 0)) b) by (rewrite Hn; exact Hbb).
  rewrite (rsum_delta _ (fun i => sqrt c * (vscale W (g_lap_type G) i * nth i x 0)) a) by (rewrite Hn; exact Ha).
  split; intros E; rewrite E; cbn [vscale].
  - ring.
  - assert (Hda : dw W a <> 0).
    { intros E0. pose proof (dw_zero_wlap _ Hg HpW a Ha E0 b Hbb) as Hz. fold W in Hz. rewrite wlap_avg in Hz by assumption.
      pose proof (HpW a b Ha Hbb). pose proof (HpW b a Hbb Ha). fold W in Hnz. apply Hnz. lra. }
    assert (Hdb : dw W b <> 0).
    { intros E0. pose proof (dw_zero_wlap _ Hg HpW b Hbb E0 a Ha) as Hz. fold W in Hz. rewrite wlap_avg in Hz by assumption.
      pose proof (HpW a b Ha Hbb). pose proof (HpW b a Hbb Ha). apply Hnz. lra. }
    unfold dinvsqrt. rewrite (proj2 (Reqb_false _ _) Hda), (proj2 (Reqb_false _ _) Hdb). unfold Rdiv. ring.
Qed.

(** div is the adjoint of grad, div(grad x) = L x, |grad x|^2 is the Dirichlet energy. *)
Theorem C13_divergence_adjoint :
  forall G x y, built G -> nonneg_weights G ->
    List.length x = g_n_vertices G -> List.length y = g_n_edges G ->
    exists gx dy, grad G x = Ok gx /\ div G y = Ok dy /\
      List.length gx = g_n_edges G /\ List.length dy = g_n_vertices G /\
      \sum_(i < g_n_vertices G) (nth i x 0 * nth i dy 0) =
      \sum_(k < g_n_edges G) (nth k gx 0 * nth k y 0).
Proof.
  intros G x y Hb Hp Hlx Hly. destruct (C12_factorisation G Hb Hp) as (D & HD & _).
  unfold grad, div, check_signal. rewrite Hlx, Hly, !Nat.eqb_refl. cbn [bindr]. rewrite HD. cbn [bindr].
  eexists; eexists. split; [reflexivity|]. split; [reflexivity|].
  rewrite !map_length, !seq_length. split; [reflexivity|]. split; [reflexivity|].
  rewrite (rsum_ext _ _ (fun i => nth i x 0 * \sum_(k < g_n_edges G) (D i k * nth k y 0))).
  2:{ intros i Hi. rewrite nth_map_seq by exact Hi. reflexivity. }
  rewrite (rsum_ext (g_n_edges G) _ (fun k => (\sum_(i < g_n_vertices G) (D i k * nth i x 0)) * nth k y 0)).
  2:{ intros k Hk. rewrite nth_map_seq by exact Hk. reflexivity. }
  exact (dot_mulv_tr (g_n_vertices G) (g_n_edges G) D (fun i => nth i x 0) (fun k => nth k y 0)).
Qed.

Theorem C13_div_grad_is_laplacian :
  forall G x gx, built G -> nonneg_weights G -> grad G x = Ok gx ->
    exists z, div G gx = Ok z /\ List.length z = g_n_vertices G /\
      forall i, (i < g_n_vertices G)%nat -> nth i z 0 = \sum_(j < g_n_vertices G) (gL G i j * nth j x 0).
Proof.
  intros G x gx Hb Hp Hgx. destruct (C12_factorisation G Hb Hp) as (D & HD & HF).
  unfold grad, check_signal in Hgx. destruct (Nat.eqb_spec (List.length x) (g_n_vertices G)) as [Hlx|]; [|discriminate].
  cbn [bindr] in Hgx. rewrite HD in Hgx. cbn [bindr] in Hgx. injection Hgx as <-.
  unfold div. rewrite map_length, seq_length, Nat.eqb_refl. rewrite HD. cbn [bindr].
  eexists. split; [reflexivity|]. rewrite map_length, seq_length. split; [reflexivity|].
  intros i Hi. rewrite nth_map_seq by exact Hi.
  rewrite (rsum_ext (g_n_edges G) _ (fun k => D i k * \sum_(j < g_n_vertices G) (D j k * nth j x 0))).
  2:{ intros k Hk. rewrite nth_map_seq by exact Hk. reflexivity. }
  transitivity (mulv (g_n_vertices G) (mulm (g_n_edges G) D (tr D)) (fun j => nth j x 0) i).
  { rewrite mulv_mulm. reflexivity. }
  apply rsum_ext; intros j Hj. f_equal. apply (HF i j Hi Hj).
Qed.

Theorem C13_energy_is_squared_gradient :
  forall G x gx, built G -> nonneg_weights G -> grad G x = Ok gx ->
    dirichlet_energy G x = Ok (\sum_(k < g_n_edges G) (nth k gx 0 * nth k gx 0)).
Proof.
  intros G x gx Hb Hp Hgx.
  destruct (C13_div_grad_is_laplacian G x gx Hb Hp Hgx) as (z & Hz & Hlz & Hzi).
  assert (Hlx : List.length x = g_n_vertices G).
  { unfold grad, check_signal in Hgx. destruct (Nat.eqb_spec (List.length x) (g_n_vertices G)); [assumption|discriminate]. }
  assert (Hlg : List.length gx = g_n_edges G).
  { unfold div in Hz. destruct (Nat.eqb_spec (List.length gx) (g_n_edges G)); [assumption|discriminate]. }
  destruct (C13_divergence_adjoint G x gx Hb Hp Hlx Hlg) as (gx' & dy & Hg' & Hd' & _ & _ & Hadj).
  rewrite Hgx in Hg'. injection Hg' as <-. rewrite Hz in Hd'. injection Hd' as <-.
  rewrite (energy_ok G x Hlx). f_equal. rewrite <- Hadj. unfold quad, dot, mulv.
  apply rsum_ext; intros i Hi. rewrite (Hzi i Hi). reflexivity.
Qed.

Theorem C13_rejects_wrong_length :
  forall G x, (List.length x <> g_n_vertices G -> grad G x = Raise ValueError) /\
              (List.length x <> g_n_edges G -> div G x = Raise ValueError).
Proof.
  intros G x. split; intros H.
  - unfold grad, check_signal. destruct (Nat.eqb_spec (List.length x) (g_n_vertices G)); [contradiction|reflexivity].
  - unfold div. destruct (Nat.eqb_spec (List.length x) (g_n_edges G)); [contradiction|reflexivity].
Qed.

Example C13_ex : exists G gx, built G /\ nonneg_weights G /\ grad G [0; 1; 2] = Ok gx /\ List.length gx = g_n_edges G.
Proof.
  destruct (ex_graph Normalized (or_intror eq_refl)) as (G & Hb & Hn & Ht & Hw).
  pose proof (ex_nonneg G Hn Hw) as Hp.
  destruct (C04_edge_list_enumerates_every_edge_once G Hb) as (l & Hl & _).
  destruct (C13_gradient_values G [0; 1; 2] l Hb Hp ltac:(rewrite Hn; reflexivity) Hl) as (y & Hy & Hly & _).
  exists G, y. auto.
Qed.

(** ** C14 *)

(** For non-negative weights the bound is a finite number and every eigenvalue is at most it. *)
Theorem C14_upper_bound_is_upper_bound :
  forall G, built G -> nonneg_weights G -> (0 < g_n_vertices G)%nat ->
    exists r, upper_bound (gW G) (g_lap_type G) = Ok (Fin r) /\
      forall lam x, eigenpair (g_n_vertices G) (gL G) lam x -> lam <= r.
Proof.
  intros G Hb Hp Hn0. destruct (built_good G Hb) as (Hg & Hn & _ & HL). pose proof (nonneg_W G Hb Hp) as HpW.
  destruct (g_lap_type G) as [| |s] eqn:Ht.
  - rewrite (built_comb G Hb Ht), Hn. apply upper_bound_comb; auto. rewrite <- Hn; exact Hn0.
  - exists 2. split; [reflexivity|]. intros lam x He. apply (C11_spectrum_in_0_2 G lam x Hb Ht Hp He).
  - cbn in HL. discriminate.
Qed.

(** With negative weights it is not: the graph with one edge of weight -1. *)
Theorem C14_negative_weights_refuted :
  exists G r lam x, built G /\ (0 < g_n_vertices G)%nat /\ upper_bound (gW G) (g_lap_type G) = Ok (Fin r) /\
    eigenpair (g_n_vertices G) (gL G) lam x /\ r < lam.
Proof.
  destruct (finite_entry_built 2 [0; -1; -1; 0] Combinatorial None eq_refl (or_introl eq_refl))
    as (G & _ & Hb & Hn & Ht & _ & Hw).
  destruct (built_good G Hb) as (Hg & HnW & He & _).
  assert (HW : forall i j, (i < 2)%nat -> (j < 2)%nat -> get (gW G) i j = nth (i * 2 + j) [0; -1; -1; 0] 0).
  { intros i j Hi Hj. exact (Hw i j Hi Hj). }
  assert (En : nrow (gW G) = 2%nat) by congruence.
  assert (Hu : undirected G).
  { intros i j Hi Hj. rewrite Hn in Hi, Hj. rewrite !Hw by assumption.
    destruct i as [|[|i]]; try lia; destruct j as [|[|j]]; try lia; cbn; lra. }
  assert (Hdir : is_directed (gW G) = false).
  { destruct (is_directed (gW G)) eqn:E; [|reflexivity]. apply C03_is_directed_iff_not_symmetric in E; [|exact Hb]. contradiction. }
  assert (Ed : forall i, (i < 2)%nat -> dw (gW G) i = -1).
  { intros i Hi. rewrite (proj2 (C08_weighted_degree G i Hb ltac:(lia)) Hu). rewrite Hn. cbn [rsum].
    destruct i as [|[|i]]; try lia; rewrite !Hw by lia; cbn; lra. }
  assert (Ew : forall i j, (i < 2)%nat -> (j < 2)%nat -> wlap (gW G) i j = nth (i * 2 + j) [0; -1; -1; 0] 0).
  { intros i j Hi Hj. unfold wlap. rewrite Hdir. apply HW; assumption. }
  assert (Ee : g_n_edges G = 1%nat).
  { eapply card_unique; [exact (C02_n_edges_undirected G Hb Hu)|]. exists [(0, 1)]%nat.
    split; [repeat constructor; cbn; intuition discriminate|]. split; [|reflexivity].
    intros [i j]. rewrite Hn. cbn [fst snd]. split.
    - intros [E|[]]; injection E as <- <-. repeat split; [lia|lia|]. rewrite Hw by lia. cbn; lra.
    - intros (Hle & Hj & Hnz). rewrite Hw in Hnz by lia.
      destruct i as [|[|i]]; try lia; destruct j as [|[|j]]; try lia; cbn in *; try lra; auto. }
  destruct (edge_list_ok (gW G) Hg) as (l & Hl & _ & Hlen).
  assert (Elist : l = [(0%nat, 1%nat, -1)]).
  { rewrite <- He, Ee in Hlen. destruct l as [|[[a b] w] [|? ?]]; try discriminate Hlen.
    assert (Hin : In (0%nat, 1%nat, -1) [(a, b, w)]).
    { apply (edge_list_in (gW G) _ 0 1 (-1) Hg Hl). rewrite En, HW by lia. cbn. repeat split; try lia; lra. }
    destruct Hin as [E|[]]. rewrite E. reflexivity. }
  exists G, (-2), 0, (fun _ => 1). split; [exact Hb|]. split; [lia|]. split; [|split; [|lra]].
  - rewrite Ht. unfold upper_bound, max_weight. rewrite <- He, Ee, Hl, Elist.
    rewrite (good_sq _ Hg), En. cbn [seq flat_map map app np_max fold_left]. rewrite !HW by lia.
    rewrite !Ed by lia. cbn [fst snd]. unfold merris_term. rewrite En. cbn [rsum]. rewrite !Ew by lia. rewrite !Ed by lia.
    cbn [Nat.mul Nat.add nth]. unfold xdiv. rewrite (proj2 (Reqb_false (-1) 0)) by lra.
    cbn [xmax2 xlt bindr Nat.ltb Nat.leb np_max map fold_left xadd fst snd].
    rewrite !Ed by lia.
    repeat match goal with |- context[Rltb ?a ?b] => destruct (Rltb_spec a b); [exfalso; lra|] || destruct (Rltb_spec a b) end;
    cbn [xmax2 xlt bindr Nat.ltb Nat.leb np_max map fold_left xadd fst snd py_min app xscale];
    repeat (match goal with |- context[Rltb ?a ?b] => destruct (Rltb_spec a b) end;
            cbn [xmax2 xlt bindr Nat.ltb Nat.leb np_max map fold_left xadd fst snd py_min app xscale]);
    try (f_equal; f_equal; cbn [INR] in *; lra); exfalso; cbn [INR] in *; lra.
  - split; [intros Hz; specialize (Hz 0%nat ltac:(lia)); cbn in Hz; lra|].
    intros i Hi. unfold mulv. destruct (C09_combinatorial_structure G Hb Ht) as (_ & Hr & _). specialize (Hr i Hi).
    rewrite (rsum_ext _ _ (fun j => gL G i j)) by (intros; ring). rewrite Hr. ring.
Qed.

Example C14_ex : exists G, built G /\ nonneg_weights G /\ (0 < g_n_vertices G)%nat /\ g_lap_type G = Combinatorial.
Proof.
  destruct (ex_graph Combinatorial (or_introl eq_refl)) as (G & Hb & Hn & Ht & Hw).
  exists G. split; [exact Hb|]. split; [exact (ex_nonneg G Hn Hw)|]. split; [lia|exact Ht].
Qed.

Print Assumptions C12_factorisation.
Print Assumptions C13_energy_is_squared_gradient.
Print Assumptions C14_upper_bound_is_upper_bound.
