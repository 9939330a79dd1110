(** Property C91: when the spectral bound of estimate_lmax("bounds") is the largest eigenvalue (the comments of
    graph.py:937-946 and the tests test_graphs.py:268-292, for every graph). *)
From Coq Require Import Reals Lra Lia List Arith Bool String.
From Verif.Base Require Import RSum Prelude LinAlg.
From Verif.Spec Require Import Matrix GraphSpec Reach.
From Verif.Model Require Import Sparse Graph Bounds.
From Verif.Proofs Require Import SparseFacts InitFacts EdgeFacts LapFacts BoundFacts SpectralFacts.
From Verif.Props Require Import Core Laplacian Traversal UtilsProps.
Import ListNotations.
Open Scope R_scope.

(** The bound is the number r, and r is an eigenvalue: by C14, the largest one. *)
Definition tight (G : graph) (r : R) : Prop :=
  upper_bound (gW G) (g_lap_type G) = Ok (Fin r) /\ exists x, eigenpair (g_n_vertices G) (gL G) r x.
(** The vertices have two sides and every edge goes from one to the other. *)
Definition two_sided (G : graph) (side : nat -> bool) : Prop := forall u v, has_arc G u v -> side u <> side v.
Definition bipartite (G : graph) : Prop := exists side, two_sided G side.

(** ** Energies *)
Lemma nonzero_term m f : rsum m f <> 0 -> exists j, (j < m)%nat /\ f j <> 0.
Proof.
  intros Hd. induction m as [|m IH]; [cbn in Hd; lra|].
  destruct (Req_dec (f m) 0) as [E|E]; [|exists m; split; [lia|exact E]].
  destruct IH as (j & Hj & Hw); [|exists j; split; [lia|exact Hw]]. intros Z. apply Hd. cbn [rsum]. rewrite Z, E. lra.
Qed.
Section Energy.
Variable G : graph.
Hypothesis Hb : built G.
Hypothesis Hp : nonneg_weights G.
Let W := gW G.
Let n := nrow W.

Lemma tp_n : g_n_vertices G = n. Proof. destruct (built_good G Hb) as (_ & H & _). exact H. Qed.
Lemma tp_good : good W. Proof. destruct (built_good G Hb) as (H & _). exact H. Qed.
Lemma tp_nonneg : nonnegW W. Proof. exact (nonneg_W G Hb Hp). Qed.

Lemma tp_dw i : (i < n)%nat -> rsum n (wlap W i) = dw W i. Proof. intros Hi. symmetry. exact (dw_wlap W i tp_good Hi). Qed.
Lemma tp_mulv x i : (i < n)%nat -> mulv n (lap_comb W) x i = \sum_(j < n) (wlap W i j * (x i - x j)).
Proof.
  intros Hi. rewrite <- (abs_mulv n (wlap W) x i Hi). apply rsum_ext. intros j Hj. rewrite (lap_comb_abs W tp_good i j Hi Hj). reflexivity.
Qed.

Lemma tp_excess y : 2 * (\sum_(i < n) (dw W i * (y i * y i))) - quad n (lap_comb W) y =
  (\sum_(i < n) \sum_(j < n) (wlap W i j * ((y i + y j) * (y i + y j)))) / 2.
Proof.
  pose proof tp_good as Hg. assert (Eq := quad_ext _ _ _ y (lap_comb_abs W Hg)). fold n in Eq. rewrite Eq. clear Eq.
  rewrite (abs_energy n (wlap W)) by (intros; apply wlap_sym; assumption).
  assert (E1 : \sum_(i < n) \sum_(j < n) (wlap W i j * (y i * y i)) = \sum_(i < n) (dw W i * (y i * y i))).
  { apply rsum_ext; intros i Hi. rewrite rsum_scal_r, (dw_wlap W i Hg Hi). reflexivity. }
  assert (E2 : \sum_(i < n) \sum_(j < n) (wlap W i j * (y j * y j)) = \sum_(i < n) (dw W i * (y i * y i))).
  { rewrite rsum_swap. apply rsum_ext; intros i Hi. rewrite rsum_scal_r, (dw_wlap W i Hg Hi). f_equal.
    apply rsum_ext; intros j Hj. apply wlap_sym; assumption. }
  assert (E3 : \sum_(i < n) \sum_(j < n) (wlap W i j * ((y i + y j) * (y i + y j))) +
               \sum_(i < n) \sum_(j < n) (wlap W i j * ((y i - y j) * (y i - y j))) =
               2 * (\sum_(i < n) \sum_(j < n) (wlap W i j * (y i * y i))) + 2 * (\sum_(i < n) \sum_(j < n) (wlap W i j * (y j * y j)))).
  { rewrite <- !sum2_scal, <- !sum2_plus. apply sum2_ext; intros; ring. }
  lra.
Qed.

Lemma tp_le y : quad n (lap_comb W) y <= 2 * \sum_(i < n) (dw W i * (y i * y i)).
Proof.
  pose proof (tp_excess y) as E. assert (H : 0 <= \sum_(i < n) \sum_(j < n) (wlap W i j * ((y i + y j) * (y i + y j)))); [|lra].
  apply sum2_nonneg; intros i j Hi Hj. apply Rmult_le_pos; [apply wlap_nonneg; [exact tp_nonneg|assumption..]|apply Rle_0_sqr].
Qed.

Lemma tp_anti y : 2 * (\sum_(i < n) (dw W i * (y i * y i))) <= quad n (lap_comb W) y ->
  forall i j, (i < n)%nat -> (j < n)%nat -> wlap W i j <> 0 -> y j = - y i.
Proof.
  intros H i j Hi Hj Hw. pose proof (tp_excess y) as E. pose proof (tp_le y) as L.
  assert (P : forall a b, (a < n)%nat -> (b < n)%nat -> 0 <= wlap W a b * ((y a + y b) * (y a + y b))).
  { intros a b Ha Hb'. apply Rmult_le_pos; [apply wlap_nonneg; [exact tp_nonneg|assumption..]|apply Rle_0_sqr]. }
  assert (Z : \sum_(a < n) \sum_(b < n) (wlap W a b * ((y a + y b) * (y a + y b))) = 0) by lra.
  pose proof (rsum_zero_all _ _ (fun a Ha => rsum_nonneg _ _ (fun b Hb' => P a b Ha Hb')) Z i Hi) as Z1. cbn beta in Z1.
  pose proof (rsum_zero_all _ _ (fun b Hb' => P i b Hi Hb') Z1 j Hj) as Z2. cbn beta in Z2.
  apply Rmult_integral in Z2. destruct Z2 as [Z2|Z2]; [contradiction|]. apply Rmult_integral in Z2. destruct Z2; lra.
Qed.

Lemma tp_arc i j : (i < n)%nat -> (j < n)%nat -> (wlap W i j <> 0 <-> has_arc G i j \/ has_arc G j i).
Proof.
  intros Hi Hj. rewrite wlap_avg by assumption. unfold has_arc, wt. rewrite tp_n. fold W.
  pose proof (tp_nonneg i j Hi Hj) as P1. pose proof (tp_nonneg j i Hj Hi) as P2. split.
  - intros H. destruct (Req_dec (get W i j) 0) as [E|E]; [right|left]; repeat split; auto. intros E'. apply H. rewrite E, E'. lra.
  - intros [(_ & _ & H)|(_ & _ & H)] E; apply H; lra.
Qed.
Lemma tp_arc_lt u v : has_arc G u v -> (u < n)%nat /\ (v < n)%nat /\ wlap W u v <> 0.
Proof. intros H. pose proof H as (Hu & Hv & Hw). rewrite tp_n in Hu, Hv. repeat split; auto. apply tp_arc; auto. Qed.

(** A vertex with a degree has an edge. *)
Lemma tp_has_edge i : (i < n)%nat -> dw W i <> 0 -> exists j, (j < n)%nat /\ wlap W i j <> 0.
Proof.
  intros Hi Hd. rewrite (dw_wlap W i tp_good Hi) in Hd. exact (nonzero_term _ _ Hd).
Qed.
Lemma tp_deg_arc u v : has_arc G u v -> 0 < dw W u /\ 0 < dw W v.
Proof.
  intros H. destruct (tp_arc_lt u v H) as (Hu & Hv & Hw). pose proof (dw_nonneg W tp_good tp_nonneg u Hu). pose proof (dw_nonneg W tp_good tp_nonneg v Hv).
  split.
  - destruct (Req_dec (dw W u) 0) as [E|E]; [|lra]. exfalso. apply Hw. apply (dw_zero_wlap W tp_good tp_nonneg u Hu E v Hv).
  - destruct (Req_dec (dw W v) 0) as [E|E]; [|lra]. exfalso. apply Hw. rewrite wlap_sym by assumption. apply (dw_zero_wlap W tp_good tp_nonneg v Hv E u Hu).
Qed.

(** ** The normalized Laplacian *)
Lemma tp_norm_iff : g_lap_type G = Normalized ->
  (exists x, eigenpair (g_n_vertices G) (gL G) 2 x) <->
  exists part side, (exists u v, part u = true /\ has_arc G u v) /\ (forall u v, has_arc G u v -> part u = part v) /\
    (forall u v, has_arc G u v -> part u = true -> side u <> side v :> bool).
Proof.
  intros Ht. rewrite tp_n, (built_norm G Hb Ht). fold W. pose proof tp_good as Hg. pose proof tp_nonneg as HpW. pose proof (dw_nonneg W Hg HpW) as Hd0.
  assert (Hq : forall i, (i < n)%nat -> dw W i <> 0 -> 0 < sqrt (dw W i)) by (intros i Hi E; apply sqrt_lt_R0; specialize (Hd0 i Hi); lra).
  split.
  - intros (x & Hnz & He). set (y := fun i => dinvsqrt W i * x i).
    assert (Ey : forall i, (i < n)%nat -> dw W i * (y i * y i) = if Reqb (dw W i) 0 then 0 else x i * x i).
    { intros i Hi. unfold y. destruct (Reqb_spec (dw W i) 0) as [E|E]; [rewrite E; ring|]. pose proof (dinvsqrt_sq W i (Hd0 i Hi) E) as S.
      replace (dw W i * (dinvsqrt W i * x i * (dinvsqrt W i * x i))) with (dinvsqrt W i * dinvsqrt W i * dw W i * (x i * x i)) by ring. rewrite S. ring. }
    pose proof (eigenpair_quad n (lap_norm W) 2 x (conj Hnz He)) as Eq. rewrite (quad_norm W x Hg HpW : quad n (lap_norm W) x = _) in Eq. fold y in Eq. change (nrow W) with n in Eq.
    pose proof (tp_le y) as L1.
    assert (L2 : \sum_(i < n) (dw W i * (y i * y i)) <= normsq n x).
    { unfold normsq, dot. apply rsum_le; intros i Hi. rewrite (Ey i Hi). destruct (Reqb (dw W i) 0); [apply Rle_0_sqr|lra]. }
    assert (A : forall i j, (i < n)%nat -> (j < n)%nat -> wlap W i j <> 0 -> y j = - y i) by (apply tp_anti; lra).
    assert (Z : forall i, (i < n)%nat -> dw W i = 0 -> x i = 0).
    { intros i Hi E. assert (S : \sum_(k < n) (x k * x k - dw W k * (y k * y k)) = 0) by (rewrite rsum_minus; change (\sum_(k < n) (x k * x k)) with (normsq n x); lra).
      assert (T : x i * x i - dw W i * (y i * y i) = 0).
      { apply (rsum_zero_all n (fun k => x k * x k - dw W k * (y k * y k))); [|exact S|exact Hi]. intros k Hk. rewrite (Ey k Hk).
        pose proof (Rle_0_sqr (x k)). unfold Rsqr in *. destruct (Reqb (dw W k) 0); lra. }
      rewrite E in T. assert (T' : x i * x i = 0) by lra. apply Rmult_integral in T'. tauto. }
    assert (Hxy : forall i, (i < n)%nat -> dw W i <> 0 -> x i = sqrt (dw W i) * y i).
    { intros i Hi E. unfold y, dinvsqrt. rewrite (proj2 (Reqb_false _ _) E). field. specialize (Hq i Hi E). lra. }
    assert (Both : forall u v, has_arc G u v -> 0 < sqrt (dw W u) /\ 0 < sqrt (dw W v) /\ x u = sqrt (dw W u) * y u /\ x v = sqrt (dw W v) * - y u).
    { intros u v H. destruct (tp_arc_lt u v H) as (Hu & Hv & Hw). destruct (tp_deg_arc u v H) as (D1 & D2). repeat split; [apply Hq; auto; lra..|apply Hxy; auto; lra|].
      rewrite <- (A u v Hu Hv Hw). apply Hxy; auto; lra. }
    exists (fun i => negb (Reqb (x i) 0)), (fun i => Rltb 0 (x i)). split; [|split].
    + destruct (vzero_dec n x) as [Hz|(v & Hv & Hx)]; [contradiction|]. assert (Dv : dw W v <> 0) by (intros E; apply Hx, Z; auto).
      destruct (tp_has_edge v Hv Dv) as (j & Hj & Hw). destruct (proj1 (tp_arc v j Hv Hj) Hw) as [H|H].
      * exists v, j. split; [|exact H]. apply negb_true_iff, Reqb_false. exact Hx.
      * exists j, v. split; [|exact H]. apply negb_true_iff, Reqb_false. destruct (Both j v H) as (P1 & P2 & E1 & E2). rewrite E1. intros E0.
        apply Rmult_integral in E0. destruct E0 as [E0|E0]; [lra|]. apply Hx. rewrite E2, E0. ring.
    + intros u v H. destruct (Both u v H) as (P1 & P2 & E1 & E2). f_equal. rewrite E1, E2.
      destruct (Reqb_spec (sqrt (dw W u) * y u) 0) as [F|F]; destruct (Reqb_spec (sqrt (dw W v) * - y u) 0) as [F'|F']; auto; exfalso.
      * apply F'. apply Rmult_integral in F. destruct F as [F|F]; [lra|rewrite F; ring].
      * apply F. apply Rmult_integral in F'. destruct F' as [F'|F']; [lra|replace (y u) with 0 by lra; ring].
    + intros u v H Pu. apply negb_true_iff, Reqb_false in Pu. destruct (Both u v H) as (P1 & P2 & E1 & E2).
      assert (Hy : y u <> 0) by (intros E; apply Pu; rewrite E1, E; ring).
      destruct (Rltb_spec 0 (x u)) as [F|F]; destruct (Rltb_spec 0 (x v)) as [F'|F']; try discriminate; exfalso; rewrite E1 in F; rewrite E2 in F'.
      * assert (0 < y u) by (apply Rmult_lt_reg_l with (sqrt (dw W u)); lra). assert (0 < - y u) by (apply Rmult_lt_reg_l with (sqrt (dw W v)); lra). lra.
      * assert (y u <= 0) by (apply Rmult_le_reg_l with (sqrt (dw W u)); lra). assert (- y u <= 0) by (apply Rmult_le_reg_l with (sqrt (dw W v)); lra). lra.
  - intros (part & side & (u0 & v0 & Pu0 & H0) & Hclosed & Hside).
    set (y := fun i => if part i then (if side i then 1 else -1) else 0).
    assert (Hclosed' : forall i j, (i < n)%nat -> (j < n)%nat -> wlap W i j <> 0 -> part i = part j).
    { intros i j Hi Hj Hw. destruct (proj1 (tp_arc i j Hi Hj) Hw) as [H|H]; [|symmetry]; apply Hclosed; exact H. }
    assert (Hside' : forall i j, (i < n)%nat -> (j < n)%nat -> wlap W i j <> 0 -> part i = true -> side i <> side j).
    { intros i j Hi Hj Hw Pi. destruct (proj1 (tp_arc i j Hi Hj) Hw) as [H|H]; [apply Hside; assumption|]. apply not_eq_sym, Hside; [exact H|]. rewrite (Hclosed j i H). exact Pi. }
    assert (Anti : forall i j, (i < n)%nat -> (j < n)%nat -> wlap W i j <> 0 -> y j = - y i).
    { intros i j Hi Hj Hw. unfold y. rewrite <- (Hclosed' i j Hi Hj Hw). destruct (part i) eqn:Pi; [|ring].
      pose proof (Hside' i j Hi Hj Hw Pi). destruct (side i), (side j); try congruence; lra. }
    exists (fun i => sqrt (dw W i) * y i). split.
    + intros Hz. destruct (tp_arc_lt u0 v0 H0) as (Hu & _). specialize (Hz u0 Hu). cbn beta in Hz. destruct (tp_deg_arc u0 v0 H0) as (D & _).
      assert (0 < sqrt (dw W u0)) by (apply sqrt_lt_R0; lra). apply Rmult_integral in Hz. destruct Hz as [Hz|Hz]; [lra|]. unfold y in Hz. rewrite Pu0 in Hz. destruct (side u0); lra.
    + intros i Hi. unfold mulv.
      rewrite (rsum_ext n _ (fun j => dinvsqrt W i * (lap_comb W i j * y j))).
      2:{ intros j Hj. rewrite (lap_norm_scaled W Hg HpW i j Hi Hj). destruct (Req_dec (dw W j) 0) as [E|E].
          - destruct (Nat.eq_dec i j) as [->|Hne].
            + unfold dinvsqrt. rewrite (proj2 (Reqb_true _ _) E). ring.
            + rewrite (lap_comb_entry W Hg i j Hi Hj Hne). pose proof (dw_zero_wlap W Hg HpW j Hj E i Hi) as Z0. rewrite wlap_avg in Z0 by assumption.
              replace (- (get W i j + get W j i) / 2) with 0 by lra. ring.
          - unfold dinvsqrt at 2. rewrite (proj2 (Reqb_false _ _) E). field. specialize (Hq j Hj E). lra. }
      rewrite rsum_scal_l. change (\sum_(j < n) (lap_comb W i j * y j)) with (mulv n (lap_comb W) y i). rewrite (tp_mulv y i Hi).
      rewrite (rsum_ext n _ (fun j => wlap W i j * (2 * y i))).
      2:{ intros j Hj. destruct (Req_dec (wlap W i j) 0) as [E|E]; [rewrite E; ring|]. rewrite (Anti i j Hi Hj E). ring. }
      rewrite rsum_scal_r, (tp_dw i Hi).
      destruct (Req_dec (dw W i) 0) as [E|E]; [rewrite E, sqrt_0; ring|]. unfold dinvsqrt. rewrite (proj2 (Reqb_false _ _) E).
      replace (dw W i * (2 * y i)) with (sqrt (dw W i) * sqrt (dw W i) * (2 * y i)) by (rewrite sqrt_sqrt by (apply Hd0; exact Hi); reflexivity).
      field. specialize (Hq i Hi E). lra.
Qed.

(** ** The combinatorial Laplacian *)
Lemma tp_semi a b side : two_sided G side -> (forall v, (v < n)%nat -> dw W v = if side v then a else b) -> (exists u v, has_arc G u v) ->
  exists x, eigenpair n (lap_comb W) (a + b) x.
Proof.
  intros Hs Hd (u & v & H). exists (fun i => if side i then a else - b). split.
  - intros Hz. destruct (tp_arc_lt u v H) as (Hu & Hv & _). destruct (tp_deg_arc u v H) as (D & _). specialize (Hz u Hu). cbn beta in Hz. rewrite (Hd u Hu) in D.
    destruct (side u); lra.
  - intros i Hi. rewrite (tp_mulv _ i Hi).
    rewrite (rsum_ext n _ (fun j => wlap W i j * (if side i then a + b else - (a + b)))).
    2:{ intros j Hj. destruct (Req_dec (wlap W i j) 0) as [E|E]; [rewrite E; ring|]. f_equal.
        assert (Hne : side i <> side j) by (destruct (proj1 (tp_arc i j Hi Hj) E) as [H1|H1]; [|apply not_eq_sym]; apply Hs; exact H1).
        destruct (side i), (side j); try congruence; ring. }
    rewrite rsum_scal_r, (tp_dw i Hi), (Hd i Hi). destruct (side i); ring.
Qed.
End Energy.

(** ** The value is the smallest of the four *)
Lemma fold_min_ninf l : fold_left (fun m x => if xlt x m then x else m) l NInf = NInf.
Proof. induction l as [|b l IH]; [reflexivity|]. cbn [fold_left]. destruct b; exact IH. Qed.
Lemma fold_min_le l a r : fold_left (fun m x => if xlt x m then x else m) l (Fin a) = Fin r -> r <= a /\ forall s, In (Fin s) l -> r <= s.
Proof.
  revert a. induction l as [|b l IH]; intros a E; [injection E as <-; split; [lra|intros s []]|]. cbn [fold_left] in E. destruct b as [t| | |]; cbn [xlt] in E.
  - destruct (Rltb_spec t a) as [H|H]; destruct (IH _ E) as (H1 & H2); (split; [lra|]); intros s [Hs|Hs]; try (apply H2; exact Hs); injection Hs as <-; lra.
  - destruct (IH _ E) as (H1 & H2). split; [exact H1|]. intros s [Hs|Hs]; [discriminate|apply H2; exact Hs].
  - destruct (IH _ E) as (H1 & H2). split; [exact H1|]. intros s [Hs|Hs]; [discriminate|apply H2; exact Hs].
  - rewrite fold_min_ninf in E. discriminate.
Qed.
Lemma fold_min_in l a : In (fold_left (fun m x => if xlt x m then x else m) l a) (a :: l).
Proof.
  revert a. induction l as [|b l IH]; intros a; [left; reflexivity|]. cbn [fold_left]. destruct (xlt b a).
  - right. apply IH.
  - destruct (IH a) as [E|E]; [left; exact E|right; right; exact E].
Qed.

(** The bound is the smallest of the four of the literature: below each of them, and one of them.  The last one, by the mean
    degree of the neighbours, only counts when no vertex has degree 0. *)
Theorem C91_smallest_of_four : forall G r, built G -> nonneg_weights G -> (0 < g_n_vertices G)%nat -> g_lap_type G = Combinatorial ->
  upper_bound (gW G) (g_lap_type G) = Ok (Fin r) ->
  let n := g_n_vertices G in let d := dw (gW G) in
  let merris := fun i => d i + (\sum_(j < n) ((wt G i j + wt G j i) / 2 * d j)) / d i in
  ((forall M, (forall i j, (i < n)%nat -> (j < n)%nat -> wt G i j <= M) -> r <= INR n * M) /\
   (forall M, (forall i, (i < n)%nat -> d i <= M) -> r <= 2 * M) /\
   (forall M, (exists u v, has_arc G u v) -> (forall u v, has_arc G u v -> d u + d v <= M) -> r <= M) /\
   (forall M, (forall i, (i < n)%nat -> d i <> 0) -> (forall i, (i < n)%nat -> merris i <= M) -> r <= M)) /\
  ((exists u v, (u < n)%nat /\ (v < n)%nat /\ r = INR n * wt G u v) \/ (exists i, (i < n)%nat /\ r = 2 * d i) \/
   (exists u v, has_arc G u v /\ r = d u + d v) \/ (exists i, (i < n)%nat /\ r = merris i)).
Proof.
  intros G r Hb Hp Hn0 Ht E n d merris. pose proof (tp_n G Hb) as HnW. unfold n in *. rewrite HnW in *. rewrite Ht in E.
  pose proof (tp_good G Hb) as Hg. pose proof (tp_nonneg G Hb Hp) as HpW. unfold d in *. unfold wt in *. clear n d. set (W := gW G) in *. set (n := nrow W) in *.
  unfold upper_bound in E. destruct (max_weight_ok W Hg Hn0) as (mw & Emw & Hmw & (wi & wj & Hwi & Hwj & Ew)). rewrite Emw in E. cbn [bindr] in E.
  destruct (np_max_fin (map (dw W) (seq 0 n))) as (md & Emd & Imd & Hmd); [destruct n; [lia|discriminate]|]. rewrite <- map_Fin_map in Emd. unfold n in Emd. rewrite Emd in E. cbn [bindr] in E. fold n in Emd.
  destruct (edge_list_ok W Hg) as (l & Hl & _ & Hlen).
  assert (Hdw : forall i, (i < n)%nat -> dw W i <= md) by (intros i Hi; apply Hmd, in_map, in_seq; lia).
  assert (Hmer : forall i, (i < n)%nat -> dw W i <> 0 -> merris_term W i = Fin (merris i)).
  { intros i Hi D. rewrite (merris_fin W i D). unfold merris. rewrite HnW. fold n. do 3 f_equal. apply rsum_ext. intros j Hj. rewrite wlap_avg by assumption. reflexivity. }
  (* the third *)
  assert (H3 : exists b3, (if Nat.ltb 0 (count_edges W) then
               bindr (get_edge_list W) (fun l =>
               bindr (np_max (map (fun e => Fin (dw W (fst (fst e)) + dw W (snd (fst e)))) l)) (fun b =>
                 Ok [b])) else Ok []) = Ok b3 /\
    ((b3 = [] /\ ~ exists u v, has_arc G u v) \/ exists m, b3 = [Fin m] /\ exists u v, has_arc G u v /\ m = dw W u + dw W v)).
  { destruct (Nat.ltb_spec 0 (count_edges W)) as [He|He].
    - rewrite Hl. cbn [bindr]. destruct (np_max_fin (map (fun e : nat * nat * R => dw W (fst (fst e)) + dw W (snd (fst e))) l)) as (m & Em & Hm & _).
      { destruct l; [cbn in Hlen; lia|discriminate]. }
      rewrite map_map in Em. rewrite Em. exists [Fin m]. split; [reflexivity|]. right. exists m. split; [reflexivity|].
      apply in_map_iff in Hm. destruct Hm as ([[u v] w] & <- & Hin). exists u, v. split; [|reflexivity]. apply (edge_list_in W l u v w Hg Hl) in Hin.
      destruct Hin as (Hu & Hv & _ & Hne & _). unfold has_arc. rewrite HnW. auto.
    - exists []. split; [reflexivity|]. left. split; [reflexivity|]. intros (u & v & H). destruct (tp_arc_lt G Hb Hp u v H) as (Hu & Hv & Hw).
      assert (Q : l <> []).
      { assert (forall a b, (a < n)%nat -> (b < n)%nat -> get W a b <> 0 -> (is_directed W = false -> (a <= b)%nat) -> l <> []).
        { intros a b Ha Hb' N O El. assert (I : In (a, b, get W a b) l) by (apply (edge_list_in W l a b _ Hg Hl); auto). rewrite El in I. destruct I. }
        destruct H as (_ & _ & N). destruct (is_directed W) eqn:Ed; [apply (H0 u v); auto; discriminate|]. destruct (Nat.le_ge_cases u v) as [O|O]; [apply (H0 u v); auto|].
        apply (H0 v u); auto. rewrite (proj1 (is_directed_false W) Ed v u) by assumption. exact N. }
      destruct l; [congruence|cbn in Hlen; lia]. }
  destruct H3 as (b3 & E3 & Hb3). rewrite E3 in E. cbn [bindr] in E.
  (* the fourth *)
  assert (H4 : exists b4, np_max (map (merris_term W) (seq 0 n)) = Ok b4 /\
    ((b4 = NaN /\ exists i, (i < n)%nat /\ dw W i = 0) \/ exists i, (i < n)%nat /\ b4 = Fin (merris i))).
  { assert (Hc : (exists i, (i < n)%nat /\ dw W i = 0) \/ forall i, (i < n)%nat -> dw W i <> 0).
    { clear. induction n as [|k [(i & Hi & E)|IH]]; [right; intros; lia|left; exists i; split; [lia|exact E]|].
      destruct (Req_dec (dw W k) 0) as [E|E]; [left; exists k; split; [lia|exact E]|].
      right. intros i Hi. destruct (Nat.eq_dec i k) as [->|]; [exact E|apply IH; lia]. }
    destruct Hc as [(i & Hi & D)|Hnz].
    - exists NaN. split; [|left; eauto]. apply np_max_nan, in_map_iff. exists i. split; [apply merris_nan; assumption|apply in_seq; lia].
    - rewrite (map_ext_in _ (fun i => Fin (merris i))) by (intros i Hi; apply in_seq in Hi; apply Hmer; [lia|apply Hnz; lia]). rewrite map_Fin_map.
      destruct (np_max_fin (map merris (seq 0 n))) as (m & Em & Im & _); [destruct n; [lia|discriminate]|]. exists (Fin m). split; [exact Em|]. right.
      apply in_map_iff in Im. destruct Im as (i & <- & Hi). apply in_seq in Hi. exists i. split; [lia|reflexivity]. }
  destruct H4 as (b4 & E4 & Hb4). unfold n in E4. rewrite E4 in E. cbn [bindr] in E. fold n in E4.
  assert (E' : fold_left (fun m x => if xlt x m then x else m) ([Fin (2 * md)] ++ b3 ++ [b4]) (Fin (INR n * mw)) = Fin r) by (cbn [xscale app py_min] in E; injection E as E; exact E).
  destruct (fold_min_le _ _ _ E') as (L1 & L2).
  assert (Hpos : 0 <= INR n) by apply pos_INR. split; [split; [|split; [|split]]|].
  - intros M HM. apply Rle_trans with (INR n * mw); [exact L1|]. apply Rmult_le_compat_l; [exact Hpos|]. rewrite Ew. apply HM; assumption.
  - intros M HM. apply Rle_trans with (2 * md); [apply L2; left; reflexivity|]. apply in_map_iff in Imd. destruct Imd as (i & <- & Hi). apply in_seq in Hi. specialize (HM i ltac:(lia)). lra.
  - intros M Hex HM. destruct Hb3 as [(_ & Hno)|(m & -> & u & v & H & ->)]; [contradiction|].
    apply Rle_trans with (dw W u + dw W v); [apply L2; right; left; reflexivity|apply HM; exact H].
  - intros M Hnz HM. destruct Hb4 as [(_ & i & Hi & D)|(i & Hi & ->)]; [exfalso; apply (Hnz i Hi D)|].
    apply Rle_trans with (merris i); [|apply HM; exact Hi]. apply L2. apply in_or_app. right. apply in_or_app. right. left. reflexivity.
  - pose proof (fold_min_in ([Fin (2 * md)] ++ b3 ++ [b4]) (Fin (INR n * mw))) as I. rewrite E' in I. destruct I as [I|I]; [|apply in_app_or in I; destruct I as [[I|[]]|I]].
    + left. injection I as <-. exists wi, wj. rewrite Ew. auto.
    + right. left. injection I as <-. apply in_map_iff in Imd. destruct Imd as (i & <- & Hi). apply in_seq in Hi. exists i. split; [lia|reflexivity].
    + apply in_app_or in I. destruct I as [I|[I|[]]].
      * right. right. left. destruct Hb3 as [(-> & _)|(m & -> & u & v & H & ->)]; [destruct I|]. destruct I as [I|[]]. injection I as <-. exists u, v. auto.
      * right. right. right. destruct Hb4 as [(-> & _)|(i & Hi & ->)]; [discriminate|]. injection I as <-. exists i. auto.
Qed.

(** ** When it is the largest eigenvalue *)
(** A tight bound is what [G.lmax] is after compute_fourier_basis. *)
Theorem C91_tight_is_lmax : forall G r e U, built G -> nonneg_weights G -> (0 < g_n_vertices G)%nat ->
  tight G r -> eigh_ok (g_n_vertices G) (gL G) e U -> e (g_n_vertices G - 1)%nat = r.
Proof.
  intros G r e U Hb Hp Hn (Eu & x & Hx) He. set (n := g_n_vertices G) in *. destruct (C14_upper_bound_is_upper_bound G Hb Hp Hn) as (r' & Er & Hr). rewrite Eu in Er. injection Er as <-.
  apply Rle_antisym; [apply (Hr _ (fun i => U i (n - 1)%nat)); apply (eigh_eigenpair n (gL G) e U He); lia|].
  destruct (eigh_complete n (gL G) e U He r x Hx) as (k & Hk & <-). apply (eigh_sort _ _ _ _ He); lia.
Qed.

(** Normalized Laplacian: the bound 2 is attained exactly when a component with an edge is bipartite. *)
Theorem C91_normalized_iff : forall G, built G -> nonneg_weights G -> g_lap_type G = Normalized ->
  (tight G 2 <->
   exists (part side : nat -> bool), (exists u v, part u = true /\ has_arc G u v) /\
     (forall u v, has_arc G u v -> part u = part v) /\ (forall u v, has_arc G u v -> part u = true -> side u <> side v)).
Proof.
  intros G Hb Hp Ht. unfold tight. rewrite Ht. cbn [upper_bound]. rewrite <- (tp_norm_iff G Hb Hp Ht). split; [intros (_ & H); exact H|intros H; split; [reflexivity|exact H]].
Qed.

Lemma reach_same (G : graph) (f : nat -> bool) : (forall u v, has_arc G u v -> f u = f v) -> forall u v, reach (has_arc G) u v -> f u = f v.
Proof. intros H u v R. induction R as [|a b c R IH Hs]; [reflexivity|]. rewrite IH. apply H. exact Hs. Qed.
Lemma connected_arc G : connected G -> (2 <= g_n_vertices G)%nat -> exists v, has_arc G 0 v.
Proof.
  intros Hc Hn. assert (R : reach (has_arc G) 0 1) by (apply Hc; lia).
  assert (Q : forall a b, reach (has_arc G) a b -> a = b \/ exists v, has_arc G a v).
  { intros a b R'. induction R' as [|a b c R' IH Hs]; [left; reflexivity|]. destruct IH as [<-|IH]; right; eauto. }
  destruct (Q _ _ R) as [E|H]; [discriminate|exact H].
Qed.

Theorem C91_normalized_connected_iff : forall G, built G -> nonneg_weights G -> g_lap_type G = Normalized ->
  connected G -> (2 <= g_n_vertices G)%nat -> (tight G 2 <-> bipartite G).
Proof.
  intros G Hb Hp Ht Hc Hn. rewrite (C91_normalized_iff G Hb Hp Ht). split.
  - intros (part & side & (u & v & Pu & H0) & Hcl & Hs). exists side. intros a b H. apply Hs; [exact H|]. rewrite <- Pu. symmetry. apply (reach_same G part Hcl).
    apply Hc; [destruct H0; assumption|destruct H; assumption].
  - intros (side & Hs). destruct (connected_arc G Hc Hn) as (v & H). exists (fun _ => true), side. split; [eauto|]. split; [reflexivity|]. intros a b H' _. apply Hs. exact H'.
Qed.

(** A bipartite graph with an edge, connected or not. *)
Theorem C91_normalized_bipartite : forall G, built G -> nonneg_weights G -> g_lap_type G = Normalized ->
  bipartite G -> (exists u v, has_arc G u v) -> tight G 2.
Proof.
  intros G Hb Hp Ht (side & Hs) (u & v & H). apply (C91_normalized_iff G Hb Hp Ht). exists (fun _ => true), side. split; [exists u, v; auto|]. split; [reflexivity|]. intros a b H' _. apply Hs. exact H'.
Qed.

Section Comb.
Variable G : graph.
Hypothesis Hb : built G.
Hypothesis Hp : nonneg_weights G.
Hypothesis Ht : g_lap_type G = Combinatorial.
Hypothesis Hn : (0 < g_n_vertices G)%nat.
Lemma tight_of r : (exists x, eigenpair (g_n_vertices G) (gL G) r x) ->
  (forall b, upper_bound (gW G) (g_lap_type G) = Ok (Fin b) -> b <= r) -> tight G r.
Proof.
  intros (x & Hx) H. destruct (C14_upper_bound_is_upper_bound G Hb Hp Hn) as (b & Eb & Hbd). specialize (H b Eb). specialize (Hbd r x Hx).
  split; [|exists x; exact Hx]. rewrite Eb. do 2 f_equal. lra.
Qed.
End Comb.

(** Full graphs: equal weights w between different vertices (self-loops of at most w): the bound is n w. *)
Theorem C91_full_graph : forall G w, built G -> g_lap_type G = Combinatorial -> (2 <= g_n_vertices G)%nat -> 0 <= w ->
  (forall i j, (i < g_n_vertices G)%nat -> (j < g_n_vertices G)%nat -> i <> j -> wt G i j = w) ->
  (forall i, (i < g_n_vertices G)%nat -> 0 <= wt G i i <= w) ->
  tight G (INR (g_n_vertices G) * w).
Proof.
  intros G w Hb Ht Hn Hw Hoff Hdiag. set (n := g_n_vertices G) in *.
  assert (Hp : nonneg_weights G).
  { intros i j Hi Hj. destruct (Nat.eq_dec i j) as [->|E]; [apply Hdiag; exact Hj|]. rewrite Hoff by assumption. exact Hw. }
  apply tight_of; auto; [fold n; lia| |].
  - exists (fun i => if Nat.eqb i 0 then 1 else if Nat.eqb i 1 then -1 else 0). split.
    + intros Hz. specialize (Hz 0%nat ltac:(fold n; lia)). cbn in Hz. lra.
    + intros i Hi. fold n in Hi. fold n. rewrite (built_comb G Hb Ht). pose proof (tp_n G Hb) as En. fold n in En. rewrite En. rewrite (tp_mulv G Hb) by (rewrite <- En; exact Hi). rewrite <- En.
      set (x := fun i => if Nat.eqb i 0 then 1 else if Nat.eqb i 1 then -1 else 0). change (\sum_(j < n) (wlap (gW G) i j * (x i - x j)) = INR n * w * x i).
      rewrite (rsum_ext n _ (fun j => w * x i - w * x j)).
      2:{ intros j Hj. destruct (Nat.eq_dec i j) as [->|E]; [ring|]. rewrite wlap_avg by (rewrite <- En; assumption).
          change (get (gW G) i j) with (wt G i j). change (get (gW G) j i) with (wt G j i). rewrite !Hoff by auto. field. }
      rewrite rsum_minus, rsum_const, rsum_scal_l. assert (S : \sum_(j < n) x j = 0).
      { destruct n as [|[|m]]; [lia|lia|]. rewrite !rsum_S_first. rewrite rsum_0 by (intros k Hk; reflexivity). cbn. lra. }
      change (rsum n x) with (\sum_(j < n) x j). rewrite S. ring.
  - intros b Eb. destruct (C91_smallest_of_four G b Hb Hp ltac:(fold n; lia) Ht Eb) as ((H & _) & _). apply H. intros i j Hi Hj.
    destruct (Nat.eq_dec i j) as [->|E]; [apply Hdiag; exact Hj|]. rewrite Hoff by assumption. lra.
Qed.

(** Two-sided graphs all of whose vertices have weighted degree a on one side and b on the other (complete bipartite graphs, stars, even rings, ...): the bound is a + b. *)
Theorem C91_semiregular_bipartite : forall G a b side, built G -> nonneg_weights G -> g_lap_type G = Combinatorial ->
  two_sided G side -> (forall v, (v < g_n_vertices G)%nat -> dw (gW G) v = if side v then a else b) -> (exists u v, has_arc G u v) ->
  tight G (a + b).
Proof.
  intros G a b side Hb Hp Ht Hs Hd Hex. pose proof (tp_n G Hb) as En. pose proof Hex as (u & v & Huv). assert (Hn : (0 < g_n_vertices G)%nat) by (destruct Huv; lia).
  apply tight_of; auto.
  - rewrite (built_comb G Hb Ht), En. apply (tp_semi G Hb Hp a b side Hs); [|exact Hex]. intros w Hw. apply Hd. rewrite En. exact Hw.
  - intros r Er. destruct (C91_smallest_of_four G r Hb Hp Hn Ht Er) as ((_ & _ & H & _) & _). apply H; [exact Hex|]. intros p q Hpq. pose proof (Hs p q Hpq) as Hne.
    destruct Hpq as (Hpp & Hq & _). rewrite (Hd p Hpp), (Hd q Hq). destruct (side p), (side q); try congruence; lra.
Qed.

(** Regular bipartite graphs. *)
Theorem C91_regular_bipartite : forall G d, built G -> nonneg_weights G -> g_lap_type G = Combinatorial ->
  bipartite G -> (forall v, (v < g_n_vertices G)%nat -> dw (gW G) v = d) -> (exists u v, has_arc G u v) -> tight G (2 * d).
Proof.
  intros G d Hb Hp Ht (side & Hs) Hd Hex. replace (2 * d) with (d + d) by ring. apply (C91_semiregular_bipartite G d d side); auto. intros v Hv. rewrite (Hd v Hv). destruct (side v); reflexivity.
Qed.

(** On a connected graph, twice the largest weighted degree M is an eigenvalue only for these. *)
Theorem C91_degree_bound_iff : forall G M, built G -> nonneg_weights G -> g_lap_type G = Combinatorial -> connected G -> (2 <= g_n_vertices G)%nat ->
  (forall v, (v < g_n_vertices G)%nat -> dw (gW G) v <= M) ->
  ((exists x, eigenpair (g_n_vertices G) (gL G) (2 * M) x) <-> bipartite G /\ forall v, (v < g_n_vertices G)%nat -> dw (gW G) v = M).
Proof.
  intros G M Hb Hp Ht Hc Hn HM. pose proof (tp_n G Hb) as En. split.
  - intros (x & Hnz & He). set (n := g_n_vertices G) in *. rewrite (built_comb G Hb Ht) in He.
    pose proof (eigenpair_quad n (lap_comb (gW G)) (2 * M) x (conj Hnz He)) as Eq. pose proof (tp_le G Hb Hp x) as L1. rewrite <- En in L1.
    assert (L2 : \sum_(i < n) (dw (gW G) i * (x i * x i)) <= M * normsq n x).
    { unfold normsq, dot. rewrite <- rsum_scal_l. apply rsum_le; intros i Hi. apply Rmult_le_compat_r; [apply Rle_0_sqr|apply HM; exact Hi]. }
    pose proof (tp_anti G Hb Hp x) as A. rewrite <- En in A. specialize (A ltac:(lra)).
    assert (Arc : forall u v, has_arc G u v -> x v = - x u).
    { intros u v H. destruct (tp_arc_lt G Hb Hp u v H) as (Hu & Hv & Hw). rewrite <- En in Hu, Hv. apply A; assumption. }
    assert (Abs : forall u v, reach (has_arc G) u v -> x u <> 0 -> x v <> 0).
    { intros u v R Hu. induction R as [|a b c R IH Hs]; [exact Hu|]. rewrite (Arc b c Hs). specialize (IH Hu). lra. }
    assert (All : forall v, (v < n)%nat -> x v <> 0).
    { intros v Hv. destruct (vzero_dec n x) as [Hz|(u & Hu & Hx)]; [contradiction|]. apply (Abs u v); [apply Hc; assumption|exact Hx]. }
    split.
    + exists (fun v => Rltb 0 (x v)). intros u v H. pose proof (Arc u v H) as E. destruct H as (Hu & Hv & _). pose proof (All u Hu) as N. 
      destruct (Rltb_spec 0 (x u)); destruct (Rltb_spec 0 (x v)); try discriminate; exfalso; lra.
    + intros v Hv. assert (S : \sum_(i < n) ((M - dw (gW G) i) * (x i * x i)) = 0).
      { rewrite (rsum_ext n _ (fun i => M * (x i * x i) - dw (gW G) i * (x i * x i))) by (intros; ring). rewrite rsum_minus, rsum_scal_l. change (\sum_(i < n) (x i * x i)) with (normsq n x). lra. }
      assert (T : (M - dw (gW G) v) * (x v * x v) = 0).
      { apply (rsum_zero_all n (fun i => (M - dw (gW G) i) * (x i * x i))); [|exact S|exact Hv]. intros i Hi. apply Rmult_le_pos; [specialize (HM i Hi); lra|apply Rle_0_sqr]. }
      pose proof (All v Hv) as N. apply Rmult_integral in T. destruct T as [T|T]; [lra|]. exfalso. apply Rmult_integral in T. tauto.
  - intros ((side & Hs) & Hd). destruct (connected_arc G Hc Hn) as (v & H).
    destruct (C91_regular_bipartite G M Hb Hp Ht (ex_intro _ side Hs) Hd (ex_intro _ 0%nat (ex_intro _ v H))) as (_ & Hx). exact Hx.
Qed.

(** Without connectedness "equal iff the graph is bipartite" (graph.py:937) fails: a triangle and an edge. *)
Definition tri_edge : list R := [0; 1; 1; 0; 0;  1; 0; 1; 0; 0;  1; 1; 0; 0; 0;  0; 0; 0; 0; 1;  0; 0; 0; 1; 0].
Theorem C91_normalized_bipartite_only_refuted : exists G, built G /\ nonneg_weights G /\ g_lap_type G = Normalized /\ tight G 2 /\ ~ bipartite G.
Proof.
  destruct (finite_entry_built 5 tri_edge Normalized None eq_refl (or_intror eq_refl)) as (G & _ & Hb & Hn & Ht & _ & Hw). exists G.
  assert (Hp : nonneg_weights G).
  { intros i j Hi Hj. rewrite Hn in Hi, Hj. rewrite Hw by assumption. do 5 (destruct i as [|i]; [do 5 (destruct j as [|j]; [cbn; lra|]); lia|]). lia. }
  split; [exact Hb|]. split; [exact Hp|]. split; [exact Ht|].
  assert (A : forall u v, (u < 5)%nat -> (v < 5)%nat -> nth (u * 5 + v) tri_edge 0 = 1 -> has_arc G u v).
  { intros u v Hu Hv E. unfold has_arc. rewrite Hn, Hw by assumption. repeat split; auto. rewrite E. lra. } split.
  - apply (C91_normalized_iff G Hb Hp Ht). exists (fun v => Nat.leb 3 v), (fun v => Nat.eqb v 3). split; [exists 3%nat, 4%nat; split; [reflexivity|apply A; [lia|lia|reflexivity]]|].
    split; intros u v (Hu & Hv & Hne); rewrite Hn in Hu, Hv; rewrite Hw in Hne by assumption; revert Hne;
      do 5 (destruct u as [|u]; [do 5 (destruct v as [|v]; [cbn; intros Hne; try reflexivity; try (intros; discriminate); lra|]); lia|]); lia.
  - intros (side & Hs). pose proof (Hs 0%nat 1%nat ltac:(apply A; [lia|lia|reflexivity])). pose proof (Hs 0%nat 2%nat ltac:(apply A; [lia|lia|reflexivity])). pose proof (Hs 1%nat 2%nat ltac:(apply A; [lia|lia|reflexivity])).
    destruct (side 0%nat), (side 1%nat), (side 2%nat); congruence.
Qed.

(** The graphs of test_graphs.py:268-292. *)
Definition k22 : list R := [0; 0; 1; 1;  0; 0; 1; 1;  1; 1; 0; 0;  1; 1; 0; 0].
Definition p4 : list R := [0; 0; 1; 1;  0; 0; 1; 0;  1; 1; 0; 0;  1; 0; 0; 0].
Example C91_ex :
  (exists G, built G /\ g_lap_type G = Combinatorial /\ tight G 4 /\ g_n_vertices G = 4%nat) /\
  (exists G, built G /\ g_lap_type G = Normalized /\ tight G 2 /\ g_n_vertices G = 4%nat) /\
  (exists G, built G /\ g_lap_type G = Combinatorial /\ tight G (2 * 2) /\ g_n_vertices G = 2%nat).
Proof.
  split; [|split].
  - destruct (finite_entry_built 4 k22 Combinatorial None eq_refl (or_introl eq_refl)) as (G & _ & Hb & Hn & Ht & _ & Hw). exists G. split; [exact Hb|]. split; [exact Ht|]. split; [|exact Hn].
    assert (Hp : nonneg_weights G).
    { intros i j Hi Hj. rewrite Hn in Hi, Hj. rewrite Hw by assumption. do 4 (destruct i as [|i]; [do 4 (destruct j as [|j]; [cbn; lra|]); lia|]). lia. }
    assert (Hu : undirected G).
    { intros i j Hi Hj. rewrite Hn in Hi, Hj. rewrite !Hw by assumption. do 4 (destruct i as [|i]; [do 4 (destruct j as [|j]; [cbn; lra|]); lia|]). lia. }
    replace 4 with (2 * 2) by ring. apply (C91_regular_bipartite G 2 Hb Hp Ht).
    + exists (fun v => Nat.leb 2 v). intros u v (Hu' & Hv & Hne). rewrite Hn in Hu', Hv. rewrite Hw in Hne by assumption. revert Hne.
      do 4 (destruct u as [|u]; [do 4 (destruct v as [|v]; [cbn; intros Hne; try discriminate; lra|]); lia|]); lia.
    + intros v Hv. rewrite (proj2 (C08_weighted_degree G v Hb Hv) Hu). rewrite Hn in *. cbn [rsum]. do 4 (destruct v as [|v]; [rewrite !Hw by lia; cbn; lra|]). lia.
    + exists 0%nat, 2%nat. unfold has_arc. rewrite Hn, Hw by lia. cbn. repeat split; [lia|lia|lra].
  - destruct (finite_entry_built 4 p4 Normalized None eq_refl (or_intror eq_refl)) as (G & _ & Hb & Hn & Ht & _ & Hw). exists G. split; [exact Hb|]. split; [exact Ht|]. split; [|exact Hn].
    assert (Hp : nonneg_weights G).
    { intros i j Hi Hj. rewrite Hn in Hi, Hj. rewrite Hw by assumption. do 4 (destruct i as [|i]; [do 4 (destruct j as [|j]; [cbn; lra|]); lia|]). lia. }
    apply (C91_normalized_bipartite G Hb Hp Ht).
    + exists (fun v => Nat.leb 2 v). intros u v (Hu' & Hv & Hne). rewrite Hn in Hu', Hv. rewrite Hw in Hne by assumption. revert Hne.
      do 4 (destruct u as [|u]; [do 4 (destruct v as [|v]; [cbn; intros Hne; try discriminate; lra|]); lia|]); lia.
    + exists 0%nat, 2%nat. unfold has_arc. rewrite Hn, Hw by lia. cbn. repeat split; [lia|lia|lra].
  - destruct (finite_entry_built 2 [2; 2; 2; 2] Combinatorial None eq_refl (or_introl eq_refl)) as (G & _ & Hb & Hn & Ht & _ & Hw). exists G. split; [exact Hb|]. split; [exact Ht|]. split; [|exact Hn].
    replace (2 * 2) with (INR (g_n_vertices G) * 2) by (rewrite Hn; cbn; ring). apply C91_full_graph; auto; [lia|lra| |].
    + intros i j Hi Hj _. rewrite Hn in Hi, Hj. rewrite Hw by assumption. do 2 (destruct i as [|i]; [do 2 (destruct j as [|j]; [reflexivity|]); lia|]). lia.
    + intros i Hi. rewrite Hn in Hi. rewrite Hw by assumption. do 2 (destruct i as [|i]; [cbn; lra|]). lia.
Qed.
