(** Properties C01-C04 and C08: construction, edge counting, predicates, edge list, degrees. *)
From Coq Require Import Reals Lra Lia List Arith Bool String Sorted.
From Verif.Base Require Import RSum Prelude LinAlg.
From Verif.Spec Require Import Matrix GraphSpec Card.
From Verif.Model Require Import Sparse Graph.
From Verif.Proofs Require Import SparseFacts InitFacts EdgeFacts.
Import ListNotations.
Open Scope R_scope.

(** A concrete non-trivial graph used to show that hypotheses can be met:
    3 vertices, weights 2 between 0 and 1, 1 between 1 and 2, a self-loop of weight 5 at 2. *)
Definition ex_data : list R := [0; 2; 0;  2; 0; 1;  0; 1; 5].
(** A directed one: 0 -> 1 (weight 2), 1 -> 0 (weight 2), 1 -> 2 (weight 1). *)
Definition ex_data_dir : list R := [0; 2; 0;  2; 0; 1;  0; 0; 0].

Lemma ex_graph lap : valid_lap lap -> exists G, built G /\ g_n_vertices G = 3%nat /\ g_lap_type G = lap /\
  forall i j, (i < 3)%nat -> (j < 3)%nat -> wt G i j = nth (i * 3 + j) ex_data 0.
Proof.
  intros Hl. destruct (finite_entry_built 3 ex_data lap None eq_refl Hl)
    as (G & _ & Hb & Hn & Hlap & _ & Hw). eauto.
Qed.

Lemma ex_graph_dir lap : valid_lap lap -> exists G, built G /\ g_n_vertices G = 3%nat /\ g_lap_type G = lap /\
  forall i j, (i < 3)%nat -> (j < 3)%nat -> wt G i j = nth (i * 3 + j) ex_data_dir 0.
Proof.
  intros Hl. destruct (finite_entry_built 3 ex_data_dir lap None eq_refl Hl)
    as (G & _ & Hb & Hn & Hlap & _ & Hw). eauto.
Qed.

(** ** C01 *)

(** Acceptance: exactly the two-dimensional square arguments with finite entries, for a known
    Laplacian type. *)
Theorem C01_accepts_exactly_finite_square :
  forall inp lap coords, wf_input inp ->
    (exists G, graph_init inp lap coords = Ok G) <->
    (lap = Combinatorial \/ lap = Normalized) /\
    exists n, in_shape inp = [n; n] /\
      forall i j, (i < n)%nat -> (j < n)%nat -> exists r, input_entry inp i j = Fin r.
Proof. exact init_accepts. Qed.

(** Everything else is rejected with a ValueError. *)
Theorem C01_rejection_is_ValueError :
  forall inp lap coords e, graph_init inp lap coords = Raise e -> e = ValueError.
Proof.
  intros inp lap coords e. unfold graph_init.
  destruct (negb _); [congruence|]. destruct (xisnan _); [congruence|]. destruct (xisinf _); [congruence|].
  destruct lap; cbn; congruence.
Qed.

(** Preservation: the stored matrix is the argument's matrix, and stores no explicit zero. *)
Theorem C01_preserves_matrix :
  forall inp lap coords G, wf_input inp -> graph_init inp lap coords = Ok G ->
    in_shape inp = [g_n_vertices G; g_n_vertices G] /\
    (forall i j, (i < g_n_vertices G)%nat -> (j < g_n_vertices G)%nat ->
       input_entry inp i j = Fin (get (gW G) i j)) /\
    (forall i j v, In (i, j, v) (stored (gW G)) -> v <> 0) /\
    g_lap_type G = lap /\ g_coords G = coords /\ g_signals G = [].
Proof.
  intros inp lap coords G Hwf H.
  destruct (init_preserves inp lap coords G Hwf H) as (H1 & H2 & H3).
  destruct (init_inv inp lap coords G Hwf H) as (n & L & _ & _ & _ & E). subst G. cbn in *. auto 10.
Qed.

(** The hypotheses are met by a dense matrix, a CSR with a stored zero, a COO with duplicates. *)
Example C01_ex_dense : wf_input (InDense [2; 2]%nat [Fin 0; Fin 1; Fin 1; Fin 0]).
Proof. reflexivity. Qed.
Example C01_ex_csr : wf_input (InCSR (mkcsr 2 2 [[(1%nat, Fin 1); (0%nat, Fin 0)]; []])).
Proof.
  split; [reflexivity|]. intros [|[|i]] Hi cv Hin; cbn in *; try lia.
  destruct Hin as [<-|[<-|[]]]; cbn; lia.
Qed.
Example C01_ex_coo_nan : wf_input (InCOO 2 2 [(0, 1, Fin 1); (0, 1, NaN)]%nat) /\
  graph_init (InCOO 2 2 [(0, 1, Fin 1); (0, 1, NaN)]%nat) Combinatorial None = Raise ValueError.
Proof.
  split.
  - intros t [<-|[<-|[]]]; cbn; lia.
  - reflexivity.
Qed.
Example C01_ex_not_square : graph_init (InDense [2; 3]%nat (repeat (Fin 1) 6)) Combinatorial None = Raise ValueError.
Proof. reflexivity. Qed.

(** ** C02 *)

Theorem C02_n_edges_undirected :
  forall G, built G -> undirected G ->
    card (fun e : nat * nat => (fst e <= snd e)%nat /\ (snd e < g_n_vertices G)%nat /\
                               wt G (fst e) (snd e) <> 0)
         (g_n_edges G).
Proof.
  intros G Hb Hu. destruct (built_good G Hb) as (Hg & Hn & He & _).
  unfold undirected, wt in Hu. rewrite Hn in Hu. apply is_directed_false in Hu.
  exists (map fst (filter istriu (stored (gW G)))). split; [|split].
  - assert (Hl : get_edge_list (gW G) = Ok (filter istriu (stored (gW G)))).
    { destruct (edge_list_ok _ Hg) as (l & Hl & El & _). rewrite Hu in El. subst l. exact Hl. }
    exact (edge_list_nodup _ _ Hg Hl).
  - intros [i j]. rewrite in_map_iff. cbn [fst snd]. unfold wt. rewrite Hn. split.
    + intros ([[a b] v] & E & Hin). cbn in E. injection E as -> ->. apply filter_In in Hin.
      destruct Hin as (Hin & Hle). apply (good_entry _ _ _ _ Hg) in Hin. apply Nat.leb_le in Hle. cbn in Hle. tauto.
    + intros (Hle & Hj & Hnz). exists (i, j, get (gW G) i j). split; [reflexivity|]. apply filter_In.
      split; [|apply Nat.leb_le; exact Hle]. apply (good_entry _ _ _ _ Hg). repeat split; auto. lia.
  - rewrite map_length, He. symmetry. apply count_edges_undirected; assumption.
Qed.

Theorem C02_n_edges_directed :
  forall G, built G -> ~ undirected G ->
    card (fun e : nat * nat => (fst e < g_n_vertices G)%nat /\ (snd e < g_n_vertices G)%nat /\
                               wt G (fst e) (snd e) <> 0)
         (g_n_edges G).
Proof.
  intros G Hb Hu. destruct (built_good G Hb) as (Hg & Hn & He & _).
  assert (Hd : is_directed (gW G) = true).
  { destruct (is_directed (gW G)) eqn:E; [reflexivity|]. exfalso; apply Hu.
    unfold undirected, wt. rewrite Hn. apply is_directed_false; exact E. }
  exists (map fst (stored (gW G))). split; [|split].
  - apply good_stored_nodup_fst; exact Hg.
  - intros [i j]. rewrite in_map_iff. cbn [fst snd]. unfold wt. rewrite Hn. split.
    + intros ([[a b] v] & E & Hin). cbn in E. injection E as -> ->.
      apply (good_entry _ _ _ _ Hg) in Hin. tauto.
    + intros (Hi & Hj & Hnz). exists (i, j, get (gW G) i j). split; [reflexivity|].
      apply (good_entry _ _ _ _ Hg). auto.
  - rewrite map_length, He. unfold count_edges. rewrite Hd. reflexivity.
Qed.

Example C02_ex_undirected : exists G, built G /\ undirected G /\ g_n_edges G = 3%nat.
Proof.
  destruct (ex_graph Combinatorial (or_introl eq_refl)) as (G & Hb & Hn & _ & Hw). exists G.
  assert (Hu : undirected G).
  { intros i j Hi Hj. rewrite Hn in Hi, Hj. rewrite !Hw by assumption.
    destruct i as [|[|[|i]]]; try lia; destruct j as [|[|[|j]]]; try lia; reflexivity. }
  split; [exact Hb|]. split; [exact Hu|].
  eapply card_unique; [exact (C02_n_edges_undirected G Hb Hu)|].
  exists [(0, 1); (1, 2); (2, 2)]%nat. split; [|split; [|reflexivity]].
  - repeat constructor; cbn; intuition discriminate.
  - intros [i j]. rewrite Hn. cbn [fst snd]. split.
    + intros [E|[E|[E|[]]]]; injection E as <- <-; (split; [lia|]); (split; [lia|]); rewrite Hw by lia; cbn; lra.
    + intros (Hle & Hj & Hnz). rewrite Hw in Hnz by lia.
      destruct i as [|[|[|i]]]; try lia; destruct j as [|[|[|j]]]; try lia; cbn in *; try lra; auto.
Qed.

Example C02_ex_directed : exists G, built G /\ ~ undirected G.
Proof.
  destruct (ex_graph_dir Combinatorial (or_introl eq_refl)) as (G & Hb & Hn & _ & Hw). exists G.
  split; [exact Hb|]. intros Hu. specialize (Hu 1%nat 2%nat). rewrite Hn, !Hw in Hu by lia.
  cbn in Hu. specialize (Hu ltac:(lia) ltac:(lia)). lra.
Qed.

(** ** C03 *)

Theorem C03_is_directed_iff_not_symmetric :
  forall G, built G -> (is_directed (gW G) = true <-> ~ undirected G).
Proof.
  intros G Hb. destruct (built_good G Hb) as (Hg & Hn & _ & _). unfold undirected, wt. rewrite Hn.
  rewrite <- is_directed_false. destruct (is_directed (gW G)); split; congruence.
Qed.

Theorem C03_has_loops_iff_nonzero_diagonal :
  forall G, built G -> (has_loops (gW G) = true <-> exists i, (i < g_n_vertices G)%nat /\ wt G i i <> 0).
Proof. intros G Hb. destruct (built_good G Hb) as (Hg & Hn & _ & _). rewrite Hn. apply has_loops_true. Qed.

Theorem C03_unweighted_iff_all_nonzero_are_one :
  forall G, built G -> (is_weighted (gW G) = false <->
    forall i j, (i < g_n_vertices G)%nat -> (j < g_n_vertices G)%nat -> wt G i j <> 0 -> wt G i j = 1).
Proof.
  intros G Hb. destruct (built_good G Hb) as (Hg & Hn & _ & _). rewrite Hn. apply is_weighted_false; exact Hg.
Qed.

Example C03_ex : exists G, built G /\ has_loops (gW G) = true /\ is_directed (gW G) = false /\ is_weighted (gW G) = true.
Proof.
  destruct (ex_graph Combinatorial (or_introl eq_refl)) as (G & Hb & Hn & _ & Hw). exists G.
  split; [exact Hb|]. split; [|split].
  - apply C03_has_loops_iff_nonzero_diagonal; [exact Hb|]. exists 2%nat. split; [lia|]. rewrite Hw by lia. cbn; lra.
  - destruct (is_directed (gW G)) eqn:E; [|reflexivity].
    apply C03_is_directed_iff_not_symmetric in E; [|exact Hb]. exfalso; apply E.
    intros i j Hi Hj. rewrite Hn in Hi, Hj. rewrite !Hw by assumption.
    destruct i as [|[|[|i]]]; try lia; destruct j as [|[|[|j]]]; try lia; reflexivity.
  - destruct (is_weighted (gW G)) eqn:E; [reflexivity|].
    assert (H := proj1 (C03_unweighted_iff_all_nonzero_are_one G Hb) E 0%nat 1%nat).
    rewrite Hn, Hw in H by lia. cbn in H. specialize (H ltac:(lia) ltac:(lia) ltac:(lra)). lra.
Qed.

(** ** C04 *)

Theorem C04_edge_list_enumerates_every_edge_once :
  forall G, built G -> exists l, get_edge_list (gW G) = Ok l /\
    List.length l = g_n_edges G /\
    NoDup (map fst l) /\
    (forall i j w, In (i, j, w) l <->
       (i < g_n_vertices G)%nat /\ (j < g_n_vertices G)%nat /\ w = wt G i j /\ w <> 0 /\
       (undirected G -> (i <= j)%nat)).
Proof.
  intros G Hb. destruct (built_good G Hb) as (Hg & Hn & He & _).
  destruct (edge_list_ok _ Hg) as (l & Hl & _ & Hlen). exists l. split; [exact Hl|].
  split; [rewrite He; exact Hlen|]. split; [exact (edge_list_nodup _ _ Hg Hl)|].
  intros i j w. rewrite (edge_list_in _ _ i j w Hg Hl). unfold undirected, wt. rewrite Hn, <- is_directed_false.
  split; intros (H1 & H2 & -> & H4); intuition.
Qed.

(** The adjacency matrix can be rebuilt from the list: the weight of (i,j) is the sum of the listed
    weights for (i,j) (directed) or for the unordered pair (undirected). *)
Theorem C04_edge_list_rebuilds_weights :
  forall G l i j, built G -> get_edge_list (gW G) = Ok l ->
    (i < g_n_vertices G)%nat -> (j < g_n_vertices G)%nat ->
    (~ undirected G ->
       lsum (map snd (filter (fun t => (Nat.eqb (fst (fst t)) i && Nat.eqb (snd (fst t)) j)%bool) l)) = wt G i j) /\
    (undirected G ->
       lsum (map snd (filter (fun t => (Nat.eqb (fst (fst t)) (Nat.min i j) &&
                                        Nat.eqb (snd (fst t)) (Nat.max i j))%bool) l)) = wt G i j).
Proof.
  intros G l i j Hb Hl Hi Hj. destruct (built_good G Hb) as (Hg & Hn & He & _).
  assert (Hgen : forall a b, (a < nrow (gW G))%nat -> (b < nrow (gW G))%nat ->
    (is_directed (gW G) = false -> (a <= b)%nat) ->
    lsum (map snd (filter (fun t => (Nat.eqb (fst (fst t)) a && Nat.eqb (snd (fst t)) b)%bool) l)) = get (gW G) a b).
  { intros a b Ha Hbb Hle.
    set (f := fun i j => if (Nat.eqb i a && Nat.eqb j b)%bool then 1 else 0).
    rewrite lsum_filter.
    rewrite (lsum_map_ext _ _ (fun t => f (fst (fst t)) (snd (fst t)) * snd t)).
    2:{ intros t _. unfold f. destruct (_ && _)%bool; lra. }
    assert (Hsum : forall h : nat -> nat -> R, (forall i j, (i, j) <> (a, b) -> h i j = 0) ->
              \sum_(i < nrow (gW G)) \sum_(j < nrow (gW G)) h i j = h a b).
    { intros h Hh. rewrite (rsum_single _ _ a Ha).
      - apply (rsum_single _ _ b Hbb). intros k _ Hk. apply Hh. congruence.
      - intros k _ Hk. apply rsum_0. intros k' _. apply Hh. congruence. }
    destruct (is_directed (gW G)) eqn:Hd.
    - rewrite (edge_list_sum_directed _ _ f Hg Hd Hl), Hsum.
      + unfold f. rewrite !Nat.eqb_refl. cbn. lra.
      + intros x y Hxy. unfold f. destruct (Nat.eqb_spec x a), (Nat.eqb_spec y b); cbn; try lra. congruence.
    - rewrite (edge_list_sum_undirected _ _ f Hg Hd Hl), Hsum.
      + unfold f. rewrite !Nat.eqb_refl. cbn. rewrite (proj2 (Nat.leb_le a b)) by auto. lra.
      + intros x y Hxy. unfold f. destruct (Nat.eqb_spec x a), (Nat.eqb_spec y b); cbn;
          destruct (Nat.leb x y); try lra; congruence. }
  rewrite Hn in Hi, Hj. unfold undirected, wt. rewrite Hn, <- is_directed_false. split.
  - intros Hd. apply Hgen; auto. intros E; contradiction.
  - intros Hu. rewrite Hgen; [|lia|lia|intros; lia].
    destruct (Nat.le_ge_cases i j).
    + rewrite Nat.min_l, Nat.max_r by lia. reflexivity.
    + rewrite Nat.min_r, Nat.max_l by lia. apply (proj1 (is_directed_false _) Hu); assumption.
Qed.

(** The list is sorted by source, then by target: whatever the order and the duplicates of the
    storage of the argument, the result is a function of the matrix. *)
Definition edge_lt (a b : nat * nat * R) : Prop :=
  (fst (fst a) < fst (fst b))%nat \/ (fst (fst a) = fst (fst b) /\ (snd (fst a) < snd (fst b))%nat).

Theorem C04_sorted : forall G l, built G -> get_edge_list (gW G) = Ok l -> StronglySorted edge_lt l.
Proof.
  intros G l HG. pose proof (built_sorted G HG) as Hs. unfold get_edge_list.
  set (W := gW G) in *. clearbody W. intros H.
  assert (E : l = if is_directed W then stored W
           else filter (fun t => Nat.leb (fst (fst t)) (snd (fst t))) (stored W)).
  { destruct (Nat.eqb _ _); [injection H as <-; reflexivity|discriminate]. }
  assert (Hst : StronglySorted edge_lt (stored W)).
  { unfold stored. assert (Hgen : forall k n, (forall i, (k <= i < k + n)%nat -> StronglySorted lt (map fst (row W i))) ->
      StronglySorted edge_lt (flat_map (fun i => map (fun cv => (i, fst cv, snd cv)) (row W i)) (seq k n))).
    { intros k n. revert k. induction n as [|n IH]; intros k Hk; [constructor|]. cbn [seq flat_map].
      apply StronglySorted_app_iff. split; [|split].
      - specialize (Hk k ltac:(lia)). induction (row W k) as [|[c v] r IHr]; [constructor|].
        cbn [map fst] in Hk. inversion Hk as [|? ? Hs1 Hs2]; subst. cbn [map fst snd]. constructor; [apply IHr, Hs1|].
        apply Forall_forall. intros x Hx. apply in_map_iff in Hx. destruct Hx as ([c' v'] & <- & Hin).
        right. cbn. split; [reflexivity|]. rewrite Forall_forall in Hs2. apply Hs2. apply (in_map fst _ _ Hin).
      - apply IH. intros i Hi. apply Hk. lia.
      - intros x y Hx Hy. apply in_map_iff in Hx. destruct Hx as (cv & <- & _).
        apply in_flat_map in Hy. destruct Hy as (i & Hi & Hy). apply in_seq in Hi.
        apply in_map_iff in Hy. destruct Hy as (cv' & <- & _). left. cbn. lia. }
    apply Hgen. intros i Hi. apply Hs. lia. }
  subst l. destruct (is_directed W); [exact Hst|]. apply StronglySorted_filter, Hst.
Qed.

(** Duplicates and unsorted indices in a CSR argument are harmless: 1 + 1 stored twice at (0,0) is
    one loop of weight 2. *)
Example C04_duplicates_ex :
  exists inp G, wf_input inp /\ graph_init inp Combinatorial None = Ok G /\ built G /\
    inp = InCSR (mkcsr 1 1 [[(0%nat, Fin 1); (0%nat, Fin 1)]]) /\
    get_edge_list (gW G) = Ok [(0%nat, 0%nat, 2)].
Proof.
  pose (inp := InCSR (mkcsr 1 1 [[(0%nat, Fin 1); (0%nat, Fin 1)]])).
  assert (Hwf : wf_input inp).
  { split; [reflexivity|]. intros [|i] Hi cv Hin; cbn in Hi; [|lia].
    destruct Hin as [<-|[<-|[]]]; cbn; lia. }
  destruct (proj2 (init_accepts inp Combinatorial None Hwf)) as (G & HG).
  { split; [left; reflexivity|]. exists 1%nat. split; [reflexivity|].
    intros i j Hi Hj. assert (i = 0%nat) by lia. assert (j = 0%nat) by lia. subst. cbn. eexists; reflexivity. }
  exists inp, G. split; [exact Hwf|]. split; [exact HG|]. split; [eapply built_init; eauto|]. split; [reflexivity|].
  destruct (init_inv inp _ _ G Hwf HG) as (n & L & _ & _ & _ & ->). cbn [gW].
  assert (E2 : 1 + (1 + 0) = 2) by lra.
  assert (E1 : Reqb 2 0 = false) by (apply Reqb_false; lra).
  assert (ER : row (finalW (to_csr inp)) 0 = [(0%nat, 2)]).
  { unfold finalW. rewrite row_finalW0. cbn. rewrite E2, E1. reflexivity. }
  assert (ES : stored (finalW (to_csr inp)) = [(0%nat, 0%nat, 2)]).
  { unfold stored. change (nrow (finalW (to_csr inp))) with 1%nat. cbn [seq flat_map]. rewrite ER. reflexivity. }
  assert (Eg : get (finalW (to_csr inp)) 0 0 = 2).
  { unfold get. rewrite ER. cbn. lra. }
  unfold get_edge_list, count_edges.
  assert (Hd : is_directed (finalW (to_csr inp)) = false).
  { apply is_directed_false. intros i j Hi Hj. cbn in Hi, Hj.
    assert (i = 0%nat) by lia. assert (j = 0%nat) by lia. subst. reflexivity. }
  change (diag_count (finalW (to_csr inp))) with
    (0 + if negb (Reqb (get (finalW (to_csr inp)) 0 0) 0) then 1 else 0)%nat.
  rewrite Hd. unfold nnz. rewrite ES, Eg, E1. reflexivity.
Qed.

(** ** C08 *)

Theorem C08_weighted_degree :
  forall G i, built G -> (i < g_n_vertices G)%nat ->
    dw (gW G) i = (\sum_(j < g_n_vertices G) wt G j i + \sum_(j < g_n_vertices G) wt G i j) / 2 /\
    (undirected G -> dw (gW G) i = \sum_(j < g_n_vertices G) wt G i j).
Proof.
  intros G i Hb Hi. destruct (built_good G Hb) as (Hg & Hn & _ & _). unfold undirected, wt.
  rewrite Hn in *. rewrite (dw_avg _ _ Hg Hi). split; [reflexivity|]. intros Hu.
  rewrite (rsum_ext _ (fun j => get (gW G) j i) (fun j => get (gW G) i j)) by (intros; apply Hu; assumption).
  lra.
Qed.

Theorem C08_degree_counts_neighbours :
  forall G i kin kout, built G -> (i < g_n_vertices G)%nat ->
    card (fun j => (j < g_n_vertices G)%nat /\ wt G j i <> 0) kin ->
    card (fun j => (j < g_n_vertices G)%nat /\ wt G i j <> 0) kout ->
    deg (gW G) i = (INR kin + INR kout) / 2 /\ (undirected G -> deg (gW G) i = INR kout).
Proof.
  intros G i kin kout Hb Hi Hin Hout. destruct (built_good G Hb) as (Hg & Hn & _ & _). unfold undirected, wt in *.
  rewrite Hn in *.
  assert (E1 : kin = ncount (nrow (gW G)) (fun j => nzb (gW G) j i)).
  { eapply card_unique; [exact Hin|]. apply ncount_card. intros j _. apply nzb_true. }
  assert (E2 : kout = ncount (nrow (gW G)) (nzb (gW G) i)).
  { eapply card_unique; [exact Hout|]. apply (ncount_card _ (fun j => get (gW G) i j <> 0)). intros j _. apply nzb_true. }
  rewrite (deg_avg _ _ Hg Hi), <- E1, <- E2. split; [reflexivity|]. intros Hu.
  assert (Ek : kin = kout); [|rewrite Ek; lra]. rewrite E1, E2. apply ncount_ext. intros j Hj.
  unfold nzb. rewrite Hu by assumption. reflexivity.
Qed.

Theorem C08_handshake :
  forall G loops, built G ->
    card (fun i => (i < g_n_vertices G)%nat /\ wt G i i <> 0) loops ->
    (undirected G -> \sum_(i < g_n_vertices G) deg (gW G) i = 2 * INR (g_n_edges G) - INR loops) /\
    (~ undirected G -> \sum_(i < g_n_vertices G) deg (gW G) i = INR (g_n_edges G)).
Proof.
  intros G loops Hb Hl. destruct (built_good G Hb) as (Hg & Hn & He & _). unfold undirected, wt in *.
  rewrite Hn in *. rewrite (sum_deg _ Hg), He.
  assert (E : loops = diag_count (gW G)).
  { eapply card_unique; [exact Hl|]. unfold diag_count. apply ncount_card. intros i _.
    rewrite negb_true_iff. apply Reqb_false. }
  rewrite <- is_directed_false. split; intros Hd.
  - pose proof (nnz_undirected _ Hg Hd) as H. apply (f_equal INR) in H.
    rewrite plus_INR, mult_INR in H. subst loops. cbn [INR] in H. lra.
  - unfold count_edges. destruct (is_directed (gW G)); [reflexivity|congruence].
Qed.

Theorem C08_total_weight :
  forall G, built G ->
    \sum_(i < g_n_vertices G) dw (gW G) i =
    \sum_(i < g_n_vertices G) \sum_(j < g_n_vertices G) wt G i j.
Proof.
  intros G Hb. destruct (built_good G Hb) as (Hg & Hn & _ & _). unfold wt. rewrite Hn.
  erewrite rsum_ext; [|intros i Hi; apply (dw_avg _ i Hg Hi)]. rewrite rsum_div_r, rsum_plus.
  rewrite (rsum_swap _ _ (fun i j => get (gW G) j i)). lra.
Qed.

Example C08_ex : exists G, built G /\ undirected G /\ dw (gW G) 2 = 6 /\ deg (gW G) 2 = 2 /\
  card (fun j => (j < g_n_vertices G)%nat /\ wt G 2 j <> 0) 2.
Proof.
  destruct (ex_graph Combinatorial (or_introl eq_refl)) as (G & Hb & Hn & _ & Hw). exists G.
  assert (Hu : undirected G).
  { intros i j Hi Hj. rewrite Hn in Hi, Hj. rewrite !Hw by assumption.
    destruct i as [|[|[|i]]]; try lia; destruct j as [|[|[|j]]]; try lia; reflexivity. }
  assert (Hcard : card (fun j => (j < g_n_vertices G)%nat /\ wt G 2 j <> 0) 2).
  { exists [1; 2]%nat. split; [repeat constructor; cbn; intuition discriminate|]. split; [|reflexivity].
    intros j. rewrite Hn. split.
    - intros [<-|[<-|[]]]; (split; [lia|]); rewrite Hw by lia; cbn; lra.
    - intros (Hj & Hnz). rewrite Hw in Hnz by lia. destruct j as [|[|[|j]]]; cbn in *; try lra; try lia; auto. }
  assert (Hcard' : card (fun j => (j < g_n_vertices G)%nat /\ wt G j 2 <> 0) 2).
  { eapply card_iff; [|exact Hcard]. intros j. split; intros (Hj & H); (split; [exact Hj|]);
      rewrite Hn in Hj; intros E; apply H; rewrite <- E; [symmetry|]; rewrite ?Hn; apply Hu; rewrite ?Hn; lia. }
  split; [exact Hb|]. split; [exact Hu|]. split; [|split; [|exact Hcard]].
  - rewrite (proj2 (C08_weighted_degree G 2 Hb ltac:(lia)) Hu). rewrite Hn. cbn [rsum].
    rewrite !Hw by lia. cbn. lra.
  - rewrite (proj2 (C08_degree_counts_neighbours G 2 2 2 Hb ltac:(lia) Hcard' Hcard) Hu). cbn. lra.
Qed.

Print Assumptions C01_accepts_exactly_finite_square.
Print Assumptions C04_edge_list_rebuilds_weights.
Print Assumptions C08_handshake.
