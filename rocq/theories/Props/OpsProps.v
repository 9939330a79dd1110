(** C107: compositions and round trips of the graph operations (subgraph, extract_components, the constructor). *)
From Coq Require Import Reals Lra Lia List Arith Bool String ZArith Classical Permutation Sorted.
From Verif.Base Require Import RSum Prelude LinAlg Solve.
From Verif.Spec Require Import Matrix NdArray GraphSpec Card FilterSpec CacheSpec Reach HopSpec LapSpec CutSpec.
From Verif.Model Require Import Sparse Graph Traverse Bounds Cache Filter Generators Reduction.
From Verif.Proofs Require Import SparseFacts InitFacts EdgeFacts LapFacts TraverseFacts SubgraphFacts SchurFacts SpectrumFacts GenFacts.
From Verif.Props Require Import Core Laplacian Traversal Caching UtilsProps ReductionProps LocalityProps PartProps.
Import ListNotations.
Open Scope R_scope.
Open Scope list_scope.

(** ** A graph is determined by what can be read off it *)

Lemma sorted_pairs_ext (l l' : list (nat * R)) : StronglySorted lt (map fst l) -> StronglySorted lt (map fst l') -> (forall x, In x l <-> In x l') -> l = l'.
Proof.
  revert l'. induction l as [|x l IH]; intros [|y l'] H1 H2 H.
  - reflexivity.
  - exfalso. apply (H y). left; reflexivity.
  - exfalso. apply (H x). left; reflexivity.
  - cbn [map] in H1, H2. inversion H1 as [|? ? S1 F1]; subst. inversion H2 as [|? ? S2 F2]; subst. rewrite Forall_forall in F1, F2.
    assert (E : x = y).
    { destruct (proj1 (H x) (or_introl eq_refl)) as [E|E]; [auto|]. destruct (proj2 (H y) (or_introl eq_refl)) as [E'|E']; [auto|].
      pose proof (F2 (fst x) (in_map fst _ _ E)). pose proof (F1 (fst y) (in_map fst _ _ E')). lia. }
    subst y. f_equal. apply IH; [assumption|assumption|]. intros z. specialize (H z). cbn [In] in H. split; intros Hz.
    + destruct (proj1 H (or_intror Hz)) as [<-|]; [|assumption]. pose proof (F1 (fst x) (in_map fst _ _ Hz)). lia.
    + destruct (proj2 H (or_intror Hz)) as [<-|]; [|assumption]. pose proof (F2 (fst x) (in_map fst _ _ Hz)). lia.
Qed.
Lemma stored_row {V} (A : csr V) i c v : (i < nrow A)%nat -> In (c, v) (row A i) <-> In (i, c, v) (stored A).
Proof.
  intros Hi. unfold stored. rewrite in_flat_map. split.
  - intros H. exists i. split; [apply in_seq; lia|]. apply in_map_iff. exists (c, v). split; [reflexivity|exact H].
  - intros (k & Hk & H). apply in_map_iff in H. destruct H as ([c' v'] & E & H). cbn in E. injection E as -> -> ->. exact H.
Qed.
Lemma matrix_determined G G' : built G -> built G' -> g_n_vertices G = g_n_vertices G' ->
  (forall i j, (i < g_n_vertices G)%nat -> (j < g_n_vertices G)%nat -> wt G i j = wt G' i j) -> gW G = gW G'.
Proof.
  intros Hb Hb' Hn Hw. destruct (built_good G Hb) as (Hg & En & _ & _). destruct (built_good G' Hb') as (Hg' & En' & _ & _).
  assert (Er : rows (gW G) = rows (gW G')).
  { destruct (good_wf _ Hg) as (L & _). destruct (good_wf _ Hg') as (L' & _). apply (nth_ext _ _ [] []); [congruence|]. intros i Hi.
    change (row (gW G) i = row (gW G') i). assert (H1 : (i < nrow (gW G))%nat) by congruence. assert (H2 : (i < nrow (gW G'))%nat) by congruence.
    apply sorted_pairs_ext; [apply built_sorted; assumption|apply built_sorted; assumption|]. intros [c v].
    rewrite !stored_row by assumption. rewrite (good_entry _ i c v Hg), (good_entry _ i c v Hg'). rewrite <- En, <- En', <- Hn.
    unfold wt in Hw. split; intros (A & B & C & D); repeat split; try assumption; rewrite ?Hw in * by assumption; rewrite <- ?Hw in * by assumption; assumption. }
  pose proof (good_sq _ Hg) as Sq. pose proof (good_sq _ Hg') as Sq'. destruct (gW G) as [r c l], (gW G') as [r' c' l']. cbn in *. congruence.
Qed.
(** Two graphs with the same size, weights, Laplacian type, coordinates and signals are the same object: same edges, same Laplacian. *)
Theorem C107_weights_determine_the_graph : forall G G', built G -> built G' -> g_n_vertices G = g_n_vertices G' ->
  (forall i j, (i < g_n_vertices G)%nat -> (j < g_n_vertices G)%nat -> wt G i j = wt G' i j) -> g_lap_type G = g_lap_type G' ->
  g_coords G = g_coords G' -> g_signals G = g_signals G' -> G = G'.
Proof.
  intros G G' Hb Hb' Hn Hw Ht Hc Hs. pose proof (matrix_determined G G' Hb Hb' Hn Hw) as EW.
  destruct (built_good G Hb) as (_ & _ & Ee & El). destruct (built_good G' Hb') as (_ & _ & Ee' & El'). rewrite EW, Ht in El. rewrite EW in Ee.
  destruct G, G'. cbn in *. assert (gL = gL0) by congruence. subst. reflexivity.
Qed.

(** Building a graph again from the matrix of a graph gives that graph back (without its signals). *)
Theorem C107_rebuild : forall G, built G ->
  graph_init (InCSR (cmap Fin (gW G))) (g_lap_type G) (g_coords G) =
  Ok (mkgraph (gW G) (g_n_vertices G) (g_n_edges G) (g_lap_type G) (gL G) (g_coords G) []).
Proof.
  intros G Hb. destruct (built_good G Hb) as (Hg & En & Ee & El).
  destruct (init_csr (gW G) (g_lap_type G) (g_coords G) (good_wf _ Hg) (good_can _ Hg) (eq_sym (good_sq _ Hg)) (built_valid_lap G Hb)) as (G' & E & Hb' & Hn' & Ht' & Hc' & Hs' & Hw').
  rewrite E. f_equal. assert (EW : gW G' = gW G).
  { apply matrix_determined; [exact Hb'|exact Hb|congruence|]. intros i j Hi Hj. unfold wt at 2. apply Hw'; congruence. }
  destruct (built_good G' Hb') as (_ & _ & Ee' & El'). rewrite EW, Ht' in El'. rewrite EW in Ee'. destruct G'. cbn in *.
  assert (gL = Graph.gL G) by congruence. subst. f_equal; congruence.
Qed.

(** ** Subgraphs *)

Lemma copy_signals_list n sel v : resolve n sel = Ok v -> forall l G G', (forall name s, In (name, s) l -> List.length s = n) ->
  NoDup (map fst l) -> (forall k, In k (map fst l) -> ~ In k (map fst (g_signals G))) -> copy_signals l sel G = Ok G' ->
  g_signals G' = g_signals G ++ map (fun ks => (fst ks, rows_select [] (snd ks) v)) l.
Proof.
  intros Hr. induction l as [|[k s] l IH]; intros G G' Hl Hnd Hfr H.
  - cbn in H. injection H as <-. rewrite app_nil_r. reflexivity.
  - cbn [copy_signals] in H. pose proof (Hl k s (or_introl eq_refl)) as EL. unfold Traverse.take_rows in H.
    replace (resolve (List.length s) sel) with (Ok v) in H by (symmetry; rewrite <- Hr; f_equal; exact EL). cbn [bindr] in H.
    unfold set_signal, check_signal in H. destruct (Nat.eqb _ _); [|discriminate]. cbn [bindr] in H. cbn [map] in Hnd. inversion Hnd as [|? ? N1 N2]; subst.
    assert (ES : forall d x, ~ In k (map fst d) -> dict_set k x d = d ++ [(k, x : rowarray)]).
    { clear. induction d as [|[k' x'] d IH]; intros x Hk; [reflexivity|]. cbn. destruct (String.eqb_spec k' k) as [->|]; [exfalso; apply Hk; left; reflexivity|].
      rewrite IH; [reflexivity|]. intros Hi. apply Hk. right. exact Hi. }
    specialize (IH (with_signals G (dict_set k (rows_select [] s v) (g_signals G))) G' (fun name s0 Hi => Hl name s0 (or_intror Hi)) N2). cbn [with_signals g_signals] in IH.
    rewrite (ES (g_signals G) _ (Hfr k (or_introl eq_refl))) in IH. rewrite IH; [cbn [map fst snd]; rewrite <- app_assoc; reflexivity| |].
    + intros k0 Hk0. rewrite map_app, in_app_iff. intros [Hi|[<-|[]]]; [apply (Hfr k0 (or_intror Hk0) Hi)|contradiction].
    + rewrite <- (ES (g_signals G) _ (Hfr k (or_introl eq_refl))). exact H.
Qed.
(** Everything a subgraph is made of. *)
Lemma subgraph_is G sel v G' : built G -> denotes (g_n_vertices G) sel v -> (forall c, g_coords G = Some c -> List.length c = g_n_vertices G) ->
  subgraph G sel = Ok G' ->
  built G' /\ g_n_vertices G' = List.length v /\
  (forall a b, (a < List.length v)%nat -> (b < List.length v)%nat -> wt G' a b = wt G (nth a v 0%nat) (nth b v 0%nat)) /\
  g_lap_type G' = g_lap_type G /\ g_coords G' = option_map (fun c => map (fun i => nth i c []) v) (g_coords G) /\
  g_signals G' = map (fun ks => (fst ks, map (fun i => nth i (snd ks) []) v)) (g_signals G).
Proof.
  intros Hb Hd Hco E. destruct (C07_subgraph_restricts G sel v Hb Hd Hco) as (G0 & E0 & H1 & H2 & H3 & H4 & H5 & _).
  rewrite E in E0. injection E0 as <-. repeat (split; [assumption|]). apply resolve_denotes in Hd.
  destruct (built_good G Hb) as (_ & Hn & _ & _). unfold subgraph in E. rewrite <- Hn, Hd in E. cbn [bindr] in E.
  destruct (match g_coords G with None => Ok None | Some c => bindr (Traverse.take_rows c sel) (fun c' => Ok (Some c')) end) as [co|]; [|discriminate]. cbn [bindr] in E.
  destruct (graph_init (InCSR (cmap Fin (csr_select (gW G) v))) (g_lap_type G) co) as [G0|] eqn:EI; [|discriminate]. cbn [bindr] in E.
  assert (S0 : g_signals G0 = []).
  { unfold graph_init in EI. repeat (destruct (_ : bool) in EI; try discriminate). cbv zeta in EI.
    destruct (laplacian _ _) in EI; [|discriminate]. cbn [bindr] in EI. injection EI as <-. reflexivity. }
  rewrite (copy_signals_list (g_n_vertices G) sel v Hd (g_signals G) G0 G').
  - rewrite S0. reflexivity.
  - intros name s Hi. apply (built_signals G Hb name s Hi).
  - apply built_signals_nodup, Hb.
  - rewrite S0. intros k _ [].
  - exact E.
Qed.
Lemma denotes_ok G sel v : built G -> denotes (g_n_vertices G) sel v -> (forall c, g_coords G = Some c -> List.length c = g_n_vertices G) -> exists G', subgraph G sel = Ok G'.
Proof. intros Hb Hd Hco. destruct (C07_subgraph_restricts G sel v Hb Hd Hco) as (G' & E & _). exists G'. exact E. Qed.
Lemma sub_coords G v G' : g_n_vertices G' = List.length v -> g_coords G' = option_map (fun c => map (fun i => nth i c ([] : list R)) v) (g_coords G) ->
  forall c, g_coords G' = Some c -> List.length c = g_n_vertices G'.
Proof. intros Hn E c H. rewrite E in H. destruct (g_coords G); [|discriminate]. cbn in H. injection H as <-. rewrite map_length. congruence. Qed.

Lemma pick_pick {X} (d : X) (l : list X) v w : (forall i, In i w -> (i < List.length v)%nat) ->
  map (fun i => nth i (map (fun j => nth j l d) v) d) w = map (fun i => nth i l d) (map (fun i => nth i v 0%nat) w).
Proof.
  intros H. rewrite map_map. apply map_ext_in. intros i Hi. rewrite (nth_indep _ d (nth 0 l d)) by (rewrite map_length; apply H; exact Hi).
  apply (map_nth (fun j => nth j l d)).
Qed.
(** The subgraph of a subgraph is the subgraph of the vertices it names, as one object: weights, Laplacian, coordinates and signals. *)
Theorem C107_subgraph_of_a_subgraph : forall G sel1 v G1 sel2 w G2, built G -> (forall c, g_coords G = Some c -> List.length c = g_n_vertices G) ->
  denotes (g_n_vertices G) sel1 v -> subgraph G sel1 = Ok G1 -> denotes (List.length v) sel2 w -> subgraph G1 sel2 = Ok G2 ->
  subgraph G (VIdx (map (fun i => Z.of_nat (nth i v 0%nat)) w)) = Ok G2.
Proof.
  intros G sel1 v G1 sel2 w G2 Hb Hco D1 E1 D2 E2.
  destruct (subgraph_is G sel1 v G1 Hb D1 Hco E1) as (Hb1 & N1 & W1 & T1 & C1 & S1). pose proof (sub_coords G v G1 N1 C1) as Hco1.
  rewrite <- N1 in D2. destruct (subgraph_is G1 sel2 w G2 Hb1 D2 Hco1 E2) as (Hb2 & N2 & W2 & T2 & C2 & S2). rewrite N1 in D2.
  pose proof (denotes_in _ _ _ D1) as I1. pose proof (denotes_in _ _ _ D2) as I2. set (u := map (fun i => nth i v 0%nat) w).
  assert (Du : denotes (g_n_vertices G) (VIdx (map Z.of_nat u)) u).
  { apply denotes_idx. intros i Hi. apply in_map_iff in Hi. destruct Hi as (k & <- & Hk). apply I1, nth_In, I2, Hk. }
  assert (Lu : List.length u = List.length w) by apply map_length.
  assert (Nu : forall a, (a < List.length w)%nat -> nth a u 0%nat = nth (nth a w 0%nat) v 0%nat).
  { intros a Ha. unfold u. rewrite (nth_indep _ 0%nat (nth 0 v 0%nat)) by (rewrite map_length; exact Ha). apply (map_nth (fun i => nth i v 0%nat)). }
  destruct (denotes_ok G _ u Hb Du Hco) as (G3 & E3). destruct (subgraph_is G _ u G3 Hb Du Hco E3) as (Hb3 & N3 & W3 & T3 & C3 & S3).
  replace (map (fun i => Z.of_nat (nth i v 0%nat)) w) with (map Z.of_nat u) by (unfold u; rewrite map_map; reflexivity). rewrite E3. f_equal.
  apply C107_weights_determine_the_graph; [assumption|assumption|congruence| |congruence| |].
  - intros a b Ha Hb0. rewrite N3, Lu in Ha, Hb0. rewrite W3 by lia. rewrite W2 by assumption. rewrite W1 by (apply I2, nth_In; assumption). rewrite !Nu by assumption. reflexivity.
  - rewrite C3, C2, C1. destruct (g_coords G) as [c|]; [|reflexivity]. cbn [option_map]. f_equal. unfold u. symmetry. apply pick_pick. exact I2.
  - rewrite S3, S2, S1. rewrite map_map. apply map_ext. intros [k s]. cbn [fst snd]. f_equal. unfold u. symmetry. apply pick_pick. exact I2.
Qed.
Lemma pick_all {X} (d : X) (l : list X) n : List.length l = n -> map (fun i => nth i l d) (seq 0 n) = l.
Proof.
  intros <-. apply (nth_ext _ _ d d); [rewrite map_length, seq_length; reflexivity|]. intros i Hi. rewrite map_length, seq_length in Hi. apply (nth_map_seq (fun i => nth i l d)). exact Hi.
Qed.
(** Selecting every vertex in order (by a list, by negative indices, by a mask) gives the graph itself. *)
Theorem C107_all_the_vertices : forall G sel, built G -> (forall c, g_coords G = Some c -> List.length c = g_n_vertices G) ->
  denotes (g_n_vertices G) sel (seq 0 (g_n_vertices G)) -> subgraph G sel = Ok G.
Proof.
  intros G sel Hb Hco D. set (n := g_n_vertices G) in *. destruct (denotes_ok G sel _ Hb D Hco) as (G' & E). rewrite E. f_equal.
  destruct (subgraph_is G sel _ G' Hb D Hco E) as (Hb' & N & W & T & C & S). rewrite seq_length in N, W.
  apply C107_weights_determine_the_graph; [assumption|assumption|exact N| |exact T| |].
  - intros i j Hi Hj. rewrite N in Hi, Hj. rewrite W by assumption. rewrite !seq_nth by assumption. reflexivity.
  - rewrite C. destruct (g_coords G) as [c|]; [|reflexivity]. cbn [option_map]. f_equal. apply pick_all. apply Hco. reflexivity.
  - rewrite S. transitivity (map (fun ks => ks) (g_signals G)); [|apply map_id]. apply map_ext_in. intros [k s] Hi. cbn [fst snd]. f_equal.
    apply pick_all. apply (built_signals G Hb k s Hi).
Qed.
Lemma mask_all n : denotes n (VMask (repeat true n)) (seq 0 n).
Proof.
  split; [apply repeat_length|]. split; [apply seq_sorted|]. intros i. rewrite in_seq. split; [|lia]. intros H. split; [lia|].
  assert (A : forall m k, (k < m)%nat -> nth k (repeat true m) false = true) by (induction m as [|m IH]; intros [|k] Hk; try lia; cbn; [reflexivity|apply IH; lia]).
  apply A. lia.
Qed.
(** Reordering the vertices loses nothing: some reordering of the result gives the graph back. *)
Theorem C107_reordering_is_undone : forall G sel v G1, built G -> (forall c, g_coords G = Some c -> List.length c = g_n_vertices G) ->
  denotes (g_n_vertices G) sel v -> Permutation v (seq 0 (g_n_vertices G)) -> subgraph G sel = Ok G1 ->
  exists w, Permutation w (seq 0 (g_n_vertices G)) /\ subgraph G1 (VIdx (map Z.of_nat w)) = Ok G.
Proof.
  intros G sel v G1 Hb Hco D HP E1. set (n := g_n_vertices G) in *. pose proof (Permutation_length HP) as Lv. rewrite seq_length in Lv.
  destruct (fin_choice n (fun i k => (k < n)%nat /\ nth k v 0%nat = i) 0%nat) as (f & Hf).
  { intros i Hi. assert (I : In i v) by (apply (Permutation_in _ (Permutation_sym HP)), in_seq; lia). destruct (In_nth _ _ 0%nat I) as (k & Hk & Ek). exists k. split; [lia|exact Ek]. }
  set (w := map f (seq 0 n)). assert (Wv : map (fun i => nth i v 0%nat) w = seq 0 n).
  { unfold w. rewrite map_map. rewrite <- (map_id (seq 0 n)) at 2. apply map_ext_in. intros i Hi. apply in_seq in Hi. apply Hf. lia. }
  assert (Iw : forall i, In i w -> (i < n)%nat) by (intros i Hi; apply in_map_iff in Hi; destruct Hi as (k & <- & Hk); apply in_seq in Hk; apply Hf; lia).
  assert (PW : Permutation w (seq 0 n)).
  { apply NoDup_Permutation_bis; [|unfold w; rewrite map_length; lia|intros i Hi; apply in_seq; pose proof (Iw i Hi); lia].
    apply (NoDup_map_inv (fun i => nth i v 0%nat)). rewrite Wv. apply seq_NoDup. }
  exists w. split; [exact PW|]. destruct (subgraph_is G sel v G1 Hb D Hco E1) as (Hb1 & N1 & _ & _ & C1 & _).
  assert (D2 : denotes (List.length v) (VIdx (map Z.of_nat w)) w) by (apply denotes_idx; rewrite Lv; exact Iw).
  assert (D2' : denotes (g_n_vertices G1) (VIdx (map Z.of_nat w)) w) by (rewrite N1; exact D2).
  destruct (denotes_ok G1 _ w Hb1 D2' (sub_coords G v G1 N1 C1)) as (G2 & E2). rewrite E2.
  pose proof (C107_subgraph_of_a_subgraph G sel v G1 _ w G2 Hb Hco D E1 D2 E2) as E3.
  rewrite <- E3. apply C107_all_the_vertices; [exact Hb|exact Hco|]. fold n.
  replace (map (fun i => Z.of_nat (nth i v 0%nat)) w) with (map Z.of_nat (map (fun i => nth i v 0%nat) w)) by (rewrite map_map; reflexivity). rewrite Wv.
  apply denotes_idx. intros i Hi. apply in_seq in Hi. lia.
Qed.

(** ** Components *)

Lemma nodup_join {A} (a b : list A) : NoDup a -> NoDup b -> (forall x, In x a -> ~ In x b) -> NoDup (a ++ b).
Proof.
  induction a as [|x a IH]; intros Ha Hb0 H; [exact Hb0|]. inversion Ha; subst. cbn. constructor.
  - rewrite in_app_iff. intros [Q|Q]; [contradiction|apply (H x (or_introl eq_refl) Q)].
  - apply IH; [assumption|assumption|intros y Hy; apply H; right; exact Hy].
Qed.
Lemma nodup_apart {A} (a b : list A) x : NoDup (a ++ b) -> In x a -> ~ In x b.
Proof.
  induction a as [|y a IH]; intros H Hx; [destruct Hx|]. cbn [app] in H. inversion H as [|? ? Q1 Q2]; subst. destruct Hx as [<-|Hx].
  - intros Hb0. apply Q1, in_or_app. right. exact Hb0.
  - apply IH; assumption.
Qed.
Lemma pos_arc G : nonneg_weights G -> forall u v, has_pos_edge G u v <-> has_arc G u v.
Proof.
  intros Hp u v. split; intros (A & B & C); repeat split; try assumption; [lra|]. pose proof (Hp u v A B). unfold wt in *. lra.
Qed.
Lemma reach_ext (E E' : nat -> nat -> Prop) u v : (forall a b, E a b -> E' a b) -> reach E u v -> reach E' u v.
Proof. intros H R. induction R as [|u v w R IH HE]; [apply reach_refl|]. eapply reach_step; [exact IH|apply H, HE]. Qed.

(** A connected graph is its own only component. *)
Theorem C107_connected_graphs_are_one_component : forall G pop, built G -> pop_ok pop -> undirected G -> nonneg_weights G -> connected G -> (0 < g_n_vertices G)%nat ->
  (forall c, g_coords G = Some c -> List.length c = g_n_vertices G) ->
  extract_components pop G = Some (Ok [(G, seq 0 (g_n_vertices G))]).
Proof.
  intros G pop Hb Hpop Hu Hp HC Hn Hco. destruct (C06_components_partition G pop Hb Hpop Hu Hco) as (l & El & Hne & Hnd & Hcov & Hre & Hsub).
  rewrite El. do 2 f_equal. set (n := g_n_vertices G) in *.
  assert (Full : forall c, In c (map snd l) -> c = seq 0 n).
  { intros c Hc. destruct (Hne c Hc) as (N & S). apply sorted_ext; [exact S|apply InitFacts.seq_sorted|]. intros i. rewrite in_seq. split.
    - intros Hi. assert (I : In i (List.concat (map snd l))) by (apply in_concat; eauto). apply Hcov in I. lia.
    - intros Hi. destruct c as [|x c]; [contradiction|]. assert (Ix : (x < n)%nat) by (apply Hcov, in_concat; exists (x :: c); split; [exact Hc|left; reflexivity]).
      apply (Hre (x :: c) x i Hc (or_introl eq_refl)). apply (reach_ext (has_arc G)); [apply pos_arc; exact Hp|]. apply HC; fold n; lia. }
  destruct l as [|[G1 c1] l].
  - exfalso. assert (I : In 0%nat (List.concat (map snd (@nil (graph * list nat))))) by (apply Hcov; exact Hn). destruct I.
  - assert (E1 : c1 = seq 0 n) by (apply Full; left; reflexivity). subst c1.
    destruct l as [|[G2 c2] l].
    + destruct (Hsub G1 (seq 0 n) (or_introl eq_refl)) as (Es & _). rewrite (C107_all_the_vertices G _ Hb Hco) in Es; [congruence|]. apply denotes_idx. intros i Hi. apply in_seq in Hi. fold n. lia.
    + exfalso. assert (E2 : c2 = seq 0 n) by (apply Full; right; left; reflexivity). subst c2. cbn [map snd List.concat] in Hnd.
      apply NoDup_remove_1 in Hnd || idtac. destruct n as [|k]; [lia|]. cbn [seq app] in Hnd. inversion Hnd as [|? ? N _]. apply N. apply in_or_app. right. left. reflexivity.
Qed.

Section Parts.
  Variables (G : graph) (pop : popper) (l : list (graph * list nat)).
  Hypothesis Hb : built G.
  Hypothesis Hpop : pop_ok pop.
  Hypothesis Hu : undirected G.
  Hypothesis Hp : nonneg_weights G.
  Hypothesis Hco : forall c, g_coords G = Some c -> List.length c = g_n_vertices G.
  Hypothesis El : extract_components pop G = Some (Ok l).
  Let n := g_n_vertices G.

  Lemma part_facts : (forall c, In c (map snd l) -> c <> [] /\ StronglySorted lt c /\ NoDup c) /\ NoDup (List.concat (map snd l)) /\
    (forall v, In v (List.concat (map snd l)) <-> (v < n)%nat) /\
    (forall c, In c (map snd l) -> closed_part G c) /\
    (forall G' c, In (G', c) l -> built G' /\ g_n_vertices G' = List.length c /\ g_lap_type G' = g_lap_type G /\ (forall x, In x c -> (x < n)%nat) /\
      (forall a b, (a < List.length c)%nat -> (b < List.length c)%nat -> wt G' a b = wt G (nth a c 0%nat) (nth b c 0%nat)) /\
      (forall co, g_coords G' = Some co -> List.length co = g_n_vertices G') /\ undirected G' /\ nonneg_weights G' /\ connected G').
  Proof using All.
    destruct (C06_components_partition G pop Hb Hpop Hu Hco) as (l' & El' & Hne & Hnd & Hcov & Hre & Hsub).
    rewrite El in El'. assert (l' = l) by congruence. subst l'. clear El'.
    split; [intros c Hc; destruct (Hne c Hc); repeat split; try assumption; apply (nodup_part _ c Hnd Hc)|]. split; [exact Hnd|]. split; [exact Hcov|].
    assert (Hcl : forall c, In c (map snd l) -> closed_part G c).
    { intros c Hc i j Hi (L1 & L2 & L3). apply (Hre c i j Hc Hi). eapply reach_step; [apply reach_refl|]. repeat split; try assumption.
      pose proof (Hp i j L1 L2). pose proof (Hp j i L2 L1). pose proof (Hu i j L1 L2). destruct L3; unfold wt in *; lra. }
    split; [exact Hcl|]. intros G' c Hin. destruct (Hsub G' c Hin) as (Es & Hn' & Hw).
    assert (Hc : In c (map snd l)) by (apply in_map_iff; exists (G', c); auto).
    assert (Hcn : forall i, In i c -> (i < n)%nat) by (intros i Hi; apply Hcov, in_concat; eauto).
    destruct (subgraph_is G _ c G' Hb (denotes_idx _ c Hcn) Hco Es) as (Hb' & _ & _ & Ht' & Hc' & _).
    assert (Nc : NoDup c) by (apply (nodup_part _ c Hnd Hc)).
    assert (Lc : forall a, (a < List.length c)%nat -> (nth a c 0 < n)%nat) by (intros a Ha; apply Hcn, nth_In, Ha).
    split; [exact Hb'|]. split; [exact Hn'|]. split; [exact Ht'|]. split; [exact Hcn|]. split; [exact Hw|]. split; [apply (sub_coords G c G' Hn' Hc')|].
    split; [intros i j Hi Hj; rewrite Hn' in *; rewrite !Hw by assumption; apply Hu; apply Lc; assumption|].
    split; [intros i j Hi Hj; rewrite Hn' in *; rewrite Hw by assumption; apply Hp; apply Lc; assumption|].
    (* a walk of G between two vertices of c stays in c *)
    assert (K : forall x y, reach (has_pos_edge G) x y -> forall a, (a < List.length c)%nat -> nth a c 0%nat = x -> exists b, (b < List.length c)%nat /\ nth b c 0%nat = y /\ reach (has_arc G') a b).
    { intros x y R. induction R as [x|x y z R IH (A1 & A2 & A3)]; intros a Ha Ea; [exists a; split; [exact Ha|split; [exact Ea|apply reach_refl]]|].
      destruct (IH a Ha Ea) as (b & Hb0 & Eb & Rb). assert (Iz : In z c).
      { apply (Hcl c Hc y z); [rewrite <- Eb; apply nth_In, Hb0|]. repeat split; try assumption. left. lra. }
      destruct (In_nth _ _ 0%nat Iz) as (k & Hk & Ek). exists k. split; [exact Hk|]. split; [exact Ek|]. eapply reach_step; [exact Rb|]. unfold has_arc. rewrite Hn'.
      repeat split; try assumption. rewrite Hw by assumption. rewrite Eb, Ek. lra. }
    intros i j Hi Hj. rewrite Hn' in *. pose proof (proj1 (Hre c (nth i c 0%nat) (nth j c 0%nat) Hc (nth_In c 0%nat Hi)) (nth_In c 0%nat Hj)) as R.
    destruct (K _ _ R i Hi eq_refl) as (b & Hb0 & Eb & Rb). assert (b = j) by (apply (proj1 (NoDup_nth c 0%nat) Nc); assumption). subst b. exact Rb.
  Qed.
End Parts.

(** Extracting the components of a component gives that component. *)
Theorem C107_components_of_a_component : forall G pop pop' l G' c, built G -> pop_ok pop -> pop_ok pop' -> undirected G -> nonneg_weights G ->
  (forall co, g_coords G = Some co -> List.length co = g_n_vertices G) -> extract_components pop G = Some (Ok l) -> In (G', c) l ->
  extract_components pop' G' = Some (Ok [(G', seq 0 (g_n_vertices G'))]).
Proof.
  intros G pop pop' l G' c Hb Hpop Hpop' Hu Hp Hco El Hin. destruct (part_facts G pop l Hb Hpop Hu Hp Hco El) as (H1 & _ & _ & _ & H2).
  destruct (H2 G' c Hin) as (Hb' & Hn' & _ & _ & _ & Hco' & Hu' & Hp' & HC'). apply C107_connected_graphs_are_one_component; try assumption.
  rewrite Hn'. destruct (H1 c) as (N & _); [apply in_map_iff; exists (G', c); auto|]. destruct c; [contradiction|cbn; lia].
Qed.

(** Vertices, edges and energies add up over the components. *)
Lemma sum_parts (l : list (graph * list nat)) g : lsum (map g (List.concat (map snd l))) = lsum (map (fun p => lsum (map g (snd p))) l).
Proof. induction l as [|[G' c] l IH]; [reflexivity|]. cbn [map snd List.concat]. rewrite map_app, lsum_app, lsum_cons, IH. reflexivity. Qed.
Theorem C107_components_add_up : forall G pop l, built G -> pop_ok pop -> undirected G -> nonneg_weights G ->
  (forall co, g_coords G = Some co -> List.length co = g_n_vertices G) -> extract_components pop G = Some (Ok l) ->
  g_n_vertices G = list_sum (map (fun p => g_n_vertices (fst p)) l) /\
  g_n_edges G = list_sum (map (fun p => g_n_edges (fst p)) l) /\
  forall x q, List.length x = g_n_vertices G -> dirichlet_energy G x = Ok q ->
    exists qs, Forall2 (fun p q' => dirichlet_energy (fst p) (map (fun i => nth i x 0) (snd p)) = Ok q') l qs /\ q = lsum qs.
Proof.
  intros G pop l Hb Hpop Hu Hp Hco El. destruct (part_facts G pop l Hb Hpop Hu Hp Hco El) as (H1 & Hnd & Hcov & Hcl & H2). set (n := g_n_vertices G) in *.
  assert (PC : Permutation (seq 0 n) (List.concat (map snd l))) by (apply NoDup_Permutation; [apply seq_NoDup|exact Hnd|intros i; rewrite in_seq, Hcov; lia]).
  split; [|split].
  - pose proof (Permutation_length PC) as E. rewrite seq_length in E. rewrite E.
    assert (K : forall G' c, In (G', c) l -> g_n_vertices G' = List.length c) by (intros G' c Hi; apply (H2 G' c Hi)). clear - K.
    induction l as [|[G' c] l IH]; [reflexivity|]. cbn [map snd fst List.concat list_sum fold_right]. rewrite app_length, IH; [|intros G0 c0 Hi; apply (K G0 c0); right; exact Hi].
    rewrite (K G' c (or_introl eq_refl)). reflexivity.
  - (* one list of edges per component *)
    assert (K : forall l0, incl l0 l -> NoDup (List.concat (map snd l0)) ->
      card (fun e : nat * nat => (fst e <= snd e)%nat /\ (exists p, In p l0 /\ In (fst e) (snd p) /\ In (snd e) (snd p)) /\ wt G (fst e) (snd e) <> 0) (list_sum (map (fun p => g_n_edges (fst p)) l0))).
    { induction l0 as [|[G' c] l0 IH]; intros Hi Hn0.
      - exists []. split; [constructor|]. split; [|reflexivity]. intros e. split; [intros []|]. intros (_ & (p & [] & _) & _).
      - destruct IH as (r & Nr & Ir & Lr). { intros p Hp0. apply Hi. right. exact Hp0. } { cbn [map snd List.concat] in Hn0. eapply nodup_right. exact Hn0. }
        destruct (H2 G' c (Hi _ (or_introl eq_refl))) as (Hb' & Hn' & _ & Hcn & Hw & _ & Hu' & _ & _).
        destruct (H1 c) as (_ & Sc & Nc); [apply in_map_iff; exists (G', c); split; [reflexivity|apply Hi; left; reflexivity]|].
        destruct (C02_n_edges_undirected G' Hb' Hu') as (r' & Nr' & Ir' & Lr'). rewrite Hn' in Ir'.
        assert (Mono : forall a b, (a <= b)%nat -> (b < List.length c)%nat -> (nth a c 0 <= nth b c 0)%nat).
        { clear - Sc. induction Sc as [|x c Sc IH Fx]; intros a b Hab Hbl; [cbn in Hbl; lia|]. destruct a as [|a], b as [|b]; cbn [nth]; try lia.
          - rewrite Forall_forall in Fx. cbn in Hbl. assert (Q : (b < List.length c)%nat) by lia. pose proof (Fx _ (nth_In c 0%nat Q)) as Q1. apply Nat.lt_le_incl. exact Q1.
          - apply IH; cbn in Hbl; lia. }
        set (h := fun e : nat * nat => (nth (fst e) c 0%nat, nth (snd e) c 0%nat)).
        exists (map h r' ++ r). split; [|split].
        + assert (A : NoDup (map h r')).
          { assert (B : forall e, In e r' -> (fst e < List.length c)%nat /\ (snd e < List.length c)%nat) by (intros e He; apply Ir' in He; destruct He as (? & ? & _); split; lia).
            clear - B Nr' Nc. induction r' as [|e r' IH]; [constructor|]. inversion Nr'; subst. cbn. constructor; [|apply IH; [assumption|intros e0 H0; apply B; right; exact H0]].
            intros Hi. apply in_map_iff in Hi. destruct Hi as (e0 & E & Hi). destruct (B e (or_introl eq_refl)), (B e0 (or_intror Hi)). unfold h in E. injection E as E1 E2.
            assert (fst e0 = fst e) by (apply (proj1 (NoDup_nth c 0%nat) Nc); assumption). assert (snd e0 = snd e) by (apply (proj1 (NoDup_nth c 0%nat) Nc); assumption).
            destruct e, e0. cbn in *. subst. contradiction. }
          assert (Dj : forall e, In e (map h r') -> ~ In e r).
          { intros e He Her. apply in_map_iff in He. destruct He as (e0 & <- & He0). apply Ir' in He0. destruct He0 as (L1 & L2 & _). apply Ir in Her. destruct Her as (_ & (p & Ip & F1 & _) & _). unfold h in F1. cbn [fst] in F1.
            cbn [map snd List.concat] in Hn0. assert (I1 : In (nth (fst e0) c 0%nat) c) by (apply nth_In; lia). assert (I2 : In (nth (fst e0) c 0%nat) (List.concat (map snd l0))) by (apply in_concat; exists (snd p); split; [apply in_map; exact Ip|exact F1]).
            apply (nodup_apart _ _ _ Hn0 I1 I2). }
          apply nodup_join; assumption.
        + intros [a b]. rewrite in_app_iff, (Ir (a, b)), in_map_iff. cbn [fst snd]. split.
          * intros [(e & E & He)|(L & (p & Ip & F) & Wn)].
            -- apply Ir' in He. destruct He as (L1 & L2 & Wn). unfold h in E. injection E as <- <-. split; [apply Mono; assumption|]. split; [exists (G', c); cbn; split; [left; reflexivity|split; apply nth_In; lia]|].
               rewrite <- Hw by lia. exact Wn.
            -- split; [exact L|]. split; [exists p; split; [right; exact Ip|exact F]|exact Wn].
          * intros (L & (p & [<-|Ip] & F1 & F2) & Wn); [left|right; split; [exact L|split; [exists p; auto|exact Wn]]]. cbn [snd] in F1, F2.
            destruct (In_nth _ _ 0%nat F1) as (i & Hi1 & Ei). destruct (In_nth _ _ 0%nat F2) as (j & Hj1 & Ej). exists (i, j). split; [unfold h; cbn; congruence|].
            apply Ir'. cbn [fst snd]. split; [|split; [exact Hj1|rewrite Hw by assumption; congruence]].
            destruct (le_lt_dec i j) as [Q|Q]; [exact Q|]. pose proof (Mono j i ltac:(lia) Hi1). assert (E : a = b) by lia. subst a b.
            assert (i = j) by (apply (proj1 (NoDup_nth c 0%nat) Nc); try assumption; congruence). lia.
        + rewrite app_length, map_length, Lr, Lr'. reflexivity. }
    apply (card_unique (fun e : nat * nat => (fst e <= snd e)%nat /\ (snd e < n)%nat /\ wt G (fst e) (snd e) <> 0)); [apply C02_n_edges_undirected; assumption|].
    eapply card_iff; [|apply (K l (incl_refl l) Hnd)]. intros [a b]. cbn [fst snd]. split.
    + intros (L & (p & Ip & F1 & F2) & Wn). split; [exact L|]. split; [|exact Wn]. apply Hcov, in_concat. exists (snd p). split; [apply in_map; exact Ip|exact F2].
    + intros (L & Lb & Wn). split; [exact L|]. split; [|exact Wn]. assert (I : In a (List.concat (map snd l))) by (apply Hcov; lia). apply in_concat in I. destruct I as (c & Hc & Ia).
      pose proof (Hcl c Hc a b Ia) as Ib. apply in_map_iff in Hc. destruct Hc as (p & <- & Ip). exists p. split; [exact Ip|]. split; [exact Ia|]. apply Ib. repeat split; [lia|exact Lb|left; exact Wn].
  - intros x q Hx Eq. rewrite (energy_ok G x Hx) in Eq. injection Eq as <-. set (y := fun i => nth i x 0).
    exists (map (fun p => lsum (map (fun i => y i * mulv n (gL G) y i) (snd p))) l). split.
    + assert (K : forall G' c, In (G', c) l -> dirichlet_energy G' (map y c) = Ok (lsum (map (fun i => y i * mulv n (gL G) y i) c))).
      { intros G' c Hi. destruct (H2 G' c Hi) as (Hb' & Hn' & Ht' & Hcn & Hw & _ & Hu' & Hp' & _).
        assert (Hc : In c (map snd l)) by (apply in_map_iff; exists (G', c); auto). destruct (H1 c Hc) as (_ & _ & Nc).
        rewrite energy_ok by (rewrite map_length; congruence). f_equal. unfold quad, dot. rewrite Hn'. rewrite <- rsum_list. apply rsum_ext. intros a Ha.
        assert (Ey : forall b, (b < List.length c)%nat -> nth b (map y c) 0 = y (nth b c 0%nat)).
        { intros b Hb0. rewrite (nth_indep _ 0 (y 0%nat)) by (rewrite map_length; exact Hb0). apply map_nth. }
        rewrite Ey by exact Ha. f_equal. unfold mulv. rewrite (split_sum n c Nc Hcn). rewrite (rsum_0 (List.length (setdiff n c))).
        - rewrite Rplus_0_r. apply rsum_ext. intros b Hb0. rewrite Ey by exact Hb0.
          rewrite (closed_lap G G' c Hb Hb' Hp Ht' Hn' Nc Hcn Hw (Hcl c Hc) a b Ha Hb0). reflexivity.
        - intros k Hk. destruct (comp_lt n c k Hk) as (C1 & C2). set (z := nth k (setdiff n c) 0%nat) in *.
          assert (Ia : In (nth a c 0%nat) c) by (apply nth_In, Ha).
          rewrite (lap_linked G (nth a c 0%nat) z Hb (Hcn _ Ia) C1); [ring|intros E; apply C2; rewrite <- E; exact Ia|].
          intros Lk. apply C2, (Hcl c Hc _ z Ia Lk). }
      clear - K. induction l as [|[G' c] l IH]; [constructor|]. cbn [map snd]. constructor; [apply (K G' c); left; reflexivity|apply IH; intros G0 c0 Hi; apply K; right; exact Hi].
    + rewrite <- sum_parts. unfold quad, dot. rewrite <- lsum_map_seq0. apply lsum_perm. apply Permutation_map. exact PC.
Qed.

(** The hypotheses can be met: the edge 0 - 1 and the isolated vertex 2, with coordinates and a signal; the reordering 2, 0, 1 given
    with negative indices; the subgraph of the vertices 0 and 2 of the reordered graph; two components. *)
Example C107_ex : exists G G1 G2 l, built G /\ (forall c, g_coords G = Some c -> List.length c = g_n_vertices G) /\ g_coords G <> None /\ g_signals G <> [] /\
  undirected G /\ nonneg_weights G /\ ~ connected G /\ denotes (g_n_vertices G) (VIdx [-1; 0; 1]%Z) [2; 0; 1]%nat /\ Permutation [2; 0; 1]%nat (seq 0 (g_n_vertices G)) /\
  subgraph G (VIdx [-1; 0; 1]%Z) = Ok G1 /\ denotes 3 (VMask [true; false; true]) [0; 2]%nat /\ subgraph G1 (VMask [true; false; true]) = Ok G2 /\
  subgraph G (VIdx [2; 1]%Z) = Ok G2 /\ denotes (g_n_vertices G) (VMask [true; true; true]) (seq 0 (g_n_vertices G)) /\
  extract_components pop_first G = Some (Ok l) /\ (1 < List.length l)%nat.
Proof.
  destruct (finite_entry_built 3 [0; 1; 0; 1; 0; 0; 0; 0; 0] Combinatorial (Some [[0; 1]; [2; 3]; [4; 5]]) eq_refl (or_introl eq_refl)) as (G0 & _ & Hb0 & Hn0 & Ht & Hc0 & Hw0).
  destruct (set_signal G0 [[7]; [8]; [9]] "s") as [G|er] eqn:ES; [|unfold set_signal, check_signal in ES; rewrite Hn0 in ES; discriminate].
  assert (Hb : built G) by (eapply built_signal; eassumption). unfold set_signal, check_signal in ES. rewrite Hn0 in ES. cbn [List.length Nat.eqb bindr] in ES. injection ES as ES.
  assert (Hn : g_n_vertices G = 3%nat) by (rewrite <- ES; exact Hn0). assert (Hc : g_coords G = Some [[0; 1]; [2; 3]; [4; 5]]) by (rewrite <- ES; exact Hc0).
  assert (Hw : forall i j, (i < 3)%nat -> (j < 3)%nat -> wt G i j = nth (i * 3 + j) [0; 1; 0; 1; 0; 0; 0; 0; 0] 0) by (intros i j Hi Hj; rewrite <- ES; apply Hw0; assumption).
  assert (Hco : forall c, g_coords G = Some c -> List.length c = g_n_vertices G) by (rewrite Hc, Hn; intros c E; injection E as <-; reflexivity).
  assert (Hu : undirected G).
  { intros i j Hi Hj. rewrite Hn in *. rewrite !Hw by assumption. destruct i as [|[|[|i]]]; try lia; destruct j as [|[|[|j]]]; try lia; reflexivity. }
  assert (Hp : nonneg_weights G).
  { intros i j Hi Hj. rewrite Hn in *. rewrite Hw by assumption. destruct i as [|[|[|i]]]; try lia; destruct j as [|[|[|j]]]; try lia; cbn; lra. }
  assert (NC : ~ reach (has_arc G) 0 2).
  { assert (K : forall u v, reach (has_arc G) u v -> u = 0%nat -> (v < 2)%nat).
    { intros u v R. induction R as [u|u v w R IH (A & B & C)]; intros ->; [lia|]. specialize (IH eq_refl). rewrite Hn in *. rewrite Hw in C by assumption.
      destruct w as [|[|[|w]]]; try lia. exfalso. destruct v as [|[|v]]; [| |lia]; cbn in C; lra. }
    intros R. specialize (K _ _ R eq_refl). lia. }
  assert (D1 : denotes (g_n_vertices G) (VIdx [-1; 0; 1]%Z) [2; 0; 1]%nat) by (rewrite Hn; cbn; repeat constructor; lia).
  assert (D2 : denotes 3 (VMask [true; false; true]) [0; 2]%nat).
  { split; [reflexivity|]. split; [repeat constructor|]. intros i. split.
    - intros [<-|[<-|[]]]; split; (lia || reflexivity).
    - intros (Hi & E). destruct i as [|[|[|i]]]; cbn in *; auto; [discriminate|lia]. }
  destruct (denotes_ok G _ _ Hb D1 Hco) as (G1 & E1). destruct (subgraph_is G _ _ G1 Hb D1 Hco E1) as (Hb1 & N1 & _ & _ & C1 & _).
  assert (D2' : denotes (g_n_vertices G1) (VMask [true; false; true]) [0; 2]%nat) by (rewrite N1; exact D2).
  destruct (denotes_ok G1 _ _ Hb1 D2' (sub_coords G _ G1 N1 C1)) as (G2 & E2).
  destruct (C06_components_partition G pop_first Hb pop_first_ok Hu Hco) as (l & El & _ & _ & Hcov & Hre & _).
  exists G, G1, G2, l. split; [exact Hb|]. split; [exact Hco|]. split; [rewrite Hc; discriminate|].
  split. { rewrite <- ES. cbn [with_signals g_signals]. clear. intros E. destruct (g_signals G0) as [|[k x] d]; cbn in E; [discriminate|]. destruct (String.eqb k "s"); discriminate. }
  split; [exact Hu|]. split; [exact Hp|]. split; [intros HC; apply NC, HC; rewrite Hn; lia|]. split; [exact D1|].
  split. { rewrite Hn. apply NoDup_Permutation; [repeat constructor; cbn; intuition lia|apply seq_NoDup|]. intros i. rewrite in_seq. cbn. lia. }
  split; [exact E1|]. split; [exact D2|]. split; [exact E2|].
  split; [apply (C107_subgraph_of_a_subgraph G _ _ G1 _ _ G2 Hb Hco D1 E1 D2 E2)|].
  split; [rewrite Hn; apply (mask_all 3)|]. split; [exact El|].
  destruct l as [|a [|b l]]; [| |cbn; lia]; exfalso.
  - assert (I : In 0%nat (List.concat (map snd (@nil (graph * list nat))))) by (apply Hcov; lia). destruct I.
  - cbn [map List.concat] in Hcov. rewrite app_nil_r in Hcov. assert (I0 : In 0%nat (snd a)) by (apply Hcov; lia). assert (I2 : In 2%nat (snd a)) by (apply Hcov; lia).
    apply NC. apply (reach_ext (has_pos_edge G)); [intros u v; apply pos_arc; exact Hp|]. apply (Hre (snd a) 0%nat 2%nat (or_introl eq_refl) I0). exact I2.
Qed.
