(** C49: the line graph. *)
From Coq Require Import Reals Lra Lia List Arith Bool String.
From Coq Require Import List.
From Verif.Base Require Import RSum Prelude.
From Verif.Spec Require Import Matrix GraphSpec Card Reach GenSpec.
From Verif.Model Require Import Sparse Graph Difference Utils Reduction Generators LineGraph.
From Verif.Proofs Require Import SparseFacts InitFacts EdgeFacts LapFacts SubgraphFacts GenFacts.
From Verif.Props Require Import Core Laplacian Traversal UtilsProps ReductionProps GenProps.
Import ListNotations.
Open Scope R_scope.

Definition edge_at (l : list (nat * nat * R)) (k : nat) : nat * nat := fst (nth k l (0%nat, 0%nat, 0)).
(** two edges have a common end *)
Definition share (e f : nat * nat) : Prop := exists v, (v = fst e \/ v = snd e) /\ (v = fst f \/ v = snd f).

Lemma line_incidence G l : built G -> nonneg_weights G -> get_edge_list (gW G) = Ok l ->
  exists D, diff_op (gW G) (g_lap_type G) = Ok D /\
    forall i k, (i < g_n_vertices G)%nat -> (k < g_n_edges G)%nat -> incidence D i k = true <-> (fst (edge_at l k) <> snd (edge_at l k) /\ (i = fst (edge_at l k) \/ i = snd (edge_at l k))).
Proof.
  intros Hb Hp Hl. destruct (built_good G Hb) as (Hg & Hn & He & HL). pose proof (nonneg_W G Hb Hp) as HpW.
  assert (Ht : g_lap_type G = Combinatorial \/ g_lap_type G = Normalized) by (destruct (g_lap_type G); cbn in HL; auto; discriminate).
  set (W := gW G) in *.
  assert (HD : diff_op W (g_lap_type G) = Ok (fun i k => dentry W (g_lap_type G) i (nth k l (0%nat, 0%nat, 0)))).
  { unfold diff_op. rewrite Hl. cbn [bindr]. destruct Ht as [E|E]; rewrite E; reflexivity. }
  eexists. split; [exact HD|]. intros i k Hi Hk. unfold incidence, edge_at.
  assert (Hlen : List.length l = g_n_edges G).
  { destruct (edge_list_ok W Hg) as (l' & Hl' & _ & Hlen). rewrite Hl in Hl'. injection Hl' as <-. rewrite He. exact Hlen. }
  destruct (nth k l (0%nat, 0%nat, 0)) as [[a b] w] eqn:Hkl. cbn [fst snd].
  assert (Hin : In (a, b, w) l) by (rewrite <- Hkl; apply nth_In; lia).
  apply (edge_list_in W l a b w Hg Hl) in Hin. destruct Hin as (Ha & Hbb & Hw & Hnz & _).
  assert (Hw0 : 0 < w) by (pose proof (HpW a b Ha Hbb); lra).
  rewrite (dentry_eq W _ i a b w Hg HpW Ht Ha Hbb Hw).
  assert (Hs : sqrt w / dscale W <> 0). { pose proof (sqrt_lt_R0 w Hw0). pose proof (dscale_pos W). intros E. assert (0 < sqrt w / dscale W) by (apply Rdiv_lt_0_compat; assumption). lra. }
  assert (Hv : i = a \/ i = b -> vscale W (g_lap_type G) i <> 0).
  { intros Hiab. destruct Ht as [E|E]; rewrite E; cbn [vscale]; [lra|].
    assert (Hd : dw W i <> 0).
    { intros E0. destruct Hiab as [-> | ->].
      - pose proof (dw_zero_wlap _ Hg HpW a Ha E0 b Hbb) as Hz. fold W in Hz. rewrite wlap_avg in Hz by assumption. pose proof (HpW b a Hbb Ha) as Hba. fold W in Hba. lra.
      - pose proof (dw_zero_wlap _ Hg HpW b Hbb E0 a Ha) as Hz. fold W in Hz. rewrite wlap_avg in Hz by assumption. pose proof (HpW b a Hbb Ha) as Hba. fold W in Hba. lra. }
    assert (Hi' : (i < nrow W)%nat) by (destruct Hiab; subst; assumption). pose proof (dw_nonneg W Hg HpW i Hi') as Hd0.
    intros E0. pose proof (dinvsqrt_sq W i Hd0 Hd) as Q. rewrite E0 in Q. lra. }
  rewrite negb_true_iff, Reqb_false. unfold kron. destruct (Nat.eqb_spec b i) as [E1|E1], (Nat.eqb_spec a i) as [E2|E2]; subst; split; intros H; try (exfalso; apply H; ring); try (exfalso; destruct H as (H & [H'|H']); congruence).
  - split; [congruence|right; reflexivity].
  - intros E. apply Rmult_integral in E. destruct E as [E|E]; [contradiction|]. apply Rmult_integral in E. destruct E as [E|E]; [apply Hv in E; [exact E|right; reflexivity]|lra].
  - split; [congruence|left; reflexivity].
  - intros E. apply Rmult_integral in E. destruct E as [E|E]; [contradiction|]. apply Rmult_integral in E. destruct E as [E|E]; [apply Hv in E; [exact E|left; reflexivity]|lra].
Qed.
Definition share_dec (e f : nat * nat) : {share e f} + {~ share e f}.
Proof.
  destruct (Nat.eq_dec (fst e) (fst f)); [left; exists (fst e); tauto|]. destruct (Nat.eq_dec (fst e) (snd f)); [left; exists (fst e); tauto|].
  destruct (Nat.eq_dec (snd e) (fst f)); [left; exists (snd e); tauto|]. destruct (Nat.eq_dec (snd e) (snd f)); [left; exists (snd e); tauto|].
  right. intros (v & [-> | ->] & [H|H]); contradiction.
Defined.
(** The vertices of the line graph are the edges (in the order of get_edge_list); two different ones are joined, with weight 1, exactly
    when they have a common end; each is placed at the midpoint of its edge. *)
Theorem C49_line_graph G l lap : built G -> nonneg_weights G -> loop_free G -> get_edge_list (gW G) = Ok l -> valid_lap lap ->
  exists L, LineGraph G lap = Ok L /\ unit_graph L (g_n_edges G) (fun k k' => k <> k' /\ share (edge_at l k) (edge_at l k')) /\ undirected L /\
    match g_coords G with
    | None => g_coords L = None
    | Some c => exists c', g_coords L = Some c' /\ List.length c' = g_n_edges G /\
        forall k d, (k < g_n_edges G)%nat -> (d < List.length (nth 0 c []))%nat ->
          nth d (nth k c' []) 0 = (nth d (nth (fst (edge_at l k)) c []) 0 + nth d (nth (snd (edge_at l k)) c []) 0) / 2
    end.
Proof.
  intros Hb Hp Hlf Hl Hv. destruct (line_incidence G l Hb Hp Hl) as (D & HD & Hinc). unfold LineGraph. rewrite HD. cbn [bindr].
  destruct (C04_edge_list_enumerates_every_edge_once G Hb) as (l' & Hl' & Hlen & Hnd & Hin). rewrite Hl in Hl'. injection Hl' as <-.
  assert (He : forall k, (k < g_n_edges G)%nat -> (fst (edge_at l k) < g_n_vertices G)%nat /\ (snd (edge_at l k) < g_n_vertices G)%nat /\ fst (edge_at l k) <> snd (edge_at l k)).
  { intros k Hk. unfold edge_at. destruct (nth k l (0%nat, 0%nat, 0)) as [[a b] w] eqn:E. assert (Q : In (a, b, w) l) by (rewrite <- E; apply nth_In; lia).
    apply Hin in Q. destruct Q as (Ha & Hb' & -> & Hne & _). cbn [fst snd]. split; [exact Ha|]. split; [exact Hb'|]. intros ->. apply Hne. apply Hlf. exact Ha. }
  set (co := match g_coords G with Some c => _ | None => None end).
  destruct (finite_entry_built (g_n_edges G) (dense (g_n_edges G) (line_adjacency (g_n_vertices G) D)) lap co (dense_len _ _) Hv) as (L & EL & HbL & HnL & _ & HcL & HwL).
  assert (HW : forall k k', (k < g_n_edges G)%nat -> (k' < g_n_edges G)%nat -> nexists (g_n_vertices G) (fun i => incidence D i k && incidence D i k')%bool = true <-> share (edge_at l k) (edge_at l k')).
  { intros k k' Hk Hk'. rewrite nexists_true. destruct (He k Hk) as (H1 & H2 & H3), (He k' Hk') as (H1' & H2' & H3'). split.
    - intros (i & Hi & H). apply andb_true_iff in H. destruct H as (Q & Q'). apply Hinc in Q, Q'; try assumption. exists i. tauto.
    - intros (v & Q & Q'). assert (Hvn : (v < g_n_vertices G)%nat) by (destruct Q; subst; assumption). exists v. split; [exact Hvn|]. apply andb_true_iff. split; apply Hinc; tauto. }
  assert (HU : unit_graph L (g_n_edges G) (fun k k' => k <> k' /\ share (edge_at l k) (edge_at l k'))).
  { split; [exact HbL|]. split; [exact HnL|]. intros k k' Hk Hk'. rewrite HwL, dense_nth by assumption. unfold line_adjacency, idm. specialize (HW k k' Hk Hk'). split.
    - intros (Hne & Hs). destruct (Nat.eqb_spec k k'); [contradiction|]. rewrite (proj2 HW Hs). cbn [b2r]. lra.
    - intros Hn. destruct (Nat.eqb_spec k k') as [->|Hne].
      + rewrite (proj2 HW); [cbn [b2r]; lra|]. exists (fst (edge_at l k')). tauto.
      + destruct (nexists _ _); [|cbn [b2r]; lra]. exfalso. apply Hn. split; [exact Hne|]. apply HW. reflexivity. }
  exists L. split; [exact EL|]. split; [exact HU|]. split.
  - apply (unit_undirected L (g_n_edges G) (fun k k' => k <> k' /\ share (edge_at l k) (edge_at l k'))); [| |exact HU].
    + intros k k'. destruct (Nat.eq_dec k k'); [right; tauto|]. destruct (share_dec (edge_at l k) (edge_at l k')); [left|right]; tauto.
    + intros k k' _ _ (H & v & H1 & H2). split; [congruence|]. exists v. tauto.
  - unfold co in HcL. destruct (g_coords G) as [c|]; [|exact HcL]. eexists. split; [exact HcL|]. unfold line_coords. split; [rewrite map_length, seq_length; reflexivity|].
    intros k d Hk Hd. rewrite nth_map_seq by exact Hk. rewrite nth_map_seq by exact Hd. f_equal. destruct (He k Hk) as (H1 & H2 & H3).
    rewrite (rsum_ext _ _ (fun i => (if Nat.eqb i (fst (edge_at l k)) then nth d (nth i c []) 0 else 0) + (if Nat.eqb i (snd (edge_at l k)) then nth d (nth i c []) 0 else 0))).
    + rewrite rsum_plus. rewrite (rsum_delta _ (fun i => nth d (nth i c []) 0)) by assumption. rewrite (rsum_delta _ (fun i => nth d (nth i c []) 0)) by assumption. reflexivity.
    + intros i Hi. destruct (incidence D i k) eqn:E.
      * apply Hinc in E; try assumption. destruct E as (_ & [-> | ->]); cbn [b2r]; rewrite Nat.eqb_refl; [destruct (Nat.eqb_spec (fst (edge_at l k)) (snd (edge_at l k)))|destruct (Nat.eqb_spec (snd (edge_at l k)) (fst (edge_at l k)))]; try congruence; lra.
      * destruct (Nat.eqb_spec i (fst (edge_at l k))) as [Ei|]; [|destruct (Nat.eqb_spec i (snd (edge_at l k))) as [Ei|]].
        -- rewrite (proj2 (Hinc i k Hi Hk)) in E; [discriminate|]. tauto.
        -- rewrite (proj2 (Hinc i k Hi Hk)) in E; [discriminate|]. tauto.
        -- cbn [b2r]. lra.
Qed.
(** A self-loop of the graph becomes a self-loop of weight -1 of the line graph, joined to nothing. *)
Theorem C49_self_loop_refuted G l lap k : built G -> nonneg_weights G -> get_edge_list (gW G) = Ok l -> valid_lap lap -> (k < g_n_edges G)%nat -> fst (edge_at l k) = snd (edge_at l k) ->
  exists L, LineGraph G lap = Ok L /\ built L /\ wt L k k = -1 /\ forall k', (k' < g_n_edges G)%nat -> k' <> k -> wt L k k' = 0.
Proof.
  intros Hb Hp Hl Hv Hk Hloop. destruct (line_incidence G l Hb Hp Hl) as (D & HD & Hinc). unfold LineGraph. rewrite HD. cbn [bindr].
  set (co := match g_coords G with Some c => _ | None => None end).
  destruct (finite_entry_built (g_n_edges G) (dense (g_n_edges G) (line_adjacency (g_n_vertices G) D)) lap co (dense_len _ _) Hv) as (L & EL & HbL & HnL & _ & HcL & HwL).
  assert (Z : forall k', nexists (g_n_vertices G) (fun i => incidence D i k && incidence D i k')%bool = false).
  { intros k'. destruct (nexists _ _) eqn:E; [|reflexivity]. apply nexists_true in E. destruct E as (i & Hi & E). apply andb_true_iff in E. destruct E as (E & _). apply Hinc in E; try assumption. destruct E as (E & _). contradiction. }
  exists L. split; [exact EL|]. split; [exact HbL|]. split.
  - rewrite HwL, dense_nth by assumption. unfold line_adjacency, idm. rewrite Z, Nat.eqb_refl. cbn [b2r]. lra.
  - intros k' Hk' Hne. rewrite HwL, dense_nth by assumption. unfold line_adjacency, idm. rewrite Z. destruct (Nat.eqb_spec k k'); [congruence|]. cbn [b2r]. lra.
Qed.
Example C49_ex : exists G l, built G /\ nonneg_weights G /\ loop_free G /\ get_edge_list (gW G) = Ok l /\ g_n_edges G = 3%nat /\ g_coords G <> None.
Proof.
  destruct (C44_path 4 Normalized) as (G & _ & HU & _ & Hlf & Hp & _ & He & _ & Hc); [lia|right; reflexivity|]. destruct HU as (Hb & _).
  destruct (C04_edge_list_enumerates_every_edge_once G Hb) as (l & Hl & _). exists G, l. rewrite Hc. repeat split; try assumption. discriminate.
Qed.
Example C49_loop_ex : exists G l k, built G /\ nonneg_weights G /\ get_edge_list (gW G) = Ok l /\ (k < g_n_edges G)%nat /\ fst (edge_at l k) = snd (edge_at l k).
Proof.
  destruct (ex_graph Combinatorial (or_introl eq_refl)) as (G & Hb & Hn & Ht & Hw). destruct (C04_edge_list_enumerates_every_edge_once G Hb) as (l & Hl & Hlen & _ & Hin).
  assert (exists i, (i < 3)%nat /\ wt G i i <> 0) as (i & Hi & Hne).
  { first [exists 0%nat; split; [lia|]; rewrite Hw by lia; cbn; lra | exists 1%nat; split; [lia|]; rewrite Hw by lia; cbn; lra | exists 2%nat; split; [lia|]; rewrite Hw by lia; cbn; lra]. }
  assert (Q : In (i, i, wt G i i) l) by (apply Hin; rewrite Hn; repeat split; try assumption; lia).
  destruct (In_nth _ _ (0%nat, 0%nat, 0) Q) as (k & Hk & E). exists G, l, k. repeat split; [exact Hb|apply ex_nonneg; assumption|exact Hl|lia|]. unfold edge_at. rewrite E. reflexivity.
Qed.
