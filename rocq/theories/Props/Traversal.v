(** Properties C05-C07 and C65: connectivity, components, subgraphs, attached signals. *)
From Coq Require Import Reals Lra Lia Arith Bool String ZArith Permutation Sorted List.
From Verif.Base Require Import RSum Prelude LinAlg.
From Verif.Spec Require Import Matrix GraphSpec Card Reach.
From Verif.Model Require Import Sparse Graph Traverse.
From Verif.Proofs Require Import SparseFacts InitFacts EdgeFacts TraverseFacts SubgraphFacts.
From Verif.Props Require Import Core.
Import ListNotations.
Open Scope R_scope.

(** There is an arc from u to v; there is a positive-weight edge. *)
Definition has_arc (G : graph) (u v : nat) : Prop :=
  (u < g_n_vertices G)%nat /\ (v < g_n_vertices G)%nat /\ wt G u v <> 0.
Definition has_pos_edge (G : graph) (u v : nat) : Prop :=
  (u < g_n_vertices G)%nat /\ (v < g_n_vertices G)%nat /\ 0 < wt G u v.

(** Some legal behaviours of set.pop(): smallest-first insertion order, latest first. *)
Definition pop_first : popper := fun _ s => hd 0%nat s.
Definition pop_last : popper := fun _ s => last s 0%nat.
Lemma pop_first_ok : pop_ok pop_first.
Proof. intros hist [|x s] H; [contradiction|left; reflexivity]. Qed.
Lemma pop_last_ok : pop_ok pop_last.
Proof.
  intros hist s H. unfold pop_last. destruct (exists_last H) as (l & a & ->). rewrite last_last.
  apply in_or_app. right; left; reflexivity.
Qed.

(** ** C05 *)

(** Never out of fuel, and the answer is strong connectivity, whatever the pop order. *)
Theorem C05_is_connected_decides_connectivity :
  forall G pop pop', built G -> pop_ok pop -> pop_ok pop' -> (0 < g_n_vertices G)%nat ->
    exists b, is_connected pop pop' (gW G) = Some (Ok b) /\
      (b = true <-> forall u v, (u < g_n_vertices G)%nat -> (v < g_n_vertices G)%nat -> reach (has_arc G) u v).
Proof.
  intros G pop pop' Hb Hp Hp' Hn0. destruct (built_good G Hb) as (Hg & Hn & _ & _).
  unfold has_arc, wt. rewrite Hn in *.
  destruct (is_connected_spec pop pop' (gW G) Hp Hp' Hn0) as (b & E & H).
  { intros Hd. apply is_directed_false. exact Hd. }
  exists b. split; [exact E|exact H].
Qed.

Theorem C05_pop_order_is_irrelevant :
  forall G p1 p1' p2 p2', built G -> pop_ok p1 -> pop_ok p1' -> pop_ok p2 -> pop_ok p2' ->
    is_connected p1 p1' (gW G) = is_connected p2 p2' (gW G).
Proof.
  intros G p1 p1' p2 p2' Hb H1 H1' H2 H2'.
  destruct (Nat.eq_dec (g_n_vertices G) 0) as [E0|E0].
  - destruct (built_good G Hb) as (_ & Hn & _ & _). unfold is_connected. rewrite <- Hn, E0. reflexivity.
  - destruct (C05_is_connected_decides_connectivity G p1 p1' Hb H1 H1' ltac:(lia)) as (b & -> & Hb1).
    destruct (C05_is_connected_decides_connectivity G p2 p2' Hb H2 H2' ltac:(lia)) as (b' & -> & Hb2).
    do 2 f_equal. destruct b, b'; try reflexivity.
    + symmetry. apply Hb2, Hb1. reflexivity.
    + apply Hb1, Hb2. reflexivity.
Qed.

(** On the empty graph the call raises IndexError. *)
Theorem C05_empty_graph_raises :
  forall G pop pop', built G -> g_n_vertices G = 0%nat -> is_connected pop pop' (gW G) = Some (Raise IndexError).
Proof.
  intros G pop pop' Hb E. destruct (built_good G Hb) as (_ & Hn & _ & _). unfold is_connected. rewrite <- Hn, E. reflexivity.
Qed.

Example C05_ex : exists G, built G /\ (0 < g_n_vertices G)%nat /\ ~ undirected G /\
  is_connected pop_last pop_first (gW G) = Some (Ok false).
Proof.
  destruct (ex_graph_dir Combinatorial (or_introl eq_refl)) as (G & Hb & Hn & _ & Hw). exists G.
  split; [exact Hb|]. split; [lia|]. split.
  { intros H. specialize (H 1%nat 2%nat ltac:(lia) ltac:(lia)). rewrite !Hw in H by lia. cbn in H. lra. }
  destruct (C05_is_connected_decides_connectivity G _ _ Hb pop_last_ok pop_first_ok ltac:(lia)) as (b & -> & Hc).
  destruct b; [|reflexivity]. exfalso.
  assert (R : reach (has_arc G) 2 0) by (apply (proj1 Hc eq_refl); lia).
  assert (H : forall u v, reach (has_arc G) u v -> u = 2%nat -> v = 2%nat).
  { intros u v R'. induction R' as [u|u v w R' IH (Hv & Hw' & Hnz)]; [auto|]. intros E. rewrite (IH E) in *.
    rewrite Hw in Hnz by lia. rewrite Hn in Hw'.
    destruct w as [|[|[|w]]]; cbn in Hnz; try lia; exfalso; apply Hnz; reflexivity. }
  specialize (H _ _ R eq_refl). discriminate.
Qed.

(** ** C06 *)

Theorem C06_components_partition :
  forall G pop, built G -> pop_ok pop -> undirected G ->
    (forall c, g_coords G = Some c -> List.length c = g_n_vertices G) ->
    exists l, extract_components pop G = Some (Ok l) /\
      (forall c, In c (map snd l) -> c <> [] /\ StronglySorted lt c) /\
      NoDup (concat (map snd l)) /\
      (forall v, In v (concat (map snd l)) <-> (v < g_n_vertices G)%nat) /\
      (forall c u v, In c (map snd l) -> In u c -> (In v c <-> reach (has_pos_edge G) u v)) /\
      (forall G' c, In (G', c) l -> subgraph G (VIdx (map Z.of_nat c)) = Ok G' /\
         g_n_vertices G' = List.length c /\
         forall a b, (a < List.length c)%nat -> (b < List.length c)%nat ->
           wt G' a b = wt G (nth a c 0%nat) (nth b c 0%nat)).
Proof.
  intros G pop Hb Hp Hu Hco. destruct (built_good G Hb) as (Hg & Hn & _ & _).
  assert (Hd : is_directed (gW G) = false).
  { apply is_directed_false. unfold undirected, wt in Hu. rewrite Hn in Hu. exact Hu. }
  unfold extract_components. rewrite Hd.
  destruct (components_spec pop (gW G) Hp) with (fuel := S (nrow (gW G))) (visited := fun _ : nat => false)
    as (cs & E & H1 & H2 & H3 & H4).
  { unfold undirected, wt in Hu. rewrite Hn in Hu. exact Hu. }
  { unfold unvisited. pose proof (ncount_le (nrow (gW G)) (fun _ => negb false)). lia. }
  { intros; discriminate. }
  rewrite E.
  assert (Hcs : forall c, In c cs -> exists G', subgraph G (VIdx (map Z.of_nat c)) = Ok G' /\
     g_n_vertices G' = List.length c /\
         forall a b, (a < List.length c)%nat -> (b < List.length c)%nat ->
           wt G' a b = wt G (nth a c 0%nat) (nth b c 0%nat)).
  { intros c Hc.
    assert (Hr : resolve (g_n_vertices G) (VIdx (map Z.of_nat c)) = Ok c).
    { cbn. replace (forallb _ _) with true.
      - f_equal. rewrite map_map. rewrite <- (map_id c) at 2. apply map_ext. intros x.
        destruct (Z.ltb_spec (Z.of_nat x) 0); lia.
      - symmetry. apply forallb_forall. intros z Hz. apply in_map_iff in Hz. destruct Hz as (x & <- & Hx).
        assert (Hxn : (x < nrow (gW G))%nat) by (apply H3, in_concat; eauto).
        apply andb_true_intro. split; [apply Z.leb_le|apply Z.ltb_lt]; lia. }
    destruct (subgraph_spec G _ c Hb Hr Hco) as (G' & EG & _ & Hn' & Hw' & _). eauto. }
  assert (Hm : exists l, mapr (fun c => bindr (subgraph G (VIdx (map Z.of_nat c))) (fun G' => Ok (G', c))) cs = Ok l /\
     map snd l = cs /\ forall G' c, In (G', c) l -> In c cs /\ subgraph G (VIdx (map Z.of_nat c)) = Ok G').
  { clear - Hcs. induction cs as [|c cs IH]; [exists []; repeat split; destruct H|].
    destruct IH as (l & El & Em & Hl); [intros c' Hc'; apply Hcs; right; exact Hc'|].
    destruct (Hcs c (or_introl eq_refl)) as (G' & EG & _).
    exists ((G', c) :: l). cbn [mapr]. rewrite EG. cbn [bindr]. rewrite El. cbn [bindr]. split; [reflexivity|].
    split; [cbn; congruence|]. intros G2 c2 [Heq|Hin].
    - injection Heq as <- <-. split; [left; reflexivity|exact EG].
    - destruct (Hl G2 c2 Hin) as (A & B). split; [right; exact A|exact B]. }
  destruct Hm as (l & El & Em & Hl). rewrite El. exists l. split; [reflexivity|]. rewrite Em.
  split; [exact H1|]. split; [exact H2|]. split.
  { intros v. rewrite H3, Hn. tauto. }
  split.
  { unfold has_pos_edge, wt. rewrite Hn. exact H4. }
  intros G' c Hin. destruct (Hl G' c Hin) as (Hc & EG). split; [exact EG|].
  destruct (Hcs c Hc) as (G2 & EG2 & R). rewrite EG in EG2. injection EG2 as <-. exact R.
Qed.

Theorem C06_directed_graphs_are_rejected :
  forall G pop, built G -> ~ undirected G -> extract_components pop G = Some (Raise NotImplementedError).
Proof.
  intros G pop Hb Hu. unfold extract_components.
  rewrite (proj2 (C03_is_directed_iff_not_symmetric G Hb) Hu). reflexivity.
Qed.

(** With negative weights is_connected says True although several components are returned. *)
Theorem C06_agrees_with_is_connected_refuted :
  exists G, built G /\ undirected G /\ is_connected pop_first pop_first (gW G) = Some (Ok true) /\
    exists l, extract_components pop_first G = Some (Ok l) /\ List.length l = 2%nat.
Proof.
  destruct (finite_entry_built 2 [0; -1; -1; 0] Combinatorial None eq_refl (or_introl eq_refl))
    as (G & _ & Hb & Hn & _ & Hc & Hw).
  assert (Hu : undirected G).
  { intros i j Hi Hj. rewrite Hn in Hi, Hj. rewrite !Hw by assumption.
    destruct i as [|[|i]]; try lia; destruct j as [|[|j]]; try lia; cbn; lra. }
  exists G. split; [exact Hb|]. split; [exact Hu|]. split.
  - destruct (C05_is_connected_decides_connectivity G _ _ Hb pop_first_ok pop_first_ok ltac:(lia)) as (b & -> & Hcn).
    do 2 f_equal. apply Hcn. intros u v Hu' Hv'. rewrite Hn in *.
    destruct (Nat.eq_dec u v) as [->|Hne]; [apply reach_refl|]. apply reach_one. unfold has_arc. rewrite Hn.
    repeat split; [assumption|assumption|]. rewrite Hw by assumption.
    destruct u as [|[|u]]; try lia; destruct v as [|[|v]]; try lia; cbn; lra.
  - destruct (C06_components_partition G pop_first Hb pop_first_ok Hu) as (l & El & H1 & H2 & H3 & H4 & _).
    { rewrite Hc. discriminate. }
    exists l. split; [exact El|].
    assert (Hno : forall u v, reach (has_pos_edge G) u v -> u = v).
    { intros u v R. induction R as [u|u v w R IH (Ha & Hb' & Hp)]; [reflexivity|]. exfalso.
      rewrite Hn in *. rewrite Hw in Hp by assumption.
      destruct v as [|[|v]]; try lia; destruct w as [|[|w]]; try lia; cbn in Hp; lra. }
    assert (Hsing : forall c, In c (map snd l) -> List.length c = 1%nat).
    { intros c Hin. destruct (H1 c Hin) as (Hne & Hs). destruct c as [|x [|y c]]; [contradiction|reflexivity|exfalso].
      assert (E : x = y) by (apply Hno; apply (H4 _ x y Hin); [left; reflexivity|right; left; reflexivity]).
      inversion Hs as [|? ? _ Hf]; subst. inversion Hf; subst. lia. }
    rewrite <- (map_length snd). 
    assert (Hlen : List.length (concat (map snd l)) = List.length (map snd l)).
    { clear - Hsing. induction (map snd l) as [|c cs IH]; [reflexivity|]. cbn [concat]. rewrite app_length, IH.
      - rewrite (Hsing c); [reflexivity|left; reflexivity].
      - intros; apply Hsing; right; assumption. }
    rewrite <- Hlen. rewrite (NoDup_same_length _ (seq 0 2) H2 (seq_NoDup 2 0)); [reflexivity|].
    intros x. rewrite H3, in_seq, Hn. lia.
Qed.

Example C06_ex : exists G, built G /\ undirected G /\
  (forall c, g_coords G = Some c -> List.length c = g_n_vertices G) /\ (0 < g_n_vertices G)%nat.
Proof.
  destruct (finite_entry_built 3 ex_data Combinatorial (Some [[0; 1]; [2; 3]; [4; 5]]) eq_refl (or_introl eq_refl))
    as (G & _ & Hb & Hn & _ & Hc & Hw).
  exists G. split; [exact Hb|]. split.
  { intros i j Hi Hj. rewrite Hn in Hi, Hj. rewrite !Hw by assumption.
    destruct i as [|[|[|i]]]; try lia; destruct j as [|[|[|j]]]; try lia; reflexivity. }
  split; [|lia]. rewrite Hc, Hn. intros c E. injection E as <-. reflexivity.
Qed.

(** ** C07 *)

(** The positions a selection denotes, stated without the model's resolver. *)
Definition denotes (n : nat) (sel : vsel) (v : list nat) : Prop :=
  match sel with
  | VIdx l => Forall2 (fun z i => (i < n)%nat /\ (z = Z.of_nat i \/ z = Z.of_nat i - Z.of_nat n)%Z) l v
  | VMask m => List.length m = n /\ StronglySorted lt v /\
               forall i, In i v <-> (i < n)%nat /\ nth i m false = true
  end.

Lemma seq_sorted n s : StronglySorted lt (seq s n).
Proof.
  revert s; induction n as [|n IH]; intros s; cbn; constructor; [apply IH|].
  apply Forall_forall. intros x Hx. apply in_seq in Hx. lia.
Qed.
Lemma filter_sorted (p : nat -> bool) l : StronglySorted lt l -> StronglySorted lt (filter p l).
Proof.
  induction l as [|x l IH]; intros H; cbn; [constructor|]. apply StronglySorted_inv in H. destruct H as (H1 & H2).
  destruct (p x); [|apply IH, H1]. constructor; [apply IH, H1|]. rewrite Forall_forall in *.
  intros y Hy. apply filter_In in Hy. apply H2; tauto.
Qed.

Lemma resolve_denotes n sel v : resolve n sel = Ok v <-> denotes n sel v.
Proof.
  destruct sel as [l|m]; cbn.
  - split.
    + destruct (forallb _ l) eqn:E; [|discriminate]. intros H; injection H as <-.
      induction l as [|z l IH]; cbn [map]; constructor.
      * cbn in E. apply andb_prop in E. destruct E as (E & _). apply andb_prop in E. destruct E as (E1 & E2).
        apply Z.leb_le in E1. apply Z.ltb_lt in E2. destruct (Z.ltb_spec z 0); lia.
      * apply IH. cbn in E. apply andb_prop in E. tauto.
    + intros H. induction H as [|z i l v (Hi & Hz) HF IH]; [reflexivity|]. cbn [forallb map].
      assert (E : (Z.leb (- Z.of_nat n) z && Z.ltb z (Z.of_nat n))%bool = true).
      { apply andb_true_intro. split; [apply Z.leb_le|apply Z.ltb_lt]; lia. }
      rewrite E. cbn [andb]. destruct (forallb _ l); [|discriminate]. injection IH as ->. f_equal. f_equal.
      destruct (Z.ltb_spec z 0); lia.
  - split.
    + destruct (Nat.eqb_spec (List.length m) n) as [E|]; [|discriminate]. intros H; injection H as <-.
      split; [exact E|]. split; [apply filter_sorted, seq_sorted|]. intros i. rewrite filter_In, in_seq. split; intros (A & B); split; auto; lia.
    + intros (E & Hs & Hin). rewrite E, Nat.eqb_refl. f_equal.
      apply sorted_ext; [apply filter_sorted, seq_sorted|exact Hs|]. intros i. rewrite filter_In, in_seq, Hin. split; intros (A & B); split; auto; lia.
Qed.

Theorem C07_subgraph_restricts :
  forall G sel v, built G -> denotes (g_n_vertices G) sel v ->
    (forall c, g_coords G = Some c -> List.length c = g_n_vertices G) ->
    exists G', subgraph G sel = Ok G' /\ built G' /\ g_n_vertices G' = List.length v /\
      (forall a b, (a < List.length v)%nat -> (b < List.length v)%nat ->
         wt G' a b = wt G (nth a v 0%nat) (nth b v 0%nat)) /\
      g_lap_type G' = g_lap_type G /\
      g_coords G' = option_map (fun c => map (fun i => nth i c []) v) (g_coords G) /\
      (forall name, dict_get name (g_signals G') =
         option_map (fun s => map (fun i => nth i s []) v) (dict_get name (g_signals G))).
Proof.
  intros G sel v Hb Hd Hco. apply resolve_denotes in Hd.
  destruct (subgraph_spec G sel v Hb Hd Hco) as (G' & H1 & H2 & H3 & H4 & H5 & H6 & H7).
  exists G'. repeat (split; [assumption|]). exact H7.
Qed.

(** Anything that denotes no selection (index out of range, mask of wrong length) is rejected. *)
Theorem C07_bad_selection_rejected :
  forall G sel, built G -> (forall v, ~ denotes (g_n_vertices G) sel v) -> subgraph G sel = Raise IndexError.
Proof.
  intros G sel Hb H. destruct (built_good G Hb) as (_ & Hn & _ & _). unfold subgraph. rewrite <- Hn.
  destruct (resolve (g_n_vertices G) sel) as [v|e] eqn:E; [exfalso; apply (H v), resolve_denotes, E|].
  cbn. destruct sel; cbn in E.
  - destruct (forallb _ _); [discriminate|congruence].
  - destruct (Nat.eqb _ _); [discriminate|congruence].
Qed.

(** A mask selects the same graph as the list of the marked indices. *)
Theorem C07_mask_equals_index_list :
  forall G m v, built G -> denotes (g_n_vertices G) (VMask m) v ->
    (forall c, g_coords G = Some c -> List.length c = g_n_vertices G) ->
    exists G1 G2, subgraph G (VMask m) = Ok G1 /\ subgraph G (VIdx (map Z.of_nat v)) = Ok G2 /\
      g_n_vertices G1 = g_n_vertices G2 /\ g_lap_type G1 = g_lap_type G2 /\ g_coords G1 = g_coords G2 /\
      (forall name, dict_get name (g_signals G1) = dict_get name (g_signals G2)) /\
      forall a b, (a < g_n_vertices G1)%nat -> (b < g_n_vertices G1)%nat -> wt G1 a b = wt G2 a b.
Proof.
  intros G m v Hb Hd Hco.
  destruct (C07_subgraph_restricts G (VMask m) v Hb Hd Hco) as (G1 & E1 & _ & N1 & W1 & T1 & C1 & S1).
  assert (Hd2 : denotes (g_n_vertices G) (VIdx (map Z.of_nat v)) v).
  { destruct Hd as (_ & _ & Hin). cbn. 
    assert (Hlt : forall i, In i v -> (i < g_n_vertices G)%nat) by (intros i Hi; apply Hin, Hi).
    clear Hin S1 C1 W1 N1. induction v as [|x v IH]; cbn; constructor; [|apply IH; intros; apply Hlt; right; assumption].
    split; [apply Hlt; left; reflexivity|left; reflexivity]. }
  destruct (C07_subgraph_restricts G _ v Hb Hd2 Hco) as (G2 & E2 & _ & N2 & W2 & T2 & C2 & S2).
  exists G1, G2. split; [exact E1|]. split; [exact E2|]. split; [congruence|]. split; [congruence|]. split; [congruence|].
  split; [intros; rewrite S1, S2; reflexivity|]. intros a b Ha Hbb. rewrite N1 in *. rewrite W1, W2 by assumption. reflexivity.
Qed.

Example C07_ex : exists G, built G /\ denotes (g_n_vertices G) (VIdx [2; -3; 2]%Z) [2; 0; 2]%nat /\
  denotes (g_n_vertices G) (VMask [true; false; true]) [0; 2]%nat /\
  (forall c, g_coords G = Some c -> List.length c = g_n_vertices G) /\ g_signals G <> [].
Proof.
  destruct C06_ex as (G0 & _). 
  destruct (finite_entry_built 3 ex_data Normalized (Some [[0; 1]; [2; 3]; [4; 5]]) eq_refl (or_intror eq_refl))
    as (G & _ & Hb & Hn & _ & Hc & Hw).
  assert (Es : set_signal G [[1]; [2]; [3]] "s"%string = Ok (with_signals G (dict_set "s"%string [[1]; [2]; [3]] (g_signals G)))).
  { unfold set_signal, check_signal. rewrite Hn. reflexivity. }
  exists (with_signals G (dict_set "s"%string [[1]; [2]; [3]] (g_signals G))).
  split; [eapply built_signal; eauto|]. cbn [g_n_vertices with_signals]. rewrite Hn. split.
  { repeat constructor; cbn; lia. }
  split.
  { cbn. split; [reflexivity|]. split; [repeat constructor; lia|]. intros i. split.
    - intros [<-|[<-|[]]]; cbn; split; auto; lia.
    - intros (Hi & E). destruct i as [|[|[|i]]]; cbn in *; try lia; try discriminate; auto. }
  split.
  - cbn. rewrite Hc. intros c E. injection E as <-. reflexivity.
  - cbn. destruct (g_signals G) as [|[k v] l]; cbn; [discriminate|]. destruct (String.eqb k "s"); discriminate.
Qed.

(** ** C65 *)

(** A call as the user sees it: the graph after the call (unchanged when it raised). *)
Definition after_set (G : graph) (c : string * rowarray) : graph :=
  match set_signal G (snd c) (fst c) with Ok G' => G' | Raise _ => G end.

Theorem C65_signals_always_fit :
  forall G calls, built G ->
    forall name s, In (name, s) (g_signals (fold_left after_set calls G)) ->
      List.length s = g_n_vertices G.
Proof.
  intros G calls Hb name s.
  assert (H : built (fold_left after_set calls G) /\ g_n_vertices (fold_left after_set calls G) = g_n_vertices G).
  { revert G Hb. induction calls as [|[k x] calls IH]; intros G Hb; [auto|]. cbn [fold_left].
    unfold after_set at 2 4. cbn [fst snd]. destruct (set_signal G x k) as [G'|e] eqn:E; [|apply IH, Hb].
    destruct (IH G' ltac:(eapply built_signal; eauto)) as (A & B). split; [exact A|]. rewrite B.
    unfold set_signal, check_signal in E. destruct (Nat.eqb _ _); [|discriminate]. injection E as <-. reflexivity. }
  destruct H as (H1 & H2). rewrite <- H2. apply built_signals, H1.
Qed.

(** The last accepted value is the one attached; other names keep theirs; W and L never change. *)
Theorem C65_set_signal_effect :
  forall G s name,
    (List.length s = g_n_vertices G ->
       exists G', set_signal G s name = Ok G' /\ dict_get name (g_signals G') = Some s /\
         (forall k, k <> name -> dict_get k (g_signals G') = dict_get k (g_signals G)) /\
         gW G' = gW G /\ gL G' = gL G /\ g_coords G' = g_coords G /\ g_n_vertices G' = g_n_vertices G) /\
    (List.length s <> g_n_vertices G -> set_signal G s name = Raise ValueError).
Proof.
  intros G s name. unfold set_signal, check_signal. split; intros H.
  - rewrite H, Nat.eqb_refl. cbn [bindr]. eexists. split; [reflexivity|]. cbn. split; [apply dict_get_set_same|].
    split; [intros k Hk; apply dict_get_set_other, Hk|]. auto.
  - destruct (Nat.eqb_spec (List.length s) (g_n_vertices G)); [contradiction|reflexivity].
Qed.

Example C65_ex : exists G, built G /\ List.length (g_signals (fold_left after_set
   [("a"%string, [[1]; [2]; [3]]); ("b"%string, [[1]]); ("a"%string, [[0]; [0]; [0]])] G)) = 1%nat.
Proof.
  destruct (finite_entry_built 3 ex_data Normalized None eq_refl (or_intror eq_refl)) as (G & E & Hb & Hn & _).
  exists G. split; [exact Hb|]. 
  assert (Hs : g_signals G = []).
  { destruct (init_inv (InDense [3; 3]%nat (map Fin ex_data)) Normalized None G eq_refl E) as (n & L & _ & _ & _ & EG). rewrite EG. reflexivity. }
  destruct G as [W n ne t L co sg]. cbn in *. subst n sg. reflexivity.
Qed.

Print Assumptions C05_is_connected_decides_connectivity.
Print Assumptions C06_components_partition.
Print Assumptions C07_subgraph_restricts.
