(** Facts about graphs built from lists of unit edges. *)
From Coq Require Import Reals Lra Lia List Arith Bool String.
From Coq Require Import List.
From Verif.Base Require Import RSum Prelude.
From Verif.Spec Require Import Matrix GraphSpec Card Reach GenSpec.
From Verif.Model Require Import Sparse Graph Reduction Generators.
From Verif.Proofs Require Import SparseFacts InitFacts EdgeFacts SubgraphFacts.
From Verif.Props Require Import Core Traversal UtilsProps.
Import ListNotations.
Open Scope R_scope.

Definition pair_dec (p q : nat * nat) : {p = q} + {p <> q}.
Proof. decide equality; apply Nat.eq_dec. Defined.

Lemma coo_here_unit i j l : lsum (coo_here i j (map (fun p => (p, 1)) l)) = INR (count_occ pair_dec l (i, j)).
Proof.
  unfold coo_here. induction l as [|[a b] l IH]; [reflexivity|]. cbn [map filter fst snd count_occ].
  destruct (pair_dec (a, b) (i, j)) as [E|E].
  - injection E as -> ->. rewrite !Nat.eqb_refl. cbn [andb map]. rewrite lsum_cons, IH, S_INR. cbn [snd]. ring.
  - destruct (Nat.eqb_spec a i), (Nat.eqb_spec b j); subst; try congruence; cbn [andb]; exact IH.
Qed.
(** The weights of a graph built from a list of unit edges: how often the pair is listed. *)
Lemma unit_weights n l lap coords : (forall p, In p l -> (fst p < n)%nat /\ (snd p < n)%nat) -> valid_lap lap ->
  exists G, unit_init n l lap coords = Ok G /\ built G /\ g_n_vertices G = n /\ g_lap_type G = lap /\ g_coords G = coords /\ g_signals G = [] /\
    forall i j, (i < n)%nat -> (j < n)%nat -> wt G i j = INR (count_occ pair_dec l (i, j)).
Proof.
  intros Hr Hl. destruct (init_coo n (map (fun p => (p, 1)) l) lap coords) as (G & E & Hb & Hn & Ht & Hc & Hs & Hw); [|exact Hl|].
  { intros t Ht. apply in_map_iff in Ht. destruct Ht as (p & <- & Hp). apply Hr. exact Hp. }
  exists G. split; [unfold unit_init, unit_coo; rewrite map_map in E; exact E|].
  repeat (split; [assumption|]). intros i j Hi Hj. rewrite Hw by assumption. apply coo_here_unit.
Qed.
Lemma unit_nodup n l lap coords : NoDup l -> (forall p, In p l -> (fst p < n)%nat /\ (snd p < n)%nat) -> valid_lap lap ->
  exists G, unit_init n l lap coords = Ok G /\ unit_graph G n (fun i j => In (i, j) l) /\ g_lap_type G = lap /\ g_coords G = coords.
Proof.
  intros Hnd Hr Hl. destruct (unit_weights n l lap coords Hr Hl) as (G & E & Hb & Hn & Ht & Hc & Hs & Hw).
  exists G. split; [exact E|]. split; [|split; assumption]. split; [exact Hb|]. split; [exact Hn|]. intros i j Hi Hj. rewrite Hw by assumption. split; intros H.
  - rewrite (proj1 (NoDup_count_occ' pair_dec l) Hnd (i, j) H). reflexivity.
  - apply (count_occ_not_In pair_dec) in H. rewrite H. reflexivity.
Qed.
Lemma unit_graph_iff G n (E F : nat -> nat -> Prop) : (forall i j, (i < n)%nat -> (j < n)%nat -> (E i j <-> F i j)) -> unit_graph G n E -> unit_graph G n F.
Proof.
  intros H (Hb & Hn & Hw). split; [exact Hb|]. split; [exact Hn|]. intros i j Hi Hj. destruct (Hw i j Hi Hj) as (H1 & H0). specialize (H i j Hi Hj). split; intros K; [apply H1|apply H0]; tauto.
Qed.
Lemma unit_nonneg G n E : (forall i j, {E i j} + {~ E i j}) -> unit_graph G n E -> nonneg_weights G.
Proof.
  intros D (Hb & Hn & Hw) i j Hi Hj. rewrite Hn in Hi, Hj. destruct (Hw i j Hi Hj) as (H1 & H0). destruct (D i j) as [H|H]; [rewrite (H1 H)|rewrite (H0 H)]; lra.
Qed.
Lemma unit_undirected G n E : (forall i j, {E i j} + {~ E i j}) -> (forall i j, (i < n)%nat -> (j < n)%nat -> E i j -> E j i) -> unit_graph G n E -> undirected G.
Proof.
  intros D Hs (Hb & Hn & Hw) i j Hi Hj. rewrite Hn in Hi, Hj. destruct (Hw i j Hi Hj) as (H1 & H0). destruct (Hw j i Hj Hi) as (H1' & H0').
  destruct (D i j) as [H|H]; [rewrite (H1 H), (H1' (Hs _ _ Hi Hj H)); reflexivity|]. rewrite (H0 H), H0'; [reflexivity|]. intros K. apply H. apply Hs; assumption.
Qed.
Lemma unit_loop_free G n E : (forall i, (i < n)%nat -> ~ E i i) -> unit_graph G n E -> loop_free G.
Proof. intros Hi (Hb & Hn & Hw) i H. rewrite Hn in H. apply (Hw i i H H). apply Hi. exact H. Qed.
Lemma unit_arc G n (E : nat -> nat -> Prop) i j : unit_graph G n E -> (i < n)%nat -> (j < n)%nat -> E i j -> has_arc G i j.
Proof. intros (Hb & Hn & Hw) Hi Hj H. unfold has_arc. rewrite Hn. split; [exact Hi|]. split; [exact Hj|]. rewrite (proj1 (Hw i j Hi Hj) H). lra. Qed.
(** A list of the edges of an undirected graph, each once, gives the number of edges. *)
Lemma edges_listed G l : built G -> undirected G -> NoDup l ->
  (forall i j, In (i, j) l <-> (i <= j)%nat /\ (j < g_n_vertices G)%nat /\ wt G i j <> 0) -> g_n_edges G = List.length l.
Proof.
  intros Hb Hu Hnd Hin. apply (card_unique _ _ _ (C02_n_edges_undirected G Hb Hu)). exists l. split; [exact Hnd|]. split; [|reflexivity].
  intros [i j]. cbn [fst snd]. apply Hin.
Qed.
Lemma half_pairs l : NoDup l -> (forall i j, In (i, j) l -> In (j, i) l) -> (forall i, ~ In (i, i) l) ->
  (2 * List.length (filter (fun p => Nat.ltb (fst p) (snd p)) l))%nat = List.length l.
Proof.
  intros Hnd Hs Hi. set (sw := fun p : nat * nat => (snd p, fst p)).
  assert (E : List.length (filter (fun p => Nat.ltb (fst p) (snd p)) l) = List.length (filter (fun p => negb (Nat.ltb (fst p) (snd p))) l)).
  { apply Nat.le_antisymm.
    - rewrite <- (map_length sw). apply NoDup_length_le.
      + apply FinFun.Injective_map_NoDup; [intros [a b] [c d] H; injection H as -> ->; reflexivity|apply NoDup_filter; exact Hnd].
      + intros p Hp. apply in_map_iff in Hp. destruct Hp as ([a b] & <- & Hp). apply filter_In in Hp. destruct Hp as (Hp & Hlt). cbn in Hlt. apply Nat.ltb_lt in Hlt.
        apply filter_In. unfold sw. cbn [fst snd]. split; [apply Hs; exact Hp|]. destruct (Nat.ltb_spec b a); [lia|reflexivity].
    - rewrite <- (map_length sw (filter (fun p => negb _) l)). apply NoDup_length_le.
      + apply FinFun.Injective_map_NoDup; [intros [a b] [c d] H; injection H as -> ->; reflexivity|apply NoDup_filter; exact Hnd].
      + intros p Hp. apply in_map_iff in Hp. destruct Hp as ([a b] & <- & Hp). apply filter_In in Hp. destruct Hp as (Hp & Hlt). cbn [fst snd] in Hlt.
        apply filter_In. unfold sw. cbn [fst snd]. split; [apply Hs; exact Hp|]. destruct (Nat.ltb_spec a b) as [|H]; [discriminate|]. apply Nat.ltb_lt.
        assert (a <> b) by (intros ->; apply (Hi b); exact Hp). lia. }
  assert (T : (List.length (filter (fun p => Nat.ltb (fst p) (snd p)) l) + List.length (filter (fun p => negb (Nat.ltb (fst p) (snd p))) l))%nat = List.length l).
  { clear. induction l as [|p l IH]; [reflexivity|]. cbn [filter List.length]. destruct (Nat.ltb (fst p) (snd p)); cbn [negb List.length]; lia. }
  lia.
Qed.
(** The master lemma for loop-free undirected generators. *)
Lemma simple_unit n l lap coords : NoDup l -> (forall p, In p l -> (fst p < n)%nat /\ (snd p < n)%nat) ->
  (forall i j, In (i, j) l -> In (j, i) l) -> (forall i, ~ In (i, i) l) -> valid_lap lap ->
  exists G, unit_init n l lap coords = Ok G /\ unit_graph G n (fun i j => In (i, j) l) /\ undirected G /\ loop_free G /\ nonneg_weights G /\
    (2 * g_n_edges G)%nat = List.length l /\ g_lap_type G = lap /\ g_coords G = coords.
Proof.
  intros Hnd Hr Hs Hi Hl. destruct (unit_nodup n l lap coords Hnd Hr Hl) as (G & E & HU & Ht & Hc).
  assert (D : forall i j, {In (i, j) l} + {~ In (i, j) l}) by (intros; apply (in_dec pair_dec)).
  assert (Hu : undirected G) by (apply (unit_undirected G n _ D); [intros; apply Hs; assumption|exact HU]).
  exists G. split; [exact E|]. split; [exact HU|]. split; [exact Hu|]. split; [apply (unit_loop_free G n _ (fun i _ => Hi i) HU)|]. split; [apply (unit_nonneg G n _ D HU)|].
  split; [|split; assumption]. rewrite <- (half_pairs l Hnd Hs Hi). f_equal. pose proof HU as (Hb & Hn & Hw).
  apply edges_listed; [exact Hb|exact Hu|apply NoDup_filter; exact Hnd|]. intros i j. rewrite filter_In. cbn [fst snd]. rewrite Nat.ltb_lt, Hn. split.
  - intros (Hin & Hlt). destruct (Hr _ Hin) as (H1 & H2). cbn in H1, H2. split; [lia|]. split; [lia|]. rewrite (proj1 (Hw i j H1 H2) Hin). lra.
  - intros (Hle & Hj & Hne). assert (Hi' : (i < n)%nat) by lia. destruct (D i j) as [H|H]; [|rewrite (proj2 (Hw i j Hi' Hj) H) in Hne; lra].
    split; [exact H|]. assert (i <> j) by (intros ->; apply (Hi j); exact H). lia.
Qed.
(** Dense arguments *)
Lemma dense_len m A : List.length (dense m A) = (m * m)%nat.
Proof.
  unfold dense. rewrite flat_map_length_sum. rewrite (map_ext _ (fun _ => m)) by (intros; rewrite map_length, seq_length; reflexivity).
  assert (K : forall (l : list nat), list_sum (map (fun _ => m) l) = (List.length l * m)%nat) by (induction l as [|a l IH]; [reflexivity|change (m + list_sum (map (fun _ => m) l) = S (List.length l) * m)%nat; rewrite IH; lia]).
  rewrite K, seq_length. reflexivity.
Qed.
(** Connectivity from a root *)
Lemma rooted_connected G r : undirected G -> (forall v, (v < g_n_vertices G)%nat -> reach (has_arc G) r v) -> connected G.
Proof.
  intros Hu H u v Hu' Hv. apply (reach_trans _ u r v); [|apply H; exact Hv]. apply (reach_rev (has_arc G) (has_arc G)); [|apply H; exact Hu'].
  intros a b (Ha & Hb & Hne). split; [exact Hb|]. split; [exact Ha|]. rewrite Hu by assumption. exact Hne.
Qed.
Lemma ladder_connected G : undirected G -> (forall v, (S v < g_n_vertices G)%nat -> exists u, (u <= v)%nat /\ has_arc G u (S v)) -> connected G.
Proof.
  intros Hu H. apply (rooted_connected G 0 Hu).
  assert (K : forall m v, (v <= m)%nat -> (v < g_n_vertices G)%nat -> reach (has_arc G) 0%nat v).
  { induction m as [|m IH]; intros v Hv Hn; [assert (v = 0)%nat by lia; subst; apply reach_refl|].
    destruct v as [|v]; [apply reach_refl|]. destruct (H v Hn) as (u & Hle & Ha). eapply reach_step; [|exact Ha]. apply IH; [lia|]. destruct Ha. lia. }
  intros v Hv. apply (K v v (le_n v) Hv).
Qed.
