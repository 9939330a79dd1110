(** C44-C48: the deterministic generators. *)
From Coq Require Import Reals Lra Lia List Arith Bool String.
From Coq Require Import List.
From Verif.Base Require Import RSum Prelude.
From Verif.Spec Require Import Matrix GraphSpec Card Reach GenSpec.
From Verif.Model Require Import Sparse Graph Utils Reduction Generators.
From Verif.Proofs Require Import SparseFacts InitFacts EdgeFacts SubgraphFacts GenFacts.
From Verif.Props Require Import Core Traversal UtilsProps ReductionProps.
Import ListNotations.
Open Scope R_scope.

Ltac in_lists := repeat first [rewrite in_app_iff | rewrite in_map_iff | rewrite in_flat_map | rewrite in_seq].
Lemma map_seq_in {B} (h : nat -> B) a n p : In p (map h (seq a n)) <-> exists t, (a <= t < a + n)%nat /\ h t = p.
Proof. rewrite in_map_iff. split; intros (t & H1 & H2); exists t; rewrite ?in_seq in *; intuition. Qed.
Lemma map_seq_nodup {B} (h : nat -> B) a n : (forall s t, (a <= s < a + n)%nat -> (a <= t < a + n)%nat -> h s = h t -> s = t) -> NoDup (map h (seq a n)).
Proof.
  intros H. revert a H. induction n as [|n IH]; intros a H; [constructor|]. cbn [seq map]. constructor.
  - rewrite map_seq_in. intros (t & Ht & E). assert (t = a) by (apply H; [lia|lia|exact E]). lia.
  - apply IH. intros s t Hs Ht. apply H; lia.
Qed.

(** ** C44: Path *)
Lemma path_in N i j : In (i, j) (path_pairs N false) <-> (i < N)%nat /\ (j < N)%nat /\ (j = S i \/ i = S j).
Proof.
  unfold path_pairs. rewrite in_app_iff, !map_seq_in. split.
  - intros [(t & Ht & E)|(t & Ht & E)]; injection E as <- <-; lia.
  - intros (Hi & Hj & [->| ->]); [left; exists i|right; exists j]; split; try reflexivity; lia.
Qed.
Lemma path_nodup N : NoDup (path_pairs N false).
Proof.
  unfold path_pairs. apply NoDup_app_disj; [apply map_seq_nodup; intros s t _ _ E; injection E; lia|apply map_seq_nodup; intros s t _ _ E; injection E; lia|].
  intros p. rewrite !map_seq_in. intros (t & _ & <-) (s & _ & E). injection E. lia.
Qed.
(** Path(N): adjacent exactly when the numbers differ by one; N - 1 edges; connected. *)
Theorem C44_path N lap : (1 <= N)%nat -> valid_lap lap ->
  exists G, Path N false lap = Ok G /\ unit_graph G N (fun i j => j = S i \/ i = S j) /\
    undirected G /\ loop_free G /\ nonneg_weights G /\ connected G /\ g_n_edges G = (N - 1)%nat /\ g_lap_type G = lap /\
    g_coords G = Some (map (fun i => [INR i; 0]) (seq 0 N)).
Proof.
  intros HN Hl. unfold Path. destruct (Nat.eqb_spec N 0); [lia|].
  destruct (simple_unit N (path_pairs N false) lap (Some (line2D N)) (path_nodup N)) as (G & E & HU & Hu & Hlf & Hp & He & Ht & Hc); try assumption.
  { intros [i j] H. apply path_in in H. cbn. lia. }
  { intros i j H. apply path_in in H. apply path_in. lia. }
  { intros i H. apply path_in in H. lia. }
  exists G. split; [exact E|].
  assert (HU' : unit_graph G N (fun i j => j = S i \/ i = S j)). { apply (unit_graph_iff _ _ _ _ (fun i j Hi Hj => conj (fun H => proj2 (proj2 (proj1 (path_in N i j) H))) (fun H => proj2 (path_in N i j) (conj Hi (conj Hj H)))) HU). }
  split; [exact HU'|]. split; [exact Hu|]. split; [exact Hlf|]. split; [exact Hp|]. split.
  - apply ladder_connected; [exact Hu|]. intros v Hv. exists v. split; [lia|]. pose proof HU' as (_ & Hn & _). apply (unit_arc G N _ v (S v) HU'); [lia|lia|left; reflexivity].
  - split; [|split; [exact Ht|exact Hc]]. unfold path_pairs in He. rewrite app_length, !map_length, !seq_length in He. lia.
Qed.
(** The directed variant has the forward arcs only. *)
Theorem C44_directed_path N lap : (1 <= N)%nat -> valid_lap lap ->
  exists G, Path N true lap = Ok G /\ unit_graph G N (fun i j => j = S i) /\ g_n_edges G = (N - 1)%nat /\ ((2 <= N)%nat -> ~ undirected G).
Proof.
  intros HN Hl. unfold Path. destruct (Nat.eqb_spec N 0); [lia|].
  assert (Hnd : NoDup (path_pairs N true)) by (apply map_seq_nodup; intros s t _ _ E; injection E; lia).
  assert (Hin : forall i j, In (i, j) (path_pairs N true) <-> (j < N)%nat /\ j = S i).
  { intros i j. unfold path_pairs. rewrite map_seq_in. split; [intros (t & Ht & E); injection E as <- <-; lia|]. intros (H & ->). exists i. split; [lia|reflexivity]. }
  destruct (unit_nodup N (path_pairs N true) lap (Some (line2D N)) Hnd) as (G & E & HU & Ht & Hc); [|exact Hl|].
  { intros [i j] H. apply Hin in H. cbn. lia. }
  exists G. split; [exact E|].
  assert (HU' : unit_graph G N (fun i j => j = S i)). { eapply unit_graph_iff; [|exact HU]. intros i j Hi Hj. cbv beta. rewrite Hin. tauto. }
  split; [exact HU'|]. pose proof HU' as (Hb & Hn & Hw).
  assert (Hnu : (2 <= N)%nat -> ~ undirected G). { intros H2 Hu. specialize (Hu 0%nat 1%nat). rewrite Hn in Hu. specialize (Hu ltac:(lia) ltac:(lia)).
    rewrite (proj1 (Hw 0%nat 1%nat ltac:(lia) ltac:(lia)) eq_refl) in Hu. rewrite (proj2 (Hw 1%nat 0%nat ltac:(lia) ltac:(lia)) ltac:(lia)) in Hu. lra. }
  split; [|exact Hnu]. destruct (Nat.eq_dec N 1) as [->|H1].
  - assert (Hu : undirected G). { intros i j Hi Hj. rewrite Hn in Hi, Hj. assert (i = 0 /\ j = 0)%nat as (-> & ->) by lia. reflexivity. }
    rewrite (edges_listed G [] Hb Hu (NoDup_nil _)); [reflexivity|]. intros i j. rewrite Hn. split; [intros []|]. intros (H & H' & Hne). assert (i = 0 /\ j = 0)%nat as (-> & ->) by lia.
    apply Hne. apply (Hw 0%nat 0%nat); lia.
  - apply (card_unique _ _ _ (C02_n_edges_directed G Hb (Hnu ltac:(lia)))). exists (path_pairs N true). split; [exact Hnd|]. split; [|unfold path_pairs; rewrite map_length, seq_length; reflexivity].
    intros [i j]. rewrite Hin. cbn [fst snd]. rewrite Hn. split.
    + intros (Hj & ->). split; [lia|]. split; [exact Hj|]. rewrite (proj1 (Hw i (S i) ltac:(lia) Hj) eq_refl). lra.
    + intros (Hi & Hj & Hne). split; [exact Hj|]. destruct (Nat.eq_dec j (S i)); [assumption|]. exfalso. apply Hne. apply (Hw i j); assumption.
Qed.
Theorem C44_empty_rejected d lap : Path 0 d lap = Raise ValueError. Proof. reflexivity. Qed.

(** ** C45: Ring *)
Lemma wrap N t d : (t < N)%nat -> (d < N)%nat -> Nat.modulo (t + d) N = if Nat.ltb (t + d) N then (t + d)%nat else (t + d - N)%nat.
Proof.
  intros Ht Hd. destruct (Nat.ltb_spec (t + d) N) as [H|H]; [apply Nat.mod_small; exact H|].
  replace (t + d)%nat with ((t + d - N) + 1 * N)%nat at 1 by lia. rewrite Nat.mod_add by lia. apply Nat.mod_small. lia.
Qed.
Lemma circ_wrap N t d : (t < N)%nat -> (2 * d < N)%nat -> circ N t (Nat.modulo (t + d) N) = d.
Proof. intros Ht Hd. rewrite wrap by lia. unfold circ. destruct (Nat.ltb_spec (t + d) N); lia. Qed.
Lemma circ_sym N i j : circ N i j = circ N j i.
Proof. unfold circ. lia. Qed.
Lemma circ_inv N i j : (i < N)%nat -> (j < N)%nat -> let d := circ N i j in
  j = Nat.modulo (i + d) N \/ i = Nat.modulo (j + d) N.
Proof.
  intros Hi Hj d. assert (Hd : (2 * d <= N)%nat) by (unfold d, circ; lia).
  destruct (Nat.eq_dec N 1) as [->|]; [left; replace (i + d)%nat with 0%nat by (unfold d, circ; lia); cbn; lia|].
  rewrite !wrap by lia. unfold d, circ in *. destruct (Nat.ltb_spec (i + Nat.min (Nat.max i j - Nat.min i j) (N - (Nat.max i j - Nat.min i j))) N);
  destruct (Nat.ltb_spec (j + Nat.min (Nat.max i j - Nat.min i j) (N - (Nat.max i j - Nat.min i j))) N); lia.
Qed.
Lemma ring_small N k : (3 <= N)%nat -> (2 * k < N)%nat -> ring_pairs N k =
  flat_map (fun i => map (fun t => (t, Nat.modulo (t + i + 1) N)) (seq 0 N) ++ map (fun t => (Nat.modulo (t + i + 1) N, t)) (seq 0 N))%list (seq 0 k).
Proof.
  intros HN Hk. unfold ring_pairs. destruct (Nat.eqb_spec (2 * k) N); [lia|]. rewrite app_nil_r.
  replace (Nat.min k (Nat.div (N - 1) 2)) with k; [reflexivity|]. symmetry. apply Nat.min_l. apply Nat.div_le_lower_bound; lia.
Qed.
Lemma ring_block_in N i a b : (0 < N)%nat -> In (a, b) (map (fun t => (t, Nat.modulo (t + i + 1) N)) (seq 0 N) ++ map (fun t => (Nat.modulo (t + i + 1) N, t)) (seq 0 N)) <->
  (a < N)%nat /\ (b < N)%nat /\ (b = Nat.modulo (a + S i) N \/ a = Nat.modulo (b + S i) N).
Proof.
  intros HN. rewrite in_app_iff, !map_seq_in. assert (E : forall t, (t + i + 1 = t + S i)%nat) by lia.
  assert (M : forall t, (Nat.modulo t N < N)%nat) by (intros; apply Nat.mod_upper_bound; lia). split.
  - intros [(t & Ht & H)|(t & Ht & H)]; injection H as <- <-; rewrite E; pose proof (M (t + S i)%nat); (split; [lia|]); (split; [lia|]); [left; reflexivity|right; reflexivity].
  - intros (Ha & Hb & [->| ->]); [left; exists a|right; exists b]; rewrite E; split; try lia; reflexivity.
Qed.
Lemma ring_in N k a b : (3 <= N)%nat -> (2 * k < N)%nat -> In (a, b) (ring_pairs N k) <-> (a < N)%nat /\ (b < N)%nat /\ (1 <= circ N a b <= k)%nat.
Proof.
  intros HN Hk. rewrite ring_small by assumption. rewrite in_flat_map. split.
  - intros (i & Hi & H). apply in_seq in Hi. apply ring_block_in in H; [|lia]. destruct H as (Ha & Hb & H). split; [exact Ha|]. split; [exact Hb|].
    destruct H as [-> | ->]; [rewrite circ_wrap by lia|rewrite circ_sym, circ_wrap by lia]; lia.
  - intros (Ha & Hb & Hc). exists (circ N a b - 1)%nat. split; [apply in_seq; lia|]. apply ring_block_in; [lia|]. split; [exact Ha|]. split; [exact Hb|].
    replace (S (circ N a b - 1)) with (circ N a b) by lia. apply circ_inv; assumption.
Qed.
Lemma ring_nodup N k : (3 <= N)%nat -> (2 * k < N)%nat -> NoDup (ring_pairs N k).
Proof.
  intros HN Hk. rewrite ring_small by assumption. apply NoDup_flat_map; [apply seq_NoDup| |].
  - intros i Hi. apply in_seq in Hi. apply NoDup_app_disj; [apply map_seq_nodup; intros s t _ _ E; injection E; auto|apply map_seq_nodup; intros s t _ _ E; injection E; auto|].
    intros p. rewrite !map_seq_in. intros (t & Ht & <-) (s & Hs & E). injection E as E1 E2. subst s.
    replace (t + i + 1)%nat with (t + S i)%nat in E1 by lia. set (b := Nat.modulo (t + S i) N) in *.
    assert (Hb : (b < N)%nat) by (apply Nat.mod_upper_bound; lia). replace (b + i + 1)%nat with (b + S i)%nat in E1 by lia.
    unfold b in *. rewrite wrap in E1, Hb by lia. rewrite wrap in E1 by lia.
    destruct (Nat.ltb_spec (t + S i) N); [destruct (Nat.ltb_spec (t + S i + S i) N)|destruct (Nat.ltb_spec (t + S i - N + S i) N)]; lia.
  - intros i i' [a b] Hi Hi' H H'. apply in_seq in Hi, Hi'. apply ring_block_in in H, H'; try lia. destruct H as (Ha & Hb & H), H' as (_ & _ & H').
    assert (E1 : circ N a b = S i) by (destruct H as [-> | ->]; [apply circ_wrap; lia|rewrite circ_sym; apply circ_wrap; lia]).
    assert (E2 : circ N a b = S i') by (destruct H' as [-> | ->]; [apply circ_wrap; lia|rewrite circ_sym; apply circ_wrap; lia]).
    lia.
Qed.
(** Ring(N, k) with 2k < N: adjacent exactly at circular distance 1 to k; N k edges; every vertex has 2k neighbours; connected for k >= 1. *)
Theorem C45_ring N k lap : (3 <= N)%nat -> (2 * k < N)%nat -> valid_lap lap ->
  exists G, Ring N k lap = Ok G /\ unit_graph G N (fun i j => (1 <= circ N i j <= k)%nat) /\
    undirected G /\ loop_free G /\ nonneg_weights G /\ g_n_edges G = (N * k)%nat /\ ((1 <= k)%nat -> connected G) /\
    (forall i, (i < N)%nat -> card (fun j => (j < N)%nat /\ (1 <= circ N i j <= k)%nat) (2 * k)) /\ g_coords G = Some (ring2D N).
Proof.
  intros HN Hk Hl. unfold Ring. destruct (Nat.ltb_spec N 3); [lia|]. destruct (Nat.ltb_spec N (2 * k)); [lia|].
  destruct (simple_unit N (ring_pairs N k) lap (Some (ring2D N)) (ring_nodup N k HN Hk)) as (G & E & HU & Hu & Hlf & Hp & He & Ht & Hc); try assumption.
  { intros [i j] H'. apply ring_in in H'; [cbn; lia|lia|lia]. }
  { intros i j H'. apply ring_in in H'; try lia. apply ring_in; try lia. rewrite circ_sym. tauto. }
  { intros i H'. apply ring_in in H'; try lia. unfold circ in H'. lia. }
  assert (HU' : unit_graph G N (fun i j => (1 <= circ N i j <= k)%nat)). { eapply unit_graph_iff; [|exact HU]. intros i j Hi Hj. cbv beta. rewrite ring_in by lia. tauto. }
  exists G. split; [exact E|]. split; [exact HU'|]. split; [exact Hu|]. split; [exact Hlf|]. split; [exact Hp|]. split; [|split; [|split; [|exact Hc]]].
  - rewrite ring_small in He by assumption. rewrite flat_map_length_sum in He.
    rewrite (map_ext _ (fun _ => (2 * N)%nat)) in He by (intros; rewrite app_length, !map_length, seq_length; lia).
    assert (K : forall m (l : list nat), list_sum (map (fun _ => m) l) = (List.length l * m)%nat) by (intros m l; induction l as [|a l IH]; [reflexivity|change (m + list_sum (map (fun _ => m) l) = S (List.length l) * m)%nat; rewrite IH; lia]).
    rewrite K, seq_length in He. lia.
  - intros H1. apply ladder_connected; [exact Hu|]. intros v Hv. exists v. split; [lia|]. pose proof HU' as (_ & Hn & _). apply (unit_arc G N _ v (S v) HU'); [lia|lia|]. unfold circ. lia.
  - intros i Hi. exists (map (fun d => Nat.modulo (i + d) N) (seq 1 k) ++ map (fun d => Nat.modulo (i + (N - d)) N) (seq 1 k))%list. split; [|split].
    + apply NoDup_app_disj; [apply map_seq_nodup|apply map_seq_nodup|].
      * intros s t Hs Ht'. rewrite !wrap by lia. destruct (Nat.ltb_spec (i + s) N), (Nat.ltb_spec (i + t) N); lia.
      * intros s t Hs Ht'. rewrite !wrap by lia. destruct (Nat.ltb_spec (i + (N - s)) N), (Nat.ltb_spec (i + (N - t)) N); lia.
      * intros x. rewrite !map_seq_in. intros (s & Hs & <-) (t & Ht' & E'). rewrite !wrap in E' by lia. destruct (Nat.ltb_spec (i + s) N), (Nat.ltb_spec (i + (N - t)) N); lia.
    + intros j. rewrite in_app_iff, !map_seq_in. split.
      * intros [(d & Hd & <-)|(d & Hd & <-)].
        -- split; [apply Nat.mod_upper_bound; lia|]. rewrite circ_wrap by lia. lia.
        -- split; [apply Nat.mod_upper_bound; lia|]. rewrite wrap by lia. unfold circ. destruct (Nat.ltb_spec (i + (N - d)) N); lia.
      * intros (Hj & Hc'). destruct (circ_inv N i j Hi Hj) as [E'|E'].
        -- left. exists (circ N i j). split; [lia|symmetry; exact E'].
        -- right. exists (circ N i j). split; [lia|]. set (d := circ N i j) in *. rewrite E'. rewrite (wrap N j d) by lia. destruct (Nat.ltb_spec (j + d) N).
           ++ rewrite wrap by lia. destruct (Nat.ltb_spec (j + d + (N - d)) N); lia.
           ++ rewrite wrap by lia. destruct (Nat.ltb_spec (j + d - N + (N - d)) N); lia.
    + rewrite app_length, !map_length, !seq_length. lia.
Qed.
Theorem C45_rejected N k lap : (N < 3 \/ N < 2 * k)%nat -> Ring N k lap = Raise ValueError.
Proof. intros H. unfold Ring. destruct (Nat.ltb_spec N 3); [reflexivity|]. destruct (Nat.ltb_spec N (2 * k)); [reflexivity|lia]. Qed.
(** 2k = N, accepted by the constructor: the graph has a self-loop and is directed. *)
Theorem C45_half_ring_refuted k lap : (2 <= k)%nat -> valid_lap lap ->
  exists G, Ring (2 * k) k lap = Ok G /\ built G /\ g_n_vertices G = (2 * k)%nat /\ ~ loop_free G /\ ~ undirected G.
Proof.
  intros Hk Hl. remember (2 * k)%nat as N eqn:HN. unfold Ring. rewrite <- ?HN. destruct (Nat.ltb_spec N 3); [lia|]. destruct (Nat.ltb_spec N N); [lia|].
  assert (Hr : ring_pairs N k = (ring_pairs N (k - 1) ++ map (fun t => (Nat.modulo (t + k + 1) N, 0%nat)) (seq 0 N))%list).
  { rewrite (ring_small N (k - 1)) by lia. unfold ring_pairs. rewrite <- ?HN, Nat.eqb_refl. f_equal. f_equal. f_equal.
    assert (Nat.div (N - 1) 2 = (k - 1)%nat). { symmetry. apply (Nat.div_unique _ _ _ 1); lia. } lia. }
  rewrite Hr. destruct (unit_weights N (ring_pairs N (k - 1) ++ map (fun t => (Nat.modulo (t + k + 1) N, 0%nat)) (seq 0 N))%list lap (Some (ring2D N))) as (G & E & Hb & Hn & _ & _ & _ & Hw); [|exact Hl|].
  { intros [a b] H'. apply in_app_iff in H'. destruct H' as [H'|H']; [apply ring_in in H'; cbn; lia|]. apply map_seq_in in H'. destruct H' as (t & Ht & E). injection E as <- <-.
    cbn. split; [apply Nat.mod_upper_bound; lia|lia]. }
  assert (Hcnt : forall i j, count_occ pair_dec (ring_pairs N (k - 1) ++ map (fun t => (Nat.modulo (t + k + 1) N, 0%nat)) (seq 0 N))%list (i, j) =
    (count_occ pair_dec (ring_pairs N (k - 1)) (i, j) + count_occ pair_dec (map (fun t => (Nat.modulo (t + k + 1) N, 0%nat)) (seq 0 N)) (i, j))%nat) by (intros; apply count_occ_app).
  assert (Hnd : NoDup (ring_pairs N (k - 1))) by (apply ring_nodup; lia).
  assert (Hnd2 : NoDup (map (fun t => (Nat.modulo (t + k + 1) N, 0%nat)) (seq 0 N))).
  { apply map_seq_nodup. intros s t Hs Ht E'. injection E' as E'. rewrite <- !Nat.add_assoc, !wrap in E' by lia. destruct (Nat.ltb_spec (s + (k + 1)) N), (Nat.ltb_spec (t + (k + 1)) N); lia. }
  assert (Hin2 : forall i, (i < N)%nat -> In (i, 0%nat) (map (fun t => (Nat.modulo (t + k + 1) N, 0%nat)) (seq 0 N))).
  { intros i Hi. apply map_seq_in. exists (Nat.modulo (i + (k - 1)) N). split; [split; [lia|apply Nat.mod_upper_bound; lia]|]. f_equal. rewrite (wrap N i (k - 1)) by lia.
    destruct (Nat.ltb_spec (i + (k - 1)) N); [replace (i + (k - 1) + k + 1)%nat with (i + (k - 1) + (k + 1))%nat by lia|replace (i + (k - 1) - N + k + 1)%nat with (i + (k - 1) - N + (k + 1))%nat by lia]; rewrite wrap by lia.
    - destruct (Nat.ltb_spec (i + (k - 1) + (k + 1)) N); lia.
    - destruct (Nat.ltb_spec (i + (k - 1) - N + (k + 1)) N); lia. }
  exists G. split; [exact E|]. split; [exact Hb|]. split; [exact Hn|]. split.
  - intros Hlf. specialize (Hlf 0%nat). rewrite Hn in Hlf. specialize (Hlf ltac:(lia)). rewrite Hw, Hcnt in Hlf by lia.
    rewrite (proj1 (NoDup_count_occ' pair_dec _) Hnd2 _ (Hin2 0%nat ltac:(lia))) in Hlf. rewrite plus_INR in Hlf. cbn [INR] in Hlf. pose proof (pos_INR (count_occ pair_dec (ring_pairs N (k - 1)) (0%nat, 0%nat))). lra.
  - intros Hu. specialize (Hu 1%nat 0%nat). rewrite Hn in Hu. specialize (Hu ltac:(lia) ltac:(lia)). rewrite !Hw, !Hcnt in Hu by lia.
    rewrite (proj1 (NoDup_count_occ' pair_dec _) Hnd2 _ (Hin2 1%nat ltac:(lia))) in Hu.
    assert (Z1 : count_occ pair_dec (map (fun t => (Nat.modulo (t + k + 1) N, 0%nat)) (seq 0 N)) (0%nat, 1%nat) = 0%nat).
    { apply (count_occ_not_In pair_dec). rewrite map_seq_in. intros (t & _ & E'). injection E'. lia. }
    assert (S1 : count_occ pair_dec (ring_pairs N (k - 1)) (1%nat, 0%nat) = count_occ pair_dec (ring_pairs N (k - 1)) (0%nat, 1%nat)).
    { destruct (in_dec pair_dec (1%nat, 0%nat) (ring_pairs N (k - 1))) as [H1|H1].
      - rewrite (proj1 (NoDup_count_occ' pair_dec _) Hnd _ H1). symmetry. apply (proj1 (NoDup_count_occ' pair_dec _) Hnd). apply ring_in in H1; [|lia|lia]. apply ring_in; try lia. rewrite circ_sym. tauto.
      - rewrite (proj1 (count_occ_not_In pair_dec _ _) H1). symmetry. apply (count_occ_not_In pair_dec). intros H2. apply H1. apply ring_in in H2; [|lia|lia]. apply ring_in; try lia. rewrite circ_sym. tauto. }
    rewrite Z1, S1, !plus_INR in Hu. cbn [INR] in Hu. lra.
Qed.

(** ** C48: Comet, Star, FullConnected *)
Definition comet_edge (k i j : nat) : Prop := (i = 0 /\ 1 <= j <= k \/ k <= i /\ j = S i)%nat.
Lemma comet_in N k a b : (k < N)%nat -> In (a, b) (comet_pairs N k) <-> (a < N)%nat /\ (b < N)%nat /\ (comet_edge k a b \/ comet_edge k b a).
Proof.
  intros Hk. unfold comet_pairs, comet_edge. rewrite !in_app_iff, !map_seq_in. split.
  - intros [(t & Ht & E)|[(t & Ht & E)|[(t & Ht & E)|(t & Ht & E)]]]; injection E as <- <-; lia.
  - intros (Ha & Hb & [[(-> & H)|(H & ->)]|[(-> & H)|(H & ->)]]).
    + left. exists (b - 1)%nat. split; [lia|]. f_equal. lia.
    + right; right; left. exists a. split; [lia|reflexivity].
    + right; left. exists (a - 1)%nat. split; [lia|]. f_equal. lia.
    + right; right; right. exists b. split; [lia|reflexivity].
Qed.
(** For k = 0 the tail starts at the centre itself. *)
Lemma comet_nodup N k : (k < N)%nat -> NoDup (comet_pairs N k).
Proof.
  intros Hk. unfold comet_pairs. repeat apply NoDup_app_disj; try (apply map_seq_nodup; intros s t _ _ E; injection E; lia).
  - intros p. rewrite !map_seq_in. intros (t & Ht & <-) (s & Hs & E). injection E. lia.
  - intros p. rewrite !in_app_iff, !map_seq_in. intros (t & Ht & <-) [(s & Hs & E)|(s & Hs & E)]; injection E; lia.
  - intros p. rewrite !in_app_iff, !map_seq_in. intros (t & Ht & <-) [(s & Hs & E)|[(s & Hs & E)|(s & Hs & E)]]; injection E; lia.
Qed.
(** Comet(N, k): a star of k leaves around vertex 0 and a path through k, k+1, ..., N-1; a tree (connected, N - 1 edges). *)
Theorem C48_comet N k lap : (k < N)%nat -> valid_lap lap ->
  exists G, Comet N k lap = Ok G /\ unit_graph G N (fun i j => comet_edge k i j \/ comet_edge k j i) /\
    undirected G /\ loop_free G /\ nonneg_weights G /\ connected G /\ g_n_edges G = (N - 1)%nat /\
    ((1 <= k)%nat -> card (fun j => (j < N)%nat /\ wt G 0 j <> 0) k) /\ g_coords G = Some (comet_coords N k).
Proof.
  intros Hk Hl. unfold Comet. destruct (Nat.ltb_spec N (S k)); [lia|].
  destruct (simple_unit N (comet_pairs N k) lap (Some (comet_coords N k)) (comet_nodup N k Hk)) as (G & E & HU & Hu & Hlf & Hp & He & Ht & Hc); try assumption.
  { intros [i j] H'. apply comet_in in H'; [cbn; lia|lia]. }
  { intros i j H'. apply comet_in in H'; try lia. apply comet_in; try lia. tauto. }
  { intros i H'. apply comet_in in H'; try lia. unfold comet_edge in H'. lia. }
  assert (HU' : unit_graph G N (fun i j => comet_edge k i j \/ comet_edge k j i)). { eapply unit_graph_iff; [|exact HU]. intros i j Hi Hj. cbv beta. rewrite comet_in by lia. tauto. }
  exists G. split; [exact E|]. split; [exact HU'|]. split; [exact Hu|]. split; [exact Hlf|]. split; [exact Hp|]. pose proof HU' as (Hb & Hn & Hw). split; [|split; [|split; [|exact Hc]]].
  - apply ladder_connected; [exact Hu|]. intros v Hv. rewrite Hn in Hv. destruct (le_lt_dec (S v) k).
    + exists 0%nat. split; [lia|]. apply (unit_arc G N _ 0 (S v) HU'); [lia|lia|]. left. unfold comet_edge. lia.
    + exists v. split; [lia|]. apply (unit_arc G N _ v (S v) HU'); [lia|lia|]. left. unfold comet_edge. lia.
  - unfold comet_pairs in He. rewrite !app_length, !map_length, !seq_length in He. lia.
  - intros Hk1. exists (seq 1 k). split; [apply seq_NoDup|]. split; [|apply seq_length]. intros j. rewrite in_seq. split.
    + intros Hj. split; [lia|]. rewrite (proj1 (Hw 0%nat j ltac:(lia) ltac:(lia))); [lra|]. left. unfold comet_edge. lia.
    + intros (Hj & Hne). destruct (le_lt_dec 1 j), (le_lt_dec j k); try lia; exfalso; apply Hne; apply (Hw 0%nat j ltac:(lia) Hj); unfold comet_edge; lia.
Qed.
Theorem C48_comet_rejected N k lap : (N <= k)%nat -> Comet N k lap = Raise ValueError.
Proof. intros H. unfold Comet. destruct (Nat.ltb_spec N (S k)); [reflexivity|lia]. Qed.
(** Star(N): the centre 0 joined to all the others, nothing else. *)
Theorem C48_star N lap : (1 <= N)%nat -> valid_lap lap ->
  exists G, Star N false lap = Ok G /\ unit_graph G N (fun i j => (i = 0 /\ j <> 0 \/ j = 0 /\ i <> 0)%nat) /\ undirected G /\ connected G /\ g_n_edges G = (N - 1)%nat.
Proof.
  intros HN Hl. unfold Star. destruct (Nat.eqb_spec N 0); [lia|].
  destruct (C48_comet N (N - 1) lap ltac:(lia) Hl) as (G & E & HU & Hu & _ & _ & HC & He & _). exists G. split; [exact E|]. split; [|tauto].
  eapply unit_graph_iff; [|exact HU]. intros i j Hi Hj. unfold comet_edge. lia.
Qed.
(** Star accepts no plotting options although its code intends to merge them. *)
Theorem C48_star_plotting_refuted N lap : Star N true lap = Raise TypeError. Proof. reflexivity. Qed.
Lemma full_len n : forall m, (m <= n)%nat -> (2 * List.length (flat_map (fun i => map (fun j => (i, j)) (seq (S i) (n - S i))) (seq 0 m)) + (n - m) * (n - m - 1) = n * (n - 1))%nat.
Proof.
  induction m as [|m IH]; intros Hm; [cbn [seq flat_map List.length]; rewrite Nat.sub_0_r; lia|].
  rewrite seq_S, flat_map_app, app_length. cbn [flat_map Nat.add]. rewrite app_nil_r, map_length, seq_length. specialize (IH ltac:(lia)).
  set (L := List.length _) in *. set (r := (n - S m)%nat). assert (Er : (n - m)%nat = S r) by (unfold r; lia). rewrite Er in IH. replace (n - S m - 1)%nat with (r - 1)%nat by reflexivity.
  destruct r as [|r]; [lia|]. cbn [Nat.sub] in *. rewrite Nat.sub_0_r in *. nia.
Qed.
(** FullConnected(N): all pairs of different vertices; N (N - 1) / 2 edges. *)
Theorem C48_full N lap : valid_lap lap ->
  exists G, FullConnected N lap = Ok G /\ unit_graph G N (fun i j => i <> j) /\ undirected G /\ loop_free G /\ nonneg_weights G /\ connected G /\ (2 * g_n_edges G = N * (N - 1))%nat.
Proof.
  intros Hl. unfold FullConnected.
  destruct (finite_entry_built N (dense N (fun i j => 1 - idm i j)) lap None (dense_len _ _) Hl) as (G & E & Hb & Hn & Ht & Hc & Hw).
  assert (Hv : forall i j, (i < N)%nat -> (j < N)%nat -> wt G i j = 1 - idm i j). { intros i j Hi Hj. rewrite Hw by assumption. apply dense_nth; assumption. }
  assert (HU : unit_graph G N (fun i j => i <> j)).
  { split; [exact Hb|]. split; [exact Hn|]. intros i j Hi Hj. rewrite Hv by assumption. unfold idm. destruct (Nat.eqb_spec i j); split; intros; try lra; try contradiction; tauto. }
  assert (D : forall i j : nat, {i <> j} + {~ i <> j}) by (intros i j; destruct (Nat.eq_dec i j); [right; lia|left; lia]).
  assert (Hu : undirected G) by (apply (unit_undirected G N _ D); [intros; lia|exact HU]).
  exists G. split; [exact E|]. split; [exact HU|]. split; [exact Hu|]. split; [apply (unit_loop_free G N (fun i j => i <> j)); [intros i _ Hc'; apply Hc'; reflexivity|exact HU]|]. split; [apply (unit_nonneg G N _ D HU)|]. split.
  - intros u v Hu' Hv'. rewrite Hn in Hu', Hv'. destruct (Nat.eq_dec u v) as [->|Hne]; [apply reach_refl|]. apply reach_one. apply (unit_arc G N _ u v HU); assumption.
  - pose proof (full_len N N (le_n N)) as Q. rewrite Nat.sub_diag in Q. rewrite Nat.mul_0_l, Nat.add_0_r in Q. rewrite <- Q. f_equal.
    apply edges_listed; [exact Hb|exact Hu| |].
    + apply NoDup_flat_map; [apply seq_NoDup| |].
      * intros i _. apply map_seq_nodup. intros s t _ _ E'. injection E'. auto.
      * intros i i' [a b] _ _ H1 H2. rewrite map_seq_in in H1, H2. destruct H1 as (? & _ & E1), H2 as (? & _ & E2). injection E1 as -> _. injection E2 as -> _. reflexivity.
    + intros i j. rewrite in_flat_map, Hn. split.
      * intros (a & Ha & H1). apply in_seq in Ha. apply map_seq_in in H1. destruct H1 as (t & Ht' & E'). injection E' as -> ->. split; [lia|]. split; [lia|]. rewrite Hv by lia. unfold idm. destruct (Nat.eqb_spec i j); [lia|lra].
      * intros (Hle & Hj & Hne). rewrite Hv in Hne by lia. unfold idm in Hne. destruct (Nat.eqb_spec i j); [lra|]. exists i. split; [apply in_seq; lia|]. apply map_seq_in. exists j. split; [lia|reflexivity].
Qed.
