(** C51: Barabasi-Albert graphs. *)
From Coq Require Import Reals Lra Lia List Arith Bool String FunctionalExtensionality.
From Coq Require Import List.
From Verif.Base Require Import RSum Prelude.
From Verif.Spec Require Import Matrix GraphSpec Card Reach GenSpec.
From Verif.Model Require Import Sparse Graph Traverse Utils Reduction Random.
From Verif.Proofs Require Import SparseFacts InitFacts EdgeFacts SubgraphFacts TraverseFacts GenFacts.
From Verif.Props Require Import Core Traversal UtilsProps ReductionProps GenProps GridProps SbmProps.
Import ListNotations.
Open Scope R_scope.

(** What numpy promises of rng.choice(N, size=m, replace=False, p): m different numbers of positive probability, when there are enough. *)
Definition choice_ok (N m : nat) (choice : nat -> vec -> list nat) : Prop := forall i p,
  (exists l, NoDup l /\ List.length l = m /\ forall v, In v l -> (v < N)%nat /\ 0 < p v) ->
  NoDup (choice i p) /\ List.length (choice i p) = m /\ forall v, In v (choice i p) -> (v < N)%nat /\ 0 < p v.

Lemma links_ok i l : forall W a b, fold_left (ba_link i) l W a b =
  if (Nat.eqb a i && existsb (Nat.eqb b) l || Nat.eqb b i && existsb (Nat.eqb a) l)%bool then 1 else W a b.
Proof.
  induction l as [|e l IH]; intros W a b; cbn [fold_left existsb].
  - rewrite !andb_false_r. reflexivity.
  - rewrite IH. unfold ba_link. destruct (Nat.eqb a i), (Nat.eqb b i), (existsb (Nat.eqb b) l), (existsb (Nat.eqb a) l), (Nat.eqb b e), (Nat.eqb a e); reflexivity.
Qed.
Section BA.
Variables (N m0 m : nat) (choice : nat -> vec -> list nat).
Hypothesis Hm : (m <= m0)%nat.
Hypothesis Hm0 : (1 <= m0)%nat.
Hypothesis HC : choice_ok N m choice.
(** the adjacency given the choices of the vertices m0 .. i-1 *)
Definition ba_adj (c : nat -> list nat) (i : nat) : mat := fun a b =>
  if (Nat.ltb a b && Nat.leb m0 b && Nat.ltb b i && existsb (Nat.eqb a) (c b) ||
      Nat.ltb b a && Nat.leb m0 a && Nat.ltb a i && existsb (Nat.eqb b) (c a))%bool then 1 else 0.
Lemma ba_adj_01 c i a b : 0 <= ba_adj c i a b <= 1.
Proof. unfold ba_adj. destruct (_ || _)%bool; lra. Qed.
Lemma ba_adj_out c i a b : (i <= a)%nat -> (i <= b)%nat \/ (b < i)%nat -> ba_adj c i a b = 0.
Proof.
  intros Ha _. unfold ba_adj. destruct (Nat.ltb_spec a b), (Nat.ltb_spec b i), (Nat.ltb_spec a i), (Nat.ltb_spec b a); try lia; rewrite ?andb_false_r; cbn [andb orb]; reflexivity.
Qed.
Definition ba_p (c : nat -> list nat) (i : nat) : vec := fun v => ba_distr N i (ba_adj c i) v / (\sum_(w < N) ba_distr N i (ba_adj c i) w).
Lemma ba_distr_sign c i v : (v < N)%nat -> (i < N)%nat -> (0 <= ba_distr N i (ba_adj c i) v) /\ ((v < i)%nat -> 1 <= ba_distr N i (ba_adj c i) v) /\ ((i <= v)%nat -> ba_distr N i (ba_adj c i) v = 0).
Proof.
  intros Hv Hi. unfold ba_distr. assert (H : 0 <= \sum_(j < N) ba_adj c i v j) by (apply rsum_nonneg; intros; apply ba_adj_01).
  destruct (Nat.ltb_spec v i); [split; [lra|split; [lra|lia]]|]. split; [lra|]. split; [lia|]. intros _.
  rewrite rsum_0; [lra|]. intros j Hj. apply ba_adj_out; lia.
Qed.
Lemma ba_total c i : (m0 <= i < N)%nat -> 0 < \sum_(w < N) ba_distr N i (ba_adj c i) w.
Proof.
  intros Hi. apply Rlt_le_trans with (ba_distr N i (ba_adj c i) 0%nat); [pose proof (proj1 (proj2 (ba_distr_sign c i 0%nat ltac:(lia) ltac:(lia))) ltac:(lia)); lra|].
  apply (rsum_ge_term N (ba_distr N i (ba_adj c i)) 0%nat); [|lia]. intros j Hj. apply ba_distr_sign; lia.
Qed.
Lemma ba_choice c i : (m0 <= i < N)%nat -> let l := choice i (ba_p c i) in NoDup l /\ List.length l = m /\ forall v, In v l -> (v < i)%nat.
Proof.
  intros Hi l. pose proof (ba_total c i Hi) as HT. destruct (HC i (ba_p c i)) as (H1 & H2 & H3).
  { exists (seq 0 m). split; [apply seq_NoDup|]. split; [apply seq_length|]. intros v Hv. apply in_seq in Hv. split; [lia|]. unfold ba_p. apply Rdiv_lt_0_compat; [|exact HT].
    pose proof (proj1 (proj2 (ba_distr_sign c i v ltac:(lia) ltac:(lia))) ltac:(lia)). lra. }
  split; [exact H1|]. split; [exact H2|]. intros v Hv. destruct (H3 v Hv) as (H4 & H5). destruct (le_lt_dec i v) as [H|]; [|assumption]. exfalso. unfold ba_p in H5.
  rewrite (proj2 (proj2 (ba_distr_sign c i v H4 ltac:(lia))) H) in H5. unfold Rdiv in H5. rewrite Rmult_0_l in H5. lra.
Qed.
Lemma ba_run k : (m0 + k <= N)%nat -> exists W c, fold_left (ba_step N choice) (seq m0 k) (Ok (fun _ _ => 0)) = Ok W /\
  (forall a b, W a b = ba_adj c (m0 + k) a b) /\ forall i, (m0 <= i < m0 + k)%nat -> c i = choice i (ba_p c i).
Proof.
  induction k as [|k IH]; intros Hk.
  - exists (fun _ _ => 0), (fun _ => []). split; [reflexivity|]. split; [|lia]. intros a b. unfold ba_adj. rewrite Nat.add_0_r.
    destruct (Nat.leb_spec m0 b), (Nat.ltb_spec b m0), (Nat.leb_spec m0 a), (Nat.ltb_spec a m0); try lia; rewrite ?andb_false_r; cbn [andb orb]; reflexivity.
  - destruct (IH ltac:(lia)) as (W & c & E & HW & Hc). rewrite seq_S, fold_left_app, E. cbn [fold_left]. unfold ba_step. cbn [bindr]. set (i := (m0 + k)%nat) in *.
    assert (EW : W = ba_adj c i) by (apply functional_extensionality; intros a; apply functional_extensionality; intros b; apply HW). rewrite EW.
    pose proof (ba_total c i ltac:(lia)) as HT. destruct (Reqb_spec (\sum_(v < N) ba_distr N i (ba_adj c i) v) 0); [lra|].
    change (fun v => ba_distr N i (ba_adj c i) v / (\sum_(w < N) ba_distr N i (ba_adj c i) w)) with (ba_p c i).
    destruct (ba_choice c i ltac:(lia)) as (H1 & H2 & H3). set (l := choice i (ba_p c i)) in *.
    set (c' := fun j => if Nat.eqb j i then l else c j).
    assert (Q : forall j, (j <= i)%nat -> ba_adj c' j = ba_adj c j).
    { intros j Hj. apply functional_extensionality; intros a; apply functional_extensionality; intros b. unfold ba_adj, c'.
      destruct (Nat.eqb_spec b i), (Nat.eqb_spec a i); subst; try reflexivity.
      all: destruct (Nat.ltb_spec i j); [exfalso; lia|]; rewrite !andb_false_r; cbn [andb orb]; reflexivity. }
    exists (fold_left (ba_link i) l (ba_adj c i)), c'. split; [reflexivity|]. split.
    + intros a b. rewrite links_ok. unfold ba_adj, c'.
      assert (X : forall v, existsb (Nat.eqb v) l = true -> (v < i)%nat). { intros v Hv. apply existsb_exists in Hv. destruct Hv as (w & Hw & Ew). apply Nat.eqb_eq in Ew. subst w. apply H3. exact Hw. }
      destruct (Nat.eqb_spec a i) as [Ea|Ea], (Nat.eqb_spec b i) as [Eb|Eb]; cbn [andb orb].
      * subst a b. rewrite Nat.ltb_irrefl. cbn [andb orb]. destruct (existsb (Nat.eqb i) l) eqn:Ex; [apply X in Ex; lia|reflexivity].
      * rewrite orb_false_r. destruct (existsb (Nat.eqb b) l) eqn:Ex.
        -- apply X in Ex. subst a. destruct (Nat.ltb_spec b i); [|lia]. destruct (Nat.leb_spec m0 i); [|lia]. destruct (Nat.ltb_spec i (m0 + S k)); [|lia]. rewrite ?orb_true_r. reflexivity.
        -- rewrite !andb_false_r, orb_false_r. subst a. rewrite Nat.ltb_irrefl, !andb_false_r. cbn [andb]. rewrite orb_false_r.
           destruct (Nat.ltb_spec i b); [|reflexivity]. destruct (Nat.ltb_spec b i); [lia|]. destruct (Nat.ltb_spec b (m0 + S k)); [lia|]. reflexivity.
      * destruct (existsb (Nat.eqb a) l) eqn:Ex.
        -- apply X in Ex. subst b. destruct (Nat.ltb_spec a i); [|lia]. destruct (Nat.leb_spec m0 i); [|lia]. destruct (Nat.ltb_spec i (m0 + S k)); [|lia]. reflexivity.
        -- rewrite !andb_false_r. cbn [orb]. subst b. rewrite Nat.ltb_irrefl, !andb_false_r. cbn [andb orb].
           destruct (Nat.ltb_spec i a); [|reflexivity]. destruct (Nat.ltb_spec a i); [lia|]. destruct (Nat.ltb_spec a (m0 + S k)); [lia|]. rewrite ?andb_false_r. reflexivity.
      * replace (Nat.ltb b (m0 + S k)) with (Nat.ltb b i) by (destruct (Nat.ltb_spec b i), (Nat.ltb_spec b (m0 + S k)); try reflexivity; lia).
        replace (Nat.ltb a (m0 + S k)) with (Nat.ltb a i) by (destruct (Nat.ltb_spec a i), (Nat.ltb_spec a (m0 + S k)); try reflexivity; lia). reflexivity.
    + intros j Hj. unfold c', ba_p. rewrite Q by lia. destruct (Nat.eqb_spec j i) as [->|Hne]; [reflexivity|]. apply Hc. lia.
Qed.
End BA.
(** The graph: every vertex from m0 on brings exactly m edges to earlier vertices; they are the answers of the generator, asked with
    probabilities proportional to 1 + (number of neighbours so far). *)
Theorem C51_graph N m0 m lap choice : (m <= m0)%nat -> (1 <= m0 <= N)%nat -> choice_ok N m choice -> valid_lap lap ->
  exists G, BarabasiAlbert N m0 m lap choice = Ok G /\ built G /\ g_n_vertices G = N /\ undirected G /\ loop_free G /\
    (forall i j, (i < N)%nat -> (j < N)%nat -> wt G i j = 0 \/ wt G i j = 1) /\
    (forall i j, (i < m0)%nat -> (j < m0)%nat -> wt G i j = 0) /\
    (forall i, (m0 <= i < N)%nat -> card (fun v => (v < i)%nat /\ wt G i v = 1) m) /\
    g_n_edges G = (m * (N - m0))%nat /\
    (forall i, (m0 <= i < N)%nat -> exists p : vec, (forall v, In v (choice i p) <-> (v < i)%nat /\ wt G i v = 1) /\
       forall v, (v < N)%nat -> p v = (if Nat.ltb v i then 1 + \sum_(j < i) wt G v j else 0) / (\sum_(w < i) (1 + \sum_(j < i) wt G w j))) /\
    (m = 1%nat -> m0 = 1%nat -> connected G).
Proof.
  intros Hm Hm0 HC Hl. unfold BarabasiAlbert. destruct (Nat.ltb_spec m0 m); [lia|].
  destruct (ba_run N m0 m choice Hm (proj1 Hm0) HC (N - m0) ltac:(lia)) as (W & c & E & HW & Hc). rewrite E. cbn [bindr].
  destruct (mat_init_ok N W lap Hl) as (G & EG & Hb & Hn & _ & Hw). replace (m0 + (N - m0))%nat with N in * by lia.
  assert (Hch : forall i, (m0 <= i < N)%nat -> NoDup (c i) /\ List.length (c i) = m /\ forall v, In v (c i) -> (v < i)%nat).
  { intros i Hi. rewrite Hc by exact Hi. apply (ba_choice N m0 m choice Hm (proj1 Hm0) HC c i Hi). }
  assert (Hlow : forall i v, (v < i)%nat -> (i < N)%nat -> (wt G i v = 1 /\ (m0 <= i)%nat /\ In v (c i)) \/ (wt G i v = 0 /\ ~ ((m0 <= i)%nat /\ In v (c i)))).
  { intros i v Hv Hi. rewrite Hw, HW by lia. unfold ba_adj. destruct (Nat.ltb_spec i v); [lia|]. destruct (Nat.ltb_spec v i); [|lia]. destruct (Nat.ltb_spec i N); [|lia]. cbn [andb orb]. rewrite andb_true_r.
    destruct (Nat.leb_spec m0 i); cbn [andb]; [|right; split; [reflexivity|lia]]. destruct (existsb (Nat.eqb v) (c i)) eqn:Ex.
    - left. split; [reflexivity|]. split; [assumption|]. apply existsb_exists in Ex. destruct Ex as (w & Hw' & Ew). apply Nat.eqb_eq in Ew. subst. exact Hw'.
    - right. split; [reflexivity|]. intros (_ & Hin). assert (Q : existsb (Nat.eqb v) (c i) = true) by (apply existsb_exists; exists v; split; [exact Hin|apply Nat.eqb_refl]). congruence. }
  assert (Hu : undirected G). { intros i j Hi Hj. rewrite Hn in Hi, Hj. rewrite !Hw, !HW by assumption. unfold ba_adj. rewrite orb_comm. reflexivity. }
  assert (Hlf : loop_free G). { intros i Hi. rewrite Hn in Hi. rewrite Hw, HW by assumption. unfold ba_adj. rewrite Nat.ltb_irrefl. reflexivity. }
  assert (Hcard : forall i v, (m0 <= i < N)%nat -> In v (c i) <-> (v < i)%nat /\ wt G i v = 1).
  { intros i v Hi. split.
    - intros Hv. pose proof (proj2 (proj2 (Hch i Hi)) v Hv) as Hvi. split; [exact Hvi|]. destruct (Hlow i v Hvi ltac:(lia)) as [(H' & _)|(_ & H')]; [exact H'|exfalso; apply H'; split; [lia|exact Hv]].
    - intros (Hvi & Hv). destruct (Hlow i v Hvi ltac:(lia)) as [(_ & _ & H')|(H' & _)]; [exact H'|lra]. }
  exists G. split; [exact EG|]. split; [exact Hb|]. split; [exact Hn|]. split; [exact Hu|]. split; [exact Hlf|]. split; [|split; [|split; [|split; [|split]]]].
  - intros i j Hi Hj. rewrite Hw, HW by assumption. unfold ba_adj. destruct (_ || _)%bool; tauto.
  - intros i j Hi Hj. rewrite Hw, HW by lia. unfold ba_adj. destruct (Nat.leb_spec m0 i); [lia|]. destruct (Nat.leb_spec m0 j); [lia|]. rewrite !andb_false_r. reflexivity.
  - intros i Hi. exists (c i). split; [apply Hch; exact Hi|]. split; [|apply Hch; exact Hi]. intros v. apply Hcard. exact Hi.
  - rewrite (edges_listed G (flat_map (fun i => map (fun v => (v, i)) (c i)) (seq m0 (N - m0))) Hb Hu).
    + rewrite flat_map_length_sum. rewrite (map_ext_in _ (fun _ => m)); [rewrite const_sum, seq_length; lia|]. intros i Hi. apply in_seq in Hi. rewrite map_length. apply Hch. lia.
    + apply NoDup_flat_map; [apply seq_NoDup| |].
      * intros i Hi. apply in_seq in Hi. apply FinFun.Injective_map_NoDup; [intros x y E'; injection E'; auto|]. apply Hch. lia.
      * intros i i' [a b] _ _ H1 H2. apply in_map_iff in H1, H2. destruct H1 as (x & E1 & _), H2 as (y & E2 & _). injection E1 as _ <-. injection E2 as _ <-. reflexivity.
    + intros i j. rewrite in_flat_map, Hn. split.
      * intros (k & Hk & H1). apply in_seq in Hk. apply in_map_iff in H1. destruct H1 as (v & E1 & Hv). injection E1 as <- <-. apply Hcard in Hv; [|lia]. destruct Hv as (Hvk & Hv).
        split; [lia|]. split; [lia|]. rewrite Hu by (rewrite Hn; lia). rewrite Hv. lra.
      * intros (Hij & Hj & Hne). destruct (Nat.eq_dec i j) as [->|Hne']; [exfalso; apply Hne, Hlf; rewrite Hn; exact Hj|]. rewrite Hu in Hne by (rewrite Hn; lia).
        destruct (Hlow j i ltac:(lia) Hj) as [(_ & H1 & H2)|(H1 & _)]; [|contradiction]. exists j. split; [apply in_seq; lia|]. apply in_map_iff. exists i. split; [reflexivity|exact H2].
  - intros i Hi. exists (ba_p N m0 c i). split; [intros v; rewrite <- Hc by exact Hi; apply Hcard; exact Hi|].
    assert (D : forall v, (v < N)%nat -> ba_distr N i (ba_adj m0 c i) v = if Nat.ltb v i then 1 + \sum_(j < i) wt G v j else 0).
    { intros v Hv. destruct (Nat.ltb_spec v i) as [Hvi|Hvi]; [|apply (ba_distr_sign N m0 m Hm (proj1 Hm0) c i v Hv); lia].
      unfold ba_distr. destruct (Nat.ltb_spec v i); [|lia]. rewrite Rplus_comm. f_equal.
      replace N with (i + (N - i))%nat at 1 by lia. rewrite rsum_split.
      rewrite (rsum_0 (N - i) (fun k => ba_adj m0 c i v (i + k)%nat)).
      - rewrite Rplus_0_r. apply rsum_ext. intros j Hj. rewrite Hw, HW by lia. unfold ba_adj.
        replace (Nat.ltb j N) with (Nat.ltb j i) by (destruct (Nat.ltb_spec j i), (Nat.ltb_spec j N); try reflexivity; lia).
        replace (Nat.ltb v N) with (Nat.ltb v i) by (destruct (Nat.ltb_spec v i), (Nat.ltb_spec v N); try reflexivity; lia). reflexivity.
      - intros k Hk. unfold ba_adj. destruct (Nat.ltb_spec (i + k) i); [lia|]. destruct (Nat.ltb_spec (i + k) v); [lia|]. rewrite !andb_false_r. reflexivity. }
    intros v Hv. unfold ba_p. rewrite D by exact Hv. f_equal. replace N with (i + (N - i))%nat by lia. rewrite rsum_split.
    rewrite (rsum_0 (N - i)); [rewrite Rplus_0_r|].
    + apply rsum_ext. intros w Hw'. replace (i + (N - i))%nat with N by lia. rewrite D by lia. destruct (Nat.ltb_spec w i); [reflexivity|lia].
    + intros k Hk. replace (i + (N - i))%nat with N by lia. rewrite D by lia. destruct (Nat.ltb_spec (i + k) i); [lia|reflexivity].
  - intros -> ->. apply ladder_connected; [exact Hu|]. intros v Hv. rewrite Hn in Hv. destruct (Hch (S v) ltac:(lia)) as (_ & Hlen & Hlt).
    destruct (c (S v)) as [|x l] eqn:Ec; [discriminate|]. assert (Hx : In x (c (S v))) by (rewrite Ec; left; reflexivity). apply Hcard in Hx; [|lia]. destruct Hx as (Hx & Hx1).
    exists x. split; [lia|]. split; [rewrite Hn; lia|]. split; [rewrite Hn; lia|]. rewrite Hu by (rewrite Hn; lia). rewrite Hx1. lra.
Qed.
Theorem C51_too_many_edges_rejected N m0 m lap choice : (m0 < m)%nat -> BarabasiAlbert N m0 m lap choice = Raise ValueError.
Proof. intros H. unfold BarabasiAlbert. destruct (Nat.ltb_spec m0 m); [reflexivity|lia]. Qed.
(** Without initial vertices the first draw has no candidate. *)
Theorem C51_no_seed_rejected N lap choice : (1 <= N)%nat -> BarabasiAlbert N 0 0 lap choice = Raise ValueError.
Proof.
  intros HN. unfold BarabasiAlbert. cbn [Nat.ltb Nat.leb]. rewrite Nat.sub_0_r. destruct N as [|N]; [lia|]. cbn [seq fold_left ba_step bindr].
  assert (Z : \sum_(v < S N) ba_distr (S N) 0 (fun _ _ => 0) v = 0).
  { apply rsum_0. intros v Hv. unfold ba_distr. cbn [Nat.ltb Nat.leb]. rewrite rsum_0 by reflexivity. lra. }
  rewrite Z, Reqb_refl.
  assert (K : forall l, fold_left (ba_step (S N) choice) l (Raise ValueError) = Raise ValueError) by (induction l as [|a l IH]; [reflexivity|exact IH]). rewrite K. reflexivity.
Qed.
(** A generator meeting the contract exists (the first m positive ones). *)
Example C51_choice_exists N m : exists choice, choice_ok N m choice.
Proof.
  exists (fun _ p => firstn m (filter (fun v => Rltb 0 (p v)) (seq 0 N))). intros i p (l & Hnd & Hlen & Hl).
  assert (In1 : forall v, In v (firstn m (filter (fun v => Rltb 0 (p v)) (seq 0 N))) -> (v < N)%nat /\ 0 < p v).
  { intros v Hv. assert (Hv' : In v (filter (fun v => Rltb 0 (p v)) (seq 0 N))) by (rewrite <- (firstn_skipn m); apply in_or_app; left; exact Hv).
    apply filter_In in Hv'. destruct Hv' as (H1 & H2). apply in_seq in H1. apply Rltb_true in H2. split; [lia|exact H2]. }
  split; [|split; [|exact In1]].
  - assert (Q : NoDup (filter (fun v => Rltb 0 (p v)) (seq 0 N))) by (apply NoDup_filter, seq_NoDup). revert Q. generalize (filter (fun v => Rltb 0 (p v)) (seq 0 N)). clear. induction m as [|m IH]; intros l Q; [constructor|]. destruct l as [|x l]; [constructor|]. inversion Q; subst. cbn [firstn]. constructor; [|apply IH; assumption]. intros Hx. apply H1. rewrite <- (firstn_skipn m). apply in_or_app. left. exact Hx.
  - rewrite firstn_length. apply Nat.min_l. rewrite <- Hlen. apply NoDup_length_le; [exact Hnd|]. intros v Hv. destruct (Hl v Hv) as (H1 & H2). apply filter_In. split; [apply in_seq; lia|apply Rltb_true; exact H2].
Qed.
