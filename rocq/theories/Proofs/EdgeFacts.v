(** Edges, predicates and degrees of a well-built adjacency matrix. *)
From Coq Require Import Reals Lra Lia List Arith Bool Permutation String.
From Verif.Base Require Import RSum Prelude LinAlg.
From Verif.Spec Require Import Matrix GraphSpec Card.
From Verif.Model Require Import Sparse Graph.
From Verif.Proofs Require Import SparseFacts InitFacts.
Import ListNotations.
Open Scope R_scope.

Lemma is_directed_false W : is_directed W = false <->
  forall i j, (i < nrow W)%nat -> (j < nrow W)%nat -> get W i j = get W j i.
Proof.
  unfold is_directed. rewrite nexists_false. split.
  - intros H i j Hi Hj. specialize (H i Hi). rewrite nexists_false in H. specialize (H j Hj).
    apply negb_false_iff in H. apply Reqb_true in H. exact H.
  - intros H i Hi. apply nexists_false. intros j Hj. apply negb_false_iff, Reqb_true. apply H; assumption.
Qed.

Lemma is_directed_true W : is_directed W = true <->
  exists i j, (i < nrow W)%nat /\ (j < nrow W)%nat /\ get W i j <> get W j i.
Proof.
  unfold is_directed. rewrite nexists_true. split.
  - intros (i & Hi & H). apply nexists_true in H. destruct H as (j & Hj & H).
    apply negb_true_iff, Reqb_false in H. eauto.
  - intros (i & j & Hi & Hj & H). exists i. split; [exact Hi|]. apply nexists_true. exists j.
    split; [exact Hj|]. apply negb_true_iff, Reqb_false. exact H.
Qed.

Lemma has_loops_true W : has_loops W = true <-> exists i, (i < nrow W)%nat /\ get W i i <> 0.
Proof.
  unfold has_loops. rewrite nexists_true.
  split; intros (i & Hi & H); exists i; (split; [exact Hi|]).
  - apply negb_true_iff, Reqb_false in H. exact H.
  - apply negb_true_iff, Reqb_false. exact H.
Qed.

Lemma is_weighted_false W : good W -> is_weighted W = false <->
  forall i j, (i < nrow W)%nat -> (j < nrow W)%nat -> get W i j <> 0 -> get W i j = 1.
Proof.
  intros G. unfold is_weighted. rewrite negb_false_iff, forallb_forall. split.
  - intros H i j Hi Hj Hnz. apply Reqb_true. apply H. apply in_data.
    exists i, j. split; [exact Hi|]. apply (good_row W i j _ G Hi). auto.
  - intros H v Hv. apply in_data in Hv. destruct Hv as (i & j & Hi & Hin).
    apply (good_row W i j v G Hi) in Hin. destruct Hin as (Hj & -> & Hnz).
    apply Reqb_true. apply H; assumption.
Qed.

Lemma good_stored_nodup W : good W -> NoDup (stored W).
Proof. intros G. apply NoDup_fst_NoDup, stored_nodup, (good_can W G). Qed.

Lemma good_stored_nodup_fst W : good W -> NoDup (map fst (stored W)).
Proof. intros G. apply stored_nodup, (good_can W G). Qed.

(** Splitting the stored entries of a symmetric matrix. *)
Definition isdiag (t : nat * nat * R) : bool := Nat.eqb (fst (fst t)) (snd (fst t)).
Definition isupper (t : nat * nat * R) : bool := Nat.ltb (fst (fst t)) (snd (fst t)).
Definition islower (t : nat * nat * R) : bool := Nat.ltb (snd (fst t)) (fst (fst t)).
Definition istriu (t : nat * nat * R) : bool := Nat.leb (fst (fst t)) (snd (fst t)).

Lemma split3 (l : list (nat * nat * R)) :
  List.length l = (List.length (filter isdiag l) + List.length (filter isupper l) + List.length (filter islower l))%nat.
Proof.
  induction l as [|[[a b] v] l IH]; [reflexivity|]. cbn [List.length filter isdiag isupper islower fst snd].
  unfold isdiag, isupper, islower in *. cbn [fst snd].
  destruct (Nat.eqb_spec a b), (Nat.ltb_spec a b), (Nat.ltb_spec b a); cbn [List.length]; lia.
Qed.

Lemma split_triu (l : list (nat * nat * R)) :
  List.length (filter istriu l) = (List.length (filter isdiag l) + List.length (filter isupper l))%nat.
Proof.
  induction l as [|[[a b] v] l IH]; [reflexivity|].
  unfold isdiag, isupper, istriu in *. cbn [filter fst snd].
  destruct (Nat.eqb_spec a b), (Nat.ltb_spec a b), (Nat.leb_spec a b); cbn [List.length]; lia.
Qed.

Definition swap3 (t : nat * nat * R) : nat * nat * R := (snd (fst t), fst (fst t), snd t).

Lemma upper_lower W : good W -> is_directed W = false ->
  List.length (filter isupper (stored W)) = List.length (filter islower (stored W)).
Proof.
  intros G Hu. pose proof (proj1 (is_directed_false W) Hu) as Hs.
  rewrite <- (map_length swap3 (filter isupper (stored W))). apply NoDup_same_length.
  - apply NoDup_map_inj; [|apply NoDup_filter, good_stored_nodup; exact G].
    intros [[a b] v] [[a' b'] v'] _ _ E. cbv in E. congruence.
  - apply NoDup_filter, good_stored_nodup; exact G.
  - intros [[i j] v]. rewrite in_map_iff, filter_In. split.
    + intros ([[a b] w] & E & Hin). cbv [swap3 fst snd] in E. injection E as -> -> ->.
      apply filter_In in Hin. destruct Hin as (Hin & Hb). split; [|exact Hb].
      apply (good_entry W _ _ _ G) in Hin. destruct Hin as (Hi & Hj & Hv & Hnz).
      apply (good_entry W _ _ _ G). rewrite (Hs i j) by assumption. auto.
    + intros (Hin & Hb). exists (j, i, v). split; [reflexivity|]. apply filter_In. split; [|exact Hb].
      apply (good_entry W _ _ _ G) in Hin. destruct Hin as (Hi & Hj & Hv & Hnz).
      apply (good_entry W _ _ _ G). rewrite (Hs j i) by assumption. auto.
Qed.

Lemma diag_count_length W : good W -> diag_count W = List.length (filter isdiag (stored W)).
Proof.
  intros G. unfold diag_count. rewrite ncount_filter_seq.
  rewrite <- (map_length (fun t => fst (fst t)) (filter isdiag (stored W))).
  apply NoDup_same_length.
  - apply NoDup_filter, seq_NoDup.
  - apply NoDup_map_inj; [|apply NoDup_filter, good_stored_nodup; exact G].
    intros [[a b] v] [[a' b'] v'] Hx Hy E. cbn in E. subst a'.
    apply filter_In in Hx. apply filter_In in Hy. destruct Hx as (Hx & Ex), Hy as (Hy & Ey).
    unfold isdiag in *. cbn in Ex, Ey. apply Nat.eqb_eq in Ex. apply Nat.eqb_eq in Ey. subst b b'.
    apply (good_entry W _ _ _ G) in Hx. apply (good_entry W _ _ _ G) in Hy.
    destruct Hx as (_ & _ & -> & _), Hy as (_ & _ & -> & _). reflexivity.
  - intros i. rewrite filter_In, in_seq, in_map_iff. split.
    + intros (Hi & Hnz). apply negb_true_iff, Reqb_false in Hnz. exists (i, i, get W i i). split; [reflexivity|].
      apply filter_In. split; [|unfold isdiag; cbn; apply Nat.eqb_refl].
      apply (good_entry W _ _ _ G). repeat split; auto; lia.
    + intros ([[a b] v] & E & Hin). cbn in E. subst a. apply filter_In in Hin. destruct Hin as (Hin & Eb).
      unfold isdiag in Eb. cbn in Eb. apply Nat.eqb_eq in Eb. subst b.
      apply (good_entry W _ _ _ G) in Hin. destruct Hin as (Hi & _ & _ & Hnz).
      split; [lia|]. apply negb_true_iff, Reqb_false. exact Hnz.
Qed.

Lemma count_edges_undirected W : good W -> is_directed W = false ->
  count_edges W = List.length (filter istriu (stored W)).
Proof.
  intros G Hu. unfold count_edges. rewrite Hu, (diag_count_length W G), split_triu. unfold nnz.
  rewrite (split3 (stored W)), (upper_lower W G Hu).
  set (d := List.length (filter isdiag (stored W))). set (l := List.length (filter islower (stored W))).
  replace (d + l + l - d)%nat with (l * 2)%nat by lia. rewrite Nat.div_mul by lia. lia.
Qed.

(** The assertion of get_edge_list never fails on a good matrix. *)
Lemma edge_list_ok W : good W -> exists l, get_edge_list W = Ok l /\
  l = (if is_directed W then stored W else filter istriu (stored W)) /\
  List.length l = count_edges W.
Proof.
  intros G. unfold get_edge_list. fold istriu.
  assert (E : count_edges W = List.length (if is_directed W then stored W else filter istriu (stored W))).
  { destruct (is_directed W) eqn:Hd; [unfold count_edges; rewrite Hd; reflexivity|].
    apply count_edges_undirected; assumption. }
  change (fun t : nat * nat * R => Nat.leb (fst (fst t)) (snd (fst t))) with istriu.
  rewrite E, Nat.eqb_refl. eexists; split; [reflexivity|]. split; [reflexivity|reflexivity].
Qed.

Lemma edge_list_in W l i j w : good W -> get_edge_list W = Ok l ->
  In (i, j, w) l <-> (i < nrow W)%nat /\ (j < nrow W)%nat /\ w = get W i j /\ get W i j <> 0 /\
                     (is_directed W = false -> (i <= j)%nat).
Proof.
  intros G Hl. destruct (edge_list_ok W G) as (l' & Hl' & El & _). rewrite Hl in Hl'. injection Hl' as <-.
  subst l. destruct (is_directed W) eqn:Hd.
  - rewrite (good_entry W i j w G). split.
    + intros (H1 & H2 & H3 & H4). repeat split; auto. intros; discriminate.
    + tauto.
  - rewrite filter_In, (good_entry W i j w G). unfold istriu. cbn [fst snd]. rewrite Nat.leb_le. tauto.
Qed.

Lemma edge_list_nodup W l : good W -> get_edge_list W = Ok l -> NoDup (map fst l).
Proof.
  intros G Hl. destruct (edge_list_ok W G) as (l' & Hl' & El & _). rewrite Hl in Hl'. injection Hl' as <-.
  subst l. destruct (is_directed W); [apply good_stored_nodup_fst; exact G|].
  pose proof (good_stored_nodup_fst W G) as H. revert H. generalize (stored W) as l.
  induction l as [|a l IH]; intros H; [constructor|]. cbn in H. inversion H as [|? ? Hni Hnd]; subst.
  cbn. destruct (istriu a); [|apply IH; exact Hnd]. cbn. constructor; [|apply IH; exact Hnd].
  intros Hin. apply Hni. apply in_map_iff in Hin. destruct Hin as (x & E & Hx). apply filter_In in Hx.
  apply in_map_iff. exists x; tauto.
Qed.

(** Sum over the edge list of a weighted quantity. *)
Lemma edge_list_sum_directed W l (f : nat -> nat -> R) : good W -> is_directed W = true ->
  get_edge_list W = Ok l ->
  lsum (map (fun t => f (fst (fst t)) (snd (fst t)) * snd t) l) =
  \sum_(i < nrow W) \sum_(j < nrow W) (f i j * get W i j).
Proof.
  intros G Hd Hl. destruct (edge_list_ok W G) as (l' & Hl' & El & _). rewrite Hl in Hl'. injection Hl' as <-.
  rewrite Hd in El. subst l. rewrite (stored_fsum W f (good_wf W G)), (good_sq W G). reflexivity.
Qed.

Lemma edge_list_sum_undirected W l (f : nat -> nat -> R) : good W -> is_directed W = false ->
  get_edge_list W = Ok l ->
  lsum (map (fun t => f (fst (fst t)) (snd (fst t)) * snd t) l) =
  \sum_(i < nrow W) \sum_(j < nrow W) ((if Nat.leb i j then f i j else 0) * get W i j).
Proof.
  intros G Hd Hl. destruct (edge_list_ok W G) as (l' & Hl' & El & _). rewrite Hl in Hl'. injection Hl' as <-.
  rewrite Hd in El. subst l. rewrite lsum_filter.
  rewrite (lsum_map_ext _ _ (fun t => (fun i j => if Nat.leb i j then f i j else 0) (fst (fst t)) (snd (fst t)) * snd t)).
  - rewrite (stored_fsum W (fun i j => if Nat.leb i j then f i j else 0) (good_wf W G)), (good_sq W G). reflexivity.
  - intros [[a b] v] _. unfold istriu. cbn [fst snd]. destruct (Nat.leb a b); lra.
Qed.

(** Sum over i<=j of a symmetric summand that vanishes on the diagonal: half the full sum. *)
Lemma half_sum n (h : nat -> nat -> R) :
  (forall i j, (i < n)%nat -> (j < n)%nat -> h i j = h j i) ->
  (forall i, (i < n)%nat -> h i i = 0) ->
  2 * (\sum_(i < n) \sum_(j < n) (if Nat.leb i j then h i j else 0)) = \sum_(i < n) \sum_(j < n) h i j.
Proof.
  intros Hs Hd.
  assert (E : \sum_(i < n) \sum_(j < n) h i j =
     \sum_(i < n) \sum_(j < n) (if Nat.leb i j then h i j else 0) +
     \sum_(i < n) \sum_(j < n) (if Nat.leb j i then h i j else 0)).
  { rewrite <- sum2_plus. apply sum2_ext; intros i j Hi Hj.
    destruct (Nat.leb_spec i j), (Nat.leb_spec j i); try lra; try lia.
    assert (i = j) by lia. subst. rewrite Hd by assumption. lra. }
  rewrite E.
  assert (E2 : \sum_(i < n) \sum_(j < n) (if Nat.leb j i then h i j else 0) =
               \sum_(i < n) \sum_(j < n) (if Nat.leb i j then h i j else 0)).
  { rewrite rsum_swap. apply sum2_ext; intros i j Hi Hj. destruct (Nat.leb i j); [apply Hs; assumption|reflexivity]. }
  rewrite E2. lra.
Qed.

(** Uniform formulas for the quantities with two branches. *)
Lemma wlap_avg W i j : (i < nrow W)%nat -> (j < nrow W)%nat ->
  wlap W i j = (get W i j + get W j i) / 2.
Proof.
  intros Hi Hj. unfold wlap. destruct (is_directed W) eqn:E; [reflexivity|].
  rewrite (proj1 (is_directed_false W) E j i) by assumption. lra.
Qed.

Lemma wlap_sym W i j : (i < nrow W)%nat -> (j < nrow W)%nat -> wlap W i j = wlap W j i.
Proof. intros Hi Hj. rewrite !wlap_avg by assumption. lra. Qed.

Lemma dw_avg W i : good W -> (i < nrow W)%nat ->
  dw W i = (\sum_(j < nrow W) get W j i + \sum_(j < nrow W) get W i j) / 2.
Proof.
  intros G Hi. assert (Hi' : (i < ncol W)%nat) by (rewrite (good_sq W G); exact Hi).
  unfold dw. rewrite (col_sum_get W i (good_wf W G) Hi'), (row_sum_get W i (good_wf W G) Hi), (good_sq W G).
  destruct (is_directed W) eqn:E; [reflexivity|].
  rewrite (rsum_ext _ (fun j => get W i j) (fun j => get W j i)).
  - lra.
  - intros j Hj. apply (proj1 (is_directed_false W) E); assumption.
Qed.

Lemma dw_wlap W i : good W -> (i < nrow W)%nat -> dw W i = \sum_(j < nrow W) wlap W i j.
Proof.
  intros G Hi. rewrite (dw_avg W i G Hi).
  rewrite (rsum_ext _ (wlap W i) (fun j => (get W i j + get W j i) / 2)).
  - rewrite rsum_div_r, rsum_plus.
    change (rsum (nrow W) (get W i)) with (\sum_(j < nrow W) get W i j). lra.
  - intros j Hj. apply wlap_avg; assumption.
Qed.

Lemma wlap_nonneg W : (forall i j, (i < nrow W)%nat -> (j < nrow W)%nat -> 0 <= get W i j) ->
  forall i j, (i < nrow W)%nat -> (j < nrow W)%nat -> 0 <= wlap W i j.
Proof. intros H i j Hi Hj. rewrite wlap_avg by assumption. pose proof (H i j Hi Hj). pose proof (H j i Hj Hi). lra. Qed.

Lemma dw_nonneg W : good W -> (forall i j, (i < nrow W)%nat -> (j < nrow W)%nat -> 0 <= get W i j) ->
  forall i, (i < nrow W)%nat -> 0 <= dw W i.
Proof.
  intros G H i Hi. rewrite (dw_wlap W i G Hi). apply rsum_nonneg; intros j Hj.
  apply wlap_nonneg; assumption.
Qed.

(** A vertex of degree zero has no positive weight (non-negative weights). *)
Lemma dw_zero_wlap W : good W -> (forall i j, (i < nrow W)%nat -> (j < nrow W)%nat -> 0 <= get W i j) ->
  forall i, (i < nrow W)%nat -> dw W i = 0 -> forall j, (j < nrow W)%nat -> wlap W i j = 0.
Proof.
  intros G H i Hi Hd j Hj. rewrite (dw_wlap W i G Hi) in Hd.
  apply (rsum_zero_all (nrow W) (wlap W i)); auto. intros; apply wlap_nonneg; assumption.
Qed.

Lemma deg_avg W i : good W -> (i < nrow W)%nat ->
  deg W i = (INR (ncount (nrow W) (fun j => nzb W j i)) + INR (ncount (nrow W) (nzb W i))) / 2.
Proof.
  intros G Hi. unfold deg. rewrite (row_nnz_count W i G Hi), (col_nnz_count W i G Hi).
  destruct (is_directed W) eqn:E; [reflexivity|].
  rewrite (ncount_ext _ (fun j => nzb W j i) (nzb W i)); [lra|].
  intros j Hj. unfold nzb. rewrite (proj1 (is_directed_false W) E j i) by assumption. reflexivity.
Qed.

Lemma nnz_count W : good W -> INR (nnz W) = \sum_(i < nrow W) INR (ncount (nrow W) (nzb W i)).
Proof.
  intros G. unfold nnz, stored. rewrite flat_map_length_sum.
  assert (H : forall n, (n <= nrow W)%nat ->
    INR (list_sum (map (fun a => List.length (map (fun cv : nat * R => (a, fst cv, snd cv)) (row W a))) (seq 0 n))) =
    \sum_(i < n) INR (ncount (nrow W) (nzb W i))).
  { induction n as [|n IH]; intros Hn; [reflexivity|]. rewrite seq_S, map_app, list_sum_app, plus_INR, IH by lia.
    cbn [rsum map list_sum fold_right Nat.add]. rewrite Nat.add_0_r, map_length.
    fold (row_nnz W n). rewrite (row_nnz_count W n G) by lia. reflexivity. }
  apply H. lia.
Qed.

Lemma sum_deg W : good W -> \sum_(i < nrow W) deg W i = INR (nnz W).
Proof.
  intros G. rewrite (nnz_count W G).
  rewrite (rsum_ext _ (deg W) (fun i => (INR (ncount (nrow W) (fun j => nzb W j i)) + INR (ncount (nrow W) (nzb W i))) / 2)).
  2:{ intros i Hi. apply deg_avg; assumption. }
  rewrite rsum_div_r, rsum_plus.
  assert (E : \sum_(i < nrow W) INR (ncount (nrow W) (fun j => nzb W j i)) =
              \sum_(i < nrow W) INR (ncount (nrow W) (nzb W i))).
  { rewrite (rsum_ext _ _ (fun i => \sum_(j < nrow W) (if nzb W j i then 1 else 0))) by (intros; apply ncount_INR).
    rewrite (rsum_ext _ (fun i => INR (ncount (nrow W) (nzb W i))) (fun i => \sum_(j < nrow W) (if nzb W i j then 1 else 0)))
      by (intros; apply ncount_INR).
    rewrite rsum_swap. reflexivity. }
  rewrite E. lra.
Qed.

Lemma nnz_undirected W : good W -> is_directed W = false ->
  (nnz W + diag_count W = 2 * count_edges W)%nat.
Proof.
  intros G Hu. rewrite (count_edges_undirected W G Hu), split_triu, (diag_count_length W G).
  unfold nnz. rewrite (split3 (stored W)), (upper_lower W G Hu). lia.
Qed.

Lemma ncount_card n (P : nat -> Prop) p : (forall i, (i < n)%nat -> p i = true <-> P i) ->
  card (fun i => (i < n)%nat /\ P i) (ncount n p).
Proof.
  intros H. exists (filter p (seq 0 n)). split; [apply NoDup_filter, seq_NoDup|]. split.
  - intros i. rewrite filter_In, in_seq. split.
    + intros (Hi & Hp). split; [lia|]. apply H; [lia|exact Hp].
    + intros (Hi & Hp). split; [lia|]. apply H; [lia|exact Hp].
  - symmetry. apply ncount_filter_seq.
Qed.
