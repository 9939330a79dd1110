(** Facts about the CSR model. *)
From Coq Require Import Reals Lra Lia List Arith Bool Permutation.
From Verif.Base Require Import RSum Prelude LinAlg.
From Verif.Model Require Import Sparse.
Import ListNotations.
Open Scope R_scope.

Lemma in_stored {V} (A : csr V) i j v :
  In (i, j, v) (stored A) <-> (i < nrow A)%nat /\ In (j, v) (row A i).
Proof.
  unfold stored. rewrite in_flat_map. split.
  - intros (k & Hk & Hin). apply in_seq in Hk. apply in_map_iff in Hin.
    destruct Hin as ([c w] & E & Hin). inversion E; subst. split; [lia|exact Hin].
  - intros (Hi & Hin). exists i. split; [apply in_seq; lia|].
    apply in_map_iff. exists (j, v). split; [reflexivity|exact Hin].
Qed.

Definition nozero (A : csr R) : Prop := forall i j v, In (i, j, v) (stored A) -> v <> 0.

(** Square, well-formed, canonical, without stored zeros: what the constructor establishes. *)
Record good (A : csr R) : Prop := {
  good_sq : ncol A = nrow A;
  good_wf : wf_csr A;
  good_can : canonical A;
  good_nz : nozero A }.

Lemma lsum_filter_nodup (l : list (nat * R)) j v :
  NoDup (map fst l) -> In (j, v) l ->
  lsum (map snd (filter (fun cv => Nat.eqb (fst cv) j) l)) = v.
Proof.
  induction l as [|[c w] l IH]; intros Hnd Hin; [contradiction|].
  cbn in Hnd. inversion Hnd as [|? ? Hni Hnd']; subst.
  cbn [filter fst]. destruct Hin as [E|Hin].
  - inversion E; subst. rewrite Nat.eqb_refl. cbn [map snd lsum fold_right].
    assert (Hz : filter (fun cv : nat * R => Nat.eqb (fst cv) j) l = []).
    { clear -Hni. induction l as [|[c w] l IH]; [reflexivity|]. cbn in *.
      destruct (Nat.eqb_spec c j) as [->|]; [exfalso; apply Hni; left; reflexivity|].
      apply IH. intros H; apply Hni; right; exact H. }
    rewrite Hz. cbn. lra.
  - destruct (Nat.eqb_spec c j) as [->|Hne].
    + exfalso. apply Hni. apply in_map_iff. exists (j, v). split; [reflexivity|exact Hin].
    + apply IH; assumption.
Qed.

Lemma get_in (A : csr R) i j v :
  canonical A -> (i < nrow A)%nat -> In (j, v) (row A i) -> get A i j = v.
Proof. intros Hc Hi Hin. apply lsum_filter_nodup; auto. Qed.

Lemma get_notin (A : csr R) i j : (forall v, ~ In (j, v) (row A i)) -> get A i j = 0.
Proof.
  intros H. unfold get.
  replace (filter (fun cv => Nat.eqb (fst cv) j) (row A i)) with (@nil (nat * R)); [reflexivity|].
  symmetry. revert H. generalize (row A i) as l. induction l as [|[c w] l IH]; intros H; [reflexivity|].
  cbn. destruct (Nat.eqb_spec c j) as [->|].
  - exfalso; apply (H w); left; reflexivity.
  - apply IH. intros v Hv; apply (H v); right; exact Hv.
Qed.

Lemma get_nonzero_in (A : csr R) i j : get A i j <> 0 -> exists v, In (j, v) (row A i).
Proof.
  intros H. destruct (in_dec Nat.eq_dec j (map fst (row A i))) as [Hin|Hni].
  - apply in_map_iff in Hin. destruct Hin as ([c w] & E & Hin). cbn in E; subst. exists w; exact Hin.
  - exfalso; apply H, get_notin. intros v Hv; apply Hni. apply in_map_iff. exists (j, v); auto.
Qed.

Lemma get_row_out (A : csr R) i j : wf_csr A -> (nrow A <= i)%nat -> get A i j = 0.
Proof.
  intros (Hl & _) Hi. apply get_notin. intros v. unfold row.
  rewrite nth_overflow by (rewrite Hl; exact Hi). intros [].
Qed.

Lemma get_col_out (A : csr R) i j : wf_csr A -> (ncol A <= j)%nat -> get A i j = 0.
Proof.
  intros (Hl & Hc) Hj. destruct (Nat.lt_ge_cases i (nrow A)) as [Hi|Hi].
  - apply get_notin. intros v Hv. apply (Hc i Hi) in Hv. cbn in Hv. lia.
  - apply get_row_out; [split; assumption|exact Hi].
Qed.

Lemma good_entry (A : csr R) i j v : good A ->
  In (i, j, v) (stored A) <->
  (i < nrow A)%nat /\ (j < nrow A)%nat /\ v = get A i j /\ get A i j <> 0.
Proof.
  intros G. split.
  - intros Hin. pose proof (good_nz A G _ _ _ Hin) as Hnz.
    apply in_stored in Hin. destruct Hin as (Hi & Hin).
    pose proof (get_in A i j v (good_can A G) Hi Hin) as E.
    destruct (good_wf A G) as (_ & Hc). apply (Hc i Hi) in Hin. cbn in Hin.
    rewrite (good_sq A G) in Hin. rewrite E. auto.
  - intros (Hi & Hj & Hv & Hnz). destruct (get_nonzero_in A i j Hnz) as (w & Hw).
    pose proof (get_in A i j w (good_can A G) Hi Hw) as E. apply in_stored. subst v. rewrite E. auto.
Qed.

Lemma stored_nodup (A : csr R) : canonical A -> NoDup (map fst (stored A)).
Proof.
  intros Hc. unfold stored. rewrite map_flat_map.
  apply NoDup_flat_map.
  - apply seq_NoDup.
  - intros i Hi. apply in_seq in Hi. rewrite map_map. cbn.
    apply (NoDup_map_inv snd). rewrite map_map. cbn. apply Hc. lia.
  - intros a a' b _ _ Hb Hb'. apply in_map_iff in Hb. apply in_map_iff in Hb'.
    destruct Hb as (x & Ex & Hx), Hb' as (y & Ey & Hy).
    apply in_map_iff in Hx. apply in_map_iff in Hy.
    destruct Hx as (x' & Ex' & _), Hy as (y' & Ey' & _). subst. cbn in Ey. congruence.
Qed.

Lemma NoDup_fst_NoDup {A B} (l : list (A * B)) : NoDup (map fst l) -> NoDup l.
Proof. apply NoDup_map_inv. Qed.

(** Sums over stored entries are sums over the dense view. *)
Lemma row_weighted_sum (l : list (nat * R)) m (f : nat -> R) :
  (forall cv, In cv l -> (fst cv < m)%nat) ->
  lsum (map (fun cv => f (fst cv) * snd cv) l) =
  \sum_(j < m) (f j * lsum (map snd (filter (fun cv => Nat.eqb (fst cv) j) l))).
Proof.
  induction l as [|[c w] l IH]; intros H.
  - symmetry. apply rsum_0; intros; cbn; lra.
  - cbn [map]. rewrite lsum_cons, IH by (intros; apply H; right; assumption).
    assert (Hc : (c < m)%nat) by (apply (H (c, w)); left; reflexivity).
    cbn [fst snd]. rewrite <- (rsum_delta_l m (fun j => f j * w) c Hc).
    rewrite <- rsum_plus. apply rsum_ext; intros j Hj. cbn [filter fst].
    destruct (Nat.eqb_spec c j) as [->|]; cbn [map snd]; [rewrite lsum_cons|]; lra.
Qed.

Lemma row_fsum (A : csr R) i f : wf_csr A -> (i < nrow A)%nat ->
  lsum (map (fun cv => f (fst cv) * snd cv) (row A i)) = \sum_(j < ncol A) (f j * get A i j).
Proof. intros (Hl & Hc) Hi. apply row_weighted_sum. apply Hc; exact Hi. Qed.

Lemma row_sum_get (A : csr R) i : wf_csr A -> (i < nrow A)%nat ->
  row_sum A i = \sum_(j < ncol A) get A i j.
Proof.
  intros Hw Hi. unfold row_sum.
  rewrite (rsum_ext _ _ (fun j => 1 * get A i j)) by (intros; lra).
  rewrite <- (row_fsum A i (fun _ => 1) Hw Hi). f_equal. apply map_ext. intros; lra.
Qed.

Lemma stored_fsum (A : csr R) (f : nat -> nat -> R) : wf_csr A ->
  lsum (map (fun t => f (fst (fst t)) (snd (fst t)) * snd t) (stored A)) =
  \sum_(i < nrow A) \sum_(j < ncol A) (f i j * get A i j).
Proof.
  intros Hw. unfold stored. rewrite map_flat_map, lsum_flat_map, lsum_map_seq0.
  apply rsum_ext; intros i Hi. rewrite map_map. cbn [fst snd].
  apply (row_fsum A i (f i) Hw Hi).
Qed.

Lemma lsum_filter {X} (p : X -> bool) (g : X -> R) l :
  lsum (map g (filter p l)) = lsum (map (fun x => if p x then g x else 0) l).
Proof.
  induction l as [|x l IH]; [reflexivity|]. cbn [filter map].
  destruct (p x); cbn [map]; rewrite ?lsum_cons, IH; lra.
Qed.

Lemma col_sum_get (A : csr R) j : wf_csr A -> (j < ncol A)%nat ->
  col_sum A j = \sum_(i < nrow A) get A i j.
Proof.
  intros Hw Hj. unfold col_sum. rewrite lsum_filter.
  rewrite (lsum_map_ext _ _ (fun t => (fun _ c => if Nat.eqb c j then 1 else 0) (fst (fst t)) (snd (fst t)) * snd t)).
  - rewrite (stored_fsum A (fun _ c => if Nat.eqb c j then 1 else 0) Hw).
    apply rsum_ext; intros i Hi.
    rewrite (rsum_ext _ _ (fun k => if Nat.eqb k j then get A i k else 0)).
    + apply (rsum_delta _ (fun k => get A i k) j Hj).
    + intros k Hk. destruct (Nat.eqb k j); lra.
  - intros t _. destruct (Nat.eqb (snd (fst t)) j); lra.
Qed.

(** Counting stored entries of a good matrix. *)
Definition nzb (A : csr R) (i j : nat) : bool := negb (Reqb (get A i j) 0).

Lemma nzb_true A i j : nzb A i j = true <-> get A i j <> 0.
Proof. unfold nzb. rewrite negb_true_iff. apply Reqb_false. Qed.

Lemma good_row (A : csr R) i j v : good A -> (i < nrow A)%nat ->
  In (j, v) (row A i) <-> (j < nrow A)%nat /\ v = get A i j /\ get A i j <> 0.
Proof.
  intros G Hi. split.
  - intros H. assert (Hs : In (i, j, v) (stored A)) by (apply in_stored; auto).
    apply (good_entry A i j v G) in Hs. tauto.
  - intros (Hj & Hv & Hnz). assert (Hs : In (i, j, v) (stored A)) by (apply good_entry; auto).
    apply in_stored in Hs. tauto.
Qed.

Lemma row_nnz_count (A : csr R) i : good A -> (i < nrow A)%nat ->
  row_nnz A i = ncount (nrow A) (nzb A i).
Proof.
  intros G Hi. rewrite ncount_filter_seq. unfold row_nnz.
  rewrite <- (map_length fst (row A i)). apply NoDup_same_length.
  - apply (good_can A G); exact Hi.
  - apply NoDup_filter, seq_NoDup.
  - intros j. rewrite filter_In, in_seq, in_map_iff. split.
    + intros ((c & v) & E & Hin). cbn in E; subst c. apply (good_row A i j v G Hi) in Hin.
      destruct Hin as (Hj & _ & Hnz). split; [lia|apply nzb_true; exact Hnz].
    + intros (Hj & Hnz). apply nzb_true in Hnz. exists (j, get A i j). split; [reflexivity|].
      apply (good_row A i j _ G Hi). split; [lia|auto].
Qed.

Lemma col_nnz_count (A : csr R) j : good A -> (j < nrow A)%nat ->
  col_nnz A j = ncount (nrow A) (fun i => nzb A i j).
Proof.
  intros G Hj. rewrite ncount_filter_seq. unfold col_nnz.
  set (l := filter (fun e => Nat.eqb (snd (fst e)) j) (stored A)).
  rewrite <- (map_length (fun e => fst (fst e)) l).
  assert (Hnd : NoDup (stored A)) by (apply NoDup_fst_NoDup, stored_nodup, (good_can A G)).
  apply NoDup_same_length.
  - apply NoDup_map_inj; [|apply NoDup_filter; exact Hnd].
    intros [[a b] v] [[a' b'] v'] Hx Hy E. cbn in E. subst a'.
    unfold l in *. apply filter_In in Hx. apply filter_In in Hy.
    destruct Hx as (Hx & Ex), Hy as (Hy & Ey). cbn in Ex, Ey.
    apply Nat.eqb_eq in Ex. apply Nat.eqb_eq in Ey. subst b b'.
    apply (good_entry A _ _ _ G) in Hx. apply (good_entry A _ _ _ G) in Hy.
    destruct Hx as (_ & _ & -> & _), Hy as (_ & _ & -> & _). reflexivity.
  - apply NoDup_filter, seq_NoDup.
  - intros i. rewrite filter_In, in_seq, in_map_iff. split.
    + intros ([[a b] v] & E & Hin). cbn in E; subst a. unfold l in Hin. apply filter_In in Hin.
      destruct Hin as (Hin & Eb). cbn in Eb. apply Nat.eqb_eq in Eb. subst b.
      apply (good_entry A _ _ _ G) in Hin. destruct Hin as (Hi & _ & _ & Hnz).
      split; [lia|apply nzb_true; exact Hnz].
    + intros (Hi & Hnz). apply nzb_true in Hnz. exists (i, j, get A i j). split; [reflexivity|].
      apply filter_In. split; [|cbn; apply Nat.eqb_refl].
      apply (good_entry A i j _ G). repeat split; auto; lia.
Qed.
