(** The constructor: acceptance, and the invariant [good] of the adjacency it stores. *)
From Coq Require Import Reals Lra Lia List Arith Bool Permutation String Sorted.
From Verif.Base Require Import RSum Prelude LinAlg.
From Verif.Spec Require Import Matrix GraphSpec.
From Verif.Model Require Import Sparse Graph.
From Verif.Proofs Require Import SparseFacts.
Import ListNotations.
Open Scope R_scope.

Lemma xsum_finite l :
  (exists r, xsum l = Fin r) <-> (forall v, In v l -> exists r, v = Fin r).
Proof.
  induction l as [|a l IH].
  - split; [intros _ v []|intros _; exists 0; reflexivity].
  - change (xsum (a :: l)) with (xadd a (xsum l)). split.
    + intros (r & Hr) v Hv. destruct a as [x| | |], (xsum l) as [y| | |] eqn:E; cbn in Hr; try discriminate.
      destruct Hv as [<-|Hv]; [eauto|]. apply IH; eauto.
    + intros H. destruct (H a (or_introl eq_refl)) as (x & ->).
      destruct IH as (_ & IH). destruct IH as (y & Hy); [intros; apply H; right; assumption|].
      rewrite Hy. cbn. eauto.
Qed.

Lemma xfinite_dec v : (exists r, v = Fin r) <-> xisnan v = false /\ xisinf v = false.
Proof.
  destruct v; cbn; split; try (intros (r0 & H); discriminate); try (intros (H & H'); discriminate); eauto.
Qed.

Lemma xsum_real l : (forall v, In v l -> exists r, v = Fin r) ->
  xreal (xsum l) = lsum (map xreal l).
Proof.
  induction l as [|a l IH]; intros H; [reflexivity|]. cbn [map]. rewrite lsum_cons.
  destruct (H a (or_introl eq_refl)) as (x & ->).
  assert (Hl : forall v, In v l -> exists r, v = Fin r) by (intros; apply H; right; assumption).
  rewrite <- IH by exact Hl. cbn.
  destruct (proj2 (xsum_finite l) Hl) as (y & Hy). unfold xsum in *. rewrite Hy. reflexivity.
Qed.

Lemma in_data {V} (A : csr V) v :
  In v (data A) <-> exists i j, (i < nrow A)%nat /\ In (j, v) (row A i).
Proof.
  unfold data. rewrite in_map_iff. split.
  - intros ([[i j] w] & E & Hin). cbn in E; subst. apply in_stored in Hin. eauto.
  - intros (i & j & Hi & Hin). exists (i, j, v). split; [reflexivity|]. apply in_stored; auto.
Qed.

Lemma row_cmap {V V'} (f : V -> V') (A : csr V) i :
  row (cmap f A) i = map (fun cv => (fst cv, f (snd cv))) (row A i).
Proof.
  unfold row, cmap. cbn. change (@nil (nat * V')) with (map (fun cv : nat * V => (fst cv, f (snd cv))) []).
  apply map_nth.
Qed.

Lemma row_elim_x (A : csr xval) i :
  row (eliminate_zeros_x A) i = filter (fun cv => negb (xiszero (snd cv))) (row A i).
Proof.
  unfold row, eliminate_zeros_x. cbn.
  change (@nil (nat * xval)) with (filter (fun cv : nat * xval => negb (xiszero (snd cv))) []) at 1.
  apply map_nth.
Qed.

Definition finalW0 (A : csr xval) : csr R := cmap xreal (eliminate_zeros_x A).

Lemma row_finalW0 A i : row (finalW0 A) i =
  map (fun cv => (fst cv, xreal (snd cv))) (filter (fun cv => negb (xiszero (snd cv))) (row A i)).
Proof. unfold finalW0. rewrite row_cmap, row_elim_x. reflexivity. Qed.

(** Dropping zeros does not change the sum of the values at a position. *)
Lemma filter_sum_drop (l : list (nat * xval)) j :
  (forall v, In v (map snd l) -> exists r, v = Fin r) ->
  lsum (map snd (filter (fun cv => Nat.eqb (fst cv) j)
     (map (fun cv => (fst cv, xreal (snd cv))) (filter (fun cv => negb (xiszero (snd cv))) l)))) =
  xreal (xsum (map snd (filter (fun cv => Nat.eqb (fst cv) j) l))).
Proof.
  intros H. rewrite xsum_real.
  2:{ intros v Hv. apply H. apply in_map_iff in Hv. destruct Hv as (x & E & Hx).
      apply filter_In in Hx. apply in_map_iff. exists x; tauto. }
  induction l as [|[c w] l IH]; [reflexivity|].
  assert (H' : forall v, In v (map snd l) -> exists r, v = Fin r) by (intros; apply H; right; assumption).
  specialize (IH H'). destruct (H w) as (r & ->); [left; reflexivity|].
  cbn [filter snd fst xiszero map]. destruct (Reqb_spec r 0) as [->|Hr]; cbn [negb].
  - rewrite IH. destruct (Nat.eqb c j); cbn [map snd xreal]; rewrite ?lsum_cons; lra.
  - cbn [map filter fst snd xreal]. destruct (Nat.eqb c j); cbn [map snd xreal]; rewrite ?lsum_cons, IH; lra.
Qed.

Lemma get_finalW0 A i j :
  (forall v, In v (map snd (row A i)) -> exists r, v = Fin r) ->
  get (finalW0 A) i j = xreal (getx A i j).
Proof. intros H. unfold get, getx. rewrite row_finalW0. apply filter_sum_drop; exact H. Qed.

Lemma nrow_finalW0 A : nrow (finalW0 A) = nrow A. Proof. reflexivity. Qed.
Lemma ncol_finalW0 A : ncol (finalW0 A) = ncol A. Proof. reflexivity. Qed.

Lemma finalW0_nozero A : (forall v, In v (data A) -> exists r, v = Fin r) -> nozero (finalW0 A).
Proof.
  intros Hf i j v Hin. apply in_stored in Hin. destruct Hin as (Hi & Hin).
  rewrite row_finalW0 in Hin. apply in_map_iff in Hin. destruct Hin as ([c w] & E & Hin).
  inversion E; subst. apply filter_In in Hin. destruct Hin as (Hin & Hz). cbn in Hz.
  destruct (Hf w) as (r & ->); [apply in_data; eauto|]. cbn in *.
  apply negb_true_iff, Reqb_false in Hz. exact Hz.
Qed.

Lemma finalW0_wf A : wf_csr A -> wf_csr (finalW0 A).
Proof.
  intros (Hl & Hc). split.
  - cbn. rewrite !map_length. exact Hl.
  - intros i Hi cv Hin. rewrite row_finalW0 in Hin. apply in_map_iff in Hin.
    destruct Hin as ([c w] & <- & Hin). apply filter_In in Hin. cbn. apply (Hc i Hi (c, w)). tauto.
Qed.

Lemma NoDup_map_fst_filter {V} (p : nat * V -> bool) l :
  NoDup (map fst l) -> NoDup (map fst (filter p l)).
Proof.
  induction l as [|a l IH]; intros H; [constructor|]. cbn in H. inversion H as [|? ? Hni Hnd]; subst.
  cbn. destruct (p a); [|apply IH; exact Hnd]. cbn. constructor; [|apply IH; exact Hnd].
  intros Hin. apply Hni. apply in_map_iff in Hin. destruct Hin as (x & E & Hx).
  apply filter_In in Hx. apply in_map_iff. exists x; tauto.
Qed.

Lemma finalW0_canonical A : canonical A -> canonical (finalW0 A).
Proof.
  intros H i Hi. rewrite row_finalW0, map_map. cbn. apply NoDup_map_fst_filter. apply H; exact Hi.
Qed.

(** Conversions to CSR. *)
Lemma nth_rows_map {V} (f : nat -> list (nat * V)) n i :
  nth i (map f (seq 0 n)) [] = if Nat.ltb i n then f i else [].
Proof.
  destruct (Nat.ltb_spec i n) as [H|H].
  - apply nth_map_seq; exact H.
  - apply nth_overflow. rewrite map_length, seq_length. exact H.
Qed.

Lemma dense_wf n m d : wf_csr (csr_of_dense n m d).
Proof.
  split; [cbn; rewrite map_length, seq_length; reflexivity|].
  intros i Hi cv Hin. cbn in Hi. unfold row, csr_of_dense in Hin. cbn in Hin.
  rewrite nth_map_seq in Hin by exact Hi. apply filter_In in Hin. destruct Hin as (Hin & _).
  apply in_map_iff in Hin. destruct Hin as (j & <- & Hj). apply in_seq in Hj. cbn. lia.
Qed.

Lemma map_fst_graph {V} (f : nat -> V) l : map fst (map (fun j => (j, f j)) l) = l.
Proof. rewrite map_map. cbn. apply map_id. Qed.

Lemma dense_canonical n m d : canonical (csr_of_dense n m d).
Proof.
  intros i Hi. cbn in Hi. unfold row, csr_of_dense. cbn. rewrite nth_map_seq by exact Hi.
  apply NoDup_map_fst_filter. rewrite map_fst_graph. apply seq_NoDup.
Qed.

Lemma coo_wf n m e : wf_csr (csr_of_coo n m e).
Proof.
  split; [cbn; rewrite map_length, seq_length; reflexivity|].
  intros i Hi cv Hin. cbn in Hi. unfold row, csr_of_coo in Hin. cbn in Hin.
  rewrite nth_map_seq in Hin by exact Hi. apply in_map_iff in Hin. destruct Hin as (j & <- & Hj).
  apply filter_In in Hj. destruct Hj as (Hj & _). apply in_seq in Hj. cbn. lia.
Qed.

Lemma coo_canonical n m e : canonical (csr_of_coo n m e).
Proof.
  intros i Hi. cbn in Hi. unfold row, csr_of_coo. cbn. rewrite nth_map_seq by exact Hi.
  rewrite map_fst_graph. apply NoDup_filter, seq_NoDup.
Qed.

Lemma to_csr_wf inp : wf_input inp -> wf_csr (to_csr inp).
Proof. destruct inp; cbn; intros H; [apply dense_wf|exact H|apply coo_wf]. Qed.

(** A sparse graph function read back: the values stored for j in a list of distinct columns. *)
Lemma filter_graph {V} (f : nat -> V) (p : nat * V -> bool) l j : NoDup l ->
  map snd (filter (fun cv => Nat.eqb (fst cv) j) (filter p (map (fun k => (k, f k)) l))) =
  if (existsb (Nat.eqb j) l && p (j, f j))%bool then [f j] else [].
Proof.
  induction l as [|k l IH]; intros H; [reflexivity|]. inversion H as [|? ? Hni Hnd]; subst.
  cbn [map filter]. specialize (IH Hnd). cbn [existsb].
  destruct (Nat.eqb_spec j k) as [->|Hne].
  - assert (E : existsb (Nat.eqb k) l = false).
    { destruct (existsb (Nat.eqb k) l) eqn:E; [|reflexivity]. exfalso; apply Hni.
      apply existsb_exists in E. destruct E as (x & Hx & Ex). apply Nat.eqb_eq in Ex. subst; exact Hx. }
    rewrite E in IH. cbn [andb orb] in *. destruct (p (k, f k)).
    + cbn [filter fst]. rewrite Nat.eqb_refl. cbn [map snd]. rewrite IH. reflexivity.
    + exact IH.
  - cbn [orb]. destruct (p (k, f k)); [|exact IH].
    cbn [filter fst]. destruct (Nat.eqb_spec k j); [congruence|]. exact IH.
Qed.

Lemma getx_dense n m d i j : (i < n)%nat -> (j < m)%nat ->
  xreal (getx (csr_of_dense n m d) i j) = xreal (nth (i * m + j) d (Fin 0)) /\
  (finite_x (getx (csr_of_dense n m d) i j) <-> finite_x (nth (i * m + j) d (Fin 0))).
Proof.
  intros Hi Hj. unfold getx, row, csr_of_dense. cbn [rows]. rewrite nth_map_seq by exact Hi.
  rewrite (filter_graph (fun j => nth (i * m + j) d (Fin 0))) by apply seq_NoDup.
  assert (E : existsb (Nat.eqb j) (seq 0 m) = true).
  { apply existsb_exists. exists j. split; [apply in_seq; lia|apply Nat.eqb_refl]. }
  rewrite E. cbn [andb snd]. set (v := nth (i * m + j) d (Fin 0)). clearbody v.
  destruct v as [r| | |]; cbn.
  - destruct (Reqb_spec r 0) as [->|]; cbn.
    + split; [reflexivity|]. split; intros _; eexists; reflexivity.
    + split; [lra|]. split; intros _; eexists; reflexivity.
  - split; [reflexivity|]. tauto.
  - split; [reflexivity|]. tauto.
  - split; [reflexivity|]. tauto.
Qed.

Lemma getx_coo n m e i j : (i < n)%nat -> (j < m)%nat ->
  xreal (getx (csr_of_coo n m e) i j) = xreal (xsum (coo_here i j e)) /\
  (finite_x (getx (csr_of_coo n m e) i j) <-> finite_x (xsum (coo_here i j e))).
Proof.
  intros Hi Hj. unfold getx, row, csr_of_coo. cbn [rows]. rewrite nth_map_seq by exact Hi.
  pose (q := fun j => negb (Nat.eqb (List.length (coo_here i j e)) 0)).
  pose (f := fun j => xsum (coo_here i j e)).
  assert (E : map (fun j => (j, xsum (coo_here i j e)))
                (filter (fun j => negb (Nat.eqb (List.length (coo_here i j e)) 0)) (seq 0 m)) =
              filter (fun cv => q (fst cv)) (map (fun j => (j, f j)) (seq 0 m))).
  { change (map (fun j => (j, f j)) (filter q (seq 0 m)) =
            filter (fun cv => q (fst cv)) (map (fun j => (j, f j)) (seq 0 m))).
    generalize (seq 0 m) as l. induction l as [|k l IH]; [reflexivity|]. cbn.
    destruct (q k); cbn; rewrite IH; reflexivity. }
  rewrite E, (filter_graph f) by apply seq_NoDup.
  assert (Ej : existsb (Nat.eqb j) (seq 0 m) = true).
  { apply existsb_exists. exists j. split; [apply in_seq; lia|apply Nat.eqb_refl]. }
  rewrite Ej. cbn [andb fst]. unfold q. destruct (Nat.eqb_spec (List.length (coo_here i j e)) 0) as [El|El]; cbn [negb].
  - destruct (coo_here i j e) as [|x l] eqn:Ec; [|discriminate El]. cbn.
    split; [reflexivity|tauto].
  - unfold f. cbn. set (v := xsum (coo_here i j e)). destruct v as [r| | |]; cbn; try (split; [reflexivity|tauto]).
    split; [lra|]. split; intros _; eexists; reflexivity.
Qed.

(** The dense view of the converted argument is the matrix the argument denotes. *)
Lemma to_csr_entry inp n i j : in_shape inp = [n; n] -> (i < n)%nat -> (j < n)%nat ->
  xreal (getx (to_csr inp) i j) = xreal (input_entry inp i j) /\
  (finite_x (getx (to_csr inp) i j) <-> finite_x (input_entry inp i j)).
Proof.
  intros Hs Hi Hj. destruct inp as [s d|A|n' m' e]; cbn in *.
  - subst s. cbn. apply getx_dense; assumption.
  - split; [reflexivity|tauto].
  - inversion Hs; subst. apply getx_coo; assumption.
Qed.

Lemma to_csr_nrow inp n : in_shape inp = [n; n] -> nrow (to_csr inp) = n.
Proof. destruct inp; cbn; intros H; [subst; reflexivity|inversion H; subst; congruence|inversion H; reflexivity]. Qed.
Lemma to_csr_ncol inp n : in_shape inp = [n; n] -> ncol (to_csr inp) = n.
Proof. destruct inp; cbn; intros H; [subst; reflexivity|inversion H; congruence|inversion H; reflexivity]. Qed.

(** All stored values finite iff all entries of the dense view finite. *)
Lemma data_finite A : wf_csr A ->
  (forall v, In v (data A) -> exists r, v = Fin r) <->
  (forall i j, (i < nrow A)%nat -> (j < ncol A)%nat -> finite_x (getx A i j)).
Proof.
  intros (Hl & Hc). split.
  - intros H i j Hi Hj. apply xsum_finite. intros v Hv. apply in_map_iff in Hv.
    destruct Hv as ([c w] & E & Hin). cbn in E; subst w. apply filter_In in Hin.
    apply H. apply in_data. exists i, c. tauto.
  - intros H v Hv. apply in_data in Hv. destruct Hv as (i & j & Hi & Hin).
    assert (Hj : (j < ncol A)%nat) by (apply (Hc i Hi (j, v)); exact Hin).
    assert (Hf : forall w, In w (map snd (filter (fun cv => Nat.eqb (fst cv) j) (row A i))) ->
                 exists r, w = Fin r).
    { apply xsum_finite. apply (H i j Hi Hj). }
    apply Hf. apply in_map_iff. exists (j, v). split; [reflexivity|].
    apply filter_In. split; [exact Hin|]. cbn. apply Nat.eqb_refl.
Qed.

(** Summing the duplicates. *)
Lemma coo_here_stored {V} (A : csr V) i j : (i < nrow A)%nat ->
  coo_here i j (stored A) = map snd (filter (fun cv => Nat.eqb (fst cv) j) (row A i)).
Proof.
  intros Hi. unfold coo_here, stored.
  assert (Hgen : forall l, NoDup l ->
    map snd (filter (fun t : nat * nat * V => (Nat.eqb (fst (fst t)) i && Nat.eqb (snd (fst t)) j)%bool)
      (flat_map (fun k => map (fun cv => (k, fst cv, snd cv)) (row A k)) l)) =
    if existsb (Nat.eqb i) l then map snd (filter (fun cv => Nat.eqb (fst cv) j) (row A i)) else []).
  { induction l as [|k l IH]; intros Hnd; [reflexivity|]. inversion Hnd as [|? ? Hni Hnd']; subst.
    cbn [flat_map existsb]. rewrite filter_app, map_app, (IH Hnd').
    destruct (Nat.eqb_spec i k) as [->|Hne].
    - assert (E : existsb (Nat.eqb k) l = false).
      { destruct (existsb (Nat.eqb k) l) eqn:E; [|reflexivity]. exfalso; apply Hni.
        apply existsb_exists in E. destruct E as (x & Hx & Ex). apply Nat.eqb_eq in Ex. subst; exact Hx. }
      rewrite E, app_nil_r. cbn [orb]. generalize (row A k) as r. induction r as [|[c v] r IHr]; [reflexivity|].
      cbn [map filter fst snd]. rewrite Nat.eqb_refl. cbn [andb]. destruct (Nat.eqb c j); cbn [map snd]; rewrite IHr; reflexivity.
    - cbn [orb]. assert (E : forall r : list (nat * V),
        filter (fun t : nat * nat * V => (Nat.eqb (fst (fst t)) i && Nat.eqb (snd (fst t)) j)%bool)
          (map (fun cv => (k, fst cv, snd cv)) r) = []).
      { induction r as [|[c v] r IHr]; [reflexivity|]. cbn [map filter fst snd].
        destruct (Nat.eqb_spec k i); [congruence|]. exact IHr. }
      rewrite E. reflexivity. }
  rewrite Hgen by apply seq_NoDup.
  assert (E : existsb (Nat.eqb i) (seq 0 (nrow A)) = true).
  { apply existsb_exists. exists i. split; [apply in_seq; lia|apply Nat.eqb_refl]. }
  rewrite E. reflexivity.
Qed.

Lemma getx_dups A i j : (i < nrow A)%nat -> (j < ncol A)%nat ->
  xreal (getx (sum_duplicates A) i j) = xreal (getx A i j) /\
  (finite_x (getx (sum_duplicates A) i j) <-> finite_x (getx A i j)).
Proof.
  intros Hi Hj. unfold sum_duplicates.
  destruct (getx_coo (nrow A) (ncol A) (stored A) i j Hi Hj) as (H1 & H2).
  rewrite (coo_here_stored A i j Hi) in H1, H2. split; [exact H1|exact H2].
Qed.

Lemma dups_finite A : wf_csr A -> (forall v, In v (data A) -> exists r, v = Fin r) ->
  forall v, In v (data (sum_duplicates A)) -> exists r, v = Fin r.
Proof.
  intros Hwf Hf. apply (data_finite (sum_duplicates A) (coo_wf _ _ _)). intros i j Hi Hj.
  apply (getx_dups A i j Hi Hj). apply (proj1 (data_finite A Hwf) Hf); assumption.
Qed.

(** The adjacency the constructor keeps. *)
Definition finalW (A : csr xval) : csr R := finalW0 (sum_duplicates A).

Lemma nrow_finalW A : nrow (finalW A) = nrow A. Proof. reflexivity. Qed.
Lemma ncol_finalW A : ncol (finalW A) = ncol A. Proof. reflexivity. Qed.
Lemma finalW_wf A : wf_csr (finalW A).
Proof. apply finalW0_wf, coo_wf. Qed.
Lemma finalW_canonical A : canonical (finalW A).
Proof. apply finalW0_canonical, coo_canonical. Qed.
Lemma finalW_nozero A : wf_csr A -> (forall v, In v (data A) -> exists r, v = Fin r) -> nozero (finalW A).
Proof. intros Hwf Hf. apply finalW0_nozero, dups_finite; assumption. Qed.
Lemma get_finalW A i j : wf_csr A -> (forall v, In v (data A) -> exists r, v = Fin r) ->
  (i < nrow A)%nat -> (j < ncol A)%nat -> get (finalW A) i j = xreal (getx A i j).
Proof.
  intros Hwf Hf Hi Hj. unfold finalW. rewrite get_finalW0.
  - apply (getx_dups A i j Hi Hj).
  - intros v Hin. apply (dups_finite A Hwf Hf). apply in_map_iff in Hin. destruct Hin as ([c w] & E & Hin).
    cbn in E; subst w. apply in_data. exists i, c. split; [exact Hi|exact Hin].
Qed.

(** Inversion of a successful constructor call. *)
Lemma init_inv inp lap coords G : wf_input inp -> graph_init inp lap coords = Ok G ->
  exists n L, in_shape inp = [n; n] /\
    (forall v, In v (data (to_csr inp)) -> exists r, v = Fin r) /\
    laplacian (finalW (to_csr inp)) lap = Ok L /\
    G = mkgraph (finalW (to_csr inp)) n (count_edges (finalW (to_csr inp))) lap L coords [].
Proof.
  intros Hwf. unfold graph_init.
  destruct (Nat.eqb_spec (List.length (in_shape inp)) 2) as [El|El]; cbn [andb negb]; [|discriminate].
  destruct (Nat.eqb_spec (nth 0 (in_shape inp) 0%nat) (nth 1 (in_shape inp) 0%nat)) as [Es|Es]; cbn [negb];
    [|discriminate].
  destruct (in_shape inp) as [|n [|m [|]]] eqn:Esh; try discriminate El. cbn in Es. subst m.
  destruct (xisnan (xsum (data (to_csr inp)))) eqn:E1; [discriminate|].
  destruct (xisinf (xsum (data (to_csr inp)))) eqn:E2; [discriminate|].
  intros H. cbv zeta in H. fold (finalW0 (sum_duplicates (to_csr inp))) in H. fold (finalW (to_csr inp)) in H.
  destruct (laplacian (finalW (to_csr inp)) lap) as [L|] eqn:EL; cbn in H; [|discriminate].
  exists n, L. split; [reflexivity|]. split.
  { apply xsum_finite. apply xfinite_dec. auto. }
  split; [reflexivity|]. injection H as <-.
  rewrite (to_csr_nrow inp n Esh). reflexivity.
Qed.

Lemma init_good inp lap coords G : wf_input inp ->
  graph_init inp lap coords = Ok G -> good (gW G) /\ g_n_vertices G = nrow (gW G) /\
  g_n_edges G = count_edges (gW G) /\ laplacian (gW G) (g_lap_type G) = Ok (gL G).
Proof.
  intros Hwf H. destruct (init_inv inp lap coords G Hwf H) as (n & L & Hs & Hf & HL & ->).
  cbn [gW g_n_vertices g_n_edges gL g_lap_type]. split; [|split; [|split]].
  - constructor.
    + rewrite ncol_finalW, nrow_finalW, (to_csr_ncol inp n Hs), (to_csr_nrow inp n Hs). reflexivity.
    + apply finalW_wf.
    + apply finalW_canonical.
    + apply finalW_nozero; [apply to_csr_wf; exact Hwf|exact Hf].
  - rewrite nrow_finalW, (to_csr_nrow inp n Hs). reflexivity.
  - reflexivity.
  - exact HL.
Qed.

Lemma built_good G : built G -> good (gW G) /\ g_n_vertices G = nrow (gW G) /\
  g_n_edges G = count_edges (gW G) /\ laplacian (gW G) (g_lap_type G) = Ok (gL G).
Proof.
  induction 1 as [inp lap co G Hwf H|G s name G' HG IH H]; [eapply init_good; eauto|].
  unfold set_signal, check_signal in H. destruct (Nat.eqb _ _); [|discriminate]. injection H as <-. exact IH.
Qed.

(** The columns of each row of the adjacency are sorted. *)
Lemma StronglySorted_filter {A} (R : A -> A -> Prop) p l : StronglySorted R l -> StronglySorted R (filter p l).
Proof.
  induction 1 as [|a l Hl IH Hf]; [constructor|]. cbn. destruct (p a); [|exact IH]. constructor; [exact IH|].
  apply Forall_forall. intros x Hx. apply filter_In in Hx. rewrite Forall_forall in Hf. apply Hf, Hx.
Qed.
Lemma StronglySorted_app_iff {A} (R : A -> A -> Prop) l m :
  StronglySorted R (l ++ m) <-> StronglySorted R l /\ StronglySorted R m /\ forall x y, In x l -> In y m -> R x y.
Proof.
  induction l as [|a l IH]; cbn [app].
  - split; [intros H; split; [constructor|split; [exact H|intros x y []]]|tauto].
  - split.
    + intros H. inversion H as [|? ? H1 H2]; subst. apply IH in H1. destruct H1 as (Hl & Hm & Hx).
      rewrite Forall_forall in H2. split; [constructor; [exact Hl|apply Forall_forall; intros x Hin; apply H2, in_or_app; left; exact Hin]|].
      split; [exact Hm|]. intros x y [<-|Hin] Hy; [apply H2, in_or_app; right; exact Hy|apply Hx; assumption].
    + intros (Hl & Hm & Hx). inversion Hl as [|? ? H1 H2]; subst. rewrite Forall_forall in H2. constructor.
      * apply IH. split; [exact H1|]. split; [exact Hm|]. intros x y Hin Hy. apply Hx; [right; exact Hin|exact Hy].
      * apply Forall_forall. intros x Hin. apply in_app_or in Hin. destruct Hin as [Hin|Hin]; [apply H2, Hin|apply Hx; [left; reflexivity|exact Hin]].
Qed.
Lemma seq_sorted k n : StronglySorted lt (seq k n).
Proof.
  revert k. induction n as [|n IH]; intros k; [constructor|]. cbn. constructor; [apply IH|].
  apply Forall_forall. intros x Hx. apply in_seq in Hx. lia.
Qed.
Lemma map_fst_filter {V} (p : nat * V -> bool) l : StronglySorted lt (map fst l) -> StronglySorted lt (map fst (filter p l)).
Proof.
  induction l as [|a l IH]; intros H; [constructor|]. cbn [map] in H. inversion H as [|? ? H1 H2]; subst. cbn [filter].
  destruct (p a); [|apply IH, H1]. cbn [map]. constructor; [apply IH, H1|].
  apply Forall_forall. intros x Hx. rewrite Forall_forall in H2. apply H2. apply in_map_iff in Hx.
  destruct Hx as (y & <- & Hy). apply filter_In in Hy. apply in_map, Hy.
Qed.
Lemma coo_sorted n m e i : (i < n)%nat -> StronglySorted lt (map fst (row (csr_of_coo n m e) i)).
Proof.
  intros Hi. unfold row, csr_of_coo. cbn [rows]. rewrite nth_map_seq by exact Hi. rewrite map_fst_graph.
  apply StronglySorted_filter, seq_sorted.
Qed.
Lemma finalW_sorted A i : (i < nrow A)%nat -> StronglySorted lt (map fst (row (finalW A) i)).
Proof.
  intros Hi. unfold finalW. rewrite row_finalW0, map_map. cbn [fst]. apply map_fst_filter. apply coo_sorted, Hi.
Qed.
Lemma built_sorted G : built G -> forall i, (i < nrow (gW G))%nat -> StronglySorted lt (map fst (row (gW G) i)).
Proof.
  induction 1 as [inp lap co G Hwf H|G s name G' HG IH H].
  - destruct (init_inv inp lap co G Hwf H) as (n & L & Hs & Hf & HL & ->). cbn [gW]. intros i Hi. apply finalW_sorted, Hi.
  - unfold set_signal, check_signal in H. destruct (Nat.eqb _ _); [|discriminate]. injection H as <-. exact IH.
Qed.

Definition valid_lap (t : laptype) : Prop := t = Combinatorial \/ t = Normalized.

Lemma laplacian_ok W t : (exists L, laplacian W t = Ok L) <-> valid_lap t.
Proof.
  unfold valid_lap; destruct t; cbn; split; intros H; eauto.
  - destruct H as (L & H). discriminate.
  - destruct H; discriminate.
Qed.

Lemma init_accepts inp lap coords : wf_input inp ->
  (exists G, graph_init inp lap coords = Ok G) <->
  valid_lap lap /\ exists n, in_shape inp = [n; n] /\
    forall i j, (i < n)%nat -> (j < n)%nat -> finite_x (input_entry inp i j).
Proof.
  intros Hwf. split.
  - intros (G & H). destruct (init_inv inp lap coords G Hwf H) as (n & L & Hs & Hf & HL & _).
    split; [apply (laplacian_ok (finalW (to_csr inp))); eauto|]. exists n. split; [exact Hs|].
    intros i j Hi Hj. apply (to_csr_entry inp n i j Hs Hi Hj).
    apply (proj1 (data_finite (to_csr inp) (to_csr_wf inp Hwf)) Hf);
      rewrite ?(to_csr_nrow inp n Hs), ?(to_csr_ncol inp n Hs); assumption.
  - intros (Hlap & n & Hs & Hf).
    assert (Hd : forall v, In v (data (to_csr inp)) -> exists r, v = Fin r).
    { apply (data_finite (to_csr inp) (to_csr_wf inp Hwf)).
      intros i j. rewrite (to_csr_nrow inp n Hs), (to_csr_ncol inp n Hs). intros Hi Hj.
      apply (to_csr_entry inp n i j Hs Hi Hj). apply Hf; assumption. }
    apply xsum_finite in Hd. apply xfinite_dec in Hd. destruct Hd as (H1 & H2).
    destruct (proj2 (laplacian_ok (finalW (to_csr inp)) lap) Hlap) as (L & HL).
    unfold graph_init. rewrite Hs. cbn [List.length nth]. rewrite !Nat.eqb_refl. cbn [andb negb].
    rewrite H1, H2. cbv zeta. fold (finalW0 (sum_duplicates (to_csr inp))). fold (finalW (to_csr inp)). rewrite HL. cbn. eauto.
Qed.

Lemma init_preserves inp lap coords G : wf_input inp -> graph_init inp lap coords = Ok G ->
  in_shape inp = [g_n_vertices G; g_n_vertices G] /\
  (forall i j, (i < g_n_vertices G)%nat -> (j < g_n_vertices G)%nat ->
     input_entry inp i j = Fin (wt G i j)) /\
  (forall i j v, In (i, j, v) (stored (gW G)) -> v <> 0).
Proof.
  intros Hwf H. destruct (init_inv inp lap coords G Hwf H) as (n & L & Hs & Hf & HL & ->).
  cbn [gW g_n_vertices]. split; [exact Hs|]. split.
  - intros i j Hi Hj. unfold wt. cbn [gW].
    destruct (to_csr_entry inp n i j Hs Hi Hj) as (Hv & Hfin).
    rewrite get_finalW; [|apply to_csr_wf; exact Hwf|exact Hf|rewrite (to_csr_nrow inp n Hs); exact Hi|rewrite (to_csr_ncol inp n Hs); exact Hj].
    assert (Hx : finite_x (input_entry inp i j)).
    { apply Hfin. apply (proj1 (data_finite (to_csr inp) (to_csr_wf inp Hwf)) Hf);
        rewrite ?(to_csr_nrow inp n Hs), ?(to_csr_ncol inp n Hs); assumption. }
    destruct Hx as (r & Hr). rewrite Hv, Hr. reflexivity.
  - apply finalW_nozero; [apply to_csr_wf; exact Hwf|exact Hf].
Qed.

(** What a user needs to present a graph as built: dense data give any good matrix. *)
Lemma finite_entry_built n d lap coords :
  List.length d = (n * n)%nat -> valid_lap lap ->
  exists G, graph_init (InDense [n; n] (map Fin d)) lap coords = Ok G /\ built G /\
    g_n_vertices G = n /\ g_lap_type G = lap /\ g_coords G = coords /\
    forall i j, (i < n)%nat -> (j < n)%nat -> wt G i j = nth (i * n + j) d 0.
Proof.
  intros Hd Hlap. set (inp := InDense [n; n] (map Fin d)).
  assert (Hwf : wf_input inp) by (cbn; rewrite map_length; lia).
  assert (Hnth : forall k, nth k (map Fin d) (Fin 0) = Fin (nth k d 0)) by (intros; apply map_nth).
  destruct (proj2 (init_accepts inp lap coords Hwf)) as (G & HG).
  { split; [exact Hlap|]. exists n. split; [reflexivity|]. intros i j _ _. cbn. rewrite Hnth. eexists; reflexivity. }
  exists G. split; [exact HG|]. split.
  { eapply built_init; [exact Hwf|exact HG]. }
  destruct (init_preserves inp lap coords G Hwf HG) as (Hs & Hw & _).
  assert (En : g_n_vertices G = n) by (cbn in Hs; inversion Hs; congruence).
  split; [exact En|].
  destruct (init_inv inp lap coords G Hwf HG) as (n' & L & _ & _ & _ & ->). cbn in *.
  split; [reflexivity|]. split; [reflexivity|].
  subst n'. intros i j Hi Hj. specialize (Hw i j Hi Hj). rewrite Hnth in Hw. injection Hw as ->. reflexivity.
Qed.
