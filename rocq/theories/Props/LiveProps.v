(** Property C90: attributes of a graph over every history of reads, recomputations, rejected
    assignments and writes into its weight matrix. *)
From Coq Require Import Reals Lra Lia List Arith Bool String.
From Verif.Base Require Import RSum Prelude LinAlg.
From Verif.Spec Require Import Matrix GraphSpec Card Reach.
From Verif.Model Require Import Sparse Graph Traverse Live.
From Verif.Proofs Require Import SparseFacts InitFacts EdgeFacts LapFacts TraverseFacts.
From Verif.Props Require Import Core Laplacian Traversal.
Import ListNotations.
Open Scope R_scope.

(** A history: calls one after the other, whether or not they raise. *)
Definition run (s : live) (cs : list call) : live := fold_left (fun s c => fst (act s c)) cs s.
(** What the call answers after the history. *)
Definition answers (s : live) (cs : list call) (c : call) : res answer := snd (act (run s cs) c).
(** The graph object right after construction. *)
Definition fresh (G : graph) : live := fst (live_init (gW G) (g_lap_type G)).
(** The matrix the last write left. *)
Definition weights (G : graph) (cs : list call) : csr R :=
  fold_left (fun W c => match c with WriteW W' => W' | _ => W end) cs (gW G).
Definition unwritten (cs : list call) : Prop := forall W, ~ In (WriteW W) cs.
Definition known (cs : list call) : Prop := forall t, In (Laplacian t) cs -> t = Combinatorial \/ t = Normalized.
(** The oracles of the sets used by is_connected are sets: what they pop is a member. *)
Definition sets_ok (c : call) : Prop := match c with Connected p p' => pop_ok p /\ pop_ok p' | _ => True end.
(** The type the Laplacian was last asked for. *)
Definition last_type (G : graph) (cs : list call) : laptype :=
  fold_left (fun t c => match c with Laplacian t' => t' | _ => t end) cs (g_lap_type G).

(** What every call would answer if it computed everything anew from the matrix W. *)
Definition computed (G : graph) (W : csr R) (c : call) : res answer :=
  match c with
  | ReadW => Ok (AnsW W)
  | ReadA => Ok (AnsA (adjb W))
  | ReadDeg => Ok (AnsVec (deg W))
  | ReadDw => Ok (AnsVec (dw W))
  | ReadNe => Ok (AnsNat (count_edges W))
  | Directed => Ok (AnsBool (is_directed W))
  | Weighted => Ok (AnsBool (is_weighted W))
  | Loops => Ok (AnsBool (has_loops W))
  | Edges => bindr (get_edge_list W) (fun l => Ok (AnsEdges l))
  | Connected p p' => match is_connected p p' W with
                      | Some r => bindr r (fun b => Ok (AnsBool b))
                      | None => Ok AnsFuel
                      end
  | Laplacian t => bindr (laplacian W t) (fun _ => Ok AnsNone)
  | AssignW _ => Raise AttributeError
  | ReadL | WriteW _ => Ok AnsNone
  end.

(** ** The invariant *)
Record linv (G : graph) (s : live) : Prop := {
  l_n : v_n s = nrow (gW G);
  l_ne : v_ne s = count_edges (gW G);
  l_dir : v_dir s = Some (is_directed (gW G));
  l_dw : v_dw s = Some (dw (gW G)) }.

Lemma built_type G : built G -> laplacian (gW G) (g_lap_type G) = Ok (gL G).
Proof. intros HG. destruct (built_good G HG) as (_ & _ & _ & H). exact H. Qed.

Lemma fresh_ok G : built G -> linv G (fresh G) /\ v_W (fresh G) = gW G /\ v_lap (fresh G) = g_lap_type G /\
  v_L (fresh G) = gL G /\ v_A (fresh G) = None /\ v_d (fresh G) = None /\ v_conn (fresh G) = None.
Proof.
  intros HG. pose proof (built_type G HG) as HL. unfold fresh, live_init, live_laplacian.
  cbn [live_directed v_dir put_dir put_ne put_lap v_W v_L].
  destruct (g_lap_type G); cbn in HL; try discriminate; injection HL as HL; cbn;
    (split; [constructor; reflexivity|]); repeat split; rewrite <- HL; reflexivity.
Qed.

Lemma step_inv G s c : linv G s -> linv G (fst (act s c)) /\
  v_W (fst (act s c)) = match c with WriteW W => W | _ => v_W s end.
Proof.
  intros I. destruct I as [In Ine Idir Idw].
  assert (Hd : live_directed s = (s, is_directed (gW G))) by (unfold live_directed; rewrite Idir; reflexivity).
  destruct c; cbn [act]; try (cbn [fst]; split; [constructor; assumption|reflexivity]).
  - unfold live_A. destruct (v_A s); cbn; split; try constructor; auto.
  - unfold live_d. destruct (v_d s); cbn [fst]; [split; [constructor; assumption|reflexivity]|].
    rewrite Hd. cbn. split; try constructor; auto.
  - unfold live_dw. rewrite Idw. cbn. split; try constructor; auto.
  - rewrite Hd. cbn. split; try constructor; auto.
  - unfold live_edges. rewrite Hd. cbn. split; try constructor; auto.
  - unfold live_connected. destruct (v_conn s); cbn [fst]; [split; [constructor; assumption|reflexivity]|].
    rewrite Hd. destruct (connected_as _ _ _ _ _) as [[b|x]|]; cbn; split; try constructor; auto.
  - unfold live_laplacian.
    assert (Hd' : live_directed (put_lap s t (v_L s)) = (put_lap s t (v_L s), is_directed (gW G)))
      by (unfold live_directed; cbn [put_lap v_dir]; rewrite Idir; reflexivity).
    rewrite Hd'. unfold live_dw. cbn [put_lap v_dw]. rewrite Idw.
    destruct t; cbn; split; try constructor; auto.
Qed.

Lemma run_inv G cs s : linv G s -> linv G (run s cs) /\
  v_W (run s cs) = fold_left (fun W c => match c with WriteW W' => W' | _ => W end) cs (v_W s).
Proof.
  revert s. induction cs as [|c cs IH]; intros s I; [split; [exact I|reflexivity]|].
  destruct (step_inv G s c I) as (I' & EW). cbn [run fold_left].
  change (fold_left (fun s0 c0 => fst (act s0 c0)) cs (fst (act s c))) with (run (fst (act s c)) cs).
  destruct (IH _ I') as (I2 & E2). split; [exact I2|]. rewrite E2, EW. destruct c; reflexivity.
Qed.

Lemma reached G cs : built G -> linv G (run (fresh G) cs) /\ v_W (run (fresh G) cs) = weights G cs.
Proof.
  intros HG. destruct (fresh_ok G HG) as (I & EW & _). destruct (run_inv G cs _ I) as (I2 & E2).
  split; [exact I2|]. rewrite E2, EW. reflexivity.
Qed.

(** A call leaves alone what it does not compute, and a computed attribute is never computed again. *)
Lemma act_frame G s c : linv G s ->
  (c <> ReadA \/ v_A s <> None -> v_A (fst (act s c)) = v_A s) /\
  (c <> ReadDeg \/ v_d s <> None -> v_d (fst (act s c)) = v_d s) /\
  ((forall p p', c <> Connected p p') \/ v_conn s <> None -> v_conn (fst (act s c)) = v_conn s) /\
  ((forall t, c <> Laplacian t) -> v_lap (fst (act s c)) = v_lap s /\ v_L (fst (act s c)) = v_L s).
Proof.
  intros [In Ine Idir Idw].
  assert (Hdir : live_directed s = (s, is_directed (gW G))) by (unfold live_directed; rewrite Idir; reflexivity).
  destruct c; cbn [act]; try (repeat split; reflexivity).
  - unfold live_A. destruct (v_A s) eqn:E; repeat split; auto. intros [H|H]; congruence.
  - unfold live_d. destruct (v_d s) eqn:E; repeat split; auto; rewrite Hdir; auto. intros [H|H]; congruence.
  - unfold live_dw. rewrite Idw. repeat split; reflexivity.
  - rewrite Hdir. repeat split; reflexivity.
  - unfold live_edges. rewrite Hdir. repeat split; reflexivity.
  - unfold live_connected. destruct (v_conn s) eqn:E; [repeat split; auto|]. rewrite Hdir.
    destruct (connected_as _ _ _ _ _) as [[b|x]|]; repeat split; auto.
    intros [H|H]; [exfalso; exact (H pop pop' eq_refl)|congruence].
  - unfold live_laplacian.
    assert (Hd' : live_directed (put_lap s t (v_L s)) = (put_lap s t (v_L s), is_directed (gW G)))
      by (unfold live_directed; cbn [put_lap v_dir]; rewrite Idir; reflexivity).
    rewrite Hd'. unfold live_dw. cbn [put_lap v_dw]. rewrite Idw.
    destruct t; repeat split; intros; try reflexivity; exfalso; eapply H; reflexivity.
Qed.

(** An attribute no call of the history reads stays uncomputed; a computed one stays. *)
Lemma frame_run G cs s : linv G s ->
  (~ In ReadA cs \/ v_A s <> None -> v_A (run s cs) = v_A s) /\
  (~ In ReadDeg cs \/ v_d s <> None -> v_d (run s cs) = v_d s) /\
  ((forall p p', ~ In (Connected p p') cs) \/ v_conn s <> None -> v_conn (run s cs) = v_conn s).
Proof.
  revert s. induction cs as [|c cs IH]; intros s I; [repeat split; reflexivity|].
  cbn [run fold_left]. change (fold_left (fun s0 c0 => fst (act s0 c0)) cs ?s) with (run s cs).
  destruct (IH _ (proj1 (step_inv G s c I))) as (H1 & H2 & H3).
  destruct (act_frame G s c I) as (F1 & F2 & F3 & _). split; [|split].
  - intros [H|H].
    + assert (E : v_A (fst (act s c)) = v_A s) by (apply F1; left; intros ->; apply H; left; reflexivity).
      rewrite <- E. apply H1. left. intros Hi; apply H; right; exact Hi.
    + assert (E : v_A (fst (act s c)) = v_A s) by (apply F1; right; exact H).
      rewrite <- E. apply H1. right. rewrite E. exact H.
  - intros [H|H].
    + assert (E : v_d (fst (act s c)) = v_d s) by (apply F2; left; intros ->; apply H; left; reflexivity).
      rewrite <- E. apply H2. left. intros Hi; apply H; right; exact Hi.
    + assert (E : v_d (fst (act s c)) = v_d s) by (apply F2; right; exact H).
      rewrite <- E. apply H2. right. rewrite E. exact H.
  - intros [H|H].
    + assert (E : v_conn (fst (act s c)) = v_conn s) by (apply F3; left; intros p p' ->; apply (H p p'); left; reflexivity).
      rewrite <- E. apply H3. left. intros p p' Hi; apply (H p p'); right; exact Hi.
    + assert (E : v_conn (fst (act s c)) = v_conn s) by (apply F3; right; exact H).
      rewrite <- E. apply H3. right. rewrite E. exact H.
Qed.

Lemma run_app s cs cs' : run s (cs ++ cs') = run (run s cs) cs'.
Proof. apply fold_left_app. Qed.

(** ** Attributes which keep the answer of construction, and those which follow the matrix *)

(** Whatever is written into the matrix: the weighted degrees, the number of edges and the
    directedness are those of construction, W, is_weighted() and has_loops() those of the matrix as it is now. *)
Theorem C90_frozen_and_current_attributes :
  forall G cs, built G ->
    (exists d, answers (fresh G) cs ReadDw = Ok (AnsVec d) /\
       forall i, (i < g_n_vertices G)%nat ->
         d i = (\sum_(j < g_n_vertices G) wt G j i + \sum_(j < g_n_vertices G) wt G i j) / 2) /\
    answers (fresh G) cs ReadNe = Ok (AnsNat (g_n_edges G)) /\
    (exists b, answers (fresh G) cs Directed = Ok (AnsBool b) /\ (b = true <-> ~ undirected G)) /\
    answers (fresh G) cs ReadW = Ok (AnsW (weights G cs)) /\
    answers (fresh G) cs Weighted = Ok (AnsBool (is_weighted (weights G cs))) /\
    answers (fresh G) cs Loops = Ok (AnsBool (has_loops (weights G cs))).
Proof.
  intros G cs HG. destruct (reached G cs HG) as ([In Ine Idir Idw] & EW). unfold answers. cbn [act snd].
  rewrite EW. split; [|split; [|split; [|split; [reflexivity|split; reflexivity]]]].
  - exists (dw (gW G)). unfold live_dw. rewrite Idw. split; [reflexivity|].
    intros i Hi. exact (proj1 (C08_weighted_degree G i HG Hi)).
  - rewrite Ine. destruct (built_good G HG) as (_ & _ & He & _). rewrite He. reflexivity.
  - exists (is_directed (gW G)). unfold live_directed. rewrite Idir. split; [reflexivity|].
    apply C03_is_directed_iff_not_symmetric, HG.
Qed.

(** Assigning [G.W] is always an AttributeError and changes nothing. *)
Theorem C90_assignment_is_rejected :
  forall G cs W cs' c, answers (fresh G) cs (AssignW W) = Raise AttributeError /\
    answers (fresh G) (cs ++ AssignW W :: cs') c = answers (fresh G) (cs ++ cs') c.
Proof.
  intros G cs W cs' c. split; [reflexivity|]. unfold answers. f_equal. f_equal.
  rewrite !run_app. reflexivity.
Qed.

(** ** Unmodified graphs: every answer is the one computed from W, whatever was called before *)

Lemma connected_same p p' G : connected_as p p' (is_directed (gW G)) (nrow (gW G)) (gW G) = is_connected p p' (gW G).
Proof.
  unfold is_connected, connected_as. destruct (Nat.eqb (nrow (gW G)) 0); [reflexivity|].
  destruct (all_reached p _ _) as [[|]|]; try reflexivity.
Qed.

Lemma unwritten_weights G cs : unwritten cs -> weights G cs = gW G.
Proof.
  unfold weights. generalize (gW G) as W. induction cs as [|c cs IH]; intros W Hu; [reflexivity|]. cbn [fold_left].
  assert (Hu' : unwritten cs) by (intros W' H; apply (Hu W'); right; exact H).
  rewrite (IH _ Hu'). destruct c; try reflexivity. exfalso. apply (Hu W0). left; reflexivity.
Qed.

(** The lazily computed attributes hold what would be computed. *)
Definition clean (G : graph) (s : live) : Prop :=
  (forall a, v_A s = Some a -> a = adjb (gW G)) /\
  (forall d, v_d s = Some d -> d = deg (gW G)) /\
  (forall b, v_conn s = Some b -> forall p p', pop_ok p -> pop_ok p' -> is_connected p p' (gW G) = Some (Ok b)).

Lemma clean_step G s c : built G -> linv G s -> v_W s = gW G -> clean G s -> sets_ok c -> clean G (fst (act s c)).
Proof.
  intros HG [In Ine Idir Idw] EW (HA & Hd & Hc) Hs.
  assert (Hdir : live_directed s = (s, is_directed (gW G))) by (unfold live_directed; rewrite Idir; reflexivity).
  destruct c; cbn [act]; try (split; [exact HA|split; [exact Hd|exact Hc]]).
  - unfold live_A. destruct (v_A s) eqn:E; cbn [fst]; [split; [rewrite E; exact HA|split; assumption]|].
    split; [|split; [exact Hd|exact Hc]]. cbn. intros a Ea. injection Ea as <-. rewrite EW; reflexivity.
  - unfold live_d. destruct (v_d s) eqn:E; cbn [fst]; [split; [exact HA|split; [rewrite E; exact Hd|exact Hc]]|].
    rewrite Hdir. cbn. split; [exact HA|split; [|exact Hc]]. intros d Ed. injection Ed as <-. rewrite EW; reflexivity.
  - unfold live_dw. rewrite Idw. cbn. split; [exact HA|split; [exact Hd|exact Hc]].
  - rewrite Hdir. cbn. split; [exact HA|split; [exact Hd|exact Hc]].
  - unfold live_edges. rewrite Hdir. cbn. split; [exact HA|split; [exact Hd|exact Hc]].
  - unfold live_connected. destruct (v_conn s) eqn:E; cbn [fst]; [split; [exact HA|split; [exact Hd|rewrite E; exact Hc]]|].
    rewrite Hdir, In, EW, connected_same.
    destruct (is_connected pop pop' (gW G)) as [[b|x]|] eqn:Ec; cbn [fst];
      try (split; [exact HA|split; [exact Hd|rewrite E; exact Hc]]).
    split; [exact HA|split; [exact Hd|]]. cbn. intros b' Eb p p' Hp Hp'. injection Eb as <-.
    destruct Hs as (Hp1 & Hp2). rewrite <- Ec. apply (C05_pop_order_is_irrelevant G); assumption.
  - unfold live_laplacian.
    assert (Hd' : live_directed (put_lap s t (v_L s)) = (put_lap s t (v_L s), is_directed (gW G)))
      by (unfold live_directed; cbn [put_lap v_dir]; rewrite Idir; reflexivity).
    rewrite Hd'. unfold live_dw. cbn [put_lap v_dw]. rewrite Idw.
    destruct t; cbn; (split; [exact HA|split; [exact Hd|exact Hc]]).
Qed.

Lemma clean_run G cs : built G -> unwritten cs -> (forall c, In c cs -> sets_ok c) -> clean G (run (fresh G) cs).
Proof.
  intros HG. induction cs as [|c cs IH] using rev_ind; intros Hu Hs.
  - destruct (fresh_ok G HG) as (_ & _ & _ & _ & EA & Ed & Ec). cbn. unfold clean. rewrite EA, Ed, Ec.
    repeat split; discriminate.
  - rewrite run_app. cbn.
    assert (Hu' : unwritten cs) by (intros W' H; apply (Hu W'); apply in_or_app; left; exact H).
    destruct (reached G cs HG) as (I & EW). apply clean_step; auto.
    + rewrite EW. apply unwritten_weights, Hu'.
    + apply IH; [exact Hu'|]. intros c' H. apply Hs, in_or_app. left; exact H.
    + apply Hs, in_or_app. right; left; reflexivity.
Qed.

Theorem C90_unmodified_graph_answers_from_W :
  forall G cs c, built G -> unwritten cs -> (forall c', In c' cs -> sets_ok c') -> sets_ok c ->
    c <> ReadL -> (forall W, c <> WriteW W) ->
    answers (fresh G) cs c = computed G (gW G) c.
Proof.
  intros G cs c HG Hu Hs Hc HL HW. destruct (reached G cs HG) as ([In Ine Idir Idw] & EW).
  rewrite (unwritten_weights G cs Hu) in EW. destruct (clean_run G cs HG Hu Hs) as (HA & Hd & Hconn).
  unfold answers. set (s := run (fresh G) cs) in *. clearbody s.
  assert (Hdir : live_directed s = (s, is_directed (gW G))) by (unfold live_directed; rewrite Idir; reflexivity).
  destruct c; cbn [act computed snd]; try congruence.
  - unfold live_A. destruct (v_A s) as [a|]; [rewrite (HA a eq_refl)|rewrite EW]; reflexivity.
  - unfold live_d. destruct (v_d s) as [a|]; [rewrite (Hd a eq_refl); reflexivity|]. rewrite Hdir, EW; reflexivity.
  - unfold live_dw. rewrite Idw. reflexivity.
  - rewrite Hdir. reflexivity.
  - unfold live_edges. rewrite Hdir. cbn [snd]. rewrite EW, Ine. reflexivity.
  - unfold live_connected. destruct Hc as (Hp & Hp'). destruct (v_conn s) as [b|].
    + cbn [snd]. rewrite (Hconn b eq_refl pop pop' Hp Hp'). reflexivity.
    + rewrite Hdir, In, EW, connected_same. destruct (is_connected pop pop' (gW G)) as [[b|x]|]; reflexivity.
  - unfold live_laplacian.
    assert (Hd' : live_directed (put_lap s t (v_L s)) = (put_lap s t (v_L s), is_directed (gW G)))
      by (unfold live_directed; cbn [put_lap v_dir]; rewrite Idir; reflexivity).
    rewrite Hd'. unfold live_dw. cbn [put_lap v_dw]. rewrite Idw. destruct t; reflexivity.
Qed.

(** The Laplacian matrix is that of the type last asked for. *)
Lemma L_after G cs : built G -> known cs ->
  forall s, run (fresh G) cs = s ->
    v_lap s = last_type G cs /\
    ((exists cs1 t cs2, cs = cs1 ++ Laplacian t :: cs2 /\ (forall t', ~ In (Laplacian t') cs2) /\
        v_L s = match t with Combinatorial => lap_comb_as (is_directed (gW G)) (dw (gW G)) (weights G cs1)
                        | _ => lap_norm_as (is_directed (gW G)) (dw (gW G)) (weights G cs1) end /\ last_type G cs = t) \/
     ((forall t', ~ In (Laplacian t') cs) /\ v_L s = gL G /\ last_type G cs = g_lap_type G)).
Proof.
  intros HG. induction cs as [|c cs IH] using rev_ind; intros Hk s Es.
  - destruct (fresh_ok G HG) as (_ & _ & Et & EL & _). cbn in Es. subst s. split; [exact Et|]. right.
    split; [intros t' []|]. split; [exact EL|reflexivity].
  - assert (Hk' : known cs) by (intros t H; apply Hk, in_or_app; left; exact H).
    specialize (IH Hk' _ eq_refl). destruct (reached G cs HG) as ([In Ine Idir Idw] & EW).
    assert (Hlt : last_type G (cs ++ [c]) = match c with Laplacian t => t | _ => last_type G cs end)
      by (unfold last_type; rewrite fold_left_app; destruct c; reflexivity).
    rewrite run_app in Es. cbn in Es. set (s0 := run (fresh G) cs) in *.
    assert (Hdir : live_directed s0 = (s0, is_directed (gW G))) by (unfold live_directed; rewrite Idir; reflexivity).
    assert (Hcase : (exists t, c = Laplacian t) \/ (forall t, c <> Laplacian t)).
    { destruct c; try (right; discriminate). left. eexists; reflexivity. }
    destruct Hcase as [(t & ->)|Hno].
    + assert (Ht : t = Combinatorial \/ t = Normalized) by (apply Hk, in_or_app; right; left; reflexivity).
      rewrite Hlt. subst s. cbn [act]. unfold live_laplacian.
      assert (Hd' : live_directed (put_lap s0 t (v_L s0)) = (put_lap s0 t (v_L s0), is_directed (gW G)))
        by (unfold live_directed; cbn [put_lap v_dir]; rewrite Idir; reflexivity).
      rewrite Hd'. unfold live_dw. cbn [put_lap v_dw]. rewrite Idw.
      destruct Ht as [->| ->]; cbn [fst put_lap v_lap v_L v_W]; rewrite EW; (split; [reflexivity|]); left;
        eexists cs, _, []; (split; [reflexivity|]); (split; [intros t' []|]); split; reflexivity.
    + assert (Hsame : v_lap s = v_lap s0 /\ v_L s = v_L s0).
      { subst s. exact (proj2 (proj2 (proj2 (act_frame G s0 c ltac:(constructor; assumption)))) Hno). }
      destruct Hsame as (E1 & E2). rewrite E1, E2, Hlt.
      assert (Hc : match c with Laplacian t => t | _ => last_type G cs end = last_type G cs).
      { destruct c; try reflexivity. exfalso; exact (Hno t eq_refl). }
      rewrite Hc. destruct IH as (H1 & H2). split; [exact H1|]. destruct H2 as [(cs1 & t & cs2 & E & Hn2 & EL & Et)|(Hn2 & EL & Et)].
      * left. exists cs1, t, (cs2 ++ [c]). split; [rewrite E, <- app_assoc; reflexivity|].
        split; [|split; [exact EL|exact Et]]. intros t' H. apply in_app_or in H. destruct H as [H|[H|[]]]; [exact (Hn2 t' H)|].
        exact (Hno t' H).
      * right. split; [|split; [exact EL|exact Et]]. intros t' H. apply in_app_or in H.
        destruct H as [H|[H|[]]]; [exact (Hn2 t' H)|]. exact (Hno t' H).
Qed.

Theorem C90_unmodified_graph_laplacian :
  forall G cs, built G -> unwritten cs -> known cs ->
    exists L, answers (fresh G) cs ReadL = Ok (AnsL L) /\ laplacian (gW G) (last_type G cs) = Ok L.
Proof.
  intros G cs HG Hu Hk. destruct (L_after G cs HG Hk _ eq_refl) as (_ & H).
  exists (v_L (run (fresh G) cs)). split; [reflexivity|].
  destruct H as [(cs1 & t & cs2 & E & _ & EL & Et)|(_ & EL & Et)]; rewrite Et, EL; [|exact (built_type G HG)].
  assert (Hu1 : unwritten cs1) by (intros W H; apply (Hu W); rewrite E; apply in_or_app; left; exact H).
  rewrite (unwritten_weights G cs1 Hu1).
  assert (Ht : t = Combinatorial \/ t = Normalized) by (apply Hk; rewrite E; apply in_or_app; right; left; reflexivity).
  destruct Ht as [->| ->]; reflexivity.
Qed.

(** ** Written graphs: the first read is remembered *)

Lemma fresh_none G cs : built G ->
  (~ In ReadA cs -> v_A (run (fresh G) cs) = None) /\ (~ In ReadDeg cs -> v_d (run (fresh G) cs) = None) /\
  ((forall p p', ~ In (Connected p p') cs) -> v_conn (run (fresh G) cs) = None).
Proof.
  intros HG. destruct (fresh_ok G HG) as (I & _ & _ & _ & EA & Ed & Ec).
  destruct (frame_run G cs _ I) as (H1 & H2 & H3). repeat split; intros H.
  - rewrite H1; [exact EA|left; exact H].
  - rewrite H2; [exact Ed|left; exact H].
  - rewrite H3; [exact Ec|left; exact H].
Qed.

(** [G.A]: the first read answers from the matrix as it is then, and every later one repeats it. *)
Theorem C90_A_is_a_snapshot :
  forall G cs, built G -> ~ In ReadA cs ->
    exists a, answers (fresh G) cs ReadA = Ok (AnsA a) /\
      (forall i j, a i j = true <-> 0 < get (weights G cs) i j) /\
      forall cs', answers (fresh G) (cs ++ ReadA :: cs') ReadA = Ok (AnsA a).
Proof.
  intros G cs HG Hno. destruct (reached G cs HG) as (I & EW). pose proof (proj1 (fresh_none G cs HG) Hno) as EA.
  exists (adjb (weights G cs)). split; [|split].
  - unfold answers. cbn [act]. unfold live_A. rewrite EA, EW. reflexivity.
  - intros i j. unfold adjb. apply Rltb_true.
  - intros cs'. unfold answers. rewrite run_app. cbn [run fold_left act].
    change (fold_left (fun s0 c0 => fst (act s0 c0)) cs' ?s) with (run s cs').
    unfold live_A at 2. rewrite EA. cbn [fst]. rewrite EW.
    assert (I' : linv G (put_A (run (fresh G) cs) (adjb (weights G cs)))) by (destruct I; constructor; assumption).
    unfold live_A. rewrite (proj1 (frame_run G cs' _ I')) by (right; discriminate). reflexivity.
Qed.

(** [G.d]: the same; the count is by rows or by rows and columns according to the directedness at construction. *)
Theorem C90_degree_is_a_snapshot :
  forall G cs, built G -> ~ In ReadDeg cs ->
    exists d, answers (fresh G) cs ReadDeg = Ok (AnsVec d) /\
      (undirected G -> forall i, d i = INR (row_nnz (weights G cs) i)) /\
      (~ undirected G -> forall i, d i = (INR (col_nnz (weights G cs) i) + INR (row_nnz (weights G cs) i)) / 2) /\
      forall cs', answers (fresh G) (cs ++ ReadDeg :: cs') ReadDeg = Ok (AnsVec d).
Proof.
  intros G cs HG Hno. destruct (reached G cs HG) as (I & EW). pose proof (proj1 (proj2 (fresh_none G cs HG)) Hno) as Ed.
  assert (Hdir : live_directed (run (fresh G) cs) = (run (fresh G) cs, is_directed (gW G)))
    by (unfold live_directed; rewrite (l_dir G _ I); reflexivity).
  exists (deg_as (is_directed (gW G)) (weights G cs)). split; [|split; [|split]].
  - unfold answers. cbn [act]. unfold live_d. rewrite Ed, Hdir, EW. reflexivity.
  - intros Hu i. unfold deg_as. destruct (is_directed (gW G)) eqn:E; [|reflexivity].
    apply (C03_is_directed_iff_not_symmetric G HG) in E. contradiction.
  - intros Hu i. unfold deg_as. rewrite (proj2 (C03_is_directed_iff_not_symmetric G HG) Hu). reflexivity.
  - intros cs'. unfold answers. rewrite run_app. cbn [run fold_left act].
    change (fold_left (fun s0 c0 => fst (act s0 c0)) cs' ?s) with (run s cs').
    unfold live_d at 2. rewrite Ed, Hdir. cbn [fst]. rewrite EW.
    assert (I' : linv G (put_d (run (fresh G) cs) (deg_as (is_directed (gW G)) (weights G cs)))) by (destruct I; constructor; assumption).
    unfold live_d. rewrite (proj1 (proj2 (frame_run G cs' _ I'))) by (right; discriminate). reflexivity.
Qed.

(** [is_connected()]: the first answer is repeated whatever is written. *)
Theorem C90_connectedness_is_a_snapshot :
  forall G cs p p' b, built G -> answers (fresh G) cs (Connected p p') = Ok (AnsBool b) ->
    forall cs' q q', answers (fresh G) (cs ++ Connected p p' :: cs') (Connected q q') = Ok (AnsBool b).
Proof.
  intros G cs p p' b HG H cs' q q'. destruct (reached G cs HG) as (I & EW).
  unfold answers in *. rewrite run_app. cbn [run fold_left].
  change (fold_left (fun s0 c0 => fst (act s0 c0)) cs' ?s) with (run s cs').
  set (s := run (fresh G) cs) in *. pose proof (proj1 (step_inv G s (Connected p p') I)) as I'.
  assert (E : v_conn (fst (act s (Connected p p'))) = Some b).
  { cbn [act] in H |- *. unfold live_connected in *. destruct (v_conn s) as [b'|] eqn:E.
    - cbn in H |- *. injection H as <-. exact E.
    - unfold live_directed in *. rewrite (l_dir G s I) in *.
      destruct (connected_as _ _ _ _ _) as [[b'|x]|]; cbn in H |- *; try discriminate. injection H as <-. reflexivity. }
  set (s1 := fst (act s (Connected p p'))) in *. cbn [act]. unfold live_connected.
  rewrite (proj2 (proj2 (frame_run G cs' s1 I'))) by (right; congruence). rewrite E. reflexivity.
Qed.

(** ** Written graphs: the Laplacian and the edge list *)

(** [compute_laplacian] after writes subtracts the current weights from the degrees of construction. *)
Theorem C90_laplacian_after_writes :
  forall G cs, built G -> known cs ->
    exists L, answers (fresh G) (cs ++ [Laplacian Combinatorial]) ReadL = Ok (AnsL L) /\
      (forall i j, L i j = (if Nat.eqb i j then dw (gW G) i else 0) -
         (if is_directed (gW G) then (get (weights G cs) i j + get (weights G cs) j i) / 2 else get (weights G cs) i j)).
Proof.
  intros G cs HG Hk. destruct (reached G cs HG) as ([In Ine Idir Idw] & EW).
  unfold answers. cbn [act snd]. eexists. split; [reflexivity|]. intros i j. rewrite run_app.
  cbn [run fold_left act].
  change (fold_left (fun s0 c0 => fst (act s0 c0)) cs ?s) with (run s cs).
  unfold live_laplacian, live_directed, live_dw. cbn [put_lap v_dir]. rewrite Idir. cbn [put_lap v_dw]. rewrite Idw.
  cbn [put_lap v_L v_W fst]. rewrite EW. reflexivity.
Qed.

(** The rows of the recomputed matrix sum to the change of the weighted degree: it is the Laplacian of
    the graph it claims to describe exactly when no weighted degree changed. *)
Theorem C90_rows_after_writes :
  forall G cs G' L, built G -> undirected G -> known cs ->
    built G' -> undirected G' -> gW G' = weights G cs -> g_n_vertices G' = g_n_vertices G ->
    answers (fresh G) (cs ++ [Laplacian Combinatorial]) ReadL = Ok (AnsL L) ->
    (forall i, (i < g_n_vertices G)%nat ->
       \sum_(j < g_n_vertices G) L i j = \sum_(j < g_n_vertices G) wt G i j - \sum_(j < g_n_vertices G) wt G' i j) /\
    ((forall i j, (i < g_n_vertices G)%nat -> (j < g_n_vertices G)%nat -> L i j = lap_comb (gW G') i j) <->
     (forall i, (i < g_n_vertices G)%nat ->
        \sum_(j < g_n_vertices G) wt G i j = \sum_(j < g_n_vertices G) wt G' i j)).
Proof.
  intros G cs G' L HG Hu Hk HG' Hu' EW En HL.
  destruct (C90_laplacian_after_writes G cs HG Hk) as (L' & HL' & EL). rewrite HL in HL'. injection HL' as <-.
  assert (Ed : is_directed (gW G) = false).
  { destruct (is_directed (gW G)) eqn:E; [|reflexivity].
    apply (C03_is_directed_iff_not_symmetric G HG) in E. contradiction. }
  assert (Ed' : is_directed (gW G') = false).
  { destruct (is_directed (gW G')) eqn:E; [|reflexivity].
    apply (C03_is_directed_iff_not_symmetric G' HG') in E. contradiction. }
  rewrite Ed in EL.
  assert (Hdw : forall i, (i < g_n_vertices G)%nat -> dw (gW G) i = \sum_(j < g_n_vertices G) wt G i j)
    by (intros i Hi; exact (proj2 (C08_weighted_degree G i HG Hi) Hu)).
  assert (Hdw' : forall i, (i < g_n_vertices G)%nat -> dw (gW G') i = \sum_(j < g_n_vertices G) wt G' i j).
  { intros i Hi. rewrite <- En in Hi |- *. exact (proj2 (C08_weighted_degree G' i HG' Hi) Hu'). }
  split; [|split].
  - intros i Hi. rewrite (rsum_ext _ _ (fun j => (if Nat.eqb i j then dw (gW G) i else 0) - wt G' i j))
      by (intros j Hj; rewrite EL; unfold wt; rewrite EW; reflexivity).
    rewrite rsum_minus, <- (Hdw i Hi). f_equal.
    rewrite (rsum_single _ _ i Hi).
    + rewrite Nat.eqb_refl. reflexivity.
    + intros j Hj Hne. destruct (Nat.eqb_spec i j); [congruence|reflexivity].
  - intros H i Hi. pose proof (H i i Hi Hi) as E. rewrite EL in E. unfold lap_comb, wlap in E.
    rewrite Nat.eqb_refl, Ed', <- EW in E. rewrite <- (Hdw i Hi), <- (Hdw' i Hi). lra.
  - intros H i j Hi Hj. rewrite EL. unfold lap_comb, wlap. rewrite Ed', <- EW.
    destruct (Nat.eqb_spec i j) as [<-|]; [|reflexivity]. rewrite (Hdw i Hi), (Hdw' i Hi), (H i Hi). reflexivity.
Qed.

(** [get_edge_list()] after writes: the entries as they are now when their number is the n_edges of
    construction, otherwise an AssertionError. *)
Theorem C90_edge_list_after_writes :
  forall G cs G', built G -> built G' -> gW G' = weights G cs -> (undirected G <-> undirected G') ->
    exists l, get_edge_list (gW G') = Ok l /\
      answers (fresh G) cs Edges =
        (if Nat.eqb (g_n_edges G) (g_n_edges G') then Ok (AnsEdges l) else Raise AssertionError).
Proof.
  intros G cs G' HG HG' EW Hu.
  assert (Ed : is_directed (gW G) = is_directed (gW G')).
  { pose proof (C03_is_directed_iff_not_symmetric G HG) as H1.
    pose proof (C03_is_directed_iff_not_symmetric G' HG') as H2.
    destruct (is_directed (gW G)), (is_directed (gW G')); try reflexivity.
    - exfalso. assert (Hx : ~ undirected G') by (intros X; apply (proj1 H1 eq_refl), Hu, X).
      apply H2 in Hx. discriminate.
    - exfalso. assert (Hx : ~ undirected G) by (intros X; apply (proj1 H2 eq_refl), Hu, X).
      apply H1 in Hx. discriminate. }
  destruct (C04_edge_list_enumerates_every_edge_once G' HG') as (l & Hl & Hlen & _).
  exists l. split; [exact Hl|]. destruct (reached G cs HG) as ([In Ine Idir Idw] & EWs).
  unfold answers. cbn [act]. unfold live_edges, live_directed. rewrite Idir. cbn [snd].
  rewrite EWs, <- EW, Ed, Ine.
  assert (El : l = (if is_directed (gW G') then stored (gW G')
           else filter (fun t => Nat.leb (fst (fst t)) (snd (fst t))) (stored (gW G')))).
  { unfold get_edge_list in Hl. destruct (Nat.eqb _ _) in Hl; [injection Hl as <-; reflexivity|discriminate]. }
  rewrite <- El, Hlen. destruct (built_good G HG) as (_ & _ & He & _). rewrite <- He.
  destruct (Nat.eqb (g_n_edges G) (g_n_edges G')); reflexivity.
Qed.

(** ** Examples and findings *)

(** One edge of weight 1, and one edge of weight 2. *)
Lemma two_graphs : exists G G', built G /\ undirected G /\ g_n_vertices G = 2%nat /\
  built G' /\ undirected G' /\ g_n_vertices G' = 2%nat /\ g_n_edges G = g_n_edges G' /\
  (forall i j, (i < 2)%nat -> (j < 2)%nat -> wt G i j = if Nat.eqb i j then 0 else 1) /\
  (forall i j, (i < 2)%nat -> (j < 2)%nat -> wt G' i j = if Nat.eqb i j then 0 else 2).
Proof.
  destruct (finite_entry_built 2 [0; 1; 1; 0] Combinatorial None eq_refl (or_introl eq_refl)) as (G & E & HG & Hn & _ & _ & Hw).
  destruct (finite_entry_built 2 [0; 2; 2; 0] Combinatorial None eq_refl (or_introl eq_refl)) as (G' & E' & HG' & Hn' & _ & _ & Hw').
  assert (W1 : forall i j, (i < 2)%nat -> (j < 2)%nat -> wt G i j = if Nat.eqb i j then 0 else 1).
  { intros i j Hi Hj. rewrite (Hw i j Hi Hj). destruct i as [|[|i]]; try lia; destruct j as [|[|j]]; try lia; reflexivity. }
  assert (W2 : forall i j, (i < 2)%nat -> (j < 2)%nat -> wt G' i j = if Nat.eqb i j then 0 else 2).
  { intros i j Hi Hj. rewrite (Hw' i j Hi Hj). destruct i as [|[|i]]; try lia; destruct j as [|[|j]]; try lia; reflexivity. }
  assert (Hu : undirected G).
  { intros i j Hi Hj. rewrite Hn in Hi, Hj. rewrite !W1 by assumption. rewrite Nat.eqb_sym. reflexivity. }
  assert (Hu' : undirected G').
  { intros i j Hi Hj. rewrite Hn' in Hi, Hj. rewrite !W2 by assumption. rewrite Nat.eqb_sym. reflexivity. }
  exists G, G'. repeat split; auto.
  pose proof (C02_n_edges_undirected G HG Hu) as C1. pose proof (C02_n_edges_undirected G' HG' Hu') as C2.
  eapply card_unique; [exact C1|]. destruct C2 as (l & Nd & Hin & Hl). exists l. split; [exact Nd|]. split; [|exact Hl].
  intros [i j]. rewrite Hin. cbn [fst snd]. rewrite Hn, Hn'.
  split; intros (A & B & C); (split; [exact A|split; [exact B|]]); rewrite ?W1, ?W2 in * by lia;
    destruct (Nat.eqb i j); lra.
Qed.

(** After the write and [compute_laplacian()] the rows of L no longer sum to 0, while A, d, dw,
    n_edges and the edge list are as on an unmodified graph. *)
Theorem C90_laplacian_after_writes_refuted :
  exists G W, built G /\ undirected G /\
    (exists G', built G' /\ undirected G' /\ gW G' = W /\ g_n_vertices G' = g_n_vertices G) /\
    (forall L, answers (fresh G) [WriteW W; Laplacian Combinatorial] ReadL = Ok (AnsL L) ->
       \sum_(j < g_n_vertices G) L 0%nat j = -1) /\
    (exists l, answers (fresh G) [WriteW W; Laplacian Combinatorial] Edges = Ok (AnsEdges l) /\
       forall i j w, In (i, j, w) l -> w = 2).
Proof.
  destruct two_graphs as (G & G' & HG & Hu & Hn & HG' & Hu' & Hn' & He & W1 & W2).
  exists G, (gW G'). split; [exact HG|]. split; [exact Hu|]. split; [exists G'; repeat split; auto; congruence|]. split.
  - intros L HL.
    assert (Hk : known [WriteW (gW G')]) by (intros t [H|[]]; discriminate).
    destruct (C90_rows_after_writes G [WriteW (gW G')] G' L HG Hu Hk HG' Hu' eq_refl ltac:(congruence) HL) as (H & _).
    rewrite (H 0%nat) by lia. rewrite Hn. cbn [rsum]. rewrite !W1, !W2 by lia. cbn. lra.
  - destruct (C90_edge_list_after_writes G [WriteW (gW G'); Laplacian Combinatorial] G' HG HG' eq_refl ltac:(tauto)) as (l & Hl & E).
    exists l. rewrite E, He, Nat.eqb_refl. split; [reflexivity|]. intros i j w Hin.
    destruct (C04_edge_list_enumerates_every_edge_once G' HG') as (l' & Hl' & _ & _ & Hall).
    rewrite Hl in Hl'. injection Hl' as <-. apply Hall in Hin. destruct Hin as (Hi & Hj & -> & Hne & _).
    rewrite Hn' in Hi, Hj. rewrite W2 in * by assumption. destruct (Nat.eqb i j); lra.
Qed.

(** The hypotheses are met by a history which reads, writes, recomputes and tries to assign. *)
Example C90_ex : exists G W, built G /\
  let cs := [ReadA; AssignW W; Laplacian Normalized; Connected pop_first pop_last; ReadDeg; Edges] in
  unwritten cs /\ known cs /\ (forall c, In c cs -> sets_ok c) /\
  ~ In ReadDw cs /\ weights G (cs ++ [WriteW W]) = W /\ W <> gW G.
Proof.
  destruct two_graphs as (G & G' & HG & _ & Hn & HG' & _ & Hn' & _ & W1 & W2).
  exists G, (gW G'). split; [exact HG|]. cbn zeta. split; [|split; [|split; [|split; [|split]]]].
  - intros W H. repeat (destruct H as [H|H]; [discriminate|]). exact H.
  - intros t H. repeat (destruct H as [H|H]; [try discriminate|]); [|destruct H]. injection H as <-. right; reflexivity.
  - intros c H. repeat (destruct H as [<-|H]; [cbn; auto using pop_first_ok, pop_last_ok|]). destruct H.
  - intros H. repeat (destruct H as [H|H]; [discriminate|]). exact H.
  - reflexivity.
  - intros E. pose proof (W1 0%nat 1%nat ltac:(lia) ltac:(lia)) as A. pose proof (W2 0%nat 1%nat ltac:(lia) ltac:(lia)) as B.
    unfold wt in A, B. rewrite E in B. rewrite A in B. cbn in B. lra.
Qed.
