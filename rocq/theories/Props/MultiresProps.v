(** C38: graph_multiresolution. *)
From Coq Require Import Reals Lra Lia List Arith Bool String Sorted.
From Coq Require Import List.
From Verif.Base Require Import RSum Prelude LinAlg Solve.
From Verif.Spec Require Import Matrix GraphSpec Reach LapSpec GenSpec.
From Verif.Model Require Import Sparse Graph Traverse Utils Reduction Sparsify Multires.
From Verif.Proofs Require Import SparseFacts InitFacts EdgeFacts LapFacts SubgraphFacts MaxPrinciple SchurFacts.
From Verif.Props Require Import Core Laplacian Traversal Caching UtilsProps ReductionProps SparsifyProps.
Import ListNotations.
Open Scope R_scope.
Open Scope list_scope.

(** ** The selected vertices *)
Lemma sign_mul x : x * np_sign x = Rabs x.
Proof.
  unfold np_sign. destruct (Rltb_spec 0 x); [rewrite Rabs_right by lra; ring|]. destruct (Rltb_spec x 0); [rewrite Rabs_left by lra; ring|].
  replace x with 0 by lra. rewrite Rabs_R0. ring.
Qed.
Lemma sign_ge x y : 0 <= y * np_sign x <-> 0 <= y * x.
Proof.
  unfold np_sign. destruct (Rltb_spec 0 x) as [P|P]; [|destruct (Rltb_spec x 0) as [Q|Q]].
  - rewrite Rmult_1_r. split; intros H; [apply Rmult_le_pos; lra|]. destruct (Rlt_le_dec y 0); [exfalso; nra|lra].
  - split; intros H; [nra|]. destruct (Rlt_le_dec 0 y); [exfalso; nra|lra].
  - replace x with 0 by lra. rewrite !Rmult_0_r. tauto.
Qed.
Lemma select_in n V v : In v (mr_select n V) <-> (v < n)%nat /\ 0 <= V v * V 0%nat.
Proof.
  unfold mr_select, mr_signed. rewrite filter_In, in_seq. destruct (Rleb_spec 0 (V v * np_sign (V 0%nat))) as [H|H]; rewrite sign_ge in H; (split; intros [A B]; split; try lia; try assumption; try reflexivity; try discriminate).
  exfalso. lra.
Qed.
Lemma sorted_filter (p : nat -> bool) l : StronglySorted lt l -> StronglySorted lt (filter p l).
Proof.
  induction l as [|x l IH]; intros H; [constructor|]. apply StronglySorted_inv in H as (H1 & H2). cbn. destruct (p x); [|apply IH, H1].
  constructor; [apply IH, H1|]. rewrite Forall_forall in *. intros y Hy. apply filter_In in Hy. apply H2, Hy.
Qed.
Lemma sorted_seq n a : StronglySorted lt (seq a n).
Proof. revert a. induction n as [|n IH]; intros a; [constructor|]. cbn. constructor; [apply IH|]. apply Forall_forall. intros y Hy. apply in_seq in Hy. lia. Qed.
Lemma select_sorted n V : StronglySorted lt (mr_select n V).
Proof. apply sorted_filter, sorted_seq. Qed.
Lemma sorted_nodup l : StronglySorted lt l -> NoDup l.
Proof.
  induction l as [|x l IH]; intros H; [constructor|]. apply StronglySorted_inv in H as (H1 & H2). constructor; [|apply IH, H1].
  intros Hx. rewrite Forall_forall in H2. specialize (H2 x Hx). lia.
Qed.
Lemma sorted_nth_lt l i j : StronglySorted lt l -> (i < j < List.length l)%nat -> (nth i l 0 < nth j l 0)%nat.
Proof.
  revert i j. induction l as [|x l IH]; intros i j H Hij; cbn [List.length] in Hij; [lia|]. apply StronglySorted_inv in H as (H1 & H2).
  destruct j as [|j]; [lia|]. destruct i as [|i]; cbn [nth].
  - rewrite Forall_forall in H2. apply H2. apply nth_In. lia.
  - apply IH; [exact H1|lia].
Qed.
Lemma map_nth_sorted f l n : StronglySorted lt f -> List.length f = n -> StronglySorted lt l -> (forall v, In v l -> (v < n)%nat) ->
  StronglySorted lt (map (fun v => nth v f 0%nat) l).
Proof.
  intros Hf Hn. induction l as [|x l IH]; intros H Hl; [constructor|]. apply StronglySorted_inv in H as (H1 & H2). cbn. constructor.
  - apply IH; [exact H1|]. intros v Hv. apply Hl. right. exact Hv.
  - apply Forall_forall. intros y Hy. apply in_map_iff in Hy as (v & <- & Hv). apply sorted_nth_lt; [exact Hf|]. rewrite Forall_forall in H2. split; [apply H2, Hv|]. rewrite Hn. apply Hl. right. exact Hv.
Qed.

(** ** What kron_reduction and graph_sparsify return, for any solver *)
Lemma kron_shape G ind X Gn : kron_reduction G ind X = Ok Gn ->
  built Gn /\ g_n_vertices Gn = List.length ind /\ g_lap_type Gn = Combinatorial /\
  (exists c, g_coords G = Some c /\ g_coords Gn = Some (map (fun v => nth v c []) ind)) /\ g_lap_type G = Combinatorial /\ is_directed (gW G) = false /\
  (forall v, In v ind -> (v < g_n_vertices G)%nat) /\ List.length ind <> 1%nat.
Proof.
  unfold kron_reduction. destruct (g_lap_type G) eqn:Ht; try discriminate. destruct (is_directed (gW G)) eqn:Hd; [discriminate|].
  destruct (kron_matrix (g_n_vertices G) (gL G) ind X) as [K|] eqn:EK; [|discriminate]. cbn [bindr].
  destruct (Nat.eqb_spec (List.length ind) 1) as [|N1]; [discriminate|]. destruct (g_coords G) as [c|] eqn:Ec; [|discriminate].
  destruct (forallb _ ind); cbn [negb]; [|discriminate]. intros HK. set (m := List.length ind) in *.
  destruct (finite_entry_built m (dense m (kron_weights m K)) Combinatorial (Some (map (fun v => nth v c []) ind))
             (dense_length m _) (or_introl eq_refl)) as (G' & HG' & Hb' & Hn' & Ht' & Hc' & Hw').
  rewrite HG' in HK. injection HK as <-. split; [exact Hb'|]. split; [exact Hn'|]. split; [exact Ht'|]. split; [exists c; split; [reflexivity|exact Hc']|].
  split; [reflexivity|]. split; [reflexivity|]. split; [apply (kron_matrix_ok _ _ _ _ _ EK)|exact N1].
Qed.
(** kron_reduction succeeds on undirected graphs with coordinates, unless a single vertex is kept. *)
Theorem C35_succeeds G ind X c : built G -> undirected G -> g_lap_type G = Combinatorial -> g_coords G = Some c -> List.length c = g_n_vertices G ->
  (forall v, In v ind -> (v < g_n_vertices G)%nat) -> List.length ind <> 1%nat -> exists Gn, kron_reduction G ind X = Ok Gn.
Proof.
  intros Hb Hu Ht Hc Hl Hin H1. unfold kron_reduction. rewrite Ht.
  assert (E : is_directed (gW G) = false) by (apply is_directed_false; destruct (built_good G Hb) as (_ & Hn & _); rewrite <- Hn; exact Hu).
  rewrite E. unfold kron_matrix.
  assert (E2 : forallb (fun v => Nat.ltb v (g_n_vertices G)) ind = true) by (apply forallb_forall; intros v Hv; apply Nat.ltb_lt, Hin, Hv).
  rewrite E2. cbn [negb bindr]. destruct (Nat.eqb_spec (List.length ind) 1); [contradiction|]. rewrite Hc, Hl, E2. cbn [negb].
  match goal with |- exists _, graph_init (InDense [?m; ?m] (map Fin (dense _ ?A))) _ ?co = _ =>
      destruct (finite_entry_built m (dense m A) Combinatorial co (dense_length m A) (or_introl eq_refl)) as (G' & HG & _) end.
  exists G'. exact HG.
Qed.
Lemma sparsify_shape G o eps mi draw pops Gn : sparsify_graph G o eps mi draw pops = Some (Ok Gn) ->
  built Gn /\ g_n_vertices Gn = g_n_vertices G /\ g_lap_type Gn = Combinatorial /\ g_coords Gn = None.
Proof.
  unfold sparsify_graph. destruct (g_lap_type G); try discriminate. destruct (sp_range _ _); cbn [negb]; [|discriminate].
  destruct (sp_run _ _ _ _ _ _ _) as [[M|e]|]; try discriminate. intros H. injection H as H. set (m := g_n_vertices G) in *.
  match type of H with graph_init (InDense [?m; ?m] (map Fin (dense _ ?A))) _ ?co = _ =>
      destruct (finite_entry_built m (dense m A) Combinatorial co (dense_length m A) (or_introl eq_refl)) as (G' & HG & Hb & Hn & Ht & Hc & _) end.
  rewrite HG in H. injection H as <-. tauto.
Qed.

Section Run.
Variables (sparsify : bool) (eps : R) (down red : string) (full : bool) (reg_eps : R) (Or : oracle).
Notation step := (mr_step sparsify eps down red full reg_eps Or).
Notation run := (mr_run sparsify eps down red full reg_eps Or).

(** One iteration. *)
Lemma step_ok i g a n : step i g = Some (Ok (a, n)) ->
  exists V Gk K,
    down = "largest_eigenvector"%string /\ red = "kron"%string /\ mr_vector Or i g = Ok V /\
    let N := g_n_vertices (mr_graph g) in let ind := mr_select N V in
    kron_reduction (mr_graph g) ind (o_X Or i (mr_graph g)) = Ok Gk /\
    (if (sparsify && Nat.ltb 2 (g_n_vertices Gk))%bool
     then sparsify_graph Gk (o_inv Or i Gk) (mr_eps eps (g_n_vertices Gk)) 10 (o_draw Or i Gk) (o_pops Or i Gk) else Some (Ok Gk)) = Some (Ok (mr_graph n)) /\
    mr_spectrum full Or (S i) (mr_graph n) None = Ok (mr_U n) /\
    kron_matrix N (l_reg (gL (mr_graph g)) reg_eps) ind (o_Xreg Or i (mr_graph g)) = Ok K /\
    a = mkmr (mr_graph g) (mr_written V (mr_U g)) (mr_idx g) (mr_orig g) (mr_level g) (Some K) /\
    mr_idx n = ind /\ mr_orig n = map (fun v => nth v (mr_orig g) 0%nat) ind /\ mr_level n = Some i.
Proof.
  unfold mr_step. destruct (String.eqb_spec down "largest_eigenvector") as [Ed|]; cbn [negb]; [|discriminate].
  destruct (mr_vector Or i g) as [V|] eqn:EV; [|discriminate]. destruct (String.eqb_spec red "kron") as [Er|]; cbn [negb]; [|discriminate].
  destruct (kron_reduction _ _ _) as [Gk|] eqn:EK; [|discriminate]. destruct (if (sparsify && _)%bool then _ else _) as [[Gn|]|] eqn:ES; try discriminate.
  destruct (mr_spectrum _ _ _ _ _) as [U'|] eqn:EU; [|discriminate]. destruct (kron_matrix _ _ _ _) as [K|] eqn:EM; [|discriminate].
  intros H. injection H as <- <-. exists V, Gk, K. cbn [mr_graph mr_U mr_idx mr_orig mr_level]. tauto.
Qed.
Lemma step_graph i g a n : step i g = Some (Ok (a, n)) -> built (mr_graph n) /\ g_n_vertices (mr_graph n) = List.length (mr_idx n).
Proof.
  intros H. apply step_ok in H as (V & Gk & K & _ & _ & _ & H). cbv zeta in H. destruct H as (HK & HS & _ & _ & _ & -> & _).
  destruct (kron_shape _ _ _ _ HK) as (B & N & _). destruct (sparsify && _)%bool.
  - destruct (sparsify_shape _ _ _ _ _ _ _ HS) as (B' & N' & _). split; [exact B'|]. rewrite N'. exact N.
  - injection HS as <-. split; assumption.
Qed.

(** The same level up to what later iterations write (the basis and mr["K_reg"]). *)
Definition same (n b : mrgraph) : Prop := mr_graph n = mr_graph b /\ mr_idx n = mr_idx b /\ mr_orig n = mr_orig b /\ mr_level n = mr_level b.
Definition linked2 (G : graph) (U0 : option (nat * mat)) (i : nat) (a b : mrgraph) : Prop :=
  exists c n, step i c = Some (Ok (a, n)) /\ same n b /\
    mr_spectrum full Or i (mr_graph c) (if Nat.eqb i 0 then U0 else None) = Ok (mr_U c).
Lemma nth_error_snoc {A} (l : list A) x : nth_error (l ++ [x]) (List.length l) = Some x.
Proof. rewrite nth_error_app2 by lia. rewrite Nat.sub_diag. reflexivity. Qed.
Lemma run_chain G U0 k done g : run G U0 k = Some (Ok (done, g)) ->
  List.length done = k /\
  (exists g0, nth_error (done ++ [g]) 0 = Some g0 /\ mr_graph g0 = G /\ mr_idx g0 = seq 0 (g_n_vertices G) /\ mr_orig g0 = seq 0 (g_n_vertices G) /\ mr_level g0 = None) /\
  mr_spectrum full Or k (mr_graph g) (if Nat.eqb k 0 then U0 else None) = Ok (mr_U g) /\
  (forall i a b, nth_error (done ++ [g]) i = Some a -> nth_error (done ++ [g]) (S i) = Some b -> linked2 G U0 i a b).
Proof.
  revert done g. induction k as [|k IH]; intros done g; cbn [mr_run].
  - destruct (mr_spectrum _ _ _ _ _) as [U|] eqn:EU; [|discriminate]. intros H. injection H as <- <-. split; [reflexivity|]. split.
    { eexists. split; [reflexivity|]. cbn. tauto. }
    split; [exact EU|]. intros i a b Ha Hb. cbn [app] in Hb. destruct i; discriminate.
  - destruct (run G U0 k) as [[(d, c)|]|] eqn:ER; try discriminate. destruct (step k c) as [[(a, n)|]|] eqn:ES; try discriminate.
    intros H. injection H as <- <-. destruct (IH d c eq_refl) as (L & (g0 & H0 & H1) & HU & HC).
    pose proof (step_ok _ _ _ _ ES) as (V & Gk & K & _ & _ & _ & HS). cbv zeta in HS. destruct HS as (_ & _ & HU' & _ & Ea & _).
    split; [rewrite app_length; cbn; lia|]. split; [|split].
    + destruct d as [|d0 d]; cbn [app nth_error] in *.
      * injection H0 as <-. exists a. split; [reflexivity|]. rewrite Ea. cbn. exact H1.
      * exists g0. split; [exact H0|exact H1].
    + exact HU'.
    + intros i x y Hx Hy. assert (Hi : (S i < List.length ((d ++ [a]) ++ [n]))%nat) by (apply nth_error_Some; rewrite Hy; discriminate).
      rewrite !app_length in Hi. cbn in Hi. destruct (Nat.eq_dec i k) as [->|Hne].
      * rewrite nth_error_app1 in Hx by (rewrite app_length; cbn; lia). rewrite <- L in Hx. rewrite nth_error_snoc in Hx. injection Hx as <-.
        replace (S k) with (List.length (d ++ [a])) in Hy by (rewrite app_length; cbn; lia). rewrite nth_error_snoc in Hy. injection Hy as <-.
        exists c, n. split; [exact ES|]. split; [repeat split|exact HU].
      * rewrite nth_error_app1 in Hx by (rewrite app_length; cbn; lia). rewrite nth_error_app1 in Hx by lia.
        rewrite nth_error_app1 in Hy by (rewrite app_length; cbn; lia). destruct (Nat.eq_dec (S i) k) as [E|Hne2].
        -- rewrite E in Hy. rewrite <- L in Hy. rewrite nth_error_snoc in Hy. injection Hy as <-.
           destruct (HC i x c) as (c' & n' & S1 & S2 & S3); [rewrite nth_error_app1 by lia; exact Hx|rewrite E, <- L; apply nth_error_snoc|].
           exists c', n'. split; [exact S1|]. split; [|exact S3]. rewrite Ea. exact S2.
        -- rewrite nth_error_app1 in Hy by lia. apply HC; rewrite nth_error_app1 by lia; assumption.
Qed.
End Run.

Lemma mr_inv G U0 levels sp se dm rm full re Or Gs : graph_multiresolution G U0 levels sp se dm rm full re Or = Some (Ok Gs) ->
  let eps := match se with Some e => e | None => Rmin (10 / sqrt (INR (g_n_vertices G))) 0.3 end in
  List.length Gs = S levels /\
  (exists g0, nth_error Gs 0 = Some g0 /\ mr_graph g0 = G /\ mr_idx g0 = seq 0 (g_n_vertices G) /\ mr_orig g0 = seq 0 (g_n_vertices G) /\ mr_level g0 = None) /\
  (forall i a b, nth_error Gs i = Some a -> nth_error Gs (S i) = Some b -> linked2 sp eps dm rm full re Or G U0 i a b).
Proof.
  intros H eps. unfold graph_multiresolution in H. fold eps in H. destruct (mr_run _ _ _ _ _ _ _ _ _ _) as [[(done, g)|]|] eqn:ER; try discriminate. injection H as <-.
  destruct (run_chain _ _ _ _ _ _ _ _ _ _ _ _ ER) as (L & H0 & _ & HC). split; [rewrite app_length; cbn; lia|]. split; [exact H0|exact HC].
Qed.

(** C38: the levels and their maps.  The i-th step keeps an increasing list of vertices which contains the first one; orig_idx is
    the composition of these maps and is an increasing map to original vertices. *)
Theorem C38_bookkeeping G U0 levels sp se dm rm full re Or Gs :
  graph_multiresolution G U0 levels sp se dm rm full re Or = Some (Ok Gs) ->
  let n g := g_n_vertices (mr_graph g) in
  List.length Gs = S levels /\
  (exists g0, nth_error Gs 0 = Some g0 /\ mr_graph g0 = G /\ mr_idx g0 = seq 0 (g_n_vertices G) /\ mr_orig g0 = seq 0 (g_n_vertices G)) /\
  (forall i g g', nth_error Gs i = Some g -> nth_error Gs (S i) = Some g' ->
     StronglySorted lt (mr_idx g') /\ (forall v, In v (mr_idx g') -> (v < n g)%nat) /\ (0 < n g -> In 0 (mr_idx g'))%nat /\
     n g' = List.length (mr_idx g') /\ mr_orig g' = map (fun v => nth v (mr_orig g) 0%nat) (mr_idx g') /\ mr_level g' = Some i /\ exists K, mr_K g = Some K) /\
  (forall g, In g Gs -> List.length (mr_orig g) = n g /\ StronglySorted lt (mr_orig g) /\ forall v, In v (mr_orig g) -> (v < g_n_vertices G)%nat).
Proof.
  intros H n. apply mr_inv in H. cbv zeta in H. destruct H as (L & (g0 & H0 & H1 & H2 & H3 & _) & HC). split; [exact L|].
  split; [exists g0; tauto|].
  assert (A : forall i g g', nth_error Gs i = Some g -> nth_error Gs (S i) = Some g' ->
     StronglySorted lt (mr_idx g') /\ (forall v, In v (mr_idx g') -> (v < n g)%nat) /\ (0 < n g -> In 0 (mr_idx g'))%nat /\
     n g' = List.length (mr_idx g') /\ mr_orig g' = map (fun v => nth v (mr_orig g) 0%nat) (mr_idx g') /\ mr_level g' = Some i /\ exists K, mr_K g = Some K).
  { intros i g g' Hg Hg'. destruct (HC i g g' Hg Hg') as (c & m & HS & (S1 & S2 & S3 & S4) & _). pose proof (step_graph _ _ _ _ _ _ _ _ _ _ _ HS) as (_ & N).
    apply step_ok in HS as (V & Gk & K & _ & _ & _ & HS). cbv zeta in HS. destruct HS as (_ & _ & _ & _ & Ea & E1 & E2 & E3).
    assert (Gc : mr_graph g = mr_graph c) by (rewrite Ea; reflexivity). assert (Oc : mr_orig g = mr_orig c) by (rewrite Ea; reflexivity).
    unfold n. rewrite <- S1, <- S2, <- S3, <- S4, Gc, Oc. split; [rewrite E1; apply select_sorted|]. split; [intros v Hv; rewrite E1 in Hv; apply select_in in Hv; tauto|].
    split. { intros Hp. rewrite E1. apply select_in. split; [exact Hp|]. pose proof (Rle_0_sqr (V 0%nat)) as Q. unfold Rsqr in Q. exact Q. }
    split; [exact N|]. split; [rewrite E1; exact E2|]. split; [exact E3|]. exists K. rewrite Ea. reflexivity. }
  split; [exact A|].
  assert (B : forall i g, nth_error Gs i = Some g -> List.length (mr_orig g) = n g /\ StronglySorted lt (mr_orig g) /\ forall v, In v (mr_orig g) -> (v < g_n_vertices G)%nat).
  { induction i as [|i IH]; intros g Hg.
    - rewrite H0 in Hg. injection Hg as <-. unfold n. rewrite H1, H3. split; [apply seq_length|]. split; [apply sorted_seq|]. intros v Hv. apply in_seq in Hv. lia.
    - destruct (nth_error Gs i) as [f|] eqn:Ef. 2:{ apply nth_error_None in Ef. assert (nth_error Gs (S i) <> None) as X by (rewrite Hg; discriminate). apply nth_error_Some in X. lia. }
      destruct (IH f eq_refl) as (B1 & B2 & B3). destruct (A i f g Ef Hg) as (A1 & A2 & _ & A4 & A5 & _). rewrite A5.
      split; [rewrite map_length; symmetry; exact A4|]. split; [apply (map_nth_sorted _ _ (n f)); assumption|].
      intros v Hv. apply in_map_iff in Hv as (u & <- & Hu). apply B3. apply nth_In. rewrite B1. apply A2, Hu. }
  intros g Hg. apply In_nth_error in Hg as (i & Hi). apply (B i g Hi).
Qed.

(** ** Without sparsification: exact Kron reductions *)
(** The sparse solver answered correctly at every level. *)
Definition solved (Or : oracle) (Gs : list mrgraph) : Prop :=
  forall i g g', nth_error Gs i = Some g -> nth_error Gs (S i) = Some g' ->
    spsolve_ok (g_n_vertices (mr_graph g)) (gL (mr_graph g)) (mr_idx g') (o_X Or i (mr_graph g)).
(** A connected graph without loops nor negative weights. *)
Definition good_level (G : graph) : Prop :=
  built G /\ g_lap_type G = Combinatorial /\ nonneg_weights G /\ undirected G /\ loop_free G /\ connected G.

Lemma kron_level G ind X Gn : built G -> nonneg_weights G -> connected G -> NoDup ind -> ind <> [] ->
  spsolve_ok (g_n_vertices G) (gL G) ind X -> kron_reduction G ind X = Ok Gn -> good_level Gn.
Proof.
  intros Hb Hp HC Hnd Hne HX HK. destruct (kron_shape _ _ _ _ HK) as (_ & _ & _ & _ & _ & _ & Hin & _).
  pose proof (connected_reaches G ind HC Hin Hne) as Hre.
  destruct (C35_kron_graph G ind X Gn Hb Hp Hnd Hre HX HK) as (B & N & T & P & U & Lf & _). split; [exact B|]. split; [exact T|]. split; [exact P|]. split; [exact U|].
  split; [intros i Hi; apply Lf; rewrite <- N; exact Hi|]. apply (C35_connected G ind X Gn Hb Hp Hnd Hne HC HX HK).
Qed.

Section Exact.
Variables (G : graph) (U0 : option (nat * mat)) (levels : nat) (se : option R) (dm rm : string) (full : bool) (re : R) (Or : oracle) (Gs : list mrgraph).
Hypothesis Hb : built G.
Hypothesis Hp : nonneg_weights G.
Hypothesis HC : connected G.
Hypothesis HN : (0 < g_n_vertices G)%nat.
Hypothesis HR : graph_multiresolution G U0 levels false se dm rm full re Or = Some (Ok Gs).
Hypothesis HX : solved Or Gs.

Lemma level_kron i g g' : nth_error Gs i = Some g -> nth_error Gs (S i) = Some g' -> kron_reduction (mr_graph g) (mr_idx g') (o_X Or i (mr_graph g)) = Ok (mr_graph g').
Proof.
  intros Hg Hg'. pose proof HR as H. apply mr_inv in H. cbv zeta in H. destruct H as (_ & _ & C).
  destruct (C i g g' Hg Hg') as (c & m & HS & (S1 & S2 & S3 & S4) & _). apply step_ok in HS as (V & Gk & K & _ & _ & _ & HS). cbv zeta in HS. destruct HS as (HK & Hs & _ & _ & Ea & E1 & _).
  assert (Gc : mr_graph g = mr_graph c) by (rewrite Ea; reflexivity). cbn [andb] in Hs. injection Hs as Hs. rewrite Gc, <- S1, <- S2, E1, <- Hs. exact HK.
Qed.
Lemma level_pos i g : nth_error Gs i = Some g -> (0 < g_n_vertices (mr_graph g))%nat.
Proof.
  destruct (C38_bookkeeping _ _ _ _ _ _ _ _ _ _ _ HR) as (L & (g0 & H0 & H1 & _) & C & _). cbv zeta in C. revert g.
  induction i as [|i IH]; intros g Hg; [rewrite H0 in Hg; injection Hg as <-; rewrite H1; exact HN|].
  destruct (nth_error Gs i) as [f|] eqn:Ef. 2:{ apply nth_error_None in Ef. assert (nth_error Gs (S i) <> None) as X by (rewrite Hg; discriminate). apply nth_error_Some in X. lia. }
  destruct (C i f g Ef Hg) as (_ & _ & Z & N & _). specialize (Z (IH f eq_refl)). rewrite N. destruct (mr_idx g); [destruct Z|cbn; lia].
Qed.
Lemma level_good i g : nth_error Gs i = Some g -> built (mr_graph g) /\ nonneg_weights (mr_graph g) /\ connected (mr_graph g).
Proof.
  destruct (C38_bookkeeping _ _ _ _ _ _ _ _ _ _ _ HR) as (L & (g0 & H0 & H1 & _) & C & _). cbv zeta in C. revert g.
  induction i as [|i IH]; intros g Hg; [rewrite H0 in Hg; injection Hg as <-; rewrite H1; tauto|].
  destruct (nth_error Gs i) as [f|] eqn:Ef. 2:{ apply nth_error_None in Ef. assert (nth_error Gs (S i) <> None) as X by (rewrite Hg; discriminate). apply nth_error_Some in X. lia. }
  destruct (C i f g Ef Hg) as (S1 & _ & Z & _). specialize (Z (level_pos i f Ef)). destruct (IH f eq_refl) as (B & P & K).
  destruct (kron_level _ _ _ _ B P K (sorted_nodup _ S1) ltac:(intros E; rewrite E in Z; destruct Z) (HX i f g Ef Hg) (level_kron i f g Ef Hg)) as (Q1 & Q2 & Q3 & Q4 & Q5 & Q6).
  tauto.
Qed.
Lemma level_next i f g : nth_error Gs i = Some f -> nth_error Gs (S i) = Some g -> good_level (mr_graph g).
Proof.
  intros Ef Hg. destruct (C38_bookkeeping _ _ _ _ _ _ _ _ _ _ _ HR) as (L & _ & C & _). cbv zeta in C.
  destruct (C i f g Ef Hg) as (S1 & _ & Z & _). specialize (Z (level_pos i f Ef)). destruct (level_good i f Ef) as (B & P & K).
  apply (kron_level _ _ _ _ B P K (sorted_nodup _ S1) ltac:(intros E; rewrite E in Z; destruct Z) (HX i f g Ef Hg) (level_kron i f g Ef Hg)).
Qed.
(** Eliminating level by level: a signal whose Laplacian vanishes off the vertices of a level restricts to it. *)
Lemma level_harmonic i g v : nth_error Gs i = Some g ->
  let n := g_n_vertices G in let orig := mr_orig g in
  (forall c, (c < n)%nat -> ~ In c orig -> mulv n (gL G) v c = 0) ->
  forall a, (a < g_n_vertices (mr_graph g))%nat -> mulv (g_n_vertices (mr_graph g)) (gL (mr_graph g)) (on orig v) a = mulv n (gL G) v (nth a orig 0%nat).
Proof.
  intros Hg n orig. subst orig. destruct (C38_bookkeeping _ _ _ _ _ _ _ _ _ _ _ HR) as (L & (g0 & H0 & H1 & _ & H3) & C & O). cbv zeta in C, O. revert g Hg.
  induction i as [|i IH]; intros g Hg.
  - rewrite H0 in Hg. injection Hg as <-. rewrite H1, H3. fold n. intros _ a Ha. rewrite seq_nth by exact Ha. apply mulv_ext; [reflexivity|]. intros j Hj. unfold on. rewrite seq_nth by exact Hj. reflexivity.
  - destruct (nth_error Gs i) as [f|] eqn:Ef. 2:{ apply nth_error_None in Ef. assert (nth_error Gs (S i) <> None) as X by (rewrite Hg; discriminate). apply nth_error_Some in X. lia. }
    destruct (C i f g Ef Hg) as (S1 & S2 & Z & N & EO & _). specialize (Z (level_pos i f Ef)). destruct (level_good i f Ef) as (B & P & K).
    destruct (O f (nth_error_In _ _ Ef)) as (O1 & O2 & O3). assert (Hne : mr_idx g <> []) by (intros E; rewrite E in Z; destruct Z).
    assert (Hre : reaches (mr_graph f) (mr_idx g)) by (apply connected_reaches; assumption).
    destruct (C35_kron_graph _ _ _ _ B P (sorted_nodup _ S1) Hre (HX i f g Ef Hg) (level_kron i f g Ef Hg)) as (_ & _ & _ & _ & _ & _ & _ & Hh & _).
    rewrite EO. intros Hv a Ha. rewrite N in Ha |- *.
    assert (Hv' : forall c, (c < n)%nat -> ~ In c (mr_orig f) -> mulv n (gL G) v c = 0).
    { intros c Hc Hni. apply Hv; [exact Hc|]. intros J. apply in_map_iff in J as (u & <- & Hu). apply Hni. apply nth_In. rewrite O1. apply S2, Hu. }
    pose proof (IH f eq_refl Hv') as IH'.
    assert (Hz : forall c, (c < g_n_vertices (mr_graph f))%nat -> ~ In c (mr_idx g) -> mulv (g_n_vertices (mr_graph f)) (gL (mr_graph f)) (on (mr_orig f) v) c = 0).
    { intros c Hc Hni. rewrite IH' by exact Hc. apply Hv; [apply O3; apply nth_In; lia|]. intros J. apply in_map_iff in J as (u & E & Hu). apply Hni.
      assert (u = c) as <-; [|exact Hu]. apply (proj1 (NoDup_nth (mr_orig f) 0%nat) (sorted_nodup _ O2)); [rewrite O1; apply S2, Hu|lia|exact E]. }
    specialize (Hh _ Hz a Ha). rewrite (IH' (nth a (mr_idx g) 0%nat)) in Hh by (apply S2, nth_In, Ha).
    rewrite (nth_indep _ 0%nat (nth 0%nat (mr_orig f) 0%nat)) by (rewrite map_length; exact Ha).
    rewrite (map_nth (fun v => nth v (mr_orig f) 0%nat)). rewrite <- Hh. apply mulv_ext; [reflexivity|]. intros j Hj. unfold on.
    rewrite (nth_indep _ 0%nat (nth 0%nat (mr_orig f) 0%nat)) by (rewrite map_length; exact Hj). rewrite (map_nth (fun v => nth v (mr_orig f) 0%nat)). reflexivity.
Qed.
End Exact.

(** C38: without sparsification every level of a connected graph is again a connected undirected graph with non-negative weights
    and without loops, drawn at the coordinates of the original vertices. *)
Theorem C38_levels G U0 levels se dm rm full re Or Gs : built G -> nonneg_weights G -> connected G -> (0 < g_n_vertices G)%nat ->
  graph_multiresolution G U0 levels false se dm rm full re Or = Some (Ok Gs) -> solved Or Gs ->
  forall i g, nth_error Gs (S i) = Some g ->
    good_level (mr_graph g) /\ (2 <= g_n_vertices (mr_graph g))%nat /\
    exists c, g_coords G = Some c /\ g_coords (mr_graph g) = Some (map (fun v => nth v c []) (mr_orig g)).
Proof.
  intros Hb Hp HC HN HR HX i g Hg. destruct (C38_bookkeeping _ _ _ _ _ _ _ _ _ _ _ HR) as (L & (g0 & H0 & H1 & _ & H3) & C & O). cbv zeta in C, O.
  assert (F : forall i, (i < S (S i))%nat) by lia. assert (P : forall j g', nth_error Gs (S j) = Some g' -> exists f, nth_error Gs j = Some f).
  { intros j g' E. destruct (nth_error Gs j) as [f|] eqn:Ef; [eauto|]. apply nth_error_None in Ef. assert (nth_error Gs (S j) <> None) as X by (rewrite E; discriminate). apply nth_error_Some in X. lia. }
  destruct (P i g Hg) as (f & Ef). split; [apply (level_next G U0 levels se dm rm full re Or Gs Hb Hp HC HN HR HX i f g Ef Hg)|].
  split.
  { pose proof (level_kron G U0 levels se dm rm full re Or Gs HR i f g Ef Hg) as HK. destruct (kron_shape _ _ _ _ HK) as (_ & N & _ & _ & _ & _ & _ & N1).
    pose proof (level_pos G U0 levels se dm rm full re Or Gs HN HR (S i) g Hg). lia. }
  assert (exists c, g_coords G = Some c) as (c & Ec).
  { destruct (nth_error Gs 1) as [g1|] eqn:E1. 2:{ apply nth_error_None in E1. assert (nth_error Gs (S i) <> None) as X by (rewrite Hg; discriminate). apply nth_error_Some in X. lia. }
    pose proof (level_kron G U0 levels se dm rm full re Or Gs HR 0 g0 g1 H0 E1) as HK. destruct (kron_shape _ _ _ _ HK) as (_ & _ & _ & (c & Ec & _) & _). rewrite H1 in Ec. eauto. }
  exists c. split; [exact Ec|]. clear F Ef f. revert g Hg. induction i as [|i IH]; intros g Hg; destruct (P _ g Hg) as (f & Ef);
    pose proof (level_kron G U0 levels se dm rm full re Or Gs HR _ f g Ef Hg) as HK; destruct (kron_shape _ _ _ _ HK) as (_ & _ & _ & (c' & Ec' & Ecn) & _);
    destruct (C _ f g Ef Hg) as (S1 & S2 & _ & N & EO & _); destruct (O f (nth_error_In _ _ Ef)) as (O1 & _); rewrite Ecn, EO; f_equal; rewrite map_map.
  - rewrite H0 in Ef. injection Ef as <-. rewrite H1, Ec in Ec'. injection Ec' as <-. apply map_ext_in. intros v Hv. rewrite H3. apply S2 in Hv. rewrite H1 in Hv. rewrite seq_nth by exact Hv. reflexivity.
  - rewrite (IH f Ef) in Ec'. injection Ec' as <-. apply map_ext_in. intros v Hv. apply S2 in Hv. rewrite <- O1 in Hv.
    rewrite (nth_indep _ [] (nth 0%nat c [])) by (rewrite map_length; exact Hv). rewrite (map_nth (fun v => nth v c [])) with (d := 0%nat). reflexivity.
Qed.

(** Several Kron reductions in a row are one: the Laplacian of each level is that of the original graph with all the other vertices
    eliminated; it is the Laplacian of kron_reduction(G, orig_idx). *)
Theorem C38_elimination G U0 levels se dm rm full re Or Gs : built G -> nonneg_weights G -> connected G -> (0 < g_n_vertices G)%nat ->
  graph_multiresolution G U0 levels false se dm rm full re Or = Some (Ok Gs) -> solved Or Gs ->
  forall g, In g Gs ->
    let n := g_n_vertices G in let m := g_n_vertices (mr_graph g) in
    (forall v, (forall c, (c < n)%nat -> ~ In c (mr_orig g) -> mulv n (gL G) v c = 0) ->
       forall a, (a < m)%nat -> mulv m (gL (mr_graph g)) (on (mr_orig g) v) a = mulv n (gL G) v (nth a (mr_orig g) 0%nat)) /\
    (forall X G', spsolve_ok n (gL G) (mr_orig g) X -> kron_reduction G (mr_orig g) X = Ok G' ->
       g_n_vertices G' = m /\ meq m m (gL G') (gL (mr_graph g)) /\ forall i j, (i < m)%nat -> (j < m)%nat -> i <> j -> undirected (mr_graph g) -> wt G' i j = wt (mr_graph g) i j).
Proof.
  intros Hb Hp HC HN HR HX g Hg n m. apply In_nth_error in Hg as (i & Hi).
  pose proof (fun v => level_harmonic G U0 levels se dm rm full re Or Gs Hb Hp HC HN HR HX i g v Hi) as H. cbv zeta in H. fold n m in H.
  split; [exact H|]. intros X G' HX' HK. destruct (C38_bookkeeping _ _ _ _ _ _ _ _ _ _ _ HR) as (_ & _ & _ & O). cbv zeta in O. destruct (O g (nth_error_In _ _ Hi)) as (O1 & O2 & O3). fold m in O1.
  pose proof (level_pos G U0 levels se dm rm full re Or Gs HN HR i g Hi) as Pm. fold m in Pm.
  assert (Hre : reaches G (mr_orig g)). { apply connected_reaches; [exact HC|exact O3|]. intros E. rewrite E in O1. cbn in O1. lia. }
  destruct (C35_kron_graph G _ X G' Hb Hp (sorted_nodup _ O2) Hre HX' HK) as (B' & N' & T' & P' & U' & _ & _ & Hh & He). rewrite O1 in N', Hh, He.
  assert (E : meq m m (gL G') (gL (mr_graph g))).
  { intros a b Ha Hb'. destruct (He (unitv b)) as (v & Hv1 & Hv2). fold n in Hv2, Hh.
    assert (S : forall L : mat, \sum_(j < m) (L a j * on (mr_orig g) v j) = L a b).
    { intros M. rewrite (rsum_single m _ b Hb'); [rewrite Hv1 by exact Hb'; unfold unitv; rewrite Nat.eqb_refl; ring|].
      intros j Hj Hne. rewrite Hv1 by exact Hj. unfold unitv. destruct (Nat.eqb_spec j b); [contradiction|ring]. }
    rewrite <- (S (gL G')), <- (S (gL (mr_graph g))). change (mulv m (gL G') (on (mr_orig g) v) a = mulv m (gL (mr_graph g)) (on (mr_orig g) v) a).
    rewrite (H v Hv2 a Ha). apply Hh; assumption. }
  split; [exact N'|]. split; [exact E|]. intros a b Ha Hb' Hne Hu. destruct (level_good G U0 levels se dm rm full re Or Gs Hb Hp HC HN HR HX i g Hi) as (Bg & _ & _).
  assert (Tg : g_lap_type (mr_graph g) = Combinatorial).
  { destruct i as [|i].
    - destruct (C38_bookkeeping _ _ _ _ _ _ _ _ _ _ _ HR) as (_ & (g0 & H0 & H1 & _) & _). rewrite H0 in Hi. injection Hi as <-. rewrite H1. apply (kron_shape _ _ _ _ HK).
    - destruct (C38_levels G U0 levels se dm rm full re Or Gs Hb Hp HC HN HR HX i g Hi) as ((_ & T & _) & _). exact T. }
  destruct (C09_combinatorial_structure G' B' T') as (_ & _ & R1 & _). destruct (C09_combinatorial_structure _ Bg Tg) as (_ & _ & R2 & _). rewrite N' in R1. fold m in R2.
  specialize (E a b Ha Hb'). rewrite R1, R2 in E by assumption. rewrite <- (U' a b) in E by (rewrite N'; assumption). rewrite <- (Hu a b) in E by assumption. lra.
Qed.

(** C38: effective resistances between original vertices are the same at every level. *)
Theorem C38_resistance G U0 levels se dm rm full re Or Gs : built G -> nonneg_weights G -> connected G -> (0 < g_n_vertices G)%nat ->
  graph_multiresolution G U0 levels false se dm rm full re Or = Some (Ok Gs) -> solved Or Gs ->
  forall g o o' R0 Rg, In g Gs ->
    inv_contract (g_n_vertices G) (gL G) o -> resistance_distance G o = Ok R0 ->
    inv_contract (g_n_vertices (mr_graph g)) (gL (mr_graph g)) o' -> resistance_distance (mr_graph g) o' = Ok Rg ->
    forall a b, (a < g_n_vertices (mr_graph g))%nat -> (b < g_n_vertices (mr_graph g))%nat -> Rg a b = R0 (nth a (mr_orig g) 0%nat) (nth b (mr_orig g) 0%nat).
Proof.
  intros Hb Hp HC HN HR HX g o o' R0 Rg Hg Ho E0 Ho' Eg a b Ha Hb'. apply In_nth_error in Hg as (i & Hi). set (m := g_n_vertices (mr_graph g)) in *.
  assert (T0 : g_lap_type G = Combinatorial) by (unfold resistance_distance in E0; destruct (g_lap_type G); [reflexivity|discriminate|discriminate]).
  assert (Tg : g_lap_type (mr_graph g) = Combinatorial) by (unfold resistance_distance in Eg; destruct (g_lap_type (mr_graph g)); [reflexivity|discriminate|discriminate]).
  destruct (level_good G U0 levels se dm rm full re Or Gs Hb Hp HC HN HR HX i g Hi) as (Bg & Pg & Cg).
  destruct (C38_bookkeeping _ _ _ _ _ _ _ _ _ _ _ HR) as (_ & _ & _ & O). cbv zeta in O. destruct (O g (nth_error_In _ _ Hi)) as (O1 & O2 & O3). fold m in O1.
  assert (Ia : In (nth a (mr_orig g) 0%nat) (mr_orig g)) by (apply nth_In; lia). assert (Ib : In (nth b (mr_orig g) 0%nat) (mr_orig g)) by (apply nth_In; lia).
  destruct (C34_potential_difference G o R0 (nth a (mr_orig g) 0%nat) (nth b (mr_orig g) 0%nat) Hb Hp T0 HC Ho E0 (O3 _ Ia) (O3 _ Ib)) as ((v & Hv) & D0).
  rewrite (D0 v Hv). destruct (C34_potential_difference (mr_graph g) o' Rg a b Bg Pg Tg Cg Ho' Eg Ha Hb') as (_ & Dg).
  apply (Dg (on (mr_orig g) v)). intros c Hc. fold m. fold m in Hc. unfold m. rewrite (level_harmonic G U0 levels se dm rm full re Or Gs Hb Hp HC HN HR HX i g v Hi).
  - rewrite Hv by (apply O3, nth_In; lia). unfold unitv.
    assert (J : forall x y, (x < m)%nat -> (y < m)%nat -> Nat.eqb (nth x (mr_orig g) 0%nat) (nth y (mr_orig g) 0%nat) = Nat.eqb x y).
    { intros x y Hx Hy. destruct (Nat.eqb_spec x y) as [->|Hne]; [apply Nat.eqb_refl|]. apply Nat.eqb_neq. intros E. apply Hne. apply (proj1 (NoDup_nth (mr_orig g) 0%nat) (sorted_nodup _ O2)); lia. }
    rewrite !J by assumption. reflexivity.
  - intros d Hd Hni. rewrite Hv by exact Hd. unfold unitv. destruct (Nat.eqb_spec d (nth a (mr_orig g) 0%nat)) as [->|]; [contradiction|]. destruct (Nat.eqb_spec d (nth b (mr_orig g) 0%nat)) as [->|]; [contradiction|ring].
  - exact Hc.
Qed.

(** ** Progress *)
(** The vector used at level i for a graph G whose basis was not cached before the call: the last eigenvector computed. *)
Definition level_vector (full : bool) (Or : oracle) (i : nat) (G : graph) : vec :=
  if full then (fun v => o_basis Or i G v (g_n_vertices G - 1)%nat) else o_eigs Or i G.

Lemma linked_vector sp eps dm rm full re Or G i a b : linked2 sp eps dm rm full re Or G None i a b ->
  mr_idx b = mr_select (g_n_vertices (mr_graph a)) (level_vector full Or i (mr_graph a)).
Proof.
  intros (c & n & HS & (S1 & S2 & S3 & S4) & HU). apply step_ok in HS as (V & Gk & K & _ & _ & HV & HS). cbv zeta in HS. destruct HS as (_ & _ & _ & _ & Ea & E1 & _).
  assert (Gc : mr_graph a = mr_graph c) by (rewrite Ea; reflexivity). rewrite <- S2, E1, Gc. f_equal. unfold mr_spectrum in HU.
  replace (if (i =? 0)%nat then None else None) with (@None (nat * mat)) in HU by (destruct (Nat.eqb i 0); reflexivity). unfold mr_vector in HV. unfold level_vector. destruct full.
  - injection HU as HU. rewrite <- HU in HV. injection HV as <-. reflexivity.
  - destruct (Nat.leb _ 1); [discriminate|]. injection HU as HU. rewrite <- HU in HV. destruct (Nat.leb _ 2); [discriminate|]. injection HV as <-. reflexivity.
Qed.

(** C38: each level keeps exactly the vertices where the eigenvector has the sign it has at the first vertex (or vanishes). *)
Theorem C38_selection G levels sp se dm rm full re Or Gs : graph_multiresolution G None levels sp se dm rm full re Or = Some (Ok Gs) ->
  forall i g g', nth_error Gs i = Some g -> nth_error Gs (S i) = Some g' ->
    let V := level_vector full Or i (mr_graph g) in
    forall v, In v (mr_idx g') <-> (v < g_n_vertices (mr_graph g))%nat /\ 0 <= V v * V 0%nat.
Proof.
  intros H i g g' Hg Hg' V v. apply mr_inv in H. cbv zeta in H. destruct H as (_ & _ & C). rewrite (linked_vector _ _ _ _ _ _ _ _ _ _ _ (C i g g' Hg Hg')). apply select_in.
Qed.
(** C38: when the vector is an eigenvector for a nonzero eigenvalue and does not vanish at the first vertex, the next graph is
    strictly smaller. *)
Theorem C38_strictly_smaller G levels sp se dm rm full re Or Gs : graph_multiresolution G None levels sp se dm rm full re Or = Some (Ok Gs) ->
  forall i g g' lam, nth_error Gs i = Some g -> nth_error Gs (S i) = Some g' -> built (mr_graph g) ->
    let n := g_n_vertices (mr_graph g) in let V := level_vector full Or i (mr_graph g) in
    (0 < n)%nat -> lam <> 0 -> (forall v, (v < n)%nat -> mulv n (gL (mr_graph g)) V v = lam * V v) -> V 0%nat <> 0 ->
    (g_n_vertices (mr_graph g') < n)%nat.
Proof.
  intros H i g g' lam Hg Hg' Hb n V Hn Hl Hev H0. pose proof (C38_bookkeeping _ _ _ _ _ _ _ _ _ _ _ H) as (_ & _ & C & _). cbv zeta in C.
  destruct (C i g g' Hg Hg') as (S1 & S2 & _ & N & _). rewrite N. fold n in S2.
  pose proof (C38_selection _ _ _ _ _ _ _ _ _ _ H i g g' Hg Hg') as Sel. cbv zeta in Sel. fold n V in Sel.
  assert (Ht : g_lap_type (mr_graph g) = Combinatorial).
  { apply mr_inv in H. cbv zeta in H. destruct H as (_ & _ & CC). destruct (CC i g g' Hg Hg') as (c & m & HS & _ & _). apply step_ok in HS as (V' & Gk & K & _ & _ & _ & HS). cbv zeta in HS. destruct HS as (HK & _ & _ & _ & Ea & _).
    assert (Gc : mr_graph g = mr_graph c) by (rewrite Ea; reflexivity). rewrite Gc. apply (kron_shape _ _ _ _ HK). }
  destruct (C09_combinatorial_structure _ Hb Ht) as (Hs & Hr & _ & _). fold n in Hs, Hr.
  assert (S0 : \sum_(v < n) V v = 0).
  { assert (E : lam * (\sum_(v < n) V v) = 0).
    { rewrite <- rsum_scal_l. rewrite (rsum_ext n (fun i0 => lam * V i0) (fun v => mulv n (gL (mr_graph g)) V v)) by (intros v Hv; symmetry; apply Hev, Hv). unfold mulv. rewrite rsum_swap.
      apply rsum_0. intros j Hj. rewrite (rsum_ext n _ (fun i0 => gL (mr_graph g) j i0 * V j)) by (intros v Hv; rewrite (Hs v j Hv Hj); reflexivity). rewrite rsum_scal_r, Hr by exact Hj. ring. }
    apply Rmult_integral in E. destruct E; [contradiction|assumption]. }
  assert (exists v, (v < n)%nat /\ V v * V 0%nat < 0) as (v & Hv & Neg).
  { destruct (Exists_dec (fun v => V v * V 0%nat < 0) (seq 0 n) (fun v => Rlt_dec (V v * V 0%nat) 0)) as [Ex|J].
    { apply Exists_exists in Ex as (v & Hv & Ng). exists v. split; [apply in_seq in Hv; lia|exact Ng]. }
    exfalso. assert (A : forall v, (v < n)%nat -> 0 <= V v * V 0%nat).
    { intros v Hv. destruct (Rlt_le_dec (V v * V 0%nat) 0) as [Ng|]; [|assumption]. exfalso. apply J. apply Exists_exists. exists v. split; [apply in_seq; lia|exact Ng]. }
    pose proof (rsum_ge_term n (fun v => V v * V 0%nat) 0%nat A Hn) as T. rewrite rsum_scal_r in T. assert (T' : V 0%nat * V 0%nat <= (\sum_(v < n) V v) * V 0%nat) by exact T. rewrite S0 in T'. assert (0 < V 0%nat * V 0%nat) by (apply Rsqr_pos_lt; exact H0). lra. }
  assert (Inc : incl (v :: mr_idx g') (seq 0 n)). { intros x [<-|Hx]; apply in_seq; [lia|]. apply S2 in Hx. lia. }
  apply NoDup_incl_length in Inc; [cbn [List.length] in Inc; rewrite seq_length in Inc; lia|]. constructor; [|apply sorted_nodup, S1]. intros J. apply Sel in J. lra.
Qed.

(** C38: one more level can be computed as long as the eigenvector has the same sign at the first vertex and at some other one. *)
Theorem C38_next_level G levels se full re Or Gs g c v : built G -> nonneg_weights G -> undirected G -> connected G -> (0 < g_n_vertices G)%nat ->
  g_lap_type G = Combinatorial -> g_coords G = Some c -> List.length c = g_n_vertices G ->
  graph_multiresolution G None levels false se "largest_eigenvector" "kron" full re Or = Some (Ok Gs) -> solved Or Gs ->
  nth_error Gs levels = Some g ->
  let V := level_vector full Or levels (mr_graph g) in
  full = true \/ (3 <= g_n_vertices (mr_graph g))%nat -> (0 < v < g_n_vertices (mr_graph g))%nat -> 0 <= V v * V 0%nat ->
  exists Gs', graph_multiresolution G None (S levels) false se "largest_eigenvector" "kron" full re Or = Some (Ok Gs') /\
    forall i a b, (i <= levels)%nat -> nth_error Gs i = Some a -> nth_error Gs' i = Some b ->
      mr_graph b = mr_graph a /\ mr_idx b = mr_idx a /\ mr_orig b = mr_orig a /\ mr_level b = mr_level a.
Proof.
  intros Hb Hp Hu HC HN Ht Hco Hcl HR HX Hg V Hf Hv HV.
  assert (GL : good_level (mr_graph g) \/ mr_graph g = G).
  { destruct levels as [|k].
    - right. destruct (C38_bookkeeping _ _ _ _ _ _ _ _ _ _ _ HR) as (_ & (g0 & H0 & H1 & _) & _). rewrite H0 in Hg. injection Hg as <-. exact H1.
    - left. destruct (C38_levels _ _ _ _ _ _ _ _ _ _ Hb Hp HC HN HR HX k g Hg) as (Q & _). exact Q. }
  assert (GC : exists c', g_coords (mr_graph g) = Some c' /\ List.length c' = g_n_vertices (mr_graph g)).
  { destruct levels as [|k].
    - destruct (C38_bookkeeping _ _ _ _ _ _ _ _ _ _ _ HR) as (_ & (g0 & H0 & H1 & _) & _). rewrite H0 in Hg. injection Hg as <-. rewrite H1. eauto.
    - destruct (C38_levels _ _ _ _ _ _ _ _ _ _ Hb Hp HC HN HR HX k g Hg) as (_ & _ & c' & Ec & Eg). eexists. split; [exact Eg|]. rewrite map_length.
      destruct (C38_bookkeeping _ _ _ _ _ _ _ _ _ _ _ HR) as (_ & _ & _ & O). cbv zeta in O. apply (O g (nth_error_In _ _ Hg)). }
  assert (GB : built (mr_graph g) /\ undirected (mr_graph g) /\ g_lap_type (mr_graph g) = Combinatorial) by (destruct GL as [(Q1 & Q2 & Q3 & Q4 & _)|E]; [tauto|rewrite E; tauto]).
  destruct GB as (Bg & Ug & Tg). destruct GC as (c' & Ec & El).
  unfold graph_multiresolution in *. set (eps := match se with Some e => e | None => _ end) in *. cbn [mr_run].
  destruct (mr_run false eps "largest_eigenvector" "kron" full re Or G None levels) as [[(done, g1)|]|] eqn:ER; try discriminate. injection HR as <-.
  pose proof (run_chain _ _ _ _ _ _ _ _ _ _ _ _ ER) as (L & _ & HU & _). rewrite <- L in Hg at 1. rewrite nth_error_snoc in Hg. injection Hg as ->.
  replace (if (levels =? 0)%nat then None else None) with (@None (nat * mat)) in HU by (destruct (Nat.eqb levels 0); reflexivity).
  assert (EV : mr_vector Or levels g = Ok V).
  { unfold mr_vector, V, level_vector. unfold mr_spectrum in HU. destruct full.
    - injection HU as <-. reflexivity.
    - destruct (Nat.leb _ 1); [discriminate|]. injection HU as <-. destruct Hf as [|Hf]; [discriminate|]. destruct (Nat.leb_spec (g_n_vertices (mr_graph g)) 2); [lia|reflexivity]. }
  set (N := g_n_vertices (mr_graph g)) in *. set (ind := mr_select N V).
  assert (Hin : forall x, In x ind -> (x < N)%nat) by (intros x Hx; apply select_in in Hx; tauto).
  assert (L2 : (2 <= List.length ind)%nat).
  { assert (I : incl [0%nat; v] ind). { intros x [<-|[<-|[]]]; apply select_in; split; try lia; [apply Rle_0_sqr|exact HV]. }
    apply NoDup_incl_length in I; [exact I|]. constructor; [intros [E|[]]; lia|]. constructor; [intros []|constructor]. }
  destruct (C35_succeeds (mr_graph g) ind (o_X Or levels (mr_graph g)) c' Bg Ug Tg Ec El Hin ltac:(lia)) as (Gk & EK).
  destruct (kron_shape _ _ _ _ EK) as (_ & Nk & _).
  assert (EM : exists K, kron_matrix N (l_reg (gL (mr_graph g)) re) ind (o_Xreg Or levels (mr_graph g)) = Ok K).
  { unfold kron_matrix. rewrite (proj2 (forallb_forall _ _)); [eexists; reflexivity|]. intros x Hx. apply Nat.ltb_lt, Hin, Hx. }
  destruct EM as (K & EM).
  assert (EU : exists U', mr_spectrum full Or (S levels) Gk None = Ok U').
  { unfold mr_spectrum. destruct full; [eexists; reflexivity|]. destruct (Nat.leb_spec (g_n_vertices Gk) 1); [lia|eexists; reflexivity]. }
  destruct EU as (U' & EU).
  assert (ES : exists nx, mr_step false eps "largest_eigenvector" "kron" full re Or levels g =
     Some (Ok (mkmr (mr_graph g) (mr_written V (mr_U g)) (mr_idx g) (mr_orig g) (mr_level g) (Some K), nx))).
  { unfold mr_step. rewrite EV. change (negb (String.eqb "largest_eigenvector" "largest_eigenvector")) with false. change (negb (String.eqb "kron" "kron")) with false. cbv iota. fold N. fold ind. rewrite EK. cbn [andb]. rewrite EU, EM. eexists. reflexivity. }
  destruct ES as (nx & ES). rewrite ES. eexists. split; [reflexivity|]. intros i a b Hi Ha Hb'.
  rewrite nth_error_app1 in Hb' by (rewrite app_length; cbn; lia). destruct (Nat.eq_dec i levels) as [->|Hne].
  - rewrite <- L in Hb', Ha. rewrite nth_error_snoc in Hb', Ha. injection Hb' as <-. injection Ha as <-. cbn. tauto.
  - rewrite nth_error_app1 in Hb', Ha by lia. rewrite Ha in Hb'. injection Hb' as <-. tauto.
Qed.

(** C38: mr["K_reg"] inverts the restriction to the kept vertices of the inverse of L + reg_eps I. *)
Theorem C38_K_reg G U0 levels sp se dm rm full re Or Gs : graph_multiresolution G U0 levels sp se dm rm full re Or = Some (Ok Gs) ->
  forall i g g' K P, nth_error Gs i = Some g -> nth_error Gs (S i) = Some g' -> built (mr_graph g) -> mr_K g = Some K ->
    let n := g_n_vertices (mr_graph g) in let idx := mr_idx g' in let m := List.length idx in
    spsolve_ok n (l_reg (gL (mr_graph g)) re) idx (o_Xreg Or i (mr_graph g)) ->
    meq n n (mulm n (l_reg (gL (mr_graph g)) re) P) idm ->
    symmetric m K /\ forall a b, (a < m)%nat -> (b < m)%nat -> \sum_(j < m) (K a j * P (nth j idx 0%nat) (nth b idx 0%nat)) = idm a b.
Proof.
  intros H i g g' K P Hg Hg' Hb HK n idx m HX HP. apply mr_inv in H. cbv zeta in H. destruct H as (_ & _ & C).
  destruct (C i g g' Hg Hg') as (c & nx & HS & (S1 & S2 & S3 & S4) & _). apply step_ok in HS as (V & Gk & K' & _ & _ & _ & HS). cbv zeta in HS. destruct HS as (HKr & _ & _ & EK & Ea & E1 & _).
  assert (Gc : mr_graph g = mr_graph c) by (rewrite Ea; reflexivity). assert (K' = K) as -> by (rewrite Ea in HK; cbn in HK; congruence).
  assert (Ei : idx = mr_select n V) by (unfold idx, n; rewrite <- S2, E1, Gc; reflexivity).
  assert (Ht : g_lap_type (mr_graph g) = Combinatorial) by (rewrite Gc; apply (kron_shape _ _ _ _ HKr)).
  destruct (C09_combinatorial_structure _ Hb Ht) as (Hs & _). fold n in Hs.
  assert (Hs' : symmetric n (l_reg (gL (mr_graph g)) re)).
  { intros a b Ha Hb'. unfold tr, l_reg. rewrite (Hs a b Ha Hb'). unfold tr, idm. rewrite (Nat.eqb_sym a b). reflexivity. }
  assert (Hnd : NoDup idx) by (rewrite Ei; apply sorted_nodup, select_sorted).
  assert (EK' : kron_matrix n (l_reg (gL (mr_graph g)) re) idx (o_Xreg Or i (mr_graph g)) = Ok K) by (rewrite Ei; unfold n; rewrite Gc; exact EK).
  destruct (C35_matrix n _ idx _ K Hs' Hnd EK' HX) as (Q1 & Q2 & _). fold m in Q1, Q2. split; [exact Q1|]. intros a b Ha Hb'.
  destruct (kron_matrix_ok _ _ _ _ _ EK') as (Hin & _).
  assert (Hv : forall d, (d < n)%nat -> mulv n (l_reg (gL (mr_graph g)) re) (fun x => P x (nth b idx 0%nat)) d = idm d (nth b idx 0%nat)).
  { intros d Hd. apply (HP d (nth b idx 0%nat) Hd). apply Hin, nth_In, Hb'. }
  specialize (Q2 (fun x => P x (nth b idx 0%nat))).
  transitivity (mulv m K (on idx (fun x => P x (nth b idx 0%nat))) a); [reflexivity|]. rewrite Q2; [| |exact Ha].
  - rewrite Hv by (apply Hin, nth_In, Ha). unfold idm. destruct (Nat.eqb_spec a b) as [->|Hne]; [rewrite Nat.eqb_refl; reflexivity|].
    destruct (Nat.eqb_spec (nth a idx 0%nat) (nth b idx 0%nat)) as [E|]; [|reflexivity]. exfalso. apply Hne. apply (proj1 (NoDup_nth idx 0%nat) Hnd); assumption.
  - intros d Hd Hni. rewrite Hv by exact Hd. unfold idm. destruct (Nat.eqb_spec d (nth b idx 0%nat)) as [->|]; [|reflexivity]. exfalso. apply Hni, nth_In, Hb'.
Qed.

(** C38: the call rewrites the last column of the caller's cached Fourier basis, with the sign of its first entry.  The
    other columns do not change, and the column spans the same line if its first entry is not zero... *)
Theorem C38_basis_sign G k U levels sp se dm rm re Or Gs : (1 <= levels)%nat ->
  graph_multiresolution G (Some (k, U)) levels sp se dm rm false re Or = Some (Ok Gs) ->
  exists g0 U', nth_error Gs 0 = Some g0 /\ mr_U g0 = Some (k, U') /\
    (forall a l, l <> (k - 1)%nat -> U' a l = U a l) /\
    (U 0%nat (k - 1)%nat > 0 -> forall a, U' a (k - 1)%nat = U a (k - 1)%nat) /\ (U 0%nat (k - 1)%nat < 0 -> forall a, U' a (k - 1)%nat = - U a (k - 1)%nat) /\
    (U 0%nat (k - 1)%nat = 0 -> forall a, U' a (k - 1)%nat = 0).
Proof.
  intros Hl H. apply mr_inv in H. cbv zeta in H. destruct H as (L & (g0 & H0 & H1 & _) & C).
  destruct (nth_error Gs 1) as [g1|] eqn:E1. 2:{ apply nth_error_None in E1. lia. }
  destruct (C 0%nat g0 g1 H0 E1) as (c & nx & HS & _ & HU). cbn [Nat.eqb] in HU. unfold mr_spectrum in HU. destruct (Nat.leb _ 1); [discriminate|]. injection HU as HU.
  apply step_ok in HS as (V & Gk & K' & _ & _ & HV & HS). cbv zeta in HS. destruct HS as (_ & _ & _ & _ & Ea & _). unfold mr_vector in HV. rewrite <- HU in HV, Ea. injection HV as <-.
  exists g0. eexists. split; [exact H0|]. split; [rewrite Ea; reflexivity|]. cbv beta. split; [|split; [|split]].
  - intros a l Hn. destruct (Nat.eqb_spec l (k - 1)); [contradiction|reflexivity].
  - intros P a. rewrite Nat.eqb_refl. unfold mr_signed, np_sign. destruct (Rltb_spec 0 (U 0%nat (k - 1)%nat)); [ring|lra].
  - intros P a. rewrite Nat.eqb_refl. unfold mr_signed, np_sign. destruct (Rltb_spec 0 (U 0%nat (k - 1)%nat)); [lra|]. destruct (Rltb_spec (U 0%nat (k - 1)%nat) 0); [ring|lra].
  - intros P a. rewrite Nat.eqb_refl. unfold mr_signed, np_sign. rewrite P. destruct (Rltb_spec 0 0); [lra|]. ring.
Qed.
(** ... Finding: if the first entry of the eigenvector is zero, no vertex is removed and the column of the caller's basis is
    overwritten with zeros. *)
Theorem C38_basis_destroyed_refuted G k U levels sp se dm rm re Or Gs : (1 <= levels)%nat ->
  graph_multiresolution G (Some (k, U)) levels sp se dm rm false re Or = Some (Ok Gs) -> U 0%nat (k - 1)%nat = 0 ->
  exists g0 g1 U', nth_error Gs 0 = Some g0 /\ nth_error Gs 1 = Some g1 /\ mr_idx g1 = seq 0 (g_n_vertices G) /\
    mr_U g0 = Some (k, U') /\ forall a, U' a (k - 1)%nat = 0.
Proof.
  intros Hl H Z. destruct (C38_basis_sign _ _ _ _ _ _ _ _ _ _ _ Hl H) as (g0 & U' & H0 & HU' & _ & _ & _ & Hz).
  apply mr_inv in H. cbv zeta in H. destruct H as (L & (g0' & H0' & H1 & _) & C). rewrite H0 in H0'. injection H0' as <-.
  destruct (nth_error Gs 1) as [g1|] eqn:E1. 2:{ apply nth_error_None in E1. lia. }
  destruct (C 0%nat g0 g1 H0 E1) as (c & nx & HS & (_ & S2 & _) & HU). cbn [Nat.eqb] in HU. unfold mr_spectrum in HU. destruct (Nat.leb _ 1); [discriminate|]. injection HU as HU.
  apply step_ok in HS as (V & Gk & K' & _ & _ & HV & HS). cbv zeta in HS. destruct HS as (_ & _ & _ & _ & Ea & Ei & _). unfold mr_vector in HV. rewrite <- HU in HV. injection HV as <-.
  assert (Gc : mr_graph g0 = mr_graph c) by (rewrite Ea; reflexivity). exists g0, g1, U'. split; [exact H0|]. split; [reflexivity|]. split; [|split; [exact HU'|exact (Hz Z)]].
  rewrite <- S2, Ei, <- Gc, H1. unfold mr_select. clear - Z. induction (seq 0 (g_n_vertices G)) as [|x l IH]; [reflexivity|]. cbn [filter]. rewrite IH.
  destruct (Rleb_spec 0 (mr_signed (fun v => U v (k - 1)%nat) x)) as [|Ng]; [reflexivity|]. exfalso. unfold mr_signed, np_sign in Ng. rewrite Z in Ng. destruct (Rltb_spec 0 0); [lra|]. lra.
Qed.
(** Finding: with a partial basis in the cache it is not the largest eigenvector which is used.  With one (constant) column nothing
    is ever removed. *)
Theorem C38_partial_basis_refuted G U c levels sp se dm rm re Or Gs : (1 <= levels)%nat ->
  graph_multiresolution G (Some (1%nat, U)) levels sp se dm rm false re Or = Some (Ok Gs) -> (forall a, U a 0%nat = c) ->
  exists g1, nth_error Gs 1 = Some g1 /\ mr_idx g1 = seq 0 (g_n_vertices G).
Proof.
  intros Hl H Z. apply mr_inv in H. cbv zeta in H. destruct H as (L & (g0 & H0 & H1 & _) & C).
  destruct (nth_error Gs 1) as [g1|] eqn:E1. 2:{ apply nth_error_None in E1. lia. }
  destruct (C 0%nat g0 g1 H0 E1) as (d & nx & HS & (_ & S2 & _) & HU). cbn [Nat.eqb] in HU. unfold mr_spectrum in HU. destruct (Nat.leb _ 1); [discriminate|]. injection HU as HU.
  apply step_ok in HS as (V & Gk & K' & _ & _ & HV & HS). cbv zeta in HS. destruct HS as (_ & _ & _ & _ & Ea & Ei & _). unfold mr_vector in HV. rewrite <- HU in HV. injection HV as <-.
  assert (Gc : mr_graph g0 = mr_graph d) by (rewrite Ea; reflexivity). exists g1. split; [reflexivity|].
  rewrite <- S2, Ei, <- Gc, H1. unfold mr_select. clear - Z. induction (seq 0 (g_n_vertices G)) as [|x l IH]; [reflexivity|]. cbn [filter]. rewrite IH.
  destruct (Rleb_spec 0 (mr_signed (fun v => U v 0%nat) x)) as [|Ng]; [reflexivity|]. exfalso. unfold mr_signed in Ng. rewrite !Z, sign_mul in Ng. pose proof (Rabs_pos c). lra.
Qed.

(** ** Failures *)
Lemma run_fails sp eps dm rm full re Or G U0 k e : mr_run sp eps dm rm full re Or G U0 1 = Some (Raise e) -> mr_run sp eps dm rm full re Or G U0 (S k) = Some (Raise e).
Proof. intros H. induction k as [|k IH]; [exact H|]. remember (S k) as k1. cbn [mr_run]. rewrite IH. reflexivity. Qed.
Definition mr_start (G : graph) (U : option (nat * mat)) : mrgraph := mkmr G U (seq 0 (g_n_vertices G)) (seq 0 (g_n_vertices G)) None None.
Lemma first_fails G U0 U levels sp se dm rm full re Or e : (1 <= levels)%nat -> mr_spectrum full Or 0 G U0 = Ok U ->
  mr_step sp (match se with Some e => e | None => Rmin (10 / sqrt (INR (g_n_vertices G))) 0.3 end) dm rm full re Or 0 (mr_start G U) = Some (Raise e) ->
  graph_multiresolution G U0 levels sp se dm rm full re Or = Some (Raise e).
Proof.
  intros Hl HU HS. unfold graph_multiresolution. destruct levels as [|k]; [lia|]. set (eps := match se with Some e => e | None => _ end) in *. erewrite run_fails; [reflexivity|].
  cbn [mr_run]. rewrite HU. fold (mr_start G U). rewrite HS. reflexivity.
Qed.
Lemma spectrum_vector full Or G : (full = true \/ (3 <= g_n_vertices G)%nat) -> exists U, mr_spectrum full Or 0 G None = Ok U /\ mr_vector Or 0 (mr_start G U) = Ok (level_vector full Or 0 G).
Proof.
  intros H. unfold mr_spectrum, level_vector. destruct full; [eexists; split; reflexivity|]. destruct H as [|H]; [discriminate|]. destruct (Nat.leb_spec (g_n_vertices G) 1); [lia|].
  eexists. split; [reflexivity|]. unfold mr_vector. cbn. destruct (g_n_vertices G) as [|[|[|n]]]; try lia. reflexivity.
Qed.
(** Unknown methods are rejected, but only if there is a level to compute. *)
Theorem C38_unknown_method_rejected G levels sp se dm rm full re Or : (full = true \/ (3 <= g_n_vertices G)%nat) -> (1 <= levels)%nat ->
  dm <> "largest_eigenvector"%string \/ rm <> "kron"%string -> graph_multiresolution G None levels sp se dm rm full re Or = Some (Raise NotImplementedError).
Proof.
  intros Hf Hl Hm. destruct (spectrum_vector full Or G Hf) as (U & EU & EV). apply (first_fails _ _ U); [exact Hl|exact EU|]. unfold mr_step. rewrite EV.
  destruct (String.eqb_spec dm "largest_eigenvector"); [|reflexivity]. destruct (String.eqb_spec rm "kron"); [tauto|reflexivity].
Qed.
Theorem C38_no_level G U0 sp se dm rm full re Or : (full = true \/ (2 <= g_n_vertices G)%nat) ->
  exists g, graph_multiresolution G U0 0 sp se dm rm full re Or = Some (Ok [g]) /\ mr_graph g = G /\ mr_orig g = seq 0 (g_n_vertices G).
Proof.
  intros Hf. unfold graph_multiresolution, mr_run, mr_spectrum. destruct full; [eexists; split; [reflexivity|split; reflexivity]|]. destruct Hf as [|Hf]; [discriminate|].
  destruct (Nat.leb_spec (g_n_vertices G) 1); [lia|]. eexists. split; [reflexivity|]. split; reflexivity.
Qed.
(** Finding: when the eigenvector has another sign at all the other vertices (a star, listed from its centre; any two vertices) the
    call ends in ValueError; and without the full basis a graph with two vertices ends in TypeError. *)
Theorem C38_single_vertex_refuted G levels sp se full re Or : built G -> undirected G -> g_lap_type G = Combinatorial -> (0 < g_n_vertices G)%nat ->
  (full = true \/ (3 <= g_n_vertices G)%nat) -> (1 <= levels)%nat ->
  let V := level_vector full Or 0 G in (forall v, (0 < v < g_n_vertices G)%nat -> V v * V 0%nat < 0) ->
  graph_multiresolution G None levels sp se "largest_eigenvector" "kron" full re Or = Some (Raise ValueError).
Proof.
  intros Hb Hu Ht HN Hf Hl V HV. destruct (spectrum_vector full Or G Hf) as (U & EU & EV). apply (first_fails _ _ U); [exact Hl|exact EU|]. unfold mr_step. rewrite EV. fold V.
  change (negb (String.eqb "largest_eigenvector" "largest_eigenvector")) with false. change (negb (String.eqb "kron" "kron")) with false. cbv iota. cbn [mr_graph mr_start].
  assert (mr_select (g_n_vertices G) V = [0%nat]) as ->; [|rewrite C35_single_vertex_refuted by assumption; reflexivity].
  assert (A : forall x, In x (mr_select (g_n_vertices G) V) <-> x = 0%nat).
  { intros x. rewrite select_in. split; [intros [A B]; destruct x as [|x]; [reflexivity|exfalso; specialize (HV (S x) ltac:(lia)); lra]|]. intros ->. split; [exact HN|apply Rle_0_sqr]. }
  pose proof (select_sorted (g_n_vertices G) V) as S. destruct (mr_select (g_n_vertices G) V) as [|x [|y l]]; cbn [In] in A.
  - exfalso. apply (proj2 (A 0%nat)). reflexivity.
  - f_equal. apply A. tauto.
  - exfalso. apply StronglySorted_inv in S as (_ & F). rewrite Forall_forall in F. specialize (F y ltac:(left; reflexivity)). pose proof (proj1 (A y) ltac:(tauto)). lia.
Qed.
Theorem C38_two_vertices_refuted G levels sp se rm re Or : (g_n_vertices G <= 2)%nat -> (1 <= levels)%nat ->
  graph_multiresolution G None levels sp se "largest_eigenvector" rm false re Or = Some (Raise TypeError).
Proof.
  intros HN Hl. destruct (mr_spectrum false Or 0 G None) as [U|e] eqn:EU.
  - apply (first_fails _ _ U); [exact Hl|exact EU|]. unfold mr_spectrum in EU. destruct (Nat.leb _ 1); [discriminate|]. injection EU as <-. unfold mr_step. unfold mr_vector. cbn [mr_U mr_start mr_graph].
    destruct (Nat.leb_spec (g_n_vertices G) 2); [reflexivity|lia].
  - assert (e = TypeError) as ->. { unfold mr_spectrum in EU. destruct (Nat.leb _ 1); [congruence|discriminate]. }
    unfold graph_multiresolution. destruct levels as [|k]; [lia|]. erewrite run_fails; [reflexivity|]. cbn [mr_run]. rewrite EU. reflexivity.
Qed.
(** Finding: with sparsification (the default) a next level of three or four vertices asks for epsilon = 1, which graph_sparsify
    rejects: the call ends in ValueError. *)
Theorem C38_sparsify_small_refuted G levels se full re Or c : built G -> undirected G -> g_lap_type G = Combinatorial -> g_coords G = Some c -> List.length c = g_n_vertices G ->
  (full = true \/ (3 <= g_n_vertices G)%nat) -> (1 <= levels)%nat ->
  let V := level_vector full Or 0 G in
  (List.length (filter (fun v => Rleb 0 (V v * V 0%nat)) (seq 0 (g_n_vertices G))) = 3 \/ List.length (filter (fun v => Rleb 0 (V v * V 0%nat)) (seq 0 (g_n_vertices G))) = 4)%nat ->
  graph_multiresolution G None levels true se "largest_eigenvector" "kron" full re Or = Some (Raise ValueError).
Proof.
  intros Hb Hu Ht Hc Hcl Hf Hl V HV. destruct (spectrum_vector full Or G Hf) as (U & EU & EV). apply (first_fails _ _ U); [exact Hl|exact EU|]. unfold mr_step. rewrite EV. fold V.
  change (negb (String.eqb "largest_eigenvector" "largest_eigenvector")) with false. change (negb (String.eqb "kron" "kron")) with false. cbv iota. cbn [mr_graph mr_start].
  assert (Es : mr_select (g_n_vertices G) V = filter (fun v => Rleb 0 (V v * V 0%nat)) (seq 0 (g_n_vertices G))).
  { unfold mr_select. apply filter_ext. intros v. unfold mr_signed. pose proof (sign_ge (V 0%nat) (V v)) as Q. destruct (Rleb_spec 0 (V v * np_sign (V 0%nat))), (Rleb_spec 0 (V v * V 0%nat)); try reflexivity; exfalso; lra. }
  rewrite <- Es in HV. set (ind := mr_select (g_n_vertices G) V) in *.
  destruct (C35_succeeds G ind (o_X Or 0 G) c Hb Hu Ht Hc Hcl ltac:(intros v Hv; apply select_in in Hv; tauto) ltac:(lia)) as (Gk & EK). rewrite EK.
  destruct (kron_shape _ _ _ _ EK) as (_ & Nk & Tk & _). assert (Nat.ltb 2 (g_n_vertices Gk) = true) as -> by (apply Nat.ltb_lt; lia). cbn [andb].
  rewrite (proj2 (C69_rejects Gk _ _ _ _ _) Tk); [reflexivity|]. right. unfold mr_eps. rewrite Rmin_right; [lra|]. eapply Rle_trans; [|apply Rmax_r].
  set (s := sqrt (INR (g_n_vertices Gk))). assert (Ps : 0 < s) by (apply sqrt_lt_R0, lt_0_INR; lia).
  assert (s <= 2). { unfold s. replace 2 with (sqrt (2 * 2)) by (apply sqrt_square; lra). apply sqrt_le_1_alt. replace (2 * 2) with (INR 4) by (cbn; lra). apply le_INR. lia. }
  apply (Rmult_le_reg_r s); [exact Ps|]. unfold Rdiv. rewrite Rmult_assoc, Rinv_l by lra. lra.
Qed.
(** Finding: with sparsification two levels are never computed, unless the first one has at most two vertices (and the full basis
    is computed): the sparsified graph has lost the coordinates which the next Kron reduction asks for. *)
Theorem C38_sparsify_levels_refuted G U0 levels se dm rm full re Or Gs : (2 <= levels)%nat ->
  graph_multiresolution G U0 levels true se dm rm full re Or = Some (Ok Gs) ->
  full = true /\ exists g1, nth_error Gs 1 = Some g1 /\ (g_n_vertices (mr_graph g1) <= 2)%nat.
Proof.
  intros Hl H. apply mr_inv in H. cbv zeta in H. destruct H as (L & (g0 & H0 & H1 & _) & C).
  destruct (nth_error Gs 1) as [g1|] eqn:E1. 2:{ apply nth_error_None in E1. lia. }
  destruct (nth_error Gs 2) as [g2|] eqn:E2. 2:{ apply nth_error_None in E2. lia. }
  destruct (C 0%nat g0 g1 H0 E1) as (c & nx & HS & (S1 & _) & _). destruct (C 1%nat g1 g2 E1 E2) as (c2 & nx2 & HS2 & _ & HU2).
  apply step_ok in HS as (V & Gk & K' & _ & _ & _ & HS). cbv zeta in HS. destruct HS as (HK & Hs & _).
  apply step_ok in HS2 as (V2 & Gk2 & K2 & _ & _ & HV2 & HS2). cbv zeta in HS2. destruct HS2 as (HK2 & _ & _ & _ & Ea & _).
  assert (Gc : mr_graph g1 = mr_graph c2) by (rewrite Ea; reflexivity). destruct (kron_shape _ _ _ _ HK2) as (_ & _ & _ & (c' & Ec & _) & _). rewrite <- Gc, <- S1 in Ec.
  assert (Sm : (g_n_vertices (mr_graph g1) <= 2)%nat).
  { rewrite <- S1. destruct (Nat.ltb_spec 2 (g_n_vertices Gk)) as [Lt|Ge].
    - cbn [andb] in Hs. destruct (sparsify_shape _ _ _ _ _ _ _ Hs) as (_ & _ & _ & Nc). congruence.
    - cbn [andb] in Hs. injection Hs as <-. exact Ge. }
  split; [|exists g1; split; [reflexivity|exact Sm]].
  destruct full; [reflexivity|exfalso]. cbn [Nat.eqb] in HU2. unfold mr_spectrum in HU2. destruct (Nat.leb _ 1); [discriminate|]. injection HU2 as HU2.
  unfold mr_vector in HV2. rewrite <- HU2, <- Gc in HV2. destruct (Nat.leb_spec (g_n_vertices (mr_graph g1)) 2); [discriminate|lia].
Qed.

(** ** Cases meeting the hypotheses *)
(** The path 0 - 1 - 2: the eigenvector (1, -2, 1) of its largest eigenvalue 3 keeps the vertices 0 and 2. *)
Definition p3_oracle : oracle := mkoracle (fun _ _ _ _ => 0) (fun _ _ v => nth v [1; -2; 1] 0) (fun _ _ _ _ => - / 2) (fun _ _ _ _ => - / (2 + 0.005))
  (fun _ _ => InvSingular (fun _ _ => 0)) (fun _ _ _ _ => []) (fun _ _ _ => (pop_first, pop_first)).
Example C38_ex : exists G Gs g1, built G /\ nonneg_weights G /\ undirected G /\ connected G /\ g_n_vertices G = 3%nat /\ g_lap_type G = Combinatorial /\
  g_coords G = Some [[0]; [1]; [2]] /\
  graph_multiresolution G None 1 false None "largest_eigenvector" "kron" false 0.005 p3_oracle = Some (Ok Gs) /\ solved p3_oracle Gs /\
  nth_error Gs 1 = Some g1 /\ mr_orig g1 = [0; 2]%nat /\
  spsolve_ok 3 (l_reg (gL G) 0.005) (mr_idx g1) (o_Xreg p3_oracle 0 G) /\
  let V := level_vector false p3_oracle 0 G in (forall v, (v < 3)%nat -> mulv 3 (gL G) V v = 3 * V v) /\ V 0%nat <> 0.
Proof.
  destruct (p3_graph (Some [[0]; [1]; [2]])) as (G & Hb & Hn & Ht & Hc & Hp & Hu & HC & HL).
  destruct (C38_no_level G None false None "largest_eigenvector" "kron" false 0.005 p3_oracle) as (g & E0 & Eg & _); [right; lia|].
  assert (S0 : solved p3_oracle [g]). { intros i a b _ E. destruct i; discriminate. }
  destruct (C38_next_level G 0 None false 0.005 p3_oracle [g] g [[0]; [1]; [2]] 2 Hb Hp Hu HC) as (Gs & E1 & _); try assumption; try reflexivity; try (rewrite ?Eg, ?Hn; cbn; lia).
  { rewrite Eg. unfold level_vector. cbn. lra. }
  pose proof E1 as E1'. apply mr_inv in E1'. cbv zeta in E1'. destruct E1' as (L & (g0 & H0 & H1 & _ & H3 & _) & C).
  destruct (nth_error Gs 1) as [g1|] eqn:Eg1. 2:{ apply nth_error_None in Eg1. lia. }
  pose proof (linked_vector _ _ _ _ _ _ _ _ _ _ _ (C 0%nat g0 g1 H0 Eg1)) as EI. rewrite H1, Hn in EI.
  assert (EI2 : mr_idx g1 = [0; 2]%nat).
  { rewrite EI. unfold mr_select, mr_signed, level_vector, np_sign. cbn [p3_oracle o_eigs nth seq filter].
    repeat match goal with |- context [Rltb ?a ?b] => destruct (Rltb_spec a b); try (exfalso; lra) end.
    repeat match goal with |- context [Rleb ?a ?b] => destruct (Rleb_spec a b); try (exfalso; lra) end. reflexivity. }
  exists G, Gs, g1. repeat (split; [assumption|]). split; [|split; [exact Eg1|split; [|split; [|split]]]].
  - intros i a b Ha Hb'. destruct i as [|i]. 2:{ assert (nth_error Gs (S (S i)) <> None) as X by (rewrite Hb'; discriminate). apply nth_error_Some in X. lia. }
    rewrite H0 in Ha. injection Ha as <-. rewrite Eg1 in Hb'. injection Hb' as <-. rewrite EI2, H1, Hn. unfold spsolve_ok. cbn. intros k j Hk Hj. destruct k as [|k]; [|lia]. destruct j as [|[|j]]; try lia; cbn; rewrite !HL by lia; cbn; lra.
  - destruct (C38_bookkeeping _ _ _ _ _ _ _ _ _ _ _ E1) as (_ & _ & B & _). destruct (B 0%nat g0 g1 H0 Eg1) as (_ & _ & _ & _ & EO & _). rewrite EO, EI2, H3, Hn. reflexivity.
  - rewrite EI2. unfold spsolve_ok. cbn. intros k j Hk Hj. destruct k as [|k]; [|lia]. unfold l_reg, idm. destruct j as [|[|j]]; try lia; rewrite !HL by lia; cbn; field; apply Rgt_not_eq; lra.
  - intros v Hv. unfold mulv. cbn [rsum]. rewrite !HL by lia. unfold level_vector. destruct v as [|[|[|v]]]; try lia; cbn; lra.
  - unfold level_vector. cbn. lra.
Qed.
(** Two vertices with the full basis; a constant vector on the path (three vertices kept). *)
Example C38_failures_ex :
  (exists G Or, built G /\ undirected G /\ g_lap_type G = Combinatorial /\ g_n_vertices G = 2%nat /\ (forall v, (0 < v < 2)%nat -> level_vector true Or 0 G v * level_vector true Or 0 G 0%nat < 0)) /\
  (exists G Or c, built G /\ undirected G /\ g_lap_type G = Combinatorial /\ g_coords G = Some c /\ List.length c = g_n_vertices G /\ g_n_vertices G = 3%nat /\
     List.length (filter (fun v => Rleb 0 (level_vector false Or 0 G v * level_vector false Or 0 G 0%nat)) (seq 0 3)) = 3%nat).
Proof.
  split.
  - destruct (finite_entry_built 2 [0; 1; 1; 0] Combinatorial None eq_refl (or_introl eq_refl)) as (G & _ & Hb & Hn & Ht & _ & Hw). destruct (k2_lap G Hb Hn Hw) as (Hp & Hu & _).
    exists G, (mkoracle (fun _ _ v _ => nth v [1; -1] 0) (fun _ _ _ => 0) (fun _ _ _ _ => 0) (fun _ _ _ _ => 0) (fun _ _ => InvSingular (fun _ _ => 0)) (fun _ _ _ _ => []) (fun _ _ _ => (pop_first, pop_first))).
    repeat (split; [assumption|]). intros v Hv. destruct v as [|[|v]]; try lia. unfold level_vector. cbn. lra.
  - destruct (p3_graph (Some [[0]; [1]; [2]])) as (G & Hb & Hn & Ht & Hc & Hp & Hu & HC & HL).
    exists G, (mkoracle (fun _ _ _ _ => 0) (fun _ _ _ => 1) (fun _ _ _ _ => 0) (fun _ _ _ _ => 0) (fun _ _ => InvSingular (fun _ _ => 0)) (fun _ _ _ _ => []) (fun _ _ _ => (pop_first, pop_first))), [[0]; [1]; [2]].
    repeat (split; [try assumption; try (rewrite Hn; reflexivity)|]). unfold level_vector. cbn [o_eigs seq filter]. destruct (Rleb_spec 0 (1 * 1)); [reflexivity|lra].
Qed.
(** An isolated vertex and an edge: the eigenvector of the largest eigenvalue vanishes at the first vertex. *)
Example C38_basis_ex : exists G U Gs, built G /\ g_n_vertices G = 3%nat /\ g_lap_type G = Combinatorial /\ nonneg_weights G /\
  (forall a, (a < 3)%nat -> mulv 3 (gL G) (fun b => U b 2%nat) a = 2 * U a 2%nat) /\ U 0%nat 2%nat = 0 /\ U 1%nat 2%nat <> 0 /\
  graph_multiresolution G (Some (3%nat, U)) 1 false None "largest_eigenvector" "kron" false 0.005 p3_oracle = Some (Ok Gs).
Proof.
  destruct (finite_entry_built 3 [0; 0; 0; 0; 0; 1; 0; 1; 0] Combinatorial (Some [[0]; [1]; [2]]) eq_refl (or_introl eq_refl)) as (G & _ & Hb & Hn & Ht & Hc & Hw).
  set (U := fun a l : nat => nth (a * 3 + l) [1; 0; 0; 0; 1; 1; 0; 1; -1] 0).
  assert (Hu : undirected G). { intros i j Hi Hj. rewrite Hn in Hi, Hj. rewrite !Hw by assumption. destruct i as [|[|[|i]]]; try lia; destruct j as [|[|[|j]]]; try lia; reflexivity. }
  destruct (C09_combinatorial_structure G Hb Ht) as (_ & R1 & R2 & _). rewrite Hn in R1, R2.
  assert (Ei : mr_select 3 (fun v => U v 2%nat) = [0; 1; 2]%nat).
  { unfold mr_select, mr_signed, np_sign, U. cbn [nth seq filter Nat.mul Nat.add]. repeat match goal with |- context [Rltb ?a ?b] => destruct (Rltb_spec a b); try (exfalso; lra) end.
    repeat match goal with |- context [Rleb ?a ?b] => destruct (Rleb_spec a b); try (exfalso; lra) end. reflexivity. }
  destruct (C35_succeeds G [0; 1; 2]%nat (o_X p3_oracle 0 G) [[0]; [1]; [2]] Hb Hu Ht Hc) as (Gk & EK); [rewrite Hn; reflexivity|rewrite Hn; intros v [<-|[<-|[<-|[]]]]; lia|discriminate|].
  destruct (kron_shape _ _ _ _ EK) as (_ & Nk & _). cbn [List.length] in Nk.
  assert (ER : exists Gs, graph_multiresolution G (Some (3%nat, U)) 1 false None "largest_eigenvector" "kron" false 0.005 p3_oracle = Some (Ok Gs)).
  { unfold graph_multiresolution, mr_run, mr_step, mr_spectrum, mr_vector. rewrite Hn. change (Nat.leb 3 1) with false. cbv iota. cbn [mr_U mr_graph].
    change (negb (String.eqb "largest_eigenvector" "largest_eigenvector")) with false. change (negb (String.eqb "kron" "kron")) with false. cbv iota. rewrite Hn. cbn [Nat.sub]. rewrite Ei, EK. cbn [andb]. rewrite Nk. change (Nat.leb 3 1) with false. cbv iota.
    unfold kron_matrix. change (forallb (fun v => Nat.ltb v 3) [0; 1; 2]%nat) with true. cbn [negb]. eexists. reflexivity. }
  destruct ER as (Gs & ER). exists G, U, Gs. split; [exact Hb|]. split; [exact Hn|]. split; [exact Ht|]. split.
  { intros i j Hi Hj. rewrite Hn in Hi, Hj. rewrite Hw by assumption. destruct i as [|[|[|i]]]; try lia; destruct j as [|[|[|j]]]; try lia; cbn; lra. }
  split; [|split; [reflexivity|split; [unfold U; cbn; lra|exact ER]]].
  assert (OD : forall i j, (i < 3)%nat -> (j < 3)%nat -> i <> j -> gL G i j = nth (i * 3 + j) [0; 0; 0; 0; 1; -1; 0; -1; 1] 0).
  { intros i j Hi Hj Hne. rewrite R2 by assumption. rewrite !Hw by assumption. destruct i as [|[|[|i]]]; try lia; destruct j as [|[|[|j]]]; try lia; cbn; lra. }
  assert (D : forall i, (i < 3)%nat -> gL G i i = nth (i * 3 + i) [0; 0; 0; 0; 1; -1; 0; -1; 1] 0).
  { intros i Hi. specialize (R1 i Hi). cbn [rsum] in R1. destruct i as [|[|[|i]]]; try lia;
    repeat match type of R1 with context [gL G ?a ?b] => rewrite (OD a b) in R1 by lia end; cbn in R1 |- *; lra. }
  intros a Ha. unfold mulv. cbn [rsum]. destruct a as [|[|[|a]]]; try lia;
    repeat match goal with |- context [gL G ?x ?x] => rewrite (D x) by lia | |- context [gL G ?x ?y] => rewrite (OD x y) by lia end; unfold U; cbn; lra.
Qed.

Print Assumptions C38_resistance.
Print Assumptions C38_next_level.

(** ** A graph whose Fourier basis is already cached *)
(** C38: the vector of the first level is the last column of the cached basis, also when only the k first eigenvectors were
    computed (compute_full_eigen=False); with compute_full_eigen=True an incomplete basis is computed anew, and at the end every
    level has a complete basis. *)
Theorem C38_cached_basis G k U levels sp se dm rm full re Or Gs : graph_multiresolution G (Some (k, U)) levels sp se dm rm full re Or = Some (Ok Gs) ->
  let n := g_n_vertices G in
  (forall g g', nth_error Gs 0 = Some g -> nth_error Gs 1 = Some g' ->
     let V v := if (full && Nat.ltb k n)%bool then o_basis Or 0 G v (n - 1)%nat else U v (k - 1)%nat in
     forall v, In v (mr_idx g') <-> (v < n)%nat /\ 0 <= V v * V 0%nat) /\
  (full = true -> forall g, In g Gs -> exists l B, mr_U g = Some (l, B) /\ (g_n_vertices (mr_graph g) <= l)%nat).
Proof.
  intros H n. pose proof H as H'. apply mr_inv in H'. cbv zeta in H'. destruct H' as (_ & (h0 & F0 & F1 & _) & C). split.
  - intros g g' Hg Hg' V v. assert (Gg : mr_graph g = G) by congruence. destruct (C 0%nat g g' Hg Hg') as (c & nx & HS & (S1 & S2 & S3 & S4) & HU). cbn [Nat.eqb] in HU.
    apply step_ok in HS as (V' & Gk & K & _ & _ & HV & HS). cbv zeta in HS. destruct HS as (_ & _ & _ & _ & Ea & E1 & _).
    assert (Gc : mr_graph c = G) by (rewrite <- Gg, Ea; reflexivity). rewrite <- S2, E1, Gc. fold n.
    assert (EV : V' = V). { unfold mr_vector in HV. unfold mr_spectrum in HU. rewrite Gc in HU. fold n in HU. unfold V. destruct full; cbn [andb].
      - destruct (Nat.leb_spec n k) as [L|L]; injection HU as HU; rewrite <- HU in HV; injection HV as <-; [rewrite (proj2 (Nat.ltb_ge k n) L)|rewrite (proj2 (Nat.ltb_lt k n) L)]; reflexivity.
      - destruct (Nat.leb n 1); [discriminate|]. injection HU as HU. rewrite <- HU in HV. injection HV as <-. reflexivity. }
    rewrite EV. apply select_in.
  - intros -> g Hg.
    assert (Sp : forall i G' W U', mr_spectrum true Or i G' W = Ok U' -> exists l B, U' = Some (l, B) /\ (g_n_vertices G' <= l)%nat).
    { intros i G' W U'. unfold mr_spectrum. destruct W as [(l, B)|]; [destruct (Nat.leb_spec (g_n_vertices G') l)|]; intros E; injection E as <-; eauto. }
    unfold graph_multiresolution in H. destruct (mr_run _ _ _ _ _ _ _ _ _ _) as [[(done, gl)|]|] eqn:ER; try discriminate. injection H as <-.
    destruct (run_chain _ _ _ _ _ _ _ _ _ _ _ _ ER) as (Ld & _ & HU & HC). apply In_nth_error in Hg as (i & Hi).
    destruct (Nat.eq_dec i (List.length done)) as [->|Hne].
    + rewrite nth_error_snoc in Hi. injection Hi as <-. apply (Sp _ _ _ _ HU).
    + assert (Hl : (i < List.length (done ++ [gl]))%nat) by (apply nth_error_Some; rewrite Hi; discriminate). rewrite app_length in Hl. cbn in Hl.
      destruct (nth_error (done ++ [gl]) (S i)) as [b|] eqn:Eb. 2:{ apply nth_error_None in Eb. rewrite app_length in Eb. cbn in Eb. lia. }
      destruct (HC i g b Hi Eb) as (c & nx & HS & _ & HUc). destruct (Sp _ _ _ _ HUc) as (l & B & EU & Hle).
      apply step_ok in HS as (V & Gk & K & _ & _ & _ & HS). cbv zeta in HS. destruct HS as (_ & _ & _ & _ & Ea & _). rewrite Ea. cbn [mr_U mr_graph]. rewrite EU. cbn [mr_written]. eauto.
Qed.

(** C38: with sparsify=True every level with more than two vertices is a sparsification of the Kron reduction of the level before,
    with the tolerance sparsify_eps (10/sqrt(N) but at most 0.3 by default) clipped to [2/sqrt(n), 1], n the vertices kept. *)
Theorem C38_sparsified_levels G U0 levels se dm rm full re Or Gs : graph_multiresolution G U0 levels true se dm rm full re Or = Some (Ok Gs) ->
  forall i g g', nth_error Gs i = Some g -> nth_error Gs (S i) = Some g' ->
    exists Gk, kron_reduction (mr_graph g) (mr_idx g') (o_X Or i (mr_graph g)) = Ok Gk /\
      ((g_n_vertices Gk <= 2)%nat -> mr_graph g' = Gk) /\
      ((2 < g_n_vertices Gk)%nat -> exists eps, sparsify_graph Gk (o_inv Or i Gk) eps 10 (o_draw Or i Gk) (o_pops Or i Gk) = Some (Ok (mr_graph g')) /\
        let low := 2 / sqrt (INR (g_n_vertices Gk)) in let N := INR (g_n_vertices G) in
        (1 <= low -> eps = 1) /\
        (forall e, se = Some e -> low < 1 -> (e <= low -> eps = low) /\ (low <= e <= 1 -> eps = e) /\ (1 <= e -> eps = 1)) /\
        (se = None -> low < 1 -> (0.3 <= 10 / sqrt N -> eps = Rmax 0.3 low) /\ (10 / sqrt N <= 0.3 -> eps = Rmax (10 / sqrt N) low))).
Proof.
  intros H i g g' Hg Hg'. apply mr_inv in H. cbv zeta in H. destruct H as (_ & _ & C). destruct (C i g g' Hg Hg') as (c & nx & HS & (S1 & S2 & S3 & S4) & _).
  apply step_ok in HS as (V & Gk & K & _ & _ & _ & HS). cbv zeta in HS. destruct HS as (HK & Hsp & _ & _ & Ea & E1 & _).
  assert (Gc : mr_graph g = mr_graph c) by (rewrite Ea; reflexivity). exists Gk. split; [rewrite Gc, <- S2, E1; exact HK|]. cbn [andb] in Hsp. split.
  - intros L2. rewrite (proj2 (Nat.ltb_ge 2 _) L2) in Hsp. injection Hsp as Hsp. congruence.
  - intros L2. rewrite (proj2 (Nat.ltb_lt 2 _) L2) in Hsp. eexists. split; [rewrite <- S1; exact Hsp|]. intros low N. unfold mr_eps. fold low. split; [|split].
    + intros H1. apply Rmin_right. eapply Rle_trans; [exact H1|apply Rmax_r].
    + intros e -> Hl. split; [|split]; intros He.
      * rewrite Rmax_right by exact He. apply Rmin_left. lra.
      * rewrite Rmax_left by lra. apply Rmin_left. lra.
      * apply Rmin_right. eapply Rle_trans; [exact He|apply Rmax_l].
    + intros -> Hl. fold N. split; intros He.
      * rewrite (Rmin_right (10 / sqrt N)) by exact He. apply Rmin_left. apply Rmax_lub; lra.
      * rewrite (Rmin_left (10 / sqrt N)) by exact He. apply Rmin_left. apply Rmax_lub; lra.
Qed.
