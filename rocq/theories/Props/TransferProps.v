(** C111: predictions of regression_tikhonov on a graph against those on its Kron reductions and on its isolated parts. *)
From Coq Require Import Reals Lra Lia List Arith Bool String ZArith Classical.
From Verif.Base Require Import RSum Prelude LinAlg Solve.
From Verif.Spec Require Import Matrix NdArray GraphSpec Reach LapSpec LearnSpec StabSpec.
From Verif.Model Require Import Sparse Graph Traverse Filter Utils Reduction Learning.
From Verif.Proofs Require Import SparseFacts InitFacts EdgeFacts LapFacts SubgraphFacts MaxPrinciple SchurFacts TikhonovFacts TraverseFacts.
From Verif.Props Require Import Core Laplacian Traversal Caching UtilsProps ReductionProps LearningProps StabilityProps VotingProps PartProps OpsProps.
Import ListNotations.
Open Scope R_scope.
Open Scope list_scope.

(** The mask of the kept vertices. *)
Definition kept_mask (M : list bool) (v : list nat) : list bool := map (fun a => nth a M false) v.
Lemma kept_mask_length M v : List.length (kept_mask M v) = List.length v.
Proof. apply map_length. Qed.
Lemma kept_mask_nth M v i : (i < List.length v)%nat -> nth i (kept_mask M v) false = nth (nth i v 0%nat) M false.
Proof.
  intros Hi. unfold kept_mask. rewrite (nth_indep _ false (nth 0%nat M false)) by (rewrite map_length; exact Hi).
  apply (map_nth (fun a => nth a M false) v 0%nat i).
Qed.

(** What the solver's answer on a part has to do with its answer on the whole: any solution on the part, extended to a solution on the whole, is it. *)
Lemma transfer G Gp v M tau : built G -> nonneg_weights G -> g_lap_type G = Combinatorial -> covered G M ->
  let n := g_n_vertices G in let m := List.length v in List.length M = n -> g_n_vertices Gp = m -> (forall a, In a v -> (a < n)%nat) ->
  (forall y s y' s', predicts n (gL G) M (Rmax 0 tau) y s -> predicts m (gL Gp) (kept_mask M v) (Rmax 0 tau) y' s' -> (forall i, (i < m)%nat -> y' i = y (nth i v 0%nat)) ->
     exists w, predicts n (gL G) M (Rmax 0 tau) y w /\ forall i, (i < m)%nat -> w (nth i v 0%nat) = s' i) ->
  forall b y c sig sol b' y' sig' sol', columns n y c sig -> columns m y' c sig' ->
    (forall j i, (j < c)%nat -> (i < m)%nat -> sig' j i = sig j (nth i v 0%nat)) ->
    (0 < tau \/ (b = false /\ (shape y = [n] \/ c <> 1%nat)) /\ (b' = false /\ (shape y' = [m] \/ c <> 1%nat))) ->
    (forall j, (j < c)%nat -> solves G M tau (sig j) (sol j) /\ solves Gp (kept_mask M v) tau (sig' j) (sol' j)) ->
    exists x xs x' xs', regression_tikhonov G b y M tau sol = Ok x /\ columns n x c xs /\
      regression_tikhonov Gp b' y' (kept_mask M v) tau sol' = Ok x' /\ columns m x' c xs' /\
      forall j i, (j < c)%nat -> (i < m)%nat -> xs' j i = xs j (nth i v 0%nat).
Proof.
  intros Hb Hp Ht HC n m HM Hn' Hin HX b y c sig sol b' y' sig' sol' Hy Hy' Hsig Hc Hs.
  pose proof (graph_is_laplacian G Hb Hp Ht) as HL. fold n in HL. pose proof (covered_lcov G M Hb Hp Ht HC) as HC'. fold n in HC'.
  assert (HM' : List.length (kept_mask M v) = g_n_vertices Gp) by (rewrite kept_mask_length; symmetry; exact Hn').
  assert (Hc1 : 0 < tau \/ b = false /\ (shape y = [g_n_vertices G] \/ c <> 1%nat)) by (fold n; tauto).
  assert (Hc2 : 0 < tau \/ b' = false /\ (shape y' = [g_n_vertices Gp] \/ c <> 1%nat)) by (rewrite Hn'; tauto).
  destruct (regression_answer G M tau HM b y c sig sol Hy Hc1) as (x & Ex & _ & xs & Hx & Hxs).
  assert (Hy2 : columns (g_n_vertices Gp) y' c sig') by (rewrite Hn'; exact Hy').
  destruct (regression_answer Gp (kept_mask M v) tau HM' b' y' c sig' sol' Hy2 Hc2) as (x' & Ex' & _ & xs' & Hx' & Hxs').
  rewrite Hn' in Hx'. exists x, xs, x', xs'. split; [exact Ex|]. split; [exact Hx|]. split; [exact Ex'|]. split; [exact Hx'|]. intros j i Hj Hi.
  rewrite (Hxs j _ Hj), (Hxs' j i Hj). destruct (Hs j Hj) as (S1 & S2).
  pose proof (answer_predicts G M tau HM _ _ S1) as P1. pose proof (answer_predicts Gp (kept_mask M v) tau HM' _ _ S2) as P2. fold n in P1. rewrite Hn' in P2.
  destruct (HX _ _ _ _ P1 P2 (fun i Hi => Hsig j i Hj Hi)) as (w & Pw & Ew). rewrite <- (Ew i Hi).
  apply (predicts_unique n (gL G) M (Rmax 0 tau) HL HC' (Rmax_l 0 tau) _ _ _ Pw P1). apply Hin. apply nth_In. exact Hi.
Qed.

(** Kron reduction: if every labelled vertex is kept, the predictions at the kept vertices do not change. *)
Theorem C111_kron_reduction : forall G ind X Gn M tau b y c sig sol b' y' sig' sol',
  built G -> nonneg_weights G -> NoDup ind -> spsolve_ok (g_n_vertices G) (gL G) ind X -> kron_reduction G ind X = Ok Gn ->
  let n := g_n_vertices G in let m := List.length ind in
  List.length M = n -> covered G M -> (forall v, labelled M v -> In v ind) ->
  columns n y c sig -> columns m y' c sig' -> (forall j i, (j < c)%nat -> (i < m)%nat -> sig' j i = sig j (nth i ind 0%nat)) ->
  (0 < tau \/ (b = false /\ (shape y = [n] \/ c <> 1%nat)) /\ (b' = false /\ (shape y' = [m] \/ c <> 1%nat))) ->
  (forall j, (j < c)%nat -> solves G M tau (sig j) (sol j) /\ solves Gn (kept_mask M ind) tau (sig' j) (sol' j)) ->
  exists x xs x' xs', regression_tikhonov G b y M tau sol = Ok x /\ columns n x c xs /\
    regression_tikhonov Gn b' y' (kept_mask M ind) tau sol' = Ok x' /\ columns m x' c xs' /\
    forall j i, (j < c)%nat -> (i < m)%nat -> xs' j i = xs j (nth i ind 0%nat).
Proof.
  intros G ind X Gn M tau b y c sig sol b' y' sig' sol' Hb Hp Hnd HX HK n m HM HC HI Hy Hy' Hsig Hc Hs.
  assert (Hre : reaches G ind).
  { intros v Hv. destruct (HC v Hv) as (l & Hl & Ll & R). exists l. split; [apply HI; exact Ll|exact R]. }
  destruct (kron_reduction_ok G ind X Gn Hb Hp Hnd Hre HX HK) as (Ht & _ & Hin & _).
  destruct (C35_kron_graph G ind X Gn Hb Hp Hnd Hre HX HK) as (_ & Hn' & _ & _ & _ & _ & _ & Hh & Hext). fold n m in Hh, Hext. fold m in Hn'.
  refine (transfer G Gn ind M tau Hb Hp Ht HC HM Hn' Hin _ b y c sig sol b' y' sig' sol' Hy Hy' Hsig Hc Hs). fold n m.
  intros z s z' s' P1 P2 Hz. destruct (Hext s') as (w & Ew & Hw). exists w. split; [|exact Ew].
  intros a Ha. destruct (in_dec Nat.eq_dec a ind) as [Ia|Na].
  - destruct (In_nth ind a 0%nat Ia) as (i & Hi & Ei). specialize (P2 i Hi). cbv beta in P2. rewrite (kept_mask_nth M ind i Hi), Ei in P2.
    assert (E : mulv n (gL G) w a = mulv m (gL Gn) s' i).
    { rewrite <- Ei, <- (Hh w Hw i Hi). apply mulv_ext; [intros; reflexivity|]. intros k Hk. apply Ew. exact Hk. }
    rewrite E. pose proof (Ew i Hi) as Q. unfold on in Q. rewrite Ei in Q. rewrite Q, <- Ei, <- (Hz i Hi), Ei. exact P2.
  - assert (Lf : nth a M false = false) by (destruct (nth a M false) eqn:E; [exfalso; apply Na, HI; exact E|reflexivity]).
    rewrite Lf. apply Hw; assumption.
Qed.

(** No edge joins a vertex of v to another one. *)
Definition isolated_part (G : graph) (v : list nat) : Prop :=
  forall a b, In a v -> (b < g_n_vertices G)%nat -> ~ In b v -> wt G a b = 0 /\ wt G b a = 0.

(** Isolated parts, such as connected components: predictions can be made on each part separately. *)
Theorem C111_isolated_parts : forall G sel v Gp M tau b y c sig sol b' y' sig' sol',
  built G -> nonneg_weights G -> g_lap_type G = Combinatorial -> (forall co, g_coords G = Some co -> List.length co = g_n_vertices G) ->
  denotes (g_n_vertices G) sel v -> NoDup v -> subgraph G sel = Ok Gp -> isolated_part G v ->
  let n := g_n_vertices G in let m := List.length v in
  List.length M = n -> covered G M ->
  columns n y c sig -> columns m y' c sig' -> (forall j i, (j < c)%nat -> (i < m)%nat -> sig' j i = sig j (nth i v 0%nat)) ->
  (0 < tau \/ (b = false /\ (shape y = [n] \/ c <> 1%nat)) /\ (b' = false /\ (shape y' = [m] \/ c <> 1%nat))) ->
  (forall j, (j < c)%nat -> solves G M tau (sig j) (sol j) /\ solves Gp (kept_mask M v) tau (sig' j) (sol' j)) ->
  exists x xs x' xs', regression_tikhonov G b y M tau sol = Ok x /\ columns n x c xs /\
    regression_tikhonov Gp b' y' (kept_mask M v) tau sol' = Ok x' /\ columns m x' c xs' /\
    forall j i, (j < c)%nat -> (i < m)%nat -> xs' j i = xs j (nth i v 0%nat).
Proof.
  intros G sel v Gp M tau b y c sig sol b' y' sig' sol' Hb Hp Ht Hco Hd Hnd HG Hiso n m HM HC Hy Hy' Hsig Hc Hs.
  destruct (subgraph_is G sel v Gp Hb Hd Hco HG) as (Hb' & Hn' & Hw & Ht' & _). rewrite Ht in Ht'. pose proof (denotes_in _ _ _ Hd) as Hin. fold m in Hn'.
  assert (Hp' : nonneg_weights Gp).
  { intros i j Hi Hj. rewrite Hn' in Hi, Hj. rewrite Hw by assumption. apply Hp; apply Hin, nth_In; assumption. }
  pose proof (graph_is_laplacian G Hb Hp Ht) as HL. fold n in HL. pose proof (graph_is_laplacian Gp Hb' Hp' Ht') as HL'. rewrite Hn' in HL'.
  destruct (C09_combinatorial_structure G Hb Ht) as (_ & _ & O1 & _). destruct (C09_combinatorial_structure Gp Hb' Ht') as (_ & _ & O2 & _). fold n in O1. rewrite Hn' in O2.
  assert (Sep : forall a b, In a v -> (b < n)%nat -> ~ In b v -> gL G a b = 0 /\ gL G b a = 0).
  { intros a b0 Ia Hb0 Nb. pose proof (Hin a Ia) as Ha. fold n in Ha. destruct (Hiso a b0 Ia Hb0 Nb) as (W1 & W2).
    assert (a <> b0) by (intros ->; contradiction). rewrite !O1 by auto. rewrite W1, W2. split; field. }
  refine (transfer G Gp v M tau Hb Hp Ht HC HM Hn' Hin _ b y c sig sol b' y' sig' sol' Hy Hy' Hsig Hc Hs). fold n m.
  intros z s z' s' P1 P2 Hz.
  destruct (fin_choice n (fun a i => (i < m)%nat /\ nth i v 0%nat = a \/ ~ In a v) 0%nat) as (pos & Hpos).
  { intros a Ha. destruct (in_dec Nat.eq_dec a v) as [Ia|Na]; [|exists 0%nat; right; exact Na].
    destruct (In_nth v a 0%nat Ia) as (i & Hi & Ei). exists i. left. split; [exact Hi|exact Ei]. }
  pose (w := fun a => if in_dec Nat.eq_dec a v then s' (pos a) else s a).
  assert (Wv : forall i, (i < m)%nat -> w (nth i v 0%nat) = s' i).
  { intros i Hi. unfold w. assert (I : In (nth i v 0%nat) v) by (apply nth_In; exact Hi). destruct (in_dec Nat.eq_dec (nth i v 0%nat) v) as [_|N]; [|contradiction].
    destruct (Hpos _ (Hin _ I)) as [(H1 & H2)|N]; [|contradiction]. f_equal. apply (proj1 (NoDup_nth v 0%nat) Hnd); assumption. }
  exists w. split; [|exact Wv]. intros a Ha. destruct (in_dec Nat.eq_dec a v) as [Ia|Na].
  - destruct (In_nth v a 0%nat Ia) as (i & Hi & Ei). specialize (P2 i Hi). cbv beta in P2. rewrite (kept_mask_nth M v i Hi), Ei in P2.
    assert (E : mulv n (gL G) w a = mulv m (gL Gp) s' i).
    { rewrite (lap_apply n (gL G) w a HL Ha), (lap_apply m (gL Gp) s' i HL' Hi).
      rewrite (split_sum n v Hnd Hin (fun j => - gL G a j * (w a - w j))). fold m.
      rewrite (rsum_0 (List.length (setdiff n v))).
      - rewrite Rplus_0_r. apply rsum_ext. intros k Hk. rewrite <- Ei, (Wv i Hi), (Wv k Hk).
        destruct (Nat.eq_dec i k) as [->|Ne]; [ring|].
        assert (nth i v 0%nat <> nth k v 0%nat) by (intros E; apply Ne, (proj1 (NoDup_nth v 0%nat) Hnd); assumption).
        rewrite O1 by (assumption || (apply Hin, nth_In; assumption)). rewrite O2, !Hw by assumption. reflexivity.
      - intros k Hk. destruct (comp_lt n v k Hk) as (C1 & C2). rewrite (proj1 (Sep a _ Ia C1 C2)). ring. }
    rewrite E. pose proof (Wv i Hi) as Q. rewrite Ei in Q. rewrite Q, <- Ei, <- (Hz i Hi), Ei. exact P2.
  - specialize (P1 a Ha). cbv beta in P1.
    assert (E : mulv n (gL G) w a = mulv n (gL G) s a).
    { unfold mulv. apply rsum_ext. intros j Hj. unfold w. destruct (in_dec Nat.eq_dec j v) as [Ij|Nj]; [|reflexivity]. rewrite (proj2 (Sep j a Ij Ha Na)). ring. }
    rewrite E. replace (w a) with (s a); [exact P1|]. unfold w. destruct (in_dec Nat.eq_dec a v); [contradiction|reflexivity].
Qed.

(** A path of three vertices labelled 0 and 4 at its ends, and its reduction to the two ends. *)
Example C111_kron_ex : exists G X Gn, built G /\ nonneg_weights G /\ NoDup [0; 2]%nat /\ spsolve_ok (g_n_vertices G) (gL G) [0; 2]%nat X /\
  kron_reduction G [0; 2]%nat X = Ok Gn /\ covered G [true; false; true] /\ (forall v, labelled [true; false; true] v -> In v [0; 2]%nat) /\
  kept_mask [true; false; true] [0; 2]%nat = [true; true] /\
  solves G [true; false; true] 1 (fun v => nth v [0; 7; 4] 0) (fun v => nth v [1; 2; 3] 0) /\
  solves Gn [true; true] 1 (fun v => nth v [0; 4] 0) (fun v => nth v [1; 3] 0).
Proof.
  destruct (p3_graph (Some [[0]; [1]; [2]])) as (G & Hb & Hn & Ht & Hc & Hp & Hu & HC & HL).
  assert (Hre : reaches G [0; 2]%nat).
  { apply connected_reaches; [exact HC| |discriminate]. rewrite Hn. intros v [<-|[<-|[]]]; lia. }
  set (X := fun _ _ : nat => - / 2).
  assert (HX : spsolve_ok (g_n_vertices G) (gL G) [0; 2]%nat X).
  { rewrite Hn. unfold spsolve_ok. cbn. intros k j Hk Hj. destruct k as [|k]; [|lia]. destruct j as [|[|j]]; try lia;
    rewrite !HL by lia; unfold X; cbn; lra. }
  assert (Hd : is_directed (gW G) = false).
  { apply is_directed_false. destruct (built_good G Hb) as (_ & Hn' & _). rewrite <- Hn'. exact Hu. }
  assert (HK : exists Gn, kron_reduction G [0; 2]%nat X = Ok Gn).
  { unfold kron_reduction. rewrite Ht, Hd, Hn, Hc. unfold kron_matrix. cbn [forallb Nat.ltb Nat.leb andb negb bindr List.length Nat.eqb].
    match goal with |- exists _, graph_init (InDense [?m; ?m] (map Fin (dense _ ?A))) _ ?c = _ =>
      destruct (finite_entry_built m (dense m A) Combinatorial c (dense_length m A) (or_introl eq_refl)) as (G' & HG & _) end.
    exists G'. exact HG. }
  destruct HK as (Gn & HK). exists G, X, Gn.
  assert (Hnd : NoDup [0; 2]%nat) by (repeat constructor; cbn; intuition discriminate).
  destruct (kron_reduction_ok G [0; 2]%nat X Gn Hb Hp Hnd Hre HX HK) as (_ & _ & _ & _ & _ & Hn' & _ & _ & _ & HL'). cbn [List.length] in Hn', HL'.
  split; [exact Hb|]. split; [exact Hp|]. split; [exact Hnd|]. split; [exact HX|]. split; [exact HK|].
  split; [intros v Hv; exists 0%nat; split; [lia|]; split; [reflexivity|]; apply HC; lia|].
  split. { intros v Lv. unfold labelled in Lv. destruct v as [|[|[|v]]]; cbn in *; try discriminate; auto; destruct v; discriminate. }
  split; [reflexivity|]. split; (split; [intros _|lra]).
  - intros i Hi. rewrite Hn in *. unfold mulv. rewrite (rsum_ext 3 _ (fun j => nth (i * 3 + j) [1; -1; 0; -1; 2; -1; 0; -1; 1] 0 * nth j [1; 2; 3] 0)) by (intros j Hj; rewrite HL by assumption; reflexivity).
    destruct i as [|[|[|i]]]; [| | |lia]; cbn; lra.
  - intros i Hi. rewrite Hn' in *. unfold mulv. rewrite (rsum_ext 2 _ (fun j => nth (i * 2 + j) [/2; -/2; -/2; /2] 0 * nth j [1; 3] 0)).
    + destruct i as [|[|i]]; [| |lia]; cbn; lra.
    + intros j Hj. rewrite HL', Hn by assumption. f_equal. unfold schur, ixm. destruct i as [|[|i]]; try lia; destruct j as [|[|j]]; try lia; cbn; rewrite !HL by lia; cbn; unfold X; lra.
Qed.

(** An edge between two vertices, one of them labelled 5, beside a single vertex labelled 7: the edge on its own, listed backwards. *)
Example C111_parts_ex : exists G Gp, built G /\ nonneg_weights G /\ g_lap_type G = Combinatorial /\ (forall co, g_coords G = Some co -> List.length co = g_n_vertices G) /\
  denotes (g_n_vertices G) (VIdx [1; 0]%Z) [1; 0]%nat /\ NoDup [1; 0]%nat /\ subgraph G (VIdx [1; 0]%Z) = Ok Gp /\ isolated_part G [1; 0]%nat /\
  covered G [true; false; true] /\ kept_mask [true; false; true] [1; 0]%nat = [false; true] /\ wt Gp 0 1 = 1 /\
  forall tau, tau = 0 \/ tau = 1 ->
    exists s s', solves G [true; false; true] tau (fun v => nth v [5; 0; 7] 0) s /\ solves Gp [false; true] tau (fun v => nth v [0; 5] 0) s'.
Proof.
  destruct (finite_entry_built 3 [0; 1; 0; 1; 0; 0; 0; 0; 0] Combinatorial None eq_refl (or_introl eq_refl)) as (G & _ & Hb & Hn & Ht & Hc & Hw).
  assert (Hco : forall co, g_coords G = Some co -> List.length co = g_n_vertices G) by (intros co E; rewrite Hc in E; discriminate).
  assert (Hp : nonneg_weights G).
  { intros i j Hi Hj. rewrite Hn in Hi, Hj. rewrite Hw by assumption.
    destruct i as [|[|[|i]]]; try lia; destruct j as [|[|[|j]]]; try lia; cbn; lra. }
  assert (Hd : denotes (g_n_vertices G) (VIdx [1; 0]%Z) [1; 0]%nat) by (rewrite Hn; cbn; repeat constructor; lia).
  destruct (denotes_ok G _ _ Hb Hd Hco) as (Gp & HG).
  destruct (subgraph_is G _ _ Gp Hb Hd Hco HG) as (Hb' & Hn' & Hw' & Ht' & _). rewrite Ht in Ht'. cbn [List.length] in Hn', Hw'.
  exists G, Gp. split; [exact Hb|]. split; [exact Hp|]. split; [exact Ht|]. split; [exact Hco|]. split; [exact Hd|].
  assert (Hnd : NoDup [1; 0]%nat) by (repeat constructor; cbn; intuition discriminate).
  split; [exact Hnd|]. split; [exact HG|].
  split. { intros a b Ia Hb0 Nb. rewrite Hn in Hb0. destruct b as [|[|[|b]]]; try lia; try (exfalso; apply Nb; cbn; tauto).
    destruct Ia as [<- | [<- | []]]; rewrite !Hw by lia; split; reflexivity. }
  assert (HC : covered G [true; false; true]).
  { intros v Hv. rewrite Hn in *. destruct v as [|[|[|v]]]; try lia.
    - exists 0%nat. repeat split; [lia|]. apply reach_refl.
    - exists 0%nat. repeat split; [lia|]. apply reach_one. unfold has_arc. rewrite Hn, Hw by lia. cbn. repeat split; try lia; lra.
    - exists 2%nat. repeat split; [lia|]. apply reach_refl. }
  assert (HC' : covered Gp [false; true]).
  { intros v Hv. rewrite Hn' in *. destruct v as [|[|v]]; try lia.
    - exists 1%nat. repeat split; [lia|]. apply reach_one. unfold has_arc. rewrite Hn', Hw' by lia. cbn [nth]. rewrite Hw by lia. cbn. repeat split; try lia; lra.
    - exists 1%nat. repeat split; [lia|]. apply reach_refl. }
  split; [exact HC|]. split; [reflexivity|]. split; [rewrite Hw' by lia; cbn [nth]; rewrite Hw by lia; reflexivity|].
  assert (Hp' : nonneg_weights Gp).
  { intros i j Hi Hj. rewrite Hn' in Hi, Hj. rewrite Hw' by assumption. destruct i as [|[|i]]; try lia; destruct j as [|[|j]]; try lia; cbn [nth]; rewrite Hw by lia; cbn; lra. }
  intros tau [-> | ->].
  - destruct (C40_solvable G [true; false; true] (fun v => nth v [5; 0; 7] 0) Hb Hp Ht (eq_sym Hn) HC) as (s & Hs).
    destruct (C40_solvable Gp [false; true] (fun v => nth v [0; 5] 0) Hb' Hp' Ht' (eq_sym Hn') HC') as (s' & Hs').
    exists s, s'. split; (split; [lra|intros _; assumption]).
  - destruct (C39_unique_and_in_range G [true; false; true] 1 (fun v => nth v [5; 0; 7] 0) Hb Hp Ht Rlt_0_1 HC) as ((s & Hs) & _).
    destruct (C39_unique_and_in_range Gp [false; true] 1 (fun v => nth v [0; 5] 0) Hb' Hp' Ht' Rlt_0_1 HC') as ((s' & Hs') & _).
    exists s, s'. split; (split; [intros _; assumption|lra]).
Qed.
