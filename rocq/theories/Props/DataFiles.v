(** Property C81 on the files actually packaged with the library (Data/*.v, copied from pygsp/data/pointclouds
    by tools/extract_data.py): what Minnesota(), Airfoil() and Logo() return. *)
From Coq Require Import Reals Lra Lia List Arith Bool String ZArith NArith MSetPositive.
From Verif.Base Require Import RSum Prelude LinAlg.
From Verif.Spec Require Import Matrix GraphSpec Card Reach GenSpec.
From Verif.Model Require Import Sparse Graph Generators NNGraph DataGraphs.
From Verif.Proofs Require Import SparseFacts InitFacts EdgeFacts SubgraphFacts GenFacts DataFacts.
From Verif.Props Require Import Core Traversal UtilsProps GenProps NNProps DataProps.
From Verif.Data Require Import MinnesotaData AirfoilData LogoData.
Import ListNotations.
Open Scope R_scope.

(** A sparse matrix of the file as the list of entries the models take. *)
Definition entry (t : N * N * N) : nat * nat * R := ((N.to_nat (fst (fst t)), N.to_nat (snd (fst t))), IZR (Z.of_N (snd t))).
Definition npair (p : N * N) : nat * nat := (N.to_nat (fst p), N.to_nat (snd p)).

(** ** From computed facts on lists over N to graphs *)
Lemma npair_inj p q : npair p = npair q -> p = q.
Proof. destruct p as [a b], q as [c d]. unfold npair. cbn [fst snd]. intros H. apply pair_equal_spec in H. destruct H as (H1 & H2). apply N2Nat.inj in H1, H2. congruence. Qed.
Lemma npair_in l a b : In (npair (a, b)) (map npair l) <-> In (a, b) l.
Proof. split; [|apply in_map]. intros H. apply in_map_iff in H. destruct H as (q & E & Hq). apply npair_inj in E. subst q. exact Hq. Qed.
Lemma value_in l i j v : NoDup (map fst l) -> In ((i, j), v) l -> value_at (map entry l) (N.to_nat i) (N.to_nat j) = IZR (Z.of_N v).
Proof.
  induction l as [|[[a b] w] l IH]; intros Hn Hin; [destruct Hin|]. cbn [map fst] in Hn. inversion Hn as [|? ? Hni Hnd]; subst.
  change (value_at (map entry (((a, b), w) :: l)) (N.to_nat i) (N.to_nat j)) with (value_at (entry ((a, b), w) :: map entry l) (N.to_nat i) (N.to_nat j)).
  unfold value_at, coo_here. cbn [filter fst snd entry]. destruct Hin as [E|Hin].
  - injection E as -> -> ->. rewrite !Nat.eqb_refl. cbn [andb map snd]. rewrite lsum_cons.
    assert (Z : value_at (map entry l) (N.to_nat i) (N.to_nat j) = 0).
    { apply value_notin. intros H. apply Hni. rewrite map_map in H. apply in_map_iff in H. destruct H as ([[c d] x] & E & H). apply in_map_iff. exists (c, d, x).
      split; [|exact H]. cbn [entry fst snd] in *. apply (npair_inj (c, d) (i, j)). exact E. }
    unfold value_at, coo_here in Z. rewrite Z. cbn [entry snd]. ring.
  - assert (Q : (Nat.eqb (N.to_nat a) (N.to_nat i) && Nat.eqb (N.to_nat b) (N.to_nat j))%bool = false).
    { destruct (Nat.eqb_spec (N.to_nat a) (N.to_nat i)) as [E1|], (Nat.eqb_spec (N.to_nat b) (N.to_nat j)) as [E2|]; try reflexivity.
      apply N2Nat.inj in E1, E2. subst. exfalso. apply Hni. apply (in_map fst) in Hin. exact Hin. }
    rewrite Q. apply IH; assumption.
Qed.
Lemma value_out l i j : ~ In (N.of_nat i, N.of_nat j) (map fst l) -> value_at (map entry l) i j = 0.
Proof.
  intros H. apply value_notin. intros K. apply H. rewrite map_map in K. apply in_map_iff in K. destruct K as ([[c d] x] & E & K).
  cbn [entry fst snd] in E. apply pair_equal_spec in E. destruct E as (<- & <-). rewrite !N2Nat.id. apply (in_map fst) in K. exact K.
Qed.
Lemma value_cases l i j : NoDup (map fst l) -> value_at (map entry l) i j = 0 /\ ~ In (N.of_nat i, N.of_nat j) (map fst l) \/
  exists v, In ((N.of_nat i, N.of_nat j), v) l /\ value_at (map entry l) i j = IZR (Z.of_N v).
Proof.
  intros Hn. assert (D : forall p q : N * N, {p = q} + {p <> q}) by (intros [a b] [c d]; destruct (N.eq_dec a c) as [->|]; [destruct (N.eq_dec b d) as [->|]; [left; reflexivity|]|]; right; congruence).
  destruct (in_dec D (N.of_nat i, N.of_nat j) (map fst l)) as [H|H].
  - right. apply in_map_iff in H. destruct H as ([[c d] v] & E & H). cbn [fst] in E. injection E as -> ->. exists v. split; [exact H|].
    rewrite <- (value_in _ _ _ _ Hn H), !Nat2N.id. reflexivity.
  - left. split; [apply value_out; exact H|exact H].
Qed.
(** Edges of an undirected graph without self-loop, counted through the list of its arcs. *)
Lemma arcs_counted G l : built G -> undirected G -> NoDup l -> (forall i j, In (i, j) l -> In (j, i) l) -> (forall i, ~ In (i, i) l) ->
  (forall i j, In (i, j) l <-> (i < g_n_vertices G)%nat /\ (j < g_n_vertices G)%nat /\ wt G i j <> 0) -> (2 * g_n_edges G)%nat = List.length l.
Proof.
  intros Hb Hu Hnd Hs Hi Hin. rewrite <- (half_pairs l Hnd Hs Hi). f_equal. apply edges_listed; [exact Hb|exact Hu|apply NoDup_filter; exact Hnd|].
  intros i j. rewrite filter_In, Hin. cbn [fst snd]. rewrite Nat.ltb_lt. split; [intros ((H1 & H2 & H3) & H4); repeat split; assumption || lia|].
  intros (H1 & H2 & H3). split; [repeat split; assumption || lia|]. assert (i <> j); [|lia]. intros ->. apply (Hi j), Hin. repeat split; assumption.
Qed.
Lemma nreach_reach G (E : N -> N -> Prop) r v : (forall a b, E a b -> has_arc G (N.to_nat a) (N.to_nat b)) -> nreach E r v -> reach (has_arc G) (N.to_nat r) (N.to_nat v).
Proof. intros HE R. induction R as [u|u a b R IH Hab]; [apply reach_refl|]. apply (reach_step _ _ (N.to_nat a)); [exact IH|apply HE, Hab]. Qed.
(** A list of pairs that is symmetric and has no loop. *)
Definition sym_loopless (s : PositiveSet.t) (l : list (N * N)) : bool := forallb (fun p => (PositiveSet.mem (pkey (swap p)) s && negb (N.eqb (fst p) (snd p)))%bool) l.
Lemma sym_loopless_spec n s l : pair_set n l = Some s -> sym_loopless s l = true -> (forall a b, In (a, b) l -> In (b, a) l) /\ forall a, ~ In (a, a) l.
Proof.
  intros Hs H. destruct (pair_set_spec _ _ _ Hs) as (_ & _ & R & M). unfold sym_loopless in H. rewrite forallb_forall in H. split.
  - intros a b Hab. specialize (H _ Hab). apply andb_true_iff in H. destruct H as (H & _). destruct (R _ Hab) as (H1 & H2). apply (M (b, a)); assumption.
  - intros a Ha. specialize (H _ Ha). cbn [fst snd] in H. rewrite N.eqb_refl, andb_false_r in H. discriminate.
Qed.
Lemma nodup_npair l : NoDup l -> NoDup (map npair l).
Proof. intros H. apply FinFun.Injective_map_NoDup; [intros p q; apply npair_inj|exact H]. Qed.
Lemma of_nat_to_nat_lt i n : (i < N.to_nat n)%nat <-> (N.of_nat i < n)%N.
Proof. lia. Qed.

(** A graph whose arcs are the pairs of a list: everything the checks give. *)
Lemma listed_graph n l s G : pair_set n l = Some s -> sym_loopless s l = true -> built G -> g_n_vertices G = N.to_nat n -> undirected G ->
  (forall i j, (i < N.to_nat n)%nat -> (j < N.to_nat n)%nat -> wt G i j <> 0 <-> In (N.of_nat i, N.of_nat j) l) ->
  loop_free G /\ (2 * g_n_edges G)%nat = List.length l /\ (forall root tree, spans n s root tree = true -> connected G).
Proof.
  intros Hs Hy Hb Hn Hu HW. destruct (pair_set_spec _ _ _ Hs) as (_ & Hnd & R & M). destruct (sym_loopless_spec _ _ _ Hs Hy) as (Y & L).
  assert (A : forall a b, In (a, b) l <-> has_arc G (N.to_nat a) (N.to_nat b)).
  { intros a b. unfold has_arc. rewrite Hn. split.
    - intros H. destruct (R _ H) as (H1 & H2). cbn [fst snd] in *. split; [lia|]. split; [lia|]. apply HW; [lia|lia|]. rewrite !N2Nat.id. exact H.
    - intros (H1 & H2 & H3). apply HW in H3; [|exact H1|exact H2]. rewrite !N2Nat.id in H3. exact H3. }
  split; [|split].
  - intros i Hi. rewrite Hn in Hi. destruct (Req_dec (wt G i i) 0) as [E|E]; [exact E|]. apply HW in E; [|assumption..]. exfalso. exact (L _ E).
  - rewrite (arcs_counted G (map npair l)); [apply map_length|exact Hb|exact Hu|apply nodup_npair, Hnd| | |].
    + intros i j H. apply in_map_iff in H. destruct H as ([a b] & E & H). injection E as <- <-. apply (npair_in l b a), Y, H.
    + intros i H. apply in_map_iff in H. destruct H as ([a b] & E & H). injection E as <- E2. apply N2Nat.inj in E2. subst b. exact (L _ H).
    + intros i j. rewrite <- (Nat2N.id i), <- (Nat2N.id j). rewrite (npair_in l (N.of_nat i) (N.of_nat j)). apply A.
  - intros root tree HT. apply (rooted_connected G (N.to_nat root) Hu). rewrite Hn. intros v Hv.
    rewrite <- (Nat2N.id v). apply (nreach_reach G (fun a b => In (a, b) l)); [intros a b H; apply A, H|].
    apply (spans_spec n s (fun a b => In (a, b) l) root tree); [|exact HT|lia].
    intros [a b] H1 H2 H. cbn [fst snd] in *. apply (M (a, b)) in H; [|assumption..]. split; [exact H|apply Y, H].
Qed.

(** ** Minnesota *)
Definition minnesota_pairs : list (N * N) := map fst minnesota_A.
Definition minnesota_all : list (N * N) := ((348, 354) :: (354, 348) :: minnesota_pairs)%N.
Definition minnesota_file : list (nat * nat * R) := map entry minnesota_A.
Definition minnesota_check : bool :=
  match pair_set 2642 minnesota_all with
  | Some s => (sym_loopless s minnesota_all && spans 2642 s 354 minnesota_tree && forallb (fun t => N.ltb 0 (snd t)) minnesota_A && N.eqb (N.of_nat (List.length minnesota_all)) 6608)%bool
  | None => false
  end.
Lemma minnesota_checked : minnesota_check = true.
Proof. vm_compute. reflexivity. Qed.

Lemma pair_set_tail n p l s : pair_set n (p :: l) = Some s -> exists s', pair_set n l = Some s'.
Proof.
  intros H. pose proof (pair_set_spec _ _ _ H) as (_ & Hnd & _ & _). unfold pair_set, set_of in *. cbn [forallb collect] in H. destruct ((n <=? width)%N); [|discriminate].
  cbn [andb] in *. destruct (below n p); [|discriminate]. cbn [andb] in H. destruct (forallb (below n) l); [|discriminate].
  destruct (PositiveSet.mem (pkey p) PositiveSet.empty); [discriminate|].
  assert (K : forall t u, (forall k, PositiveSet.mem k t = true -> PositiveSet.mem k u = true) -> forall r, collect pkey l u = Some r -> exists r', collect pkey l t = Some r').
  { clear. induction l as [|q l IH]; intros t u Htu r E; cbn [collect] in *; [eexists; reflexivity|].
    destruct (PositiveSet.mem (pkey q) u) eqn:Q; [discriminate|]. destruct (PositiveSet.mem (pkey q) t) eqn:Qt; [specialize (Htu _ Qt); congruence|].
    apply (IH (PositiveSet.add (pkey q) t) (PositiveSet.add (pkey q) u)) with (2 := E). intros k. rewrite !PositiveSet.mem_spec, !PositiveSet.add_spec, <- !PositiveSet.mem_spec.
    intros [Hk|Hk]; [left; exact Hk|right; apply Htu, Hk]. }
  apply (K _ (PositiveSet.add (pkey p) PositiveSet.empty)) with (2 := H). intros k. rewrite empty_mem. discriminate.
Qed.
Lemma minnesota_facts : exists s, pair_set 2642 minnesota_all = Some s /\ sym_loopless s minnesota_all = true /\ spans 2642 s 354 minnesota_tree = true /\
  (forall t, In t minnesota_A -> (0 < snd t)%N) /\ List.length minnesota_all = N.to_nat 6608 /\ NoDup (map fst minnesota_A) /\ in_file (N.to_nat 2642) minnesota_file /\
  (forall i j, 0 < value_at minnesota_file i j <-> In (N.of_nat i, N.of_nat j) minnesota_pairs).
Proof.
  pose proof minnesota_checked as C. unfold minnesota_check in C. destruct (pair_set 2642 minnesota_all) as [s|] eqn:S; [|discriminate].
  rewrite !andb_true_iff in C. destruct C as (((C1 & C2) & C3) & C4). exists s. split; [reflexivity|]. split; [exact C1|]. split; [exact C2|].
  assert (P : forall t, In t minnesota_A -> (0 < snd t)%N) by (intros t Ht; rewrite forallb_forall in C3; apply N.ltb_lt, C3, Ht).
  apply N.eqb_eq in C4. destruct (pair_set_spec _ _ _ S) as (_ & Hnd & R & _).
  assert (Hnd' : NoDup (map fst minnesota_A)) by (inversion Hnd as [|? ? _ H]; inversion H; assumption).
  split; [exact P|]. split; [rewrite <- C4, Nat2N.id; reflexivity|]. split; [exact Hnd'|]. split.
  - intros t Ht. unfold minnesota_file in Ht. apply in_map_iff in Ht. destruct Ht as ([[a b] v] & <- & Ht). cbn [entry fst snd].
    destruct (R (a, b)) as (R1 & R2); [right; right; apply (in_map fst) in Ht; exact Ht|]. cbn [fst snd] in *. lia.
  - intros i j. unfold minnesota_file. destruct (value_cases minnesota_A i j Hnd') as [(E & H)|(v & H & E)]; rewrite E.
    + split; [lra|intros K; contradiction].
    + specialize (P _ H). cbn [snd] in P. split; [intros _; apply (in_map fst) in H; exact H|]. intros _. apply IZR_lt. lia.
Qed.

(** Minnesota(): 2642 vertices, 3304 edges of weight one, undirected, no self-loop, connected. *)
Theorem C81_minnesota_file xy lap : valid_lap lap ->
  exists G, Minnesota (N.to_nat 2642) minnesota_file xy true lap = Ok G /\ g_n_vertices G = N.to_nat 2642 /\ g_n_edges G = N.to_nat 3304 /\
    undirected G /\ loop_free G /\ connected G /\ forall i j, (i < N.to_nat 2642)%nat -> (j < N.to_nat 2642)%nat -> wt G i j = 0 \/ wt G i j = 1.
Proof.
  intros Hl. destruct minnesota_facts as (s & S & Y & T & P & Len & Hnd & Hin & Hv).
  destruct (C81_minnesota (N.to_nat 2642) minnesota_file xy lap Hl Hin ltac:(lia)) as (G & E & HU & _).
  assert (HU2 : unit_graph G (N.to_nat 2642) (fun i j => In (N.of_nat i, N.of_nat j) minnesota_all)).
  { apply (unit_graph_iff _ _ _ _) with (2 := HU). intros i j Hi Hj. rewrite Hv. unfold minnesota_all. cbn [In]. unfold bridge. split.
    - intros [[(-> & ->)|(-> & ->)]|H]; [left|right; left|right; right; exact H]; reflexivity.
    - intros [H|[H|H]]; [| |right; exact H]; apply pair_equal_spec in H; lia. }
  assert (D : forall i j, {In (N.of_nat i, N.of_nat j) minnesota_all} + {~ In (N.of_nat i, N.of_nat j) minnesota_all}).
  { intros i j. apply in_dec. intros [a b] [c d]; destruct (N.eq_dec a c) as [->|]; [destruct (N.eq_dec b d) as [->|]; [left; reflexivity|]|]; right; congruence. }
  destruct (sym_loopless_spec _ _ _ S Y) as (Ys & _).
  assert (Hu : undirected G) by (apply (unit_undirected G (N.to_nat 2642) _ D); [intros i j _ _ H; apply Ys, H|exact HU2]).
  destruct HU2 as (Hb & Hn & Hw). destruct (listed_graph _ _ s G S Y Hb Hn Hu) as (L1 & L2 & L3).
  { intros i j Hi Hj. destruct (Hw i j Hi Hj) as (W1 & W0). split; [intros H; destruct (D i j) as [K|K]; [exact K|rewrite (W0 K) in H; contradiction]|]. intros H. rewrite (W1 H). apply R1_neq_R0. }
  exists G. split; [exact E|]. split; [exact Hn|]. split; [lia|]. split; [exact Hu|]. split; [exact L1|]. split; [apply (L3 _ _ T)|].
  intros i j Hi Hj. destruct (Hw i j Hi Hj) as (W1 & W0). destruct (D i j) as [K|K]; [right; apply W1, K|left; apply W0, K].
Qed.

(** Minnesota(connected=False): not connected, and eight entries have weight two. *)
Definition two_component (v : N) : bool := (N.eqb v 347 || N.eqb v 348)%bool.
Definition minnesota_raw_check : bool :=
  (forallb (fun t => negb (two_component (fst (fst t))) || two_component (snd (fst t))) minnesota_A &&
   forallb (fun t => N.leb (snd t) 2) minnesota_A && N.eqb (N.of_nat (List.length (filter (fun t => N.eqb (snd t) 2) minnesota_A))) 8)%bool.
Lemma minnesota_raw_checked : minnesota_raw_check = true.
Proof. vm_compute. reflexivity. Qed.
Theorem C81_minnesota_file_raw xy lap : valid_lap lap ->
  exists G, Minnesota (N.to_nat 2642) minnesota_file xy false lap = Ok G /\ g_n_vertices G = N.to_nat 2642 /\ ~ connected G /\
    (forall i j, (i < N.to_nat 2642)%nat -> (j < N.to_nat 2642)%nat -> wt G i j = 0 \/ wt G i j = 1 \/ wt G i j = 2) /\
    card (fun p => (fst p < N.to_nat 2642)%nat /\ (snd p < N.to_nat 2642)%nat /\ wt G (fst p) (snd p) = 2) 8.
Proof.
  intros Hl. destruct minnesota_facts as (s & S & Y & T & P & Len & Hnd & Hin & Hv). pose proof minnesota_raw_checked as C. unfold minnesota_raw_check in C.
  rewrite !andb_true_iff, N.eqb_eq, !forallb_forall in C. destruct C as ((C1 & C2) & C3).
  destruct (C81_minnesota_raw (N.to_nat 2642) minnesota_file xy lap Hl Hin) as (G & E & Hb & Hn & _ & Hw). exists G. split; [exact E|]. split; [exact Hn|]. split; [|split].
  - intros K. assert (R : reach (has_arc G) (N.to_nat 348) (N.to_nat 354)) by (apply K; rewrite Hn; lia).
    assert (Q : forall u v, reach (has_arc G) u v -> two_component (N.of_nat u) = true -> two_component (N.of_nat v) = true).
    { intros u v H. induction H as [u|u a b H IH Hab]; intros Hu; [exact Hu|]. specialize (IH Hu). destruct Hab as (Ha & Hbb & Hne). rewrite Hn in *. rewrite Hw in Hne by assumption.
      unfold minnesota_file in Hne. destruct (value_cases minnesota_A a b Hnd) as [(Ev & _)|(v & Hv' & _)]; [rewrite Ev in Hne; contradiction|].
      specialize (C1 _ Hv'). cbn [fst snd] in C1. rewrite IH in C1. exact C1. }
    specialize (Q _ _ R). rewrite !N2Nat.id in Q. specialize (Q eq_refl). discriminate.
  - intros i j Hi Hj. rewrite Hw by assumption. unfold minnesota_file. destruct (value_cases minnesota_A i j Hnd) as [(Ev & _)|(v & Hv' & Ev)]; rewrite Ev; [left; reflexivity|].
    specialize (P _ Hv'). specialize (C2 _ Hv'). cbn [snd] in *. apply N.leb_le in C2. assert (v = 1 \/ v = 2)%N as [-> | ->] by lia; [right; left; reflexivity|right; right; reflexivity].
  - exists (map (fun t => npair (fst t)) (filter (fun t => N.eqb (snd t) 2) minnesota_A)). split; [|split].
    + rewrite <- map_map. apply nodup_npair. clear - Hnd. induction minnesota_A as [|t l IH]; [constructor|]. cbn [map] in Hnd. inversion Hnd as [|? ? H1 H2]; subst.
      cbn [filter]. destruct (N.eqb (snd t) 2); [|apply IH, H2]. cbn [map]. constructor; [|apply IH, H2]. intros K. apply H1. apply in_map_iff in K. destruct K as (u & Eu & Ku). apply filter_In in Ku. rewrite <- Eu. apply in_map. apply Ku.
    + intros [i j]. cbn [fst snd]. rewrite in_map_iff. split.
      * intros ([[a b] v] & E2 & H). apply filter_In in H. destruct H as (H & Q). cbn [fst snd] in *. apply N.eqb_eq in Q. subst v. unfold npair in E2. cbn [fst snd] in E2. injection E2 as <- <-.
        pose proof (Hin _ (in_map entry _ _ H)) as (H1 & H2). cbn [entry fst snd] in H1, H2. split; [exact H1|]. split; [exact H2|]. rewrite Hw by assumption. unfold minnesota_file. rewrite (value_in _ _ _ _ Hnd H). reflexivity.
      * intros (Hi & Hj & H). rewrite Hw in H by assumption. unfold minnesota_file in H. destruct (value_cases minnesota_A i j Hnd) as [(Ev & _)|(v & Hv' & Ev)]; rewrite Ev in H; [lra|].
        apply eq_IZR in H. assert (v = 2%N) by lia. subst v. exists (N.of_nat i, N.of_nat j, 2%N). split; [unfold npair; cbn [fst snd]; rewrite !Nat2N.id; reflexivity|].
        apply filter_In. split; [exact Hv'|reflexivity].
    + rewrite map_length. lia.
Qed.

(** ** Airfoil *)
Definition firsts (l : list (N * N)) : list Z := map (fun p => Z.of_N (fst p)) l.
Definition seconds (l : list (N * N)) : list Z := map (fun p => Z.of_N (snd p)) l.
Definition airfoil_i : list Z := firsts airfoil_pairs.
Definition airfoil_j : list Z := seconds airfoil_pairs.
(** the pairs counted from 0 *)
Definition from_0 (l : list (N * N)) : list (N * N) := map (fun p => (N.pred (fst p), N.pred (snd p))) l.
Definition airfoil_check (n m : N) (pairs tree : list (N * N)) : bool :=
  match pair_set n (from_0 pairs) with
  | Some s => (forallb (fun p => N.ltb 0 (fst p) && N.ltb 0 (snd p))%bool pairs && forallb (fun p => negb (PositiveSet.mem (pkey (swap p)) s)) (from_0 pairs) &&
               spans n s 0 tree && N.eqb (N.of_nat (List.length pairs)) m)%bool
  | None => false
  end.
Lemma combine_maps {A B C} (f : A -> B) (g : A -> C) l : combine (map f l) (map g l) = map (fun x => (f x, g x)) l.
Proof. induction l as [|a l IH]; [reflexivity|]. cbn. rewrite IH. reflexivity. Qed.

Lemma airfoil_graph n m pairs tree xy lap : airfoil_check n m pairs tree = true -> valid_lap lap ->
  exists G, Airfoil (N.to_nat n) (N.to_nat m) (firsts pairs) (seconds pairs) xy lap = Ok G /\ g_n_vertices G = N.to_nat n /\ g_n_edges G = N.to_nat m /\
    undirected G /\ loop_free G /\ connected G /\ forall i j, (i < N.to_nat n)%nat -> (j < N.to_nat n)%nat -> wt G i j = 0 \/ wt G i j = 1 / 2.
Proof.
  intros C Hl. unfold airfoil_check in C. destruct (pair_set n (from_0 pairs)) as [s|] eqn:Sp; [|discriminate].
  rewrite !andb_true_iff, N.eqb_eq, !forallb_forall in C. destruct C as (((C1 & C2) & C3) & C4). destruct (pair_set_spec _ _ _ Sp) as (_ & Hnd & R & M).
  assert (EC : combine (firsts pairs) (seconds pairs) = map (fun p => (Z.of_N (fst p), Z.of_N (snd p))) pairs) by apply combine_maps.
  assert (Pos : forall a b, In (a, b) pairs -> (0 < a)%N /\ (0 < b)%N) by (intros a b H; specialize (C1 _ H); cbn [fst snd] in C1; apply andb_true_iff in C1; rewrite !N.ltb_lt in C1; exact C1).
  assert (I0 : forall a b, In (a, b) (from_0 pairs) <-> In (Z.of_N a + 1, Z.of_N b + 1)%Z (combine (firsts pairs) (seconds pairs))).
  { intros a b. rewrite EC. unfold from_0. rewrite !in_map_iff. split; intros ([c d] & E & H); exists (c, d); (split; [|exact H]); cbn [fst snd] in *; destruct (Pos _ _ H); apply pair_equal_spec in E; f_equal; lia. }
  assert (Rg : forall a b, In (a, b) (combine (firsts pairs) (seconds pairs)) -> (1 <= a <= Z.of_nat (N.to_nat n))%Z /\ (1 <= b <= Z.of_nat (N.to_nat n))%Z).
  { intros a b H. rewrite EC in H. apply in_map_iff in H. destruct H as ([c d] & E & H). destruct (Pos _ _ H). apply pair_equal_spec in E. destruct E as (<- & <-).
    destruct (R (N.pred c, N.pred d)) as (R1 & R2); [unfold from_0; apply in_map_iff; exists (c, d); split; [reflexivity|exact H]|]. cbn [fst snd] in *. lia. }
  assert (Hnd2 : NoDup (combine (firsts pairs) (seconds pairs))).
  { rewrite EC. apply FinFun.Injective_map_NoDup; [|apply (NoDup_of_map _ _ Hnd)]. intros [a b] [c d] E. cbn [fst snd] in E. apply pair_equal_spec in E. f_equal; lia. }
  assert (Hna : forall a b, In (a, b) (combine (firsts pairs) (seconds pairs)) -> ~ In (b, a) (combine (firsts pairs) (seconds pairs))).
  { intros a b H K. pose proof (Rg _ _ H) as (Ra & Rb). assert (H' : In (Z.to_N (a - 1), Z.to_N (b - 1)) (from_0 pairs)) by (apply I0; replace (Z.of_N (Z.to_N (a - 1)) + 1)%Z with a by lia; replace (Z.of_N (Z.to_N (b - 1)) + 1)%Z with b by lia; exact H).
    assert (K' : In (Z.to_N (b - 1), Z.to_N (a - 1)) (from_0 pairs)) by (apply I0; replace (Z.of_N (Z.to_N (a - 1)) + 1)%Z with a by lia; replace (Z.of_N (Z.to_N (b - 1)) + 1)%Z with b by lia; exact K).
    specialize (C2 _ H'). destruct (R _ K') as (Q1 & Q2). apply (M _ Q1 Q2) in K'. unfold swap in C2. cbn [fst snd] in C2. rewrite K' in C2. discriminate C2. }
  destruct (proj2 (proj1 (C81_airfoil_accepts (N.to_nat n) (N.to_nat m) (firsts pairs) (seconds pairs) xy lap Hl))) as (G & E).
  { split; [unfold firsts; rewrite map_length; lia|]. split; [unfold seconds; rewrite map_length; lia|exact Rg]. }
  destruct (C81_airfoil _ _ _ _ _ _ _ Hl E) as (Hb & Hn & _ & Hu & _). destruct (C81_airfoil_simple _ _ _ _ _ _ _ Hl E Hnd2 Hna) as (Hlf & He & HV).
  exists G. split; [exact E|]. split; [exact Hn|]. split; [exact He|]. split; [exact Hu|]. split; [exact Hlf|].
  assert (D : forall p, {In p (combine (firsts pairs) (seconds pairs))} + {~ In p (combine (firsts pairs) (seconds pairs))}) by (intros; apply (in_dec zpair_dec)).
  split.
  - apply (rooted_connected G (N.to_nat 0) Hu). rewrite Hn. intros v Hv. rewrite <- (Nat2N.id v).
    apply (nreach_reach G (fun a b => (a < n)%N /\ (b < n)%N /\ (In (a, b) (from_0 pairs) \/ In (b, a) (from_0 pairs)))).
    + intros a b (Ha & Hb2 & H). unfold has_arc. rewrite Hn. split; [lia|]. split; [lia|]. rewrite (proj1 (HV (N.to_nat a) (N.to_nat b) ltac:(lia) ltac:(lia))); [apply Rgt_not_eq; lra|].
      rewrite !N_nat_Z. rewrite <- !I0. exact H.
    + apply (spans_spec n s _ 0 tree); [|exact C3|lia]. intros [a b] H1 H2 H. cbn [fst snd] in *. apply (M (a, b) H1 H2) in H. tauto.
  - intros i j Hi Hj. destruct (HV i j Hi Hj) as (V1 & V0). destruct (D (Z.of_nat i + 1, Z.of_nat j + 1)%Z) as [Q|Q]; [right; apply V1; tauto|].
    destruct (D (Z.of_nat j + 1, Z.of_nat i + 1)%Z) as [Q'|Q']; [right; apply V1; tauto|left; apply V0; tauto].
Qed.

(** Airfoil(): 4253 vertices, 12289 edges of weight one half, undirected, no self-loop, connected. *)
Lemma airfoil_checked : airfoil_check 4253 12289 airfoil_pairs airfoil_tree = true.
Proof. vm_compute. reflexivity. Qed.
Theorem C81_airfoil_file xy lap : valid_lap lap ->
  exists G, Airfoil (N.to_nat 4253) (N.to_nat 12289) airfoil_i airfoil_j xy lap = Ok G /\ g_n_vertices G = N.to_nat 4253 /\ g_n_edges G = N.to_nat 12289 /\
    undirected G /\ loop_free G /\ connected G /\ forall i j, (i < N.to_nat 4253)%nat -> (j < N.to_nat 4253)%nat -> wt G i j = 0 \/ wt G i j = 1 / 2.
Proof. apply (airfoil_graph 4253 12289 airfoil_pairs airfoil_tree xy lap airfoil_checked). Qed.

(** ** Logo *)
Definition logo_file : list (nat * nat * R) := map entry logo_W.
Definition logo_check (n m : N) (W : list (N * N * N)) (tree : list (N * N)) (g s p : list N) : bool :=
  match pair_set n (map fst W), set_of vkey (g ++ s ++ p) with
  | Some ss, Some t => (sym_loopless ss (map fst W) && spans n ss 0 tree && forallb (fun t => N.eqb (snd t) 1) W &&
      N.eqb (N.of_nat (List.length W)) (2 * m) && forallb (fun v => PositiveSet.mem (vkey v) t) (from 1 (N.to_nat n)) &&
      forallb (fun v => N.leb 1 v && N.leb v n)%bool (g ++ s ++ p))%bool
  | _, _ => false
  end.

Lemma logo_graph n m W tree g s p coords lap : logo_check n m W tree g s p = true -> valid_lap lap ->
  exists G ig is ip, Logo (N.to_nat n) (map entry W) coords (map Z.of_N g) (map Z.of_N s) (map Z.of_N p) lap = Ok (G, (ig, is, ip)) /\
    g_n_vertices G = N.to_nat n /\ g_n_edges G = N.to_nat m /\ undirected G /\ loop_free G /\ connected G /\
    (forall i j, (i < N.to_nat n)%nat -> (j < N.to_nat n)%nat -> wt G i j = 0 \/ wt G i j = 1) /\
    NoDup (ig ++ is ++ ip) /\ forall v, In v (ig ++ is ++ ip) <-> (0 <= v < Z.of_N n)%Z.
Proof.
  intros C Hl. unfold logo_check in C. destruct (pair_set n (map fst W)) as [ss|] eqn:Sp; [|discriminate].
  destruct (set_of vkey (g ++ s ++ p)) as [t|] eqn:St; [|discriminate].
  rewrite !andb_true_iff, N.eqb_eq in C. destruct C as (((((C1 & C2) & C3) & C4) & C5) & C6). rewrite !forallb_forall in C3, C5, C6.
  destruct (pair_set_spec _ _ _ Sp) as (_ & Hnd & R & _). destruct (sym_loopless_spec _ _ _ Sp C1) as (Y & _).
  assert (Hin : in_file (N.to_nat n) (map entry W)).
  { intros e He. apply in_map_iff in He. destruct He as ([[a b] v] & <- & He). cbn [entry fst snd]. destruct (R (a, b)) as (R1 & R2); [apply (in_map fst) in He; exact He|]. cbn [fst snd] in *. lia. }
  assert (V : forall i j, value_at (map entry W) i j = 0 /\ ~ In (N.of_nat i, N.of_nat j) (map fst W) \/ value_at (map entry W) i j = 1 /\ In (N.of_nat i, N.of_nat j) (map fst W)).
  { intros i j. destruct (value_cases W i j Hnd) as [H|(v & H & E)]; [left; exact H|right]. pose proof (C3 _ H) as Q. cbn [snd] in Q. apply N.eqb_eq in Q. subst v.
    split; [exact E|]. apply (in_map fst) in H. exact H. }
  unfold Logo. destruct (init_coo (N.to_nat n) (map entry W) lap (Some coords) Hin Hl) as (G & E & Hb & Hn & _ & Hc & _ & Hw). unfold value_at in V.
  rewrite E. cbn [bindr]. exists G. do 3 eexists. split; [reflexivity|].
  assert (Hu : undirected G).
  { intros i j Hi Hj. rewrite Hn in *. rewrite !Hw by assumption. destruct (V i j) as [(-> & H)|(-> & H)], (V j i) as [(-> & H')|(-> & H')]; try reflexivity; exfalso; [apply H, Y, H'|apply H', Y, H]. }
  destruct (listed_graph n (map fst W) ss G Sp C1 Hb Hn Hu) as (L1 & L2 & L3).
  { intros i j Hi Hj. rewrite Hw by assumption. destruct (V i j) as [(-> & H)|(-> & H)]; split; intros K; try contradiction; try exact H. apply R1_neq_R0. }
  split; [exact Hn|]. split; [rewrite map_length in L2; lia|]. split; [exact Hu|]. split; [exact L1|]. split; [apply (L3 _ _ C2)|].
  split; [intros i j Hi Hj; rewrite Hw by assumption; destruct (V i j) as [(-> & _)|(-> & _)]; tauto|].
  rewrite !map_map, <- !map_app. destruct (collect_spec _ _ _ _ St) as (Nk & _ & Mk). split.
  - apply FinFun.Injective_map_NoDup; [intros a b H; lia|]. apply (NoDup_of_map _ _ Nk).
  - intros v. rewrite in_map_iff. split.
    + intros (a & <- & Ha). specialize (C6 _ Ha). apply andb_true_iff in C6. rewrite !N.leb_le in C6. lia.
    + intros Hv. exists (Z.to_N (v + 1)). split; [lia|]. assert (K : In (Z.to_N (v + 1)) (from 1 (N.to_nat n))) by (apply from_in; lia).
      specialize (C5 _ K). apply Mk in C5. rewrite empty_mem in C5. destruct C5 as [C5|C5]; [discriminate C5|]. apply in_map_iff in C5. destruct C5 as (w & Ew & Hw'). apply vkey_inj in Ew. rewrite <- Ew. exact Hw'.
Qed.

(** Logo(): 1130 vertices, 3131 edges of weight one, undirected, no self-loop, connected; the three index
    lists of info share the vertices out, each vertex in exactly one. *)
Lemma logo_checked : logo_check 1130 3131 logo_W logo_tree logo_idx_g logo_idx_s logo_idx_p = true.
Proof. vm_compute. reflexivity. Qed.
Theorem C81_logo_file coords lap : valid_lap lap ->
  exists G ig is ip, Logo (N.to_nat 1130) logo_file coords (map Z.of_N logo_idx_g) (map Z.of_N logo_idx_s) (map Z.of_N logo_idx_p) lap = Ok (G, (ig, is, ip)) /\
    g_n_vertices G = N.to_nat 1130 /\ g_n_edges G = N.to_nat 3131 /\ undirected G /\ loop_free G /\ connected G /\
    (forall i j, (i < N.to_nat 1130)%nat -> (j < N.to_nat 1130)%nat -> wt G i j = 0 \/ wt G i j = 1) /\
    NoDup (ig ++ is ++ ip) /\ forall v, In v (ig ++ is ++ ip) <-> (0 <= v < 1130)%Z.
Proof. apply (logo_graph 1130 3131 logo_W logo_tree logo_idx_g logo_idx_s logo_idx_p coords lap logo_checked). Qed.
