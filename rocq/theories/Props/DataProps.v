(** Property C81: the graphs built from data files, for every content of the file. *)
From Coq Require Import Reals Lra Lia List Arith Bool String ZArith.
From Verif.Base Require Import RSum Prelude LinAlg.
From Verif.Spec Require Import Matrix GraphSpec Card Reach GenSpec.
From Verif.Model Require Import Sparse Graph Generators NNGraph DataGraphs.
From Verif.Proofs Require Import SparseFacts InitFacts EdgeFacts SubgraphFacts GenFacts.
From Verif.Props Require Import Core Traversal UtilsProps GenProps NNProps.
Import ListNotations.
Open Scope R_scope.

(** ** Airfoil *)
Definition zpair_dec : forall p q : Z * Z, {p = q} + {p <> q}.
Proof. intros [a b] [c d]. destruct (Z.eq_dec a c) as [->|H]; [destruct (Z.eq_dec b d) as [->|H]; [left; reflexivity|]|]; right; congruence. Defined.
(** how often the file lists the pair of vertices i, j (counted from 1 in the file) *)
Definition listed (ii jj : list Z) (i j : nat) : nat := count_occ zpair_dec (combine ii jj) (Z.of_nat i + 1, Z.of_nat j + 1)%Z.

Lemma coo_here_app i j (e f : list (nat * nat * R)) : lsum (coo_here i j (e ++ f)) = lsum (coo_here i j e) + lsum (coo_here i j f).
Proof. unfold coo_here. rewrite filter_app, map_app, lsum_app. reflexivity. Qed.
Lemma coo_here_const i j c l : lsum (coo_here i j (map (fun p => (p, c)) l)) = c * INR (count_occ pair_dec l (i, j)).
Proof.
  unfold coo_here. induction l as [|[a b] l IH]; [cbn; ring|]. cbn [map filter fst snd count_occ].
  destruct (pair_dec (a, b) (i, j)) as [E|E].
  - injection E as -> ->. rewrite !Nat.eqb_refl. cbn [andb map]. rewrite lsum_cons, IH, S_INR. cbn [snd]. ring.
  - destruct (Nat.eqb_spec a i), (Nat.eqb_spec b j); subst; try congruence; cbn [andb]; exact IH.
Qed.
Lemma count_swap (l : list (nat * nat)) i j : count_occ pair_dec (map (fun p => (snd p, fst p)) l) (i, j) = count_occ pair_dec l (j, i).
Proof.
  induction l as [|[a b] l IH]; [reflexivity|]. cbn [map fst snd count_occ].
  destruct (pair_dec (b, a) (i, j)) as [E|E], (pair_dec (a, b) (j, i)) as [E'|E']; rewrite ?IH; try reflexivity; exfalso; congruence.
Qed.
(** the pairs of the model, counted from 0 *)
Definition air_pairs (ii jj : list Z) : list (nat * nat) :=
  map (fun p => (Z.to_nat (fst p), Z.to_nat (snd p))) (combine (map (fun i => (i - 1)%Z) ii) (map (fun j => (j - 1)%Z) jj)).
Lemma combine_dec ii : forall jj, combine (map (fun i => (i - 1)%Z) ii) (map (fun j => (j - 1)%Z) jj) = map (fun p => (fst p - 1, snd p - 1)%Z) (combine ii jj).
Proof. induction ii as [|i ii IH]; intros [|j jj]; cbn; [reflexivity..|]. f_equal. apply IH. Qed.
Lemma air_count ii jj i j : (forall a b, In (a, b) (combine ii jj) -> (1 <= a)%Z /\ (1 <= b)%Z) -> count_occ pair_dec (air_pairs ii jj) (i, j) = listed ii jj i j.
Proof.
  unfold air_pairs, listed. rewrite combine_dec, map_map. intros H. cbn [fst snd]. induction (combine ii jj) as [|[a b] l IH]; [reflexivity|]. cbn [map count_occ fst snd].
  destruct (H a b (or_introl eq_refl)) as (Ha & Hb). specialize (IH (fun x y Hx => H x y (or_intror Hx))).
  destruct (pair_dec (Z.to_nat (a - 1), Z.to_nat (b - 1)) (i, j)) as [E|E], (zpair_dec (a, b) (Z.of_nat i + 1, Z.of_nat j + 1)%Z) as [E'|E']; rewrite ?IH; try reflexivity; exfalso.
  - apply E'. apply pair_equal_spec in E. destruct E as (E1 & E2). f_equal; lia.
  - apply E. apply pair_equal_spec in E'. destruct E' as (E1 & E2). f_equal; lia.
Qed.
Lemma air_range n ii jj : forallb (coo_index n) (combine (map (fun i => (i - 1)%Z) ii) (map (fun j => (j - 1)%Z) jj)) = true <->
  forall a b, In (a, b) (combine ii jj) -> (1 <= a <= Z.of_nat n)%Z /\ (1 <= b <= Z.of_nat n)%Z.
Proof.
  rewrite combine_dec, forallb_forall. split.
  - intros H a b Hab. assert (K := H _ (in_map (fun p => (fst p - 1, snd p - 1)%Z) _ _ Hab)). unfold coo_index in K. cbn [fst snd] in K.
    rewrite !andb_true_iff, !Z.leb_le, !Z.ltb_lt in K. lia.
  - intros H p Hp. apply in_map_iff in Hp. destruct Hp as ([a b] & <- & Hab). specialize (H a b Hab). unfold coo_index. cbn [fst snd].
    rewrite !andb_true_iff, !Z.leb_le, !Z.ltb_lt. lia.
Qed.

(** Airfoil() builds iff the file has m pairs, all of vertices between 1 and n. *)
Theorem C81_airfoil_accepts n m ii jj xy lap : valid_lap lap ->
  ((exists G, Airfoil n m ii jj xy lap = Ok G) <-> List.length ii = m /\ List.length jj = m /\
     forall a b, In (a, b) (combine ii jj) -> (1 <= a <= Z.of_nat n)%Z /\ (1 <= b <= Z.of_nat n)%Z) /\
  (forall e, Airfoil n m ii jj xy lap = Raise e -> e = ValueError).
Proof.
  intros Hl. unfold Airfoil. cbv zeta. fold (air_pairs ii jj).
  destruct (Nat.eqb_spec (List.length ii) m) as [H1|H1], (Nat.eqb_spec (List.length jj) m) as [H2|H2]; cbn [andb negb];
    try (split; [split; [intros (G & E); discriminate|intros (? & ? & _); contradiction]|intros e E; congruence]).
  destruct (forallb (coo_index n) _) eqn:R; cbn [negb].
  - pose proof (proj1 (air_range n ii jj) R) as R2. clear R. rename R2 into R.
    destruct (init_coo n (map (fun p => (p, 1 / 2)) (air_pairs ii jj) ++ map (fun p => ((snd p, fst p), 1 / 2)) (air_pairs ii jj)) lap (Some xy)) as (G & E & _); [|exact Hl|].
    + intros t Ht. assert (K : forall p, In p (air_pairs ii jj) -> (fst p < n /\ snd p < n)%nat).
      { intros p Hp. unfold air_pairs in Hp. rewrite combine_dec, map_map in Hp. apply in_map_iff in Hp. destruct Hp as ([a b] & <- & Hab). specialize (R a b Hab). cbn [fst snd]. lia. }
      apply in_app_iff in Ht. destruct Ht as [Ht|Ht]; apply in_map_iff in Ht; destruct Ht as (p & <- & Hp); specialize (K p Hp); cbn [fst snd]; lia.
    + rewrite map_app, !map_map in E. cbn [fst snd] in E. split.
      * split; [intros _; split; [exact H1|]; split; [exact H2|exact R]|]. intros _. exists G. exact E.
      * intros e He. rewrite E in He. discriminate.
  - split; [split; [intros (G & E); discriminate|]|intros e E; congruence]. intros (_ & _ & H). pose proof (proj2 (air_range n ii jj) H). congruence.
Qed.

(** The graph is undirected, and the weight of i, j is half the number of times the file joins them. *)
Theorem C81_airfoil n m ii jj xy lap G : valid_lap lap -> Airfoil n m ii jj xy lap = Ok G ->
  built G /\ g_n_vertices G = n /\ g_coords G = Some xy /\ undirected G /\ nonneg_weights G /\
  forall i j, (i < n)%nat -> (j < n)%nat -> wt G i j = (INR (listed ii jj i j) + INR (listed ii jj j i)) / 2.
Proof.
  intros Hl HG. destruct (proj1 (proj1 (C81_airfoil_accepts n m ii jj xy lap Hl))) as (H1 & H2 & R); [exists G; exact HG|].
  unfold Airfoil in HG. cbv zeta in HG. fold (air_pairs ii jj) in HG. rewrite (proj2 (Nat.eqb_eq _ _) H1), (proj2 (Nat.eqb_eq _ _) H2), (proj2 (air_range n ii jj) R) in HG. cbn [andb negb] in HG.
  destruct (init_coo n (map (fun p => (p, 1 / 2)) (air_pairs ii jj) ++ map (fun p => ((snd p, fst p), 1 / 2)) (air_pairs ii jj)) lap (Some xy)) as (G' & E & Hb & Hn & _ & Hc & _ & Hw); [|exact Hl|].
  { intros t Ht. assert (K : forall p, In p (air_pairs ii jj) -> (fst p < n /\ snd p < n)%nat).
    { intros p Hp. unfold air_pairs in Hp. rewrite combine_dec, map_map in Hp. apply in_map_iff in Hp. destruct Hp as ([a b] & <- & Hab). specialize (R a b Hab). cbn [fst snd]. lia. }
    apply in_app_iff in Ht. destruct Ht as [Ht|Ht]; apply in_map_iff in Ht; destruct Ht as (p & <- & Hp); specialize (K p Hp); cbn [fst snd]; lia. }
  rewrite map_app, !map_map in E. cbn [fst snd] in E. rewrite HG in E. injection E as <-.
  assert (W : forall i j, (i < n)%nat -> (j < n)%nat -> wt G i j = (INR (listed ii jj i j) + INR (listed ii jj j i)) / 2).
  { intros i j Hi Hj. rewrite Hw by assumption. rewrite coo_here_app, coo_here_const.
    rewrite <- (map_map (fun p => (snd p, fst p)) (fun p => (p, 1 / 2))), coo_here_const, count_swap.
    assert (P : forall a b, In (a, b) (combine ii jj) -> (1 <= a)%Z /\ (1 <= b)%Z) by (intros a b Hab; specialize (R a b Hab); lia).
    rewrite !(air_count _ _ _ _ P). field. }
  repeat (split; [assumption|]). split; [|split; [|exact W]].
  - intros i j Hi Hj. rewrite Hn in *. rewrite !W by assumption. lra.
  - intros i j Hi Hj. rewrite Hn in *. rewrite W by assumption. pose proof (pos_INR (listed ii jj i j)). pose proof (pos_INR (listed ii jj j i)). lra.
Qed.

(** If the file joins no two vertices twice (in either order) and no vertex to itself: every weight is 0 or
    1/2, no self-loop, one edge per pair of the file. *)
Theorem C81_airfoil_simple n m ii jj xy lap G : valid_lap lap -> Airfoil n m ii jj xy lap = Ok G ->
  NoDup (combine ii jj) -> (forall a b, In (a, b) (combine ii jj) -> ~ In (b, a) (combine ii jj)) ->
  loop_free G /\ g_n_edges G = m /\
  forall i j, (i < n)%nat -> (j < n)%nat ->
    let joined := In (Z.of_nat i + 1, Z.of_nat j + 1)%Z (combine ii jj) \/ In (Z.of_nat j + 1, Z.of_nat i + 1)%Z (combine ii jj) in
    (joined -> wt G i j = 1 / 2) /\ (~ joined -> wt G i j = 0).
Proof.
  intros Hl HG Hnd Hna. destruct (proj1 (proj1 (C81_airfoil_accepts n m ii jj xy lap Hl))) as (L1 & L2 & R); [exists G; exact HG|].
  destruct (C81_airfoil _ _ _ _ _ _ _ Hl HG) as (Hb & Hn & _ & Hu & _ & W).
  assert (C1 : forall i j, In (Z.of_nat i + 1, Z.of_nat j + 1)%Z (combine ii jj) -> listed ii jj i j = 1%nat) by (intros i j H; apply (proj1 (NoDup_count_occ' zpair_dec _) Hnd _ H)).
  assert (C0 : forall i j, ~ In (Z.of_nat i + 1, Z.of_nat j + 1)%Z (combine ii jj) -> listed ii jj i j = 0%nat) by (intros i j H; apply count_occ_not_In; exact H).
  assert (V : forall i j, (i < n)%nat -> (j < n)%nat -> let joined := In (Z.of_nat i + 1, Z.of_nat j + 1)%Z (combine ii jj) \/ In (Z.of_nat j + 1, Z.of_nat i + 1)%Z (combine ii jj) in
    (joined -> wt G i j = 1 / 2) /\ (~ joined -> wt G i j = 0)).
  { intros i j Hi Hj joined. rewrite W by assumption. split.
    - intros [H|H]; rewrite (C1 _ _ H), (C0 _ _ (Hna _ _ H)); cbn [INR]; lra.
    - intros H. rewrite !C0 by (intros K; apply H; unfold joined; tauto). cbn [INR]. lra. }
  split; [|split; [|exact V]].
  - intros i Hi. rewrite Hn in Hi. apply V; [assumption..|]. intros [H|H]; exact (Hna _ _ H H).
  - set (sw := fun p : Z * Z => if Z.leb (fst p) (snd p) then (Z.to_nat (fst p - 1), Z.to_nat (snd p - 1)) else (Z.to_nat (snd p - 1), Z.to_nat (fst p - 1))).
    rewrite (edges_listed G (map sw (combine ii jj)) Hb Hu).
    + rewrite map_length, combine_length. lia.
    + assert (K : forall p q, In p (combine ii jj) -> In q (combine ii jj) -> sw p = sw q -> p = q).
      { intros [a b] [c d] Hp Hq. pose proof (R a b Hp). pose proof (R c d Hq). unfold sw. cbn [fst snd].
        destruct (Z.leb_spec a b), (Z.leb_spec c d); intros E; apply pair_equal_spec in E; destruct E as (E1 & E2).
        - f_equal; lia.
        - exfalso. apply (Hna c d Hq). replace d with a by lia. replace c with b by lia. exact Hp.
        - exfalso. apply (Hna c d Hq). replace d with a by lia. replace c with b by lia. exact Hp.
        - f_equal; lia. }
      clear - K Hnd. induction (combine ii jj) as [|p l IH]; [constructor|]. inversion Hnd as [|? ? Hni Hnd']; subst. cbn [map]. constructor.
      * intros H. apply in_map_iff in H. destruct H as (q & E & Hq). apply Hni. rewrite <- (K q p (or_intror Hq) (or_introl eq_refl) E). exact Hq.
      * apply IH; [exact Hnd'|]. intros a b Ha Hb. apply K; right; assumption.
    + intros i j. rewrite Hn, in_map_iff. split.
      * intros ([a b] & E & Hp). pose proof (R a b Hp) as (Ra & Rb). unfold sw in E. cbn [fst snd] in E.
        destruct (Z.leb_spec a b); apply pair_equal_spec in E; destruct E as (<- & <-).
        -- split; [lia|]. split; [lia|]. rewrite (proj1 (V (Z.to_nat (a - 1)) (Z.to_nat (b - 1)) ltac:(lia) ltac:(lia))); [apply Rgt_not_eq; lra|].
           left. replace (Z.of_nat (Z.to_nat (a - 1)) + 1)%Z with a by lia. replace (Z.of_nat (Z.to_nat (b - 1)) + 1)%Z with b by lia. exact Hp.
        -- split; [lia|]. split; [lia|]. rewrite (proj1 (V (Z.to_nat (b - 1)) (Z.to_nat (a - 1)) ltac:(lia) ltac:(lia))); [apply Rgt_not_eq; lra|].
           right. replace (Z.of_nat (Z.to_nat (a - 1)) + 1)%Z with a by lia. replace (Z.of_nat (Z.to_nat (b - 1)) + 1)%Z with b by lia. exact Hp.
      * intros (Hij & Hj & Hw).
        destruct (in_dec zpair_dec (Z.of_nat i + 1, Z.of_nat j + 1)%Z (combine ii jj)) as [H|H]; [|destruct (in_dec zpair_dec (Z.of_nat j + 1, Z.of_nat i + 1)%Z (combine ii jj)) as [H'|H']].
        -- exists (Z.of_nat i + 1, Z.of_nat j + 1)%Z. split; [|exact H]. unfold sw. cbn [fst snd]. destruct (Z.leb_spec (Z.of_nat i + 1) (Z.of_nat j + 1)); [f_equal; lia|lia].
        -- exists (Z.of_nat j + 1, Z.of_nat i + 1)%Z. split; [|exact H']. unfold sw. cbn [fst snd].
           destruct (Z.leb_spec (Z.of_nat j + 1) (Z.of_nat i + 1)); f_equal; lia.
        -- exfalso. apply Hw. apply (proj2 (V i j ltac:(lia) Hj)). tauto.
Qed.
Example C81_airfoil_example : exists G, Airfoil 3 2 [1; 3]%Z [2; 2]%Z [] Combinatorial = Ok G /\ g_n_edges G = 2%nat /\ wt G 1 2 = 1 / 2.
Proof.
  destruct (proj1 (C81_airfoil_accepts 3 2 [1; 3]%Z [2; 2]%Z [] Combinatorial (or_introl eq_refl))) as (_ & H).
  destruct H as (G & E); [split; [reflexivity|]; split; [reflexivity|]; intros a b [H|[H|[]]]; injection H as <- <-; lia|].
  exists G. split; [exact E|]. destruct (C81_airfoil_simple _ _ _ _ _ _ _ (or_introl eq_refl) E) as (_ & Hm & V).
  - repeat constructor; cbn; intuition congruence.
  - cbn. intros a b [H|[H|[]]]; injection H as <- <-; intuition congruence.
  - split; [exact Hm|]. apply (V 1%nat 2%nat ltac:(lia) ltac:(lia)). right. cbn. tauto.
Qed.

(** ** Minnesota *)
Definition in_file (n : nat) (A : list (nat * nat * R)) : Prop := forall t, In t A -> (fst (fst t) < n)%nat /\ (snd (fst t) < n)%nat.
(** the two vertices joined by hand *)
Definition bridge (i j : nat) : Prop := (i = 348 /\ j = 354)%nat \/ (i = 354 /\ j = 348)%nat.

Lemma value_put a b e i j : value_at (put_one a b e) i j = if pair_eq (i, j) (a, b) then 1 else value_at e i j.
Proof.
  unfold value_at, put_one, coo_here. cbn [filter fst snd]. destruct (pair_eq (i, j) (a, b)) as [E|E].
  - injection E as -> ->. rewrite !Nat.eqb_refl. cbn [andb map snd]. rewrite lsum_cons.
    assert (H : filter (fun t : nat * nat * R => (Nat.eqb (fst (fst t)) a && Nat.eqb (snd (fst t)) b)%bool)
                  (filter (fun t => negb (Nat.eqb (fst (fst t)) a && Nat.eqb (snd (fst t)) b)%bool) e) = []).
    { induction e as [|t e IH]; [reflexivity|]. cbn [filter]. destruct (Nat.eqb (fst (fst t)) a && Nat.eqb (snd (fst t)) b)%bool eqn:Q; cbn [negb filter]; [exact IH|]. rewrite Q. exact IH. }
    rewrite H. cbn. ring.
  - assert (Q : (Nat.eqb a i && Nat.eqb b j)%bool = false) by (destruct (Nat.eqb_spec a i), (Nat.eqb_spec b j); subst; try reflexivity; congruence).
    rewrite Q. f_equal. f_equal. induction e as [|t e IH]; [reflexivity|]. cbn [filter].
    destruct (Nat.eqb_spec (fst (fst t)) a), (Nat.eqb_spec (snd (fst t)) b); cbn [andb negb filter]; try (rewrite IH; reflexivity).
    rewrite IH. subst a b. rewrite Q. reflexivity.
Qed.
Lemma value_notin e i j : ~ In (i, j) (map fst e) -> value_at e i j = 0.
Proof.
  intros H. unfold value_at, coo_here. induction e as [|[[a b] v] e IH]; [reflexivity|]. cbn [filter fst snd map] in *.
  destruct (Nat.eqb_spec a i), (Nat.eqb_spec b j); subst; cbn [andb]; try (apply IH; intros K; apply H; right; exact K).
  exfalso. apply H. left. reflexivity.
Qed.
Lemma positive_in e i j : In (i, j) (positive_positions e) <-> 0 < value_at e i j.
Proof.
  unfold positive_positions. rewrite filter_In, nodup_In. cbn [fst snd]. split.
  - intros (_ & H). destruct (Rltb_spec 0 (value_at e i j)); [assumption|discriminate].
  - intros H. split; [|destruct (Rltb_spec 0 (value_at e i j)); [reflexivity|lra]].
    destruct (in_dec pair_eq (i, j) (map fst e)) as [K|K]; [exact K|]. rewrite (value_notin _ _ _ K) in H. lra.
Qed.
Lemma mn_value A i j : 0 < value_at (put_one 354 348 (put_one 348 354 A)) i j <-> bridge i j \/ 0 < value_at A i j.
Proof.
  rewrite !value_put. unfold bridge. destruct (pair_eq (i, j) (354, 348)%nat) as [E|E]; [apply pair_equal_spec in E; split; [intros _; tauto|intros _; lra]|].
  destruct (pair_eq (i, j) (348, 354)%nat) as [E'|E']; [apply pair_equal_spec in E'; split; [intros _; tauto|intros _; lra]|].
  split; [tauto|]. intros [[(-> & ->)|(-> & ->)]|H]; [congruence..|exact H].
Qed.

(** Minnesota(): every edge has weight one; i, j are joined iff the file joins them with a positive weight or
    they are the two ends of the added road. *)
Theorem C81_minnesota n A xy lap : valid_lap lap -> in_file n A -> (354 < n)%nat ->
  exists G, Minnesota n A xy true lap = Ok G /\ unit_graph G n (fun i j => bridge i j \/ 0 < value_at A i j) /\ g_coords G = Some xy.
Proof.
  intros Hl HA Hn. unfold Minnesota. destruct (Nat.leb_spec n 354); [lia|].
  destruct (unit_nodup n (positive_positions (put_one 354 348 (put_one 348 354 A))) lap (Some xy)) as (G & E & HU & _ & Hc); [apply NoDup_filter, NoDup_nodup| |exact Hl|].
  - intros [i j] Hp. apply positive_in, mn_value in Hp. cbn [fst snd]. destruct Hp as [[(-> & ->)|(-> & ->)]|Hp]; [lia..|].
    destruct (in_dec pair_eq (i, j) (map fst A)) as [K|K]; [|rewrite (value_notin _ _ _ K) in Hp; lra].
    apply in_map_iff in K. destruct K as (t & Et & Ht). specialize (HA t Ht). rewrite Et in HA. exact HA.
  - exists G. split; [exact E|]. split; [|exact Hc]. apply (unit_graph_iff G n _ _) with (2 := HU). intros i j _ _. rewrite positive_in. apply mn_value.
Qed.

(** Minnesota(connected=False): the weights of the file. *)
Theorem C81_minnesota_raw n A xy lap : valid_lap lap -> in_file n A ->
  exists G, Minnesota n A xy false lap = Ok G /\ built G /\ g_n_vertices G = n /\ g_coords G = Some xy /\
    forall i j, (i < n)%nat -> (j < n)%nat -> wt G i j = value_at A i j.
Proof.
  intros Hl HA. unfold Minnesota. destruct (init_coo n A lap (Some xy) HA Hl) as (G & E & Hb & Hn & _ & Hc & _ & Hw). exists G. repeat (split; [assumption|]). exact Hw.
Qed.

(** A file with too few vertices for the added road is refused. *)
Theorem C81_minnesota_too_small n A xy lap : (n <= 354)%nat -> Minnesota n A xy true lap = Raise IndexError.
Proof. intros H. unfold Minnesota. destruct (Nat.leb_spec n 354); [reflexivity|lia]. Qed.

(** If the file is symmetric with no negative weight: Minnesota() is undirected, and connected iff in the graph of the file
    every vertex is linked to one end or the other of the added road. *)
Theorem C81_minnesota_connected_iff n A xy lap G H : valid_lap lap -> in_file n A -> (354 < n)%nat ->
  (forall i j, value_at A i j = value_at A j i) -> (forall i j, 0 <= value_at A i j) ->
  Minnesota n A xy true lap = Ok G -> Minnesota n A xy false lap = Ok H ->
  undirected G /\
  (connected G <-> forall v, (v < n)%nat -> reach (has_arc H) 348%nat v \/ reach (has_arc H) 354%nat v).
Proof.
  intros Hl HA Hn Hs Hp EG EH. destruct (C81_minnesota n A xy lap Hl HA Hn) as (G' & E & (Hb & Nn & Hw) & _). rewrite EG in E. injection E as <-.
  destruct (C81_minnesota_raw n A xy lap Hl HA) as (H' & E & Hb' & Nn' & _ & Hw'). rewrite EH in E. injection E as <-.
  assert (BD : forall i j, bridge i j \/ ~ bridge i j) by (intros i j; unfold bridge; lia).
  assert (D : forall i j, {bridge i j \/ 0 < value_at A i j} + {~ (bridge i j \/ 0 < value_at A i j)}).
  { intros i j. destruct (Rlt_dec 0 (value_at A i j)) as [P|P]; [left; tauto|].
    destruct (pair_eq (i, j) (354, 348)%nat) as [Q|Q]; [apply pair_equal_spec in Q; left; left; right; exact Q|].
    destruct (pair_eq (i, j) (348, 354)%nat) as [Q'|Q']; [apply pair_equal_spec in Q'; left; left; left; exact Q'|].
    right. intros [[(-> & ->)|(-> & ->)]|K]; congruence || contradiction. }
  assert (HU : undirected G). { apply (unit_undirected G n _ D). - intros i j _ _ [B|B]; [left; unfold bridge in *; lia|right; rewrite Hs; exact B]. - split; [exact Hb|]. split; [exact Nn|exact Hw]. }
  assert (AG : forall i j, has_arc G i j <-> (i < n)%nat /\ (j < n)%nat /\ (bridge i j \/ 0 < value_at A i j)).
  { intros i j. unfold has_arc. rewrite Nn. split; intros (Hi & Hj & K); (split; [exact Hi|]); (split; [exact Hj|]); destruct (Hw i j Hi Hj) as (W1 & W0).
    - destruct (D i j) as [P|P]; [exact P|]. rewrite (W0 P) in K. contradiction.
    - rewrite (W1 K). apply R1_neq_R0. }
  assert (AH : forall i j, has_arc H i j <-> (i < n)%nat /\ (j < n)%nat /\ 0 < value_at A i j).
  { intros i j. unfold has_arc. rewrite Nn'. split; intros (Hi & Hj & K); (split; [exact Hi|]); (split; [exact Hj|]); rewrite Hw' in * by assumption.
    - pose proof (Hp i j). lra.
    - apply Rgt_not_eq. exact K. }
  split; [exact HU|]. split.
  - intros C v Hv. assert (R : reach (has_arc G) 348%nat v) by (apply C; rewrite Nn; lia).
    assert (K : forall u w, reach (has_arc G) u w -> u = 348%nat -> reach (has_arc H) 348%nat w \/ reach (has_arc H) 354%nat w); [|exact (K _ _ R eq_refl)].
    clear v Hv R. intros u w R. induction R as [u|u a b R IH Hab]; intros Es; [left; rewrite Es; apply reach_refl|].
    specialize (IH Es). apply AG in Hab. destruct Hab as (Ha & Hb2 & [B|P]).
    + unfold bridge in B. destruct B as [(-> & ->)|(-> & ->)]; [right; apply reach_refl|left; apply reach_refl].
    + destruct IH as [IH|IH]; [left|right]; apply (reach_step _ _ a); try assumption; apply AH; tauto.
  - intros C. apply (rooted_connected G 348 HU). rewrite Nn. intros v Hv.
    assert (M : forall a b, has_arc H a b -> has_arc G a b) by (intros a b K; apply AH in K; apply AG; tauto).
    destruct (C v Hv) as [R|R]; [apply (reach_mono _ _ M _ _ R)|].
    apply (reach_trans _ _ 354%nat); [|apply (reach_mono _ _ M _ _ R)]. apply reach_one, AG. unfold bridge. lia.
Qed.

(** A road of weight two, written in the file as it is in eight places, comes out with weight one. *)
Example C81_minnesota_example : exists G, Minnesota 355 [(0%nat, 1%nat, 2); (1%nat, 0%nat, 2)] [] true Combinatorial = Ok G /\
  wt G 0 1 = 1 /\ wt G 348 354 = 1 /\ wt G 2 3 = 0.
Proof.
  destruct (C81_minnesota 355 [(0%nat, 1%nat, 2); (1%nat, 0%nat, 2)] [] Combinatorial (or_introl eq_refl)) as (G & E & (_ & _ & Hw) & _).
  - intros t [<-|[<-|[]]]; cbn; lia.
  - lia.
  - exists G. split; [exact E|]. split; [apply Hw; [lia..|]; right; unfold value_at, coo_here; cbn; lra|].
    split; [apply Hw; [lia..|]; left; left; lia|]. apply Hw; [lia..|]. intros [B|P]; [unfold bridge in B; lia|]. revert P. unfold value_at, coo_here. cbn. lra.
Qed.

(** ** Logo and DavidSensorNet *)
(** Logo(): the weights and coordinates of the file; info counts the vertices from 0. *)
Theorem C81_logo n W coords g s p lap : valid_lap lap -> in_file n W ->
  exists G ig is ip, Logo n W coords g s p lap = Ok (G, (ig, is, ip)) /\ built G /\ g_n_vertices G = n /\ g_coords G = Some coords /\
    (forall i j, (i < n)%nat -> (j < n)%nat -> wt G i j = value_at W i j) /\
    (forall v, In v ig <-> In (v + 1)%Z g) /\ (forall v, In v is <-> In (v + 1)%Z s) /\ (forall v, In v ip <-> In (v + 1)%Z p).
Proof.
  intros Hl HW. destruct (init_coo n W lap (Some coords) HW Hl) as (G & E & Hb & Hn & _ & Hc & _ & Hw).
  exists G. do 3 eexists. unfold Logo. rewrite E. cbn [bindr]. split; [reflexivity|]. repeat (split; [assumption|]).
  assert (K : forall l v, In v (map (fun i => (i - 1)%Z) l) <-> In (v + 1)%Z l).
  { intros l v. rewrite in_map_iff. split; [intros (i & <- & Hi); replace (i - 1 + 1)%Z with i by lia; exact Hi|]. intros H. exists (v + 1)%Z. split; [lia|exact H]. }
  repeat split; apply K.
Qed.
(** DavidSensorNet(64) and (500): the weights of the file, which must announce the right size. *)
Theorem C81_david_file N n announced W coords lap : valid_lap lap -> in_file n W ->
  (announced <> N -> david_file N n announced W coords lap = Raise AssertionError) /\
  (announced = N -> exists G, david_file N n announced W coords lap = Ok G /\ built G /\ g_n_vertices G = n /\ g_coords G = Some coords /\
     forall i j, (i < n)%nat -> (j < n)%nat -> wt G i j = value_at W i j).
Proof.
  intros Hl HW. unfold david_file. destruct (Nat.eqb_spec announced N) as [H|H]; (split; [|]); intros K; try contradiction; [|reflexivity].
  destruct (init_coo n W lap (Some coords) HW Hl) as (G & E & Hb & Hn & _ & Hc & _ & Hw). exists G. repeat (split; [assumption|]). exact Hw.
Qed.

(** ** Bunny *)
(** Bunny(): undirected, weights in [0, 1], no self-loop; the coordinates are the points of the file up to a common translation; two vertices are
    joined iff their points are at most 0.02 apart. *)
Theorem C81_bunny N d X NN lap G cs : valid_lap lap -> Bunny N d X NN lap = Ok G -> g_coords G = Some cs ->
  built G /\ g_n_vertices G = N /\ undirected G /\ (forall i j, (i < N)%nat -> (j < N)%nat -> 0 <= wt G i j <= 1) /\
  (forall i j c, (i < N)%nat -> (j < N)%nat -> (c < d)%nat -> coord cs i c - coord cs j c = X i c - X j c) /\
  exists s, 0 <= s /\ (s <> 0 -> loop_free G /\ forall i j, (i < N)%nat -> (j < N)%nat -> i <> j -> let D := sqrt (\sum_(c < d) ((X i c - X j c) * (X i c - X j c))) in
    (D <= 2 / 100 -> wt G i j = exp (- (D * D) / s)) /\ (2 / 100 < D -> wt G i j = 0)).
Proof.
  intros Hl HG Hcs. destruct (C56_graph _ _ _ _ _ _ _ _ _ _ _ _ _ _ Hl HG) as (Hb & Hn & Hu & _ & H1 & _).
  destruct (C56_points _ _ _ _ _ _ _ _ _ _ _ _ _ _ _ Hl HG Hcs) as (_ & _ & f & _ & F1 & HX). specialize (F1 eq_refl). subst f.
  destruct (C56_default_sigma _ _ _ _ _ _ _ _ _ _ _ _ _ _ Hl HG eq_refl) as (s & HG' & S0 & _).
  repeat (split; [assumption|]). split; [apply H1; discriminate|]. split; [intros i j c Hi Hj Hc; rewrite HX by assumption; ring|].
  exists s. split; [exact S0|]. intros Hs. destruct (C56_radius _ _ _ _ _ _ _ _ _ _ _ _ _ _ Hl HG' s cs eq_refl eq_refl Hs Hcs) as (Hlf & HR).
  split; [exact Hlf|]. intros i j Hi Hj Hne D. specialize (HR i j Hi Hj Hne).
  replace (nn_dist NNGraph.Euclidean d (coord cs) i j) with D in HR; [exact HR|].
  unfold D, nn_dist. f_equal. apply rsum_ext. intros c Hc. rewrite HX by assumption. ring.
Qed.
