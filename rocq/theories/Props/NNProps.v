(** C56: nearest-neighbour graphs. *)
From Coq Require Import Reals Lra Lia List Arith Bool String Sorted FunctionalExtensionality.
From Coq Require Import List.
From Verif.Base Require Import RSum Prelude.
From Verif.Spec Require Import Matrix GraphSpec Card GenSpec.
From Verif.Model Require Import Sparse Graph Reduction Random Utils NNGraph.
From Verif.Proofs Require Import SparseFacts InitFacts EdgeFacts SubgraphFacts GenFacts.
From Verif.Props Require Import Core UtilsProps ReductionProps GenProps.
Import ListNotations.
Open Scope string_scope.
Open Scope R_scope.
Open Scope list_scope.

(** ** Distances *)
Definition same_point (d : nat) (Y : mat) (i j : nat) : Prop := forall c, (c < d)%nat -> Y i c = Y j c.
Definition good_dist (t : dist_type) : Prop := match t with OtherDist => False | MinkowskiD p => 1 <= p | _ => True end.
Lemma Reqb_ne x y : x <> y -> Reqb x y = false.
Proof. intros H. destruct (Reqb_spec x y); [contradiction|reflexivity]. Qed.
Lemma rpow_nonneg x p : 0 <= rpow x p.
Proof. unfold rpow. destruct (Reqb x 0); [lra|]. apply Rlt_le. unfold Rpower. apply exp_pos. Qed.
Lemma rpow_0 p : rpow 0 p = 0.
Proof. unfold rpow. rewrite Reqb_refl. reflexivity. Qed.
Lemma rpow_eq0 x p : rpow x p = 0 -> x = 0.
Proof. unfold rpow. destruct (Reqb_spec x 0); [auto|]. unfold Rpower. intros H. pose proof (exp_pos (p * ln x)). lra. Qed.
Lemma fold_max_ge l : forall a, a <= fold_left Rmax l a /\ forall x, In x l -> x <= fold_left Rmax l a.
Proof.
  induction l as [|y l IH]; intros a; cbn [fold_left]; [split; [lra|intros x []]|]. destruct (IH (Rmax a y)) as (H1 & H2). pose proof (Rmax_l a y). pose proof (Rmax_r a y).
  split; [lra|]. intros x [<-|Hx]; [lra|]. apply H2. exact Hx.
Qed.
Lemma fold_max_in l : forall a, In (fold_left Rmax l a) (a :: l).
Proof.
  induction l as [|y l IH]; intros a; cbn [fold_left]; [left; reflexivity|]. destruct (IH (Rmax a y)) as [H|H]; [|right; right; exact H]. rewrite <- H. unfold Rmax. destruct (Rle_dec a y); [right; left|left]; reflexivity.
Qed.
Lemma dist_nonneg t d Y i j : 0 <= nn_dist t d Y i j.
Proof.
  destruct t; cbn [nn_dist]; [apply sqrt_pos|apply rsum_nonneg; intros; apply Rabs_pos| |apply rpow_nonneg|lra]. exact (proj1 (fold_max_ge _ 0)).
Qed.
Lemma dist_sym t d Y i j : nn_dist t d Y i j = nn_dist t d Y j i.
Proof.
  destruct t; cbn [nn_dist].
  - f_equal. apply rsum_ext. intros. ring.
  - apply rsum_ext. intros. apply Rabs_minus_sym.
  - f_equal. apply map_ext. intros. apply Rabs_minus_sym.
  - f_equal. apply rsum_ext. intros. f_equal. apply Rabs_minus_sym.
  - reflexivity.
Qed.
Lemma sum0 n f : (forall k, (k < n)%nat -> 0 <= f k) -> rsum n f = 0 -> forall k, (k < n)%nat -> f k = 0.
Proof. intros Hf H k Hk. pose proof (rsum_ge_term n f k Hf Hk). specialize (Hf k Hk). lra. Qed.
Lemma dist_0 t d Y i j : good_dist t -> (nn_dist t d Y i j = 0 <-> same_point d Y i j).
Proof.
  intros Hg. destruct t; cbn [nn_dist good_dist] in *; try contradiction; split; intros H.
  - apply sqrt_eq_0 in H; [|apply rsum_nonneg; intros; apply Rle_0_sqr]. intros c Hc. pose proof (sum0 _ _ (fun k _ => Rle_0_sqr (Y i k - Y j k)) H c Hc) as E. cbv beta in E. apply Rmult_integral in E. lra.
  - rewrite <- sqrt_0. f_equal. apply rsum_0. intros c Hc. rewrite (H c Hc). ring.
  - intros c Hc. pose proof (sum0 _ _ (fun k _ => Rabs_pos (Y i k - Y j k)) H c Hc) as E. cbv beta in E. unfold Rabs in E. destruct (Rcase_abs _); lra.
  - apply rsum_0. intros c Hc. rewrite (H c Hc), Rminus_diag_eq by reflexivity. apply Rabs_R0.
  - intros c Hc. destruct (fold_max_ge (map (fun c => Rabs (Y i c - Y j c)) (seq 0 d)) 0) as (_ & B). specialize (B (Rabs (Y i c - Y j c))). rewrite H in B. assert (X : In (Rabs (Y i c - Y j c)) (map (fun c => Rabs (Y i c - Y j c)) (seq 0 d))) by (apply in_map_iff; exists c; split; [reflexivity|apply in_seq; lia]). specialize (B X). pose proof (Rabs_pos (Y i c - Y j c)). unfold Rabs in *. destruct (Rcase_abs _); lra.
  - destruct (fold_max_in (map (fun c => Rabs (Y i c - Y j c)) (seq 0 d)) 0) as [E|E]; [symmetry; exact E|]. apply in_map_iff in E. destruct E as (c & E & Hc). apply in_seq in Hc. rewrite <- E, (H c) by lia. rewrite Rminus_diag_eq by reflexivity. apply Rabs_R0.
  - apply rpow_eq0 in H. intros c Hc. pose proof (sum0 _ _ (fun k _ => rpow_nonneg (Rabs (Y i k - Y j k)) order) H c Hc) as E. cbv beta in E. apply rpow_eq0 in E. unfold Rabs in E. destruct (Rcase_abs _); lra.
  - rewrite rsum_0; [apply rpow_0|]. intros c Hc. rewrite (H c Hc), Rminus_diag_eq, Rabs_R0 by reflexivity. apply rpow_0.
Qed.
Lemma rpow_mult a x p : 0 < a -> 0 <= x -> rpow (a * x) p = rpow a p * rpow x p.
Proof.
  intros Ha Hx. unfold rpow. rewrite (Reqb_ne a 0) by lra. destruct (Reqb_spec x 0) as [->|H].
  - rewrite Rmult_0_r, Reqb_refl. ring.
  - rewrite Reqb_ne by (intros E; apply Rmult_integral in E; lra). symmetry. apply Rpower_mult_distr; lra.
Qed.
Lemma fold_max_scale a l : 0 < a -> forall b, fold_left Rmax (map (Rmult a) l) (a * b) = a * fold_left Rmax l b.
Proof. intros Ha. induction l as [|x l IH]; intros b; [reflexivity|]. cbn [map fold_left]. rewrite RmaxRmult by lra. apply IH. Qed.
Lemma fold_min_scale a l : 0 < a -> forall b, fold_left Rmin (map (Rmult a) l) (a * b) = a * fold_left Rmin l b.
Proof.
  intros Ha. induction l as [|x l IH]; intros b; [reflexivity|]. cbn [map fold_left]. replace (Rmin (a * b) (a * x)) with (a * Rmin b x); [apply IH|].
  unfold Rmin. destruct (Rle_dec b x), (Rle_dec (a * b) (a * x)); nra.
Qed.
(** distances scale with the points and ignore translations *)
Lemma dist_scale t d Y a b i j : good_dist t -> 0 < a -> nn_dist t d (fun i c => a * Y i c + b c) i j = a * nn_dist t d Y i j.
Proof.
  intros Hg Ha. assert (E : forall c, a * Y i c + b c - (a * Y j c + b c) = a * (Y i c - Y j c)) by (intros; ring).
  assert (A : forall c, Rabs (a * Y i c + b c - (a * Y j c + b c)) = a * Rabs (Y i c - Y j c)) by (intros; rewrite E, Rabs_mult, (Rabs_pos_eq a) by lra; reflexivity).
  destruct t; cbn [nn_dist good_dist] in *; [| | | |contradiction].
  - rewrite (rsum_ext d _ (fun c => (a * a) * ((Y i c - Y j c) * (Y i c - Y j c)))) by (intros; rewrite E; ring). rewrite rsum_scal_l, sqrt_mult; [|nra|apply rsum_nonneg; intros; apply Rle_0_sqr]. rewrite sqrt_square by lra. reflexivity.
  - rewrite <- rsum_scal_l. apply rsum_ext. intros. apply A.
  - rewrite <- (fold_max_scale a _ Ha 0), Rmult_0_r, map_map. f_equal. apply map_ext. exact A.
  - rewrite (rsum_ext d _ (fun c => rpow a order * rpow (Rabs (Y i c - Y j c)) order)) by (intros; rewrite A; apply rpow_mult; [exact Ha|apply Rabs_pos]).
    assert (Hp : 0 < rpow a order) by (unfold rpow; rewrite Reqb_ne by lra; apply exp_pos).
    rewrite rsum_scal_l, rpow_mult; [|exact Hp|apply rsum_nonneg; intros; apply rpow_nonneg]. f_equal. unfold rpow at 1. rewrite Reqb_ne by lra. unfold rpow. rewrite Reqb_ne by lra. rewrite Rpower_mult. replace (order * (1 / order)) with 1 by (field; lra). apply Rpower_1. exact Ha.
Qed.
(** The distance of each dist_type, and what is common to them: the metric is symmetric, zero exactly between coinciding points,
    follows a change of scale and ignores translations; Euclidean: D^2 is the sum of the squared differences; Manhattan: D is the sum
    of the absolute differences; max_dist: D is the largest of them; Minkowski of order p: D^p is the sum of their p-th powers. *)
Theorem C56_distances t d X i j : good_dist t ->
  let D := nn_dist t d X i j in let a c := Rabs (X i c - X j c) in
  0 <= D /\ nn_dist t d X j i = D /\ (D = 0 <-> same_point d X i j) /\
  (forall s b, 0 < s -> nn_dist t d (fun i c => s * X i c + b c) i j = s * D) /\
  (t = Euclidean -> D ^ 2 = \sum_(c < d) (a c ^ 2)) /\
  (t = Manhattan -> D = \sum_(c < d) a c) /\
  (t = MaxDist -> (forall c, (c < d)%nat -> a c <= D) /\ ((0 < d)%nat -> exists c, (c < d)%nat /\ D = a c)) /\
  (forall p, t = MinkowskiD p -> 0 < D -> Rpower D p = \sum_(c < d) (if Reqb (a c) 0 then 0 else Rpower (a c) p)).
Proof.
  intros Hg D a. split; [apply dist_nonneg|]. split; [apply dist_sym|]. split; [apply dist_0; exact Hg|]. split; [intros s b Hs; apply dist_scale; assumption|].
  split; [|split; [|split]].
  - intros ->. unfold D. cbn [nn_dist]. cbn [pow]. rewrite Rmult_1_r, sqrt_sqrt by (apply rsum_nonneg; intros; apply Rle_0_sqr).
    apply rsum_ext. intros c _. unfold a. rewrite Rmult_1_r, <- Rabs_mult. symmetry. apply Rabs_pos_eq. apply Rle_0_sqr.
  - intros ->. reflexivity.
  - intros ->. unfold D. cbn [nn_dist]. split.
    + intros c Hc. apply (proj2 (fold_max_ge _ 0)). apply in_map_iff. exists c. split; [reflexivity|apply in_seq; lia].
    + intros Hd. destruct (fold_max_in (map (fun c => Rabs (X i c - X j c)) (seq 0 d)) 0) as [E|E].
      * exists 0%nat. split; [exact Hd|]. rewrite <- E. pose proof (proj2 (fold_max_ge (map (fun c => Rabs (X i c - X j c)) (seq 0 d)) 0) (a 0%nat)) as Q.
        rewrite <- E in Q. unfold a in *. pose proof (Rabs_pos (X i 0%nat - X j 0%nat)). apply Rle_antisym; [assumption|]. apply Q.
        apply in_map_iff. exists 0%nat. split; [reflexivity|apply in_seq; lia].
      * apply in_map_iff in E. destruct E as (c & E & Hc). apply in_seq in Hc. exists c. split; [lia|]. rewrite <- E. reflexivity.
  - intros p -> HD. cbn [good_dist] in Hg. unfold D in *. cbn [nn_dist] in *. set (S := \sum_(c < d) rpow (Rabs (X i c - X j c)) p) in *.
    assert (HS : 0 <= S) by (apply rsum_nonneg; intros; apply rpow_nonneg). transitivity S; [|apply rsum_ext; intros c Hc; reflexivity].
    unfold rpow in HD |- *. destruct (Reqb_spec S 0) as [E|E]; [lra|]. rewrite Rpower_mult. replace (1 / p * p) with 1 by (field; lra). apply Rpower_1. lra.
Qed.
Example C56_distances_ex : good_dist (MinkowskiD 3) /\ ~ same_point 2 (fun i c => INR i) 0 1.
Proof. split; [cbn; lra|]. intros H. specialize (H 0%nat ltac:(lia)). cbn in H. lra. Qed.
Lemma dist_ext t d Y Y' i j : (forall c, (c < d)%nat -> Y i c = Y' i c /\ Y j c = Y' j c) -> nn_dist t d Y i j = nn_dist t d Y' i j.
Proof.
  intros H. destruct t; cbn [nn_dist].
  - f_equal. apply rsum_ext. intros c Hc. destruct (H c Hc) as (-> & ->). reflexivity.
  - apply rsum_ext. intros c Hc. destruct (H c Hc) as (-> & ->). reflexivity.
  - f_equal. apply map_ext_in. intros c Hc. apply in_seq in Hc. destruct (H c) as (-> & ->); [lia|]. reflexivity.
  - f_equal. apply rsum_ext. intros c Hc. destruct (H c Hc) as (-> & ->). reflexivity.
  - reflexivity.
Qed.
(** ** The assembled graph *)
(** entry (i, c) of an array of coordinates *)
Definition coord (cs : list (list R)) : mat := fun i c => nth c (nth i cs []) 0.
Definition gauss (D : nat -> nat -> R) (s : R) (i j : nat) : R := exp (- (D i j * D i j) / s).
Lemma gauss_pos D s i j : 0 < gauss D s i j.
Proof. apply exp_pos. Qed.
Lemma gauss_le1 D s i j : 0 < s -> gauss D s i j <= 1.
Proof.
  intros Hs. unfold gauss. rewrite <- exp_0. assert (H : - (D i j * D i j) / s <= 0); [|destruct H as [H| ->]; [apply Rlt_le, exp_increasing; exact H|lra]].
  assert (0 <= D i j * D i j / s) by (apply Rmult_le_pos; [apply Rle_0_sqr|apply Rlt_le, Rinv_0_lt_compat; exact Hs]). unfold Rdiv in *. lra.
Qed.
Lemma existsb_pair l i j : existsb (fun p : nat * nat => (Nat.eqb (fst p) i && Nat.eqb (snd p) j)%bool) l = true <-> In (i, j) l.
Proof.
  rewrite existsb_exists. split.
  - intros ([a b] & H & E). cbn [fst snd] in E. apply andb_true_iff in E. destruct E as (E1 & E2). apply Nat.eqb_eq in E1, E2. subst. exact H.
  - intros H. exists (i, j). split; [exact H|]. cbn [fst snd]. rewrite !Nat.eqb_refl. reflexivity.
Qed.
Lemma matrix_cases D s l W : nn_matrix D s l = Ok W -> forall i j, (s <> 0 -> In (i, j) l -> W i j = gauss D s i j) /\ (~ In (i, j) l -> W i j = 0) /\ (s = 0 -> W i j = 0).
Proof.
  unfold nn_matrix. destruct (Reqb_spec s 0) as [->|Hs].
  - destruct (existsb _ l); [discriminate|]. intros E. injection E as <-. intros i j. split; [congruence|]. split; reflexivity.
  - intros E. injection E as <-. intros i j. destruct (existsb _ l) eqn:Ex; (split; [|split; [|congruence]]).
    + reflexivity.
    + intros H. apply existsb_pair in Ex. contradiction.
    + intros _ H. apply existsb_pair in H. congruence.
    + reflexivity.
Qed.
Lemma finish_ok N d Y D s l sym lap G : valid_lap lap -> nn_finish N d Y D s l sym lap = Ok G ->
  exists W R', nn_matrix D s l = Ok W /\ symmetrize (mkmarg true N N W) sym = Ok R' /\ built G /\ g_n_vertices G = N /\ g_lap_type G = lap /\
    (forall cs, g_coords G = Some cs -> forall i c, (i < N)%nat -> (c < d)%nat -> coord cs i c = Y i c) /\ (exists cs, g_coords G = Some cs /\ List.length cs = N) /\ forall i j, (i < N)%nat -> (j < N)%nat -> wt G i j = R' i j.
Proof.
  intros Hl. unfold nn_finish. destruct (nn_matrix D s l) as [W|] eqn:EW; cbn [bindr]; [|discriminate]. destruct (symmetrize _ sym) as [R'|] eqn:ER; cbn [bindr]; [|discriminate]. intros H. exists W, R'. split; [reflexivity|]. split; [exact ER|].
  match type of H with graph_init _ _ ?cs = _ => destruct (finite_entry_built N (dense N R') lap cs (dense_len _ _) Hl) as (G' & E & Hb & Hn & Ht & Hc & Hw) end. rewrite E in H. injection H as <-.
  split; [exact Hb|]. split; [exact Hn|]. split; [exact Ht|]. split; [|split].
  - intros cs Ecs i c Hi Hcc. rewrite Hc in Ecs. injection Ecs as <-. unfold coord. rewrite (nth_map_seq (fun i => map (fun c => Y i c) (seq 0 d)) N i [] Hi). apply (nth_map_seq (fun c => Y i c) d c 0 Hcc).
  - rewrite Hc. eexists. split; [reflexivity|]. rewrite map_length, seq_length. reflexivity.
  - intros i j Hi Hj. rewrite Hw by assumption. apply dense_nth; assumption.
Qed.
Lemma finish_succeeds N d Y D s l sym lap : valid_lap lap -> In sym sym_methods -> s <> 0 -> exists G, nn_finish N d Y D s l sym lap = Ok G.
Proof.
  intros Hl Hsym Hs. unfold nn_finish, nn_matrix. rewrite Reqb_ne by exact Hs. cbn [bindr].
  match goal with |- context [symmetrize ?A sym] => destruct (proj2 (C32_accepts A sym)) as (R' & ->); [split; [reflexivity|exact Hsym]|] end. cbn [bindr].
  match goal with |- context [graph_init _ _ ?cs] => destruct (finite_entry_built N (dense N R') lap cs (dense_len _ _) Hl) as (G' & E & _) end. exists G'. exact E.
Qed.
(** symmetrizations keep non-negative bounds *)
Lemma sym_bounds N W sym R' b : symmetrize (mkmarg true N N W) sym = Ok R' -> forall i j, 0 <= W i j <= b -> 0 <= W j i <= b -> 0 <= R' i j <= b.
Proof.
  intros H i j B1 B2. destruct (sym_cases _ _ _ H) as (_ & C). cbn [m_get m_sparse] in C.
  destruct C as [(->&->)|[(->&->)|[(->&->)|[(->&->)|(->&->)]]]].
  - unfold sym_average. lra.
  - rewrite sym_max_is_max. unfold Rmax. destruct (Rle_dec _ _); lra.
  - unfold sym_fill, sym_average. rewrite !fill_mask_eq. destruct (Rltb_spec 0 (W i j)), (Rltb_spec 0 (W j i)); cbn [andb negb b2r]; lra.
  - rewrite sym_max_is_max. unfold tril, Rmax. destruct (Nat.leb j i), (Nat.leb i j); destruct (Rle_dec _ _); lra.
  - rewrite sym_max_is_max. unfold triu, Rmax. destruct (Nat.leb j i), (Nat.leb i j); destruct (Rle_dec _ _); lra.
Qed.
(** a symmetric non-negative matrix is unchanged by all five *)
Lemma sym_fixed N W sym R' : symmetrize (mkmarg true N N W) sym = Ok R' -> (forall i j, 0 <= W i j) -> (forall i j, W i j = W j i) -> forall i j, R' i j = W i j.
Proof.
  intros H Hb Hs i j. destruct (sym_cases _ _ _ H) as (_ & C). cbn [m_get m_sparse] in C. pose proof (Hb i j) as B1. pose proof (Hb j i) as B2. pose proof (Hs i j) as S1.
  destruct C as [(->&->)|[(->&->)|[(->&->)|[(->&->)|(->&->)]]]].
  - unfold sym_average. lra.
  - rewrite sym_max_is_max. unfold Rmax. destruct (Rle_dec _ _); lra.
  - unfold sym_fill, sym_average. rewrite !fill_mask_eq. destruct (Rltb_spec 0 (W i j)), (Rltb_spec 0 (W j i)); cbn [andb negb b2r]; lra.
  - rewrite sym_max_is_max. unfold tril, Rmax. destruct (Nat.leb_spec j i), (Nat.leb_spec i j); destruct (Rle_dec _ _); try lra; lia.
  - rewrite sym_max_is_max. unfold triu, Rmax. destruct (Nat.leb_spec j i), (Nat.leb_spec i j); destruct (Rle_dec _ _); try lra; lia.
Qed.
Lemma ball_in N D eps i j : In (i, j) (ball_pairs N D eps) <-> (i < N)%nat /\ (j < N)%nat /\ i <> j /\ D i j <= eps.
Proof.
  unfold ball_pairs. rewrite in_flat_map. split.
  - intros (x & Hx & H). apply in_seq in Hx. apply in_map_iff in H. destruct H as (y & E & H). apply pair_equal_spec in E. destruct E as [-> ->]. apply filter_In in H. destruct H as (H & Hne). apply filter_In in H. destruct H as (Hj & Hd). apply in_seq in Hj. destruct (Nat.eqb_spec j i); [discriminate|]. unfold Rleb in Hd. destruct (Rle_dec _ _); [|discriminate]. repeat split; lia || lra || auto.
  - intros (Hi & Hj & Hne & Hd). exists i. split; [apply in_seq; lia|]. apply in_map_iff. exists j. split; [reflexivity|]. apply filter_In. split; [apply filter_In; split; [apply in_seq; lia|]|].
    + unfold Rleb. destruct (Rle_dec _ _); [reflexivity|contradiction].
    + destruct (Nat.eqb_spec j i); [congruence|reflexivity].
Qed.
Lemma knn_in N NN i j : In (i, j) (knn_pairs N NN) <-> (i < N)%nat /\ In j (tl (NN i)).
Proof.
  unfold knn_pairs. rewrite in_flat_map. split.
  - intros (x & Hx & H). apply in_seq in Hx. apply in_map_iff in H. destruct H as (y & E & H). apply pair_equal_spec in E. destruct E as [-> ->]. split; [lia|exact H].
  - intros (Hi & H). exists i. split; [apply in_seq; lia|]. apply in_map_iff. exists j. split; [reflexivity|exact H].
Qed.
Lemma nn_pairs_nodup N (f : nat -> list nat) : (forall i, (i < N)%nat -> NoDup (f i)) -> NoDup (flat_map (fun i => map (fun j => (i, j)) (f i)) (seq 0 N)).
Proof.
  intros Hf. apply NoDup_flat_map; [apply seq_NoDup| |].
  - intros i Hi. apply in_seq in Hi. apply FinFun.Injective_map_NoDup; [intros a b E; apply pair_equal_spec in E; tauto|apply Hf; lia].
  - intros i i' x _ _ H H'. apply in_map_iff in H. apply in_map_iff in H'. destruct H as (a & <- & _), H' as (b & E & _). apply pair_equal_spec in E. destruct E. auto.
Qed.
Lemma mean_nonneg D l : (forall i j, 0 <= D i j) -> 0 <= nn_mean D l.
Proof.
  intros H. unfold nn_mean. assert (0 <= lsum (map (fun p => D (fst p) (snd p)) l)) by (induction l as [|p l IH]; [cbn; lra|]; cbn [map lsum fold_right]; fold (lsum (map (fun p => D (fst p) (snd p)) l)); pose proof (H (fst p) (snd p)); lra).
  destruct l as [|p l]; [cbn; unfold Rdiv; lra|]. apply Rmult_le_pos; [assumption|]. apply Rlt_le, Rinv_0_lt_compat, lt_0_INR. cbn. lia.
Qed.
Lemma check_good t : nn_dist_check t = Ok tt <-> good_dist t.
Proof.
  destruct t; cbn [nn_dist_check good_dist]; try tauto; try (split; [reflexivity || discriminate|contradiction || reflexivity]).
  destruct (Rltb_spec order 1); split; try reflexivity; try discriminate; intros; lra.
Qed.
Section NN.
Variables (N d : nat) (X : mat) (nntype : string) (center rescale : bool) (k : nat) (sigma : option R) (eps : R) (sym : string) (t : dist_type) (NN : nat -> list nat) (lap : laptype) (G : graph).
Hypothesis Hl : valid_lap lap.
(** which neighbours are recorded in row i *)
Definition nn_list (D : nat -> nat -> R) : list (nat * nat) := if String.eqb nntype "knn" then knn_pairs N NN else ball_pairs N D eps.
Lemma nn_run : NNGraph N d X nntype center rescale k sigma eps sym t NN lap = Ok G ->
  exists Y s, nn_points N d center rescale X = Ok Y /\ (k < N)%nat /\ good_dist t /\ ((nntype = "knn" /\ (1 <= k)%nat) \/ nntype = "radius") /\
    let l := nn_list (nn_dist t d Y) in s = match sigma with Some s => s | None => nn_mean (nn_dist t d Y) l end /\ (sigma = None -> nntype = "radius" -> l <> []) /\ nn_finish N d Y (nn_dist t d Y) s l sym lap = Ok G.
Proof.
  unfold NNGraph, nn_list. destruct (Nat.leb_spec N k) as [|Hk]; [discriminate|]. destruct (nn_points N d center rescale X) as [Y|] eqn:EY; cbn [bindr]; [|discriminate]. cbv zeta.
  destruct (String.eqb_spec nntype "knn") as [En|En].
  - destruct (nn_dist_check t) as [[]|] eqn:Ec; cbn [bindr]; [|discriminate]. apply check_good in Ec. destruct (Nat.eqb_spec k 0); [discriminate|]. intros H. exists Y. eexists. split; [reflexivity|]. split; [exact Hk|]. split; [exact Ec|]. split; [left; split; [exact En|lia]|].
    split; [reflexivity|]. split; [congruence|]. exact H.
  - destruct (String.eqb_spec nntype "radius") as [Er|]; [|discriminate]. destruct (nn_dist_check t) as [[]|] eqn:Ec; cbn [bindr]; [|discriminate]. apply check_good in Ec. intros H. exists Y. eexists. split; [reflexivity|]. split; [exact Hk|]. split; [exact Ec|]. split; [right; exact Er|].
    split; [reflexivity|]. destruct sigma as [s|]; [split; [discriminate|exact H]|]. destruct (ball_pairs N (nn_dist t d Y) eps) as [|p l]; [discriminate|]. split; [discriminate|exact H].
Qed.
Hypothesis HG : NNGraph N d X nntype center rescale k sigma eps sym t NN lap = Ok G.
(** undirected, and for a positive kernel width (as is the default one) all weights lie in [0,1] *)
Theorem C56_graph : built G /\ g_n_vertices G = N /\ undirected G /\ nonneg_weights G /\
  ((forall s, sigma = Some s -> 0 < s) -> forall i j, (i < N)%nat -> (j < N)%nat -> 0 <= wt G i j <= 1) /\ exists cs, g_coords G = Some cs /\ List.length cs = N.
Proof.
  destruct (nn_run HG) as (Y & s & _ & _ & _ & _ & Es & _ & HF). destruct (finish_ok _ _ _ _ _ _ _ _ _ Hl HF) as (W & R' & EW & ER & Hb & Hn & _ & _ & Hcs & Hw).
  pose proof (matrix_cases _ _ _ _ EW) as M. assert (W0 : forall i j, 0 <= W i j). { intros i j. destruct (M i j) as (M1 & M2 & M3). destruct (Req_dec s 0); [rewrite M3; lra|]. destruct (in_dec pair_dec (i, j) (nn_list (nn_dist t d Y))); [rewrite M1 by assumption; apply Rlt_le, gauss_pos|rewrite M2; lra || assumption]. }
  split; [exact Hb|]. split; [exact Hn|]. split; [|split; [|split; [|exact Hcs]]].
  - intros i j Hi Hj. rewrite Hn in *. rewrite !Hw by assumption. apply (C32_symmetric _ _ _ ER).
  - intros i j Hi Hj. rewrite Hn in *. rewrite Hw by assumption.
    apply (sym_bounds N W sym R' (Rmax (W i j) (W j i)) ER i j); (split; [apply W0|]); [apply Rmax_l|apply Rmax_r].
  - intros Hs i j Hi Hj. rewrite Hw by assumption. assert (S0 : 0 <= s) by (rewrite Es; destruct sigma as [s0|]; [apply Rlt_le, Hs; reflexivity|apply mean_nonneg; intros; apply dist_nonneg]).
    assert (W1 : forall i j, W i j <= 1). { clear i j Hi Hj. intros i j. destruct (M i j) as (M1 & M2 & M3). destruct (Req_dec s 0); [rewrite M3; lra|]. destruct (in_dec pair_dec (i, j) (nn_list (nn_dist t d Y))); [rewrite M1 by assumption; apply gauss_le1; lra|rewrite M2; lra || assumption]. }
    apply (sym_bounds N W sym R' 1 ER i j); split; auto.
Qed.
Lemma coord_dist cs Y : (forall i c, (i < N)%nat -> (c < d)%nat -> coord cs i c = Y i c) -> forall i j, (i < N)%nat -> (j < N)%nat -> nn_dist t d (coord cs) i j = nn_dist t d Y i j.
Proof. intros H i j Hi Hj. apply dist_ext. intros c Hc. rewrite !H by assumption. split; reflexivity. Qed.
(** radius graphs: exactly the pairs within epsilon (measured on the coordinates of the graph) are joined, whatever the symmetrization; no self-loop *)
Theorem C56_radius s cs : nntype = "radius" -> sigma = Some s -> s <> 0 -> g_coords G = Some cs -> let D := nn_dist t d (coord cs) in
  loop_free G /\ forall i j, (i < N)%nat -> (j < N)%nat -> i <> j -> (D i j <= eps -> wt G i j = exp (- (D i j * D i j) / s)) /\ (eps < D i j -> wt G i j = 0).
Proof.
  intros En Esig Hs Ecs D. destruct (nn_run HG) as (Y & s' & _ & _ & _ & _ & Es & _ & HF). destruct (finish_ok _ _ _ _ _ _ _ _ _ Hl HF) as (W & R' & EW & ER & Hb & Hn & _ & Hcs & _ & Hw).
  rewrite Esig in Es. subst s'. specialize (Hcs cs Ecs). pose proof (coord_dist cs Y Hcs) as HD. fold D in HD. pose proof (matrix_cases _ _ _ _ EW) as M.
  unfold nn_list in M. rewrite En in M. cbn [String.eqb Ascii.eqb Bool.eqb] in M.
  assert (W0 : forall i j, 0 <= W i j). { intros i j. destruct (M i j) as (M1 & M2 & _). destruct (in_dec pair_dec (i, j) (ball_pairs N (nn_dist t d Y) eps)); [rewrite M1 by assumption; apply Rlt_le, gauss_pos|rewrite M2; lra || assumption]. }
  assert (Ws : forall i j, W i j = W j i).
  { intros i j. destruct (M i j) as (M1 & M2 & _), (M j i) as (M1' & M2' & _). assert (Q : In (i, j) (ball_pairs N (nn_dist t d Y) eps) <-> In (j, i) (ball_pairs N (nn_dist t d Y) eps)) by (rewrite !ball_in, (dist_sym t d Y i j); intuition congruence).
    destruct (in_dec pair_dec (i, j) (ball_pairs N (nn_dist t d Y) eps)) as [I|I]; [rewrite M1, M1' by tauto; unfold gauss; rewrite (dist_sym t d Y i j); reflexivity|rewrite M2, M2' by tauto; reflexivity]. }
  pose proof (sym_fixed _ _ _ _ ER W0 Ws) as F. split.
  - intros i Hi. rewrite Hn in Hi. rewrite Hw, F by assumption. apply (proj1 (proj2 (M i i))). rewrite ball_in. tauto.
  - intros i j Hi Hj Hne. rewrite Hw, F, HD by assumption. split; intros H.
    + apply (proj1 (M i j)); [exact Hs|]. apply ball_in. tauto.
    + apply (proj1 (proj2 (M i j))). rewrite ball_in. intros (_ & _ & _ & H'). lra.
Qed.
(** knn graphs: w(i,j) = exp(-d^2/sigma) if j is in row i of the answer after the first, 0 otherwise; the symmetrization combines w(i,j) and w(j,i) *)
Theorem C56_knn s cs : nntype = "knn" -> sigma = Some s -> s <> 0 -> g_coords G = Some cs -> let D := nn_dist t d (coord cs) in
  let w i j := if in_dec Nat.eq_dec j (tl (NN i)) then exp (- (D i j * D i j) / s) else 0 in
  forall i j, (i < N)%nat -> (j < N)%nat ->
    (sym = "average" -> wt G i j = (w i j + w j i) / 2) /\ (sym = "maximum" \/ sym = "fill" -> wt G i j = Rmax (w i j) (w j i)) /\
    (sym = "tril" -> (j <= i)%nat -> wt G i j = w i j) /\ (sym = "triu" -> (i <= j)%nat -> wt G i j = w i j).
Proof.
  intros En Esig Hs Ecs D w. destruct (nn_run HG) as (Y & s' & _ & _ & _ & _ & Es & _ & HF). destruct (finish_ok _ _ _ _ _ _ _ _ _ Hl HF) as (W & R' & EW & ER & Hb & Hn & _ & Hcs & _ & Hw).
  rewrite Esig in Es. subst s'. specialize (Hcs cs Ecs). pose proof (coord_dist cs Y Hcs) as HD. fold D in HD. pose proof (matrix_cases _ _ _ _ EW) as M.
  unfold nn_list in M. rewrite En in M. cbn [String.eqb Ascii.eqb Bool.eqb] in M.
  assert (MW : forall i j, (i < N)%nat -> (j < N)%nat -> W i j = w i j).
  { intros i j Hi Hj. unfold w. destruct (M i j) as (M1 & M2 & _). destruct (in_dec Nat.eq_dec j (tl (NN i))) as [I|I].
    - rewrite M1; [|exact Hs|apply knn_in; tauto]. unfold gauss. rewrite HD by assumption. reflexivity.
    - apply M2. rewrite knn_in. tauto. }
  assert (Hpos : forall i j, 0 <= w i j) by (intros i j; unfold w; destruct (in_dec _ _ _); [apply Rlt_le, exp_pos|lra]).
  intros i j Hi Hj. rewrite Hw by assumption. split; [|split; [|split]].
  - intros ->. rewrite (C32_average _ _ ER). cbn [m_get]. rewrite !MW by assumption. reflexivity.
  - intros [E|E]; rewrite E in ER.
    + rewrite (C32_maximum _ _ ER). cbn [m_get]. rewrite !MW by assumption. reflexivity.
    + destruct (C32_fill _ _ ER i j) as (F1 & F2 & F3); cbn [m_get] in *; rewrite ?MW in * by assumption; try apply Hpos. pose proof (Hpos i j) as P1. pose proof (Hpos j i) as P2.
      destruct (Req_dec (w j i) 0) as [Z1|Z1]; [rewrite F2, Z1 by exact Z1; symmetry; apply Rmax_left; exact P1|]. destruct (Req_dec (w i j) 0) as [Z2|Z2]; [rewrite F3, Z2 by exact Z2; symmetry; apply Rmax_right; exact P2|].
      rewrite F1 by lra. assert (Ew : w i j = w j i). { unfold w in *. destruct (in_dec Nat.eq_dec j (tl (NN i))); [|lra]. destruct (in_dec Nat.eq_dec i (tl (NN j))); [|lra]. unfold D. rewrite (dist_sym t d _ i j). reflexivity. }
      rewrite Ew, Rmax_left by lra. field.
  - intros E Hij. rewrite E in ER. destruct (C32_tril _ _ ER i j Hij) as (-> & _); cbn [m_get]; rewrite MW by assumption; [apply Hpos|reflexivity].
  - intros E Hij. rewrite E in ER. destruct (C32_triu _ _ ER i j Hij) as (-> & _); cbn [m_get]; rewrite MW by assumption; [apply Hpos|reflexivity].
Qed.
(** without sigma, the width is the mean of the recorded distances: the graph is the one built with that width *)
Theorem C56_default_sigma : sigma = None -> exists s, NNGraph N d X nntype center rescale k (Some s) eps sym t NN lap = Ok G /\ 0 <= s /\
  forall cs, g_coords G = Some cs -> let D := nn_dist t d (coord cs) in
    (nntype = "radius" -> exists l, NoDup l /\ l <> [] /\ (forall i j, In (i, j) l <-> (i < N)%nat /\ (j < N)%nat /\ i <> j /\ D i j <= eps) /\ s * INR (List.length l) = lsum (map (fun p => D (fst p) (snd p)) l)) /\
    (nntype = "knn" -> (forall i, (i < N)%nat -> List.length (NN i) = S k /\ forall j, In j (NN i) -> (j < N)%nat) -> s * (INR N * INR k) = \sum_(i < N) lsum (map (D i) (tl (NN i)))).
Proof.
  intros Esig. destruct (nn_run HG) as (Y & s & EY & Hk & Hg & Hty & Es & Hne & HF). destruct (finish_ok _ _ _ _ _ _ _ _ _ Hl HF) as (W & R' & EW & ER & Hb & Hn & _ & Hcs & _ & Hw). rewrite Esig in Es. cbv zeta in Es, Hne.
  exists s. split; [|split].
  - unfold NNGraph. destruct (Nat.leb_spec N k); [lia|]. rewrite EY. cbn [bindr]. cbv zeta. apply check_good in Hg. rewrite Hg. cbn [bindr]. unfold nn_list in HF. destruct Hty as [(-> & H1)| ->]; cbn [String.eqb Ascii.eqb Bool.eqb] in *; [destruct (Nat.eqb_spec k 0); [lia|]|]; exact HF.
  - rewrite Es. apply mean_nonneg. intros; apply dist_nonneg.
  - intros cs Ecs D. specialize (Hcs cs Ecs). pose proof (coord_dist cs Y Hcs) as HD. fold D in HD. split; intros En.
    + specialize (Hne Esig En). unfold nn_list in Es, Hne. rewrite En in Es, Hne. cbn [String.eqb Ascii.eqb Bool.eqb] in Es, Hne. set (l := ball_pairs N (nn_dist t d Y) eps) in *. exists l. split; [|split; [exact Hne|split]].
      * unfold l, ball_pairs. apply (nn_pairs_nodup N (fun i => filter (fun j => negb (Nat.eqb j i)) (filter (fun j => Rleb (nn_dist t d Y i j) eps) (seq 0 N)))). intros i _. apply NoDup_filter, NoDup_filter, seq_NoDup.
      * intros i j. unfold l. rewrite ball_in. split; intros (H1 & H2 & H3 & H4); rewrite HD in * by assumption; tauto.
      * rewrite Es. unfold nn_mean. assert (INR (List.length l) <> 0) by (destruct l; [congruence|apply not_0_INR; cbn; lia]). rewrite (lsum_map_ext l (fun p => D (fst p) (snd p)) (fun p => nn_dist t d Y (fst p) (snd p))).
        -- field. assumption.
        -- intros [i j] Hin. unfold l in Hin. apply ball_in in Hin. cbn [fst snd]. apply HD; tauto.
    + intros Hq. unfold nn_list in Es. rewrite En in Es. cbn [String.eqb Ascii.eqb Bool.eqb] in Es. destruct Hty as [(_ & H1)|H1]; [|congruence].
      assert (Len : List.length (knn_pairs N NN) = (N * k)%nat).
      { unfold knn_pairs. rewrite flat_map_length_sum, (map_ext_in _ (fun _ => k)).
        - clear. generalize 0%nat. induction N as [|n IH]; intros a; [reflexivity|]. cbn [seq map list_sum fold_right]. change (fold_right Nat.add 0%nat) with list_sum. rewrite IH. lia.
        - intros i Hi. apply in_seq in Hi. rewrite map_length. destruct (Hq i) as (Hl1 & _); [lia|]. destruct (NN i); cbn in *; lia. }
      rewrite Es. unfold nn_mean. rewrite Len, mult_INR. rewrite <- lsum_map_seq0. unfold knn_pairs.
      assert (Sm : forall a n, (a + n <= N)%nat -> lsum (map (fun p => nn_dist t d Y (fst p) (snd p)) (flat_map (fun i => map (fun j => (i, j)) (tl (NN i))) (seq a n))) = lsum (map (fun i => lsum (map (D i) (tl (NN i)))) (seq a n))).
      { intros a n. revert a. induction n as [|n IH]; intros a Ha; [reflexivity|]. cbn [seq flat_map map]. rewrite map_app, lsum_app, IH by lia. cbn [lsum fold_right]. f_equal. rewrite map_map. cbn [fst snd]. apply lsum_map_ext. intros j Hj. symmetry. apply HD; [lia|]. apply (Hq a); [lia|]. destruct (NN a); [destruct Hj|right; exact Hj]. }
      rewrite Sm by lia. set (S := lsum _). assert (INR N <> 0) by (apply not_0_INR; lia). assert (INR k <> 0) by (apply not_0_INR; lia). field. split; assumption.
Qed.
End NN.
(** ** The k-nearest-neighbour query *)
(** contract of KDTree.query(k + 1): k + 1 different points by increasing distance, none of the others closer *)
Definition knn_query (N k : nat) (D : nat -> nat -> R) (NN : nat -> list nat) : Prop :=
  forall i, (i < N)%nat -> List.length (NN i) = S k /\ NoDup (NN i) /\ (forall j, In j (NN i) -> (j < N)%nat) /\ StronglySorted (fun a b => D i a <= D i b) (NN i) /\
    forall a j, In a (NN i) -> (j < N)%nat -> ~ In j (NN i) -> D i a <= D i j.
Lemma knn_first N k d t Y NN i : good_dist t -> knn_query N k (nn_dist t d Y) NN -> (forall i j, (i < N)%nat -> (j < N)%nat -> same_point d Y i j -> i = j) -> (i < N)%nat ->
  exists l, NN i = i :: l /\ List.length l = k /\ NoDup l /\ ~ In i l.
Proof.
  intros Hg Hq Hd Hi. destruct (Hq i Hi) as (Q1 & Q2 & Q3 & Q4 & Q5). set (D := nn_dist t d Y) in *. assert (D0 : D i i = 0) by (apply dist_0; [exact Hg|intros c _; reflexivity]).
  assert (Z : forall a, (a < N)%nat -> D i a <= 0 -> a = i). { intros a Ha H. symmetry. apply Hd; [exact Hi|exact Ha|]. apply (dist_0 t d Y i a Hg). pose proof (dist_nonneg t d Y i a). fold D. fold D in H0. lra. }
  destruct (NN i) as [|h l] eqn:E; [discriminate|]. assert (Hh : (h < N)%nat) by (apply Q3; left; reflexivity). assert (h = i).
  { apply Z; [exact Hh|]. rewrite <- D0. destruct (in_dec Nat.eq_dec i (h :: l)) as [[->|I]|I]; [lra| |apply Q5; [left; reflexivity|exact Hi|exact I]]. apply StronglySorted_inv in Q4. destruct Q4 as (_ & Q4). rewrite Forall_forall in Q4. apply Q4. exact I. }
  subst h. exists l. split; [reflexivity|]. split; [cbn in Q1; lia|]. inversion Q2; subst. split; assumption.
Qed.
(** With distinct points: no self-loop, and (average, maximum, fill) every vertex is joined to k others none of which is farther than a vertex left out. *)
Theorem C56_knn_neighbours N d X center rescale k s eps sym t NN lap G cs : valid_lap lap -> NNGraph N d X "knn" center rescale k (Some s) eps sym t NN lap = Ok G -> s <> 0 -> g_coords G = Some cs ->
  let D := nn_dist t d (coord cs) in knn_query N k D NN -> (forall i j, (i < N)%nat -> (j < N)%nat -> same_point d (coord cs) i j -> i = j) ->
  loop_free G /\
  (sym = "average" \/ sym = "maximum" \/ sym = "fill" -> forall i, (i < N)%nat -> exists l, NoDup l /\ List.length l = k /\ (forall j, In j l -> (j < N)%nat /\ j <> i /\ 0 < wt G i j) /\
     forall j j', In j l -> (j' < N)%nat -> j' <> i -> ~ In j' l -> D i j <= D i j').
Proof.
  intros Hl HG Hs Ecs D Hq Hd. destruct (nn_run _ _ _ _ _ _ _ _ _ _ _ _ _ _ HG) as (Y & s' & _ & _ & Hg & _). destruct (C56_graph _ _ _ _ _ _ _ _ _ _ _ _ _ _ Hl HG) as (Hb & Hn & Hu & _).
  pose proof (C56_knn _ _ _ _ _ _ _ _ _ _ _ _ _ _ Hl HG s cs eq_refl eq_refl Hs Ecs) as K. cbv zeta in K. fold D in K. set (w := fun i j : nat => if in_dec Nat.eq_dec j (tl (NN i)) then exp (- (D i j * D i j) / s) else 0).
  assert (Wp : forall i j, 0 <= w i j) by (intros i j; unfold w; destruct (in_dec _ _ _); [apply Rlt_le, exp_pos|lra]).
  split.
  - intros i Hi. rewrite Hn in Hi. destruct (knn_first N k d t (coord cs) NN i Hg Hq Hd Hi) as (l & E & _ & _ & Hni). assert (w0 : w i i = 0) by (unfold w; rewrite E; cbn [tl]; destruct (in_dec _ _ _); [contradiction|reflexivity]).
    destruct (K i i Hi Hi) as (K1 & K2 & K3 & K4). fold (w i i) in K1, K2, K3, K4. rewrite w0 in *. 
    assert (Hm : In sym sym_methods). { destruct (nn_run _ _ _ _ _ _ _ _ _ _ _ _ _ _ HG) as (Y2 & s2 & _ & _ & _ & _ & _ & _ & HF). destruct (finish_ok _ _ _ _ _ _ _ _ _ Hl HF) as (W & R' & _ & ER & _). apply (C32_accepts (mkmarg true N N W)). exists R'. exact ER. }
    unfold sym_methods in Hm. cbn in Hm. destruct Hm as [H|[H|[H|[H|[H|[]]]]]]; symmetry in H; [rewrite K1 by exact H; lra|rewrite K2 by (left; exact H); apply Rmax_left; lra|rewrite K2 by (right; exact H); apply Rmax_left; lra|apply K3; [exact H|lia]|apply K4; [exact H|lia]].
  - intros Hm i Hi. destruct (knn_first N k d t (coord cs) NN i Hg Hq Hd Hi) as (l & E & Ll & Nl & Hni). destruct (Hq i Hi) as (_ & _ & Q3 & Q4 & Q5). rewrite E in Q3, Q4, Q5. exists l. split; [exact Nl|]. split; [exact Ll|]. split.
    + intros j Hj. assert (Hj' : (j < N)%nat) by (apply Q3; right; exact Hj). split; [exact Hj'|]. split; [intros ->; contradiction|]. destruct (K i j Hi Hj') as (K1 & K2 & _). fold (w i j) (w j i) in K1, K2. pose proof (Wp j i) as P2.
      assert (P1 : 0 < w i j) by (unfold w; rewrite E; cbn [tl]; destruct (in_dec _ _ _); [apply exp_pos|contradiction]). pose proof (Rmax_l (w i j) (w j i)).
      destruct Hm as [H'|H']; [rewrite K1 by exact H'; lra|rewrite K2 by exact H'; lra].
    + intros j j' Hj Hj' Hne Hni'. apply Q5; [right; exact Hj|exact Hj'|]. intros [H|H]; [congruence|contradiction].
Qed.
(** ** Points *)
Lemma scaled_radius N d Y a : 0 < a -> nn_radius N d (fun i c => a * Y i c) = a * nn_radius N d Y.
Proof.
  intros Ha. unfold nn_radius. assert (E : forall c, col_max N (fun i c => a * Y i c) c - col_min N (fun i c => a * Y i c) c = a * (col_max N Y c - col_min N Y c)).
  { intros c. unfold col_max, col_min. rewrite <- (map_map (fun i => Y i c) (Rmult a)). rewrite fold_max_scale, fold_min_scale by exact Ha. ring. }
  rewrite (rsum_ext d _ (fun c => (a * a) * ((col_max N Y c - col_min N Y c) * (col_max N Y c - col_min N Y c)))) by (intros; rewrite E; ring).
  rewrite rsum_scal_l, sqrt_mult; [|nra|apply rsum_nonneg; intros; apply Rle_0_sqr]. rewrite sqrt_square by lra. ring.
Qed.
Lemma radius_nonneg N d Y : 0 <= nn_radius N d Y.
Proof. unfold nn_radius. pose proof (sqrt_pos (\sum_(c < d) ((col_max N Y c - col_min N Y c) * (col_max N Y c - col_min N Y c)))). lra. Qed.
Lemma scale_pos N d : 0 < nn_scale N d.
Proof. unfold nn_scale. pose proof (exp_pos (1 / INR (Nat.min d 3) * ln (INR N))). unfold Rpower. lra. Qed.
Lemma nn_points_mult N d center Y X : nn_points N d center true X = Ok Y -> exists f, 0 < f /\ (forall i c, Y i c = f * nn_center N center X i c) /\ nn_radius N d Y = nn_scale N d.
Proof.
  unfold nn_points. cbv zeta. destruct (Reqb_spec (nn_radius N d (nn_center N center X)) 0) as [|Hr]; [discriminate|]. intros E. injection E as <-. pose proof (radius_nonneg N d (nn_center N center X)). pose proof (scale_pos N d).
  assert (Hf : 0 < nn_scale N d / nn_radius N d (nn_center N center X)) by (apply Rdiv_lt_0_compat; lra). exists (nn_scale N d / nn_radius N d (nn_center N center X)). split; [exact Hf|]. split; [intros; ring|].
  replace (fun i c => nn_center N center X i c * (nn_scale N d / nn_radius N d (nn_center N center X))) with (fun i c => (nn_scale N d / nn_radius N d (nn_center N center X)) * nn_center N center X i c) by (apply functional_extensionality; intros i; apply functional_extensionality; intros c; ring).
  rewrite scaled_radius by exact Hf. field. exact Hr.
Qed.
(** centring makes every column sum to zero; rescaling brings half the diagonal of the bounding box to N^(1/min(d,3))/10 and keeps the shape *)
Theorem C56_points N d X nntype center rescale k sigma eps sym t NN lap G cs : valid_lap lap -> NNGraph N d X nntype center rescale k sigma eps sym t NN lap = Ok G -> g_coords G = Some cs ->
  (center = true -> forall c, (c < d)%nat -> \sum_(i < N) coord cs i c = 0) /\ (rescale = true -> nn_radius N d (coord cs) = nn_scale N d) /\
  exists f, 0 < f /\ (rescale = false -> f = 1) /\ forall i j c, (i < N)%nat -> (j < N)%nat -> (c < d)%nat -> coord cs i c - coord cs j c = f * (X i c - X j c).
Proof.
  intros Hl HG Ecs. destruct (nn_run _ _ _ _ _ _ _ _ _ _ _ _ _ _ HG) as (Y & s & EY & Hk & _ & _ & _ & _ & HF). destruct (finish_ok _ _ _ _ _ _ _ _ _ Hl HF) as (W & R' & _ & _ & _ & _ & _ & Hcs & _). specialize (Hcs cs Ecs).
  assert (HN : INR N <> 0) by (apply not_0_INR; lia).
  assert (F : exists f, 0 < f /\ (rescale = false -> f = 1) /\ forall i c, Y i c = f * nn_center N center X i c).
  { destruct rescale; [apply nn_points_mult in EY; destruct EY as (f & H1 & H2 & _); exists f; split; [exact H1|]; split; [discriminate|exact H2]|]. exists 1. split; [lra|]. split; [reflexivity|]. unfold nn_points in EY. injection EY as <-. intros; ring. }
  destruct F as (f & F1 & F2 & F3). split; [|split].
  - intros -> c Hc. rewrite (rsum_ext N _ (fun i => f * (X i c - (\sum_(k < N) X k c) / INR N))) by (intros i Hi; rewrite Hcs, F3 by assumption; reflexivity). rewrite rsum_scal_l, rsum_minus, rsum_const. field. exact HN.
  - intros ->. apply nn_points_mult in EY. destruct EY as (_ & _ & _ & E). rewrite <- E. unfold nn_radius. f_equal. f_equal. apply rsum_ext. intros c Hc.
    assert (C : col_max N (coord cs) c = col_max N Y c /\ col_min N (coord cs) c = col_min N Y c).
    { unfold col_max, col_min. rewrite (Hcs 0%nat c) by lia. rewrite (map_ext_in (fun i => coord cs i c) (fun i => Y i c)) by (intros i Hi; apply in_seq in Hi; apply Hcs; lia). split; reflexivity. }
    destruct C as (-> & ->). reflexivity.
  - exists f. split; [exact F1|]. split; [exact F2|]. intros i j c Hi Hj Hc. rewrite !Hcs, !F3 by assumption. unfold nn_center. destruct center; ring.
Qed.
(** With centring and rescaling, moving and enlarging the points changes nothing. *)
Theorem C56_invariant N d X a b nntype k sigma eps sym t NN lap : 0 < a ->
  NNGraph N d (fun i c => a * X i c + b c) nntype true true k sigma eps sym t NN lap = NNGraph N d X nntype true true k sigma eps sym t NN lap.
Proof.
  intros Ha. unfold NNGraph. destruct (Nat.leb_spec N k) as [|Hk]; [reflexivity|]. assert (HN : INR N <> 0) by (apply not_0_INR; lia).
  replace (nn_points N d true true (fun i c => a * X i c + b c)) with (nn_points N d true true X); [reflexivity|]. unfold nn_points. cbv zeta. cbn [nn_center]. set (Y := fun i c : nat => X i c - (\sum_(k0 < N) X k0 c) / INR N).
  assert (E : (fun i c => a * X i c + b c - (\sum_(k0 < N) (a * X k0 c + b c)) / INR N) = (fun i c => a * Y i c)).
  { apply functional_extensionality; intros i. apply functional_extensionality; intros c. unfold Y. rewrite rsum_plus, rsum_scal_l, rsum_const. field. exact HN. }
  rewrite E. rewrite (scaled_radius N d Y a Ha). destruct (Reqb_spec (nn_radius N d Y) 0) as [Z|Z].
  - rewrite Z, Rmult_0_r, Reqb_refl. reflexivity.
  - rewrite Reqb_ne by (intros H; apply Rmult_integral in H; lra). f_equal. apply functional_extensionality; intros i. apply functional_extensionality; intros c. change (X i c - (\sum_(k0 < N) X k0 c) / INR N) with (Y i c). replace (a * X i c + b c - (\sum_(k0 < N) (a * X k0 c + b c)) / INR N) with (a * Y i c) by (symmetry; exact (f_equal (fun h => h i c) E)). field. split; lra.
Qed.
(** ** What is rejected, what succeeds *)
Theorem C56_rejected N d X nntype center rescale k sigma eps sym t NN lap :
  let call := NNGraph N d X nntype center rescale k sigma eps sym t NN lap in
  ((N <= k)%nat -> call = Raise ValueError) /\
  ((k < N)%nat -> nntype <> "knn" -> nntype <> "radius" -> call = Raise ValueError) /\
  ((k < N)%nat -> rescale = true -> (forall i j, (i < N)%nat -> (j < N)%nat -> same_point d X i j) -> call = Raise ValueError) /\
  (forall Y, (k < N)%nat -> nn_points N d center rescale X = Ok Y -> nntype = "knn" \/ nntype = "radius" -> t = OtherDist -> call = Raise KeyError) /\
  (forall Y p, (k < N)%nat -> nn_points N d center rescale X = Ok Y -> nntype = "knn" \/ nntype = "radius" -> t = MinkowskiD p -> p < 1 -> call = Raise ValueError) /\
  (forall Y, (k < N)%nat -> nn_points N d center rescale X = Ok Y -> good_dist t -> nntype = "radius" -> sigma = None -> (forall i j, (i < N)%nat -> (j < N)%nat -> i <> j -> eps < nn_dist t d Y i j) -> call = Raise ValueError) /\
  (forall Y, (k < N)%nat -> nn_points N d center rescale X = Ok Y -> good_dist t -> nntype = "knn" -> k = 0%nat -> call = Raise IndexError) /\
  (~ In sym sym_methods -> forall G, call <> Ok G).
Proof.
  cbv zeta. split; [|split; [|split; [|split; [|split; [|split; [|split]]]]]].
  - intros H. unfold NNGraph. destruct (Nat.leb_spec N k); [reflexivity|lia].
  - intros Hk H1 H2. unfold NNGraph. destruct (Nat.leb_spec N k); [reflexivity|]. destruct (String.eqb_spec nntype "knn"); [contradiction|]. destruct (String.eqb_spec nntype "radius"); [contradiction|].
    destruct (nn_points N d center rescale X) as [Y|x] eqn:E; [reflexivity|]. unfold nn_points in E. destruct rescale; [|discriminate]. destruct (Reqb _ 0); [|discriminate]. injection E as <-. reflexivity.
  - intros Hk -> H. unfold NNGraph. destruct (Nat.leb_spec N k); [reflexivity|]. unfold nn_points. cbv zeta. replace (nn_radius N d (nn_center N center X)) with 0; [rewrite Reqb_refl; reflexivity|]. unfold nn_radius.
    rewrite rsum_0; [rewrite sqrt_0; ring|]. intros c Hc.
    assert (C : forall i, (i < N)%nat -> nn_center N center X i c = nn_center N center X 0%nat c) by (intros i Hi; unfold nn_center; destruct center; rewrite (H i 0%nat Hi ltac:(lia) c Hc); reflexivity).
    assert (M : forall op l x, op x x = x -> (forall y, In y l -> y = x) -> fold_left op l x = x :> R). { intros op l x Hop. induction l as [|y l IH]; intros Hy; [reflexivity|]. cbn [fold_left]. rewrite (Hy y (or_introl eq_refl)), Hop. apply IH. intros z Hz. apply Hy. right. exact Hz. }
    unfold col_max, col_min. rewrite !M; [ring| | | |]; try (intros y Hy; apply in_map_iff in Hy; destruct Hy as (i & <- & Hi); apply in_seq in Hi; apply C; lia); [apply Rmin_left|apply Rmax_left]; lra.
  - intros Y Hk EY Hty ->. unfold NNGraph. destruct (Nat.leb_spec N k); [lia|]. rewrite EY. cbn [bindr nn_dist_check]. destruct Hty as [-> | ->]; reflexivity.
  - intros Y p Hk EY Hty -> Hp. unfold NNGraph. destruct (Nat.leb_spec N k); [lia|]. rewrite EY. cbn [bindr nn_dist_check]. destruct (Rltb_spec p 1); [|lra]. destruct Hty as [-> | ->]; reflexivity.
  - intros Y Hk EY Hg -> -> H. unfold NNGraph. destruct (Nat.leb_spec N k); [lia|]. rewrite EY. cbn [bindr]. cbv zeta. apply check_good in Hg. rewrite Hg. cbn [bindr String.eqb Ascii.eqb Bool.eqb].
    destruct (ball_pairs N (nn_dist t d Y) eps) as [|[i j] l] eqn:El; [reflexivity|]. exfalso. assert (Hin : In (i, j) (ball_pairs N (nn_dist t d Y) eps)) by (rewrite El; left; reflexivity). apply ball_in in Hin. destruct Hin as (H1 & H2 & H3 & H4). specialize (H i j H1 H2 H3). lra.
  - intros Y Hk EY Hg -> ->. unfold NNGraph. destruct (Nat.leb_spec N 0); [lia|]. rewrite EY. cbn [bindr]. cbv zeta. apply check_good in Hg. rewrite Hg. reflexivity.
  - intros Hs G HG. apply Hs. destruct (nn_run _ _ _ _ _ _ _ _ _ _ _ _ _ _ HG) as (Y & s & _ & _ & _ & _ & _ & _ & HF). unfold nn_finish in HF. destruct (nn_matrix _ _ _) as [W|]; [|discriminate]. cbn [bindr] in HF. destruct (symmetrize (mkmarg true N N W) sym) as [R'|] eqn:ER; [|discriminate]. apply (C32_accepts (mkmarg true N N W)). exists R'. exact ER.
Qed.
Lemma points_ok N d X center rescale : (1 <= N)%nat -> (rescale = true -> exists i j c, (i < N)%nat /\ (j < N)%nat /\ (c < d)%nat /\ X i c <> X j c) -> exists Y, nn_points N d center rescale X = Ok Y.
Proof.
  intros HN H. unfold nn_points. cbv zeta. destruct rescale; [|eauto]. destruct (H eq_refl) as (i & j & c & Hi & Hj & Hc & Hne). destruct (Reqb_spec (nn_radius N d (nn_center N center X)) 0) as [E|]; [|eauto]. exfalso.
  unfold nn_radius in E. set (Y := nn_center N center X) in *. assert (Yne : Y i c <> Y j c) by (unfold Y, nn_center; destruct center; lra).
  assert (E0 : \sum_(c < d) ((col_max N Y c - col_min N Y c) * (col_max N Y c - col_min N Y c)) = 0) by (apply sqrt_eq_0; [apply rsum_nonneg; intros; apply Rle_0_sqr|lra]).
  pose proof (sum0 _ _ (fun k _ => Rle_0_sqr (col_max N Y k - col_min N Y k)) E0 c Hc) as Z. cbv beta in Z. apply Rmult_integral in Z.
  assert (B : forall v, (v < N)%nat -> col_min N Y c <= Y v c <= col_max N Y c).
  { intros v Hv. unfold col_min, col_max. split.
    - assert (Q : forall l a, fold_left Rmin l a <= a /\ forall x, In x l -> fold_left Rmin l a <= x).
      { induction l as [|y l IH]; intros a; cbn [fold_left]; [split; [lra|intros x []]|]. destruct (IH (Rmin a y)) as (H1 & H2). pose proof (Rmin_l a y). pose proof (Rmin_r a y). split; [lra|]. intros x [<-|Hx]; [lra|]. apply H2. exact Hx. }
      destruct (Q (map (fun i => Y i c) (seq 1 (N - 1))) (Y 0%nat c)) as (Q1 & Q2). destruct (Nat.eq_dec v 0) as [->|Hv0]; [exact Q1|]. apply Q2. apply in_map_iff. exists v. split; [reflexivity|apply in_seq; lia].
    - destruct (fold_max_ge (map (fun i => Y i c) (seq 1 (N - 1))) (Y 0%nat c)) as (Q1 & Q2). destruct (Nat.eq_dec v 0) as [->|Hv0]; [exact Q1|]. apply Q2. apply in_map_iff. exists v. split; [reflexivity|apply in_seq; lia]. }
  pose proof (B i Hi). pose proof (B j Hj). lra.
Qed.
Theorem C56_succeeds N d X nntype center rescale k s eps sym t NN lap : valid_lap lap -> (k < N)%nat -> nntype = "knn" /\ (1 <= k)%nat \/ nntype = "radius" -> In sym sym_methods -> good_dist t -> s <> 0 ->
  (rescale = true -> exists i j c, (i < N)%nat /\ (j < N)%nat /\ (c < d)%nat /\ X i c <> X j c) -> exists G, NNGraph N d X nntype center rescale k (Some s) eps sym t NN lap = Ok G.
Proof.
  intros Hl Hk Hty Hsym Hg Hs Hp. destruct (points_ok N d X center rescale ltac:(lia) Hp) as (Y & EY). unfold NNGraph. destruct (Nat.leb_spec N k); [lia|]. rewrite EY. cbn [bindr]. cbv zeta. apply check_good in Hg. rewrite Hg. cbn [bindr].
  destruct Hty as [(-> & H1)| ->]; cbn [String.eqb Ascii.eqb Bool.eqb]; [destruct (Nat.eqb_spec k 0); [lia|]|]; apply finish_succeeds; assumption.
Qed.
(** Finding: k plays no role in radius graphs, except that they are rejected when it is at least the number of points (the default is 10). *)
Theorem C56_radius_rejected_for_k_refuted N d X center rescale k k' sigma eps sym t NN lap :
  ((k < N)%nat -> (k' < N)%nat -> NNGraph N d X "radius" center rescale k sigma eps sym t NN lap = NNGraph N d X "radius" center rescale k' sigma eps sym t NN lap) /\
  ((N <= 10)%nat -> NNGraph N d X "radius" center rescale 10 sigma eps sym t NN lap = Raise ValueError).
Proof.
  unfold NNGraph. split; [intros H H'; destruct (Nat.leb_spec N k); [lia|]; destruct (Nat.leb_spec N k'); [lia|]; reflexivity|]. intros H. destruct (Nat.leb_spec N 10); [reflexivity|lia].
Qed.
(** Finding: when points coincide, a correct query may put another point before the vertex itself, which then gets a self-loop. *)
Definition co_X : mat := fun i _ => if Nat.eqb i 2 then 1 else 0.
Definition co_NN (i : nat) : list nat := match i with 2%nat => [2; 0]%nat | _ => [0; 1]%nat end.
Lemma co_dist i j : nn_dist Euclidean 1 co_X i j = if Bool.eqb (Nat.eqb i 2) (Nat.eqb j 2) then 0 else 1.
Proof.
  cbn [nn_dist rsum]. unfold co_X. destruct (Nat.eqb i 2), (Nat.eqb j 2); cbn [Bool.eqb]; match goal with |- sqrt ?x = _ => ring_simplify x end; try apply sqrt_0; try apply sqrt_1.
Qed.
Theorem C56_coincident_loops_refuted lap : valid_lap lap -> knn_query 3 1 (nn_dist Euclidean 1 co_X) co_NN /\
  exists G, NNGraph 3 1 co_X "knn" false false 1 (Some 1) 0 "average" Euclidean co_NN lap = Ok G /\ g_n_vertices G = 3%nat /\ wt G 1 1 = 1.
Proof.
  intros Hl. split.
  - intros i Hi. split; [|split; [|split; [|split]]].
    + destruct i as [|[|[|i]]]; reflexivity.
    + destruct i as [|[|[|i]]]; cbn [co_NN]; try lia; repeat constructor; cbn; intuition lia.
    + destruct i as [|[|[|i]]]; cbn [co_NN]; intros j Hj; cbn in Hj; intuition lia.
    + destruct i as [|[|[|i]]]; cbn [co_NN]; try lia; repeat constructor; rewrite !co_dist; cbn; lra.
    + intros a j Ha Hj Hn. rewrite !co_dist. destruct i as [|[|[|i]]]; try lia; destruct a as [|[|[|a]]]; destruct j as [|[|[|j]]]; cbn in *; try lra; try lia; intuition (try lia; try lra).
  - destruct (C56_succeeds 3 1 co_X "knn" false false 1 1 0 "average" Euclidean co_NN lap) as (G & HG); [assumption|lia|left; split; [reflexivity|lia]|left; reflexivity|exact I|lra|discriminate|].
    exists G. split; [exact HG|]. destruct (C56_graph _ _ _ _ _ _ _ _ _ _ _ _ _ _ Hl HG) as (_ & Hn & _ & _ & _ & cs & Ecs & _). split; [exact Hn|].
    destruct (C56_knn _ _ _ _ _ _ _ _ _ _ _ _ _ _ Hl HG 1 cs eq_refl eq_refl ltac:(lra) Ecs 1%nat 1%nat) as (K & _); try lia. rewrite K by reflexivity. cbn [co_NN tl]. destruct (in_dec Nat.eq_dec 1%nat [1%nat]) as [_|Hno]; [|exfalso; apply Hno; left; reflexivity].
    replace (nn_dist Euclidean 1 (coord cs) 1 1) with 0 by (symmetry; apply dist_0; [exact I|intros c _; reflexivity]). rewrite Rmult_0_l. replace (- 0 / 1) with 0 by field. rewrite exp_0. field.
Qed.
(** The hypotheses are met by three points of a line. *)
Definition ln_X : mat := fun i _ => INR i.
Definition ln_NN (i : nat) : list nat := match i with 0%nat => [0; 1]%nat | 1%nat => [1; 2]%nat | _ => [2; 1]%nat end.
Example C56_ex lap : valid_lap lap -> (exists G, NNGraph 3 1 ln_X "knn" true true 1 (Some 1) 0 "average" Euclidean ln_NN lap = Ok G) /\ (exists G, NNGraph 3 1 ln_X "radius" true true 1 (Some 1) 1 "fill" MaxDist ln_NN lap = Ok G) /\
  (forall i j, (i < 3)%nat -> (j < 3)%nat -> same_point 1 ln_X i j -> i = j) /\ knn_query 3 1 (nn_dist Manhattan 1 ln_X) ln_NN.
Proof.
  intros Hl. split; [|split; [|split]].
  - apply C56_succeeds; [assumption|lia|left; split; [reflexivity|lia]|left; reflexivity|exact I|lra|]. intros _. exists 0%nat, 1%nat, 0%nat. unfold ln_X. cbn. repeat split; try lia. lra.
  - apply C56_succeeds; [assumption|lia|right; reflexivity|right; right; left; reflexivity|exact I|lra|]. intros _. exists 0%nat, 1%nat, 0%nat. unfold ln_X. cbn. repeat split; try lia. lra.
  - intros i j Hi Hj H. apply INR_eq. apply (H 0%nat). lia.
  - assert (D : forall i j, nn_dist Manhattan 1 ln_X i j = Rabs (INR i - INR j)) by (intros i j; cbn [nn_dist rsum]; unfold ln_X; ring).
    intros i Hi. split; [|split; [|split; [|split]]].
    + destruct i as [|[|[|i]]]; reflexivity.
    + destruct i as [|[|[|i]]]; cbn [ln_NN]; try lia; repeat constructor; cbn; intuition lia.
    + destruct i as [|[|[|i]]]; cbn [ln_NN]; intros j Hj; cbn in Hj; intuition lia.
    + destruct i as [|[|[|i]]]; cbn [ln_NN]; try lia; repeat constructor; rewrite !D; cbn; unfold Rabs; repeat destruct (Rcase_abs _); lra.
    + intros a j Ha Hj Hn. rewrite !D. destruct i as [|[|[|i]]]; try lia; destruct a as [|[|[|a]]]; destruct j as [|[|[|j]]]; cbn in *; unfold Rabs; repeat destruct (Rcase_abs _); try lra; try lia; exfalso; intuition (try lia; try lra).
Qed.
(** Without sigma: knn graphs of distinct points succeed, and so do radius graphs as soon as two of them are within epsilon. *)
Lemma mean_pos D l : l <> [] -> (forall p, In p l -> 0 < D (fst p) (snd p)) -> 0 < nn_mean D l.
Proof.
  intros Hne H. unfold nn_mean. apply Rdiv_lt_0_compat; [|destruct l; [congruence|apply lt_0_INR; cbn; lia]].
  destruct l as [|p l]; [congruence|]. cbn [map lsum fold_right]. fold (lsum (map (fun p => D (fst p) (snd p)) l)). assert (0 <= lsum (map (fun p => D (fst p) (snd p)) l)) by (apply lsum_map_nonneg; intros q Hq; apply Rlt_le, H; right; exact Hq). pose proof (H p (or_introl eq_refl)). lra.
Qed.
Theorem C56_default_succeeds N d X Y nntype center rescale k eps sym t NN lap : valid_lap lap -> (k < N)%nat -> In sym sym_methods -> good_dist t -> nn_points N d center rescale X = Ok Y ->
  (forall i j, (i < N)%nat -> (j < N)%nat -> same_point d Y i j -> i = j) ->
  (nntype = "knn" /\ (1 <= k)%nat /\ knn_query N k (nn_dist t d Y) NN) \/ (nntype = "radius" /\ exists i j, (i < N)%nat /\ (j < N)%nat /\ i <> j /\ nn_dist t d Y i j <= eps) ->
  exists G, NNGraph N d X nntype center rescale k None eps sym t NN lap = Ok G.
Proof.
  intros Hl Hk Hsym Hg EY Hd Hty. unfold NNGraph. destruct (Nat.leb_spec N k); [lia|]. rewrite EY. cbn [bindr]. cbv zeta. pose proof (proj2 (check_good t) Hg) as Hc. rewrite Hc. cbn [bindr].
  assert (Pos : forall i j, (i < N)%nat -> (j < N)%nat -> i <> j -> 0 < nn_dist t d Y i j).
  { intros i j Hi Hj Hne. pose proof (dist_nonneg t d Y i j) as H0. destruct H0 as [H0|H0]; [exact H0|]. exfalso. apply Hne, Hd; try assumption. apply (dist_0 t d Y i j Hg). symmetry. exact H0. }
  destruct Hty as [(-> & H1 & Hq)|(-> & i & j & Hi & Hj & Hne & He)]; cbn [String.eqb Ascii.eqb Bool.eqb].
  - destruct (Nat.eqb_spec k 0); [lia|]. apply finish_succeeds; [exact Hl|exact Hsym|]. apply Rgt_not_eq, mean_pos.
    + destruct (knn_first N k d t Y NN 0%nat Hg Hq Hd ltac:(lia)) as (l & E & Ll & _). intros Em. destruct l as [|j l]; [cbn in Ll; lia|]. assert (Hin : In (0%nat, j) (knn_pairs N NN)) by (apply knn_in; rewrite E; split; [lia|left; reflexivity]). rewrite Em in Hin. destruct Hin.
    + intros [i j] Hin. apply knn_in in Hin. destruct Hin as (Hi & Hin). cbn [fst snd]. destruct (knn_first N k d t Y NN i Hg Hq Hd Hi) as (l & E & _ & _ & Hni). rewrite E in Hin. cbn [tl] in Hin. apply Pos; [exact Hi| |intros ->; contradiction]. apply (Hq i Hi). rewrite E. right. exact Hin.
  - assert (Hin : In (i, j) (ball_pairs N (nn_dist t d Y) eps)) by (apply ball_in; tauto). destruct (ball_pairs N (nn_dist t d Y) eps) as [|p l] eqn:El; [destruct Hin|]. apply finish_succeeds; [exact Hl|exact Hsym|]. apply Rgt_not_eq, mean_pos; [discriminate|]. intros [a b] Hab. rewrite <- El in Hab. apply ball_in in Hab. cbn [fst snd]. apply Pos; tauto.
Qed.
