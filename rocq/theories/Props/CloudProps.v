(** C75 (Sensor), C76 (Cube, Sphere), C77 (TwoMoons). *)
From Coq Require Import Reals Lra Lia List Arith Bool String.
From Coq Require Import List.
From Verif.Base Require Import RSum Prelude.
From Verif.Spec Require Import Matrix GraphSpec Card GenSpec.
From Verif.Model Require Import Sparse Graph Reduction Random Utils NNGraph Clouds.
From Verif.Proofs Require Import SparseFacts InitFacts SubgraphFacts GenFacts.
From Verif.Props Require Import Core UtilsProps ReductionProps GenProps NNProps.
Import ListNotations.
Open Scope string_scope.
Open Scope R_scope.
Open Scope list_scope.

(** ** Specification *)
(** G is the nearest-neighbour graph (C56) with k neighbours of N points of dimension d, which are its coordinates, neither centred nor rescaled. *)
Definition nn_graph_of (N d k : nat) (sigma : option R) (o : nnopt) (G : graph) (cs : list (list R)) : Prop :=
  built G /\ g_n_vertices G = N /\ (k < N)%nat /\ undirected G /\ nonneg_weights G /\ g_coords G = Some cs /\ List.length cs = N /\
  ((forall s, sigma = Some s -> 0 < s) -> forall i j, (i < N)%nat -> (j < N)%nat -> wt G i j <= 1) /\
  exists X, (forall i c, (i < N)%nat -> (c < d)%nat -> coord cs i c = X i c) /\
    NNGraph N d X (o_nntype o) false false k sigma (o_eps o) (o_sym o) (o_dist o) (o_query o) (o_lap o) = Ok G.
(** keyword arguments that NNGraph accepts *)
Definition good_opt (k : nat) (o : nnopt) : Prop :=
  valid_lap (o_lap o) /\ (o_nntype o = "knn" /\ (1 <= k)%nat \/ o_nntype o = "radius") /\ In (o_sym o) sym_methods /\ good_dist (o_dist o).
Definition unit_draws (n : nat) (u : nat -> R) : Prop := forall i, (i < n)%nat -> 0 <= u i < 1.

Lemma raw_ok N d X k sigma o G : valid_lap (o_lap o) -> nn_raw N d X k sigma o = Ok G ->
  exists cs, nn_graph_of N d k sigma o G cs /\ forall i c, (i < N)%nat -> (c < d)%nat -> coord cs i c = X i c.
Proof.
  intros Hl H. unfold nn_raw in H. pose proof (C56_graph _ _ _ _ _ _ _ _ _ _ _ _ _ _ Hl H) as (Hb & Hn & Hu & Hp & H1 & cs & Ecs & Hcs).
  destruct (nn_run _ _ _ _ _ _ _ _ _ _ _ _ _ _ H) as (Y & s & EY & Hk & _ & _ & _ & _ & HF). unfold nn_points, nn_center in EY. injection EY as <-.
  destruct (finish_ok _ _ _ _ _ _ _ _ _ Hl HF) as (_ & _ & _ & _ & _ & _ & _ & Hc & _). specialize (Hc cs Ecs). exists cs. split; [|exact Hc].
  repeat (split; [assumption|]). split; [intros Hs i j Hi Hj; apply (H1 Hs i j Hi Hj)|]. exists X. split; assumption.
Qed.
Lemma raw_succeeds N d X k s o : good_opt k o -> (k < N)%nat -> s <> 0 -> exists G, nn_raw N d X k (Some s) o = Ok G.
Proof. intros (Hl & Ht & Hsym & Hg) Hk Hs. apply C56_succeeds; try assumption. discriminate. Qed.
Lemma raw_few N d X k sigma o : (N <= k)%nat -> nn_raw N d X k sigma o = Raise ValueError.
Proof. intros H. unfold nn_raw, NNGraph. destruct (Nat.leb_spec N k); [reflexivity|lia]. Qed.

(** ** C75: Sensor *)
Lemma sqrt_square_nat m : Nat.sqrt (m * m) = m.
Proof. apply Nat.sqrt_square. Qed.
Lemma mul_self_inj a b : (a * a = b * b)%nat -> a = b.
Proof. intros H. rewrite <- (sqrt_square_nat a), H. apply sqrt_square_nat. Qed.
Lemma sensor_ok N dist u X : sensor_points N dist u = Ok X ->
  if dist then exists m, N = (m * m)%nat /\ mgrid_len m = m /\ forall v c, X v c = INR (if Nat.eqb c 0 then v / m else v mod m) / INR m + u v c / INR m
  else X = u.
Proof.
  unfold sensor_points. destruct dist; [|intros E; injection E as <-; reflexivity]. cbv zeta. destruct (Nat.eqb_spec (Nat.sqrt N * Nat.sqrt N) N) as [E|E]; [|discriminate]. cbn [negb].
  destruct (Nat.eqb_spec (mgrid_len (Nat.sqrt N) * mgrid_len (Nat.sqrt N)) N) as [E'|E']; [|discriminate]. cbn [negb]. intros H. injection H as <-.
  exists (Nat.sqrt N). split; [symmetry; exact E|]. split; [apply mul_self_inj; congruence|]. reflexivity.
Qed.
Lemma cell_bounds a m x : (a < m)%nat -> 0 <= x < 1 -> INR a / INR m <= INR a / INR m + x / INR m < INR (S a) / INR m /\ 0 <= INR a / INR m /\ INR (S a) / INR m <= 1.
Proof.
  intros Ha Hx. assert (Hm : 0 < INR m) by (apply lt_0_INR; lia). assert (Hi : 0 < / INR m) by (apply Rinv_0_lt_compat; exact Hm). pose proof (pos_INR a) as P. rewrite S_INR. unfold Rdiv.
  assert (B : INR a + 1 <= INR m) by (rewrite <- S_INR; apply le_INR; lia). split; [split; nra|]. split; [nra|]. apply (Rmult_le_reg_r (INR m)); [exact Hm|]. rewrite Rmult_assoc, Rinv_l by lra. lra.
Qed.
(** a Sensor graph is a nearest-neighbour graph of points of the unit square *)
Theorem C75_sensor N k dist u sigma o G : valid_lap (o_lap o) -> (forall v c, (v < N)%nat -> (c < 2)%nat -> 0 <= u v c < 1) -> Sensor N k dist u sigma o = Ok G ->
  exists cs, nn_graph_of N 2 k sigma o G cs /\ forall v c, (v < N)%nat -> (c < 2)%nat -> 0 <= coord cs v c < 1.
Proof.
  intros Hl Hu H. unfold Sensor in H. destruct (sensor_points N dist u) as [X|] eqn:EX; cbn [bindr] in H; [|discriminate]. apply sensor_ok in EX. destruct (raw_ok _ _ _ _ _ _ _ Hl H) as (cs & Hg & Hc). exists cs. split; [exact Hg|].
  intros v c Hv Hcc. rewrite Hc by assumption. specialize (Hu v c Hv Hcc). destruct dist; [|subst X; exact Hu]. destruct EX as (m & -> & _ & EX). rewrite EX.
  assert (Ha : ((if Nat.eqb c 0 then v / m else v mod m) < m)%nat) by (destruct (Nat.eqb c 0); [apply Nat.div_lt_upper_bound; lia|apply Nat.mod_upper_bound; lia]).
  destruct (cell_bounds _ m (u v c) Ha Hu). lra.
Qed.
Definition in_cell (m a b : nat) (cs : list (list R)) (v : nat) : Prop :=
  INR a / INR m <= coord cs v 0%nat < INR (S a) / INR m /\ INR b / INR m <= coord cs v 1%nat < INR (S b) / INR m.
Lemma cell_unique m a a' x : (0 < m)%nat -> INR a / INR m <= x < INR (S a) / INR m -> INR a' / INR m <= x < INR (S a') / INR m -> a = a'.
Proof.
  intros Hm H H'. assert (Hm' : 0 < INR m) by (apply lt_0_INR; lia). assert (Hi : 0 < / INR m) by (apply Rinv_0_lt_compat; exact Hm'). unfold Rdiv in *.
  assert (A1 : INR a < INR (S a')) by (apply (Rmult_lt_reg_r (/ INR m)); [exact Hi|lra]). assert (A2 : INR a' < INR (S a)) by (apply (Rmult_lt_reg_r (/ INR m)); [exact Hi|lra]). apply INR_lt in A1, A2. lia.
Qed.
(** distributed: the square is cut into m x m cells, each of which gets exactly one vertex *)
Theorem C75_distributed N k u sigma o G cs : valid_lap (o_lap o) -> (forall v c, (v < N)%nat -> (c < 2)%nat -> 0 <= u v c < 1) -> Sensor N k true u sigma o = Ok G -> g_coords G = Some cs ->
  exists m, N = (m * m)%nat /\ forall a b, (a < m)%nat -> (b < m)%nat -> exists v, (v < N)%nat /\ in_cell m a b cs v /\ forall v', (v' < N)%nat -> in_cell m a b cs v' -> v' = v.
Proof.
  intros Hl Hu H Ecs. unfold Sensor in H. destruct (sensor_points N true u) as [X|] eqn:EX; cbn [bindr] in H; [|discriminate]. apply sensor_ok in EX. destruct EX as (m & EN & _ & EX).
  destruct (raw_ok _ _ _ _ _ _ _ Hl H) as (cs' & Hg & Hc). assert (E : cs' = cs) by (destruct Hg as (_ & _ & _ & _ & _ & E & _); congruence). subst cs'.
  exists m. split; [exact EN|]. intros a b Ha Hb. assert (Hcell : forall v, (v < N)%nat -> in_cell m (v / m) (v mod m) cs v).
  { intros v Hv. assert (A1 : (v / m < m)%nat) by (apply Nat.div_lt_upper_bound; lia). assert (A2 : (v mod m < m)%nat) by (apply Nat.mod_upper_bound; lia). unfold in_cell. rewrite !Hc, !EX by lia. cbn [Nat.eqb].
    split; eapply proj1; apply cell_bounds; auto. }
  assert (D : ((a * m + b) / m = a /\ (a * m + b) mod m = b)%nat).
  { split; [symmetry; apply (Nat.div_unique _ m a b); lia|symmetry; apply (Nat.mod_unique _ m a b); lia]. }
  exists (a * m + b)%nat. assert (HV : (a * m + b < N)%nat) by nia. split; [exact HV|]. split.
  - pose proof (Hcell _ HV) as Q. destruct D as (D1 & D2). rewrite D1, D2 in Q. exact Q.
  - intros v' Hv' (Q1 & Q2). destruct (Hcell v' Hv') as (Q1' & Q2'). assert (A1 : (v' / m)%nat = a) by (eapply cell_unique; [|exact Q1'|exact Q1]; lia). assert (A2 : (v' mod m)%nat = b) by (eapply cell_unique; [|exact Q2'|exact Q2]; lia).
    rewrite (Nat.div_mod v' m) by lia. rewrite A1, A2. lia.
Qed.
Theorem C75_rejected N k dist u sigma o : ((N <= k)%nat -> Sensor N k dist u sigma o = Raise ValueError) /\
  ((forall m, N <> (m * m)%nat) -> Sensor N k true u sigma o = Raise ValueError).
Proof.
  unfold Sensor. split.
  - intros H. destruct (sensor_points N dist u) as [X|x] eqn:E; cbn [bindr]; [apply raw_few; exact H|]. unfold sensor_points in E. destruct dist; [|discriminate]. cbv zeta in E. destruct (negb _) in E; [congruence|]. destruct (negb _) in E; [congruence|discriminate].
  - intros H. unfold sensor_points. cbv zeta. destruct (Nat.eqb_spec (Nat.sqrt N * Nat.sqrt N) N) as [E|E]; [exfalso; apply (H (Nat.sqrt N)); congruence|reflexivity].
Qed.
Theorem C75_succeeds N k dist u s o : good_opt k o -> (k < N)%nat -> s <> 0 -> (dist = true -> exists m, N = (m * m)%nat /\ mgrid_len m = m) -> exists G, Sensor N k dist u (Some s) o = Ok G.
Proof.
  intros Ho Hk Hs Hd. unfold Sensor. assert (E : exists X, sensor_points N dist u = Ok X).
  { unfold sensor_points. destruct dist; [|eauto]. destruct (Hd eq_refl) as (m & -> & E). cbv zeta. rewrite sqrt_square_nat, Nat.eqb_refl, E, Nat.eqb_refl. cbn [negb]. eauto. }
  destruct E as (X & ->). cbn [bindr]. apply raw_succeeds; assumption.
Qed.
(** Finding: in floating point 1/(1/49) is above 49, np.mgrid yields 50 x 50 points, and Sensor(2401, distributed=True) fails although 2401 is a perfect square. *)
Theorem C75_perfect_square_rejected_refuted k u sigma o : Sensor (49 * 49) k true u sigma o = Raise ValueError.
Proof.
  unfold Sensor, sensor_points. cbv zeta. rewrite sqrt_square_nat, Nat.eqb_refl. replace (mgrid_len 49) with 50%nat by (vm_compute; reflexivity).
  destruct (Nat.eqb_spec (50 * 50) (49 * 49)) as [E|E]; [lia|reflexivity].
Qed.
Definition ex_opt (q : nat -> list nat) : nnopt := mknnopt "knn" (1/100) "average" Euclidean q Combinatorial.
Lemma ex_opt_good k q : (1 <= k)%nat -> good_opt k (ex_opt q).
Proof. intros H. split; [left; reflexivity|]. split; [left; split; [reflexivity|exact H]|]. split; [cbn; tauto|exact I]. Qed.
Example C75_ex q : exists G, Sensor 9 6 true (fun _ _ => 1 / 2) (Some 1) (ex_opt q) = Ok G.
Proof. apply C75_succeeds; [apply ex_opt_good; lia|lia|lra|]. intros _. exists 3%nat. split; [reflexivity|vm_compute; reflexivity]. Qed.

(** ** C76: Cube and Sphere *)
Lemma cube_ok nb d sampling u p : cube_points nb d sampling u = Ok p -> sampling = "random" /\
  (d = 2%nat /\ p = (nb, 2%nat, fun v c => u (v * 2 + c)%nat) \/ d = 3%nat /\ p = ((nb / 6 * 6)%nat, 3%nat, fun v c => cube_face (nb / 6) u (v / (nb / 6)) (v mod (nb / 6)) c)).
Proof.
  unfold cube_points. destruct (Nat.ltb 3 d); [discriminate|]. destruct (String.eqb_spec sampling "random") as [E|]; [|discriminate]. split; [exact E|]. destruct (Nat.eqb_spec d 2); [left; split; [assumption|congruence]|].
  destruct (Nat.eqb_spec d 3); [right; split; [assumption|congruence]|discriminate].
Qed.
(** in dimension 2 the points fill the square, in dimension 3 they lie on the six faces of the unit cube, as many on each *)
Theorem C76_cube2 radius nb sampling u sigma o G : valid_lap (o_lap o) -> unit_draws (2 * nb) u -> Cube radius nb 2 sampling u sigma o = Ok G ->
  exists cs, nn_graph_of nb 2 10 sigma o G cs /\ forall v c, (v < nb)%nat -> (c < 2)%nat -> 0 <= coord cs v c < 1.
Proof.
  intros Hl Hu H. unfold Cube in H. destruct (cube_points nb 2 sampling u) as [p|] eqn:E; cbn [bindr] in H; [|discriminate]. apply cube_ok in E. destruct E as (_ & [(_ & ->)|(? & _)]); [|discriminate]. cbn [fst snd] in H.
  destruct (raw_ok _ _ _ _ _ _ _ Hl H) as (cs & Hg & Hc). exists cs. split; [exact Hg|]. intros v c Hv Hcc. rewrite Hc by assumption. apply Hu. lia.
Qed.
Theorem C76_cube3 radius nb sampling u sigma o G : valid_lap (o_lap o) -> unit_draws (2 * nb) u -> Cube radius nb 3 sampling u sigma o = Ok G -> let n := (nb / 6)%nat in
  exists cs, nn_graph_of (6 * n) 3 10 sigma o G cs /\ (forall v c, (v < 6 * n)%nat -> (c < 3)%nat -> 0 <= coord cs v c <= 1) /\
    forall axis side r, (axis < 3)%nat -> (side < 2)%nat -> (r < n)%nat -> coord cs ((2 * axis + side) * n + r)%nat axis = INR side.
Proof.
  intros Hl Hu H n. unfold Cube in H. destruct (cube_points nb 3 sampling u) as [p|] eqn:E; cbn [bindr] in H; [|discriminate]. apply cube_ok in E. destruct E as (_ & [(? & _)|(_ & ->)]); [discriminate|]. cbn [fst snd] in H. fold n in H.
  assert (Hn : (6 * n <= nb)%nat) by (unfold n; apply Nat.mul_div_le; lia). clearbody n. rewrite (Nat.mul_comm n 6) in H.
  destruct (raw_ok _ _ _ _ _ _ _ Hl H) as (cs & Hg & Hc). exists cs. split; [exact Hg|]. split.
  - intros v c Hv Hcc. rewrite Hc by assumption. assert (Hf : (v / n < 6)%nat) by (apply Nat.div_lt_upper_bound; lia). assert (Hr : (v mod n < n)%nat) by (apply Nat.mod_upper_bound; lia).
    generalize dependent (v mod n). intros r Hr. generalize dependent (v / n)%nat. intros f Hf. assert (U : forall i, (i < 12 * n)%nat -> 0 <= u i <= 1) by (intros i Hi; specialize (Hu i ltac:(lia)); lra).
    destruct f as [|[|[|[|[|[|f]]]]]]; [..|lia]; (destruct c as [|[|[|c]]]; [..|lia]); cbn [cube_face]; try lra; apply U; lia.
  - intros ax sd r Ha Hs Hr. assert (V : ((2 * ax + sd) * n + r < 6 * n)%nat) by nia. rewrite Hc by assumption.
    replace (((2 * ax + sd) * n + r) / n)%nat with (2 * ax + sd)%nat by (apply (Nat.div_unique _ n _ r); lia). replace (((2 * ax + sd) * n + r) mod n) with r by (apply (Nat.mod_unique _ n (2 * ax + sd)); lia).
    destruct ax as [|[|[|ax]]]; [..|lia]; (destruct sd as [|[|sd]]; [..|lia]); reflexivity.
Qed.
Theorem C76_cube_rejected radius nb d sampling u sigma o : let call := Cube radius nb d sampling u sigma o in
  ((3 < d)%nat -> call = Raise NotImplementedError) /\ ((d <= 3)%nat -> sampling <> "random" -> call = Raise ValueError) /\
  ((d < 2)%nat -> sampling = "random" -> call = Raise UnboundLocalError) /\
  (sampling = "random" -> (d = 2 /\ nb <= 10 \/ d = 3 /\ nb < 12)%nat -> call = Raise ValueError).
Proof.
  cbv zeta. unfold Cube, cube_points. split; [|split; [|split]].
  - intros H. destruct (Nat.ltb_spec 3 d); [reflexivity|lia].
  - intros H Hs. destruct (Nat.ltb_spec 3 d); [lia|]. destruct (String.eqb_spec sampling "random"); [contradiction|reflexivity].
  - intros H ->. destruct (Nat.ltb_spec 3 d); [lia|]. cbn [String.eqb Ascii.eqb Bool.eqb]. destruct (Nat.eqb_spec d 2); [lia|]. destruct (Nat.eqb_spec d 3); [lia|reflexivity].
  - intros -> [(-> & H)|(-> & H)]; cbn [Nat.ltb Nat.leb String.eqb Ascii.eqb Bool.eqb Nat.eqb bindr fst snd]; apply raw_few; [exact H|]. assert (nb / 6 < 2)%nat by (apply Nat.div_lt_upper_bound; lia). lia.
Qed.
Theorem C76_cube_succeeds radius nb d u s o : good_opt 10 o -> s <> 0 -> (d = 2 /\ 10 < nb \/ d = 3 /\ 12 <= nb)%nat -> exists G, Cube radius nb d "random" u (Some s) o = Ok G.
Proof.
  intros Ho Hs H. unfold Cube, cube_points. destruct H as [(-> & H)|(-> & H)]; cbn [Nat.ltb Nat.leb String.eqb Ascii.eqb Bool.eqb Nat.eqb bindr fst snd]; apply raw_succeeds; try assumption.
  assert (2 <= nb / 6)%nat by (apply Nat.div_le_lower_bound; lia). lia.
Qed.
(** the points of a Sphere have norm 1 *)
Theorem C76_sphere radius N d sampling z sigma o G : valid_lap (o_lap o) -> Sphere radius N d sampling z sigma o = Ok G ->
  exists cs, nn_graph_of N d 10 sigma o G cs /\ (forall v, (v < N)%nat -> \sum_(c < d) (coord cs v c * coord cs v c) = 1) /\
    forall v, (v < N)%nat -> exists a, 0 < a /\ forall c, (c < d)%nat -> z v c = a * coord cs v c.
Proof.
  intros Hl H. unfold Sphere in H. destruct (String.eqb sampling "random"); [|discriminate]. unfold sphere_points in H. cbv zeta in H. set (nm := fun i => sqrt (\sum_(c < d) (z i c * z i c))) in H.
  destruct (existsb _ _) eqn:E in H; cbn [bindr] in H; [discriminate|]. destruct (raw_ok _ _ _ _ _ _ _ Hl H) as (cs & Hg & Hc). exists cs. split; [exact Hg|].
  assert (P : forall v, (v < N)%nat -> 0 < nm v).
  { intros v Hv. assert (Q : Reqb (nm v) 0 = false). { destruct (Reqb (nm v) 0) eqn:Q; [|reflexivity]. exfalso. rewrite <- not_true_iff_false in E. apply E. apply existsb_exists. exists v. split; [apply in_seq; lia|exact Q]. }
    destruct (Reqb_spec (nm v) 0); [discriminate|]. pose proof (sqrt_pos (\sum_(c < d) (z v c * z v c))) as S0. fold (nm v) in S0. lra. }
  split; intros v Hv; specialize (P v Hv).
  - rewrite (rsum_ext d _ (fun c => / (nm v * nm v) * (z v c * z v c))) by (intros c Hcc; rewrite Hc by assumption; fold (nm v); field; lra). rewrite rsum_scal_l.
    assert (Q : nm v * nm v = \sum_(c < d) (z v c * z v c)) by (unfold nm; apply sqrt_sqrt, rsum_nonneg; intros; apply Rle_0_sqr). rewrite Q. apply Rinv_l. nra.
  - exists (nm v). split; [exact P|]. intros c Hcc. rewrite Hc by assumption. fold (nm v). field. lra.
Qed.
Theorem C76_sphere_rejected radius N d sampling z sigma o : let call := Sphere radius N d sampling z sigma o in
  (sampling <> "random" -> call = Raise ValueError) /\ ((N <= 10)%nat -> call = Raise ValueError) /\
  ((exists v, (v < N)%nat /\ forall c, (c < d)%nat -> z v c = 0) -> call = Raise ValueError).
Proof.
  cbv zeta. unfold Sphere. split; [|split].
  - intros H. destruct (String.eqb_spec sampling "random"); [contradiction|reflexivity].
  - intros H. destruct (String.eqb sampling "random"); [|reflexivity]. unfold sphere_points. cbv zeta. destruct (existsb _ _); cbn [bindr]; [reflexivity|]. apply raw_few. exact H.
  - intros (v & Hv & H). destruct (String.eqb sampling "random"); [|reflexivity]. unfold sphere_points. cbv zeta. match goal with |- bindr (if ?b then _ else _) _ = _ => assert (E : b = true) end; [|rewrite E; reflexivity].
    apply existsb_exists. exists v. split; [apply in_seq; lia|]. rewrite rsum_0 by (intros c Hc; rewrite H by exact Hc; ring). rewrite sqrt_0. apply Reqb_refl.
Qed.
Theorem C76_sphere_succeeds radius N d z s o : good_opt 10 o -> s <> 0 -> (10 < N)%nat -> (forall v, (v < N)%nat -> exists c, (c < d)%nat /\ z v c <> 0) -> exists G, Sphere radius N d "random" z (Some s) o = Ok G.
Proof.
  intros Ho Hs HN Hz. unfold Sphere. cbn [String.eqb Ascii.eqb Bool.eqb]. unfold sphere_points. cbv zeta. match goal with |- context [if ?b then Raise _ else Ok _] => assert (E : b = false) end.
  { apply not_true_iff_false. intros E. apply existsb_exists in E. destruct E as (v & Hv & E). apply in_seq in Hv. destruct (Reqb_spec (sqrt (\sum_(c < d) (z v c * z v c))) 0) as [E'|]; [|discriminate].
    apply sqrt_eq_0 in E'; [|apply rsum_nonneg; intros; apply Rle_0_sqr]. destruct (Hz v ltac:(lia)) as (c & Hc & Hne). pose proof (sum0 _ _ (fun k _ => Rle_0_sqr (z v k)) E' c Hc) as Q. cbv beta in Q. apply Rmult_integral in Q. lra. }
  rewrite E. cbn [bindr]. apply raw_succeeds; assumption.
Qed.
(** Findings: the radius is ignored by both classes; a Cube has fewer vertices than asked when nb_pts is not a multiple of six. *)
Theorem C76_radius_ignored_refuted r r' :
  (forall nb d sampling u sigma o, Cube r nb d sampling u sigma o = Cube r' nb d sampling u sigma o) /\ (forall N d sampling z sigma o, Sphere r N d sampling z sigma o = Sphere r' N d sampling z sigma o).
Proof. split; reflexivity. Qed.
Theorem C76_cube_drops_points_refuted radius nb sampling u sigma o G : valid_lap (o_lap o) -> unit_draws (2 * nb) u -> Cube radius nb 3 sampling u sigma o = Ok G -> (nb mod 6 <> 0)%nat -> (g_n_vertices G < nb)%nat.
Proof.
  intros Hl Hu H Hm. destruct (C76_cube3 _ _ _ _ _ _ _ Hl Hu H) as (cs & (_ & -> & _) & _). pose proof (Nat.div_mod nb 6 ltac:(lia)). lia.
Qed.
Example C76_ex_cube q : exists G, Cube 5 300 3 "random" (fun _ => 1 / 2) (Some 1) (ex_opt q) = Ok G.
Proof. apply C76_cube_succeeds; [apply ex_opt_good; lia|lra|right; lia]. Qed.
Example C76_ex_sphere q : exists G, Sphere 5 300 3 "random" (fun _ _ => 1) (Some 1) (ex_opt q) = Ok G.
Proof. apply C76_sphere_succeeds; [apply ex_opt_good; lia|lra|lia|]. intros v _. exists 0%nat. split; [lia|lra]. Qed.

(** ** C77: TwoMoons *)
(** the point of the lower arc (class 0) or upper arc (class 1) at angle t *)
Definition arc (distance : R) (second : bool) (t : R) (c : nat) : R :=
  match c with O => cos t + (if second then - (1 / 2) else 1 / 2) | _ => if second then sin t + (distance - 1) / 2 else - sin t - (distance - 1) / 2 end.
(** [moon_at]: the point (x, y) lies at distance |r| of a point of the arc *)
Definition near_arc (distance : R) (second : bool) (r x y : R) : Prop :=
  exists t, 0 <= t < PI /\ (x - arc distance second t 0%nat) * (x - arc distance second t 0%nat) + (y - arc distance second t 1%nat) * (y - arc distance second t 1%nat) = r * r.
Lemma arc_near sigmad distance second m i : 0 <= md_phi m i < 1 -> near_arc distance second (sigmad * md_rb m i) (arc_moon sigmad distance second m i 0%nat) (arc_moon sigmad distance second m i 1%nat).
Proof.
  intros H. exists (md_phi m i * PI). pose proof PI_RGT_0. split; [split; nra|]. pose proof (sin2_cos2 (md_ab m i * 2 * PI)) as E. unfold Rsqr in E. unfold arc_moon, arc. cbv zeta.
  set (a := md_ab m i * 2 * PI) in *. set (p := md_phi m i * PI). set (r := sigmad * md_rb m i).
  assert (Q : forall X Y, X = r * cos a -> Y = r * sin a -> X * X + Y * Y = r * r) by (intros X Y -> ->; replace (r * cos a * (r * cos a) + r * sin a * (r * sin a)) with (r * r * (sin a * sin a + cos a * cos a)) by ring; rewrite E; ring).
  apply Q; destruct second; lra.
Qed.
Lemma moons_run fr ft mt dim sg N sd ds seed e o L G : valid_lap (o_lap o) -> TwoMoons fr ft mt dim sg N sd ds seed e o = Ok (L, G) -> exists N1 N2 d X cs,
  moon_points fr ft mt dim N sd ds seed e = Ok (N1, N2, d, X) /\ L = repeat 0 N1 ++ repeat 1 N2 /\ nn_graph_of (N1 + N2) d 5 (Some sg) o G cs /\ forall i c, (i < N1 + N2)%nat -> (c < d)%nat -> coord cs i c = X i c.
Proof.
  intros Hl H. unfold TwoMoons in H. destruct (moon_points fr ft mt dim N sd ds seed e) as [(((N1, N2), d), X)|]; cbn [bindr] in H; [|discriminate]. destruct (nn_raw (N1 + N2) d X 5 (Some sg) o) as [G'|] eqn:E; cbn [bindr] in H; [|discriminate].
  injection H as <- <-. destruct (raw_ok _ _ _ _ _ _ _ Hl E) as (cs & Hg & Hc). exists N1, N2, d, X, cs. auto.
Qed.
Definition moon_ok (N : nat) (m : moon_draw) : Prop := unit_draws N (md_phi m).
(** two classes of N//2 and N - N//2 points, each at the drawn distance of its arc; the labels tell the classes apart *)
Theorem C77_synthesized fr ft dim sg N sd ds seed e o L G : valid_lap (o_lap o) -> (forall k n, moon_ok n (moon_rng e seed k n)) ->
  TwoMoons fr ft "synthesized" dim sg N sd ds seed e o = Ok (L, G) -> let N1 := (N / 2)%nat in
  exists cs, nn_graph_of N 2 5 (Some sg) o G cs /\ List.length L = N /\
    (forall i, (i < N1)%nat -> nth i L 2 = 0 /\ near_arc ds false (sd * md_rb (moon_rng e seed 0%nat N1) i) (coord cs i 0%nat) (coord cs i 1%nat)) /\
    (forall i, (N1 <= i < N)%nat -> nth i L 2 = 1 /\ near_arc ds true (sd * md_rb (moon_rng e seed 1%nat (N - N1)%nat) (i - N1)%nat) (coord cs i 0%nat) (coord cs i 1%nat)).
Proof.
  intros Hl He H N1. destruct (moons_run _ _ _ _ _ _ _ _ _ _ _ _ _ Hl H) as (n1 & n2 & d & X & cs & E & -> & Hg & Hc). unfold moon_points in E. cbn [String.eqb Ascii.eqb Bool.eqb] in E. cbv zeta in E. fold N1 in E.
  injection E as <- <- <- EX. assert (Hle : (N1 <= N)%nat) by (unfold N1; apply Nat.div_le_upper_bound; lia). clearbody N1. replace (N1 + (N - N1))%nat with N in * by lia. exists cs. split; [exact Hg|].
  split; [rewrite app_length, !repeat_length; lia|]. split; intros i Hi.
  - split; [rewrite app_nth1 by (rewrite repeat_length; lia); rewrite (nth_indep _ 2 0) by (rewrite repeat_length; lia); apply nth_repeat|]. rewrite !Hc by lia. rewrite <- EX. destruct (Nat.ltb_spec i N1); [|lia]. apply arc_near. apply (He 0%nat N1). lia.
  - split; [rewrite app_nth2 by (rewrite repeat_length; lia); rewrite repeat_length, (nth_indep _ 2 1) by (rewrite repeat_length; lia); apply nth_repeat|]. rewrite !Hc by lia. rewrite <- EX. destruct (Nat.ltb_spec i N1); [lia|]. apply arc_near. apply (He 1%nat (N - N1)%nat). lia.
Qed.
(** the standard moons ignore N, sigmad, distance and the seed: 1000 points of each class, whose coordinates are the first dim rows of the file *)
Theorem C77_standard fr ft dim sg N sd ds seed e o L G : valid_lap (o_lap o) -> TwoMoons fr ft "standard" dim sg N sd ds seed e o = Ok (L, G) ->
  exists cs, nn_graph_of (1000 + 1000) (Nat.min dim fr) 5 (Some sg) o G cs /\ L = repeat 0 1000 ++ repeat 1 1000 /\ forall i c, (i < 1000 + 1000)%nat -> (c < dim)%nat -> (c < fr)%nat -> coord cs i c = ft c i.
Proof.
  intros Hl H. destruct (moons_run _ _ _ _ _ _ _ _ _ _ _ _ _ Hl H) as (n1 & n2 & d & X & cs & E & EL & Hg & Hc). unfold moon_points in E. cbn [String.eqb Ascii.eqb Bool.eqb] in E.
  apply (f_equal (fun r => match r with Ok p => p | Raise _ => (n1, n2, d, X) end)) in E. cbv beta iota in E. apply pair_equal_spec in E. destruct E as (E & EX). apply pair_equal_spec in E. destruct E as (E & Ed). apply pair_equal_spec in E. destruct E as (E1 & E2).
  rewrite <- E1, <- E2, <- Ed in *. exists cs. split; [exact Hg|]. split; [exact EL|]. intros i c Hi Hcd Hcf. rewrite Hc, <- EX by (try assumption; apply Nat.min_glb_lt; assumption). reflexivity.
Qed.
Theorem C77_rejected fr ft mt dim sg N sd ds seed e o : let call := TwoMoons fr ft mt dim sg N sd ds seed e o in
  (mt <> "standard" -> mt <> "synthesized" -> call = Raise ValueError) /\ (mt = "synthesized" -> (N <= 5)%nat -> call = Raise ValueError).
Proof.
  cbv zeta. unfold TwoMoons, moon_points. split.
  - intros H1 H2. destruct (String.eqb_spec mt "standard"); [contradiction|]. destruct (String.eqb_spec mt "synthesized"); [contradiction|reflexivity].
  - intros -> H. cbn [String.eqb Ascii.eqb Bool.eqb bindr]. assert ((N / 2 <= N)%nat) by (apply Nat.div_le_upper_bound; lia). rewrite raw_few by lia. reflexivity.
Qed.
Theorem C77_succeeds fr ft dim sg N sd ds seed e o : good_opt 5 o -> sg <> 0 -> (5 < N)%nat -> exists L G, TwoMoons fr ft "synthesized" dim sg N sd ds seed e o = Ok (L, G).
Proof.
  intros Ho Hs HN. unfold TwoMoons, moon_points. cbn [String.eqb Ascii.eqb Bool.eqb bindr]. match goal with |- context [nn_raw ?n ?d ?X 5 _ o] => destruct (raw_succeeds n d X 5 sg o Ho) as (G & E); [|exact Hs|rewrite E; cbn [bindr]; eauto] end.
  assert ((N / 2 <= N)%nat) by (apply Nat.div_le_upper_bound; lia). lia.
Qed.
(** Finding: with a seed both arcs are drawn from the same stream.  For even N the second moon is a function of the first: point i of class 1 is
    point i of class 0 moved by (-1, .) with the same noise, its height being reflected. *)
Theorem C77_seeded_moons_are_copies_refuted fr ft dim sg h sd ds s e o L G cs : valid_lap (o_lap o) -> TwoMoons fr ft "synthesized" dim sg (2 * h) sd ds (Some s) e o = Ok (L, G) -> g_coords G = Some cs ->
  forall i, (i < h)%nat -> coord cs (h + i)%nat 0%nat = coord cs i 0%nat - 1 /\
    exists noise, coord cs i 1%nat - noise = - (coord cs (h + i)%nat 1%nat - noise) /\ Rabs noise <= Rabs (sd * md_rb (seeded e s h) i).
Proof.
  intros Hl H Ecs i Hi. assert (D : ((2 * h) / 2 = h)%nat) by (rewrite Nat.mul_comm; apply Nat.div_mul; lia). assert (D' : (2 * h - h = h)%nat) by lia. remember (2 * h)%nat as N eqn:EN.
  destruct (moons_run _ _ _ _ _ _ _ _ _ _ _ _ _ Hl H) as (n1 & n2 & d & X & cs' & E & _ & Hg & Hc). unfold moon_points in E. cbn [String.eqb Ascii.eqb Bool.eqb] in E. cbv zeta in E. rewrite D, D' in E.
  assert (cs' = cs) by (destruct Hg as (_ & _ & _ & _ & _ & Q & _); congruence). subst cs'. injection E as <- <- <- EX.
  rewrite !Hc by lia. rewrite <- EX. destruct (Nat.ltb_spec i h); [|lia]. destruct (Nat.ltb_spec (h + i) h); [lia|]. replace (h + i - h)%nat with i by lia. unfold moon_rng. set (m := seeded e s h). unfold arc_moon. cbv zeta.
  split; [lra|]. exists (sd * md_rb m i * sin (md_ab m i * 2 * PI)). split; [lra|]. rewrite Rabs_mult. pose proof (SIN_bound (md_ab m i * 2 * PI)) as B. pose proof (Rabs_pos (sd * md_rb m i)). assert (Rabs (sin (md_ab m i * 2 * PI)) <= 1) by (apply Rabs_le; lra). nra.
Qed.
Definition ex_moon : moon_draw := mkmoon (fun _ => 1 / 2) (fun _ => 1) (fun _ => 0).
Definition ex_entropy : entropy := mkentropy (fun _ _ => ex_moon) (fun _ _ => ex_moon).
Example C77_ex q : exists L G, TwoMoons 2 (fun _ _ => 0) "synthesized" 2 (1 / 20) 400 (7 / 100) (1 / 2) (Some 42%nat) ex_entropy (ex_opt q) = Ok (L, G).
Proof. apply C77_succeeds; [apply ex_opt_good; lia|lra|lia]. Qed.
(** Without seed the two moons are drawn independently: any two streams of draws occur together, each point being the arc point of its own draw moved by its own noise. *)
Theorem C77_unseeded_moons_are_independent (m1 m2 : moon_draw) : exists e, forall fr ft dim sg N sd ds o L G cs, valid_lap (o_lap o) ->
  TwoMoons fr ft "synthesized" dim sg N sd ds None e o = Ok (L, G) -> g_coords G = Some cs -> let N1 := (N / 2)%nat in
  let noise m i c := sd * md_rb m i * match c with O => cos (md_ab m i * 2 * PI) | _ => sin (md_ab m i * 2 * PI) end in
  (forall i c, (i < N1)%nat -> (c < 2)%nat -> coord cs i c = arc ds false (md_phi m1 i * PI) c + noise m1 i c) /\
  (forall i c, (i < N - N1)%nat -> (c < 2)%nat -> coord cs (N1 + i)%nat c = arc ds true (md_phi m2 i * PI) c + noise m2 i c).
Proof.
  exists (mkentropy (fun _ _ => m1) (fun k _ => match k with O => m1 | _ => m2 end)). intros fr ft dim sg N sd ds o L G cs Hl H Ecs N1 noise.
  destruct (moons_run _ _ _ _ _ _ _ _ _ _ _ _ _ Hl H) as (n1 & n2 & d & X & cs' & E & _ & Hg & Hc). unfold moon_points in E. cbn [String.eqb Ascii.eqb Bool.eqb] in E. cbv zeta in E. fold N1 in E.
  assert (cs' = cs) by (destruct Hg as (_ & _ & _ & _ & _ & Q & _); congruence). subst cs'. injection E as <- <- <- EX. assert (Hle : (N1 <= N)%nat) by (unfold N1; apply Nat.div_le_upper_bound; lia). clearbody N1.
  split; intros i c Hi Hcc; rewrite Hc, <- EX by lia; cbv beta.
  - destruct (Nat.ltb_spec i N1); [|lia]. unfold moon_rng, arc_moon, arc, noise. cbn [fresh]. destruct c; lra.
  - destruct (Nat.ltb_spec (N1 + i) N1); [lia|]. replace (N1 + i - N1)%nat with i by lia. unfold moon_rng, arc_moon, arc, noise. cbn [fresh]. destruct c; lra.
Qed.
Example C77_ex_draws k n : moon_ok n (moon_rng ex_entropy (Some 42%nat) k n).
Proof. intros i _. cbn. lra. Qed.
