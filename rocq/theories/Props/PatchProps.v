(** C78 (SwissRoll, DavidSensorNet), C79 (ImgPatches, Grid2dImgPatches). *)
From Coq Require Import Reals Lra Lia ZArith List Arith Bool String.
From Coq Require Import List.
From Verif.Base Require Import RSum Prelude.
From Verif.Spec Require Import Matrix GraphSpec Card GenSpec Reach.
From Verif.Model Require Import Sparse Graph Reduction Random Utils Generators NNGraph Clouds.
From Verif.Proofs Require Import SparseFacts InitFacts SubgraphFacts GenFacts.
From Verif.Props Require Import Core Traversal UtilsProps ReductionProps GenProps GridProps NNProps CloudProps.
Import ListNotations.
Open Scope string_scope.
Open Scope R_scope.
Open Scope list_scope.

Lemma dense_ok N W lap d (Y : mat) : valid_lap lap -> exists G cs, graph_init (InDense [N; N] (map Fin (dense N W))) lap (Some (map (fun i => map (fun c => Y i c) (seq 0 d)) (seq 0 N))) = Ok G /\
  built G /\ g_n_vertices G = N /\ g_lap_type G = lap /\ g_coords G = Some cs /\ List.length cs = N /\ (forall i c, (i < N)%nat -> (c < d)%nat -> coord cs i c = Y i c) /\
  forall i j, (i < N)%nat -> (j < N)%nat -> wt G i j = W i j.
Proof.
  intros Hl. match goal with |- context [graph_init _ _ ?cs] => destruct (finite_entry_built N (dense N W) lap cs (dense_len _ _) Hl) as (G & E & Hb & Hn & Ht & Hc & Hw) end. exists G. eexists. split; [exact E|]. repeat (split; [eassumption|]).
  split; [rewrite map_length, seq_length; reflexivity|]. split.
  - intros i c Hi Hcc. unfold coord. rewrite (nth_map_seq (fun i => map (fun c => Y i c) (seq 0 d)) N i [] Hi). apply (nth_map_seq (fun c => Y i c) d c 0 Hcc).
  - intros i j Hi Hj. rewrite Hw by assumption. apply dense_nth; assumption.
Qed.

(** ** C78: SwissRoll *)
Definition roll_scale (N : nat) (s : option R) : R := match s with Some s => s | None => sqrt (2 / INR N) end.
(** Euclidean distance between two rows of coordinates *)
Definition cdist (d : nat) (cs : list (list R)) (i j : nat) : R := euclid d (coord cs i) (coord cs j).
Lemma not_constant d n x : constant_rows d n x = false <-> exists c i j, (c < d)%nat /\ (i < n)%nat /\ (j < n)%nat /\ x c i <> x c j.
Proof.
  unfold constant_rows. split.
  - intros H. assert (A : exists c, In c (seq 0 d) /\ forallb (fun i => Reqb (x c i) (x c 0%nat)) (seq 0 n) = false).
    { clear -H. induction (seq 0 d) as [|c l IH]; cbn [forallb] in H; [discriminate|]. apply andb_false_iff in H. destruct H as [H|H]; [exists c; split; [left; reflexivity|exact H]|]. destruct (IH H) as (c' & ? & ?). exists c'. split; [right|]; assumption. }
    destruct A as (c & Hc & A). apply in_seq in Hc. assert (B : exists i, In i (seq 0 n) /\ Reqb (x c i) (x c 0%nat) = false).
    { clear -A. induction (seq 0 n) as [|i l IH]; cbn [forallb] in A; [discriminate|]. apply andb_false_iff in A. destruct A as [H|H]; [exists i; split; [left; reflexivity|exact H]|]. destruct (IH H) as (i' & ? & ?). exists i'. split; [right|]; assumption. }
    destruct B as (i & Hi & B). apply in_seq in Hi. exists c, i, 0%nat. repeat (split; [lia|]). destruct (Reqb_spec (x c i) (x c 0%nat)); [discriminate|assumption].
  - intros (c & i & j & Hc & Hi & Hj & Hne). apply not_true_iff_false. intros H. rewrite forallb_forall in H. specialize (H c ltac:(apply in_seq; lia)). cbv beta in H. rewrite forallb_forall in H.
    pose proof (H i ltac:(apply in_seq; lia)) as A. pose proof (H j ltac:(apply in_seq; lia)) as B. cbv beta in A, B. destruct (Reqb_spec (x c i) (x c 0%nat)); [|discriminate]. destruct (Reqb_spec (x c j) (x c 0%nat)); [|discriminate]. congruence.
Qed.
Lemma roll_run N a b dim th s noise st y1 y2 z lap x G : valid_lap lap -> SwissRoll N a b dim th s noise st y1 y2 z lap = Ok (x, G) ->
  exists y D cs, roll_points dim st noise a b y1 y2 z = Ok x /\ rescale_center dim N x = Ok y /\ constant_rows dim N x = false /\ roll_scale N s <> 0 /\ distanz (Pts2 dim N y) None = Ok D /\
    built G /\ g_n_vertices G = N /\ g_coords G = Some cs /\ List.length cs = N /\ (forall i c, (i < N)%nat -> (c < dim)%nat -> coord cs i c = y c i) /\
    forall i j, (i < N)%nat -> (j < N)%nat -> wt G i j = roll_weights th (roll_scale N s) D i j.
Proof.
  intros Hl H. unfold SwissRoll in H. fold (roll_scale N s) in H. cbv zeta in H. destruct (roll_points dim st noise a b y1 y2 z) as [x'|] eqn:Ex; cbn [bindr] in H; [|discriminate].
  destruct (rescale_center dim N x') as [y|] eqn:Ey; cbn [bindr] in H; [|discriminate]. destruct (constant_rows dim N x') eqn:Ec; cbn [orb] in H; [discriminate|]. destruct (Reqb_spec (roll_scale N s) 0) as [|Hs]; [discriminate|].
  destruct (distanz (Pts2 dim N y) None) as [D|] eqn:ED; cbn [bindr] in H; [|discriminate]. destruct (dense_ok N (roll_weights th (roll_scale N s) D) lap dim (fun i c => y c i) Hl) as (G' & cs & E & Hb & Hn & _ & Hcs & Hlen & Hc & Hw). rewrite E in H. cbn [bindr] in H. injection H as <- <-.
  exists y, D, cs. repeat (split; [assumption || reflexivity|]). assumption.
Qed.
(** undirected, no self-loop; two vertices are joined with weight exp(-dist^2 / 2 s^2) (dist measured on the coordinates) unless that is below the threshold *)
Theorem C78_roll_graph N a b dim th s noise st y1 y2 z lap x G : valid_lap lap -> SwissRoll N a b dim th s noise st y1 y2 z lap = Ok (x, G) ->
  exists cs, built G /\ g_n_vertices G = N /\ g_coords G = Some cs /\ List.length cs = N /\ undirected G /\ loop_free G /\
    forall i j, (i < N)%nat -> (j < N)%nat -> i <> j -> let w := exp (- (cdist dim cs i j * cdist dim cs i j) / (2 * (roll_scale N s * roll_scale N s))) in
      0 < w <= 1 /\ (th <= w -> wt G i j = w) /\ (w < th -> wt G i j = 0).
Proof.
  intros Hl H. destruct (roll_run _ _ _ _ _ _ _ _ _ _ _ _ _ _ Hl H) as (y & D & cs & _ & _ & _ & Hs & ED & Hb & Hn & Hcs & Hlen & Hc & Hw). exists cs. repeat (split; [assumption|]).
  pose proof (C33_metric _ _ ED) as (_ & Hsym & _). rewrite C33_one_argument in ED. pose proof (C33_distanz _ _ _ ED) as He. cbn [pdim pget] in He.
  assert (HD : forall i j, (i < N)%nat -> (j < N)%nat -> D i j = cdist dim cs i j). { intros i j Hi Hj. rewrite He. unfold cdist, euclid. f_equal. apply rsum_ext. intros c Hcc. rewrite !Hc by assumption. reflexivity. }
  split; [|split].
  - intros i j Hi Hj. rewrite Hn in *. rewrite !Hw by assumption. unfold roll_weights. cbv zeta. rewrite (Hsym i j), (Nat.eqb_sym i j). reflexivity.
  - intros i Hi. rewrite Hn in Hi. rewrite Hw by assumption. unfold roll_weights. cbv zeta. rewrite Nat.eqb_refl, Rminus_diag_eq by reflexivity. destruct (Rltb _ _); reflexivity.
  - intros i j Hi Hj Hne w. rewrite Hw by assumption. unfold roll_weights. cbv zeta. destruct (Nat.eqb_spec i j); [contradiction|]. rewrite Rminus_0_r, HD by assumption. fold w. split.
    + unfold w. split; [apply exp_pos|]. rewrite <- exp_0. set (q := cdist dim cs i j) in *. assert (Q : 0 < roll_scale N s * roll_scale N s) by nra. destruct (Rle_lt_or_eq_dec 0 (q * q)) as [P|P]; [nra| |].
      * left. apply exp_increasing. unfold Rdiv. assert (0 < / (2 * (roll_scale N s * roll_scale N s))) by (apply Rinv_0_lt_compat; lra). nra.
      * right. f_equal. rewrite <- P. unfold Rdiv. ring.
    + split; intros Ht; destruct (Rltb_spec w th); lra.
Qed.
(** for a threshold in (0,1): joined exactly when the distance is at most |s| sqrt(-2 ln thresh) *)
Lemma exp_ge_iff q th v : 0 < th -> 0 < v -> (th <= exp (- (q * q) / v) <-> q * q <= - v * ln th).
Proof.
  intros Ht Hv. assert (E : exp (ln th) = th) by (apply exp_ln; exact Ht). rewrite <- E at 1. split; intros H.
  - assert (A : ln th <= - (q * q) / v) by (destruct (Rle_or_lt (ln th) (- (q * q) / v)) as [|B]; [assumption|apply exp_increasing in B; lra]).
    apply (Rmult_le_compat_r v) in A; [|lra]. replace (- (q * q) / v * v) with (- (q * q)) in A by (field; lra). lra.
  - assert (A : ln th <= - (q * q) / v). { apply (Rmult_le_reg_r v); [exact Hv|]. replace (- (q * q) / v * v) with (- (q * q)) by (field; lra). lra. }
    destruct A as [A|A]; [left; apply exp_increasing; exact A|right; f_equal; exact A].
Qed.
Lemma cdist_nonneg d cs i j : 0 <= cdist d cs i j.
Proof. apply sqrt_pos. Qed.
Theorem C78_roll_radius N a b dim th s noise st y1 y2 z lap x G cs : valid_lap lap -> SwissRoll N a b dim th s noise st y1 y2 z lap = Ok (x, G) -> 0 < th < 1 -> g_coords G = Some cs ->
  forall i j, (i < N)%nat -> (j < N)%nat -> i <> j -> (wt G i j <> 0 <-> cdist dim cs i j <= Rabs (roll_scale N s) * sqrt (- 2 * ln th)).
Proof.
  intros Hl H Hth Ecs i j Hi Hj Hne. destruct (roll_run _ _ _ _ _ _ _ _ _ _ _ _ _ _ Hl H) as (_ & _ & _ & _ & _ & _ & Hs & _).
  destruct (C78_roll_graph _ _ _ _ _ _ _ _ _ _ _ _ _ _ Hl H) as (cs' & _ & _ & Ecs' & _ & _ & _ & Q). assert (cs' = cs) by congruence. subst cs'. specialize (Q i j Hi Hj Hne). cbv zeta in Q. destruct Q as (Q1 & Q2 & Q3).
  set (sc := roll_scale N s) in *. set (q := cdist dim cs i j) in *. assert (Hv : 0 < 2 * (sc * sc)) by nra. assert (Hln : ln th < 0) by (rewrite <- ln_1; apply ln_increasing; lra).
  pose proof (exp_ge_iff q th (2 * (sc * sc)) (proj1 Hth) Hv) as E. pose proof (cdist_nonneg dim cs i j) as Pq. fold q in Pq. pose proof (Rabs_pos sc) as Pa. pose proof (sqrt_pos (- 2 * ln th)) as Ps.
  assert (S2 : sqrt (- 2 * ln th) * sqrt (- 2 * ln th) = - 2 * ln th) by (apply sqrt_sqrt; lra). assert (A2 : Rabs sc * Rabs sc = sc * sc) by (rewrite <- Rabs_mult; apply Rabs_right; nra).
  assert (F : q * q <= - (2 * (sc * sc)) * ln th <-> q <= Rabs sc * sqrt (- 2 * ln th)).
  { replace (- (2 * (sc * sc)) * ln th) with ((Rabs sc * sqrt (- 2 * ln th)) * (Rabs sc * sqrt (- 2 * ln th))) by (transitivity ((Rabs sc * Rabs sc) * (sqrt (- 2 * ln th) * sqrt (- 2 * ln th))); [ring|rewrite A2, S2; ring]).
    assert (P : 0 <= Rabs sc * sqrt (- 2 * ln th)) by nra. set (r := Rabs sc * sqrt (- 2 * ln th)) in *. clearbody r q. clear - P Pq. split; intros; nra. }
  destruct (Rle_or_lt th (exp (- (q * q) / (2 * (sc * sc))))) as [W|W].
  - rewrite Q2 by exact W. split; [intros _; apply F, E, W|intros _; lra].
  - rewrite Q3 by exact W. split; [congruence|]. intros B. apply F in B. apply E in B. lra.
Qed.
(** the coordinates are the points x up to a translation and a positive factor, centred, with largest coordinate 1 *)
Theorem C78_roll_coords N a b dim th s noise st y1 y2 z lap x G cs : valid_lap lap -> SwissRoll N a b dim th s noise st y1 y2 z lap = Ok (x, G) -> g_coords G = Some cs ->
  (forall c, (c < dim)%nat -> \sum_(i < N) coord cs i c = 0) /\ (forall i c, (i < N)%nat -> (c < dim)%nat -> coord cs i c <= 1) /\ (exists i c, (i < N)%nat /\ (c < dim)%nat /\ coord cs i c = 1) /\
  exists f, 0 < f /\ forall i j c, (i < N)%nat -> (j < N)%nat -> (c < dim)%nat -> coord cs i c - coord cs j c = f * (x c i - x c j).
Proof.
  intros Hl H Ecs. destruct (roll_run _ _ _ _ _ _ _ _ _ _ _ _ _ _ Hl H) as (y & D & cs' & _ & Ey & Ec & _ & _ & _ & _ & Ecs' & _ & Hc & _). assert (cs' = cs) by congruence. subst cs'.
  apply not_constant in Ec. destruct (C71_rescale_center _ _ _ _ Ey Ec) as (H1 & H2 & (c0 & i0 & Hc0 & Hi0 & H3) & f & Hf & H4). split; [|split; [|split]].
  - intros c Hcc. rewrite <- (H1 c Hcc). apply rsum_ext. intros i Hi. apply Hc; assumption.
  - intros i c Hi Hcc. rewrite Hc by assumption. apply H2; assumption.
  - exists i0, c0. split; [exact Hi0|]. split; [exact Hc0|]. rewrite Hc by assumption. exact H3.
  - exists f. split; [exact Hf|]. intros i j c Hi Hj Hcc. rewrite !Hc by assumption. apply H4.
Qed.
(** without noise the points lie on the spiral: first and last coordinate are t cos t and t sin t, with t between pi a and pi b; in dimension 3 the second is 21 y2 *)
Lemma comb_bounds p q y : 0 <= y <= 1 -> Rmin p q <= (q - p) * y + p <= Rmax p q.
Proof. intros H. unfold Rmin, Rmax. destruct (Rle_dec p q); nra. Qed.
Theorem C78_roll_spiral N a b dim th s st y1 y2 z lap x G : valid_lap lap -> SwissRoll N a b dim th s false st y1 y2 z lap = Ok (x, G) -> (forall i, (i < N)%nat -> 0 <= y1 i < 1) ->
  (dim = 2 \/ dim = 3)%nat /\ forall i, (i < N)%nat -> exists t, x 0%nat i = t * cos t /\ x (dim - 1)%nat i = t * sin t /\ (dim = 3%nat -> x 1%nat i = 21 * y2 i) /\
    (st = "uniform" /\ 0 <= t /\ Rmin (a * a) (b * b) * (PI * PI) <= t * t <= Rmax (a * a) (b * b) * (PI * PI) \/ st = "classic" /\ Rmin a b * PI <= t <= Rmax a b * PI).
Proof.
  intros Hl H Hy. destruct (roll_run _ _ _ _ _ _ _ _ _ _ _ _ _ _ Hl H) as (_ & _ & _ & Ex & _). pose proof PI_RGT_0 as HPI. unfold roll_points in Ex. destruct (String.eqb st "uniform" || String.eqb st "classic")%bool eqn:Est; cbn [negb] in Ex; [|discriminate].
  destruct (Nat.eqb dim 2 || Nat.eqb dim 3)%bool eqn:Ed; cbn [negb] in Ex; [|discriminate]. injection Ex as <-. assert (Hd : (dim = 2 \/ dim = 3)%nat) by (apply orb_true_iff in Ed; rewrite !Nat.eqb_eq in Ed; exact Ed). split; [exact Hd|].
  intros i Hi. specialize (Hy i Hi). set (t := match roll_angle st a b (y1 i) with Ok t => t | Raise _ => 0 end). exists t. split; [destruct Hd as [-> | ->]; reflexivity|]. split; [destruct Hd as [-> | ->]; reflexivity|]. split; [intros ->; reflexivity|].
  unfold t, roll_angle. destruct (String.eqb_spec st "uniform") as [Eu|Eu]; [left|right].
  - split; [exact Eu|]. pose proof (comb_bounds (a * a) (b * b) (y1 i) ltac:(lra)) as B. set (p := (b * b - a * a) * y1 i + a * a) in *. assert (P : 0 <= p) by (unfold p; nra). pose proof (sqrt_pos p). split; [nra|].
    replace (sqrt p * PI * (sqrt p * PI)) with ((sqrt p * sqrt p) * (PI * PI)) by ring. rewrite sqrt_sqrt by exact P. assert (0 < PI * PI) by nra. nra.
  - destruct (String.eqb_spec st "classic") as [Ec|Ec]; [|discriminate]. split; [exact Ec|]. pose proof (comb_bounds a b (y1 i) ltac:(lra)). nra.
Qed.
Theorem C78_roll_outcome N a b dim th s noise st y1 y2 z lap : let call := SwissRoll N a b dim th s noise st y1 y2 z lap in
  (st <> "uniform" -> st <> "classic" -> call = Raise UnboundLocalError) /\
  ((dim <> 2 /\ dim <> 3)%nat -> call = Raise UnboundLocalError) /\
  (forall x, roll_points dim st noise a b y1 y2 z = Ok x ->
    (roll_scale N s = 0 \/ (forall c i j, (c < dim)%nat -> (i < N)%nat -> (j < N)%nat -> x c i = x c j) -> call = Raise ValueError) /\
    (valid_lap lap -> roll_scale N s <> 0 -> (exists c i j, (c < dim)%nat /\ (i < N)%nat /\ (j < N)%nat /\ x c i <> x c j) -> exists G, call = Ok (x, G))).
Proof.
  cbv zeta. unfold SwissRoll. fold (roll_scale N s). cbv zeta. split; [|split].
  - intros H1 H2. unfold roll_points. destruct (String.eqb_spec st "uniform"); [contradiction|]. destruct (String.eqb_spec st "classic"); [contradiction|]. reflexivity.
  - intros (H1 & H2). unfold roll_points. destruct (negb (_ || _)); [reflexivity|]. destruct (Nat.eqb_spec dim 2); [contradiction|]. destruct (Nat.eqb_spec dim 3); [contradiction|]. reflexivity.
  - intros x ->. cbn [bindr]. split.
    + intros H. destruct (rescale_center dim N x) as [y|e] eqn:E; cbn [bindr].
      * assert (A : (constant_rows dim N x || Reqb (roll_scale N s) 0)%bool = true); [|rewrite A; reflexivity]. apply orb_true_iff. destruct H as [H|H]; [right; rewrite H; apply Reqb_refl|left]. apply not_false_iff_true. intros Q. apply not_constant in Q. destruct Q as (c & i & j & Hc & Hi & Hj & Q). apply Q, H; assumption.
      * f_equal. unfold rescale_center in E. cbv zeta in E. destruct (map _ _); [congruence|discriminate].
    + intros Hl Hs Hne. destruct (rescale_center dim N x) as [y|e] eqn:E; cbn [bindr].
      * rewrite (proj2 (not_constant _ _ _) Hne). destruct (Reqb_spec (roll_scale N s) 0); [contradiction|]. cbn [orb]. rewrite C33_one_argument. destruct (C33_defined (Pts2 dim N y) (Pts2 dim N y) eq_refl) as (D & ->). cbn [bindr].
        destruct (dense_ok N (roll_weights th (roll_scale N s) D) lap dim (fun i c => y c i) Hl) as (G & cs & EG & _). rewrite EG. cbn [bindr]. eauto.
      * exfalso. assert (e = ValueError) as -> by (unfold rescale_center in E; cbv zeta in E; destruct (map _ _); congruence). apply C71_empty_rejected in E. destruct Hne as (c & i & j & Hc & Hi & _). lia.
Qed.
Example C78_ex_roll : exists x G, SwissRoll 2 0 1 2 (1 / 1000000) None false "classic" INR (fun _ => 0) (fun _ _ => 0) Combinatorial = Ok (x, G) .
Proof.
  destruct (C78_roll_outcome 2 0 1 2 (1 / 1000000) None false "classic" INR (fun _ => 0) (fun _ _ => 0) Combinatorial) as (_ & _ & H).
  destruct (H _ eq_refl) as (_ & H'). destruct H' as (G & E).
  - left. reflexivity.
  - unfold roll_scale. apply Rgt_not_eq, sqrt_lt_R0. cbn [INR]. lra.
  - exists 0%nat, 0%nat, 1%nat. repeat (split; [lia|]). cbn. replace ((1 - 0) * 0 + 0) with 0 by ring. replace ((1 - 0) * 1 + 0) with 1 by ring. rewrite !Rmult_1_l, Rmult_0_l, Rmult_0_l, cos_PI. pose proof PI_RGT_0. lra.
  - eauto.
Qed.

(** ** C78: DavidSensorNet *)
Lemma cutoff_ne0 N : david_cutoff N <> 0.
Proof.
  unfold david_cutoff. intros H. rewrite INR_IZR_INZ in H. assert (E : IZR (1250000 * Z.of_nat N) = IZR 951951725) by (rewrite mult_IZR; lra). apply eq_IZR in E. lia.
Qed.
Lemma ln06 : ln (6 / 10) < 0.
Proof. rewrite <- ln_1. apply ln_increasing; lra. Qed.
Lemma david_exp N q : let s := sqrt (- (david_cutoff N * david_cutoff N) / (2 * ln (6 / 10))) in
  exp (- (q * q) / (2 * (s * s))) = Rpower (6 / 10) (q * q / (david_cutoff N * david_cutoff N)).
Proof.
  intros s. pose proof (cutoff_ne0 N) as Hc. pose proof ln06 as L. assert (P : 0 < david_cutoff N * david_cutoff N) by nra. set (k := david_cutoff N) in *.
  assert (S2 : s * s = - (k * k) / (2 * ln (6 / 10))). { unfold s. apply sqrt_sqrt. apply Rlt_le. unfold Rdiv. assert (/ (2 * ln (6 * / 10)) < 0) by (apply Rinv_lt_0_compat; unfold Rdiv in L; lra). nra. }
  unfold Rpower. f_equal. rewrite S2. field. split; [intros E; rewrite E in P; lra|lra].
Qed.
(** two sensors are joined exactly when their distance is at most |cutoff|, with weight 0.6^((dist/cutoff)^2) *)
Theorem C78_david N file u lap : N <> 64%nat -> N <> 500%nat -> valid_lap lap -> exists G cs, DavidSensorNet N file u lap = Ok G /\ built G /\ g_n_vertices G = N /\ g_lap_type G = lap /\ undirected G /\ loop_free G /\
  g_coords G = Some cs /\ List.length cs = N /\ (forall i c, (i < N)%nat -> (c < 2)%nat -> coord cs i c = u i c) /\
  forall i j, (i < N)%nat -> (j < N)%nat -> i <> j -> let d := cdist 2 cs i j in
    (d <= Rabs (david_cutoff N) -> wt G i j = Rpower (6 / 10) (d * d / (david_cutoff N * david_cutoff N)) /\ 6 / 10 <= wt G i j <= 1) /\ (Rabs (david_cutoff N) < d -> wt G i j = 0).
Proof.
  intros H1 H2 Hl. unfold DavidSensorNet. destruct (Nat.eqb_spec N 64); [contradiction|]. destruct (Nat.eqb_spec N 500); [contradiction|]. cbn [orb]. rewrite C33_one_argument.
  destruct (C33_defined (Pts2 2 N (fun c i => u i c)) (Pts2 2 N (fun c i => u i c)) eq_refl) as (D & ED). rewrite ED. cbn [bindr]. pose proof ED as ED'. rewrite <- C33_one_argument in ED'. pose proof (C33_metric _ _ ED') as (_ & Hsym & _). pose proof (C33_distanz _ _ _ ED) as He. cbn [pdim pget] in He.
  destruct (dense_ok N (david_weights N D) lap 2 u Hl) as (G & cs & E & Hb & Hn & Ht & Hcs & Hlen & Hc & Hw). exists G, cs. split; [exact E|]. split; [exact Hb|]. split; [exact Hn|]. split; [exact Ht|]. split; [|split; [|split; [exact Hcs|]]].
  - intros i j Hi Hj. rewrite Hn in *. rewrite !Hw by assumption. unfold david_weights. cbv zeta. rewrite (Hsym i j), (Nat.eqb_sym i j). reflexivity.
  - intros i Hi. rewrite Hn in Hi. rewrite Hw by assumption. unfold david_weights. cbv zeta. rewrite Nat.eqb_refl. reflexivity.
  - split; [exact Hlen|]. split; [exact Hc|]. intros i j Hi Hj Hne. set (d := cdist 2 cs i j). assert (HD : D i j = d). { rewrite He. unfold d, cdist, euclid. f_equal. apply rsum_ext. intros c Hcc. rewrite !Hc by assumption. reflexivity. }
    rewrite Hw by assumption. unfold david_weights. cbv zeta. destruct (Nat.eqb_spec i j); [contradiction|]. rewrite HD, david_exp. pose proof (cutoff_ne0 N) as Hk. set (k := david_cutoff N) in *. assert (P : 0 < k * k) by nra. pose proof ln06 as L.
    assert (Dp : 0 <= d) by apply cdist_nonneg. assert (A2 : Rabs k * Rabs k = k * k) by (rewrite <- Rabs_mult; apply Rabs_right; nra). pose proof (Rabs_pos k) as Pk.
    assert (E06 : Rpower (6 / 10) 1 = 6 / 10) by (apply Rpower_1; lra). assert (E1 : Rpower (6 / 10) 0 = 1) by (apply Rpower_O; lra).
    assert (Dec : forall p q, p < q -> Rpower (6 / 10) q < Rpower (6 / 10) p) by (intros p q Hpq; unfold Rpower; apply exp_increasing; nra).
    split; intros B.
    + assert (Q : d * d / (k * k) <= 1) by (apply (Rmult_le_reg_r (k * k)); [exact P|]; unfold Rdiv; rewrite Rmult_assoc, Rinv_l by lra; nra). assert (Q0 : 0 <= d * d / (k * k)) by (apply Rmult_le_pos; [nra|apply Rlt_le, Rinv_0_lt_compat; exact P]).
      set (q := d * d / (k * k)) in *. assert (R1 : 6 / 10 <= Rpower (6 / 10) q) by (destruct Q as [Q|Q]; [pose proof (Dec q 1 Q); lra|rewrite Q; lra]). assert (R2 : Rpower (6 / 10) q <= 1) by (destruct Q0 as [Q0|Q0]; [pose proof (Dec 0 q Q0); lra|rewrite <- Q0; lra]).
      destruct (Rltb_spec (Rpower (6 / 10) q) (6 / 10)); [lra|]. split; [reflexivity|]. split; assumption.
    + assert (Q : 1 < d * d / (k * k)) by (apply (Rmult_lt_reg_r (k * k)); [exact P|]; unfold Rdiv; rewrite Rmult_assoc, Rinv_l by lra; nra). specialize (Dec _ _ Q). destruct (Rltb_spec (Rpower (6 / 10) (d * d / (k * k))) (6 / 10)); [reflexivity|lra].
Qed.
(** Finding: the cutoff is negative from 762 sensors on and only its square is used, so that the radius grows again: from 5696 sensors on, every
    two sensors of the unit square are joined. *)
Theorem C78_david_complete_refuted N file u lap : 5696 <= INR N -> valid_lap lap -> (forall i c, (i < N)%nat -> (c < 2)%nat -> 0 <= u i c <= 1) ->
  exists G, DavidSensorNet N file u lap = Ok G /\ g_n_vertices G = N /\ forall i j, (i < N)%nat -> (j < N)%nat -> i <> j -> 6 / 10 <= wt G i j.
Proof.
  intros HN Hl Hu. destruct (C78_david N file u lap) as (G & cs & E & _ & Hn & _ & _ & _ & _ & _ & Hc & Hw); [intros ->; rewrite INR_IZR_INZ in HN; apply le_IZR in HN; lia|intros ->; rewrite INR_IZR_INZ in HN; apply le_IZR in HN; lia|exact Hl|]. exists G. split; [exact E|]. split; [exact Hn|]. intros i j Hi Hj Hne. specialize (Hw i j Hi Hj Hne). cbv zeta in Hw. destruct Hw as (Hw & _).
  assert (HD : cdist 2 cs i j <= Rabs (david_cutoff N)); [|apply (proj2 (Hw HD))].
  assert (K : 14142135624 / 10000000000 <= - david_cutoff N) by (unfold david_cutoff; lra).
  assert (A : - david_cutoff N <= Rabs (david_cutoff N)) by (rewrite <- Rabs_Ropp; apply Rle_abs). unfold cdist, euclid. cbn [rsum]. rewrite !Hc by lia.
  pose proof (Hu i 0%nat Hi ltac:(lia)). pose proof (Hu j 0%nat Hj ltac:(lia)). pose proof (Hu i 1%nat Hi ltac:(lia)). pose proof (Hu j 1%nat Hj ltac:(lia)).
  apply Rle_trans with (sqrt (14142135624 / 10000000000 * (14142135624 / 10000000000))); [apply sqrt_le_1_alt|rewrite sqrt_square by lra; lra].
  assert (Sq : forall x y, 0 <= x <= 1 -> 0 <= y <= 1 -> (x - y) * (x - y) <= 1) by (intros x y Hx Hy; nra). pose proof (Sq (u i 0%nat) (u j 0%nat)). pose proof (Sq (u i 1%nat) (u j 1%nat)). lra.
Qed.

(** ** C79: ImgPatches *)
(** q is where position t of an axis of length h falls when the image is mirrored at its borders: ... h-1 ... 1 0 | 0 1 ... h-1 | h-1 ... 1 0 | 0 ... *)
Definition mirrored (h : nat) (t : Z) (q : nat) : Prop := (q < h)%nat /\ exists z : Z, (t = Z.of_nat q + 2 * Z.of_nat h * z \/ t = -1 - Z.of_nat q + 2 * Z.of_nat h * z)%Z.
Lemma reflect_ok h t : (0 < h)%nat -> mirrored h t (reflect h t).
Proof.
  intros Hh. unfold mirrored, reflect. cbv zeta. pose proof (Z.mod_pos_bound t (2 * Z.of_nat h) ltac:(lia)) as B. pose proof (Z.div_mod t (2 * Z.of_nat h) ltac:(lia)) as E. set (r := (t mod (2 * Z.of_nat h))%Z) in *. set (q := (t / (2 * Z.of_nat h))%Z) in *. clearbody r q.
  destruct (Nat.ltb_spec (Z.to_nat r) h) as [L|L]; (split; [lia|]); [exists q; left|exists (q + 1)%Z; right]; nia.
Qed.
Lemma reflect_in h t : (0 <= t < Z.of_nat h)%Z -> reflect h t = Z.to_nat t.
Proof. intros H. unfold reflect. cbv zeta. rewrite Z.mod_small by lia. destruct (Nat.ltb_spec (Z.to_nat t) h); [reflexivity|lia]. Qed.
Lemma pad_sum r : (1 <= r)%nat -> (pad_before r + pad_after r = r - 1)%nat /\ pad_before r = ((r - 1) / 2)%nat.
Proof.
  intros H. unfold pad_before, pad_after. pose proof (Nat.div_mod (2 * r - 1) 4 ltac:(lia)). pose proof (Nat.mod_upper_bound (2 * r - 1) 4 ltac:(lia)). pose proof (Nat.div_mod (2 * r + 1) 4 ltac:(lia)). pose proof (Nat.mod_upper_bound (2 * r + 1) 4 ltac:(lia)).
  pose proof (Nat.div_mod (r - 1) 2 ltac:(lia)). pose proof (Nat.mod_upper_bound (r - 1) 2 ltac:(lia)). lia.
Qed.
(** height, width, number of channels of an image; height and width of a patch *)
Definition image_size (s : list nat) (h w d : nat) : Prop := s = [h; w] /\ d = 1%nat \/ s = [h; w; d] /\ (1 <= d)%nat.
Definition patch_size (p : list nat) (r c : nat) : Prop := p = [r; c] \/ (exists l, p = r :: l /\ List.length p <> 2%nat) /\ c = r.
(** row v = i w + j of the features is the r x c patch around pixel (i,j), channel by channel *)
Definition patches_of (im : image) (h w d r c : nat) (X : mat) : Prop := forall i j a b e, (i < h)%nat -> (j < w)%nat -> (a < r)%nat -> (b < c)%nat -> (e < d)%nat ->
  exists p q, mirrored h (Z.of_nat (i + a) - Z.of_nat ((r - 1) / 2)) p /\ mirrored w (Z.of_nat (j + b) - Z.of_nat ((c - 1) / 2)) q /\ X (i * w + j)%nat ((a * c + b) * d + e)%nat = im_get im p q e.
Lemma patch_ok p rc : patch_dims p = Ok rc -> patch_size p (fst rc) (snd rc).
Proof.
  destruct p as [|r [|c [|x l]]]; cbn; try discriminate; intros E; injection E as <-; cbn [fst snd]; [right|left; reflexivity|right]; (split; [eexists; split; [reflexivity|cbn; lia]|reflexivity]).
Qed.
Lemma patch_ok_rev p r c : patch_size p r c -> patch_dims p = Ok (r, c).
Proof. intros [->|((l & -> & H) & ->)]; [reflexivity|]. destruct l as [|x [|y l]]; cbn in *; try reflexivity. lia. Qed.
Lemma windows h r : (1 <= r)%nat -> (1 <= h)%nat -> (pad_before r + h + pad_after r - r + 1 = h)%nat.
Proof. intros H1 H2. destruct (pad_sum r H1). lia. Qed.
Lemma patches_run sk im ps p : img_patches sk im ps = Ok p -> (1 <= fst (fst p))%nat -> exists h w d r c, image_size (im_shape im) h w d /\ patch_size ps r c /\ sk = true /\ (1 <= h)%nat /\ (1 <= w)%nat /\ (1 <= r)%nat /\ (1 <= c)%nat /\ (1 <= d)%nat /\
  fst (fst p) = (h * w)%nat /\ snd (fst p) = (r * c * d)%nat /\ patches_of im h w d r c (snd p).
Proof.
  unfold img_patches. intros H HN. destruct (patch_dims ps) as [[r c]|] eqn:Ep; cbn [bindr] in H; [|discriminate]. apply patch_ok in Ep. cbn [fst snd] in Ep. destruct (image_dims (im_shape im)) as [[[h w] d0]|] eqn:Ei; [|discriminate].
  destruct (Nat.eqb d0 0 && Nat.eqb (List.length (im_shape im)) 3)%bool eqn:Ed; [discriminate|]. set (d := if Nat.eqb d0 0 then 1%nat else d0) in *.
  destruct (Nat.eqb h 0 && _ || _)%bool in H; [discriminate|]. destruct sk; cbn [negb] in H; [|discriminate]. destruct (Nat.ltb _ r || _ || Nat.ltb r 1 || Nat.ltb c 1)%bool eqn:El in H; [discriminate|]. destruct (negb (Nat.eqb _ (h * w))) in H; [discriminate|]. injection H as <-. cbn [fst snd] in *.
  apply orb_false_iff in El. destruct El as (El & Hc). apply orb_false_iff in El. destruct El as (_ & Hr). apply Nat.ltb_ge in Hc, Hr. assert (Hh : (1 <= h)%nat) by nia. assert (Hw : (1 <= w)%nat) by nia.
  assert (Hd : (1 <= d)%nat) by (unfold d; destruct (Nat.eqb_spec d0 0); lia).
  exists h, w, d, r, c. split.
  { unfold image_dims in Ei. destruct (im_shape im) as [|x [|y [|t [|? ?]]]] eqn:Es; try discriminate; injection Ei as <- <- <-; cbn [List.length Nat.eqb] in Ed; [left; split; [reflexivity|unfold d; reflexivity]|right]. unfold d in *. destruct (Nat.eqb_spec t 0); [cbn in Ed; discriminate|]. split; [reflexivity|lia]. }
  split; [exact Ep|]. repeat (split; [assumption || reflexivity|]). clearbody d. destruct (pad_sum r Hr) as (_ & Pr). destruct (pad_sum c Hc) as (_ & Pc).
  intros i j a b e Hi Hj Ha Hb He. rewrite (windows w c Hc Hw). assert (D1 : ((i * w + j) / w = i)%nat) by (symmetry; apply (Nat.div_unique _ w i j); lia). assert (D2 : ((i * w + j) mod w = j)%nat) by (symmetry; apply (Nat.mod_unique _ w i j); lia).
  assert (D3 : (((a * c + b) * d + e) mod d = e)%nat) by (symmetry; apply (Nat.mod_unique _ d (a * c + b) e); lia). assert (D4 : (((a * c + b) * d + e) / d = a * c + b)%nat) by (symmetry; apply (Nat.div_unique _ d (a * c + b) e); lia).
  assert (D5 : ((a * c + b) mod c = b)%nat) by (symmetry; apply (Nat.mod_unique _ c a b); lia). assert (D6 : (((a * c + b) * d + e) / (c * d) = a)%nat) by (symmetry; apply (Nat.div_unique _ (c * d) a (b * d + e)); nia).
  rewrite D1, D2, D3, D4, D5, D6, Pr, Pc. eexists _, _. split; [apply reflect_ok; lia|]. split; [apply reflect_ok; lia|reflexivity].
Qed.
Lemma mirrored_in h t q : (0 <= t < Z.of_nat h)%Z -> mirrored h t q -> q = Z.to_nat t.
Proof. intros H (Hq & z & [E|E]); [assert (z = 0)%Z by nia|assert (z = 0 \/ z = 1)%Z by nia]; nia. Qed.
(** the graph is the nearest-neighbour graph (C56) of the patches, one vertex per pixel *)
Theorem C79_patches sk im ps center rescale k sigma o G : valid_lap (o_lap o) -> ImgPatches sk im ps center rescale k sigma o = Ok G ->
  exists h w d r c X, image_size (im_shape im) h w d /\ patch_size ps r c /\ (1 <= r)%nat /\ (1 <= c)%nat /\ g_n_vertices G = (h * w)%nat /\ built G /\ undirected G /\ nonneg_weights G /\ patches_of im h w d r c X /\
    (forall i j e, (i < h)%nat -> (j < w)%nat -> (e < d)%nat -> X (i * w + j)%nat (((r - 1) / 2 * c + (c - 1) / 2) * d + e)%nat = im_get im i j e) /\
    NNGraph (h * w) (r * c * d) X (o_nntype o) center rescale k sigma (o_eps o) (o_sym o) (o_dist o) (o_query o) (o_lap o) = Ok G.
Proof.
  intros Hl H. unfold ImgPatches in H. destruct (img_patches sk im ps) as [p|] eqn:E; cbn [bindr] in H; [|discriminate]. pose proof (C56_graph _ _ _ _ _ _ _ _ _ _ _ _ _ _ Hl H) as (Hb & Hn & Hu & Hp & _).
  assert (HN : (1 <= fst (fst p))%nat) by (destruct (nn_run _ _ _ _ _ _ _ _ _ _ _ _ _ _ H) as (_ & _ & _ & Hk & _); lia).
  destruct (patches_run _ _ _ _ E HN) as (h & w & d & r & c & Hi & Hs & _ & Hh & Hw & Hr & Hc & Hd & EN & Ed & HP). rewrite EN, Ed in *. exists h, w, d, r, c, (snd p). repeat (split; [assumption|]). split; [|exact H].
  intros i j e Hi' Hj He. destruct (HP i j ((r - 1) / 2)%nat ((c - 1) / 2)%nat e Hi' Hj) as (p' & q & M1 & M2 & ->); [apply Nat.div_lt_upper_bound; lia|apply Nat.div_lt_upper_bound; lia|exact He|].
  apply mirrored_in in M1; [|lia]. apply mirrored_in in M2; [|lia]. f_equal; lia.
Qed.
Lemma patches_ok im ps h w d r c : image_size (im_shape im) h w d -> patch_size ps r c -> (1 <= h)%nat -> (1 <= w)%nat -> (1 <= r)%nat -> (1 <= c)%nat -> exists X, img_patches true im ps = Ok ((h * w)%nat, (r * c * d)%nat, X).
Proof.
  intros Hi Hp Hh Hw Hr Hc. unfold img_patches. rewrite (patch_ok_rev _ _ _ Hp). cbn [bindr]. assert (E : exists d0, image_dims (im_shape im) = Some (h, w, d0) /\ d = (if Nat.eqb d0 0 then 1 else d0)%nat /\ (Nat.eqb d0 0 && Nat.eqb (List.length (im_shape im)) 3)%bool = false).
  { destruct Hi as [(-> & ->)|(-> & Hd)]; [exists 0%nat; repeat split|exists d]. cbn [image_dims List.length]. destruct (Nat.eqb_spec d 0); [lia|]. repeat split. }
  destruct E as (d0 & -> & <- & ->). destruct (pad_sum r Hr). destruct (pad_sum c Hc). destruct (Nat.eqb_spec h 0); [lia|]. destruct (Nat.eqb_spec w 0); [lia|]. cbn [andb orb negb].
  destruct (Nat.ltb_spec (pad_before r + h + pad_after r) r); [lia|]. destruct (Nat.ltb_spec (pad_before c + w + pad_after c) c); [lia|]. destruct (Nat.ltb_spec r 1); [lia|]. destruct (Nat.ltb_spec c 1); [lia|]. cbn [orb].
  rewrite !windows by assumption. rewrite Nat.eqb_refl. cbn [negb]. eauto.
Qed.
(** every patch shape of positive size works on every non-empty image with more than k pixels *)
Theorem C79_succeeds im ps center k s o h w d r c : image_size (im_shape im) h w d -> patch_size ps r c -> (1 <= r)%nat -> (1 <= c)%nat -> (k < h * w)%nat -> good_opt k o -> s <> 0 ->
  exists G, ImgPatches true im ps center false k (Some s) o = Ok G.
Proof.
  intros Hi Hp Hr Hc Hk (Hl & Ht & Hsym & Hg) Hs. destruct (patches_ok im ps h w d r c) as (X & E); try assumption; [nia|nia|]. unfold ImgPatches. rewrite E. cbn [bindr fst snd]. apply C56_succeeds; try assumption. discriminate.
Qed.
Lemma nn_few N d X nt ce re k sg ep sy t NN lap : (N <= k)%nat -> NNGraph N d X nt ce re k sg ep sy t NN lap = Raise ValueError.
Proof. intros H. unfold NNGraph. destruct (Nat.leb_spec N k); [reflexivity|lia]. Qed.
Lemma nn_const N d X nt ce k sg ep sy t NN lap : (k < N)%nat -> (forall i j, (i < N)%nat -> (j < N)%nat -> same_point d X i j) -> NNGraph N d X nt ce true k sg ep sy t NN lap = Raise ValueError.
Proof. intros H. pose proof (C56_rejected N d X nt ce true k sg ep sy t NN lap) as Q. cbv zeta in Q. destruct Q as (_ & _ & Q & _). apply Q; [exact H|reflexivity]. Qed.
Theorem C79_rejected sk im ps center rescale k sigma o : let call := ImgPatches sk im ps center rescale k sigma o in
  (ps = [] -> call = Raise IndexError) /\ (ps <> [] -> (List.length (im_shape im) <> 2 /\ List.length (im_shape im) <> 3)%nat -> call = Raise UnboundLocalError) /\
  (forall h w d r c, image_size (im_shape im) h w d -> patch_size ps r c ->
    (sk = false -> (1 <= h)%nat -> (1 <= w)%nat -> call = Raise ImportError) /\
    (sk = true -> (r = 0 \/ c = 0)%nat -> call = Raise ValueError) /\ (sk = true -> (h * w <= k)%nat -> call = Raise ValueError) /\
    (sk = true -> rescale = true -> (exists v, forall p q e, (p < h)%nat -> (q < w)%nat -> (e < d)%nat -> im_get im p q e = v) -> (1 <= h)%nat -> (1 <= w)%nat -> call = Raise ValueError)).
Proof.
  cbv zeta. unfold ImgPatches. split; [intros ->; reflexivity|]. split.
  - intros H1 H2. unfold img_patches. destruct ps as [|r l]; [congruence|]. assert (E : exists rc, patch_dims (r :: l) = Ok rc) by (destruct l as [|x [|y l]]; eexists; reflexivity). destruct E as ([r' c'] & ->). cbn [bindr].
    assert (Ei : image_dims (im_shape im) = None) by (destruct (im_shape im) as [|x [|y [|t [|? ?]]]]; try reflexivity; cbn in H2; lia). rewrite Ei. reflexivity.
  - intros h w d r c Hi Hp. assert (E : exists d0, image_dims (im_shape im) = Some (h, w, d0) /\ d = (if Nat.eqb d0 0 then 1 else d0)%nat /\ (Nat.eqb d0 0 && Nat.eqb (List.length (im_shape im)) 3)%bool = false).
    { destruct Hi as [(-> & ->)|(-> & Hd)]; [exists 0%nat; repeat split|exists d]. cbn [image_dims List.length]. destruct (Nat.eqb_spec d 0); [lia|]. repeat split. }
    destruct E as (d0 & E1 & E2 & E3). assert (R : forall h' w' : nat, (h' * w' <= k)%nat -> forall n X, NNGraph (h' * w') n X (o_nntype o) center rescale k sigma (o_eps o) (o_sym o) (o_dist o) (o_query o) (o_lap o) = Raise ValueError) by (intros; apply nn_few; assumption).
    split; [|split; [|split]].
    + intros -> Hh Hw. unfold img_patches. rewrite (patch_ok_rev _ _ _ Hp). cbn [bindr]. rewrite E1, E3. destruct (Nat.eqb_spec h 0); [lia|]. destruct (Nat.eqb_spec w 0); [lia|]. reflexivity.
    + intros -> H0. unfold img_patches. rewrite (patch_ok_rev _ _ _ Hp). cbn [bindr]. rewrite E1, E3. cbv zeta. destruct (Nat.eqb h 0 && _ || _)%bool; [reflexivity|]. cbn [negb].
      match goal with |- context [if ?b then Raise ValueError else _] => assert (B : b = true) end; [|rewrite B; reflexivity]. rewrite !orb_true_iff, !Nat.ltb_lt. lia.
    + intros -> Hk. destruct (img_patches true im ps) as [p|x] eqn:Ex; cbn [bindr].
      * destruct (Nat.eq_dec (fst (fst p)) 0) as [Z|Z]; [apply nn_few; lia|]. unfold img_patches in Ex. rewrite (patch_ok_rev _ _ _ Hp) in Ex. cbn [bindr] in Ex. rewrite E1, E3 in Ex. cbv zeta in Ex. destruct (Nat.eqb h 0 && _ || _)%bool in Ex; [discriminate|]. cbn [negb] in Ex. destruct (Nat.ltb _ r || _ || _ || _)%bool in Ex; [discriminate|]. destruct (negb _) in Ex; [discriminate|]. injection Ex as <-. cbn [fst snd]. apply R. exact Hk.
      * f_equal. unfold img_patches in Ex. rewrite (patch_ok_rev _ _ _ Hp) in Ex. cbn [bindr] in Ex. rewrite E1, E3 in Ex. cbv zeta in Ex. destruct (Nat.eqb h 0 && _ || _)%bool in Ex; [congruence|]. cbn [negb] in Ex. destruct (Nat.ltb _ r || _ || _ || _)%bool in Ex; [congruence|]. destruct (negb _) in Ex; [congruence|discriminate].
    + intros -> Hresc (v & Hv) Hh Hw. destruct (Nat.eq_dec r 0) as [Zr|Zr]; [|destruct (Nat.eq_dec c 0) as [Zc|Zc]].
      1,2: unfold img_patches; rewrite (patch_ok_rev _ _ _ Hp); cbn [bindr]; rewrite E1, E3; cbv zeta; destruct (Nat.eqb h 0 && _ || _)%bool; [reflexivity|]; cbn [negb]; match goal with |- context [if ?b then Raise ValueError else _] => assert (B : b = true) by (rewrite !orb_true_iff, !Nat.ltb_lt; lia) end; rewrite B; reflexivity.
      destruct (patches_ok im ps h w d r c) as (X & E); try assumption; try lia. rewrite E. cbn [bindr fst snd]. destruct (Nat.leb_spec (h * w) k) as [Hk|Hk]; [apply R; exact Hk|].
      rewrite Hresc. apply nn_const; [exact Hk|]. assert (HX : forall a f, (a < h * w)%nat -> (f < r * c * d)%nat -> X a f = v).
      { intros a f Ha Hf. destruct (patches_run _ _ _ _ E) as (h' & w' & d' & r' & c' & Hi' & Hp' & _ & _ & _ & _ & _ & _ & _ & _ & HP); [cbn [fst]; nia|]. cbn [snd] in HP.
        assert (h' = h /\ w' = w /\ d' = d) as (-> & -> & ->) by (destruct Hi as [(Q & ->)|(Q & _)], Hi' as [(Q' & ->)|(Q' & _)]; rewrite Q in Q'; try discriminate; injection Q'; auto).
        assert (r' = r /\ c' = c) as (-> & ->) by (apply patch_ok_rev in Hp, Hp'; rewrite Hp in Hp'; injection Hp'; auto).
        assert (Hd1 : (1 <= d)%nat) by nia. pose proof (Nat.div_mod f d ltac:(lia)) as F1. pose proof (Nat.mod_upper_bound f d ltac:(lia)) as F2. pose proof (Nat.div_mod (f / d) c ltac:(lia)) as F3. pose proof (Nat.mod_upper_bound (f / d) c ltac:(lia)) as F4.
        pose proof (Nat.div_mod a w ltac:(lia)) as A1. pose proof (Nat.mod_upper_bound a w ltac:(lia)) as A2. assert (A3 : (a / w < h)%nat) by (apply Nat.div_lt_upper_bound; lia).
        assert (F5 : (f / d / c < r)%nat) by (apply Nat.div_lt_upper_bound; [lia|]; apply Nat.div_lt_upper_bound; [lia|]; nia).
        destruct (HP (a / w)%nat (a mod w) (f / d / c)%nat ((f / d) mod c) (f mod d) A3 A2 F5 F4 F2) as (p & q & (M1 & _) & (M2 & _) & HX). replace (a / w * w + a mod w)%nat with a in HX by lia.
        replace ((f / d / c * c + (f / d) mod c) * d + f mod d)%nat with f in HX by (replace (f / d / c * c + (f / d) mod c)%nat with (f / d)%nat by lia; lia). rewrite HX. apply Hv; assumption. }
      intros i j Hi' Hj f Hf. rewrite !HX by assumption. reflexivity.
Qed.
Definition ex_image : image := mkimage [4; 3]%nat (fun i j _ => INR (i * 3 + j)).
Example C79_ex q : exists G, ImgPatches true ex_image [3]%nat true false 10 (Some 1) (ex_opt q) = Ok G.
Proof.
  apply (C79_succeeds ex_image [3]%nat true 10 1 (ex_opt q) 4 3 1 3 3); try lia; [left; split; reflexivity| |apply ex_opt_good; lia|lra]. right. split; [exists []; split; [reflexivity|cbn; lia]|reflexivity].
Qed.

(** ** C79: Grid2dImgPatches *)
(** whatever the aggregation, the weights are those it returns on the weights of the patch graph and of the grid; the coordinates are those of the grid *)
Theorem C79_aggregate agg sk im ps center rescale k sigma o G : valid_lap (o_lap o) -> Grid2dImgPatches agg sk im ps center rescale k sigma o = Ok G ->
  exists h w l Gg Gp, im_shape im = h :: w :: l /\ Grid2d h (Some w) 0 Combinatorial = Ok Gg /\ ImgPatches sk im ps center rescale k sigma o = Ok Gp /\ g_n_vertices Gp = (h * w)%nat /\ (1 <= h)%nat /\ (2 <= w)%nat /\
    built G /\ g_n_vertices G = (h * w)%nat /\ g_lap_type G = Combinatorial /\ g_coords G = Some (grid_coords h w) /\ forall i j, (i < h * w)%nat -> (j < h * w)%nat -> wt G i j = agg (wt Gp) (wt Gg) i j.
Proof.
  intros Hl H. unfold Grid2dImgPatches in H. destruct (im_shape im) as [|h [|w l]] eqn:Es; try discriminate. destruct (Grid2d h (Some w) 0 Combinatorial) as [Gg|] eqn:Eg; cbn [bindr] in H; [|discriminate]. destruct (ImgPatches sk im ps center rescale k sigma o) as [Gp|] eqn:Ep; cbn [bindr] in H; [|discriminate].
  assert (Hh : (1 <= h)%nat /\ (2 <= w)%nat). { unfold Grid2d in Eg. destruct (Nat.eqb_spec h 0); cbn [orb] in Eg; [discriminate|]. destruct (Nat.eqb_spec w 0); cbn [orb] in Eg; [discriminate|]. destruct (Nat.eqb_spec w 1); cbn [orb] in Eg; [discriminate|lia]. }
  destruct (C46_grid h w 0 Combinatorial (proj1 Hh) (proj2 Hh) (or_introl eq_refl)) as (Gg' & Eg' & _ & _ & _ & _ & _ & _ & _ & _ & Hc). rewrite Eg in Eg'. injection Eg' as <-.
  assert (Hn : g_n_vertices Gp = (h * w)%nat). { destruct (C79_patches _ _ _ _ _ _ _ _ _ Hl Ep) as (h' & w' & d & r & c & X & Hi & _ & _ & _ & -> & _). destruct Hi as [(Q & _)|(Q & _)]; rewrite Es in Q; injection Q; intros; subst; reflexivity. }
  match type of H with graph_init (InDense _ (map Fin (dense _ ?W))) _ ?cs = _ => destruct (finite_entry_built (h * w) (dense (h * w) W) Combinatorial cs (dense_len _ _) (or_introl eq_refl)) as (G' & E & Hb & HN & Ht & Hcs & Hw) end. rewrite E in H. injection H as <-.
  exists h, w, l, Gg, Gp. split; [reflexivity|]. split; [exact Eg|]. split; [reflexivity|]. split; [exact Hn|]. split; [apply Hh|]. split; [apply Hh|]. split; [exact Hb|]. split; [exact HN|]. split; [exact Ht|]. split; [rewrite Hcs; exact Hc|].
  intros i j Hi Hj. rewrite Hw by assumption. rewrite dense_nth by assumption. reflexivity.
Qed.
Definition agg_sum (A B : mat) : mat := fun i j => A i j + B i j.
(** by default the weights add up; the graph is connected because the grid is *)
Theorem C79_default sk im ps center rescale k sigma o G : valid_lap (o_lap o) -> Grid2dImgPatches agg_sum sk im ps center rescale k sigma o = Ok G ->
  undirected G /\ nonneg_weights G /\ connected G /\ exists h w l Gp, im_shape im = h :: w :: l /\ ImgPatches sk im ps center rescale k sigma o = Ok Gp /\ g_n_vertices G = (h * w)%nat /\
    forall i j, (i < h * w)%nat -> (j < h * w)%nat -> (straight w i j -> wt G i j = wt Gp i j + 1) /\ (~ straight w i j -> wt G i j = wt Gp i j).
Proof.
  intros Hl H. destruct (C79_aggregate _ _ _ _ _ _ _ _ _ _ Hl H) as (h & w & l & Gg & Gp & Es & Eg & Ep & Hnp & Hh & Hw2 & Hb & Hn & _ & _ & Hw). unfold agg_sum in Hw.
  destruct (C46_grid h w 0 Combinatorial Hh Hw2 (or_introl eq_refl)) as (Gg' & Eg' & _ & Hng & Hgw & Hgu & _ & Hgp & Hgc & _). rewrite Eg in Eg'. injection Eg' as <-.
  destruct (C79_patches _ _ _ _ _ _ _ _ _ Hl Ep) as (_ & _ & _ & _ & _ & _ & _ & _ & _ & _ & _ & _ & Hpu & Hpp & _). split; [|split; [|split]].
  - intros i j Hi Hj. rewrite Hn in *. rewrite !Hw by assumption. rewrite (Hpu i j), (Hgu i j) by (rewrite ?Hnp, ?Hng; assumption). reflexivity.
  - intros i j Hi Hj. rewrite Hn in *. rewrite Hw by assumption. pose proof (Hpp i j ltac:(rewrite Hnp; assumption) ltac:(rewrite Hnp; assumption)). pose proof (Hgp i j ltac:(rewrite Hng; assumption) ltac:(rewrite Hng; assumption)). lra.
  - intros u v Hu Hv. rewrite Hn in *. pose proof (Hgc u v ltac:(rewrite Hng; assumption) ltac:(rewrite Hng; assumption)) as Q. revert Q. apply reach_mono. intros a b (A1 & A2 & A3). rewrite Hng in A1, A2. split; [rewrite Hn; exact A1|]. split; [rewrite Hn; exact A2|]. rewrite Hw by assumption.
    pose proof (Hpp a b ltac:(rewrite Hnp; assumption) ltac:(rewrite Hnp; assumption)). pose proof (Hgp a b ltac:(rewrite Hng; assumption) ltac:(rewrite Hng; assumption)). lra.
  - exists h, w, l, Gp. split; [exact Es|]. split; [exact Ep|]. split; [exact Hn|]. intros i j Hi Hj. rewrite Hw by assumption. destruct (Hgw i j Hi Hj) as (G1 & G2 & G3). split; intros S; [rewrite G1 by exact S; reflexivity|]. rewrite Rmax_right in G2 by lra.
    assert (Z : wt Gg i j = 0); [|lra]. destruct (Req_dec (wt Gg i j) 0) as [Z|Z]; [exact Z|]. apply G3; [exact S|]. intros Ho. apply Z, G2, Ho.
Qed.
(** Finding: an image with a single column has no such graph. *)
Theorem C79_single_column_rejected_refuted agg sk h l get ps center rescale k sigma o : (1 <= h)%nat -> Grid2dImgPatches agg sk (mkimage (h :: 1%nat :: l) get) ps center rescale k sigma o = Raise ValueError.
Proof. intros Hh. unfold Grid2dImgPatches. cbn [im_shape]. rewrite C46_single_column_rejected. reflexivity. Qed.
Theorem C79_grid_succeeds agg im ps center k s o h w d r c : image_size (im_shape im) h w d -> patch_size ps r c -> (1 <= r)%nat -> (1 <= c)%nat -> (k < h * w)%nat -> (2 <= w)%nat -> good_opt k o -> s <> 0 ->
  exists G, Grid2dImgPatches agg true im ps center false k (Some s) o = Ok G.
Proof.
  intros Hi Hp Hr Hc Hk Hw Ho Hs. destruct (C79_succeeds im ps center k s o h w d r c Hi Hp Hr Hc Hk Ho Hs) as (Gp & Ep). unfold Grid2dImgPatches. assert (Es : exists l, im_shape im = h :: w :: l) by (destruct Hi as [(-> & _)|(-> & _)]; eauto). destruct Es as (l & ->).
  assert (Hh : (1 <= h)%nat) by nia. destruct (C46_grid h w 0 Combinatorial Hh Hw (or_introl eq_refl)) as (Gg & -> & _). cbn [bindr]. rewrite Ep. cbn [bindr].
  match goal with |- context [graph_init (InDense _ (map Fin (dense _ ?W))) _ ?cs] => destruct (finite_entry_built (h * w) (dense (h * w) W) Combinatorial cs (dense_len _ _) (or_introl eq_refl)) as (G' & E & _) end. exists G'. exact E.
Qed.
Example C79_ex_grid q : exists G, Grid2dImgPatches agg_sum true ex_image [3; 2]%nat true false 10 (Some 1) (ex_opt q) = Ok G.
Proof. apply (C79_grid_succeeds agg_sum ex_image [3; 2]%nat true 10 1 (ex_opt q) 4 3 1 3 2); try lia; [left; split; reflexivity|left; reflexivity|apply ex_opt_good; lia|lra]. Qed.
