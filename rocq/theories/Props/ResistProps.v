(** C109: what the resistance distances of utils.resistance_distance measure. *)
From Coq Require Import Reals Lra Lia List Arith Bool String ZArith Classical.
From Verif.Base Require Import RSum Prelude LinAlg Spectral Solve.
From Verif.Spec Require Import Matrix GraphSpec Reach HopSpec LapSpec GenSpec FlowSpec.
From Verif.Model Require Import Sparse Graph Difference Generators Utils.
From Verif.Proofs Require Import SparseFacts InitFacts EdgeFacts LapFacts MaxPrinciple SpectralFacts.
From Verif.Props Require Import Core Laplacian Traversal UtilsProps SpectrumProps GenProps MonotoneProps FlowProps.
Import ListNotations.
Open Scope R_scope.
Open Scope list_scope.

(** ** Setting *)

(** resistance_distance has returned Rd on a connected graph. *)
Definition resistances (G : graph) (Rd : mat) : Prop :=
  built G /\ nonneg_weights G /\ g_lap_type G = Combinatorial /\ connected G /\
  exists o, inv_contract (g_n_vertices G) (gL G) o /\ resistance_distance G o = Ok Rd.
(** the weight of the undirected edge between i and j *)
Definition mean_weight (G : graph) (i j : nat) : R := (wt G i j + wt G j i) / 2.

Lemma dot_unit n w i j : (i < n)%nat -> (j < n)%nat -> dot n w (fun a => unitv i a - unitv j a) = w i - w j.
Proof.
  intros Hi Hj. unfold dot, unitv. rewrite (rsum_ext _ _ (fun a => (if Nat.eqb a i then w a else 0) - (if Nat.eqb a j then w a else 0)))
    by (intros a Ha; destruct (Nat.eqb a i), (Nat.eqb a j); ring).
  rewrite rsum_minus. rewrite (rsum_single _ (fun a => if Nat.eqb a i then w a else 0) i Hi) by (intros a Ha Hne; destruct (Nat.eqb_spec a i); [congruence|reflexivity]).
  rewrite (rsum_single _ (fun a => if Nat.eqb a j then w a else 0) j Hj) by (intros a Ha Hne; destruct (Nat.eqb_spec a j); [congruence|reflexivity]).
  rewrite !Nat.eqb_refl. reflexivity.
Qed.
Lemma potential G Rd i j : resistances G Rd -> let n := g_n_vertices G in (i < n)%nat -> (j < n)%nat ->
  exists v, (forall a, (a < n)%nat -> mulv n (gL G) v a = unitv i a - unitv j a) /\ Rd i j = v i - v j /\ quad n (gL G) v = Rd i j /\
    forall x, dot n x (mulv n (gL G) v) = x i - x j.
Proof.
  intros (Hb & Hp & Ht & HC & o & Ho & HR) n Hi Hj.
  destruct (C34_potential_difference G o Rd i j Hb Hp Ht HC Ho HR Hi Hj) as ((v & Hv) & D). exists v. fold n in Hv.
  assert (K : forall x, dot n x (mulv n (gL G) v) = x i - x j).
  { intros x. rewrite <- (dot_unit n x i j Hi Hj). apply dot_ext; [intros a Ha; reflexivity|exact Hv]. }
  pose proof (D v Hv) as E. split; [exact Hv|]. split; [exact E|]. split; [unfold quad; rewrite K; symmetry; exact E|exact K].
Qed.
Lemma res_metric G Rd : resistances G Rd -> let n := g_n_vertices G in
  (forall i j, Rd i j = Rd j i) /\ (forall i, Rd i i = 0) /\ (forall i j, (i < n)%nat -> (j < n)%nat -> 0 <= Rd i j) /\
  (forall i j, (i < n)%nat -> (j < n)%nat -> Rd i j = 0 -> i = j) /\
  (forall i j k, (i < n)%nat -> (j < n)%nat -> (k < n)%nat -> Rd i k <= Rd i j + Rd j k).
Proof. intros (Hb & Hp & Ht & HC & o & Ho & HR). exact (C34_metric G o Rd Hb Hp Ht HC Ho HR). Qed.

(** ** Dirichlet's principle *)

Lemma dirichlet n L v i j r x : is_laplacian n L -> quad n L v = r -> 0 <= r -> (r = 0 -> i = j) ->
  (forall y, dot n y (mulv n L v) = y i - y j) -> (x i - x j) ^ 2 <= r * quad n L x.
Proof.
  intros HL Hq Hr Hz K. destruct (Req_dec r 0) as [E|E].
  - rewrite (Hz E). rewrite E. lra.
  - set (t := (x i - x j) / r). pose proof (lap_psd n L HL (fun a => x a - t * v a)) as P.
    assert (Q : quad n L (fun a => x a - t * v a) = quad n L x - 2 * t * (x i - x j) + t * t * r).
    { rewrite <- Hq, <- (K x). destruct HL as (Hs & _). pose proof (dot_mulv_sym n L v x Hs) as Sy.
      assert (Em : forall a, mulv n L (fun a => x a - t * v a) a = mulv n L x a - t * mulv n L v a).
      { intros a. unfold mulv. rewrite <- rsum_scal_l, <- rsum_minus. apply rsum_ext. intros. ring. }
      unfold quad. transitivity (dot n x (mulv n L x) - t * dot n x (mulv n L v) - t * dot n v (mulv n L x) + t * t * dot n v (mulv n L v)).
      - unfold dot. rewrite <- !rsum_scal_l, <- !rsum_minus, <- rsum_plus. apply rsum_ext. intros a Ha. rewrite Em. ring.
      - rewrite Sy, (dot_comm n (mulv n L v) x). ring. }
    assert (Z : quad n L x - 2 * t * (x i - x j) + t * t * r = quad n L x - (x i - x j) ^ 2 / r) by (unfold t; field; exact E).
    assert (H : (x i - x j) ^ 2 / r <= quad n L x) by lra.
    apply (Rmult_le_compat_l r) in H; [|exact Hr]. replace (r * ((x i - x j) ^ 2 / r)) with ((x i - x j) ^ 2) in H by (field; exact E). exact H.
Qed.

(** a difference of 1 between i and j costs at least the inverse of the resistance, and no more *)
Theorem C109_energy_of_a_difference G Rd i j : resistances G Rd -> let n := g_n_vertices G in (i < n)%nat -> (j < n)%nat ->
  (forall x E, dirichlet_energy G x = Ok E -> (nth i x 0 - nth j x 0) ^ 2 <= Rd i j * E) /\
  (i <> j -> exists x, dirichlet_energy G x = Ok (/ Rd i j) /\ nth i x 0 - nth j x 0 = 1).
Proof.
  intros HG n Hi Hj. pose proof HG as (Hb & Hp & Ht & _). pose proof (graph_is_laplacian G Hb Hp Ht) as HL. fold n in HL.
  destruct (potential G Rd i j HG Hi Hj) as (v & Hv & Ev & Qv & K). destruct (res_metric G Rd HG) as (_ & _ & R0 & Rz & _). fold n in Hv, Qv, K, R0, Rz. split.
  - intros x E HE. assert (Lx : List.length x = n).
    { unfold dirichlet_energy, check_signal in HE. destruct (Nat.eqb_spec (List.length x) (g_n_vertices G)); [assumption|discriminate]. }
    rewrite (energy_ok G x Lx) in HE. injection HE as <-. fold n.
    exact (dirichlet n (gL G) v i j (Rd i j) (fun a => nth a x 0) HL Qv (R0 i j Hi Hj) (Rz i j Hi Hj) K).
  - intros Ne. assert (Hr : Rd i j <> 0) by (intros E; apply Ne; apply Rz; assumption).
    set (w := fun a => v a / Rd i j). exists (vl n w). split.
    + rewrite (energy_ok G _ (vl_len n w)). f_equal. fold n. transitivity (quad n (gL G) w).
      * unfold quad. apply dot_ext; [intros a Ha; exact (lv_vl n w a Ha)|]. intros a Ha. apply mulv_ext; [intros ? ?; reflexivity|]. intros b Hb'. exact (lv_vl n w b Hb').
      * assert (E : quad n (gL G) w = / Rd i j * / Rd i j * quad n (gL G) v).
        { unfold quad, dot, mulv, w. rewrite <- rsum_scal_l. apply rsum_ext. intros a Ha. rewrite (rsum_ext n (fun j0 => gL G a j0 * (v j0 / Rd i j)) (fun j0 => / Rd i j * (gL G a j0 * v j0))).
          2:{ intros b Hb'. unfold Rdiv. ring. } rewrite rsum_scal_l. unfold Rdiv. ring. }
        rewrite E, Qv. field. exact Hr.
    + change (lv (vl n w) i - lv (vl n w) j = 1). rewrite !lv_vl by assumption. unfold w. replace (v i) with (Rd i j + v j) by lra. field. exact Hr.
Qed.

(** ** Thomson's principle *)

(** the resistance is the least energy of an edge signal that carries a unit from j to i *)
Theorem C109_energy_of_a_flow G Rd i j : resistances G Rd -> let n := g_n_vertices G in let m := g_n_edges G in (i < n)%nat -> (j < n)%nat ->
  (forall y dy, div G y = Ok dy -> (forall a, (a < n)%nat -> nth a dy 0 = unitv i a - unitv j a) ->
     Rd i j <= inner m y y /\ (inner m y y = Rd i j <-> exists x, grad G x = Ok y)) /\
  exists y dy, div G y = Ok dy /\ (forall a, (a < n)%nat -> nth a dy 0 = unitv i a - unitv j a) /\ inner m y y = Rd i j.
Proof.
  intros HG n m Hi Hj. pose proof HG as (Hb & Hp & Ht & HC & o & Ho & HR). destruct (flow_ops G Hb Hp) as (D & Hg & Hd & HF). fold n m in Hg, Hd, HF.
  assert (E0 : forall x gx, grad G x = Ok gx -> (forall a, (a < n)%nat -> \sum_(b < n) (gL G a b * nth b x 0) = unitv i a - unitv j a) -> inner m gx gx = Rd i j).
  { intros x gx Hx H. destruct (C34_potential_difference G o Rd i j Hb Hp Ht HC Ho HR Hi Hj) as (_ & V). rewrite (V (lv x) H).
    rewrite (Hg x (grad_len _ _ _ Hx)) in Hx. injection Hx as <-.
    transitivity (normsq m (mulv n (tr D) (lv x))).
    { unfold inner, normsq, dot. apply rsum_ext. intros k Hk. change (lv (vl m (mulv n (tr D) (lv x))) k * lv (vl m (mulv n (tr D) (lv x))) k = mulv n (tr D) (lv x) k * mulv n (tr D) (lv x) k). rewrite !lv_vl by exact Hk. reflexivity. }
    rewrite <- (fac_quad n m (gL G) D HF). rewrite <- (dot_unit n (lv x) i j Hi Hj). unfold quad. apply dot_ext; [intros a Ha; reflexivity|exact H]. }
  split.
  - intros y dy Hy H. destruct (C108_every_edge_signal_splits G y Hb Hp (div_len _ _ _ Hy)) as (x & gx & z & d & Lx & Eg & Lg & Lz & Hs & Ed & Hd0 & Hor). fold n m in Lx, Lg, Lz, Hs, Hd0, Hor.
    assert (Hx : forall a, (a < n)%nat -> \sum_(b < n) (gL G a b * nth b x 0) = unitv i a - unitv j a).
    { intros a Ha. rewrite <- (H a Ha). apply (proj1 (C108_potentials G y dy x gx Hb Hp Hy Eg)); [|exact Ha]. exists z, d. auto. }
    pose proof (E0 x gx Eg Hx) as E1. pose proof (C108_pythagoras G y x gx z d Hb Hp Eg Ed Hd0 Hs) as E2. fold m in E2.
    assert (P : 0 <= inner m z z) by (unfold inner; apply rsum_nonneg; intros; apply Rle_0_sqr).
    split; [lra|]. split.
    + intros E. assert (Q : inner m z z = 0) by lra. pose proof (normsq_zero_entries m (lv z) Q) as Z. exists x. rewrite Eg. f_equal.
      pose proof (div_len _ _ _ Hy) as Ly. fold m in Ly. apply (nth_ext _ _ 0 0); [congruence|]. intros k Hk. rewrite (Hs k ltac:(lia)). pose proof (Z k ltac:(lia)) as Zk. unfold lv in Zk. rewrite Zk. ring.
    + intros (x' & Hx'). apply (E0 x' y Hx'). intros a Ha. rewrite <- (H a Ha).
      destruct (C13_div_grad_is_laplacian G x' y Hb Hp Hx') as (d' & Ed' & _ & Hd'). rewrite Hy in Ed'. injection Ed' as <-. rewrite (Hd' a Ha). reflexivity.
  - destruct (potential G Rd i j HG Hi Hj) as (v & Hv & _ & _ & _). fold n in Hv. set (x := vl n v). pose proof (Hg x (vl_len n v)) as Eg.
    destruct (C13_div_grad_is_laplacian G x _ Hb Hp Eg) as (d' & Ed' & _ & Hd'). fold n in Hd'.
    assert (Hx : forall a, (a < n)%nat -> \sum_(b < n) (gL G a b * nth b x 0) = unitv i a - unitv j a).
    { intros a Ha. rewrite <- (Hv a Ha). apply rsum_ext. intros b Hb'. f_equal. exact (lv_vl n v b Hb'). }
    eexists. exists d'. split; [exact Ed'|]. split; [intros a Ha; rewrite (Hd' a Ha); apply Hx; exact Ha|]. exact (E0 x _ Eg Hx).
Qed.

(** ** Edges *)

Lemma term_le_sum n (f : nat -> R) b : (b < n)%nat -> (forall q, (q < n)%nat -> 0 <= f q) -> f b <= \sum_(q < n) f q.
Proof.
  intros Hb H. apply (Rle_trans _ (\sum_(q < n) (if Nat.eqb q b then f q else 0))).
  - rewrite (rsum_single n _ b Hb) by (intros q Hq Ne; destruct (Nat.eqb_spec q b); [contradiction|reflexivity]). rewrite Nat.eqb_refl. lra.
  - apply rsum_le. intros q Hq. specialize (H q Hq). destruct (Nat.eqb q b); lra.
Qed.

Lemma edge_gradient G : built G -> nonneg_weights G -> g_lap_type G = Combinatorial -> exists l, get_edge_list (gW G) = Ok l /\ List.length l = g_n_edges G /\
  forall k a b w, (k < g_n_edges G)%nat -> nth k l (0%nat, 0%nat, 0) = (a, b, w) ->
    let c := if is_directed (gW G) then w / 2 else w in
    (a < g_n_vertices G)%nat /\ (b < g_n_vertices G)%nat /\ 0 < c /\
    forall x y, grad G x = Ok y -> nth k y 0 = sqrt c * (nth b x 0 - nth a x 0).
Proof.
  intros Hb Hp Ht. destruct (built_good G Hb) as (Hg & Hn & He & HL). destruct (edge_list_ok (gW G) Hg) as (l & El & _ & Ll).
  exists l. split; [exact El|]. split; [rewrite He; exact Ll|]. intros k a b w Hk Hkl c.
  assert (Hin : In (a, b, w) l) by (rewrite <- Hkl; apply nth_In; rewrite Ll, <- He; exact Hk).
  apply (edge_list_in _ l a b w Hg El) in Hin. destruct Hin as (Ha & Hbb & Hw & Hnz & _). pose proof (nonneg_W G Hb Hp a b Ha Hbb) as P. rewrite <- Hw in P.
  assert (P' : 0 < w) by lra.
  split; [rewrite Hn; exact Ha|]. split; [rewrite Hn; exact Hbb|]. split; [unfold c; destruct (is_directed (gW G)); lra|].
  intros x y Hy. destruct (C13_gradient_values G x l Hb Hp (grad_len _ _ _ Hy) El) as (y' & Ey & _ & V). rewrite Hy in Ey. injection Ey as <-.
  exact (proj1 (V k a b w Hk Hkl) Ht).
Qed.

Definition unit_edge (m k : nat) : list R := map (fun a => if Nat.eqb a k then 1 else 0) (seq 0 m).
Lemma unit_edge_nth m k a : (a < m)%nat -> nth a (unit_edge m k) 0 = if Nat.eqb a k then 1 else 0.
Proof. intros H. unfold unit_edge. exact (nth_map_seq (fun a => if Nat.eqb a k then 1 else 0) m a 0 H). Qed.

(** weight times resistance is at most one on every edge; it is one exactly on the edges that no circulation uses *)
Theorem C109_bridges G Rd l k a b w : resistances G Rd -> get_edge_list (gW G) = Ok l -> (k < g_n_edges G)%nat -> nth k l (0%nat, 0%nat, 0) = (a, b, w) ->
  let c := if is_directed (gW G) then w / 2 else w in
  c * Rd a b <= 1 /\ (c * Rd a b = 1 <-> forall z, circulation G z -> nth k z 0 = 0).
Proof.
  intros HG El Hk Hkl c. pose proof HG as (Hb & Hp & Ht & HC & o & Ho & HR). set (n := g_n_vertices G). set (m := g_n_edges G).
  destruct (edge_gradient G Hb Hp Ht) as (l' & El' & Ll & HE). rewrite El in El'. injection El' as <-.
  destruct (HE k a b w Hk Hkl) as (Ha & Hbn & Hc & Hgr). fold c in Hc, Hgr. fold n in Ha, Hbn. fold m in Hk.
  destruct (potential G Rd a b HG Ha Hbn) as (v & Hv & Ev & Qv & K). fold n in Hv, Qv, K.
  destruct (res_metric G Rd HG) as (_ & Rd0 & Rp & Rz & _). fold n in Rp, Rz. pose proof (Rp a b Ha Hbn) as Rab.
  destruct (flow_ops G Hb Hp) as (D & Hg & Hd & HF). fold n m in Hg, Hd, HF.
  set (x := vl n v). pose proof (Hg x (vl_len n v)) as Eg. set (g := vl m (mulv n (tr D) (lv x))) in *.
  assert (Gk : nth k g 0 = - sqrt c * Rd a b).
  { rewrite (Hgr x g Eg). change (nth b x 0) with (lv x b). change (nth a x 0) with (lv x a). unfold x. rewrite !lv_vl by assumption. rewrite Ev. ring. }
  assert (Hx : forall q, (q < n)%nat -> \sum_(r < n) (gL G q r * nth r x 0) = unitv a q - unitv b q).
  { intros q Hq. rewrite <- (Hv q Hq). apply rsum_ext. intros r Hr. f_equal. exact (lv_vl n v r Hr). }
  assert (Gg : inner m g g = Rd a b).
  { destruct (C13_div_grad_is_laplacian G x g Hb Hp Eg) as (d' & Ed' & _ & Hd'). fold n in Hd'.
    apply (proj2 (proj2 (proj1 (C109_energy_of_a_flow G Rd a b HG Ha Hbn) g d' Ed' (fun q Hq => eq_trans (Hd' q Hq) (Hx q Hq))))). exists x. exact Eg. }
  assert (S : sqrt c * sqrt c = c) by (apply sqrt_def; lra).
  assert (Split : inner m g g = nth k g 0 * nth k g 0 + \sum_(q < m) (if Nat.eqb q k then 0 else nth q g 0 * nth q g 0)).
  { unfold inner. transitivity (\sum_(q < m) (if Nat.eqb q k then nth q g 0 * nth q g 0 else 0) + \sum_(q < m) (if Nat.eqb q k then 0 else nth q g 0 * nth q g 0)).
    - rewrite <- rsum_plus. apply rsum_ext. intros q Hq. destruct (Nat.eqb q k); ring.
    - f_equal. rewrite (rsum_single m _ k Hk) by (intros q Hq Ne; destruct (Nat.eqb_spec q k); [contradiction|reflexivity]). rewrite Nat.eqb_refl. reflexivity. }
  set (rest := \sum_(q < m) (if Nat.eqb q k then 0 else nth q g 0 * nth q g 0)) in *.
  assert (P : forall q, (q < m)%nat -> 0 <= (if Nat.eqb q k then 0 else nth q g 0 * nth q g 0)) by (intros q Hq; destruct (Nat.eqb q k); [lra|apply Rle_0_sqr]).
  assert (Pr : 0 <= rest) by (apply rsum_nonneg; exact P).
  assert (Key : Rd a b = c * Rd a b * Rd a b + rest).
  { rewrite <- Gg at 1. rewrite Split, Gk. replace (- sqrt c * Rd a b * (- sqrt c * Rd a b)) with ((sqrt c * sqrt c) * Rd a b * Rd a b) by ring. rewrite S. reflexivity. }
  assert (Le : c * Rd a b <= 1).
  { destruct (Req_dec (Rd a b) 0) as [E|E]; [rewrite E; lra|]. apply (Rmult_le_reg_r (Rd a b)); [lra|]. lra. }
  split; [exact Le|]. split.
  - intros E z Hz. assert (Zr : rest = 0) by (rewrite E in Key; lra). pose proof (rsum_zero_all m _ P Zr) as Z0. cbv beta in Z0.
    assert (Hort : inner m g z = 0) by (destruct Hz as (d & Ed & H0); exact (C108_gradients_are_orthogonal_to_circulations G x g z d Hb Hp Eg Ed H0)).
    assert (Q : inner m g z = nth k g 0 * nth k z 0).
    { unfold inner. apply (rsum_single m (fun q => nth q g 0 * nth q z 0) k Hk). intros q Hq Ne. specialize (Z0 q Hq). destruct (Nat.eqb_spec q k); [contradiction|].
      apply Rmult_integral in Z0. destruct Z0 as [Z0|Z0]; rewrite Z0; ring. }
    rewrite Q in Hort. apply Rmult_integral in Hort. destruct Hort as [H|H]; [|exact H]. exfalso. rewrite Gk in H.
    assert (0 < sqrt c) by (apply sqrt_lt_R0; exact Hc). assert (R1 : Rd a b <> 0) by (intros E'; rewrite E' in E; lra).
    apply Rmult_integral in H. destruct H; lra.
  - intros H. apply Rle_antisym; [exact Le|].
    set (u := unit_edge m k). assert (Lu : List.length u = m) by (unfold u, unit_edge; rewrite map_length, seq_length; reflexivity).
    destruct (C108_every_edge_signal_splits G u Hb Hp Lu) as (x' & gx & z & d & Lx & Eg' & Lg & Lz & Hs & Ed & Hd0 & Hor). fold n m in Lx, Lg, Lz, Hs, Hd0, Hor.
    pose proof (H z (ex_intro _ d (conj Ed Hd0))) as Zk.
    assert (Q : inner m z z = 0).
    { transitivity (inner m u z - inner m gx z).
      - unfold inner. rewrite <- rsum_minus. apply rsum_ext. intros q Hq. rewrite (Hs q Hq). ring.
      - rewrite Hor. unfold inner. rewrite (rsum_single m _ k Hk); [rewrite Zk; ring|]. intros q Hq Ne. unfold u. rewrite unit_edge_nth by exact Hq.
        destruct (Nat.eqb_spec q k); [contradiction|ring]. }
    pose proof (normsq_zero_entries m (lv z) Q) as Z. unfold lv in Z.
    assert (Gx : forall q, (q < m)%nat -> nth q gx 0 = if Nat.eqb q k then 1 else 0).
    { intros q Hq. pose proof (Hs q Hq) as E. rewrite (Z q Hq) in E. unfold u in E. rewrite unit_edge_nth in E by exact Hq. lra. }
    assert (En : dirichlet_energy G x' = Ok 1).
    { rewrite (C13_energy_is_squared_gradient G x' gx Hb Hp Eg'). f_equal. fold m. rewrite (rsum_single m _ k Hk).
      - rewrite (Gx k Hk), Nat.eqb_refl. ring.
      - intros q Hq Ne. rewrite (Gx q Hq). destruct (Nat.eqb_spec q k); [contradiction|ring]. }
    pose proof (proj1 (C109_energy_of_a_difference G Rd a b HG Ha Hbn) x' 1 En) as B.
    pose proof (Hgr x' gx Eg') as V. rewrite (Gx k Hk), Nat.eqb_refl in V.
    assert (V2 : 1 = c * (nth a x' 0 - nth b x' 0) ^ 2).
    { transitivity ((sqrt c * (nth b x' 0 - nth a x' 0)) * (sqrt c * (nth b x' 0 - nth a x' 0))); [rewrite <- V; ring|].
    replace ((sqrt c * (nth b x' 0 - nth a x' 0)) * (sqrt c * (nth b x' 0 - nth a x' 0))) with ((sqrt c * sqrt c) * (nth a x' 0 - nth b x' 0) ^ 2) by ring. rewrite S. reflexivity. }
    rewrite V2 at 1. apply Rmult_le_compat_l; lra.
Qed.

(** a connected graph is a tree exactly when weight times resistance is one on every edge *)
Theorem C109_trees G Rd l : resistances G Rd -> (0 < g_n_vertices G)%nat -> get_edge_list (gW G) = Ok l ->
  ((g_n_edges G + 1 = g_n_vertices G)%nat <->
   forall k a b w, (k < g_n_edges G)%nat -> nth k l (0%nat, 0%nat, 0) = (a, b, w) -> (if is_directed (gW G) then w / 2 else w) * Rd a b = 1).
Proof.
  intros HG Hn El. pose proof HG as (Hb & Hp & Ht & HC & _). destruct (C108_trees G Hb Hp Ht HC Hn) as (_ & T & _). split.
  - intros E k a b w Hk Hkl. apply (proj2 (C109_bridges G Rd l k a b w HG El Hk Hkl)). intros z Hz. exact (proj1 T E z Hz k Hk).
  - intros H. apply T. intros z Hz k Hk. destruct (nth k l (0%nat, 0%nat, 0)) as ((a & b) & w) eqn:Hkl.
    exact (proj1 (proj2 (C109_bridges G Rd l k a b w HG El Hk Hkl)) (H k a b w Hk Hkl) z Hz).
Qed.

(** ** Distances *)

Theorem C109_edges_and_walks G Rd : resistances G Rd -> let n := g_n_vertices G in
  (forall i j, (i < n)%nat -> (j < n)%nat -> mean_weight G i j * Rd i j <= 1) /\
  (forall w0 k i j, 0 < w0 -> (forall a b, linked G a b -> a <> b -> w0 <= mean_weight G a b) -> (i < n)%nat -> (j < n)%nat ->
     within (linked G) k i j -> Rd i j <= INR k / w0).
Proof.
  intros HG n. pose proof HG as (Hb & Hp & Ht & HC & o & Ho & HR). destruct (res_metric G Rd HG) as (_ & Rd0 & Rp & Rz & Tri). fold n in Rp, Rz, Tri.
  assert (A : forall i j, (i < n)%nat -> (j < n)%nat -> mean_weight G i j * Rd i j <= 1).
  { intros i j Hi Hj. destruct (Nat.eq_dec i j) as [->|Ne]; [rewrite Rd0; lra|].
    destruct (potential G Rd i j HG Hi Hj) as (v & Hv & Ev & Qv & K). fold n in Hv, Qv, K.
    pose proof (graph_is_laplacian G Hb Hp Ht) as HL. fold n in HL. rewrite (lap_energy n _ v HL) in Qv.
    destruct (C09_combinatorial_structure G Hb Ht) as (_ & _ & H3 & _). fold n in H3.
    assert (T : forall a b, (a < n)%nat -> (b < n)%nat -> 0 <= - gL G a b * ((v a - v b) * (v a - v b))).
    { intros a b Ha Hb'. destruct (Nat.eq_dec a b) as [->|Hne]; [replace (v b - v b) with 0 by ring; lra|].
      apply Rmult_le_pos; [|apply Rle_0_sqr]. destruct HL as (_ & _ & Hne'). specialize (Hne' a b Ha Hb' Hne). lra. }
    assert (Row : forall a b, (a < n)%nat -> (b < n)%nat -> - gL G a b * ((v a - v b) * (v a - v b)) <= \sum_(q < n) (- gL G a q * ((v a - v q) * (v a - v q)))).
    { intros a b Ha Hb'. apply (term_le_sum n (fun q => - gL G a q * ((v a - v q) * (v a - v q))) b Hb'). intros q Hq. apply T; assumption. }
    assert (Two : \sum_(q < n) (- gL G i q * ((v i - v q) * (v i - v q))) + \sum_(q < n) (- gL G j q * ((v j - v q) * (v j - v q))) <= \sum_(a < n) \sum_(q < n) (- gL G a q * ((v a - v q) * (v a - v q)))).
    { set (f := fun a => \sum_(q < n) (- gL G a q * ((v a - v q) * (v a - v q)))). change (f i + f j <= \sum_(a < n) f a).
      apply (Rle_trans _ (\sum_(a < n) ((if Nat.eqb a i then f a else 0) + (if Nat.eqb a j then f a else 0)))).
      - rewrite rsum_plus. rewrite (rsum_single n (fun a => if Nat.eqb a i then f a else 0) i Hi) by (intros a Ha Hne; destruct (Nat.eqb_spec a i); [contradiction|reflexivity]).
        rewrite (rsum_single n (fun a => if Nat.eqb a j then f a else 0) j Hj) by (intros a Ha Hne; destruct (Nat.eqb_spec a j); [contradiction|reflexivity]). rewrite !Nat.eqb_refl. lra.
      - apply rsum_le. intros a Ha. assert (0 <= f a) by (apply rsum_nonneg; intros q Hq; apply T; assumption).
        destruct (Nat.eqb_spec a i), (Nat.eqb_spec a j); subst; try contradiction; lra. }
    pose proof (Row i j Hi Hj) as R1. pose proof (Row j i Hj Hi) as R2.
    assert (G1 : - gL G i j = mean_weight G i j) by (rewrite (H3 i j Hi Hj Ne); unfold mean_weight; lra).
    assert (G2 : - gL G j i = mean_weight G i j) by (rewrite (H3 j i Hj Hi (fun E => Ne (eq_sym E))); unfold mean_weight; lra).
    rewrite G1 in R1. rewrite G2 in R2.
    assert (Hq : mean_weight G i j * (Rd i j * Rd i j) <= Rd i j).
    { rewrite Ev at 1 2. replace ((v j - v i) * (v j - v i)) with ((v i - v j) * (v i - v j)) in R2 by ring. lra. }
    pose proof (Rp i j Hi Hj) as P. assert (Rd i j <> 0) by (intros E; apply Ne; apply Rz; assumption).
    apply (Rmult_le_reg_r (Rd i j)); [lra|]. lra. }
  split; [exact A|]. intros w0 k i j Hw0 Hw Hi Hj H. revert Hi Hj. induction H as [k u|k u v w Hs Hw' IH]; intros Hi Hj.
  - rewrite Rd0. apply Rmult_le_pos; [apply pos_INR|left; apply Rinv_0_lt_compat; exact Hw0].
  - pose proof Hs as (Hu & Hv & _). fold n in Hu, Hv. specialize (IH Hv Hj). pose proof (Tri u v w Hu Hv Hj) as T.
    assert (B : Rd u v <= / w0).
    { destruct (Nat.eq_dec u v) as [->|Ne]; [rewrite Rd0; left; apply Rinv_0_lt_compat; exact Hw0|].
      specialize (Hw u v Hs Ne). specialize (A u v Hu Hv). pose proof (Rp u v Hu Hv). apply (Rmult_le_reg_l w0); [exact Hw0|]. rewrite Rinv_r by lra.
      apply (Rle_trans _ (mean_weight G u v * Rd u v)); [apply Rmult_le_compat_r; lra|exact A]. }
    rewrite S_INR. unfold Rdiv in *. rewrite Rmult_plus_distr_r, Rmult_1_l. lra.
Qed.

(** ** Spectrum *)

(** the resistances are read off the Fourier basis *)
Theorem C109_spectral_formula G Rd e U i j : resistances G Rd -> let n := g_n_vertices G in eigh_ok n (gL G) e U -> (i < n)%nat -> (j < n)%nat ->
  Rd i j = \sum_(k < n) (if Req_EM_T (e k) 0 then 0 else (U i k - U j k) ^ 2 / e k).
Proof.
  intros HG n HU Hi Hj. destruct (potential G Rd i j HG Hi Hj) as (v & Hv & Ev & Qv & K). fold n in Hv, Qv, K.
  rewrite Ev, <- (dot_unit n v i j Hi Hj), <- (coef_dot n (gL G) e U HU). unfold dot. apply rsum_ext. intros k Hk.
  assert (C : coef n U (fun a => unitv i a - unitv j a) k = U i k - U j k).
  { change (dot n (fun a => U a k) (fun a => unitv i a - unitv j a) = U i k - U j k). exact (dot_unit n (fun a => U a k) i j Hi Hj). }
  assert (M : e k * coef n U v k = U i k - U j k).
  { rewrite <- C, <- (coef_mulv n (gL G) e U HU v k Hk). unfold coef. apply rsum_ext. intros a Ha. rewrite (Hv a Ha). reflexivity. }
  rewrite C. destruct (Req_EM_T (e k) 0) as [E|E].
  - rewrite E in M. replace (U i k - U j k) with 0 by lra. ring.
  - rewrite <- M. field. exact E.
Qed.

Lemma modes_apart G e U i j : let n := g_n_vertices G in eigh_ok n (gL G) e U -> (i < n)%nat -> (j < n)%nat -> i <> j ->
  \sum_(k < n) (U i k - U j k) ^ 2 = 2.
Proof.
  intros n HU Hi Hj Ne. pose proof (eigh_rows _ _ _ _ HU) as Hr.
  transitivity (\sum_(k < n) (tr U k i * tr U k i) + \sum_(k < n) (tr U k j * tr U k j) - 2 * \sum_(k < n) (tr U k i * tr U k j)).
  - rewrite <- rsum_scal_l, <- rsum_plus, <- rsum_minus. apply rsum_ext. intros k Hk. unfold tr. ring.
  - rewrite (Hr i i Hi Hi), (Hr j j Hj Hj), (Hr i j Hi Hj), !Nat.eqb_refl. destruct (Nat.eqb_spec i j); [contradiction|ring].
Qed.
Lemma low_modes G Rd e U : resistances G Rd -> let n := g_n_vertices G in eigh_ok n (gL G) e U ->
  (forall k, (k < n)%nat -> 0 <= e k) /\ (forall k, (k < n)%nat -> e k = 0 -> forall i j, (i < n)%nat -> (j < n)%nat -> U i k = U j k) /\
  (forall k, (k < n)%nat -> e k <> 0 -> \sum_(i < n) U i k = 0).
Proof.
  intros (Hb & Hp & Ht & HC & _) n HU. pose proof (graph_is_laplacian G Hb Hp Ht) as HL. fold n in HL. split; [|split].
  - intros k Hk. pose proof (lap_psd n (gL G) HL (fun i => U i k)) as P.
    assert (Q : quad n (gL G) (fun i => U i k) = e k).
    { unfold quad, dot. transitivity (e k * \sum_(i < n) (U i k * U i k)).
      - rewrite <- rsum_scal_l. apply rsum_ext. intros i Hi. rewrite (eigh_eig _ _ _ _ HU i k Hi Hk). ring.
      - rewrite (eigh_cols _ _ _ _ HU k k Hk Hk), Nat.eqb_refl. ring. }
    lra.
  - intros k Hk E. apply (proj1 (proj1 (C72_kernel G (fun i => U i k) Hb Hp Ht HC))). intros i Hi. fold n. rewrite (eigh_eig _ _ _ _ HU i k Hi Hk), E. ring.
  - intros k Hk E. apply (Rmult_eq_reg_l (e k)); [|exact E]. rewrite Rmult_0_r, <- rsum_scal_l.
    transitivity (dot n (fun _ => 1) (mulv n (gL G) (fun i => U i k))).
    + unfold dot. apply rsum_ext. intros i Hi. rewrite (eigh_eig _ _ _ _ HU i k Hi Hk). ring.
    + rewrite dot_mulv_tr. unfold dot. apply rsum_0. intros j Hj. assert (Z : mulv n (tr (gL G)) (fun _ => 1) j = 0); [|rewrite Z; ring].
      destruct HL as (Hs & Hr & _). unfold mulv, tr. rewrite <- (Hr j Hj). apply rsum_ext. intros i Hi. rewrite (Hs j i Hj Hi). unfold tr. ring.
Qed.

(** all resistances lie between two over the largest and two over the smallest positive eigenvalue *)
Theorem C109_spectral_bounds G Rd e U i j : resistances G Rd -> let n := g_n_vertices G in eigh_ok n (gL G) e U -> (i < n)%nat -> (j < n)%nat -> i <> j ->
  0 < e 1%nat /\ 2 / e (n - 1)%nat <= Rd i j <= 2 / e 1%nat.
Proof.
  intros HG n HU Hi Hj Ne. destruct (low_modes G Rd e U HG HU) as (Hpos & Hconst & Hsum). fold n in Hpos, Hconst, Hsum.
  pose proof (modes_apart G e U i j HU Hi Hj Ne) as Two. fold n in Two. pose proof (eigh_cols _ _ _ _ HU) as Hc. pose proof (eigh_sort _ _ _ _ HU) as Hso.
  assert (H1 : (1 < n)%nat) by lia.
  assert (E1 : 0 < e 1%nat).
  { destruct (Rle_lt_or_eq_dec 0 (e 1%nat) (Hpos 1%nat H1)) as [L|L]; [exact L|exfalso].
    assert (E0 : e 0%nat = 0) by (pose proof (Hso 0%nat 1%nat ltac:(lia) H1); pose proof (Hpos 0%nat ltac:(lia)); lra).
    assert (O : \sum_(a < n) (U a 0%nat * U a 1%nat) = INR n * (U 0%nat 0%nat * U 0%nat 1%nat)).
    { rewrite <- rsum_const. apply rsum_ext. intros a Ha. rewrite (Hconst 0%nat ltac:(lia) E0 a 0%nat Ha ltac:(lia)), (Hconst 1%nat H1 (eq_sym L) a 0%nat Ha ltac:(lia)). reflexivity. }
    rewrite (Hc 0%nat 1%nat ltac:(lia) H1) in O. cbn [Nat.eqb] in O.
    assert (N0 : \sum_(a < n) (U a 0%nat * U a 0%nat) = INR n * (U 0%nat 0%nat * U 0%nat 0%nat)).
    { rewrite <- rsum_const. apply rsum_ext. intros a Ha. rewrite (Hconst 0%nat ltac:(lia) E0 a 0%nat Ha ltac:(lia)). reflexivity. }
    assert (N1 : \sum_(a < n) (U a 1%nat * U a 1%nat) = INR n * (U 0%nat 1%nat * U 0%nat 1%nat)).
    { rewrite <- rsum_const. apply rsum_ext. intros a Ha. rewrite (Hconst 1%nat H1 (eq_sym L) a 0%nat Ha ltac:(lia)). reflexivity. }
    rewrite (Hc 0%nat 0%nat ltac:(lia) ltac:(lia)) in N0. rewrite (Hc 1%nat 1%nat H1 H1) in N1. cbn [Nat.eqb] in N0, N1.
    symmetry in O. apply Rmult_integral in O. destruct O as [O|O]; [rewrite O in N0; lra|]. apply Rmult_integral in O. destruct O as [O|O]; [rewrite O in N0; lra|rewrite O in N1; lra]. }
  assert (Z0 : forall k, (k < n)%nat -> e k = 0 -> k = 0%nat).
  { intros k Hk E. destruct k as [|k]; [reflexivity|exfalso]. pose proof (Hso 1%nat (S k) ltac:(lia) Hk). lra. }
  split; [exact E1|]. rewrite (C109_spectral_formula G Rd e U i j HG HU Hi Hj). fold n.
  assert (El : 0 < e (n - 1)%nat) by (pose proof (Hso 1%nat (n - 1)%nat ltac:(lia) ltac:(lia)); lra).
  split.
  - replace (2 / e (n - 1)%nat) with (\sum_(k < n) ((U i k - U j k) ^ 2 * / e (n - 1)%nat)) by (rewrite rsum_scal_r, Two; reflexivity).
    apply rsum_le. intros k Hk. destruct (Req_EM_T (e k) 0) as [E|E].
    + rewrite (Hconst k Hk E i j Hi Hj). replace (U j k - U j k) with 0 by ring. lra.
    + apply Rmult_le_compat_l; [apply pow2_ge_0|]. apply Rinv_le_contravar; [pose proof (Hpos k Hk); lra|apply Hso; lia].
  - replace (2 / e 1%nat) with (\sum_(k < n) ((U i k - U j k) ^ 2 * / e 1%nat)) by (rewrite rsum_scal_r, Two; reflexivity).
    apply rsum_le. intros k Hk. destruct (Req_EM_T (e k) 0) as [E|E].
    + apply Rmult_le_pos; [apply pow2_ge_0|left; apply Rinv_0_lt_compat; exact E1].
    + apply Rmult_le_compat_l; [apply pow2_ge_0|]. apply Rinv_le_contravar; [exact E1|].
      apply Hso; [|exact Hk]. destruct k as [|k]; [|lia]. exfalso.
      assert (Z : exists q, (q < n)%nat /\ e q = 0).
      { destruct HG as (Hb & Hp & Ht & HC & _). apply (eigh_complete n (gL G) e U HU 0 (fun _ => 1)). split.
        - intros Hz. specialize (Hz 0%nat ltac:(lia)). cbv beta in Hz. lra.
        - intros a Ha. destruct (graph_is_laplacian G Hb Hp Ht) as (_ & Hr & _). fold n in Hr. unfold mulv. rewrite (rsum_ext n _ (fun q => gL G a q)) by (intros; ring). rewrite (Hr a Ha). ring. }
      destruct Z as (q & Hq & Eq). rewrite (Z0 q Hq Eq) in Eq. contradiction.
Qed.

(** the sum of all resistances is the number of vertices times the sum of the inverses of the positive eigenvalues *)
Theorem C109_kirchhoff_index G Rd e U : resistances G Rd -> let n := g_n_vertices G in eigh_ok n (gL G) e U ->
  (\sum_(i < n) \sum_(j < n) Rd i j) / 2 = INR n * \sum_(k < n) (if Req_EM_T (e k) 0 then 0 else / e k).
Proof.
  intros HG n HU. destruct (low_modes G Rd e U HG HU) as (_ & _ & Hsum). fold n in Hsum.
  rewrite (rsum_ext n (fun i => \sum_(j < n) Rd i j) (fun i => \sum_(k < n) \sum_(j < n) (if Req_EM_T (e k) 0 then 0 else (U i k - U j k) ^ 2 / e k))).
  2:{ intros i Hi. rewrite rsum_swap. apply rsum_ext. intros j Hj. exact (C109_spectral_formula G Rd e U i j HG HU Hi Hj). }
  rewrite rsum_swap. rewrite <- rsum_scal_l. unfold Rdiv at 1. rewrite <- rsum_scal_r. apply rsum_ext. intros k Hk.
  destruct (Req_EM_T (e k) 0) as [E|E].
  - rewrite rsum_0; [ring|]. intros i Hi. apply rsum_0. intros; reflexivity.
  - pose proof (Hsum k Hk E) as Z. pose proof (eigh_cols _ _ _ _ HU k k Hk Hk) as N. rewrite Nat.eqb_refl in N.
    assert (Q : \sum_(i < n) \sum_(j < n) ((U i k - U j k) ^ 2 / e k) = / e k * (2 * INR n)).
    { rewrite (rsum_ext n _ (fun i => / e k * (INR n * (U i k * U i k) + 1))).
      - rewrite rsum_scal_l. f_equal. rewrite rsum_plus, rsum_scal_l, N, rsum_const. ring.
      - intros i Hi. rewrite (rsum_ext n _ (fun j => / e k * ((U i k * U i k + U j k * U j k) - 2 * U i k * U j k))) by (intros; unfold Rdiv; ring).
        rewrite rsum_scal_l. f_equal. rewrite rsum_minus, rsum_plus, rsum_const, N, rsum_scal_l, Z. ring. }
    rewrite Q. field. exact E.
Qed.

(** ** Closed forms *)

(** any potential will do *)
Lemma by_potential G Rd i j v : resistances G Rd -> let n := g_n_vertices G in (i < n)%nat -> (j < n)%nat ->
  (forall a, (a < n)%nat -> \sum_(b < n) (mean_weight G a b * (v a - v b)) = unitv i a - unitv j a) -> Rd i j = v i - v j.
Proof.
  intros (Hb & Hp & Ht & HC & o & Ho & HR) n Hi Hj Hv. destruct (C34_potential_difference G o Rd i j Hb Hp Ht HC Ho HR Hi Hj) as (_ & D). apply D.
  intros a Ha. rewrite <- (Hv a Ha). fold n. pose proof (graph_is_laplacian G Hb Hp Ht) as HL. fold n in HL. rewrite (lap_apply n _ v a HL Ha).
  destruct (C09_combinatorial_structure G Hb Ht) as (_ & _ & H3 & _). fold n in H3. apply rsum_ext. intros b Hb'.
  destruct (Nat.eq_dec a b) as [->|Ne]; [ring|]. rewrite (H3 a b Ha Hb' Ne). unfold mean_weight. field.
Qed.
Theorem C109_full N G Rd i j : FullConnected N Combinatorial = Ok G -> resistances G Rd -> (i < N)%nat -> (j < N)%nat -> i <> j -> Rd i j = 2 / INR N.
Proof.
  intros E HG Hi Hj Ne. destruct (C48_full N Combinatorial (or_introl eq_refl)) as (G' & E' & (Hb & Hn & Hw) & _). rewrite E in E'. injection E' as <-.
  assert (HN : 0 < INR N) by (apply lt_0_INR; lia).
  pose (v := fun a => (unitv i a - unitv j a) / INR N).
  rewrite (by_potential G Rd i j v HG); try (rewrite Hn; assumption).
  - unfold v, unitv. rewrite !Nat.eqb_refl. destruct (Nat.eqb_spec i j); [contradiction|]. destruct (Nat.eqb_spec j i); [congruence|]. field. lra.
  - rewrite Hn. intros a Ha. rewrite (rsum_ext N _ (fun b => v a - v b)).
    + rewrite rsum_minus, rsum_const. assert (Z : \sum_(b < N) v b = 0).
      { unfold v. transitivity ((\sum_(b < N) (1 * (unitv i b - unitv j b))) * / INR N).
        - rewrite <- rsum_scal_r. apply rsum_ext. intros; unfold Rdiv; ring.
        - pose proof (dot_unit N (fun _ => 1) i j Hi Hj) as Q. unfold dot in Q. rewrite Q. ring. }
      change (INR N * v a - \sum_(b < N) v b = unitv i a - unitv j a). rewrite Z. unfold v. field. lra.
    + intros b Hb'. destruct (Nat.eq_dec a b) as [->|Hab]; [ring|]. unfold mean_weight.
      rewrite (proj1 (Hw a b Ha Hb')), (proj1 (Hw b a Hb' Ha)) by congruence. lra.
Qed.

(** on a path the resistance is the number of steps *)
Theorem C109_path N G Rd i j : Path N false Combinatorial = Ok G -> resistances G Rd -> (i < N)%nat -> (j < N)%nat -> Rd i j = Rabs (INR i - INR j).
Proof.
  intros E HG. destruct (Nat.eq_dec N 0) as [Z|Z]; [lia|].
  destruct (C44_path N Combinatorial ltac:(lia) (or_introl eq_refl)) as (G' & E' & (Hb & Hn & Hw) & _). rewrite E in E'. injection E' as <-.
  destruct (res_metric G Rd HG) as (Rs & R0 & _).
  assert (Main : forall i j, (i < j)%nat -> (j < N)%nat -> Rd i j = INR j - INR i).
  { clear i j. intros i j Hij Hj. pose (cl := fun a => Nat.max i (Nat.min a j)). pose (v := fun a => - INR (cl a)).
    rewrite (by_potential G Rd i j v HG); try (rewrite Hn; lia).
    - unfold v. replace (cl i) with i by (unfold cl; lia). replace (cl j) with j by (unfold cl; lia). ring.
    - rewrite Hn. intros a Ha.
      rewrite (rsum_ext N _ (fun b => (if Nat.eqb b (S a) then v a - v (S a) else 0) + (if Nat.eqb (S b) a then v a - v (a - 1)%nat else 0))).
      + rewrite rsum_plus.
        assert (S1 : \sum_(b < N) (if Nat.eqb b (S a) then v a - v (S a) else 0) = v a - v (S a)).
        { destruct (Nat.lt_ge_cases (S a) N) as [L|L].
          - rewrite (rsum_single N _ (S a) L) by (intros b Hb' Ne; destruct (Nat.eqb_spec b (S a)); [contradiction|reflexivity]). rewrite Nat.eqb_refl. reflexivity.
          - rewrite rsum_0 by (intros b Hb'; destruct (Nat.eqb_spec b (S a)); [lia|reflexivity]). unfold v. replace (cl (S a)) with (cl a) by (unfold cl; lia). ring. }
        assert (S2 : \sum_(b < N) (if Nat.eqb (S b) a then v a - v (a - 1)%nat else 0) = v a - v (a - 1)%nat).
        { destruct (Nat.eq_dec a 0) as [->|Na].
          - rewrite rsum_0 by (intros b Hb'; reflexivity). cbn [Nat.sub]. ring.
          - rewrite (rsum_single N _ (a - 1)%nat ltac:(lia)) by (intros b Hb' Ne; destruct (Nat.eqb_spec (S b) a); [lia|reflexivity]).
            destruct (Nat.eqb_spec (S (a - 1)) a); [reflexivity|lia]. }
        rewrite S1, S2. unfold v, unitv.
        destruct (Nat.eqb_spec a i) as [->|Ni]; [|destruct (Nat.eqb_spec a j) as [->|Nj]].
        * destruct (Nat.eqb_spec i j); [lia|]. replace (cl (S i)) with (S i) by (unfold cl; lia). replace (cl i) with i by (unfold cl; lia). replace (cl (i - 1)%nat) with i by (unfold cl; lia). rewrite S_INR. ring.
        * replace (cl (S j)) with j by (unfold cl; lia). replace (cl j) with (S (j - 1)) by (unfold cl; lia). replace (cl (j - 1)%nat) with (j - 1)%nat by (unfold cl; lia).
          replace (INR j) with (INR (S (j - 1))) by (f_equal; lia). rewrite S_INR. ring.
        * destruct (Nat.lt_ge_cases a i) as [L|L]; [|destruct (Nat.lt_ge_cases j a) as [L'|L']].
          -- replace (cl (S a)) with i by (unfold cl; lia). replace (cl a) with i by (unfold cl; lia). replace (cl (a - 1)%nat) with i by (unfold cl; lia). ring.
          -- replace (cl (S a)) with j by (unfold cl; lia). replace (cl a) with j by (unfold cl; lia). replace (cl (a - 1)%nat) with j by (unfold cl; lia). ring.
          -- replace (cl (S a)) with (S (S (a - 1))) by (unfold cl; lia). replace (cl a) with (S (a - 1)) by (unfold cl; lia). replace (cl (a - 1)%nat) with (a - 1)%nat by (unfold cl; lia).
             rewrite !S_INR. ring.
      + intros b Hb'. unfold mean_weight. destruct (Hw a b Ha Hb') as (W1 & W0). destruct (Hw b a Hb' Ha) as (V1 & V0).
        destruct (Nat.eqb_spec b (S a)) as [->|N1]; [|destruct (Nat.eqb_spec (S b) a) as [<-|N2]].
        * destruct (Nat.eqb_spec (S (S a)) a); [lia|]. rewrite W1, V1 by lia. field.
        * rewrite W1, V1 by lia. replace (S b - 1)%nat with b by lia. field.
        * rewrite W0, V0 by lia. field. }
  intros Hi Hj. destruct (Nat.lt_trichotomy i j) as [L|[->|L]].
  - rewrite (Main i j L Hj). pose proof (lt_INR _ _ L). rewrite Rabs_left by lra. ring.
  - rewrite R0. replace (INR j - INR j) with 0 by ring. rewrite Rabs_R0. reflexivity.
  - rewrite Rs, (Main j i L Hi). pose proof (lt_INR _ _ L). rewrite Rabs_right by lra. ring.
Qed.

(** every connected graph has resistances *)
Theorem C109_resistances_exist G : built G -> nonneg_weights G -> g_lap_type G = Combinatorial -> connected G -> exists Rd, resistances G Rd.
Proof.
  intros Hb Hp Ht HC. destruct (C34_a_pseudo_inverse_exists G Hb) as (P & HP). exists (resistance_of P).
  split; [exact Hb|]. split; [exact Hp|]. split; [exact Ht|]. split; [exact HC|]. exists (InvSingular P). split; [exact HP|].
  unfold resistance_distance. rewrite Ht. reflexivity.
Qed.
Example C109_ex : exists G Rd, Path 4 false Combinatorial = Ok G /\ resistances G Rd /\ g_n_vertices G = 4%nat /\ Rd 0%nat 3%nat = 3 /\ (g_n_edges G + 1 = g_n_vertices G)%nat.
Proof.
  destruct (C44_path 4 Combinatorial ltac:(lia) (or_introl eq_refl)) as (G & E & (Hb & Hn & _) & _ & _ & Hp & HC & He & Ht & _).
  destruct (C109_resistances_exist G Hb Hp Ht HC) as (Rd & HG). exists G, Rd. split; [exact E|]. split; [exact HG|]. split; [exact Hn|].
  split; [|lia]. rewrite (C109_path 4 G Rd 0 3 E HG) by lia. cbn [INR]. rewrite Rabs_left by lra. lra.
Qed.
