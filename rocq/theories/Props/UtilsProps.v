(** Properties of pygsp/utils.py: C32 (symmetrize), C33 (distanz), C34 (resistance_distance), C71 (rescale_center). *)
From Coq Require Import Reals Lra Lia List Arith Bool String.
From Coq Require Import List.
From Verif.Base Require Import RSum Prelude LinAlg.
From Verif.Spec Require Import Matrix GraphSpec Reach LapSpec.
From Verif.Model Require Import Sparse Graph Utils.
From Verif.Proofs Require Import SparseFacts InitFacts LapFacts SubgraphFacts MaxPrinciple.
From Verif.Props Require Import Core Laplacian Traversal Caching.
Import ListNotations.
Open Scope string_scope.
Open Scope R_scope.

(** ** symmetrize *)
Definition sym_methods : list string := ["average"; "maximum"; "fill"; "tril"; "triu"].

Lemma sym_max_is_max sp W i j : sym_maximum sp W i j = Rmax (W i j) (W j i).
Proof.
  unfold sym_maximum. destruct sp; [|reflexivity]. destruct (Rltb_spec (W i j) (W j i)); cbn [b2r].
  - rewrite Rmax_right by lra. ring.
  - rewrite Rmax_left by lra. ring.
Qed.
Lemma fill_mask_eq sp W i j : sym_fill_mask sp W i j = (Rltb 0 (W j i) && negb (Rltb 0 (W i j)))%bool.
Proof. unfold sym_fill_mask. destruct sp, (Rltb 0 (W i j)), (Rltb 0 (W j i)); reflexivity. Qed.

Lemma sym_cases W m R' : symmetrize W m = Ok R' -> m_rows W = m_cols W /\
  ((m = "average" /\ R' = sym_average (m_get W)) \/ (m = "maximum" /\ R' = sym_maximum (m_sparse W) (m_get W)) \/
   (m = "fill" /\ R' = sym_fill (m_sparse W) (m_get W)) \/ (m = "tril" /\ R' = sym_maximum (m_sparse W) (tril (m_get W))) \/
   (m = "triu" /\ R' = sym_maximum (m_sparse W) (triu (m_get W)))).
Proof.
  unfold symmetrize. destruct (Nat.eqb_spec (m_rows W) (m_cols W)) as [E|]; cbn [negb]; [|discriminate].
  intros H. split; [exact E|].
  destruct (String.eqb_spec m "average"); [injection H as <-; left; split; [assumption|reflexivity]|].
  destruct (String.eqb_spec m "maximum"); [injection H as <-; right; left; split; [assumption|reflexivity]|].
  destruct (String.eqb_spec m "fill"); [injection H as <-; do 2 right; left; split; [assumption|reflexivity]|].
  destruct (String.eqb_spec m "tril"); [injection H as <-; do 3 right; left; split; [assumption|reflexivity]|].
  destruct (String.eqb_spec m "triu"); [injection H as <-; do 4 right; split; [assumption|reflexivity]|]. discriminate.
Qed.

(** Accepted exactly for square matrices and the five methods. *)
Theorem C32_accepts W m : (exists R', symmetrize W m = Ok R') <-> m_rows W = m_cols W /\ In m sym_methods.
Proof.
  split.
  - intros (R' & H). destruct (sym_cases W m R' H) as (E & C). split; [exact E|]. unfold sym_methods. cbn.
    destruct C as [(->&_)|[(->&_)|[(->&_)|[(->&_)|(->&_)]]]]; tauto.
  - intros (E & Hin). unfold symmetrize. rewrite E, Nat.eqb_refl. cbn [negb].
    unfold sym_methods in Hin. cbn in Hin. destruct Hin as [<-|[<-|[<-|[<-|[<-|[]]]]]]; cbn; eexists; reflexivity.
Qed.
Theorem C32_rejects W m : ~ (m_rows W = m_cols W /\ In m sym_methods) -> symmetrize W m = Raise ValueError.
Proof.
  intros H. destruct (symmetrize W m) as [R'|x] eqn:E.
  - exfalso. apply H. apply C32_accepts. exists R'. exact E.
  - unfold symmetrize in E. destruct (negb _); [injection E as <-; reflexivity|].
    repeat match type of E with (if ?c then _ else _) = _ => destruct c; try discriminate end. injection E as <-. reflexivity.
Qed.
(** Whatever the method, the result is symmetric (entry by entry). *)
Theorem C32_symmetric W m R' : symmetrize W m = Ok R' -> forall i j, R' i j = R' j i.
Proof.
  intros H i j. destruct (sym_cases W m R' H) as (_ & C).
  destruct C as [(_&->)|[(_&->)|[(_&->)|[(_&->)|(_&->)]]]]; rewrite ?sym_max_is_max; try (apply Rmax_comm);
    unfold sym_fill, sym_average; field.
Qed.
(** What average, maximum and fill compute; fill is only meant for non-negative weights, where it copies
    the missing direction and averages when both are present. *)
Theorem C32_average W R' : symmetrize W "average" = Ok R' -> forall i j, R' i j = (m_get W i j + m_get W j i) / 2.
Proof.
  intros H i j. destruct (sym_cases W _ R' H) as (_ & C).
  destruct C as [(_&->)|[(?&_)|[(?&_)|[(?&_)|(?&_)]]]]; try discriminate. reflexivity.
Qed.
Theorem C32_maximum W R' : symmetrize W "maximum" = Ok R' -> forall i j, R' i j = Rmax (m_get W i j) (m_get W j i).
Proof.
  intros H i j. destruct (sym_cases W _ R' H) as (_ & C).
  destruct C as [(?&_)|[(_&->)|[(?&_)|[(?&_)|(?&_)]]]]; try discriminate. apply sym_max_is_max.
Qed.
Theorem C32_fill W R' : symmetrize W "fill" = Ok R' -> forall i j, 0 <= m_get W i j -> 0 <= m_get W j i ->
  (0 < m_get W i j -> 0 < m_get W j i -> R' i j = (m_get W i j + m_get W j i) / 2) /\
  (m_get W j i = 0 -> R' i j = m_get W i j) /\ (m_get W i j = 0 -> R' i j = m_get W j i).
Proof.
  intros H i j H1 H2. destruct (sym_cases W _ R' H) as (_ & C).
  destruct C as [(?&_)|[(?&_)|[(_&->)|[(?&_)|(?&_)]]]]; try discriminate.
  unfold sym_fill, sym_average. rewrite !fill_mask_eq.
  destruct (Rltb_spec 0 (m_get W i j)), (Rltb_spec 0 (m_get W j i)); cbn [andb negb b2r]; (split; [|split]); intros; try lra.
Qed.
(** tril and triu mirror the chosen triangle of non-negative matrices. *)
Theorem C32_tril W R' : symmetrize W "tril" = Ok R' -> forall i j, (j <= i)%nat -> 0 <= m_get W i j ->
  R' i j = m_get W i j /\ R' j i = m_get W i j.
Proof.
  intros H i j Hij H1. destruct (sym_cases W _ R' H) as (_ & C).
  destruct C as [(?&_)|[(?&_)|[(?&_)|[(_&->)|(?&_)]]]]; try discriminate. rewrite !sym_max_is_max. unfold tril.
  destruct (Nat.leb_spec j i); [|lia]. destruct (Nat.leb_spec i j).
  - assert (i = j) by lia. subst. rewrite Rmax_left by lra. split; reflexivity.
  - rewrite Rmax_left, Rmax_right by lra. split; reflexivity.
Qed.
Theorem C32_triu W R' : symmetrize W "triu" = Ok R' -> forall i j, (i <= j)%nat -> 0 <= m_get W i j ->
  R' i j = m_get W i j /\ R' j i = m_get W i j.
Proof.
  intros H i j Hij H1. destruct (sym_cases W _ R' H) as (_ & C).
  destruct C as [(?&_)|[(?&_)|[(?&_)|[(?&_)|(_&->)]]]]; try discriminate. rewrite !sym_max_is_max. unfold triu.
  destruct (Nat.leb_spec i j); [|lia]. destruct (Nat.leb_spec j i).
  - assert (i = j) by lia. subst. rewrite Rmax_left by lra. split; reflexivity.
  - rewrite Rmax_left, Rmax_right by lra. split; reflexivity.
Qed.
(** Symmetric matrices are left unchanged by average, maximum and fill. *)
Theorem C32_identity_on_symmetric W m R' n : symmetrize W m = Ok R' -> m = "average" \/ m = "maximum" \/ m = "fill" ->
  symmetric n (m_get W) -> meq n n R' (m_get W).
Proof.
  intros H Hm Hs i j Hi Hj. pose proof (Hs i j Hi Hj) as E. unfold tr in E. destruct (sym_cases W m R' H) as (_ & C).
  destruct C as [(->&->)|[(->&->)|[(->&->)|[(->&_)|(->&_)]]]].
  - unfold sym_average. rewrite <- E. field.
  - rewrite sym_max_is_max, <- E. apply Rmax_left. lra.
  - unfold sym_fill, sym_average. rewrite !fill_mask_eq, <- E. destruct (Rltb 0 (m_get W i j)); cbn [andb negb b2r]; field.
  - destruct Hm as [|[|]]; discriminate.
  - destruct Hm as [|[|]]; discriminate.
Qed.
(** The sparse and dense implementations compute the same matrix. *)
Theorem C32_sparse_dense n c g m A B : symmetrize (mkmarg true n c g) m = Ok A -> symmetrize (mkmarg false n c g) m = Ok B ->
  forall i j, A i j = B i j.
Proof.
  intros HA HB i j. destruct (sym_cases _ _ _ HA) as (_ & CA). destruct (sym_cases _ _ _ HB) as (_ & CB). cbn [m_get m_sparse] in *.
  destruct CA as [(->&->)|[(->&->)|[(->&->)|[(->&->)|(->&->)]]]];
  destruct CB as [(?&->)|[(?&->)|[(?&->)|[(?&->)|(?&->)]]]]; try discriminate; rewrite ?sym_max_is_max; try reflexivity.
  unfold sym_fill, sym_average. rewrite !fill_mask_eq. reflexivity.
Qed.
(** Finding: tril/triu do not mirror negative entries, they replace them by zero. *)
Theorem C32_tril_negative_refuted : exists W R', symmetrize W "tril" = Ok R' /\ m_get W 1%nat 0%nat = -1 /\ R' 1%nat 0%nat = 0.
Proof.
  exists (mkmarg false 2 2 (fun i j => if (Nat.eqb i 1 && Nat.eqb j 0)%bool then -1 else 0)).
  eexists. split; [reflexivity|]. split; [reflexivity|]. cbn. apply Rmax_right. lra.
Qed.
Example C32_ex : exists R', symmetrize (mkmarg true 2 2 (fun i j => INR i)) "fill" = Ok R' /\ R' 0%nat 1%nat = 1.
Proof.
  destruct (proj2 (C32_accepts (mkmarg true 2 2 (fun i j => INR i)) "fill")) as (R' & H); [split; [reflexivity|cbn; tauto]|].
  exists R'. split; [exact H|]. destruct (C32_fill _ _ H 0%nat 1%nat) as (_ & _ & H3); cbn; try lra. apply H3. reflexivity.
Qed.

(** ** distanz *)
(** Euclidean distance between point i of x and point j of y. *)
Definition euclid (d : nat) (x y : vec) : R := sqrt (\sum_(k < d) ((x k - y k) * (x k - y k))).

Lemma distanz_entry x y D : distanz x (Some y) = Ok D -> pdim x = pdim y /\
  forall i j, D i j = euclid (pdim x) (fun k => pget x k i) (fun k => pget y k j).
Proof.
  unfold distanz. destruct (Nat.eqb_spec (pdim x) (pdim y)) as [E|]; cbn [negb]; [|discriminate].
  intros H. injection H as <-. split; [exact E|]. intros i j. unfold euclid. f_equal.
  assert (Q : (\sum_(k < pdim x) (pget x k i * pget x k i)) + (\sum_(k < pdim x) (pget y k j * pget y k j)) - 2 * (\sum_(k < pdim x) (pget x k i * pget y k j))
       = \sum_(k < pdim x) ((pget x k i - pget y k j) * (pget x k i - pget y k j))).
  { rewrite <- rsum_scal_l, <- rsum_plus, <- rsum_minus. apply rsum_ext. intros k Hk. ring. }
  rewrite Q. apply Rabs_right. apply Rle_ge. apply rsum_nonneg. intros k Hk. apply Rle_0_sqr.
Qed.
Theorem C33_distanz x y D : distanz x (Some y) = Ok D ->
  forall i j, D i j = euclid (pdim x) (fun k => pget x k i) (fun k => pget y k j).
Proof. intros H. apply (distanz_entry x y D H). Qed.
Theorem C33_one_argument x : distanz x None = distanz x (Some x).
Proof. reflexivity. Qed.
Theorem C33_mismatch x y : pdim x <> pdim y -> distanz x (Some y) = Raise ValueError.
Proof. intros H. unfold distanz. destruct (Nat.eqb_spec (pdim x) (pdim y)); [contradiction|reflexivity]. Qed.
Theorem C33_defined x y : pdim x = pdim y -> exists D, distanz x (Some y) = Ok D.
Proof. intros H. unfold distanz. rewrite H, Nat.eqb_refl. eexists. reflexivity. Qed.

Lemma minkowski d (a b : vec) :
  sqrt (\sum_(k < d) ((a k + b k) * (a k + b k))) <= sqrt (\sum_(k < d) (a k * a k)) + sqrt (\sum_(k < d) (b k * b k)).
Proof.
  set (A := \sum_(k < d) (a k * a k)). set (B := \sum_(k < d) (b k * b k)).
  assert (HA : 0 <= A) by (apply rsum_nonneg; intros; apply Rle_0_sqr).
  assert (HB : 0 <= B) by (apply rsum_nonneg; intros; apply Rle_0_sqr).
  pose proof (sqrt_pos A). pose proof (sqrt_pos B).
  rewrite <- (sqrt_Rsqr (sqrt A + sqrt B)) by lra. apply sqrt_le_1_alt. unfold Rsqr.
  assert (CS : \sum_(k < d) (a k * b k) <= sqrt A * sqrt B).
  { rewrite <- sqrt_mult by assumption. eapply Rle_trans; [apply Rle_abs|]. rewrite <- sqrt_Rsqr_abs. apply sqrt_le_1_alt.
    unfold Rsqr. pose proof (rsum_cauchy_schwarz d a b) as C. unfold A, B.
    exact C. }
  replace (\sum_(k < d) ((a k + b k) * (a k + b k))) with (A + B + 2 * \sum_(k < d) (a k * b k)).
  - pose proof (sqrt_sqr_nonneg A HA). pose proof (sqrt_sqr_nonneg B HB). nra.
  - unfold A, B. rewrite <- rsum_scal_l, <- !rsum_plus. apply rsum_ext. intros k Hk. ring.
Qed.

(** distanz(x) is a metric on the columns of x. *)
Theorem C33_metric x D : distanz x None = Ok D ->
  (forall i, D i i = 0) /\ (forall i j, D i j = D j i) /\ (forall i j, 0 <= D i j) /\
  (forall i j l, D i l <= D i j + D j l) /\
  (forall i j, D i j = 0 -> forall k, (k < pdim x)%nat -> pget x k i = pget x k j).
Proof.
  intros H. rewrite C33_one_argument in H. pose proof (C33_distanz x x D H) as E. unfold euclid in E.
  split; [|split; [|split; [|split]]].
  - intros i. rewrite E. rewrite rsum_0; [apply sqrt_0|]. intros k Hk. ring.
  - intros i j. rewrite !E. f_equal. apply rsum_ext. intros k Hk. ring.
  - intros i j. rewrite E. apply sqrt_pos.
  - intros i j l. rewrite !E.
    rewrite (rsum_ext (pdim x) (fun k => (pget x k i - pget x k l) * _)
      (fun k => ((pget x k i - pget x k j) + (pget x k j - pget x k l)) * ((pget x k i - pget x k j) + (pget x k j - pget x k l)))).
    2:{ intros k Hk. ring. } apply minkowski.
  - intros i j H0 k Hk. rewrite E in H0. apply sqrt_eq_0 in H0; [|apply rsum_nonneg; intros; apply Rle_0_sqr].
    assert (Z : (pget x k i - pget x k j) * (pget x k i - pget x k j) = 0).
    { apply (rsum_zero_all (pdim x) (fun k => (pget x k i - pget x k j) * (pget x k i - pget x k j))); [intros; apply Rle_0_sqr|exact H0|exact Hk]. }
    apply Rsqr_0_uniq in Z. lra.
Qed.
Example C33_ex : exists D, distanz (Pts2 2 3 (fun k i => INR (k + i))) None = Ok D /\ D 0%nat 2%nat = sqrt 8.
Proof.
  destruct (C33_defined (Pts2 2 3 (fun k i => INR (k + i))) (Pts2 2 3 (fun k i => INR (k + i))) eq_refl) as (D & H).
  exists D. split; [exact H|]. rewrite (C33_distanz _ _ _ H). unfold euclid. f_equal. cbn. ring.
Qed.

(** ** Connected graphs *)
(** G is strongly connected (what [is_connected] decides, C05). *)
Definition connected (G : graph) : Prop :=
  forall u v, (u < g_n_vertices G)%nat -> (v < g_n_vertices G)%nat -> reach (has_arc G) u v.

Lemma graph_is_laplacian G : built G -> nonneg_weights G -> g_lap_type G = Combinatorial -> is_laplacian (g_n_vertices G) (gL G).
Proof.
  intros Hb Hp Ht. destruct (C09_combinatorial_structure G Hb Ht) as (H1 & H2 & H3 & _).
  split; [exact H1|]. split; [exact H2|]. intros i j Hi Hj Hne. rewrite H3 by assumption.
  pose proof (Hp i j Hi Hj). pose proof (Hp j i Hj Hi). lra.
Qed.
Lemma connected_lap G : built G -> nonneg_weights G -> g_lap_type G = Combinatorial -> connected G ->
  lap_connected (g_n_vertices G) (gL G).
Proof.
  intros Hb Hp Ht HC i j Hi Hj. specialize (HC i j Hi Hj).
  destruct (C09_combinatorial_structure G Hb Ht) as (_ & _ & H3 & _).
  assert (K : forall u v, reach (has_arc G) u v -> (u < g_n_vertices G)%nat -> (v < g_n_vertices G)%nat /\ reach (lap_edge (g_n_vertices G) (gL G)) u v).
  { intros u v Ruv. induction Ruv as [|a b c R1 IH Hs]; intros Hu; [split; [exact Hu|apply reach_refl]|].
    destruct (IH Hu) as (Hbn & Rb). destruct Hs as (H1 & H2 & H4). split; [assumption|].
    destruct (Nat.eq_dec b c) as [<-|Hne]; [exact Rb|].
    eapply reach_step; [exact Rb|]. split; [assumption|]. split; [assumption|]. split; [exact Hne|].
    rewrite H3 by assumption. pose proof (Hp b c ltac:(assumption) ltac:(assumption)). pose proof (Hp c b ltac:(assumption) ltac:(assumption)). unfold wt in *. lra. }
  apply (K i j HC Hi).
Qed.

(** On a connected graph with non-negative weights a signal is annihilated by the Laplacian, equivalently has
    zero Dirichlet energy, exactly when it is constant. *)
Theorem C72_kernel G x : built G -> nonneg_weights G -> g_lap_type G = Combinatorial -> connected G ->
  let n := g_n_vertices G in
  ((forall i, (i < n)%nat -> mulv n (gL G) x i = 0) <-> (forall i j, (i < n)%nat -> (j < n)%nat -> x i = x j)) /\
  (quad n (gL G) x = 0 <-> (forall i j, (i < n)%nat -> (j < n)%nat -> x i = x j)).
Proof.
  intros Hb Hp Ht HC n. pose proof (graph_is_laplacian G Hb Hp Ht) as HL. pose proof (connected_lap G Hb Hp Ht HC) as HCL.
  fold n in HL, HCL.
  assert (K : (forall i j, (i < n)%nat -> (j < n)%nat -> x i = x j) -> forall i, (i < n)%nat -> mulv n (gL G) x i = 0).
  { intros Hc i Hi. rewrite (lap_apply n _ x i HL Hi). apply rsum_0. intros j Hj. rewrite (Hc i j Hi Hj). ring. }
  split; split.
  - apply lap_kernel; assumption.
  - exact K.
  - intros Hq. rewrite (lap_energy n _ x HL) in Hq.
    assert (T : forall a b, (a < n)%nat -> (b < n)%nat -> 0 <= - gL G a b * ((x a - x b) * (x a - x b))).
    { intros a b Ha Hb'. destruct (Nat.eq_dec a b) as [->|Hne]; [replace (x b - x b) with 0 by ring; lra|].
      apply Rmult_le_pos; [|apply Rle_0_sqr]. destruct HL as (_ & _ & Hn). specialize (Hn a b Ha Hb' Hne). lra. }
    assert (Z : forall a b, (a < n)%nat -> (b < n)%nat -> - gL G a b * ((x a - x b) * (x a - x b)) = 0).
    { intros a b Ha Hb'. apply (rsum_zero_all n (fun b => - gL G a b * ((x a - x b) * (x a - x b)))); [intros c Hc; apply T; assumption| |exact Hb'].
      apply (rsum_zero_all n (fun a => \sum_(b < n) (- gL G a b * ((x a - x b) * (x a - x b))))); [|lra|exact Ha].
      intros c Hc. apply rsum_nonneg. intros d Hd. apply T; assumption. }
    apply lap_kernel with (L := gL G); try assumption. intros i Hi. rewrite (lap_apply n _ x i HL Hi). apply rsum_0. intros j Hj.
    specialize (Z i j Hi Hj). rewrite <- Rmult_assoc in Z. apply Rmult_integral in Z. destruct Z as [Z|Z]; [exact Z|rewrite Z; ring].
  - intros Hc. unfold quad, dot. apply rsum_0. intros i Hi. rewrite (K Hc i Hi). ring.
Qed.

(** ** resistance_distance *)
(** What the sparse inverse and numpy's pinv promise (exact arithmetic). *)
Definition inv_contract (n : nat) (L : mat) (o : inv_out) : Prop :=
  match o with InvOk P => inverse_of n L P | InvSingular P => pinv n L P end.

Section Resistance.
  Variables (n : nat) (L P : mat).
  Hypothesis HL : is_laplacian n L.
  Hypothesis HC : lap_connected n L.
  Hypothesis HP : pinv n L P.

  Lemma P_sym : symmetric n P.
  Proof. apply (pinv_sym n L); [apply HL|exact HP]. Qed.
  Lemma LP_PL i j : (i < n)%nat -> (j < n)%nat -> mulm n L P i j = mulm n P L i j.
  Proof.
    intros Hi Hj. destruct HP as (_ & _ & S1 & _). rewrite (S1 i j Hi Hj). unfold tr. rewrite mulm_tr.
    apply mulm_ext; try assumption; apply meq_sym; [apply P_sym|apply HL].
  Qed.
  Lemma LP_entry a i : (a < n)%nat -> (i < n)%nat -> mulm n L P a i = idm a i - / INR n.
  Proof.
    intros Ha Hi. set (u := fun a => idm a i - mulm n L P a i).
    assert (K : forall b, (b < n)%nat -> mulv n L u b = 0).
    { intros b Hb. unfold u. rewrite mulv_minus.
      assert (E1 : mulv n L (fun a => idm a i) b = L b i).
      { unfold mulv, idm. rewrite (rsum_single n _ i Hi); [rewrite Nat.eqb_refl; ring|].
        intros j Hj Hne. destruct (Nat.eqb_spec j i); [contradiction|ring]. }
      rewrite E1. change (mulv n L (fun j : nat => mulm n L P j i) b) with (mulm n L (mulm n L P) b i).
      rewrite (mulm_ext n L L (mulm n L P) (mulm n P L) (meq_refl n L)); try assumption; [|intros x y Hx Hy; apply LP_PL; assumption].
      destruct HP as (P1 & _). rewrite (P1 b i Hb Hi). ring. }
    pose proof (lap_kernel n L u HL HC K) as Hc.
    assert (S : \sum_(b < n) u b = 1).
    { unfold u. rewrite rsum_minus.
      assert (E1 : \sum_(b < n) idm b i = 1).
      { unfold idm. rewrite (rsum_single n _ i Hi); [rewrite Nat.eqb_refl; ring|].
        intros j Hj Hne. destruct (Nat.eqb_spec j i); [contradiction|ring]. }
      rewrite E1. unfold mulm. rewrite rsum_swap. rewrite rsum_0; [ring|]. intros k Hk.
      rewrite rsum_scal_r. destruct HL as (Hs & Hr & _).
      rewrite (rsum_ext n (fun b => L b k) (fun b => L k b)); [rewrite Hr by exact Hk; ring|].
      intros b Hb. apply Hs; assumption. }
    assert (S2 : \sum_(b < n) u a = 1) by (rewrite <- S; apply rsum_ext; intros b Hb; apply Hc; assumption).
    rewrite rsum_const in S2. clear S. rename S2 into S.
    assert (0 < INR n) by (apply lt_0_INR; lia). unfold u in S.
    assert (idm a i - mulm n L P a i = / INR n); [|lra]. apply Rmult_eq_reg_l with (INR n); [|lra]. rewrite S. field. lra.
  Qed.
  (** the potential created by a unit current from i to j *)
  Definition pot (i j : nat) : vec := fun a => P a i - P a j.
  Lemma pot_current i j a : (i < n)%nat -> (j < n)%nat -> (a < n)%nat ->
    mulv n L (pot i j) a = unitv i a - unitv j a.
  Proof.
    intros Hi Hj Ha. unfold pot. rewrite mulv_minus.
    change (mulm n L P a i - mulm n L P a j = unitv i a - unitv j a).
    rewrite !LP_entry by assumption. unfold idm, unitv. ring.
  Qed.
  Lemma pot_min i j a : (i < n)%nat -> (j < n)%nat -> (a < n)%nat -> pot i j j <= pot i j a.
  Proof.
    intros Hi Hj Ha. destruct (min_principle n L (pot i j) (fun b => Nat.eqb b j) HL ltac:(lia)) as (b & Hb & HB & Hm).
    - intros k Hk Hkj. rewrite pot_current by assumption. unfold unitv. rewrite Hkj. destruct (Nat.eqb k i); lra.
    - intros k Hk. exists j. split; [exact Hj|]. split; [apply Nat.eqb_refl|]. apply HC; assumption.
    - apply Nat.eqb_eq in HB. subst b. apply Hm. exact Ha.
  Qed.
  Lemma pot_max i j a : (i < n)%nat -> (j < n)%nat -> (a < n)%nat -> pot i j a <= pot i j i.
  Proof.
    intros Hi Hj Ha. destruct (max_principle n L (pot i j) (fun b => Nat.eqb b i) HL ltac:(lia)) as (b & Hb & HB & Hm).
    - intros k Hk Hkj. rewrite pot_current by assumption. unfold unitv. rewrite Hkj. destruct (Nat.eqb k j); lra.
    - intros k Hk. exists i. split; [exact Hi|]. split; [apply Nat.eqb_refl|]. apply HC; assumption.
    - apply Nat.eqb_eq in HB. subst b. apply Hm. exact Ha.
  Qed.
  Lemma resistance_pot i j : (i < n)%nat -> (j < n)%nat -> resistance_of P i j = pot i j i - pot i j j.
  Proof. intros Hi Hj. unfold resistance_of, pot. ring. Qed.
  (** any potential serves: they differ by a constant *)
  Lemma resistance_any i j v : (i < n)%nat -> (j < n)%nat ->
    (forall a, (a < n)%nat -> mulv n L v a = unitv i a - unitv j a) -> resistance_of P i j = v i - v j.
  Proof.
    intros Hi Hj Hv. rewrite resistance_pot by assumption.
    pose proof (lap_kernel n L (fun a => v a - pot i j a) HL HC) as K.
    specialize (K ltac:(intros a Ha; rewrite mulv_minus; rewrite Hv, pot_current by assumption; ring) i j Hi Hj).
    cbn beta in K. lra.
  Qed.
End Resistance.

Lemma lap_not_invertible n L P : is_laplacian n L -> (0 < n)%nat -> ~ inverse_of n L P.
Proof.
  intros (Hs & Hr & _) Hn (H1 & _).
  assert (E : \sum_(a < n) mulm n L P a 0%nat = 0).
  { unfold mulm. rewrite rsum_swap. apply rsum_0. intros k Hk. rewrite rsum_scal_r.
    rewrite (rsum_ext n (fun b => L b k) (fun b => L k b)); [rewrite Hr by exact Hk; ring|]. intros b Hb. apply Hs; assumption. }
  rewrite (rsum_ext n _ (fun a => idm a 0%nat)) in E by (intros a Ha; apply H1; assumption).
  unfold idm in E. rewrite (rsum_single n _ 0%nat Hn) in E; [rewrite Nat.eqb_refl in E; lra|].
  intros j Hj Hne. destruct (Nat.eqb_spec j 0); [contradiction|reflexivity].
Qed.

(** C34: on a connected graph with non-negative weights, the resistance between i and j is the potential
    difference between them for any potential that drives a unit current from i to j; such a potential exists. *)
Theorem C34_potential_difference G o R' i j : built G -> nonneg_weights G -> g_lap_type G = Combinatorial -> connected G ->
  let n := g_n_vertices G in
  inv_contract n (gL G) o -> resistance_distance G o = Ok R' -> (i < n)%nat -> (j < n)%nat ->
  (exists v, forall a, (a < n)%nat -> mulv n (gL G) v a = unitv i a - unitv j a) /\
  (forall v, (forall a, (a < n)%nat -> mulv n (gL G) v a = unitv i a - unitv j a) -> R' i j = v i - v j).
Proof.
  intros Hb Hp Ht HC n Ho HR Hi Hj. pose proof (graph_is_laplacian G Hb Hp Ht) as HL. pose proof (connected_lap G Hb Hp Ht HC) as HCL.
  fold n in HL, HCL. unfold resistance_distance in HR. rewrite Ht in HR. injection HR as <-.
  destruct o as [P|P]; cbn [inv_contract resistance_distance_L] in *.
  - exfalso. apply (lap_not_invertible n (gL G) P HL); [lia|exact Ho].
  - split; [exists (pot P i j); intros a Ha; apply pot_current; assumption|].
    intros v Hv. apply (resistance_any n (gL G) P HL HCL Ho); assumption.
Qed.

(** C34: it is a metric on the vertices. *)
Theorem C34_metric G o R' : built G -> nonneg_weights G -> g_lap_type G = Combinatorial -> connected G ->
  let n := g_n_vertices G in
  inv_contract n (gL G) o -> resistance_distance G o = Ok R' ->
  (forall i j, R' i j = R' j i) /\ (forall i, R' i i = 0) /\
  (forall i j, (i < n)%nat -> (j < n)%nat -> 0 <= R' i j) /\
  (forall i j, (i < n)%nat -> (j < n)%nat -> R' i j = 0 -> i = j) /\
  (forall i j k, (i < n)%nat -> (j < n)%nat -> (k < n)%nat -> R' i k <= R' i j + R' j k).
Proof.
  intros Hb Hp Ht HC n Ho HR. pose proof (graph_is_laplacian G Hb Hp Ht) as HL. pose proof (connected_lap G Hb Hp Ht HC) as HCL.
  fold n in HL, HCL. unfold resistance_distance in HR. rewrite Ht in HR. injection HR as <-.
  assert (EP : exists P, resistance_distance_L o = resistance_of P) by (destruct o as [P|P]; exists P; reflexivity).
  split; [destruct EP as (P & ->); intros i j; unfold resistance_of; ring|].
  split; [destruct EP as (P & ->); intros i; unfold resistance_of; ring|].
  clear EP. destruct o as [P|P]; cbn [inv_contract resistance_distance_L] in *.
  { assert (N0 : forall i, (i < n)%nat -> False) by (intros i Hi; apply (lap_not_invertible n (gL G) P HL); [lia|exact Ho]).
    split; [intros i j Hi; exfalso; apply (N0 i Hi)|]. split; [intros i j Hi; exfalso; apply (N0 i Hi)|intros i j k Hi; exfalso; apply (N0 i Hi)]. }
  split; [|split].
  - intros i j Hi Hj. rewrite (resistance_pot n) by assumption. pose proof (pot_min n (gL G) P HL HCL Ho i j i Hi Hj Hi). lra.
  - intros i j Hi Hj H0. destruct (Nat.eq_dec i j) as [|Hne]; [assumption|exfalso].
    rewrite (resistance_pot n) in H0 by assumption.
    assert (Hc : forall a, (a < n)%nat -> pot P i j a = pot P i j i).
    { intros a Ha. pose proof (pot_min n (gL G) P HL HCL Ho i j a Hi Hj Ha). pose proof (pot_max n (gL G) P HL HCL Ho i j a Hi Hj Ha). lra. }
    pose proof (pot_current n (gL G) P HL HCL Ho i j i Hi Hj Hi) as E.
    rewrite (lap_apply n _ _ i HL Hi) in E. rewrite rsum_0 in E.
    + unfold unitv in E. rewrite Nat.eqb_refl in E. destruct (Nat.eqb_spec i j); [contradiction|lra].
    + intros b Hb'. rewrite (Hc b Hb'). ring.
  - intros i j k Hi Hj Hk.
    rewrite (resistance_pot n P i k Hi Hk), (resistance_pot n P i j Hi Hj), (resistance_pot n P j k Hj Hk).
    pose proof (pot_min n (gL G) P HL HCL Ho i j k Hi Hj Hk) as H1.
    pose proof (pot_max n (gL G) P HL HCL Ho j k i Hj Hk Hi) as H2.
    assert (E : forall a, pot P i k a = pot P i j a + pot P j k a) by (intros a; unfold pot; ring).
    rewrite !E. lra.
Qed.
Theorem C34_needs_combinatorial G o : g_lap_type G <> Combinatorial -> resistance_distance G o = Raise ValueError.
Proof. intros H. unfold resistance_distance. destruct (g_lap_type G); [contradiction|reflexivity|reflexivity]. Qed.

(** Two vertices joined by an edge of weight 1: the pseudo-inverse is L/4 and the resistance is 1. *)
Lemma k2_connected G : built G -> g_n_vertices G = 2%nat ->
  (forall i j, (i < 2)%nat -> (j < 2)%nat -> wt G i j = nth (i * 2 + j) [0; 1; 1; 0] 0) -> connected G.
Proof.
  intros Hb Hn Hw u v Hu Hv.
  assert (S : forall a b, (a < 2)%nat -> (b < 2)%nat -> a <> b -> has_arc G a b).
  { intros a b Ha Hb' Hne. unfold has_arc. rewrite Hn. split; [exact Ha|]. split; [exact Hb'|].
    rewrite Hw by assumption. destruct a as [|[|a]]; try lia; destruct b as [|[|b]]; try lia; cbn; lra. }
  destruct (Nat.eq_dec u v) as [<-|Hne]; [apply reach_refl|].
  eapply reach_step; [apply reach_refl|]. apply S; lia.
Qed.
Example C34_ex : exists G P R', built G /\ nonneg_weights G /\ g_lap_type G = Combinatorial /\ connected G /\ g_n_vertices G = 2%nat /\
  inv_contract 2 (gL G) (InvSingular P) /\ resistance_distance G (InvSingular P) = Ok R' /\ R' 0%nat 1%nat = 1.
Proof.
  destruct (finite_entry_built 2 [0; 1; 1; 0] Combinatorial None eq_refl (or_introl eq_refl)) as (G & _ & Hb & Hn & Ht & _ & Hw).
  destruct (k2_lap G Hb Hn Hw) as (Hp & Hu & L00 & L11 & L01 & L10).
  exists G, (fun i j => gL G i j / 4). eexists. split; [exact Hb|]. split; [exact Hp|]. split; [exact Ht|].
  split; [apply k2_connected; assumption|]. split; [exact Hn|]. split.
  - cbn [inv_contract]. unfold pinv, meq, symmetric, meq, tr, mulm.
    split; [|split; [|split]]; intros i j Hi Hj; destruct i as [|[|i]]; try lia; destruct j as [|[|j]]; try lia;
      cbn [rsum]; rewrite ?L00, ?L01, ?L10, ?L11; field.
  - unfold resistance_distance. rewrite Ht. split; [reflexivity|]. cbn [resistance_distance_L]. unfold resistance_of.
    rewrite L00, L11, L01, L10. lra.
Qed.
(** The same for G.dirichlet_energy(x). *)
Theorem C72_zero_energy G x : built G -> nonneg_weights G -> g_lap_type G = Combinatorial -> connected G ->
  List.length x = g_n_vertices G ->
  (dirichlet_energy G x = Ok 0 <-> forall i j, (i < g_n_vertices G)%nat -> (j < g_n_vertices G)%nat -> nth i x 0 = nth j x 0).
Proof.
  intros Hb Hp Ht HC Hl. rewrite (energy_ok G x Hl). rewrite <- (proj2 (C72_kernel G (fun i => nth i x 0) Hb Hp Ht HC)).
  split; [intros E; injection E as E; exact E|intros E; rewrite E; reflexivity].
Qed.
Example C72_ex : exists G, built G /\ nonneg_weights G /\ g_lap_type G = Combinatorial /\ connected G /\ g_n_vertices G = 2%nat.
Proof.
  destruct C34_ex as (G & P & R' & H1 & H2 & H3 & H4 & H5 & _). exists G. repeat (split; [assumption|]). assumption.
Qed.

(** ** rescale_center *)
Lemma fold_max_ge l a : a <= fold_left Rmax l a /\ forall x, In x l -> x <= fold_left Rmax l a.
Proof.
  revert a. induction l as [|b l IH]; intros a; cbn [fold_left]; [split; [lra|intros x []]|].
  destruct (IH (Rmax a b)) as (H1 & H2). pose proof (Rmax_l a b). pose proof (Rmax_r a b).
  split; [lra|]. intros x [->|Hx]; [lra|apply H2; exact Hx].
Qed.
Lemma fold_max_in l a : fold_left Rmax l a = a \/ In (fold_left Rmax l a) l.
Proof.
  revert a. induction l as [|b l IH]; intros a; cbn [fold_left]; [left; reflexivity|].
  destruct (IH (Rmax a b)) as [E|E]; [|right; right; exact E]. rewrite E.
  unfold Rmax at 1 2. destruct (Rle_dec a b); [right; left; reflexivity|left; reflexivity].
Qed.

(** rescale_center divides the centred coordinates by their largest value c: when the points are not all
    equal, c is positive, rows sum to zero, no entry exceeds 1 and the value 1 is attained. *)
Theorem C71_rescale_center d n x y : rescale_center d n x = Ok y ->
  (exists i j k, (i < d)%nat /\ (j < n)%nat /\ (k < n)%nat /\ x i j <> x i k) ->
  (forall i, (i < d)%nat -> \sum_(j < n) y i j = 0) /\
  (forall i j, (i < d)%nat -> (j < n)%nat -> y i j <= 1) /\
  (exists i j, (i < d)%nat /\ (j < n)%nat /\ y i j = 1) /\
  (exists s, 0 < s /\ forall i j k, y i j - y i k = s * (x i j - x i k)).
Proof.
  unfold rescale_center. intros H (i0 & j0 & k0 & Hi0 & Hj0 & Hk0 & Hne). cbv zeta in H.
  set (Y := fun i j => x i j - (\sum_(k < n) x i k) / INR n) in *.
  set (vals := map (fun ij => Y (fst ij) (snd ij)) (list_prod (seq 0 d) (seq 0 n))).
  change (match vals with [] => Raise ValueError | a :: l => Ok (fun i j => Y i j / fold_left Rmax l a) end = Ok y) in H.
  assert (Hin : forall i j, (i < d)%nat -> (j < n)%nat -> In (Y i j) vals).
  { intros i j Hi Hj. unfold vals. apply in_map_iff. exists (i, j). split; [reflexivity|]. apply in_prod; apply in_seq; lia. }
  assert (Hfrom : forall v, In v vals -> exists i j, (i < d)%nat /\ (j < n)%nat /\ v = Y i j).
  { intros v Hv. unfold vals in Hv. apply in_map_iff in Hv. destruct Hv as ((i & j) & <- & Hp). apply in_prod_iff in Hp.
    rewrite !in_seq in Hp. exists i, j. split; [lia|]. split; [lia|]. reflexivity. }
  assert (Hnr : 0 < INR n) by (apply lt_0_INR; lia).
  assert (Hsum : forall i, \sum_(j < n) Y i j = 0).
  { intros i. unfold Y. rewrite rsum_minus, rsum_const.
    change (rsum n (x i)) with (\sum_(k < n) x i k). set (S := \sum_(k < n) x i k).
    change (S - INR n * (S / INR n) = 0). field. lra. }
  clearbody vals. destruct vals as [|a l]; [discriminate|]. injection H as <-.
  set (c := fold_left Rmax l a).
  assert (Hub : forall i j, (i < d)%nat -> (j < n)%nat -> Y i j <= c).
  { intros i j Hi Hj. specialize (Hin i j Hi Hj). destruct (fold_max_ge l a) as (H1 & H2). unfold c.
    destruct Hin as [<-|Hl]; [exact H1|apply H2; exact Hl]. }
  assert (Hatt : exists i j, (i < d)%nat /\ (j < n)%nat /\ c = Y i j).
  { apply Hfrom. unfold c. destruct (fold_max_in l a) as [->|Hl]; [left; reflexivity|right; exact Hl]. }
  assert (Hc : 0 < c).
  { destruct (Rlt_le_dec 0 c) as [|Hle]; [assumption|exfalso].
    assert (Z : forall j, (j < n)%nat -> - Y i0 j = 0).
    { intros j Hj. apply (rsum_zero_all n (fun j => - Y i0 j)); [|rewrite rsum_opp; change (- (\sum_(j < n) Y i0 j) = 0); rewrite (Hsum i0); ring|exact Hj].
      intros k Hk. pose proof (Hub i0 k Hi0 Hk). lra. }
    pose proof (Z j0 Hj0). pose proof (Z k0 Hk0). unfold Y in *. lra. }
  split; [|split; [|split]].
  - intros i Hi. unfold Rdiv. rewrite rsum_scal_r, Hsum. ring.
  - intros i j Hi Hj. apply Rmult_le_reg_r with c; [exact Hc|]. unfold Rdiv. rewrite Rmult_assoc, Rinv_l by lra.
    pose proof (Hub i j Hi Hj). lra.
  - destruct Hatt as (i & j & Hi & Hj & E). exists i, j. split; [exact Hi|]. split; [exact Hj|]. rewrite <- E. field. lra.
  - exists (/ c). split; [apply Rinv_0_lt_compat; exact Hc|]. intros i j k. unfold Y. field. split; lra.
Qed.
Theorem C71_empty_rejected d n x : rescale_center d n x = Raise ValueError <-> (d = 0 \/ n = 0)%nat.
Proof.
  unfold rescale_center. split.
  - destruct d as [|d]; [auto|]. destruct n as [|n]; [auto|]. cbn [seq list_prod map app]. discriminate.
  - intros [->| ->]; [reflexivity|]. assert (E : list_prod (seq 0 d) (seq 0 0) = []).
    { cbn [seq]. generalize (seq 0 d). induction l as [|a l IH]; [reflexivity|exact IH]. } rewrite E. reflexivity.
Qed.
Example C71_ex : exists y, rescale_center 1 2 (fun _ j => INR j) = Ok y /\
  (exists i j k, (i < 1)%nat /\ (j < 2)%nat /\ (k < 2)%nat /\ INR j <> INR k).
Proof.
  eexists. split; [reflexivity|]. exists 0%nat, 0%nat, 1%nat. repeat (split; [lia|]). cbn. lra.
Qed.
