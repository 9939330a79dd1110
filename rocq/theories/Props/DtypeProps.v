(** Property C96: adjacency matrices of Boolean or machine-integer type. *)
From Coq Require Import Reals Lra Lia List Arith Bool ZArith.
From Verif.Base Require Import RSum Prelude LinAlg.
From Verif.Spec Require Import Matrix GraphSpec DtypeSpec Card.
From Verif.Model Require Import Sparse Graph Dtypes.
From Verif.Proofs Require Import SparseFacts InitFacts EdgeFacts LapFacts.
From Verif.Props Require Import Core Laplacian.
Import ListNotations.
Open Scope R_scope.

(** What is stored is the result itself iff it is representable. *)
Lemma wrap_ok t z : wrap t z = z <-> representable t z.
Proof.
  destruct t as [|k|k]; unfold wrap, representable.
  - destruct (Z.eqb_spec z 0); split; lia.
  - assert (P : (0 < 2 ^ Z.of_nat k)%Z) by (apply Z.pow_pos_nonneg; lia). split.
    + intros E. rewrite <- E. apply Z.mod_pos_bound. exact P.
    + intros H. apply Z.mod_small. exact H.
  - assert (P : (0 < 2 ^ Z.of_nat k)%Z) by (apply Z.pow_pos_nonneg; lia). set (h := (2 ^ Z.of_nat k)%Z) in *. split.
    + intros E. pose proof (Z.mod_pos_bound (z + h) (2 * h) ltac:(lia)). lia.
    + intros H. rewrite Z.mod_small by lia. lia.
Qed.

Definition no_overflow (t : dtype) (n : nat) (w : nat -> nat -> Z) : Prop :=
  forall i j, (i < n)%nat -> (j < n)%nat -> representable t (w i j + w j i).

Lemma t_directed_false n w : t_directed n w = false <-> forall i j, (i < n)%nat -> (j < n)%nat -> w i j = w j i.
Proof.
  unfold t_directed. rewrite nexists_false. split.
  - intros H i j Hi Hj. specialize (H i Hi). rewrite nexists_false in H. specialize (H j Hj). apply negb_false_iff in H. apply Z.eqb_eq in H. exact H.
  - intros H i Hi. apply nexists_false. intros j Hj. apply negb_false_iff, Z.eqb_eq, H; assumption.
Qed.

(** The matrix has the same Laplacian as if its entries were real numbers, of either type, if it is symmetric, or if no sum
    w(i,j) + w(j,i) leaves the range of the type. *)
Theorem C96_laplacian :
  forall t n w G, built G -> g_n_vertices G = n -> (forall i j, (i < n)%nat -> (j < n)%nat -> wt G i j = IZR (w i j)) ->
    (forall i j, (i < n)%nat -> (j < n)%nat -> w i j = w j i) \/ no_overflow t n w ->
    exists L, t_laplacian t n w (g_lap_type G) = Ok L /\ forall i j, (i < n)%nat -> (j < n)%nat -> L i j = gL G i j.
Proof.
  intros t n w G Hb Hn Hw Hok. destruct (built_good G Hb) as (Hg & Hnr & _ & HL).
  assert (Hnn : nrow (gW G) = n) by congruence. unfold wt in Hw.
  assert (Hd : t_directed n w = is_directed (gW G)).
  { destruct (is_directed (gW G)) eqn:E.
    - destruct (t_directed n w) eqn:F; [reflexivity|]. exfalso. rewrite t_directed_false in F.
      assert (is_directed (gW G) = false); [|congruence]. apply is_directed_false. rewrite Hnn. intros i j Hi Hj. rewrite !Hw, (F i j) by assumption. reflexivity.
    - apply t_directed_false. rewrite is_directed_false, Hnn in E. intros i j Hi Hj. apply eq_IZR. rewrite <- !Hw by assumption. apply E; assumption. }
  assert (Ew : forall i j, (i < n)%nat -> (j < n)%nat -> t_wlap t n w i j = wlap (gW G) i j).
  { intros i j Hi Hj. unfold t_wlap, wlap. rewrite Hd. destruct (is_directed (gW G)) eqn:E; [|symmetry; apply Hw; assumption].
    destruct Hok as [S|Hno]; [apply t_directed_false in S; congruence|]. unfold t_average.
    rewrite (proj2 (wrap_ok t _) (Hno i j Hi Hj)), plus_IZR, !Hw by assumption. reflexivity. }
  assert (Edw : forall i, (i < n)%nat -> t_dw n w i = dw (gW G) i).
  { intros i Hi. unfold t_dw, dw. rewrite Hd.
    assert (E1 : \sum_(j < n) IZR (w j i) = col_sum (gW G) i) by (rewrite (col_sum_get _ _ (good_wf _ Hg)), Hnn by (rewrite (good_sq _ Hg); lia); apply rsum_ext; intros j Hj; symmetry; apply Hw; assumption).
    assert (E2 : \sum_(j < n) IZR (w i j) = row_sum (gW G) i) by (rewrite (row_sum_get _ _ (good_wf _ Hg)), (good_sq _ Hg), Hnn by lia; apply rsum_ext; intros j Hj; symmetry; apply Hw; assumption).
    rewrite E1, E2. reflexivity. }
  assert (Hv : valid_lap (g_lap_type G)) by (apply (laplacian_ok (gW G)); eauto).
  destruct Hv as [E|E]; rewrite E; (eexists; split; [reflexivity|]); intros i j Hi Hj.
  - rewrite (built_comb G Hb E). unfold lap_comb. rewrite Edw, Ew by assumption. reflexivity.
  - rewrite (built_norm G Hb E). unfold lap_norm, dinvsqrt. rewrite !Edw, Ew by assumption. reflexivity.
Qed.

Lemma pow2_pos k : (0 < 2 ^ Z.of_nat k)%Z.
Proof. apply Z.pow_pos_nonneg; lia. Qed.

Lemma wrap_lost t a b : representable t a -> representable t b -> wrap t (a + b) = (a + b - lost t (a + b))%Z.
Proof.
  destruct t as [|k|k]; unfold representable, wrap, lost; intros Ha Hb.
  - destruct (Z.eqb_spec (a + b) 0), (Z.ltb_spec 1 (a + b)); lia.
  - pose proof (pow2_pos k) as P. set (h := (2 ^ Z.of_nat k)%Z) in *. destruct (Z.leb_spec h (a + b)).
    + rewrite <- (Z_mod_plus_full (a + b) (-1) h), Z.mod_small; lia.
    + rewrite Z.mod_small; lia.
  - pose proof (pow2_pos k) as P. set (h := (2 ^ Z.of_nat k)%Z) in *. destruct (Z.leb_spec h (a + b)).
    + rewrite <- (Z_mod_plus_full (a + b + h) (-1) (2 * h)), Z.mod_small; lia.
    + destruct (Z.ltb_spec (a + b) (- h)).
      * rewrite <- (Z_mod_plus_full (a + b + h) 1 (2 * h)), Z.mod_small; lia.
      * rewrite Z.mod_small; lia.
Qed.

Lemma lost_0 t a b : representable t a -> representable t b -> lost t (a + b) = 0%Z <-> representable t (a + b).
Proof.
  intros Ha Hb. rewrite <- wrap_ok, (wrap_lost t a b Ha Hb). lia.
Qed.

Lemma lost_nonneg t z : (forall k, t <> DInt k) -> (0 <= lost t z)%Z.
Proof.
  intros H. destruct t as [|k|k]; unfold lost; [destruct (Z.ltb 1 z); lia| |exfalso; apply (H k); reflexivity].
  pose proof (pow2_pos k). destruct (Z.leb _ z); lia.
Qed.

(** The rows of the combinatorial Laplacian of a directed graph whose entries have type t sum to half of what the additions of
    w(i,j) and w(j,i) lost, instead of zero. *)
Theorem C96_row_sums :
  forall t n w L, (forall i j, (i < n)%nat -> (j < n)%nat -> representable t (w i j)) ->
    ~ (forall i j, (i < n)%nat -> (j < n)%nat -> w i j = w j i) -> t_laplacian t n w Combinatorial = Ok L ->
    forall i, (i < n)%nat -> \sum_(j < n) L i j = \sum_(j < n) (IZR (lost t (w i j + w j i)) / 2).
Proof.
  intros t n w L Hr Hd HL i Hi. injection HL as <-.
  assert (D : t_directed n w = true) by (destruct (t_directed n w) eqn:E; [reflexivity|exfalso; apply Hd, t_directed_false, E]).
  rewrite rsum_minus.
  rewrite (rsum_delta_l n (fun _ => t_dw n w i) i Hi). unfold t_dw, t_wlap. rewrite D. unfold t_average.
  transitivity (\sum_(j < n) ((IZR (w j i) + IZR (w i j)) / 2 - IZR (wrap t (w i j + w j i)) / 2)).
  - rewrite rsum_minus. f_equal. rewrite <- rsum_plus. unfold Rdiv. rewrite rsum_scal_r. reflexivity.
  - apply rsum_ext. intros j Hj. rewrite (wrap_lost t) by (apply Hr; assumption). rewrite minus_IZR, plus_IZR. lra.
Qed.

(** Hence, for Booleans and unsigned integers, constant signals are in the kernel of the combinatorial Laplacian exactly if the graph
    is undirected or no addition leaves the range of the type. *)
Theorem C96_constants_in_the_kernel :
  forall t n w L, (forall k, t <> DInt k) -> (forall i j, (i < n)%nat -> (j < n)%nat -> representable t (w i j)) ->
    t_laplacian t n w Combinatorial = Ok L ->
    ((forall i, (i < n)%nat -> \sum_(j < n) L i j = 0) <->
     ((forall i j, (i < n)%nat -> (j < n)%nat -> w i j = w j i) \/ no_overflow t n w)).
Proof.
  intros t n w L Ht Hr HL. destruct (t_directed n w) eqn:D.
  - assert (Hns : ~ (forall i j, (i < n)%nat -> (j < n)%nat -> w i j = w j i)) by (intros H; apply t_directed_false in H; congruence).
    pose proof (C96_row_sums t n w L Hr Hns HL) as Hs. split.
    + intros H0. right. intros i j Hi Hj. apply lost_0; [apply Hr; assumption..|].
      specialize (H0 i Hi). rewrite Hs in H0 by exact Hi.
      pose proof (rsum_zero_all n (fun j => IZR (lost t (w i j + w j i)) / 2)) as Hz.
      assert (Z0 : IZR (lost t (w i j + w j i)) / 2 = 0).
      { apply Hz; [|exact H0|exact Hj]. intros m Hm. pose proof (IZR_le _ _ (lost_nonneg t (w i m + w m i) Ht)). lra. }
      apply eq_IZR. lra.
    + intros [H|H] i Hi; [contradiction|]. rewrite Hs by exact Hi. apply rsum_0. intros j Hj.
      rewrite (proj2 (lost_0 t (w i j) (w j i) (Hr i j Hi Hj) (Hr j i Hj Hi)) (H i j Hi Hj)). lra.
  - pose proof (proj1 (t_directed_false n w) D) as Hsym. split; [intros _; left; exact Hsym|]. intros _ i Hi. injection HL as <-.
    rewrite rsum_minus.
    rewrite (rsum_delta_l n (fun _ => t_dw n w i) i Hi). unfold t_dw, t_wlap. rewrite D. rewrite <- rsum_minus. apply rsum_0. intros j Hj.
    rewrite (Hsym j i) by assumption. lra.
Qed.

(** The user of a typed matrix gets a Laplacian that is not that of the graph: a uint8 matrix with weights 200 and 100. *)
Definition w_uint8 (i j : nat) : Z := match i, j with 0%nat, 1%nat => 200%Z | 1%nat, 0%nat => 100%Z | _, _ => 0%Z end.
Theorem C96_integer_weights_refuted :
  exists t n w, (forall i j, (i < n)%nat -> (j < n)%nat -> representable t (w i j)) /\
    exists L, t_laplacian t n w Combinatorial = Ok L /\ L 0%nat 0%nat = 150 /\ L 0%nat 1%nat = - 22 /\
      \sum_(j < n) L 0%nat j = 128.
Proof.
  exists (DUInt 8), 2%nat, w_uint8. split.
  - intros i j Hi Hj. unfold representable. change (2 ^ Z.of_nat 8)%Z with 256%Z. unfold w_uint8. destruct i as [|[|i]], j as [|[|j]]; lia.
  - eexists. split; [reflexivity|].
    assert (D : t_directed 2 w_uint8 = true) by reflexivity.
    unfold t_dw, t_wlap. rewrite D. unfold t_average. cbn. lra.
Qed.

(** The average method of [symmetrize] gives back a symmetric typed matrix iff twice each of its entries is representable: a
    Boolean adjacency matrix comes back with weights 1/2. *)
Theorem C96_average_of_a_symmetric_matrix :
  forall t n w, (forall i j, (i < n)%nat -> (j < n)%nat -> w i j = w j i) ->
    ((forall i j, (i < n)%nat -> (j < n)%nat -> t_average t w i j = IZR (w i j)) <->
     (forall i j, (i < n)%nat -> (j < n)%nat -> representable t (2 * w i j))).
Proof.
  intros t n w Hs. split; intros H i j Hi Hj.
  - specialize (H i j Hi Hj). unfold t_average in H. rewrite (Hs j i) in H by assumption.
    apply wrap_ok. replace (2 * w i j)%Z with (w i j + w i j)%Z by lia. apply eq_IZR. rewrite plus_IZR. lra.
  - unfold t_average. rewrite (Hs j i) by assumption. replace (w i j + w i j)%Z with (2 * w i j)%Z by lia.
    rewrite (proj2 (wrap_ok t _) (H i j Hi Hj)), mult_IZR. lra.
Qed.
Theorem C96_average_of_a_boolean_matrix :
  forall n w, (forall i j, (i < n)%nat -> (j < n)%nat -> w i j = w j i /\ representable DBool (w i j)) ->
    forall i j, (i < n)%nat -> (j < n)%nat -> t_average DBool w i j = IZR (w i j) / 2.
Proof.
  intros n w H i j Hi Hj. destruct (H i j Hi Hj) as [Hs Hr]. unfold t_average. rewrite <- Hs. do 2 f_equal.
  unfold wrap, representable in *. destruct (Z.eqb_spec (w i j + w i j) 0); lia.
Qed.

(** Concrete cases: a directed graph with a uint8 adjacency matrix whose sums fit; an undirected Boolean one; overflowing ones. *)
Definition w_dir (i j : nat) : Z := match i, j with 0%nat, 1%nat => 2%Z | 1%nat, 0%nat => 2%Z | 1%nat, 2%nat => 1%Z | _, _ => 0%Z end.
Example C96_ex : exists G, built G /\ g_n_vertices G = 3%nat /\ (forall i j, (i < 3)%nat -> (j < 3)%nat -> wt G i j = IZR (w_dir i j)) /\
  t_directed 3 w_dir = true /\ no_overflow (DUInt 8) 3 w_dir /\ ~ no_overflow (DInt 1) 3 w_dir.
Proof.
  destruct (ex_graph_dir Combinatorial (or_introl eq_refl)) as (G & Hb & Hn & _ & Hw). exists G. split; [exact Hb|]. split; [exact Hn|].
  split; [|split; [reflexivity|split]].
  - intros i j Hi Hj. rewrite Hw by assumption. destruct i as [|[|[|i]]], j as [|[|[|j]]]; try lia; reflexivity.
  - intros i j Hi Hj. unfold representable. change (2 ^ Z.of_nat 8)%Z with 256%Z. destruct i as [|[|[|i]]], j as [|[|[|j]]]; cbn; lia.
  - intros H. specialize (H 0%nat 1%nat ltac:(lia) ltac:(lia)). cbn in H. lia.
Qed.
Example C96_row_sums_ex : exists L, t_laplacian DBool 2 (fun i j => if Nat.eqb i 1 && Nat.eqb j 1 then 0%Z else if Nat.eqb i 1 then 0%Z else 1%Z)%bool Combinatorial = Ok L /\
  \sum_(j < 2) L 0%nat j = 1 / 2.
Proof. eexists. split; [reflexivity|]. unfold t_dw, t_wlap, t_average. cbn. lra. Qed.
Example C96_bool_ex : t_average DBool (fun i j => if Nat.eqb i j then 0%Z else 1%Z) 0%nat 1%nat = 1 / 2.
Proof. reflexivity. Qed.
