(** Consequences of an eigendecomposition that do not depend on which one was computed. *)
From Coq Require Import Reals Lra Lia List Arith.
From Verif.Base Require Import RSum Prelude LinAlg Solve Spectral.
From Verif.Spec Require Import Matrix.
From Verif.Proofs Require Import SpectralFacts.
Open Scope R_scope.

(** ** The sorted eigenvalues are determined by the matrix *)

Lemma eigh_le n A e U f W k : eigh_ok n A e U -> eigh_ok n A f W -> (k < n)%nat -> e k <= f k.
Proof.
  intros HU HW Hk.
  (* x orthogonal to the first k columns of U and to the last n-1-k columns of W *)
  destruct (few_conditions n (n - 1) (fun l i => if Nat.ltb l k then U i l else W i (S l)) ltac:(lia)) as (x & Hx & Ho).
  assert (HoU : forall l, (l < k)%nat -> coef n U x l = 0).
  { intros l Hl. specialize (Ho l ltac:(lia)). cbn beta in Ho. unfold dot in Ho. destruct (Nat.ltb_spec l k); [exact Ho|lia]. }
  assert (HoW : forall l, (k < l < n)%nat -> coef n W x l = 0).
  { intros l Hl. specialize (Ho (l - 1)%nat ltac:(lia)). cbn beta in Ho. unfold dot in Ho. destruct (Nat.ltb_spec (l - 1) k); [lia|].
    replace (S (l - 1)) with l in Ho by lia. exact Ho. }
  pose proof (normsq_pos n x Hx) as Hp.
  assert (H1 : e k * normsq n x <= quad n A x).
  { rewrite (eigh_quad n A e U HU x), <- (coef_normsq n A e U HU x). unfold normsq, dot. rewrite <- rsum_scal_l. apply rsum_le. intros l Hl.
    destruct (lt_dec l k) as [Hlk|Hlk]; [rewrite (HoU l Hlk); lra|].
    apply Rmult_le_compat_r; [apply Rle_0_sqr|]. apply (eigh_sort n A e U HU); lia. }
  assert (H2 : quad n A x <= f k * normsq n x).
  { rewrite (eigh_quad n A f W HW x), <- (coef_normsq n A f W HW x). unfold normsq, dot. rewrite <- rsum_scal_l. apply rsum_le. intros l Hl.
    destruct (lt_dec k l) as [Hlk|Hlk]; [rewrite (HoW l ltac:(lia)); lra|].
    apply Rmult_le_compat_r; [apply Rle_0_sqr|]. apply (eigh_sort n A f W HW); lia. }
  apply (Rmult_le_reg_r (normsq n x)); [exact Hp|]. lra.
Qed.
Lemma eigh_unique n A e U f W k : eigh_ok n A e U -> eigh_ok n A f W -> (k < n)%nat -> e k = f k.
Proof. intros HU HW Hk. apply Rle_antisym; eapply eigh_le; eassumption. Qed.

(** ** Functions of the matrix *)

(** U diag(h) U^T does not depend on U as long as h is a function of the eigenvalue. *)
Lemma eigh_function n A e U W (h : vec) : eigh_ok n A e U -> eigh_ok n A e W ->
  (forall k l, (k < n)%nat -> (l < n)%nat -> e k = e l -> h k = h l) ->
  forall x i, (i < n)%nat ->
  \sum_(k < n) (U i k * (h k * coef n U x k)) = \sum_(k < n) (W i k * (h k * coef n W x k)).
Proof.
  intros HU HW Hh x i Hi.
  set (M := fun k l => \sum_(j < n) (U j k * W j l)).
  assert (HM : forall k l, (k < n)%nat -> (l < n)%nat -> h k * M k l = M k l * h l).
  { intros k l Hk Hl. destruct (Req_dec (e k) (e l)) as [E|Hne]; [rewrite (Hh k l Hk Hl E); ring|].
    assert (Z : M k l = 0).
    { assert (S1 : e l * M k l = e k * M k l).
      { assert (E1 : dot n (fun j => U j k) (mulv n A (fun j => W j l)) = e l * M k l).
        { rewrite (dot_ext n _ (fun j => U j k) _ (fun j => e l * W j l)); [|intros j Hj; reflexivity|intros j Hj; apply (eigh_eig n A e W HW); assumption].
          rewrite dot_scal_r. reflexivity. }
        rewrite (dot_mulv_sym n A _ _ (eigh_sym n A e U HU)) in E1.
        rewrite (dot_ext n _ (fun j => e k * U j k) _ (fun j => W j l)) in E1; [|intros j Hj; apply (eigh_eig n A e U HU); assumption|intros j Hj; reflexivity].
        rewrite dot_scal_l in E1. symmetry. exact E1. }
      assert ((e k - e l) * M k l = 0) by lra. apply Rmult_integral in H. destruct H as [H|H]; [lra|exact H]. }
    rewrite Z. ring. }
  (* W i l = sum_k U i k M k l; coef U x k = sum_l M k l coef W x l *)
  assert (EW : forall l, (l < n)%nat -> W i l = \sum_(k < n) (U i k * M k l)).
  { intros l Hl. symmetry. apply (eigh_expand n A e U HU (fun j => W j l) i Hi). }
  assert (EU : forall k, (k < n)%nat -> coef n U x k = \sum_(l < n) (M k l * coef n W x l)).
  { intros k Hk. unfold coef at 1. erewrite rsum_ext.
    2:{ intros j Hj. rewrite <- (eigh_expand n A e W HW x j Hj). rewrite <- rsum_scal_l. reflexivity. }
    rewrite rsum_swap. apply rsum_ext. intros l Hl. unfold M. rewrite <- rsum_scal_r. apply rsum_ext. intros j Hj. ring. }
  transitivity (\sum_(k < n) \sum_(l < n) (U i k * (h k * M k l) * coef n W x l)).
  - apply rsum_ext. intros k Hk. rewrite (EU k Hk), <- !rsum_scal_l. apply rsum_ext. intros l Hl. ring.
  - rewrite rsum_swap. apply rsum_ext. intros l Hl. rewrite (EW l Hl), <- rsum_scal_r. apply rsum_ext. intros k Hk.
    rewrite (HM k l Hk Hl). ring.
Qed.

(** ** Trace *)
Lemma eigh_trace n A e U : eigh_ok n A e U -> \sum_(k < n) e k = \sum_(i < n) A i i.
Proof.
  intros HU. erewrite (rsum_ext n (fun i => A i i)).
  2:{ intros i Hi. apply (eigh_entry n A e U HU); assumption. }
  rewrite rsum_swap. apply rsum_ext. intros k Hk.
  rewrite (rsum_ext n (fun i => e k * U i k * U i k) (fun i => e k * (U i k * U i k))) by (intros; ring).
  rewrite rsum_scal_l, (eigh_cols n A e U HU k k Hk Hk), Nat.eqb_refl. ring.
Qed.
(** The sum of the squared eigenvalues is the squared Frobenius norm. *)
Lemma eigh_frobenius n A e U : eigh_ok n A e U -> \sum_(k < n) (e k * e k) = \sum_(i < n) \sum_(j < n) (A i j * A i j).
Proof.
  intros HU. transitivity (\sum_(k < n) normsq n (mulv n A (fun j => U j k))).
  - apply rsum_ext. intros k Hk. unfold normsq.
    rewrite (dot_ext n _ (fun i => e k * U i k) _ (fun i => e k * U i k)) by (intros i Hi; apply (eigh_eig n A e U HU); assumption).
    rewrite dot_scal_l, dot_scal_r. unfold dot. rewrite (eigh_cols n A e U HU k k Hk Hk), Nat.eqb_refl. ring.
  - unfold normsq, dot. rewrite rsum_swap. apply rsum_ext. intros i Hi.
    change (\sum_(k < n) (mulv n A (fun j => U j k) i * mulv n A (fun j => U j k) i)) with (normsq n (fun k => mulv n A (fun j => U j k) i)).
    transitivity (normsq n (coef n U (A i))); [|apply (coef_normsq n A e U HU)].
    apply dot_ext; intros k Hk; unfold coef, mulv; apply rsum_ext; intros j Hj; ring.
Qed.

(** ** Relabelling *)

(** p permutes 0..n-1 with inverse q. *)
Definition relabel (n : nat) (p q : nat -> nat) : Prop :=
  (forall i, (i < n)%nat -> (p i < n)%nat /\ q (p i) = i) /\ (forall i, (i < n)%nat -> (q i < n)%nat /\ p (q i) = i).

Lemma relabel_sym n p q : relabel n p q -> relabel n q p.
Proof. intros (H1 & H2). split; assumption. Qed.

Lemma relabel_sum n p q f : relabel n p q -> \sum_(i < n) f (p i) = \sum_(i < n) f i.
Proof.
  intros (Hp & Hq).
  transitivity (\sum_(i < n) \sum_(j < n) (if Nat.eqb (p i) j then f j else 0)).
  - apply rsum_ext. intros i Hi. rewrite (rsum_single n _ (p i)); [rewrite Nat.eqb_refl; reflexivity|apply Hp; exact Hi|].
    intros j Hj Hne. destruct (Nat.eqb_spec (p i) j); [lia|reflexivity].
  - rewrite rsum_swap. apply rsum_ext. intros j Hj. rewrite (rsum_single n _ (q j)).
    + rewrite (proj2 (Hq j Hj)), Nat.eqb_refl. reflexivity.
    + apply Hq. exact Hj.
    + intros i Hi Hne. destruct (Nat.eqb_spec (p i) j) as [E|]; [|reflexivity]. exfalso. apply Hne. rewrite <- E. symmetry. apply Hp. exact Hi.
Qed.

Lemma relabel_eigh n p q A A' e U : relabel n p q ->
  (forall i j, (i < n)%nat -> (j < n)%nat -> A' (p i) (p j) = A i j) ->
  eigh_ok n A e U -> eigh_ok n A' e (fun i k => U (q i) k).
Proof.
  intros Hr HA HU. pose proof (relabel_sym n p q Hr) as Hr'. destruct Hr as (Hp & Hq). split.
  - intros k l Hk Hl. rewrite (relabel_sum n q p (fun i => U i k * U i l) Hr'). apply (eigh_cols n A e U HU); assumption.
  - intros k l Hk Hl. unfold tr. pose proof (eigh_rows n A e U HU (q k) (q l) (proj1 (Hq k Hk)) (proj1 (Hq l Hl))) as H. unfold tr in H.
    rewrite H. destruct (Nat.eqb_spec (q k) (q l)) as [E|E]; destruct (Nat.eqb_spec k l) as [E'|E']; try reflexivity.
    + exfalso. apply E'. rewrite <- (proj2 (Hq k Hk)), <- (proj2 (Hq l Hl)), E. reflexivity.
    + subst. contradiction.
  - intros i k Hi Hk. pose proof (eigh_eig n A e U HU (q i) k (proj1 (Hq i Hi)) Hk) as H. rewrite <- H. unfold mulv.
    rewrite <- (relabel_sum n p q (fun j => A' i j * U (q j) k)) by (split; assumption).
    apply rsum_ext. intros j Hj. rewrite (proj2 (Hp j Hj)). rewrite <- (HA (q i) j (proj1 (Hq i Hi)) Hj), (proj2 (Hq i Hi)). reflexivity.
  - apply (eigh_sort n A e U HU).
Qed.

(** ** The multiplicity of the eigenvalue 0 *)

(** If the vectors of zero energy are those that are, up to a positive profile p, constant on each of c nonempty classes,
    then exactly the first c eigenvalues are zero. *)
Lemma zero_multiplicity n c L e U (p : vec) (lab : nat -> nat) : eigh_ok n L e U -> psd n L ->
  (forall i, (i < n)%nat -> 0 < p i) -> (forall i, (i < n)%nat -> (lab i < c)%nat) ->
  (forall t, (t < c)%nat -> exists i, (i < n)%nat /\ lab i = t) ->
  (forall x, quad n L x = 0 <-> (forall i j, (i < n)%nat -> (j < n)%nat -> lab i = lab j -> x i * p j = x j * p i)) ->
  forall k, (k < n)%nat -> (e k = 0 <-> (k < c)%nat).
Proof.
  intros HU Hpsd Hp Hlab Honto Hker.
  assert (He : forall k, (k < n)%nat -> 0 <= e k).
  { intros k Hk. apply (eigenvalue_ge_quad n L (e k) (fun i => U i k) 0 (eigh_eigenpair n L e U HU k Hk)). rewrite Rmult_0_l. apply Hpsd. }
  assert (Ha : forall k, (k < n)%nat -> (k < c)%nat -> e k <= 0).
  { intros k Hk Hkc.
    destruct (few_conditions c k (fun l t => \sum_(i < n) (if Nat.eqb (lab i) t then U i l * p i else 0)) Hkc) as (a & Hna & Hco).
    set (x := fun i => p i * a (lab i)).
    assert (Hz : forall l, (l < k)%nat -> coef n U x l = 0).
    { intros l Hl. refine (eq_trans _ (Hco l Hl)). unfold coef, x, dot. erewrite (rsum_ext c); [|intros t Ht; rewrite <- rsum_scal_r; reflexivity].
      rewrite rsum_swap. apply rsum_ext. intros i Hi. rewrite (rsum_single c _ (lab i)); [rewrite Nat.eqb_refl; ring|apply Hlab; exact Hi|].
      intros t Ht Hne. destruct (Nat.eqb_spec (lab i) t); [congruence|ring]. }
    assert (Hq : quad n L x = 0).
    { apply Hker. intros i j Hi Hj E. unfold x. rewrite E. ring. }
    assert (Hx : ~ vzero n x).
    { intros Hv. apply Hna. intros t Ht. destruct (Honto t Ht) as (i & Hi & <-). specialize (Hv i Hi). unfold x in Hv.
      apply Rmult_integral in Hv. destruct Hv as [Hv|Hv]; [specialize (Hp i Hi); lra|exact Hv]. }
    pose proof (normsq_pos n x Hx) as Hpos.
    assert (H1 : e k * normsq n x <= quad n L x).
    { rewrite (eigh_quad n L e U HU x), <- (coef_normsq n L e U HU x). unfold normsq, dot. rewrite <- rsum_scal_l. apply rsum_le. intros l Hl.
      destruct (lt_dec l k) as [Hlk|Hlk]; [rewrite (Hz l Hlk); lra|].
      apply Rmult_le_compat_r; [apply Rle_0_sqr|]. apply (eigh_sort n L e U HU); lia. }
    rewrite Hq in H1. nra. }
  intros k Hk. split.
  - intros Hek. destruct (lt_dec k c) as [|Hge]; [assumption|]. exfalso.
    destruct (few_conditions (S k) c (fun t l => \sum_(i < n) (if Nat.eqb (lab i) t then p i * U i l else 0)) ltac:(lia)) as (b & Hnb & Hco).
    set (bb := fun l => if Nat.leb l k then b l else 0).
    set (x := fun i => \sum_(l < n) (U i l * bb l)).
    assert (Hc : forall l, (l < n)%nat -> coef n U x l = bb l) by (intros l Hl; apply (coef_synth n L e U HU); exact Hl).
    assert (Hq : quad n L x = 0).
    { rewrite (eigh_quad n L e U HU x). apply rsum_0. intros l Hl. rewrite (Hc l Hl). unfold bb. destruct (Nat.leb_spec l k) as [Hlk|Hlk]; [|ring].
      assert (E : e l = 0). { apply Rle_antisym; [rewrite <- Hek; apply (eigh_sort n L e U HU); lia|apply He; exact Hl]. }
      rewrite E. ring. }
    pose proof (proj1 (Hker x) Hq) as Hcst.
    assert (Hsum : forall t, (t < c)%nat -> \sum_(i < n) (if Nat.eqb (lab i) t then p i * x i else 0) = 0).
    { intros t Ht. refine (eq_trans _ (Hco t Ht)). unfold dot.
      assert (EX : forall i, x i = \sum_(l < S k) (U i l * b l)).
      { intros i. unfold x. replace n with (S k + (n - S k))%nat by lia. rewrite rsum_split.
        rewrite (rsum_0 (n - S k)); [rewrite Rplus_0_r|].
        - apply rsum_ext. intros l Hl. unfold bb. destruct (Nat.leb_spec l k); [reflexivity|lia].
        - intros l Hl. unfold bb. destruct (Nat.leb_spec (S k + l) k); [lia|ring]. }
      transitivity (\sum_(l < S k) \sum_(i < n) ((if Nat.eqb (lab i) t then p i * U i l else 0) * b l)).
      2:{ apply rsum_ext. intros l Hl. rewrite rsum_scal_r. reflexivity. }
      rewrite (rsum_swap (S k) n). apply rsum_ext. intros i Hi. destruct (Nat.eqb (lab i) t).
      - rewrite EX, <- rsum_scal_l. apply rsum_ext. intros l Hl. ring.
      - symmetry. apply rsum_0. intros l Hl. ring. }
    assert (Hxz : vzero n x).
    { intros i0 Hi0. pose proof (Hp i0 Hi0) as Hp0. specialize (Hsum (lab i0) (Hlab i0 Hi0)).
      assert (E : (\sum_(i < n) (if Nat.eqb (lab i) (lab i0) then p i * p i else 0)) * (x i0 / p i0) = 0).
      { rewrite <- rsum_scal_r. refine (eq_trans _ Hsum). apply rsum_ext. intros i Hi. destruct (Nat.eqb_spec (lab i) (lab i0)) as [El|]; [|ring].
        pose proof (Hcst i i0 Hi Hi0 El) as Hx. replace (p i * p i * (x i0 / p i0)) with (p i * (x i0 * p i) / p i0) by (field; lra).
        rewrite <- Hx. field. lra. }
      assert (Hpos : 0 < \sum_(i < n) (if Nat.eqb (lab i) (lab i0) then p i * p i else 0)).
      { apply Rlt_le_trans with (p i0 * p i0); [nra|].
        pose proof (rsum_ge_term n (fun i => if Nat.eqb (lab i) (lab i0) then p i * p i else 0) i0) as Hg. cbn beta in Hg.
        rewrite Nat.eqb_refl in Hg. apply Hg; [|exact Hi0]. intros i Hi. destruct (Nat.eqb (lab i) (lab i0)); [nra|lra]. }
      apply Rmult_integral in E. destruct E as [E|E]; [lra|].
      replace (x i0) with (x i0 / p i0 * p i0) by (field; lra). rewrite E. ring. }
    apply Hnb. intros l Hl. assert (Hln : (l < n)%nat) by lia. pose proof (Hc l Hln) as E. unfold bb in E.
    destruct (Nat.leb_spec l k); [|lia]. rewrite <- E. unfold coef. apply rsum_0. intros i Hi. rewrite (Hxz i Hi). ring.
  - intros Hkc. apply Rle_antisym; [apply Ha; assumption|apply He; exact Hk].
Qed.
