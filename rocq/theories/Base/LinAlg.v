(** Linear-algebra lemmas about the vocabulary of Spec.Matrix. General mathematics. *)
From Coq Require Import Reals Lra Lia List Arith.
From Verif.Base Require Import RSum Prelude.
From Verif.Spec Require Import Matrix.
Open Scope R_scope.

Lemma dot_comm n x y : dot n x y = dot n y x.
Proof. apply rsum_ext; intros; ring. Qed.

Lemma dot_ext n x x' y y' : veq n x x' -> veq n y y' -> dot n x y = dot n x' y'.
Proof. intros H1 H2. apply rsum_ext; intros i Hi. rewrite H1, H2 by exact Hi. reflexivity. Qed.

Lemma dot_plus_r n x y z : dot n x (fun i => y i + z i) = dot n x y + dot n x z.
Proof. unfold dot. rewrite <- rsum_plus. apply rsum_ext; intros; ring. Qed.

Lemma dot_minus_r n x y z : dot n x (fun i => y i - z i) = dot n x y - dot n x z.
Proof. unfold dot. rewrite <- rsum_minus. apply rsum_ext; intros; ring. Qed.

Lemma dot_scal_r n c x y : dot n x (fun i => c * y i) = c * dot n x y.
Proof. unfold dot. rewrite <- rsum_scal_l. apply rsum_ext; intros; ring. Qed.

Lemma dot_plus_l n x y z : dot n (fun i => y i + z i) x = dot n y x + dot n z x.
Proof. unfold dot. rewrite <- rsum_plus. apply rsum_ext; intros; ring. Qed.

Lemma dot_minus_l n x y z : dot n (fun i => y i - z i) x = dot n y x - dot n z x.
Proof. unfold dot. rewrite <- rsum_minus. apply rsum_ext; intros; ring. Qed.

Lemma dot_scal_l n c x y : dot n (fun i => c * y i) x = c * dot n y x.
Proof. unfold dot. rewrite <- rsum_scal_l. apply rsum_ext; intros; ring. Qed.

Lemma normsq_nonneg n x : 0 <= normsq n x.
Proof. apply rsum_nonneg; intros; apply Rle_0_sqr. Qed.

Lemma normsq_zero n x : normsq n x = 0 -> vzero n x.
Proof.
  intros H i Hi.
  assert (x i * x i = 0).
  { apply (rsum_zero_all n (fun i => x i * x i)); auto. intros; apply Rle_0_sqr. }
  destruct (Rmult_integral _ _ H0); assumption.
Qed.

Lemma normsq_pos n x : ~ vzero n x -> 0 < normsq n x.
Proof.
  intros H. pose proof (normsq_nonneg n x). destruct (Req_dec (normsq n x) 0) as [E|E]; [|lra].
  exfalso; apply H, normsq_zero; exact E.
Qed.

Lemma vzero_dec n x : vzero n x \/ exists i, (i < n)%nat /\ x i <> 0.
Proof.
  induction n as [|n [IH|(i & Hi & Hx)]].
  - left; intros i Hi; lia.
  - destruct (Req_dec (x n) 0) as [E|E].
    + left; intros i Hi. destruct (Nat.eq_dec i n) as [->|]; [exact E|apply IH; lia].
    + right; exists n; split; [lia|exact E].
  - right; exists i; split; [lia|exact Hx].
Qed.

Lemma mulv_ext n A B x y i : (forall j, (j < n)%nat -> A i j = B i j) -> veq n x y ->
  mulv n A x i = mulv n B y i.
Proof. intros H1 H2. apply rsum_ext; intros j Hj. rewrite H1, H2 by exact Hj. reflexivity. Qed.

Lemma mulv_plus n A x y i : mulv n A (fun j => x j + y j) i = mulv n A x i + mulv n A y i.
Proof. unfold mulv. rewrite <- rsum_plus. apply rsum_ext; intros; ring. Qed.

Lemma mulv_minus n A x y i : mulv n A (fun j => x j - y j) i = mulv n A x i - mulv n A y i.
Proof. unfold mulv. rewrite <- rsum_minus. apply rsum_ext; intros; ring. Qed.

Lemma mulv_scal n A c x i : mulv n A (fun j => c * x j) i = c * mulv n A x i.
Proof. unfold mulv. rewrite <- rsum_scal_l. apply rsum_ext; intros; ring. Qed.

(** <x, A y> = <A^T x, y> *)
Lemma dot_mulv_tr n m A x y :
  dot n x (mulv m A y) = dot m (mulv n (tr A) x) y.
Proof.
  unfold dot, mulv, tr.
  rewrite (rsum_ext n _ (fun i => \sum_(j < m) (x i * (A i j * y j)))).
  2:{ intros i Hi. rewrite <- rsum_scal_l. reflexivity. }
  rewrite rsum_swap. apply rsum_ext; intros j Hj. rewrite <- rsum_scal_r.
  apply rsum_ext; intros; ring.
Qed.

Lemma dot_mulv_sym n A x y : symmetric n A -> dot n x (mulv n A y) = dot n (mulv n A x) y.
Proof.
  intros H. rewrite dot_mulv_tr. apply dot_ext; [|intros ? ?; reflexivity].
  intros i Hi. apply mulv_ext; [|intros ? ?; reflexivity]. intros j Hj. symmetry. apply H; assumption.
Qed.

Lemma mulv_mulm n m A B x i :
  mulv n (mulm m A B) x i = mulv m A (mulv n B x) i.
Proof.
  unfold mulv, mulm.
  rewrite (rsum_ext n _ (fun j => \sum_(k < m) (A i k * B k j * x j))).
  2:{ intros j Hj. rewrite <- rsum_scal_r. reflexivity. }
  rewrite rsum_swap. apply rsum_ext; intros k Hk. rewrite <- rsum_scal_l.
  apply rsum_ext; intros; ring.
Qed.

Lemma mulv_id n x i : (i < n)%nat -> mulv n idm x i = x i.
Proof.
  intros Hi. unfold mulv, idm.
  rewrite (rsum_ext n _ (fun j => if Nat.eqb i j then x j else 0)).
  - apply (rsum_delta_l n x i Hi).
  - intros j Hj. destruct (Nat.eqb i j); ring.
Qed.

Lemma quad_ext n A B x : meq n n A B -> quad n A x = quad n B x.
Proof.
  intros H. unfold quad. apply dot_ext; [intros ? ?; reflexivity|].
  intros i Hi. apply mulv_ext; [intros j Hj; apply H; assumption|intros ? ?; reflexivity].
Qed.

Lemma quad_sum n A x : quad n A x = \sum_(i < n) \sum_(j < n) (A i j * x i * x j).
Proof.
  unfold quad, dot, mulv. apply rsum_ext; intros i Hi.
  rewrite <- rsum_scal_l. apply rsum_ext; intros; ring.
Qed.

(** An eigenvalue is the Rayleigh quotient of its eigenvector. *)
Lemma eigenpair_quad n A lam x : eigenpair n A lam x -> quad n A x = lam * normsq n x.
Proof.
  intros (_ & H). unfold quad, normsq.
  rewrite <- (dot_scal_r n lam x x). apply dot_ext; [intros ? ?; reflexivity|].
  intros i Hi. apply H; exact Hi.
Qed.

Lemma eigenvalue_le_quad n A lam x c :
  eigenpair n A lam x -> quad n A x <= c * normsq n x -> lam <= c.
Proof.
  intros He Hq. rewrite (eigenpair_quad n A lam x He) in Hq.
  assert (0 < normsq n x) by (apply normsq_pos, He).
  apply Rmult_le_reg_r with (normsq n x); lra.
Qed.

Lemma eigenvalue_ge_quad n A lam x c :
  eigenpair n A lam x -> c * normsq n x <= quad n A x -> c <= lam.
Proof.
  intros He Hq. rewrite (eigenpair_quad n A lam x He) in Hq.
  assert (0 < normsq n x) by (apply normsq_pos, He).
  apply Rmult_le_reg_r with (normsq n x); lra.
Qed.

(** Double sums of a symmetric weight against differences. *)
Lemma sum_sym_swap n (f : nat -> nat -> R) :
  \sum_(i < n) \sum_(j < n) f i j = \sum_(i < n) \sum_(j < n) f j i.
Proof. rewrite rsum_swap. reflexivity. Qed.

Lemma sum2_ext n m (f g : nat -> nat -> R) :
  (forall i j, (i < n)%nat -> (j < m)%nat -> f i j = g i j) ->
  \sum_(i < n) \sum_(j < m) f i j = \sum_(i < n) \sum_(j < m) g i j.
Proof. intros H. apply rsum_ext; intros i Hi. apply rsum_ext; intros j Hj. apply H; assumption. Qed.

Lemma sum2_plus n m (f g : nat -> nat -> R) :
  \sum_(i < n) \sum_(j < m) (f i j + g i j) =
  \sum_(i < n) \sum_(j < m) f i j + \sum_(i < n) \sum_(j < m) g i j.
Proof. rewrite <- rsum_plus. apply rsum_ext; intros i Hi. apply rsum_plus. Qed.

Lemma sum2_minus n m (f g : nat -> nat -> R) :
  \sum_(i < n) \sum_(j < m) (f i j - g i j) =
  \sum_(i < n) \sum_(j < m) f i j - \sum_(i < n) \sum_(j < m) g i j.
Proof. rewrite <- rsum_minus. apply rsum_ext; intros i Hi. apply rsum_minus. Qed.

Lemma sum2_scal n m c (f : nat -> nat -> R) :
  \sum_(i < n) \sum_(j < m) (c * f i j) = c * \sum_(i < n) \sum_(j < m) f i j.
Proof. rewrite <- rsum_scal_l. apply rsum_ext; intros i Hi. apply rsum_scal_l. Qed.

Lemma sum2_nonneg n m (f : nat -> nat -> R) :
  (forall i j, (i < n)%nat -> (j < m)%nat -> 0 <= f i j) ->
  0 <= \sum_(i < n) \sum_(j < m) f i j.
Proof. intros H. apply rsum_nonneg; intros i Hi. apply rsum_nonneg; intros j Hj. apply H; assumption. Qed.

Lemma sum2_le n m (f g : nat -> nat -> R) :
  (forall i j, (i < n)%nat -> (j < m)%nat -> f i j <= g i j) ->
  \sum_(i < n) \sum_(j < m) f i j <= \sum_(i < n) \sum_(j < m) g i j.
Proof. intros H. apply rsum_le; intros i Hi. apply rsum_le; intros j Hj. apply H; assumption. Qed.
