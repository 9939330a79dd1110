(** Consequences of an orthogonal eigendecomposition. *)
From Coq Require Import Reals Lra Lia List Arith Bool.
From Verif.Base Require Import RSum Prelude LinAlg.
From Verif.Spec Require Import Matrix.
Open Scope R_scope.

(** Coefficients of x on the columns of U: U^T x. *)
Definition coef (n : nat) (U : mat) (x : vec) : vec := fun k => \sum_(i < n) (U i k * x i).

Section Eigh.
  Variables (n : nat) (A : mat) (e : vec) (U : mat).
  Hypothesis H : eigh_ok n A e U.

  Lemma eigh_expand x i : (i < n)%nat -> \sum_(k < n) (U i k * coef n U x k) = x i.
  Proof.
    intros Hi. unfold coef.
    rewrite (rsum_ext n _ (fun k => \sum_(j < n) (U i k * U j k * x j))).
    2:{ intros k Hk. rewrite <- rsum_scal_l. apply rsum_ext; intros; ring. }
    rewrite rsum_swap.
    rewrite (rsum_ext n _ (fun j => if Nat.eqb j i then x j else 0)).
    2:{ intros j Hj. rewrite rsum_scal_r. pose proof (eigh_rows _ _ _ _ H i j Hi Hj) as E. unfold tr in E.
        rewrite E, (Nat.eqb_sym i j). destruct (Nat.eqb j i); ring. }
    apply rsum_delta. exact Hi.
  Qed.

  Lemma coef_synth c k : (k < n)%nat -> coef n U (fun i => \sum_(l < n) (U i l * c l)) k = c k.
  Proof.
    intros Hk. unfold coef.
    rewrite (rsum_ext n _ (fun i => \sum_(l < n) (U i k * U i l * c l))).
    2:{ intros i Hi. rewrite <- rsum_scal_l. apply rsum_ext; intros; ring. }
    rewrite rsum_swap.
    rewrite (rsum_ext n _ (fun l => if Nat.eqb l k then c l else 0)).
    2:{ intros l Hl. rewrite rsum_scal_r, (eigh_cols _ _ _ _ H k l Hk Hl), (Nat.eqb_sym k l). destruct (Nat.eqb l k); ring. }
    apply rsum_delta. exact Hk.
  Qed.

  (** Parseval. *)
  Lemma coef_dot x y : dot n (coef n U x) (coef n U y) = dot n x y.
  Proof.
    unfold dot at 1. unfold coef at 2.
    rewrite (rsum_ext n _ (fun k => \sum_(i < n) (U i k * coef n U x k * y i))).
    2:{ intros k Hk. rewrite <- rsum_scal_l. apply rsum_ext; intros; ring. }
    rewrite rsum_swap. unfold dot. apply rsum_ext. intros i Hi. rewrite rsum_scal_r.
    rewrite (eigh_expand x i Hi). reflexivity.
  Qed.

  Lemma coef_normsq x : normsq n (coef n U x) = normsq n x.
  Proof. apply coef_dot. Qed.

  (** A = U diag(e) U^T. *)
  Lemma eigh_entry i j : (i < n)%nat -> (j < n)%nat -> A i j = \sum_(k < n) (e k * U i k * U j k).
  Proof.
    intros Hi Hj.
    rewrite (rsum_ext n _ (fun k => \sum_(l < n) (A i l * (U l k * U j k)))).
    2:{ intros k Hk. rewrite <- (eigh_eig _ _ _ _ H i k Hi Hk). unfold mulv. rewrite <- rsum_scal_r.
        apply rsum_ext; intros; ring. }
    rewrite rsum_swap.
    rewrite (rsum_ext n _ (fun l => if Nat.eqb l j then A i l else 0)).
    2:{ intros l Hl. rewrite rsum_scal_l. pose proof (eigh_rows _ _ _ _ H l j Hl Hj) as E. unfold tr in E.
        rewrite E. destruct (Nat.eqb l j); ring. }
    symmetry. apply rsum_delta. exact Hj.
  Qed.

  Lemma eigh_sym : symmetric n A.
  Proof. intros i j Hi Hj. unfold tr. rewrite !eigh_entry by assumption. apply rsum_ext; intros; ring. Qed.

  Lemma eigh_mulv x i : (i < n)%nat -> mulv n A x i = \sum_(k < n) (U i k * (e k * coef n U x k)).
  Proof.
    intros Hi. unfold mulv.
    rewrite (rsum_ext n _ (fun j => \sum_(k < n) (e k * U i k * U j k * x j))).
    2:{ intros j Hj. rewrite (eigh_entry i j Hi Hj), <- rsum_scal_r. reflexivity. }
    rewrite rsum_swap. apply rsum_ext. intros k Hk. unfold coef.
    rewrite <- !rsum_scal_l. apply rsum_ext; intros; ring.
  Qed.

  (** Diagonalisation: (A x)^ = e * x^. *)
  Lemma coef_mulv x k : (k < n)%nat -> coef n U (mulv n A x) k = e k * coef n U x k.
  Proof.
    intros Hk. unfold coef at 1.
    rewrite (rsum_ext n _ (fun i => U i k * \sum_(l < n) (U i l * (e l * coef n U x l)))).
    2:{ intros i Hi. rewrite (eigh_mulv x i Hi). reflexivity. }
    apply (coef_synth (fun l => e l * coef n U x l) k Hk).
  Qed.

  Lemma eigh_quad x : quad n A x = \sum_(k < n) (e k * (coef n U x k * coef n U x k)).
  Proof.
    unfold quad. rewrite <- (coef_dot x (mulv n A x)). unfold dot. apply rsum_ext. intros k Hk.
    rewrite (coef_mulv x k Hk). ring.
  Qed.

  Lemma eigh_quad_ge x c : (forall k, (k < n)%nat -> c <= e k) -> c * normsq n x <= quad n A x.
  Proof.
    intros Hc. rewrite eigh_quad, <- (coef_normsq x). unfold normsq, dot. rewrite <- rsum_scal_l.
    apply rsum_le. intros k Hk. specialize (Hc k Hk). pose proof (Rle_0_sqr (coef n U x k)) as Hs. unfold Rsqr in Hs. nra.
  Qed.
  Lemma eigh_quad_le x c : (forall k, (k < n)%nat -> e k <= c) -> quad n A x <= c * normsq n x.
  Proof.
    intros Hc. rewrite eigh_quad, <- (coef_normsq x). unfold normsq, dot. rewrite <- rsum_scal_l.
    apply rsum_le. intros k Hk. specialize (Hc k Hk). pose proof (Rle_0_sqr (coef n U x k)) as Hs. unfold Rsqr in Hs. nra.
  Qed.

  Lemma eigh_eigenpair k : (k < n)%nat -> eigenpair n A (e k) (fun i => U i k).
  Proof.
    intros Hk. split.
    - intros Hz. pose proof (eigh_cols _ _ _ _ H k k Hk Hk) as E. rewrite Nat.eqb_refl in E.
      rewrite (rsum_0 n) in E; [lra|]. intros i Hi. rewrite (Hz i Hi). ring.
    - intros i Hi. apply (eigh_eig _ _ _ _ H i k Hi Hk).
  Qed.

  (** Every eigenvalue of A is one of the e's. *)
  Lemma eigh_complete lam x : eigenpair n A lam x -> exists k, (k < n)%nat /\ e k = lam.
  Proof.
    intros (Hnz & He).
    destruct (vzero_dec n (coef n U x)) as [Hz|(k & Hk & Hc)].
    - exfalso. apply Hnz. intros i Hi. rewrite <- (eigh_expand x i Hi). apply rsum_0. intros k Hk. rewrite (Hz k Hk). ring.
    - exists k. split; [exact Hk|].
      pose proof (coef_mulv x k Hk) as E.
      assert (E2 : coef n U (mulv n A x) k = lam * coef n U x k).
      { unfold coef. rewrite <- rsum_scal_l. apply rsum_ext. intros i Hi. rewrite (He i Hi). ring. }
      rewrite E2 in E. assert ((e k - lam) * coef n U x k = 0) by lra.
      destruct (Rmult_integral _ _ H0); [lra|contradiction].
  Qed.

  Lemma eigh_first_le x lam : (0 < n)%nat -> eigenpair n A lam x -> e 0%nat <= lam.
  Proof.
    intros Hn Hp. destruct (eigh_complete lam x Hp) as (k & Hk & <-). apply (eigh_sort _ _ _ _ H); lia.
  Qed.
End Eigh.
