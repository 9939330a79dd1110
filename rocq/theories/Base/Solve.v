(** A square system with trivial kernel has a solution.  General mathematics, models no code. *)
From Coq Require Import Reals Lra Lia List Arith.
From Verif.Base Require Import RSum Prelude LinAlg.
From Verif.Spec Require Import Matrix.
Open Scope R_scope.

(** [skip p i]: the i-th index once p is removed *)
Definition skip (p i : nat) : nat := if Nat.ltb i p then i else S i.
Lemma skip_lt n p i : (i < n)%nat -> (skip p i < S n)%nat.
Proof. unfold skip. destruct (Nat.ltb_spec i p); lia. Qed.
Lemma skip_ne p i : skip p i <> p.
Proof. unfold skip. destruct (Nat.ltb_spec i p); lia. Qed.
Lemma skip_onto n p j : (j < S n)%nat -> (p < S n)%nat -> j <> p -> exists i, (i < n)%nat /\ skip p i = j.
Proof.
  intros Hj Hp Hne. destruct (lt_dec j p).
  - exists j. split; [lia|]. unfold skip. destruct (Nat.ltb_spec j p); lia.
  - exists (j - 1)%nat. split; [lia|]. unfold skip. destruct (Nat.ltb_spec (j - 1) p); lia.
Qed.

Definition trivial_kernel (n : nat) (A : mat) : Prop :=
  forall x, (forall i, (i < n)%nat -> mulv n A x i = 0) -> vzero n x.

Lemma mulv_S n A x i : mulv (S n) A x i = mulv n A x i + A i n * x n.
Proof. reflexivity. Qed.

Lemma solve_exists n : forall A b, trivial_kernel n A -> exists x, forall i, (i < n)%nat -> mulv n A x i = b i.
Proof.
  induction n as [|n IH]; intros A b HK; [exists (fun _ => 0); intros i Hi; lia|].
  destruct (vzero_dec (S n) (fun i => A i n)) as [Hz|(p & Hp & Hpn)].
  { exfalso. assert (Z : vzero (S n) (fun j => if Nat.eqb j n then 1 else 0)).
    { apply HK. intros i Hi. rewrite mulv_S. rewrite (Hz i Hi). unfold mulv. rewrite rsum_0; [ring|].
      intros j Hj. destruct (Nat.eqb_spec j n); [lia|ring]. }
    specialize (Z n ltac:(lia)). cbn beta in Z. rewrite Nat.eqb_refl in Z. lra. }
  set (A' := fun i j => A (skip p i) j - A (skip p i) n * A p j / A p n).
  set (b' := fun i => b (skip p i) - A (skip p i) n * b p / A p n).
  assert (EA : forall x i, mulv n A' x i = mulv n A x (skip p i) - A (skip p i) n / A p n * mulv n A x p).
  { intros x i. unfold mulv, A'. rewrite <- rsum_scal_l, <- rsum_minus. apply rsum_ext. intros j Hj. field. exact Hpn. }
  assert (K' : trivial_kernel n A').
  { intros x Hx. set (y := fun j => if Nat.eqb j n then - mulv n A x p / A p n else x j).
    assert (Ey : forall i, mulv n A y i = mulv n A x i).
    { intros i. unfold mulv. apply rsum_ext. intros j Hj. unfold y. destruct (Nat.eqb_spec j n); [lia|reflexivity]. }
    assert (Hy : vzero (S n) y).
    { apply HK. intros i Hi. rewrite mulv_S, Ey. unfold y at 1. rewrite Nat.eqb_refl.
      destruct (Nat.eq_dec i p) as [->|Hne]; [field; exact Hpn|].
      destruct (skip_onto n p i Hi Hp Hne) as (k & Hk & <-). specialize (Hx k Hk). rewrite EA in Hx.
      replace (A (skip p k) n * (- mulv n A x p / A p n)) with (- (A (skip p k) n / A p n * mulv n A x p)) by (field; exact Hpn). lra. }
    intros i Hi. specialize (Hy i ltac:(lia)). unfold y in Hy. destruct (Nat.eqb_spec i n); [lia|exact Hy]. }
  destruct (IH A' b' K') as (x & Hx).
  exists (fun j => if Nat.eqb j n then (b p - mulv n A x p) / A p n else x j).
  intros i Hi. rewrite mulv_S. rewrite Nat.eqb_refl.
  assert (Ey : mulv n A (fun j => if Nat.eqb j n then (b p - mulv n A x p) / A p n else x j) i = mulv n A x i).
  { unfold mulv. apply rsum_ext. intros j Hj. destruct (Nat.eqb_spec j n); [lia|reflexivity]. }
  rewrite Ey. destruct (Nat.eq_dec i p) as [->|Hne]; [field; exact Hpn|].
  destruct (skip_onto n p i Hi Hp Hne) as (k & Hk & <-). specialize (Hx k Hk). rewrite EA in Hx. unfold b' in Hx.
  replace (A (skip p k) n * ((b p - mulv n A x p) / A p n))
    with (A (skip p k) n * b p / A p n - A (skip p k) n / A p n * mulv n A x p) by (field; exact Hpn). lra.
Qed.

Lemma solve_unique n A x y : trivial_kernel n A -> (forall i, (i < n)%nat -> mulv n A x i = mulv n A y i) -> veq n x y.
Proof.
  intros HK H i Hi. assert (Z : vzero n (fun j => x j - y j)).
  { apply HK. intros k Hk. rewrite mulv_minus, H by exact Hk. ring. }
  specialize (Z i Hi). cbn beta in Z. lra.
Qed.

(** A choice of solution for each right-hand side of a finite family. *)
Lemma fin_choice {B} (m : nat) (P : nat -> B -> Prop) : B -> (forall j, (j < m)%nat -> exists x, P j x) ->
  exists X, forall j, (j < m)%nat -> P j (X j).
Proof.
  intros b0. induction m as [|m IH]; intros H; [exists (fun _ => b0); intros j Hj; lia|].
  destruct IH as (X & HX); [intros j Hj; apply H; lia|]. destruct (H m ltac:(lia)) as (x & Hx).
  exists (fun j => if Nat.eqb j m then x else X j). intros j Hj. destruct (Nat.eqb_spec j m) as [->|]; [exact Hx|apply HX; lia].
Qed.
Lemma solve_matrix n m A B : trivial_kernel n A -> exists X, meq n m (mulm n A X) B.
Proof.
  intros HK. destruct (fin_choice m (fun j x => forall i, (i < n)%nat -> mulv n A x i = B i j) (fun _ => 0)) as (X & HX).
  - intros j Hj. apply solve_exists. exact HK.
  - exists (fun k j => X j k). intros i j Hi Hj. apply (HX j Hj i Hi).
Qed.
