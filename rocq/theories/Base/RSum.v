(** Finite sums over [0..n-1] of real numbers, and maxima over such ranges.
    General mathematics: models no code. *)
From Coq Require Import Reals Lra Lia List Arith Permutation.
Import ListNotations.
Open Scope R_scope.

Fixpoint rsum (n : nat) (f : nat -> R) : R :=
  match n with
  | O => 0
  | S k => rsum k f + f k
  end.

Notation "\sum_( i < n ) e" := (rsum n (fun i => e))
  (at level 41, right associativity, i name, n at level 50,
   format "\sum_( i  <  n )  e").

Lemma rsum_ext n f g : (forall i, (i < n)%nat -> f i = g i) -> rsum n f = rsum n g.
Proof.
  induction n as [|n IH]; intros H; cbn; [reflexivity|].
  rewrite IH, H; auto.
Qed.

Lemma rsum_plus n f g : \sum_(i < n) (f i + g i) = rsum n f + rsum n g.
Proof. induction n as [|n IH]; cbn; [lra|rewrite IH; lra]. Qed.

Lemma rsum_minus n f g : \sum_(i < n) (f i - g i) = rsum n f - rsum n g.
Proof. induction n as [|n IH]; cbn; [lra|rewrite IH; lra]. Qed.

Lemma rsum_opp n f : \sum_(i < n) (- f i) = - rsum n f.
Proof. induction n as [|n IH]; cbn; [lra|rewrite IH; lra]. Qed.

Lemma rsum_scal_l n c f : \sum_(i < n) (c * f i) = c * rsum n f.
Proof. induction n as [|n IH]; cbn; [lra|rewrite IH; lra]. Qed.

Lemma rsum_scal_r n c f : \sum_(i < n) (f i * c) = rsum n f * c.
Proof. induction n as [|n IH]; cbn; [lra|rewrite IH; lra]. Qed.

Lemma rsum_div_r n c f : \sum_(i < n) (f i / c) = rsum n f / c.
Proof. unfold Rdiv. apply rsum_scal_r. Qed.

Lemma rsum_const n c : \sum_(i < n) c = INR n * c.
Proof. induction n as [|n IH]; [cbn; lra|]. rewrite S_INR; cbn [rsum]; rewrite IH; lra. Qed.

Lemma rsum_0 n f : (forall i, (i < n)%nat -> f i = 0) -> rsum n f = 0.
Proof.
  intros H. rewrite (rsum_ext n f (fun _ => 0)) by exact H.
  rewrite rsum_const. lra.
Qed.

Lemma rsum_swap n m (f : nat -> nat -> R) :
  \sum_(i < n) \sum_(j < m) f i j = \sum_(j < m) \sum_(i < n) f i j.
Proof.
  induction n as [|n IH]; cbn.
  - symmetry. apply rsum_0. reflexivity.
  - rewrite IH. rewrite <- rsum_plus. reflexivity.
Qed.

Lemma rsum_le n f g : (forall i, (i < n)%nat -> f i <= g i) -> rsum n f <= rsum n g.
Proof.
  induction n as [|n IH]; intros H; cbn; [lra|].
  specialize (IH ltac:(intros; apply H; lia)). specialize (H n ltac:(lia)). lra.
Qed.

Lemma rsum_nonneg n f : (forall i, (i < n)%nat -> 0 <= f i) -> 0 <= rsum n f.
Proof.
  intros H. replace 0 with (rsum n (fun _ => 0)) by (apply rsum_0; reflexivity).
  apply rsum_le. exact H.
Qed.

Lemma rsum_ge_term n f k :
  (forall i, (i < n)%nat -> 0 <= f i) -> (k < n)%nat -> f k <= rsum n f.
Proof.
  induction n as [|n IH]; intros H Hk; [lia|]. cbn.
  destruct (Nat.eq_dec k n) as [->|Hne].
  - assert (0 <= rsum n f) by (apply rsum_nonneg; intros; apply H; lia). lra.
  - assert (f k <= rsum n f) by (apply IH; [intros; apply H; lia|lia]).
    specialize (H n ltac:(lia)). lra.
Qed.

Lemma rsum_zero_all n f :
  (forall i, (i < n)%nat -> 0 <= f i) -> rsum n f = 0 ->
  forall i, (i < n)%nat -> f i = 0.
Proof.
  intros H H0 i Hi. pose proof (rsum_ge_term n f i H Hi). pose proof (H i Hi). lra.
Qed.

Lemma rsum_pos n f k :
  (forall i, (i < n)%nat -> 0 <= f i) -> (k < n)%nat -> 0 < f k -> 0 < rsum n f.
Proof. intros H Hk Hp. pose proof (rsum_ge_term n f k H Hk). lra. Qed.

Lemma rsum_lt n f g k :
  (forall i, (i < n)%nat -> f i <= g i) -> (k < n)%nat -> f k < g k -> rsum n f < rsum n g.
Proof.
  intros H Hk Hlt.
  assert (0 < \sum_(i < n) (g i - f i)).
  { apply rsum_pos with k; [intros i Hi; specialize (H i Hi); lra|exact Hk|lra]. }
  rewrite rsum_minus in H0. lra.
Qed.

Lemma rsum_delta n f k : (k < n)%nat ->
  \sum_(i < n) (if Nat.eqb i k then f i else 0) = f k.
Proof.
  induction n as [|n IH]; intros Hk; [lia|]. cbn.
  destruct (Nat.eq_dec k n) as [->|Hne].
  - rewrite Nat.eqb_refl. rewrite rsum_0; [lra|].
    intros i Hi. destruct (Nat.eqb_spec i n); [lia|reflexivity].
  - rewrite IH by lia. destruct (Nat.eqb_spec n k); [lia|lra].
Qed.

Lemma rsum_delta_l n f k : (k < n)%nat ->
  \sum_(i < n) (if Nat.eqb k i then f i else 0) = f k.
Proof.
  intros Hk. rewrite <- (rsum_delta n f k Hk). apply rsum_ext; intros i Hi.
  rewrite Nat.eqb_sym. reflexivity.
Qed.

Lemma rsum_single n f k : (k < n)%nat ->
  (forall i, (i < n)%nat -> i <> k -> f i = 0) -> rsum n f = f k.
Proof.
  intros Hk H. rewrite <- (rsum_delta n f k Hk). apply rsum_ext; intros i Hi.
  destruct (Nat.eqb_spec i k); [reflexivity|apply H; auto].
Qed.

Lemma rsum_two n f k l : (k < n)%nat -> (l < n)%nat -> k <> l ->
  (forall i, (i < n)%nat -> i <> k -> i <> l -> f i = 0) -> rsum n f = f k + f l.
Proof.
  intros Hk Hl Hkl H.
  rewrite (rsum_ext n f (fun i => (if Nat.eqb i k then f i else 0) + (if Nat.eqb i l then f i else 0))).
  - rewrite rsum_plus, !rsum_delta by assumption. reflexivity.
  - intros i Hi. destruct (Nat.eqb_spec i k), (Nat.eqb_spec i l); subst; try lia; try lra.
    rewrite H by auto. lra.
Qed.

Lemma rsum_split n m f : rsum (n + m) f = rsum n f + \sum_(i < m) f (n + i)%nat.
Proof.
  induction m as [|m IH].
  - rewrite Nat.add_0_r. cbn. lra.
  - rewrite Nat.add_succ_r. cbn. rewrite IH. lra.
Qed.

Lemma rsum_S_first n f : rsum (S n) f = f O + \sum_(i < n) f (S i).
Proof.
  replace (S n) with (1 + n)%nat by lia. rewrite rsum_split. cbn. lra.
Qed.

Lemma rsum_mul n m f g :
  rsum n f * rsum m g = \sum_(i < n) \sum_(j < m) (f i * g j).
Proof.
  rewrite <- rsum_scal_r. apply rsum_ext; intros i Hi. rewrite rsum_scal_l. reflexivity.
Qed.

Lemma rsum_abs n f : Rabs (rsum n f) <= \sum_(i < n) Rabs (f i).
Proof.
  induction n as [|n IH]; cbn; [rewrite Rabs_R0; lra|].
  eapply Rle_trans; [apply Rabs_triang|]. lra.
Qed.

Lemma rsum_rev n f : rsum n f = \sum_(i < n) f (n - 1 - i)%nat.
Proof.
  induction n as [|n IH]; [reflexivity|].
  rewrite (rsum_S_first n (fun i => f (S n - 1 - i)%nat)). cbn [rsum].
  rewrite IH. replace (S n - 1 - 0)%nat with n by lia.
  rewrite (rsum_ext n (fun i => f (S n - 1 - S i)%nat) (fun i => f (n - 1 - i)%nat)); [lra|].
  intros i Hi. f_equal. lia.
Qed.

(** Cauchy-Schwarz. *)
Lemma rsum_cauchy_schwarz n f g :
  (\sum_(i < n) (f i * g i)) * (\sum_(i < n) (f i * g i)) <=
  (\sum_(i < n) (f i * f i)) * (\sum_(i < n) (g i * g i)).
Proof.
  set (a := \sum_(i < n) (f i * f i)). set (b := \sum_(i < n) (f i * g i)).
  set (c := \sum_(i < n) (g i * g i)).
  assert (Ha : 0 <= a) by (apply rsum_nonneg; intros; nra).
  assert (Hc : 0 <= c) by (apply rsum_nonneg; intros; nra).
  assert (Hq : forall t, 0 <= a * t * t + 2 * b * t + c).
  { intros t.
    replace (a * t * t + 2 * b * t + c) with (\sum_(i < n) ((t * f i + g i) * (t * f i + g i))).
    - apply rsum_nonneg; intros; apply Rle_0_sqr.
    - rewrite (rsum_ext n _ (fun i => (t * t) * (f i * f i) + ((2 * t) * (f i * g i) + g i * g i))).
      + rewrite rsum_plus, rsum_plus, !rsum_scal_l. fold a b c. ring.
      + intros; ring. }
  destruct (Req_dec a 0) as [Ha0|Ha0].
  - assert (Hb : b = 0).
    { apply rsum_0. intros i Hi.
      assert (f i * f i = 0).
      { apply (rsum_zero_all n (fun i => f i * f i)); auto. intros; nra. }
      destruct (Rmult_integral _ _ H) as [H0|H0]; rewrite H0; ring. }
    rewrite Hb, Ha0. lra.
  - specialize (Hq (- b / a)).
    assert (Hap : 0 < a) by lra.
    assert (E : a * (- b / a) * (- b / a) + 2 * b * (- b / a) + c = c - b * b / a) by (field; lra).
    rewrite E in Hq.
    assert (b * b / a <= c) by lra.
    apply (Rmult_le_compat_r a) in H; [|lra].
    replace (b * b / a * a) with (b * b) in H by (field; lra). lra.
Qed.

(** Maxima over [0..n-1]. *)
Lemma argmax_exists n (f : nat -> R) : (0 < n)%nat ->
  exists k, (k < n)%nat /\ forall i, (i < n)%nat -> f i <= f k.
Proof.
  induction n as [|n IH]; intros Hn; [lia|].
  destruct (Nat.eq_dec n 0) as [->|Hn0].
  - exists 0%nat. split; [lia|]. intros i Hi. replace i with 0%nat by lia. lra.
  - destruct IH as (k & Hk & Hmax); [lia|].
    destruct (Rle_dec (f k) (f n)) as [Hle|Hle].
    + exists n. split; [lia|]. intros i Hi.
      destruct (Nat.eq_dec i n) as [->|Hin]; [lra|]. specialize (Hmax i ltac:(lia)). lra.
    + exists k. split; [lia|]. intros i Hi.
      destruct (Nat.eq_dec i n) as [->|Hin]; [lra|]. apply Hmax; lia.
Qed.

Lemma argmin_exists n (f : nat -> R) : (0 < n)%nat ->
  exists k, (k < n)%nat /\ forall i, (i < n)%nat -> f k <= f i.
Proof.
  intros Hn. destruct (argmax_exists n (fun i => - f i) Hn) as (k & Hk & H).
  exists k. split; [exact Hk|]. intros i Hi. specialize (H i Hi). cbn in H. lra.
Qed.

(** Sums of lists. *)
Definition lsum (l : list R) : R := fold_right Rplus 0 l.

Lemma lsum_app l1 l2 : lsum (l1 ++ l2) = lsum l1 + lsum l2.
Proof. unfold lsum. induction l1 as [|x l1 IH]; cbn; lra. Qed.

Lemma lsum_perm l1 l2 : Permutation l1 l2 -> lsum l1 = lsum l2.
Proof. induction 1; unfold lsum in *; cbn; lra. Qed.

Lemma lsum_map_seq n a (f : nat -> R) : lsum (map f (seq a n)) = \sum_(i < n) f (a + i)%nat.
Proof.
  revert a; induction n as [|n IH]; intros a; [reflexivity|].
  rewrite rsum_S_first. cbn [seq map lsum fold_right]. fold (lsum (map f (seq (S a) n))).
  rewrite IH. rewrite Nat.add_0_r. f_equal. apply rsum_ext; intros. f_equal. lia.
Qed.

Lemma lsum_map_seq0 n (f : nat -> R) : lsum (map f (seq 0 n)) = rsum n f.
Proof. rewrite lsum_map_seq. reflexivity. Qed.

Lemma lsum_map_plus {A} (l : list A) f g :
  lsum (map (fun x => f x + g x) l) = lsum (map f l) + lsum (map g l).
Proof. induction l as [|x l IH]; cbn; [lra|]. unfold lsum in *. rewrite IH. lra. Qed.

Lemma lsum_map_scal {A} (l : list A) c f :
  lsum (map (fun x => c * f x) l) = c * lsum (map f l).
Proof. induction l as [|x l IH]; cbn; [lra|]. unfold lsum in *. rewrite IH. lra. Qed.

Lemma lsum_map_ext {A} (l : list A) f g :
  (forall x, In x l -> f x = g x) -> lsum (map f l) = lsum (map g l).
Proof. intros H. f_equal. apply map_ext_in. exact H. Qed.

Lemma lsum_map_0 {A} (l : list A) (f : A -> R) :
  (forall x, In x l -> f x = 0) -> lsum (map f l) = 0.
Proof.
  induction l as [|x l IH]; intros H; [reflexivity|]. cbn.
  rewrite (H x (or_introl eq_refl)). unfold lsum in IH. rewrite IH; [lra|].
  intros y Hy; apply H; right; exact Hy.
Qed.

Lemma lsum_map_nonneg {A} (l : list A) (f : A -> R) :
  (forall x, In x l -> 0 <= f x) -> 0 <= lsum (map f l).
Proof.
  induction l as [|x l IH]; intros H; cbn; [lra|].
  specialize (IH ltac:(intros; apply H; right; assumption)).
  specialize (H x (or_introl eq_refl)). unfold lsum in IH. lra.
Qed.

Lemma lsum_rsum_swap {A} (l : list A) n (f : A -> nat -> R) :
  lsum (map (fun x => \sum_(i < n) f x i) l) = \sum_(i < n) lsum (map (fun x => f x i) l).
Proof.
  induction l as [|x l IH]; cbn.
  - symmetry; apply rsum_0; reflexivity.
  - unfold lsum in *. rewrite IH, <- rsum_plus. reflexivity.
Qed.

(** Sum over the entries of a list by position. *)
Lemma lsum_nth l : lsum l = \sum_(i < length l) nth i l 0.
Proof.
  induction l as [|x l IH]; [reflexivity|].
  cbn [length]. rewrite rsum_S_first. cbn [nth]. rewrite <- IH. reflexivity.
Qed.

Lemma rsum_nth_map {A} (l : list A) (d : A) (f : A -> R) :
  \sum_(k < length l) f (nth k l d) = lsum (map f l).
Proof.
  induction l as [|x l IH]; [reflexivity|].
  cbn [length]. rewrite rsum_S_first. cbn [nth map lsum fold_right].
  fold (lsum (map f l)). rewrite <- IH. reflexivity.
Qed.

(** Counting. *)
Fixpoint ncount (n : nat) (p : nat -> bool) : nat :=
  match n with
  | O => O
  | S k => (ncount k p + if p k then 1 else 0)%nat
  end.

Lemma ncount_ext n p q : (forall i, (i < n)%nat -> p i = q i) -> ncount n p = ncount n q.
Proof.
  induction n as [|n IH]; intros H; cbn; [reflexivity|].
  rewrite IH, H; auto.
Qed.

Lemma ncount_filter_seq n p : ncount n p = length (filter p (seq 0 n)).
Proof.
  induction n as [|n IH]; [reflexivity|].
  rewrite seq_S, filter_app, app_length, <- IH. cbn.
  destruct (p n); reflexivity.
Qed.

Lemma ncount_le n p : (ncount n p <= n)%nat.
Proof. induction n as [|n IH]; cbn; [lia|]. destruct (p n); lia. Qed.

Lemma ncount_INR n p : INR (ncount n p) = \sum_(i < n) (if p i then 1 else 0).
Proof.
  induction n as [|n IH]; [reflexivity|]. cbn [ncount rsum].
  rewrite plus_INR, IH. destruct (p n); reflexivity.
Qed.
