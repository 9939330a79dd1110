(** C103: cuts of a graph against its spectrum (both halves of Cheeger's inequality, with the sweep over a Fourier mode),
    and distances against the number of distinct eigenvalues. *)
From Coq Require Import Reals Lra Lia List Arith Bool String ZArith Classical.
From Verif.Base Require Import RSum Prelude LinAlg Spectral.
From Verif.Spec Require Import Matrix NdArray GraphSpec FilterSpec CacheSpec Reach HopSpec CutSpec.
From Verif.Model Require Import Sparse Graph Bounds Cache Filter Kernels Generators.
From Verif.Proofs Require Import SparseFacts InitFacts EdgeFacts LapFacts SpectralFacts FilterFacts GenFacts.
From Verif.Props Require Import Core Laplacian Traversal Caching Filtering Banks UtilsProps GenProps GridProps SpectrumProps TransformProps SpectraProps LocalityProps SmoothProps.
Import ListNotations.
Open Scope R_scope.
Open Scope list_scope.

(** ** Level sets *)
Lemma argmin_on n (P : nat -> Prop) (f : nat -> R) : (exists k, (k < n)%nat /\ P k) ->
  exists k, (k < n)%nat /\ P k /\ forall i, (i < n)%nat -> P i -> f k <= f i.
Proof.
  induction n as [|n IH]; intros (k & Hk & Pk); [lia|].
  destruct (classic (exists k, (k < n)%nat /\ P k)) as [H|H].
  - destruct (IH H) as (a & Ha & Pa & Hm). destruct (classic (P n /\ f n < f a)) as [(Pn & L)|N].
    + exists n. split; [lia|]. split; [exact Pn|]. intros i Hi Pi. destruct (Nat.eq_dec i n) as [->|Hne]; [lra|].
      specialize (Hm i ltac:(lia) Pi). lra.
    + exists a. split; [lia|]. split; [exact Pa|]. intros i Hi Pi. destruct (Nat.eq_dec i n) as [->|Hne]; [|apply Hm; [lia|exact Pi]].
      destruct (Rlt_dec (f n) (f a)) as [L|L]; [exfalso; apply N; split; assumption|lra].
  - assert (k = n) as -> by (destruct (Nat.eq_dec k n) as [E|E]; [exact E|exfalso; apply H; exists k; split; [lia|exact Pk]]).
    exists n. split; [lia|]. split; [exact Pk|]. intros i Hi Pi. destruct (Nat.eq_dec i n) as [->|Hne]; [lra|]. exfalso. apply H. exists i. split; [lia|exact Pi].
Qed.

Section Sweep.
  Variables (n : nat) (w : nat -> nat -> R) (mu : nat -> R).
  Hypothesis Hw : forall i j, (i < n)%nat -> (j < n)%nat -> 0 <= w i j.
  Hypothesis Hmu : forall i, (i < n)%nat -> 0 < mu i.

  Lemma cut_ext (S T : nat -> bool) : (forall i, (i < n)%nat -> S i = T i) -> cut n w S = cut n w T.
  Proof using Type. intros H. unfold cut. f_equal. apply sum2_ext. intros i j Hi Hj. rewrite !H by assumption. reflexivity. Qed.
  Lemma mass_ext (S T : nat -> bool) : (forall i, (i < n)%nat -> S i = T i) -> mass n mu S = mass n mu T.
  Proof using Type. intros H. unfold mass. apply rsum_ext. intros i Hi. rewrite H by assumption. reflexivity. Qed.
  Lemma mass_mono (S T : nat -> bool) : (forall i, (i < n)%nat -> S i = true -> T i = true) -> mass n mu S <= mass n mu T.
  Proof using Hmu.
    intros H. unfold mass. apply rsum_le. intros i Hi. specialize (Hmu i Hi). specialize (H i Hi).
    destruct (S i); [rewrite H by reflexivity; lra|]. destruct (T i); lra.
  Qed.
  Lemma cut_nonneg S : 0 <= cut n w S.
  Proof using Hw. unfold cut. apply Rmult_le_pos; [lra|]. apply sum2_nonneg. intros i j Hi Hj. destruct (Bool.eqb _ _); [lra|]. apply Hw; assumption. Qed.

  (** Total variation. *)
  Definition tv (z : vec) : R := / 2 * \sum_(i < n) \sum_(j < n) (w i j * Rabs (z i - z j)).

  (** If every level set of z is cut by more than h times its measure, so is z. *)
  Lemma coarea h : forall k z, (ncount n (fun i => Rltb 0 (z i)) <= k)%nat -> (forall i, (i < n)%nat -> 0 <= z i) ->
    (forall t, 0 <= t -> (exists i, (i < n)%nat /\ t < z i) -> h * mass n mu (fun i => Rltb t (z i)) < cut n w (fun i => Rltb t (z i))) ->
    h * (\sum_(i < n) (mu i * z i)) <= tv z /\ ((exists i, (i < n)%nat /\ 0 < z i) -> h * (\sum_(i < n) (mu i * z i)) < tv z).
  Proof using Hw.
    assert (Z0 : forall z, (forall i, (i < n)%nat -> 0 <= z i) -> ~ (exists i, (i < n)%nat /\ 0 < z i) -> h * (\sum_(i < n) (mu i * z i)) <= tv z).
    { intros z Hz N. assert (E : forall i, (i < n)%nat -> z i = 0).
      { intros i Hi. specialize (Hz i Hi). destruct (Rlt_dec 0 (z i)) as [L|L]; [exfalso; apply N; exists i; split; assumption|lra]. }
      rewrite (rsum_0 n (fun i => mu i * z i)) by (intros i Hi; rewrite E by exact Hi; ring). rewrite Rmult_0_r.
      unfold tv. apply Rmult_le_pos; [lra|]. apply sum2_nonneg. intros i j Hi Hj. apply Rmult_le_pos; [apply Hw; assumption|apply Rabs_pos]. }
    induction k as [|k IH]; intros z Hk Hz Hcut.
    - assert (N : ~ exists i, (i < n)%nat /\ 0 < z i).
      { intros (i & Hi & Pi). assert (C : INR (ncount n (fun i => Rltb 0 (z i))) = 0) by (replace (ncount n (fun i => Rltb 0 (z i))) with 0%nat by lia; reflexivity).
        rewrite ncount_INR in C. pose proof (rsum_pos n (fun i => if Rltb 0 (z i) then 1 else 0) i) as Q.
        cbv beta in Q. rewrite (proj2 (Rltb_true _ _) Pi) in Q. assert (0 < \sum_(i < n) (if Rltb 0 (z i) then 1 else 0)); [|lra].
        apply Q; [intros j Hj; destruct (Rltb 0 (z j)); lra|exact Hi|lra]. }
      split; [apply Z0; assumption|intros P; contradiction].
    - destruct (classic (exists i, (i < n)%nat /\ 0 < z i)) as [P|N]; [|split; [apply Z0; assumption|intros P; contradiction]].
      destruct (argmin_on n (fun i => 0 < z i) z P) as (a & Ha & Pa & Hmin). set (m := z a) in *.
      set (z' := fun i => if Rltb 0 (z i) then z i - m else 0). set (S := fun i => Rltb 0 (z i)).
      assert (Hz' : forall i, (i < n)%nat -> 0 <= z' i).
      { intros i Hi. unfold z'. destruct (Rltb 0 (z i)) eqn:E; [|lra]. apply Rltb_true in E. specialize (Hmin i Hi E). lra. }
      destruct (IH z') as (I1 & _).
      + assert (D : (ncount n (fun i => Rltb 0 (z' i)) < ncount n (fun i => Rltb 0 (z i)))%nat); [|lia].
        apply INR_lt. rewrite !ncount_INR. apply (rsum_lt n _ _ a).
        * intros i Hi. cbv beta. unfold z'. destruct (Rltb 0 (z i)) eqn:E; [destruct (Rltb 0 (z i - m)); lra|]. rewrite (proj2 (Rltb_false 0 0)) by lra. lra.
        * exact Ha.
        * cbv beta. unfold z'. rewrite (proj2 (Rltb_true 0 (z a)) Pa). fold m. rewrite (proj2 (Rltb_false 0 (m - m))) by lra. lra.
      + exact Hz'.
      + intros t Ht (i & Hi & Pi).
        assert (E : forall i, (i < n)%nat -> Rltb t (z' i) = Rltb (t + m) (z i)).
        { intros j Hj. unfold z'. destruct (Rltb 0 (z j)) eqn:Ej.
          - destruct (Rltb (t + m) (z j)) eqn:F; [apply Rltb_true in F; apply Rltb_true; lra|apply Rltb_false in F; apply Rltb_false; lra].
          - apply Rltb_false in Ej. rewrite (proj2 (Rltb_false t 0)) by lra. symmetry. apply Rltb_false. lra. }
        rewrite (mass_ext _ _ E), (cut_ext _ _ E). apply Hcut; [lra|]. exists i. split; [exact Hi|]. apply (proj2 (Rltb_true _ _)) in Pi. rewrite E in Pi by exact Hi. apply Rltb_true in Pi. exact Pi.
      + assert (C : h * mass n mu S < cut n w S) by (apply (Hcut 0); [lra|exact P]).
        assert (E1 : \sum_(i < n) (mu i * z i) = \sum_(i < n) (mu i * z' i) + m * mass n mu S).
        { unfold mass. rewrite <- rsum_scal_l, <- rsum_plus. apply rsum_ext. intros i Hi. unfold z', S. destruct (Rltb 0 (z i)) eqn:E; [ring|].
          apply Rltb_false in E. specialize (Hz i Hi). replace (z i) with 0 by lra. ring. }
        assert (E2 : tv z = tv z' + m * cut n w S).
        { unfold tv, cut. transitivity (/ 2 * \sum_(i < n) \sum_(j < n) (w i j * Rabs (z' i - z' j) + m * (if Bool.eqb (S i) (S j) then 0 else w i j))); [|rewrite sum2_plus, sum2_scal; ring].
          f_equal. apply sum2_ext. intros i j Hi Hj. unfold z', S. pose proof (Hz i Hi) as Pi. pose proof (Hz j Hj) as Pj.
          destruct (Rltb 0 (z i)) eqn:Ei; destruct (Rltb 0 (z j)) eqn:Ej; cbn [Bool.eqb];
            try apply Rltb_true in Ei; try apply Rltb_false in Ei; try apply Rltb_true in Ej; try apply Rltb_false in Ej.
          - replace (z i - m - (z j - m)) with (z i - z j) by ring. ring.
          - specialize (Hmin i Hi Ei). replace (z j) with 0 by lra. rewrite !Rabs_pos_eq by lra. ring.
          - specialize (Hmin j Hj Ej). replace (z i) with 0 by lra. rewrite (Rabs_left1 (0 - z j)), (Rabs_left1 (0 - (z j - m))) by lra. ring.
          - replace (z i) with 0 by lra. replace (z j) with 0 by lra. ring. }
        assert (h * (\sum_(i < n) (mu i * z i)) < tv z); [|split; [lra|intros _; assumption]].
        rewrite E1, E2. assert (0 < m) by exact Pa. assert (m * (h * mass n mu S) < m * cut n w S) by (apply Rmult_lt_compat_l; assumption). lra.
  Qed.

  Lemma best_level h z : (forall i, (i < n)%nat -> 0 <= z i) -> (exists i, (i < n)%nat /\ 0 < z i) -> tv z <= h * (\sum_(i < n) (mu i * z i)) ->
    exists t, 0 <= t /\ (exists i, (i < n)%nat /\ t < z i) /\ cut n w (fun i => Rltb t (z i)) <= h * mass n mu (fun i => Rltb t (z i)).
  Proof using Hw.
    intros Hz P Htv. apply NNPP. intros N. destruct (coarea h (ncount n (fun i => Rltb 0 (z i))) z (le_n _) Hz) as (_ & C).
    - intros t Ht Pt. destruct (Rlt_dec (h * mass n mu (fun i => Rltb t (z i))) (cut n w (fun i => Rltb t (z i)))) as [L|L]; [exact L|].
      exfalso. apply N. exists t. split; [exact Ht|]. split; [exact Pt|]. lra.
    - specialize (C P). lra.
  Qed.

  (** A median of x for the measure mu. *)
  Lemma median x : (0 < n)%nat -> exists c, 2 * mass n mu (fun i => Rltb c (x i)) <= rsum n mu /\ 2 * mass n mu (fun i => Rltb (x i) c) <= rsum n mu.
  Proof using Hmu.
    intros Hn. assert (M0 : 0 <= rsum n mu) by (apply rsum_nonneg; intros i Hi; specialize (Hmu i Hi); lra).
    destruct (argmin_on n (fun k => 2 * mass n mu (fun i => Rltb (x k) (x i)) <= rsum n mu) x) as (k & Hk & Pk & Hmin).
    { destruct (argmax_exists n x Hn) as (k & Hk & Hm). exists k. split; [exact Hk|]. unfold mass. rewrite (rsum_0 n _); [lra|].
      intros i Hi. rewrite (proj2 (Rltb_false _ _)); [reflexivity|]. specialize (Hm i Hi). lra. }
    exists (x k). split; [exact Pk|]. destruct (Rle_dec (2 * mass n mu (fun i => Rltb (x i) (x k))) (rsum n mu)) as [L|L]; [exact L|exfalso].
    destruct (classic (exists i, (i < n)%nat /\ x i < x k)) as [P|N].
    - destruct (argmin_on n (fun i => x i < x k) (fun i => - x i) P) as (u & Hu & Pu & Hmax).
      assert (Q : rsum n mu < 2 * mass n mu (fun i => Rltb (x u) (x i))).
      { destruct (Rle_dec (2 * mass n mu (fun i => Rltb (x u) (x i))) (rsum n mu)) as [A|A]; [specialize (Hmin u Hu A); lra|lra]. }
      assert (D : mass n mu (fun i => Rltb (x u) (x i)) + mass n mu (fun i => Rltb (x i) (x k)) <= rsum n mu); [|lra].
      unfold mass. rewrite <- rsum_plus. apply rsum_le. intros i Hi. specialize (Hmu i Hi).
      destruct (Rltb (x u) (x i)) eqn:E1; destruct (Rltb (x i) (x k)) eqn:E2; try lra. apply Rltb_true in E1, E2. specialize (Hmax i Hi E2). lra.
    - apply L. unfold mass. rewrite (rsum_0 n _); [lra|]. intros i Hi. rewrite (proj2 (Rltb_false _ _)); [reflexivity|].
      destruct (Rlt_dec (x i) (x k)) as [A|A]; [exfalso; apply N; exists i; split; assumption|lra].
  Qed.

  Definition energy (z : vec) : R := / 2 * \sum_(i < n) \sum_(j < n) (w i j * (z j - z i) ^ 2).
  Definition msq (z : vec) : R := \sum_(i < n) (mu i * (z i * z i)).
  Variable D : R.
  Hypothesis HD : forall i, (i < n)%nat -> (\sum_(j < n) w j i + \sum_(j < n) w i j) / 2 <= D * mu i.

  Lemma energy_nonneg z : 0 <= energy z.
  Proof using Hw. unfold energy. apply Rmult_le_pos; [lra|]. apply sum2_nonneg. intros i j Hi Hj. apply Rmult_le_pos; [apply Hw; assumption|apply pow2_ge_0]. Qed.
  Lemma msq_nonneg z : 0 <= msq z.
  Proof using Hmu. unfold msq. apply rsum_nonneg. intros i Hi. specialize (Hmu i Hi). pose proof (Rle_0_sqr (z i)) as S. unfold Rsqr in S. apply Rmult_le_pos; lra. Qed.
  Lemma msq_pos z i : (i < n)%nat -> z i <> 0 -> 0 < msq z.
  Proof using Hmu.
    intros Hi Nz. unfold msq. apply (rsum_pos n _ i); [|exact Hi|].
    - intros j Hj. specialize (Hmu j Hj). pose proof (Rle_0_sqr (z j)) as S. unfold Rsqr in S. apply Rmult_le_pos; lra.
    - apply Rmult_lt_0_compat; [apply Hmu; exact Hi|]. apply Rsqr_pos_lt. exact Nz.
  Qed.
  Lemma msq_witness z : 0 < msq z -> exists i, (i < n)%nat /\ z i <> 0.
  Proof using Type.
    intros P. apply NNPP. intros N. assert (msq z = 0); [|lra]. unfold msq. apply rsum_0. intros i Hi.
    destruct (Req_dec (z i) 0) as [E|E]; [rewrite E; ring|exfalso; apply N; exists i; split; assumption].
  Qed.
  Lemma degree_sum (a : vec) : \sum_(i < n) \sum_(j < n) (w i j * (a i + a j)) = \sum_(i < n) (a i * (\sum_(j < n) w j i + \sum_(j < n) w i j)).
  Proof using Type.
    rewrite (sum2_ext n n _ (fun i j => w i j * a i + w i j * a j)) by (intros; ring). rewrite sum2_plus.
    rewrite (rsum_swap n n (fun i j => w i j * a j)). rewrite <- rsum_plus. apply rsum_ext. intros i Hi.
    rewrite (rsum_scal_r n (a i) (fun j => w i j)), (rsum_scal_r n (a i) (fun j => w j i)). ring.
  Qed.
  Lemma degree_bound (z : vec) : \sum_(i < n) \sum_(j < n) (w i j * (z i * z i + z j * z j)) <= 2 * D * msq z.
  Proof using HD.
    rewrite (degree_sum (fun i => z i * z i)). unfold msq. rewrite <- rsum_scal_l. apply rsum_le. intros i Hi. specialize (HD i Hi).
    pose proof (Rle_0_sqr (z i)) as S. unfold Rsqr in S. replace (2 * D * (mu i * (z i * z i))) with (z i * z i * (2 * (D * mu i))) by ring. apply Rmult_le_compat_l; lra.
  Qed.
  Lemma energy_degree z : energy z <= 2 * D * msq z.
  Proof using HD Hw.
    eapply Rle_trans; [|apply degree_bound]. unfold energy. rewrite <- sum2_scal. apply sum2_le. intros i j Hi Hj. specialize (Hw i j Hi Hj).
    replace (/ 2 * (w i j * (z j - z i) ^ 2)) with (w i j * (/ 2 * (z j - z i) ^ 2)) by ring. apply Rmult_le_compat_l; [exact Hw|].
    pose proof (pow2_ge_0 (z i + z j)). lra.
  Qed.

  Lemma tv_square lam z : 0 < lam -> 0 < D -> (forall i, (i < n)%nat -> 0 <= z i) -> energy z <= lam * msq z ->
    tv (fun i => z i * z i) <= sqrt (2 * D * lam) * msq z.
  Proof using HD Hw.
    intros Hl HD0 Hz He. set (h := sqrt (2 * D * lam)).
    assert (H0 : 0 < h) by (apply sqrt_lt_R0; apply Rmult_lt_0_compat; lra). assert (H2 : h * h = 2 * D * lam) by (apply sqrt_sqrt; apply Rmult_le_pos; lra).
    (* |a^2 - b^2| <= h/(2 lam) (a-b)^2 + lam/(2 h) (a+b)^2 *)
    assert (B : tv (fun i => z i * z i) <= h / (2 * lam) * energy z + lam / (2 * h) * \sum_(i < n) \sum_(j < n) (w i j * (z i * z i + z j * z j))).
    { unfold tv, energy. rewrite <- !sum2_scal. rewrite <- sum2_plus. apply sum2_le. intros i j Hi Hj. specialize (Hw i j Hi Hj). pose proof (Hz i Hi) as Zi. pose proof (Hz j Hj) as Zj.
      set (a := Rabs (z i - z j)). set (b := z i + z j).
      assert (Ea : Rabs (z i * z i - z j * z j) = a * b) by (unfold a, b; replace (z i * z i - z j * z j) with ((z i - z j) * (z i + z j)) by ring; rewrite Rabs_mult; f_equal; apply Rabs_pos_eq; lra).
      assert (Eb : (z j - z i) ^ 2 = a * a) by (unfold a; rewrite <- Rabs_mult, Rabs_pos_eq by (apply Rle_0_sqr); ring).
      rewrite Ea. set (q := z i * z i + z j * z j). assert (Eq : b * b <= 2 * q) by (unfold b, q; pose proof (pow2_ge_0 (z i - z j)); lra). rewrite Eb.
      set (s := h / lam). assert (S0 : 0 < s) by (unfold s; apply Rdiv_lt_0_compat; assumption).
      replace (h / (2 * lam)) with (s / 2) by (unfold s; field; lra). replace (lam / (2 * h)) with (/ (2 * s)) by (unfold s; field; lra).
      apply Rle_trans with (w i j * (/ 2 * (s / 2 * (a * a) + / (2 * s) * (b * b)))).
      - replace (/ 2 * (w i j * (a * b))) with (w i j * (/ 2 * (a * b))) by ring. apply Rmult_le_compat_l; [exact Hw|]. apply Rmult_le_compat_l; [lra|].
        assert (Sq : 0 <= / (2 * s) * (s * a - b) ^ 2) by (apply Rmult_le_pos; [left; apply Rinv_0_lt_compat; lra|apply pow2_ge_0]).
        replace (/ (2 * s) * (s * a - b) ^ 2) with (s / 2 * (a * a) + / (2 * s) * (b * b) - a * b) in Sq by (field; lra). lra.
      - replace (s / 2 * (/ 2 * (w i j * (a * a))) + / (2 * s) * (w i j * q)) with (w i j * (/ 2 * (s / 2 * (a * a) + / (2 * s) * (2 * q)))) by (field; lra).
        apply Rmult_le_compat_l; [exact Hw|]. apply Rmult_le_compat_l; [lra|]. apply Rplus_le_compat_l. apply Rmult_le_compat_l; [left; apply Rinv_0_lt_compat; lra|exact Eq]. }
    eapply Rle_trans; [exact B|]. pose proof (degree_bound z) as Db.
    assert (B1 : h / (2 * lam) * energy z <= h / 2 * msq z).
    { replace (h / 2 * msq z) with (h / (2 * lam) * (lam * msq z)) by (field; lra). apply Rmult_le_compat_l; [left; apply Rdiv_lt_0_compat; lra|exact He]. }
    assert (B2 : lam / (2 * h) * (\sum_(i < n) \sum_(j < n) (w i j * (z i * z i + z j * z j))) <= h / 2 * msq z).
    { replace (h / 2 * msq z) with (lam / (2 * h) * (2 * D * msq z)).
      - apply Rmult_le_compat_l; [left; apply Rdiv_lt_0_compat; lra|exact Db].
      - replace (lam / (2 * h) * (2 * D * msq z)) with (2 * D * lam / (2 * h) * msq z) by (field; lra). rewrite <- H2. field. lra. }
    lra.
  Qed.

  (** The sweep: one of the level sets of a signal of zero mean is a good cut. *)
  Lemma sweep lam x : (0 < n)%nat -> 0 < lam -> 0 < msq x -> \sum_(i < n) (mu i * x i) = 0 -> energy x = lam * msq x ->
    exists S t, ((forall i, (i < n)%nat -> S i = Rltb t (x i)) \/ (forall i, (i < n)%nat -> S i = Rltb (x i) t)) /\
      (exists i, (i < n)%nat /\ S i = true) /\ 2 * mass n mu S <= rsum n mu /\ cut n w S <= sqrt (2 * D * lam) * mass n mu S.
  Proof using HD Hmu Hw.
    intros Hn Hl Hx Hz He. destruct (median x Hn) as (c & Hc1 & Hc2).
    assert (HD0 : 0 < D).
    { pose proof (energy_degree x) as Q. rewrite He in Q. destruct (Rlt_dec 0 D) as [L|L]; [exact L|exfalso].
      assert (0 < lam * msq x) by (apply Rmult_lt_0_compat; assumption). assert (2 * D * msq x <= 0) by nra. lra. }
    set (p := fun i => Rmax (x i - c) 0). set (q := fun i => Rmax (c - x i) 0).
    assert (Esq : msq p + msq q = msq x + c * c * rsum n mu).
    { unfold msq. rewrite <- rsum_plus. transitivity (\sum_(i < n) (mu i * (x i * x i) + (- (2 * c)) * (mu i * x i) + c * c * mu i)).
      - apply rsum_ext. intros i Hi. unfold p, q. unfold Rmax. destruct (Rle_dec (x i - c) 0), (Rle_dec (c - x i) 0); try (exfalso; lra); [replace (x i) with c by lra; ring|ring|ring].
      - rewrite !rsum_plus, !rsum_scal_l. change (\sum_(i < n) mu i) with (rsum n mu). rewrite Hz. ring. }
    assert (M0 : 0 <= rsum n mu) by (apply rsum_nonneg; intros i Hi; specialize (Hmu i Hi); lra).
    assert (Een : energy p + energy q <= energy x).
    { unfold energy. rewrite <- Rmult_plus_distr_l, <- sum2_plus. apply Rmult_le_compat_l; [lra|]. apply sum2_le. intros i j Hi Hj. specialize (Hw i j Hi Hj).
      rewrite <- Rmult_plus_distr_l. apply Rmult_le_compat_l; [exact Hw|]. unfold p, q, Rmax.
      destruct (Rle_dec (x i - c) 0), (Rle_dec (c - x i) 0), (Rle_dec (x j - c) 0), (Rle_dec (c - x j) 0); nra. }
    assert (Hpq : (0 < msq p /\ energy p <= lam * msq p) \/ (0 < msq q /\ energy q <= lam * msq q)).
    { pose proof (msq_nonneg p) as N1. pose proof (msq_nonneg q) as N2. pose proof (energy_nonneg p) as N3. pose proof (energy_nonneg q) as N4.
      assert (T : energy p + energy q <= lam * msq p + lam * msq q).
      { eapply Rle_trans; [exact Een|]. rewrite He, <- Rmult_plus_distr_l. apply Rmult_le_compat_l; [lra|]. rewrite Esq. pose proof (Rle_0_sqr c) as Sc. unfold Rsqr in Sc. assert (0 <= c * c * rsum n mu) by (apply Rmult_le_pos; assumption). lra. }
      assert (T2 : 0 < msq p + msq q) by (rewrite Esq; pose proof (Rle_0_sqr c) as Sc; unfold Rsqr in Sc; assert (0 <= c * c * rsum n mu) by (apply Rmult_le_pos; assumption); lra).
      destruct (Req_dec (msq p) 0) as [Z|Z]; [right; rewrite Z in *; split; lra|]. destruct (Req_dec (msq q) 0) as [Z'|Z']; [left; rewrite Z' in *; split; lra|].
      destruct (Rle_dec (energy p) (lam * msq p)) as [L|L]; [left; split; lra|right; split; lra]. }
    assert (G : forall z : vec, (forall i, (i < n)%nat -> 0 <= z i) -> 0 < msq z -> energy z <= lam * msq z ->
      exists t, 0 <= t /\ (exists i, (i < n)%nat /\ t < z i * z i) /\ cut n w (fun i => Rltb t (z i * z i)) <= sqrt (2 * D * lam) * mass n mu (fun i => Rltb t (z i * z i))).
    { intros z Pz Nz Ez. destruct (msq_witness z Nz) as (i & Hi & Zi).
      apply (best_level (sqrt (2 * D * lam)) (fun i => z i * z i)).
      - intros j Hj. apply Rle_0_sqr.
      - exists i. split; [exact Hi|]. apply Rsqr_pos_lt. exact Zi.
      - apply tv_square; assumption. }
    assert (Lv : forall t a, 0 <= t -> Rltb t (Rmax a 0 * Rmax a 0) = Rltb (sqrt t) a).
    { intros t a Ht. pose proof (sqrt_pos t) as P0. pose proof (sqrt_sqrt t Ht) as P1. destruct (Rltb (sqrt t) a) eqn:E.
      - apply Rltb_true in E. apply Rltb_true. rewrite Rmax_left by lra. rewrite <- P1. apply Rmult_le_0_lt_compat; lra.
      - apply Rltb_false in E. apply Rltb_false. unfold Rmax. destruct (Rle_dec a 0) as [A|A]; [lra|]. assert (a * a <= sqrt t * sqrt t) by (apply Rmult_le_compat; lra). lra. }
    destruct Hpq as [(Np & Ep)|(Np & Ep)].
    - destruct (G p (fun i _ => Rmax_r _ _) Np Ep) as (t & Ht & (i & Hi & Pi) & C). exists (fun i => Rltb t (p i * p i)), (c + sqrt t).
      assert (E : forall i, Rltb t (p i * p i) = Rltb (c + sqrt t) (x i)).
      { intros j. unfold p. rewrite Lv by exact Ht. destruct (Rltb (c + sqrt t) (x j)) eqn:F; [apply Rltb_true in F; apply Rltb_true; lra|apply Rltb_false in F; apply Rltb_false; lra]. }
      split; [left; intros j Hj; apply E|]. split; [exists i; split; [exact Hi|apply Rltb_true; exact Pi]|]. split; [|exact C].
      eapply Rle_trans; [|exact Hc1]. apply Rmult_le_compat_l; [lra|]. apply mass_mono. intros j Hj T. rewrite E in T. apply Rltb_true in T. apply Rltb_true. pose proof (sqrt_pos t). lra.
    - destruct (G q (fun i _ => Rmax_r _ _) Np Ep) as (t & Ht & (i & Hi & Pi) & C). exists (fun i => Rltb t (q i * q i)), (c - sqrt t).
      assert (E : forall i, Rltb t (q i * q i) = Rltb (x i) (c - sqrt t)).
      { intros j. unfold q. rewrite Lv by exact Ht. destruct (Rltb (x j) (c - sqrt t)) eqn:F; [apply Rltb_true in F; apply Rltb_true; lra|apply Rltb_false in F; apply Rltb_false; lra]. }
      split; [right; intros j Hj; apply E|]. split; [exists i; split; [exact Hi|apply Rltb_true; exact Pi]|]. split; [|exact C].
      eapply Rle_trans; [|exact Hc2]. apply Rmult_le_compat_l; [lra|]. apply mass_mono. intros j Hj T. rewrite E in T. apply Rltb_true in T. apply Rltb_true. pose proof (sqrt_pos t). lra.
  Qed.
End Sweep.

(** ** Cuts against eigenvalues, for a Laplacian whose quadratic form at sqrt(mu) x is the energy of x *)
Section Cheeger.
  Variables (n : nat) (L : mat) (e : vec) (U : mat) (w : nat -> nat -> R) (mu : nat -> R).
  Hypothesis HU : eigh_ok n L e U.
  Hypothesis Hn : (1 < n)%nat.
  Hypothesis Hw : forall i j, (i < n)%nat -> (j < n)%nat -> 0 <= w i j.
  Hypothesis Hmu : forall i, (i < n)%nat -> 0 < mu i.
  Hypothesis HQ : forall x : vec, quad n L (fun i => sqrt (mu i) * x i) = energy n w x.
  Hypothesis He0 : forall k, (k < n)%nat -> 0 <= e k.
  Let v : vec := fun i => sqrt (mu i).

  Lemma sqrt_mu i : (i < n)%nat -> sqrt (mu i) * sqrt (mu i) = mu i /\ 0 < sqrt (mu i).
  Proof using Hmu. intros Hi. specialize (Hmu i Hi). split; [apply sqrt_sqrt; lra|apply sqrt_lt_R0; exact Hmu]. Qed.
  Lemma total_pos : 0 < rsum n mu.
  Proof using Hmu Hn. apply (rsum_pos n mu 0%nat); [intros i Hi; specialize (Hmu i Hi); lra|lia|apply Hmu; lia]. Qed.
  Lemma flat_quad : quad n L v = 0.
  Proof using HQ.
    transitivity (quad n L (fun i => sqrt (mu i) * 1)); [apply quad_vec; intros i Hi; unfold v; ring|]. rewrite (HQ (fun _ => 1)). unfold energy.
    rewrite (rsum_0 n (fun i => \sum_(j < n) (w i j * (1 - 1) ^ 2))); [ring|]. intros i Hi. apply rsum_0. intros j Hj. ring.
  Qed.
  Lemma flat_coef k : (k < n)%nat -> 0 < e k -> coef n U v k = 0.
  Proof using HQ HU He0.
    intros Hk Pk. pose proof flat_quad as Q. rewrite (eigh_quad _ _ _ _ HU) in Q.
    assert (Z : e k * (coef n U v k * coef n U v k) = 0).
    { apply (rsum_zero_all n (fun k => e k * (coef n U v k * coef n U v k))); [|exact Q|exact Hk].
      intros l Hl. apply Rmult_le_pos; [apply He0; exact Hl|apply Rle_0_sqr]. }
    apply Rmult_integral in Z. destruct Z as [Z|Z]; [lra|]. apply Rmult_integral in Z. destruct Z; assumption.
  Qed.

  (** The mean-free indicator of S. *)
  Definition centred_indicator (S : nat -> bool) : vec := fun i => (if S i then 1 else 0) - mass n mu S / rsum n mu.
  Lemma indicator_energy S : energy n w (centred_indicator S) = cut n w S.
  Proof using Type.
    unfold energy, cut, centred_indicator. f_equal. apply sum2_ext. intros i j Hi Hj. destruct (S i), (S j); cbn [Bool.eqb]; ring.
  Qed.
  Lemma mass_split S : mass n mu S + mass n mu (fun i => negb (S i)) = rsum n mu.
  Proof using Type. unfold mass. rewrite <- rsum_plus. apply rsum_ext. intros i Hi. destruct (S i); cbn [negb]; ring. Qed.
  Lemma indicator_sums S : \sum_(i < n) (mu i * centred_indicator S i) = 0 /\
    \sum_(i < n) (mu i * (centred_indicator S i * centred_indicator S i)) = mass n mu S * mass n mu (fun i => negb (S i)) / rsum n mu.
  Proof using Hmu Hn.
    pose proof total_pos as M. pose proof (mass_split S) as E. set (a := mass n mu S) in *. set (b := mass n mu (fun i => negb (S i))) in *. unfold centred_indicator. fold a. split.
    - rewrite (rsum_ext n _ (fun i => (if S i then mu i else 0) - a / rsum n mu * mu i)) by (intros i Hi; destruct (S i); ring).
      rewrite rsum_minus, rsum_scal_l. change (\sum_(i < n) (if S i then mu i else 0)) with a. field. lra.
    - rewrite (rsum_ext n _ (fun i => (1 - 2 * (a / rsum n mu)) * (if S i then mu i else 0) + (a / rsum n mu) * (a / rsum n mu) * mu i)) by (intros i Hi; destruct (S i); ring).
      rewrite rsum_plus, !rsum_scal_l. change (\sum_(i < n) (if S i then mu i else 0)) with a. replace b with (rsum n mu - a) by lra. field. lra.
  Qed.
  Let y (S : nat -> bool) : vec := fun i => sqrt (mu i) * centred_indicator S i.
  Lemma y_normsq S : normsq n (y S) = mass n mu S * mass n mu (fun i => negb (S i)) / rsum n mu.
  Proof using Hmu Hn.
    rewrite <- (proj2 (indicator_sums S)). unfold normsq, dot, y. apply rsum_ext. intros i Hi. destruct (sqrt_mu i Hi) as (E & _). rewrite <- E at 3. ring.
  Qed.
  Lemma y_mean S : dot n v (y S) = 0.
  Proof using Hmu Hn.
    refine (eq_trans _ (proj1 (indicator_sums S))). unfold dot, v, y. apply rsum_ext. intros i Hi. destruct (sqrt_mu i Hi) as (E & _). rewrite <- E at 3. ring.
  Qed.

  Lemma cut_lower S : e 1%nat * (mass n mu S * mass n mu (fun i => negb (S i)) / rsum n mu) <= cut n w S.
  Proof using HQ HU He0 Hmu Hn Hw.
    destruct (Rlt_dec 0 (e 1%nat)) as [P|P].
    - rewrite <- indicator_energy, <- (HQ (centred_indicator S)). change (e 1%nat * (mass n mu S * mass n mu (fun i => negb (S i)) / rsum n mu) <= quad n L (y S)).
      rewrite <- y_normsq, <- (coef_normsq n L e U HU (y S)), (eigh_quad _ _ _ _ HU). unfold normsq, dot. rewrite <- rsum_scal_l.
      assert (C0 : coef n U (y S) 0%nat = 0).
      { pose proof (y_mean S) as M. rewrite <- (coef_dot n L e U HU) in M. unfold dot in M.
        assert (Z : forall k, (1 <= k < n)%nat -> coef n U v k = 0) by (intros k Hk; apply flat_coef; [lia|]; pose proof (eigh_sort _ _ _ _ HU 1 k ltac:(lia) ltac:(lia)); lra).
        rewrite (rsum_single n _ 0%nat) in M; [|lia|intros k Hk Hne; rewrite Z by lia; ring].
        assert (Nv : 0 < normsq n v).
        { apply normsq_pos. intros V. specialize (V 0%nat ltac:(lia)). unfold v in V. destruct (sqrt_mu 0%nat ltac:(lia)). lra. }
        rewrite <- (coef_normsq n L e U HU v) in Nv. unfold normsq, dot in Nv. rewrite (rsum_single n _ 0%nat) in Nv; [|lia|intros k Hk Hne; rewrite Z by lia; ring].
        apply Rmult_integral in M. destruct M as [M|M]; [rewrite M in Nv; lra|exact M]. }
      apply rsum_le. intros k Hk. destruct (Nat.eq_dec k 0) as [->|Hk0]; [rewrite C0; lra|]. apply Rmult_le_compat_r; [apply Rle_0_sqr|]. apply (eigh_sort _ _ _ _ HU); lia.
    - assert (e 1%nat = 0) as -> by (specialize (He0 1%nat ltac:(lia)); lra). rewrite Rmult_0_l. apply (cut_nonneg n w Hw).
  Qed.
  Lemma cut_upper S : cut n w S <= e (n - 1)%nat * (mass n mu S * mass n mu (fun i => negb (S i)) / rsum n mu).
  Proof using HQ HU Hmu Hn.
    rewrite <- indicator_energy, <- (HQ (centred_indicator S)), <- y_normsq. apply (eigh_quad_le _ _ _ _ HU). intros k Hk. apply (eigh_sort _ _ _ _ HU); lia.
  Qed.
  Lemma mode_sweep D : (forall i, (i < n)%nat -> (\sum_(j < n) w j i + \sum_(j < n) w i j) / 2 <= D * mu i) -> 0 < e 1%nat ->
    exists S t, ((forall i, (i < n)%nat -> S i = Rltb t (U i 1%nat / sqrt (mu i))) \/ (forall i, (i < n)%nat -> S i = Rltb (U i 1%nat / sqrt (mu i)) t)) /\
      (exists i, (i < n)%nat /\ S i = true) /\ 2 * mass n mu S <= rsum n mu /\ cut n w S <= sqrt (2 * D * e 1%nat) * mass n mu S.
  Proof using HQ HU He0 Hmu Hn Hw.
    intros HD P. set (x := fun i => U i 1%nat / sqrt (mu i)).
    assert (Ex : forall i, (i < n)%nat -> sqrt (mu i) * x i = U i 1%nat) by (intros i Hi; unfold x; destruct (sqrt_mu i Hi); field; lra).
    assert (Em : msq n mu x = 1).
    { refine (eq_trans _ (eigh_cols _ _ _ _ HU 1%nat 1%nat ltac:(lia) ltac:(lia))). unfold msq. apply rsum_ext. intros i Hi. destruct (sqrt_mu i Hi) as (E & _).
      rewrite <- (Ex i Hi). rewrite <- E at 1. ring. }
    apply (sweep n w mu Hw Hmu D HD (e 1%nat) x); [lia|exact P|rewrite Em; lra| |].
    - refine (eq_trans _ (flat_coef 1%nat ltac:(lia) P)). unfold coef, v. apply rsum_ext. intros i Hi. destruct (sqrt_mu i Hi) as (E & _). rewrite <- (Ex i Hi). rewrite <- E at 1. ring.
    - rewrite <- HQ, Em, Rmult_1_r. rewrite (quad_vec n L _ (fun i => U i 1%nat)) by exact Ex.
      rewrite (eigenpair_quad n L (e 1%nat) _ (eigh_eigenpair n L e U HU 1%nat ltac:(lia))). unfold normsq, dot.
      pose proof (eigh_cols _ _ _ _ HU 1%nat 1%nat ltac:(lia) ltac:(lia)) as C. cbn [Nat.eqb] in C. rewrite C. ring.
  Qed.
End Cheeger.

(** ** Graphs *)
(** A set of vertices as a 0/1 signal. *)
Definition ind (n : nat) (S : nat -> bool) : list R := map (fun i => if S i then 1 else 0) (seq 0 n).

Lemma exact_nonneg G e U : built G -> nonneg_weights G -> eigh_ok (g_n_vertices G) (gL G) e U -> forall k, (k < g_n_vertices G)%nat -> 0 <= e k.
Proof.
  intros Hb Hp HU k Hk. rewrite <- (first_eigenvalue_zero G e U Hb Hp ltac:(lia) HU). apply (eigh_sort _ _ _ _ HU); lia.
Qed.
Lemma comb_quad G : built G -> g_lap_type G = Combinatorial -> forall x : vec, quad (g_n_vertices G) (gL G) (fun i => sqrt 1 * x i) = energy (g_n_vertices G) (wt G) x.
Proof.
  intros Hb Ht x. set (n := g_n_vertices G). set (l := map x (seq 0 n)). assert (El : List.length l = n) by (unfold l; rewrite map_length, seq_length; reflexivity).
  assert (Nl : forall i, (i < n)%nat -> nth i l 0 = x i) by (intros i Hi; unfold l; apply (nth_map_seq x); exact Hi).
  pose proof (C10_energy_combinatorial G l Hb Ht El) as E. rewrite (energy_ok G l El) in E. cbv zeta in E. fold n in E. injection E as E.
  rewrite (quad_vec n (gL G) _ (fun i => nth i l 0)) by (intros i Hi; rewrite Nl, sqrt_1 by exact Hi; ring). rewrite E. unfold energy. f_equal.
  apply sum2_ext. intros i j Hi Hj. rewrite !Nl by assumption. reflexivity.
Qed.
Lemma norm_quad G : built G -> g_lap_type G = Normalized -> nonneg_weights G -> (forall i, (i < g_n_vertices G)%nat -> 0 < dw (gW G) i) ->
  forall x : vec, quad (g_n_vertices G) (gL G) (fun i => sqrt (dw (gW G) i) * x i) = energy (g_n_vertices G) (wt G) x.
Proof.
  intros Hb Ht Hp Hd x. set (n := g_n_vertices G). set (f := fun i => sqrt (dw (gW G) i) * x i). set (l := map f (seq 0 n)). assert (El : List.length l = n) by (unfold l; rewrite map_length, seq_length; reflexivity).
  assert (Nl : forall i, (i < n)%nat -> nth i l 0 = f i) by (intros i Hi; unfold l; apply (nth_map_seq f); exact Hi).
  pose proof (C10_energy_normalized G l Hb Ht Hp El) as E. rewrite (energy_ok G l El) in E. cbv zeta in E. fold n in E. injection E as E.
  rewrite (quad_vec n (gL G) _ (fun i => nth i l 0)) by (intros i Hi; rewrite Nl by exact Hi; reflexivity). rewrite E. unfold energy. f_equal.
  apply sum2_ext. intros i j Hi Hj. rewrite !Nl by assumption. f_equal.
  assert (Q : forall k, (k < n)%nat -> f k / sqrt ((\sum_(j < n) wt G j k + \sum_(j < n) wt G k j) / 2) = x k).
  { intros k Hk. fold n in Hd. pose proof (proj1 (C08_weighted_degree G k Hb Hk)) as D. fold n in D. rewrite <- D. unfold f. pose proof (sqrt_lt_R0 _ (Hd k Hk)). field. lra. }
  rewrite !Q by assumption. reflexivity.
Qed.

(** The energy of the indicator of S is the weight cut by S. *)
Theorem C103_energy_of_a_set : forall G S, built G -> g_lap_type G = Combinatorial ->
  let n := g_n_vertices G in
  dirichlet_energy G (ind n S) = Ok (cut n (wt G) S) /\
  (undirected G -> cut n (wt G) S = \sum_(i < n) \sum_(j < n) (if (S i && negb (S j))%bool then wt G i j else 0)).
Proof.
  intros G S Hb Ht n. split.
  - rewrite (C10_energy_combinatorial G _ Hb Ht) by (unfold ind; rewrite map_length, seq_length; reflexivity). f_equal. unfold cut. f_equal. fold n. apply sum2_ext.
    intros i j Hi Hj. unfold ind. rewrite !(nth_map_seq (fun i => if S i then 1 else 0)) by assumption. destruct (S i), (S j); cbn [Bool.eqb]; ring.
  - intros Hu. unfold cut.
    rewrite (sum2_ext n n (fun i j => if Bool.eqb (S i) (S j) then 0 else wt G i j) (fun i j => (if (S i && negb (S j))%bool then wt G i j else 0) + (if (S j && negb (S i))%bool then wt G j i else 0))).
    + rewrite sum2_plus, (rsum_swap n n (fun i j => if (S j && negb (S i))%bool then wt G j i else 0)). lra.
    + intros i j Hi Hj. specialize (Hu i j Hi Hj). destruct (S i), (S j); cbn [Bool.eqb andb negb]; lra.
Qed.

(** Every cut of a set of a vertices out of n weighs between e[1] a (n - a) / n and e[-1] a (n - a) / n. *)
Theorem C103_cuts_against_eigenvalues : forall G e U S, built G -> nonneg_weights G -> g_lap_type G = Combinatorial ->
  let n := g_n_vertices G in (1 < n)%nat -> exact_eig n (gL G) n e U ->
  let a := INR (ncount n S) in
  nth 1 e 0 * (a * (INR n - a) / INR n) <= cut n (wt G) S <= nth (n - 1) e 0 * (a * (INR n - a) / INR n).
Proof.
  intros G e U S Hb Hp Ht n Hn (Hl & Hm & e' & U' & HU & He & HUU) a.
  assert (E1 : mass n (fun _ => 1) S = a) by (unfold a; rewrite ncount_INR; reflexivity).
  assert (E3 : rsum n (fun _ => 1) = INR n) by (rewrite (rsum_const n 1); ring).
  assert (E2 : mass n (fun _ => 1) (fun i => negb (S i)) = INR n - a) by (pose proof (mass_split n (fun _ => 1) S) as E; rewrite E1, E3 in E; lra).
  rewrite <- E2, <- E1, <- E3, !He by lia. pose proof (exact_nonneg G e' U' Hb Hp HU) as He0. pose proof (comb_quad G Hb Ht) as HQ. fold n in He0, HQ. split.
  - apply (cut_lower n (gL G) e' U' (wt G) (fun _ => 1) HU Hn Hp (fun _ _ => Rlt_0_1) HQ He0).
  - apply (cut_upper n (gL G) e' U' (wt G) (fun _ => 1) HU Hn (fun _ _ => Rlt_0_1) HQ).
Qed.
(** The same for the normalized Laplacian, with volumes for numbers of vertices. *)
Theorem C103_normalized_cuts_against_eigenvalues : forall G e U S, built G -> nonneg_weights G -> g_lap_type G = Normalized ->
  let n := g_n_vertices G in (1 < n)%nat -> (forall i, (i < n)%nat -> 0 < dw (gW G) i) -> exact_eig n (gL G) n e U ->
  let a := mass n (dw (gW G)) S in let total := rsum n (dw (gW G)) in
  nth 1 e 0 * (a * (total - a) / total) <= cut n (wt G) S <= nth (n - 1) e 0 * (a * (total - a) / total).
Proof.
  intros G e U S Hb Hp Ht n Hn Hd (Hl & Hm & e' & U' & HU & He & HUU) a total.
  assert (E2 : mass n (dw (gW G)) (fun i => negb (S i)) = total - a) by (pose proof (mass_split n (dw (gW G)) S) as E; unfold total, a; lra).
  rewrite <- E2, !He by lia. pose proof (exact_nonneg G e' U' Hb Hp HU) as He0. pose proof (norm_quad G Hb Ht Hp Hd) as HQ. fold n in He0, HQ. split.
  - apply (cut_lower n (gL G) e' U' (wt G) (dw (gW G)) HU Hn Hp Hd HQ He0).
  - apply (cut_upper n (gL G) e' U' (wt G) (dw (gW G)) HU Hn Hd HQ).
Qed.

(** Splitting the vertices at some level of the second Fourier mode U[:, 1] of a connected graph cuts little: at most
    sqrt(2 D e[1]) per vertex of the smaller side, D bounding the degrees. *)
Theorem C103_a_fourier_mode_cuts_well : forall G m e U D, built G -> nonneg_weights G -> g_lap_type G = Combinatorial -> connected G ->
  let n := g_n_vertices G in (1 < m)%nat -> exact_eig n (gL G) m e U -> (forall i, (i < n)%nat -> dw (gW G) i <= D) ->
  exists S t, ((forall i, (i < n)%nat -> S i = true <-> t < U i 1%nat) \/ (forall i, (i < n)%nat -> S i = true <-> U i 1%nat < t)) /\
    (0 < ncount n S)%nat /\ (2 * ncount n S <= n)%nat /\ cut n (wt G) S <= sqrt (2 * D * nth 1 e 0) * INR (ncount n S).
Proof.
  intros G m e U D Hb Hp Ht HC n Hm1 (Hl & Hm & e' & U' & HU & He & HUU) HD.
  assert (Hn : (1 < n)%nat) by lia. pose proof (exact_nonneg G e' U' Hb Hp HU) as He0. pose proof (comb_quad G Hb Ht) as HQ. fold n in He0, HQ.
  assert (P : 0 < e' 1%nat).
  { pose proof (He0 1%nat Hn). destruct (Req_dec (e' 1%nat) 0) as [Z|Z]; [|lra]. pose proof (zero_simple G e' U' 1%nat Hb Hp Ht HC HU Hn Z). discriminate. }
  assert (HD' : forall i, (i < n)%nat -> (\sum_(j < n) wt G j i + \sum_(j < n) wt G i j) / 2 <= D * 1).
  { intros i Hi. pose proof (proj1 (C08_weighted_degree G i Hb Hi)) as E. fold n in E. rewrite <- E, Rmult_1_r. apply HD. exact Hi. }
  destruct (mode_sweep n (gL G) e' U' (wt G) (fun _ => 1) HU Hn Hp (fun _ _ => Rlt_0_1) HQ He0 D HD' P) as (S & t & HS & (k & Hk & Sk) & Hhalf & Hcut).
  assert (E1 : mass n (fun _ => 1) S = INR (ncount n S)) by (rewrite ncount_INR; reflexivity).
  exists S, t. split; [|split; [|split]].
  - assert (Ei : forall i, (i < n)%nat -> U' i 1%nat / sqrt 1 = U i 1%nat) by (intros i Hi; rewrite sqrt_1, HUU by lia; field).
    destruct HS as [HS|HS]; [left|right]; intros i Hi; rewrite (HS i Hi), (Ei i Hi); apply Rltb_true.
  - apply INR_lt. rewrite ncount_INR. apply (rsum_pos n _ k); [intros i Hi; destruct (S i); lra|exact Hk|rewrite Sk; lra].
  - apply INR_le. rewrite mult_INR. rewrite E1, (rsum_const n 1), Rmult_1_r in Hhalf. cbn [INR]. lra.
  - rewrite He by lia. rewrite <- E1. exact Hcut.
Qed.
(** The same for the normalized Laplacian: the mode divided by the square roots of the degrees, volumes, and no degree bound. *)
Theorem C103_a_normalized_mode_cuts_well : forall G m e U, built G -> nonneg_weights G -> g_lap_type G = Normalized ->
  let n := g_n_vertices G in (1 < m)%nat -> (forall i, (i < n)%nat -> 0 < dw (gW G) i) -> exact_eig n (gL G) m e U -> 0 < nth 1 e 0 ->
  let vol := mass n (dw (gW G)) in
  exists S t, ((forall i, (i < n)%nat -> S i = true <-> t < U i 1%nat / sqrt (dw (gW G) i)) \/ (forall i, (i < n)%nat -> S i = true <-> U i 1%nat / sqrt (dw (gW G) i) < t)) /\
    (exists i, (i < n)%nat /\ S i = true) /\ 2 * vol S <= vol (fun _ => true) /\ cut n (wt G) S <= sqrt (2 * nth 1 e 0) * vol S.
Proof.
  intros G m e U Hb Hp Ht n Hm1 Hd (Hl & Hm & e' & U' & HU & He & HUU) P vol.
  assert (Hn : (1 < n)%nat) by lia. pose proof (exact_nonneg G e' U' Hb Hp HU) as He0. pose proof (norm_quad G Hb Ht Hp Hd) as HQ. fold n in He0, HQ.
  rewrite He in P |- * by lia.
  assert (HD' : forall i, (i < n)%nat -> (\sum_(j < n) wt G j i + \sum_(j < n) wt G i j) / 2 <= 1 * dw (gW G) i).
  { intros i Hi. pose proof (proj1 (C08_weighted_degree G i Hb Hi)) as E. fold n in E. rewrite <- E. lra. }
  destruct (mode_sweep n (gL G) e' U' (wt G) (dw (gW G)) HU Hn Hp Hd HQ He0 1 HD' P) as (S & t & HS & Hne & Hhalf & Hcut).
  exists S, t. split; [|split; [exact Hne|split]].
  - assert (Ei : forall i, (i < n)%nat -> U' i 1%nat = U i 1%nat) by (intros i Hi; rewrite HUU by lia; reflexivity).
    destruct HS as [HS|HS]; [left|right]; intros i Hi; rewrite (HS i Hi), (Ei i Hi); apply Rltb_true.
  - exact Hhalf.
  - rewrite Rmult_1_r in Hcut. exact Hcut.
Qed.

(** A connected graph of two or more vertices has positive degrees and a positive second eigenvalue. *)
Theorem C103_connected_graphs_have_a_gap : forall G m e U, built G -> nonneg_weights G -> connected G ->
  let n := g_n_vertices G in (1 < m)%nat -> exact_eig n (gL G) m e U -> (forall i, (i < n)%nat -> 0 < dw (gW G) i) /\ 0 < nth 1 e 0.
Proof.
  intros G m e U Hb Hp HC n Hm1 (Hl & Hm & e' & U' & HU & He & HUU). assert (Hn : (1 < n)%nat) by lia.
  pose proof (exact_nonneg G e' U' Hb Hp HU) as He0. fold n in He0.
  assert (Hd : forall i, (i < n)%nat -> 0 < dw (gW G) i).
  { intros i Hi. rewrite (proj1 (C08_weighted_degree G i Hb Hi)). fold n.
    assert (A : exists k, (k < n)%nat /\ wt G k i <> 0).
    { set (j := if Nat.eqb i 0 then 1%nat else 0%nat). assert (Hj : (j < n)%nat /\ j <> i) by (unfold j; destruct (Nat.eqb_spec i 0); split; lia).
      pose proof (HC j i (proj1 Hj) Hi) as R. inversion R as [u E|u v x Rv Ev Eu Ew]; [exfalso; apply (proj2 Hj); assumption|]. destruct Ev as (A1 & A2 & A3). exists v. split; assumption. }
    destruct A as (k & Hk & Nk). assert (0 < \sum_(j < n) wt G j i) by (apply (rsum_pos n (fun j => wt G j i) k); [intros; apply Hp; assumption|exact Hk|specialize (Hp k i Hk Hi); lra]).
    assert (0 <= \sum_(j < n) wt G i j) by (apply rsum_nonneg; intros; apply Hp; assumption). lra. }
  split; [exact Hd|]. rewrite He by lia. pose proof (He0 1%nat Hn) as P. destruct (Req_dec (e' 1%nat) 0) as [Z|Z]; [exfalso|lra].
  assert (Hv : valid_lap (g_lap_type G)) by (destruct (built_good G Hb) as (_ & _ & _ & HL); apply (laplacian_ok (gW G)); eauto).
  destruct Hv as [Ht|Ht]; [pose proof (zero_simple G e' U' 1%nat Hb Hp Ht HC HU Hn Z); discriminate|].
  (* modes 0 and 1 are both multiples of sqrt(dw) *)
  assert (Hc : forall k, (k < n)%nat -> e' k = 0 -> forall i j, (i < n)%nat -> (j < n)%nat -> U' i k / sqrt (dw (gW G) i) = U' j k / sqrt (dw (gW G) j)).
  { intros k Hk Ek. set (x := fun i => U' i k / sqrt (dw (gW G) i)).
    assert (E : energy n (wt G) x = 0).
    { pose proof (norm_quad G Hb Ht Hp Hd x) as Q. fold n in Q. rewrite <- Q. rewrite (quad_vec n (gL G) _ (fun i => U' i k)).
      - rewrite (eigenpair_quad n (gL G) (e' k) _ (eigh_eigenpair n (gL G) e' U' HU k Hk)), Ek. ring.
      - intros i Hi. unfold x. pose proof (sqrt_lt_R0 _ (Hd i Hi)). field. lra. }
    assert (A : forall i j, has_arc G i j -> x i = x j).
    { intros i j (Hi & Hj & Na). fold n in Hi, Hj. unfold energy in E. apply Rmult_integral in E. destruct E as [E|E]; [lra|].
      assert (N : forall a b, (a < n)%nat -> (b < n)%nat -> 0 <= wt G a b * (x b - x a) ^ 2) by (intros a b Ha Hb'; apply Rmult_le_pos; [apply Hp; assumption|apply pow2_ge_0]).
      pose proof (rsum_zero_all n (fun i => \sum_(j < n) (wt G i j * (x j - x i) ^ 2)) ltac:(intros a Ha; apply rsum_nonneg; intros b Hb'; apply (N a b Ha Hb')) E i Hi) as E1. cbv beta in E1.
      pose proof (rsum_zero_all n (fun j => wt G i j * (x j - x i) ^ 2) (fun b Hb' => N i b Hi Hb') E1 j Hj) as E2. cbv beta in E2.
      apply Rmult_integral in E2. destruct E2 as [E2|E2]; [contradiction|]. assert (x j - x i = 0); [|lra]. apply Rmult_integral in E2. destruct E2 as [E2|E2]; [exact E2|]. rewrite Rmult_1_r in E2. exact E2. }
    intros i j Hi Hj. change (x i = x j). pose proof (HC i j Hi Hj) as R. clear -R A. induction R as [u|u v w0 R IH Ev]; [reflexivity|]. rewrite IH. apply A. exact Ev. }
  pose proof (first_eigenvalue_zero G e' U' Hb Hp ltac:(lia) HU) as Z0.
  pose proof (eigh_cols _ _ _ _ HU 0%nat 1%nat ltac:(lia) ltac:(lia)) as O1. pose proof (eigh_cols _ _ _ _ HU 0%nat 0%nat ltac:(lia) ltac:(lia)) as O2. pose proof (eigh_cols _ _ _ _ HU 1%nat 1%nat ltac:(lia) ltac:(lia)) as O3. cbn [Nat.eqb] in O1, O2, O3.
  set (a := U' 0%nat 0%nat / sqrt (dw (gW G) 0%nat)). set (b := U' 0%nat 1%nat / sqrt (dw (gW G) 0%nat)).
  assert (Ua : forall i, (i < n)%nat -> U' i 0%nat = a * sqrt (dw (gW G) i)).
  { intros i Hi. unfold a. rewrite <- (Hc 0%nat ltac:(lia) Z0 i 0%nat Hi ltac:(lia)). pose proof (sqrt_lt_R0 _ (Hd i Hi)). field. lra. }
  assert (Ub : forall i, (i < n)%nat -> U' i 1%nat = b * sqrt (dw (gW G) i)).
  { intros i Hi. unfold b. rewrite <- (Hc 1%nat ltac:(lia) Z i 0%nat Hi ltac:(lia)). pose proof (sqrt_lt_R0 _ (Hd i Hi)). field. lra. }
  set (V := rsum n (dw (gW G))).
  assert (Eab : forall k l c d, (forall i, (i < n)%nat -> U' i k = c * sqrt (dw (gW G) i)) -> (forall i, (i < n)%nat -> U' i l = d * sqrt (dw (gW G) i)) -> \sum_(i < n) (U' i k * U' i l) = c * d * V).
  { intros k l c d Hk Hl'. unfold V. rewrite <- rsum_scal_l. apply rsum_ext. intros i Hi. rewrite (Hk i Hi), (Hl' i Hi). pose proof (sqrt_sqrt (dw (gW G) i) (Rlt_le _ _ (Hd i Hi))) as E. rewrite <- E at 3. ring. }
  pose proof (Eab 0%nat 1%nat a b Ua Ub) as Q1. pose proof (Eab 0%nat 0%nat a a Ua Ua) as Q2. pose proof (Eab 1%nat 1%nat b b Ub Ub) as Q3. fold n in O1, O2, O3.
  rewrite Q1 in O1. rewrite Q2 in O2. rewrite Q3 in O3.
  assert (a * b * V * (a * b * V) = (a * a * V) * (b * b * V)) by ring. rewrite O1, O2, O3 in H. lra.
Qed.

(** ** Distances against distinct eigenvalues *)
Lemma within_inv (E : nat -> nat -> Prop) k u v : within E (S k) u v -> u = v \/ exists x, E u x /\ within E k x v.
Proof. intros H. inversion H; subst; [left; reflexivity|right; eexists; split; eassumption]. Qed.
Section Factors.
  Variables (G : graph) (e : list R) (U : mat).
  Let n := g_n_vertices G.
  Let F := mkview n (gL G) 0 e U.
  Hypothesis Hb : built G.
  Hypothesis Hp : nonneg_weights G.
  Hypothesis HF : spectral F.

  Lemma off_diagonal i j : (i < n)%nat -> (j < n)%nat -> i <> j -> gL G i j <= 0 /\ (linked G i j -> gL G i j < 0).
  Proof using Hb Hp.
    intros Hi Hj Hne. assert (Hv : valid_lap (g_lap_type G)) by (destruct (built_good G Hb) as (_ & _ & _ & HL); apply (laplacian_ok (gW G)); eauto).
    pose proof (Hp i j Hi Hj) as P1. pose proof (Hp j i Hj Hi) as P2.
    assert (Dp : forall k l, (k < n)%nat -> (l < n)%nat -> wt G k l <> 0 \/ wt G l k <> 0 -> 0 < dw (gW G) k).
    { intros k l Hk Hl A. rewrite (proj1 (C08_weighted_degree G k Hb Hk)). fold n.
      assert (N1 : 0 <= \sum_(j < n) wt G j k) by (apply rsum_nonneg; intros; apply Hp; assumption). assert (N2 : 0 <= \sum_(j < n) wt G k j) by (apply rsum_nonneg; intros; apply Hp; assumption).
      destruct A as [A|A].
      - assert (0 < \sum_(j < n) wt G k j) by (apply (rsum_pos n (fun j => wt G k j) l); [intros; apply Hp; assumption|exact Hl|specialize (Hp k l Hk Hl); lra]). lra.
      - assert (0 < \sum_(j < n) wt G j k) by (apply (rsum_pos n (fun j => wt G j k) l); [intros; apply Hp; assumption|exact Hl|specialize (Hp l k Hl Hk); lra]). lra. }
    destruct Hv as [Ht|Ht].
    - destruct (C09_combinatorial_structure G Hb Ht) as (_ & _ & E & _). rewrite (E i j Hi Hj Hne). split; [lra|]. intros (_ & _ & [A|A]); lra.
    - destruct (C11_normalized_entries G Hb Ht Hp) as (_ & _ & E & Z). fold n in E, Z.
      destruct (classic (linked G i j)) as [A|A]; [|split; [rewrite (lap_linked G i j Hb Hi Hj Hne A); lra|intros B; contradiction]].
      pose proof (Dp i j Hi Hj (proj2 (proj2 A))) as D1. assert (D2 : 0 < dw (gW G) j) by (apply (Dp j i Hj Hi); destruct A as (_ & _ & [A|A]); auto).
      rewrite (E i j Hi Hj Hne) by lra. assert (Q : 0 < sqrt (dw (gW G) i) * sqrt (dw (gW G) j)) by (apply Rmult_lt_0_compat; apply sqrt_lt_R0; assumption).
      assert (N : - ((wt G i j + wt G j i) / 2) < 0) by (destruct A as (_ & _ & [A|A]); lra).
      assert (- ((wt G i j + wt G j i) / 2) / (sqrt (dw (gW G) i) * sqrt (dw (gW G) j)) < 0); [|split; intros; lra].
      unfold Rdiv at 1. rewrite <- (Rmult_0_l (/ (sqrt (dw (gW G) i) * sqrt (dw (gW G) j)))). apply Rmult_lt_compat_r; [apply Rinv_0_lt_compat; exact Q|exact N].
  Qed.

  (** (L - mu_1) ... (L - mu_m) d *)
  Fixpoint factors (mus : list R) (d : vec) : vec :=
    match mus with [] => d | m :: r => fun i => mulv n (gL G) (factors r d) i - m * factors r d i end.
  Lemma factors_mult mus d i : (i < n)%nat -> factors mus d i = mult F (fun k => fold_right (fun m q => (nth k e 0 - m) * q) 1 mus) d i.
  Proof using HF.
    revert i. induction mus as [|m r IH]; intros i Hi; cbn [factors fold_right]; [symmetry; apply (mult_1 F HF d i Hi)|].
    rewrite (mulv_ext n (gL G) (gL G) _ (mult F (fun k => fold_right (fun m q => (nth k e 0 - m) * q) 1 r) d)) by (try exact IH; intros; reflexivity).
    rewrite IH by exact Hi. pose proof (mulv_mult F HF (fun k => fold_right (fun m q => (nth k e 0 - m) * q) 1 r) d i Hi) as E. cbn [v_N v_L v_e F] in E. rewrite E.
    pose proof (mult_lin_h F 1 (- m) (fun k => nth k e 0 * fold_right (fun m q => (nth k e 0 - m) * q) 1 r) (fun k => fold_right (fun m q => (nth k e 0 - m) * q) 1 r) d i) as L.
    rewrite (mult_ext F (fun k => (nth k e 0 - m) * fold_right (fun m q => (nth k e 0 - m) * q) 1 r) (fun k => 1 * (nth k e 0 * fold_right (fun m q => (nth k e 0 - m) * q) 1 r) + - m * fold_right (fun m q => (nth k e 0 - m) * q) 1 r) d d i);
      [rewrite L; ring|intros k Hk; ring|intros ? ?; reflexivity].
  Qed.
  Lemma factors_sign b mus : (b < n)%nat -> forall u, (u < n)%nat ->
    (~ within (linked G) (List.length mus) u b -> factors mus (fun i => if Nat.eqb i b then 1 else 0) u = 0) /\
    (within (linked G) (List.length mus) u b -> (forall l, (l < List.length mus)%nat -> ~ within (linked G) l u b) ->
       0 < (-1) ^ List.length mus * factors mus (fun i => if Nat.eqb i b then 1 else 0) u).
  Proof using Hb Hp.
    intros Hbn. set (d := fun i => if Nat.eqb i b then 1 else 0). induction mus as [|m r IH]; intros u Hu; cbn [List.length factors].
    - unfold d. destruct (Nat.eqb_spec u b) as [->|Hne]; split; intros H.
      + exfalso. apply H. apply within_here.
      + intros _. cbn. lra.
      + reflexivity.
      + exfalso. inversion H; contradiction.
    - set (y := factors r d) in *. set (k := List.length r) in *.
      assert (Y0 : ~ within (linked G) k u b -> y u = 0) by (apply (proj1 (IH u Hu))). split.
      + intros N. assert (Nk : ~ within (linked G) k u b) by (intros H; apply N; apply (within_mono _ k); [exact H|lia]). rewrite (Y0 Nk), Rmult_0_r, Rminus_0_r.
        apply (lap_local G y u Hb Hu). intros i Hi [->|Hl]; [apply Y0; exact Nk|]. apply (proj1 (IH i Hi)). intros H. apply N. apply (within_step _ k u i b Hl H).
      + intros Hin Hno. assert (Nk : ~ within (linked G) k u b) by (apply Hno; lia). rewrite (Y0 Nk), Rmult_0_r, Rminus_0_r.
        unfold mulv. rewrite <- rsum_scal_l.
        assert (T : forall j, (j < n)%nat -> 0 <= (-1) ^ S k * (gL G u j * y j) /\ (linked G u j -> within (linked G) k j b -> 0 < (-1) ^ S k * (gL G u j * y j))).
        { intros j Hj. destruct (Nat.eq_dec j u) as [->|Hne]; [rewrite (Y0 Nk); split; [lra|intros _ H; contradiction]|].
          replace ((-1) ^ S k * (gL G u j * y j)) with (- gL G u j * ((-1) ^ k * y j)) by (cbn [pow]; ring).
          destruct (off_diagonal u j Hu Hj ltac:(congruence)) as (O1 & O2).
          destruct (classic (linked G u j)) as [Hl|Hl].
          - specialize (O2 Hl). destruct (classic (within (linked G) k j b)) as [Hw|Hw].
            + assert (0 < (-1) ^ k * y j).
              { apply (proj2 (IH j Hj)); [exact Hw|]. intros l Hl' H. apply (Hno (S l)); [lia|]. apply (within_step _ l u j b Hl H). }
              assert (0 < - gL G u j * ((-1) ^ k * y j)) by (apply Rmult_lt_0_compat; lra). split; intros; lra.
            + rewrite (proj1 (IH j Hj) Hw), !Rmult_0_r. split; [lra|intros _ H; contradiction].
          - rewrite (lap_linked G u j Hb Hu Hj ltac:(congruence) Hl), Ropp_0, Rmult_0_l. split; [lra|intros H; contradiction]. }
        assert (Hst : u = b \/ exists v', linked G u v' /\ within (linked G) k v' b) by (apply (within_inv _ k u b Hin)).
        destruct Hst as [Hub|(v' & Hl & Hw)]; [exfalso; apply (Hno 0%nat); [lia|]; rewrite Hub; apply within_here|].
        assert (Hv' : (v' < n)%nat) by apply Hl. apply (rsum_pos n (fun j => (-1) ^ S k * (gL G u j * y j)) v'); [intros j Hj; apply (T j Hj)|exact Hv'|apply (T v' Hv'); assumption].
  Qed.
End Factors.

Lemma within_exact G m u v : (1 <= m)%nat -> (u < g_n_vertices G)%nat -> forall k, within (linked G) k u v -> ~ within (linked G) (m - 1) u v ->
  exists u', (u' < g_n_vertices G)%nat /\ within (linked G) m u' v /\ forall l, (l < m)%nat -> ~ within (linked G) l u' v.
Proof.
  intros Hm Hu k H. revert Hu. induction H as [k u|k u v' w Hl Hw IH]; intros Hu N; [exfalso; apply N; apply within_here|].
  destruct (classic (within (linked G) (m - 1) v' w)) as [A|A].
  - exists u. split; [exact Hu|]. split.
    + replace m with (S (m - 1)) by lia. apply (within_step _ _ u v' w Hl A).
    + intros l Hlm B. apply N. apply (within_mono _ l); [exact B|lia].
  - apply IH; [apply Hl|exact A].
Qed.
Lemma reach_within (E : nat -> nat -> Prop) u v : reach E u v -> exists k, within E k u v.
Proof.
  assert (St : forall k u v w, within E k u v -> E v w -> within E (S k) u w).
  { intros k a b c H. revert c. induction H as [k a|k a b' b He Hw IH]; intros c Hc.
    - eapply within_step; [exact Hc|apply within_here].
    - eapply within_step; [exact He|apply IH; exact Hc]. }
  intros H. induction H as [u|u v w H (k & IH) He]; [exists 0%nat; apply within_here|]. exists (S k). apply (St k u v w IH He).
Qed.

(** If the eigenvalues take at most m values, any two vertices of a component are less than m hops apart. *)
Theorem C103_distances_against_distinct_eigenvalues : forall G e U values u v, built G -> nonneg_weights G ->
  let n := g_n_vertices G in exact_eig n (gL G) n e U -> (forall k, (k < n)%nat -> In (nth k e 0) values) ->
  (u < n)%nat -> (v < n)%nat -> reach (linked G) u v -> within (linked G) (List.length values - 1) u v.
Proof.
  intros G e U values u v Hb Hp n HE Hin Hu Hv R. pose proof (exact_eig_spectral n (gL G) e U 0 HE) as HF.
  apply NNPP. intros N. destruct (reach_within _ u v R) as (k & Wk).
  assert (Hm : (1 <= List.length values)%nat) by (specialize (Hin u Hu); destruct values; [destruct Hin|cbn; lia]).
  destruct (within_exact G (List.length values) u v Hm Hu k Wk N) as (u' & Hu' & W' & X').
  pose proof (proj2 (factors_sign G Hb Hp v values Hv u' Hu') W' X') as P.
  rewrite (factors_mult G e U HF values _ u' Hu') in P. unfold mult in P.
  rewrite rsum_0, Rmult_0_r in P; [lra|]. intros j Hj. cbn [v_N] in Hj.
  assert (Z : fold_right (fun m q => (nth j e 0 - m) * q) 1 values = 0); [|rewrite Z; ring].
  specialize (Hin j Hj). clear -Hin. revert Hin. generalize (nth j e 0). intros x Hin. induction values as [|a r IH]; [destruct Hin|]. cbn [fold_right].
  destruct Hin as [->|Hin]; [ring|]. rewrite (IH Hin). ring.
Qed.

(** ** The hypotheses are met *)
Lemma list_exact n L e U : (1 <= n)%nat -> List.length e = n -> eigh_ok n L (fun k => nth k e 0) U -> exact_eig n L n e U.
Proof. intros Hn Hl HU. split; [exact Hl|]. split; [lia|]. exists (fun k => nth k e 0), U. split; [exact HU|]. split; intros; reflexivity. Qed.
(** Every star of two or more vertices, with either Laplacian, meets the hypotheses of the theorems above, and an exact eigendecomposition of it exists. *)
Example C103_ex : forall N lap, (2 <= N)%nat -> valid_lap lap -> exists G e U, Star N false lap = Ok G /\ built G /\ nonneg_weights G /\ g_lap_type G = lap /\ connected G /\
  g_n_vertices G = N /\ exact_eig (g_n_vertices G) (gL G) (g_n_vertices G) e U /\ (forall i, (i < N)%nat -> 0 < dw (gW G) i <= INR N) /\ 0 < nth 1 e 0.
Proof.
  intros N lap HN Hl. destruct (C48_star N lap ltac:(lia) Hl) as (G & EG & HU & Hu & HC & _). pose proof HU as (Hb & Hn & Hw).
  assert (dec : forall i j : nat, {(i = 0 /\ j <> 0 \/ j = 0 /\ i <> 0)%nat} + {~ (i = 0 /\ j <> 0 \/ j = 0 /\ i <> 0)%nat}).
  { intros i j; destruct (Nat.eq_dec i 0), (Nat.eq_dec j 0); (left; lia) || (right; lia). }
  pose proof (unit_nonneg G N _ HU dec) as Hp.
  destruct (eigh_list _ _ (built_symmetric G Hb)) as (e & U & E1 & E2). cbn [v_N v_L v_e v_U] in E1, E2.
  assert (HE : exact_eig (g_n_vertices G) (gL G) (g_n_vertices G) e U) by (apply list_exact; [lia|exact E1|exact E2]).
  exists G, e, U. destruct (C103_connected_graphs_have_a_gap G (g_n_vertices G) e U Hb Hp HC ltac:(lia) HE) as (D & P).
  repeat (split; [assumption|]). split; [|split; [exact HC|split; [exact Hn|split; [exact HE|split; [|exact P]]]]].
  - unfold Star in EG. destruct (Nat.eqb_spec N 0); [lia|]. unfold Comet in EG. destruct (Nat.ltb N (S (N - 1))); [discriminate|]. apply init_laptype in EG. exact EG.
  - intros i Hi. split; [apply D; lia|]. rewrite (undirected_degree G i Hb Hu) by lia. rewrite Hn.
    replace (INR N) with (\sum_(j < N) 1) by (rewrite rsum_const; ring). apply rsum_le. intros j Hj. destruct (dec i j) as [A|A]; [rewrite (proj1 (Hw i j Hi Hj) A); lra|].
    rewrite (proj2 (Hw i j Hi Hj) A). lra.
Qed.

(** The star of 4 vertices has eigenvalues 0, 1, 1, 4: cutting its centre off costs 3, the upper bound, and, with 3 distinct
    eigenvalues, its vertices are within 2 hops of each other, as are no two leaves within 1. *)
Example C103_star : exists G e U, Star 4 false Combinatorial = Ok G /\ exact_eig 4 (gL G) 4 e U /\
  cut 4 (wt G) (fun i => Nat.eqb i 0) = 3 /\ nth 1 e 0 * (1 * (INR 4 - 1) / INR 4) = 3 / 4 /\ nth 3 e 0 * (1 * (INR 4 - 1) / INR 4) = 3 /\
  (forall u v, (u < 4)%nat -> (v < 4)%nat -> within (linked G) 2 u v) /\ ~ within (linked G) 1 1 2.
Proof.
  destruct (C94_four) as (G & _ & e & U & _ & _ & EG & _ & (HS1 & HS2) & _ & He & _). cbn [v_N v_L v_e v_U] in HS1, HS2.
  destruct (C48_star 4 Combinatorial ltac:(lia) (or_introl eq_refl)) as (G' & EG' & HU & Hu & HC & _). rewrite EG in EG'. injection EG' as <-. pose proof HU as (Hb & Hn & Hw).
  destruct (star_lap 4 G ltac:(lia) EG) as (_ & Hp & _ & Ht & _). rewrite Hn in HS1, HS2.
  assert (HE : exact_eig 4 (gL G) 4 e U) by (apply list_exact; [lia|exact HS1|exact HS2]).
  exists G, e, U. split; [exact EG|]. split; [exact HE|].
  assert (W : forall i j, (i < 4)%nat -> (j < 4)%nat -> wt G i j = if Bool.eqb (Nat.eqb i 0) (Nat.eqb j 0) then 0 else 1).
  { intros i j Hi Hj. destruct (Nat.eqb_spec i 0), (Nat.eqb_spec j 0); cbn [Bool.eqb]; [apply (Hw i j Hi Hj)|apply (Hw i j Hi Hj)|apply (Hw i j Hi Hj)|apply (Hw i j Hi Hj)]; lia. }
  split; [|split; [|split; [|split]]].
  - unfold cut. rewrite (sum2_ext 4 4 _ (fun i j => if Bool.eqb (Nat.eqb i 0) (Nat.eqb j 0) then 0 else 1)).
    + unfold rsum. cbn. lra.
    + intros i j Hi Hj. destruct (Bool.eqb (Nat.eqb i 0) (Nat.eqb j 0)) eqn:E; [reflexivity|]. rewrite (W i j Hi Hj), E. reflexivity.
  - rewrite (He 1%nat) by lia. cbn [nth INR]. field.
  - rewrite (He 3%nat) by lia. cbn [nth INR]. field.
  - intros u v Hu' Hv'. change 2%nat with (List.length [0; 1; 4] - 1)%nat. rewrite <- Hn in HE, Hu', Hv'. apply (C103_distances_against_distinct_eigenvalues G e U [0; 1; 4] u v Hb Hp); [rewrite Hn in *; exact HE| |exact Hu'|exact Hv'|].
    + intros k Hk. rewrite Hn in Hk. rewrite (He k Hk). destruct k as [|[|[|[|k]]]]; cbn; tauto || lia.
    + pose proof (HC u v Hu' Hv') as R. clear -R. induction R as [u|u v w R IH (A & B & C)]; [apply reach_refl|]. eapply reach_step; [exact IH|]. split; [exact A|]. split; [exact B|]. left. exact C.
  - intros H. apply within_inv in H. destruct H as [H|(x & (Hx1 & Hx2 & Hx) & H)]; [discriminate|].
    assert (E : x = 2%nat) by (inversion H; reflexivity). subst x. rewrite !W in Hx by lia. cbn in Hx. destruct Hx; lra.
Qed.
