(** The spectral theorem for real symmetric matrices: every one has an orthonormal eigenbasis with sorted
    eigenvalues; the eigenvalues, and every function of the matrix, are the same whichever basis is chosen.
    General mathematics, models no code. *)
From Coq Require Import Reals Lra Lia List Arith Classical.
From Verif.Base Require Import RSum Prelude LinAlg Solve.
From Verif.Spec Require Import Matrix.
Open Scope R_scope.

(** ** A bounded decreasing family of nonempty sets has a cluster point *)

Definition close (n : nat) (a : R) (y x : vec) : Prop := forall i, (i < n)%nat -> Rabs (y i - x i) < a.

Lemma cluster_coord (P : R -> vec -> Prop) (i : nat) (B : R) :
  (forall a b y, 0 < a <= b -> P a y -> P b y) ->
  (forall a, 0 < a -> exists y, P a y) ->
  (forall a y, P a y -> - B <= y i <= B) ->
  exists t, forall a, 0 < a -> exists y, P a y /\ Rabs (y i - t) < a.
Proof.
  intros Hm Hne Hb.
  (* s with "not all P a reach at or below s": bounded by B, contains -B-1 *)
  set (E := fun s => exists a, 0 < a /\ forall y, P a y -> s < y i).
  assert (HB : is_upper_bound E B).
  { intros s (a & Ha & Hs). destruct (Hne a Ha) as (y & Hy). specialize (Hs y Hy). specialize (Hb a y Hy). lra. }
  destruct (completeness E (ex_intro _ B HB)) as (t & Ht1 & Ht2).
  { exists (- B - 1). exists 1. split; [lra|]. intros y Hy. specialize (Hb 1 y Hy). lra. }
  exists t. intros a Ha.
  assert (HL : exists a0, 0 < a0 /\ forall y, P a0 y -> t - a < y i).
  { apply NNPP. intros Hn. assert (Hu : is_upper_bound E (t - a)).
    { intros s (a1 & Ha1 & Hs). destruct (Rle_or_lt s (t - a)) as [Hle|Hgt]; [exact Hle|]. exfalso. apply Hn.
      exists a1. split; [exact Ha1|]. intros y Hy. specialize (Hs y Hy). lra. }
    specialize (Ht2 _ Hu). lra. }
  destruct HL as (a0 & Ha0 & HL).
  assert (Hmin : 0 < Rmin a a0) by (apply Rmin_glb_lt; assumption).
  assert (HU : exists y, P (Rmin a a0) y /\ y i < t + a).
  { apply NNPP. intros Hn. assert (He : E (t + a / 2)).
    { exists (Rmin a a0). split; [exact Hmin|]. intros y Hy. destruct (Rlt_or_le (y i) (t + a)) as [Hlt|Hge]; [|lra].
      exfalso. apply Hn. exists y. auto. }
    specialize (Ht1 _ He). lra. }
  destruct HU as (y & Hy & Hlt). exists y. split.
  - apply (Hm (Rmin a a0)); [|exact Hy]. split; [exact Hmin|apply Rmin_l].
  - assert (H0 : P a0 y) by (apply (Hm (Rmin a a0)); [split; [exact Hmin|apply Rmin_r]|exact Hy]).
    specialize (HL y H0). apply Rabs_def1; lra.
Qed.

Lemma cluster n : forall (P : R -> vec -> Prop) (B : R),
  (forall a b y, 0 < a <= b -> P a y -> P b y) ->
  (forall a, 0 < a -> exists y, P a y) ->
  (forall a y, P a y -> forall i, (i < n)%nat -> - B <= y i <= B) ->
  exists x, forall a, 0 < a -> exists y, P a y /\ close n a y x.
Proof.
  induction n as [|n IH]; intros P B Hm Hne Hb.
  - exists (fun _ => 0). intros a Ha. destruct (Hne a Ha) as (y & Hy). exists y. split; [exact Hy|]. intros i Hi. lia.
  - destruct (IH P B Hm Hne) as (x & Hx); [intros a y Hy i Hi; apply (Hb a y Hy); lia|].
    destruct (cluster_coord (fun a y => P a y /\ close n a y x) n B) as (t & Ht).
    + intros a b y Hab (H1 & H2). split; [apply (Hm a); assumption|]. intros i Hi. specialize (H2 i Hi). lra.
    + exact Hx.
    + intros a y (H1 & _). apply (Hb a y H1). lia.
    + exists (fun i => if Nat.eqb i n then t else x i). intros a Ha. destruct (Ht a Ha) as (y & (H1 & H2) & H3).
      exists y. split; [exact H1|]. intros i Hi. destruct (Nat.eqb_spec i n) as [->|Hin]; [exact H3|]. apply H2. lia.
Qed.

(** ** Continuous functions of n coordinates *)

Definition cont (n : nat) (f : vec -> R) : Prop :=
  forall x eps, 0 < eps -> exists d, 0 < d /\ forall y, close n d y x -> Rabs (f y - f x) < eps.

Lemma cont_const n c : cont n (fun _ => c).
Proof. intros x eps He. exists 1. split; [lra|]. intros y _. rewrite Rminus_diag_eq by reflexivity. rewrite Rabs_R0. exact He. Qed.
Lemma cont_proj n i : (i < n)%nat -> cont n (fun x => x i).
Proof. intros Hi x eps He. exists eps. split; [exact He|]. intros y Hy. apply Hy. exact Hi. Qed.
Lemma cont_plus n f g : cont n f -> cont n g -> cont n (fun x => f x + g x).
Proof.
  intros Hf Hg x eps He. destruct (Hf x (eps / 2) ltac:(lra)) as (d1 & Hd1 & H1). destruct (Hg x (eps / 2) ltac:(lra)) as (d2 & Hd2 & H2).
  exists (Rmin d1 d2). split; [apply Rmin_glb_lt; assumption|]. intros y Hy.
  assert (A1 : Rabs (f y - f x) < eps / 2) by (apply H1; intros i Hi; specialize (Hy i Hi); pose proof (Rmin_l d1 d2); lra).
  assert (A2 : Rabs (g y - g x) < eps / 2) by (apply H2; intros i Hi; specialize (Hy i Hi); pose proof (Rmin_r d1 d2); lra).
  replace (f y + g y - (f x + g x)) with ((f y - f x) + (g y - g x)) by ring.
  pose proof (Rabs_triang (f y - f x) (g y - g x)). lra.
Qed.
Lemma cont_mult n f g : cont n f -> cont n g -> cont n (fun x => f x * g x).
Proof.
  intros Hf Hg x eps He. set (K := Rabs (f x) + Rabs (g x) + 1).
  assert (HK : 0 < K) by (unfold K; pose proof (Rabs_pos (f x)); pose proof (Rabs_pos (g x)); lra).
  assert (Hm : 0 < Rmin 1 (eps / (2 * K))).
  { apply Rmin_glb_lt; [lra|]. apply Rdiv_lt_0_compat; lra. }
  destruct (Hf x _ Hm) as (d1 & Hd1 & H1). destruct (Hg x _ Hm) as (d2 & Hd2 & H2).
  exists (Rmin d1 d2). split; [apply Rmin_glb_lt; assumption|]. intros y Hy.
  assert (A1 : Rabs (f y - f x) < Rmin 1 (eps / (2 * K))) by (apply H1; intros i Hi; specialize (Hy i Hi); pose proof (Rmin_l d1 d2); lra).
  assert (A2 : Rabs (g y - g x) < Rmin 1 (eps / (2 * K))) by (apply H2; intros i Hi; specialize (Hy i Hi); pose proof (Rmin_r d1 d2); lra).
  pose proof (Rmin_l 1 (eps / (2 * K))) as M1. pose proof (Rmin_r 1 (eps / (2 * K))) as M2.
  set (m := Rmin 1 (eps / (2 * K))) in *.
  replace (f y * g y - f x * g x) with ((f y - f x) * g x + (f x + (f y - f x)) * (g y - g x)) by ring.
  assert (B1 : Rabs ((f y - f x) * g x) <= m * Rabs (g x)).
  { rewrite Rabs_mult. apply Rmult_le_compat_r; [apply Rabs_pos|lra]. }
  assert (B2 : Rabs ((f x + (f y - f x)) * (g y - g x)) <= (Rabs (f x) + 1) * m).
  { rewrite Rabs_mult. apply Rmult_le_compat; try apply Rabs_pos; [|lra]. pose proof (Rabs_triang (f x) (f y - f x)). lra. }
  pose proof (Rabs_triang ((f y - f x) * g x) ((f x + (f y - f x)) * (g y - g x))) as B3.
  assert (B4 : m * K <= eps / 2).
  { replace (eps / 2) with (eps / (2 * K) * K) by (field; lra). apply Rmult_le_compat_r; lra. }
  unfold K in B4. replace (m * (Rabs (f x) + Rabs (g x) + 1)) with (m * Rabs (g x) + (Rabs (f x) + 1) * m) in B4 by ring. lra.
Qed.
Lemma cont_sum n m (f : nat -> vec -> R) : (forall k, (k < m)%nat -> cont n (f k)) -> cont n (fun x => \sum_(k < m) f k x).
Proof.
  induction m as [|m IH]; intros H.
  - exact (cont_const n 0).
  - change (cont n (fun x => (\sum_(k < m) f k x) + f m x)). apply cont_plus; [apply IH; intros k Hk; apply H; lia|apply H; lia].
Qed.
Lemma cont_dot n u : cont n (fun x => dot n u x).
Proof. apply cont_sum. intros k Hk. apply cont_mult; [apply cont_const|apply cont_proj; exact Hk]. Qed.
Lemma cont_normsq n : cont n (normsq n).
Proof. unfold normsq, dot. apply cont_sum. intros k Hk. apply cont_mult; apply cont_proj; exact Hk. Qed.
Lemma cont_quad n A : cont n (quad n A).
Proof.
  unfold quad, dot, mulv. apply cont_sum. intros k Hk. apply cont_mult; [apply cont_proj; exact Hk|].
  apply cont_sum. intros j Hj. apply cont_mult; [apply cont_const|apply cont_proj; exact Hj].
Qed.

(** A level set contains the limits of its points. *)
Lemma cont_limit_eq n f c x : cont n f -> (forall a, 0 < a -> exists y, f y = c /\ close n a y x) -> f x = c.
Proof.
  intros Hf H. destruct (Req_dec (f x) c) as [E|Hne]; [exact E|]. exfalso.
  destruct (Hf x (Rabs (c - f x))) as (d & Hd & Hy); [apply Rabs_pos_lt; lra|]. destruct (H d Hd) as (y & E & Hc). specialize (Hy y Hc). rewrite E in Hy. lra.
Qed.

(** ** The smallest value of a quadratic form on the unit vectors orthogonal to given ones *)

Lemma unit_coord n x i : normsq n x = 1 -> (i < n)%nat -> - 1 <= x i <= 1.
Proof.
  intros H Hi. assert (x i * x i <= 1).
  { rewrite <- H. unfold normsq, dot. apply (rsum_ge_term n (fun i => x i * x i) i); [|exact Hi]. intros j Hj. apply Rle_0_sqr. }
  split; nra.
Qed.

Definition orth (n m : nat) (U : mat) (x : vec) : Prop := forall k, (k < m)%nat -> dot n (fun i => U i k) x = 0.

Lemma min_attained n m (U : mat) (A : mat) :
  (exists x, normsq n x = 1 /\ orth n m U x) ->
  exists x, normsq n x = 1 /\ orth n m U x /\ forall y, normsq n y = 1 -> orth n m U y -> quad n A x <= quad n A y.
Proof.
  intros (z & Hz1 & Hz2). set (S := fun y => normsq n y = 1 /\ orth n m U y).
  assert (Lim : forall P : R -> vec -> Prop, (forall a y, P a y -> S y) ->
    forall x, (forall a, 0 < a -> exists y, P a y /\ close n a y x) -> S x).
  { intros P HP x Hx. split.
    - apply (cont_limit_eq n (normsq n)); [apply cont_normsq|]. intros a Ha. destruct (Hx a Ha) as (y & H1 & H2). exists y.
      split; [apply (HP a y H1)|exact H2].
    - intros k Hk. apply (cont_limit_eq n (fun x => dot n (fun i => U i k) x)); [apply cont_dot|]. intros a Ha.
      destruct (Hx a Ha) as (y & H1 & H2). exists y. split; [apply (HP a y H1); exact Hk|exact H2]. }
  (* bounded below *)
  assert (HB : exists b, forall y, S y -> b <= quad n A y).
  { apply NNPP. intros Hn.
    destruct (cluster n (fun a y => S y /\ quad n A y < - / a) 1) as (x & Hx).
    - intros a b y (Ha & Hab) (H1 & H2). split; [exact H1|].
      assert (/ b <= / a) by (apply Rinv_le_contravar; lra). lra.
    - intros a Ha. apply NNPP. intros Hk. apply Hn. exists (- / a). intros y Hy.
      destruct (Rle_or_lt (- / a) (quad n A y)) as [Hle|Hlt]; [exact Hle|]. exfalso. apply Hk. exists y. auto.
    - intros a y ((H1 & _) & _) i Hi. apply (unit_coord n); assumption.
    - destruct (cont_quad n A x 1 ltac:(lra)) as (d & Hd & Hc).
      set (K := Rabs (quad n A x) + 1). assert (HK : 0 < K) by (unfold K; pose proof (Rabs_pos (quad n A x)); lra).
      assert (HdK : 0 < Rmin d (/ K)) by (apply Rmin_glb_lt; [exact Hd|apply Rinv_0_lt_compat; exact HK]).
      destruct (Hx _ HdK) as (y & (Sy & Hq) & Hy).
      assert (Hy' : close n d y x) by (intros i Hi; specialize (Hy i Hi); pose proof (Rmin_l d (/ K)); lra).
      specialize (Hc y Hy'). apply Rabs_def2 in Hc.
      assert (Hinv : K <= / Rmin d (/ K)).
      { pose proof (Rinv_le_contravar _ _ HdK (Rmin_r d (/ K))) as Hi. rewrite Rinv_inv in Hi. exact Hi. }
      pose proof (Rle_abs (- quad n A x)) as Hab. rewrite Rabs_Ropp in Hab. assert (EK : K = Rabs (quad n A x) + 1) by reflexivity. lra. }
  destruct HB as (b & HB).
  set (E := fun t => exists y, S y /\ t = - quad n A y).
  destruct (completeness E) as (M & HM1 & HM2).
  { exists (- b). intros t (y & Hy & ->). specialize (HB y Hy). lra. }
  { exists (- quad n A z), z. split; [split; assumption|reflexivity]. }
  destruct (cluster n (fun a y => S y /\ quad n A y < - M + a) 1) as (x & Hx).
  - intros a c y (Ha & Hac) (H1 & H2). split; [exact H1|lra].
  - intros a Ha. apply NNPP. intros Hn. assert (Hu : is_upper_bound E (M - a)).
    { intros t (y & Hy & ->). destruct (Rlt_or_le (quad n A y) (- M + a)) as [Hlt|Hge]; [|lra]. exfalso. apply Hn. exists y. auto. }
    specialize (HM2 _ Hu). lra.
  - intros a y ((H1 & _) & _) i Hi. apply (unit_coord n); assumption.
  - assert (Sx : S x) by (apply (Lim (fun a y => S y /\ quad n A y < - M + a)); [intros a y (H & _); exact H|exact Hx]).
    exists x. split; [apply Sx|]. split; [apply Sx|]. intros y H1 H2.
    assert (HMy : - M <= quad n A y).
    { assert (He : E (- quad n A y)) by (exists y; split; [split; assumption|reflexivity]). specialize (HM1 _ He). lra. }
    destruct (Rle_or_lt (quad n A x) (- M)) as [Hle|Hgt]; [lra|]. exfalso.
    set (eps := (quad n A x + M) / 2). assert (He : 0 < eps) by (unfold eps; lra).
    destruct (cont_quad n A x eps He) as (d & Hd & Hc).
    assert (Hde : 0 < Rmin d eps) by (apply Rmin_glb_lt; assumption).
    destruct (Hx _ Hde) as (w & (Sw & Hq) & Hw).
    assert (Hw' : close n d w x) by (intros i Hi; specialize (Hw i Hi); pose proof (Rmin_l d eps); lra).
    specialize (Hc w Hw'). apply Rabs_def2 in Hc. pose proof (Rmin_r d eps). unfold eps in *. lra.
Qed.

(** ** Fewer than n linear conditions leave a unit vector *)

Lemma unit_of_nonzero n x : ~ vzero n x -> normsq n (fun i => / sqrt (normsq n x) * x i) = 1.
Proof.
  intros H. pose proof (normsq_pos n x H) as Hp. unfold normsq at 1. rewrite dot_scal_l, dot_scal_r.
  change (dot n x x) with (normsq n x). assert (Hs : sqrt (normsq n x) <> 0) by (apply Rgt_not_eq, sqrt_lt_R0; exact Hp).
  replace (normsq n x) with (sqrt (normsq n x) * sqrt (normsq n x)) at 3 by (apply sqrt_sqrt; lra). field. exact Hs.
Qed.

Lemma few_conditions n m (C : nat -> vec) : (m < n)%nat ->
  exists x, ~ vzero n x /\ forall k, (k < m)%nat -> dot n (C k) x = 0.
Proof.
  intros Hm. apply NNPP. intros Hn.
  set (A := fun i j => if Nat.ltb i m then C i j else 0).
  assert (HK : trivial_kernel n A).
  { intros x Hx. destruct (vzero_dec n x) as [Hz|(i & Hi & Hne)]; [exact Hz|]. exfalso. apply Hn. exists x. split.
    - intros Hz. apply Hne. apply Hz. exact Hi.
    - intros k Hk. specialize (Hx k ltac:(lia)). unfold mulv, A in Hx. destruct (Nat.ltb_spec k m); [|lia]. exact Hx. }
  destruct (solve_exists n A (fun i => if Nat.eqb i m then 1 else 0) HK) as (x & Hx).
  specialize (Hx m Hm). cbn beta in Hx. rewrite Nat.eqb_refl in Hx. unfold mulv, A in Hx.
  destruct (Nat.ltb_spec m m); [lia|]. rewrite rsum_0 in Hx; [lra|]. intros j Hj. ring.
Qed.

(** ** Existence *)

Lemma quad_scal n A c x : quad n A (fun i => c * x i) = c * c * quad n A x.
Proof.
  unfold quad. rewrite dot_scal_l. rewrite (dot_ext n x x (mulv n A (fun i => c * x i)) (fun i => c * mulv n A x i)).
  - rewrite dot_scal_r. ring.
  - intros i Hi. reflexivity.
  - intros i Hi. apply mulv_scal.
Qed.
Lemma normsq_scal n c x : normsq n (fun i => c * x i) = c * c * normsq n x.
Proof. unfold normsq. rewrite dot_scal_l, dot_scal_r. ring. Qed.

Lemma quad_line n A x z t : symmetric n A ->
  quad n A (fun i => x i + t * z i) = quad n A x + 2 * t * dot n z (mulv n A x) + t * t * quad n A z.
Proof.
  intros Hs. unfold quad at 1.
  rewrite (dot_ext n _ (fun i => x i + t * z i) (mulv n A (fun i => x i + t * z i)) (fun i => mulv n A x i + t * mulv n A z i)).
  - rewrite dot_plus_r, dot_scal_r, !dot_plus_l, !dot_scal_l. unfold quad.
    rewrite (dot_mulv_sym n A x z Hs). rewrite (dot_comm n (mulv n A x) z). ring.
  - intros i Hi. reflexivity.
  - intros i Hi. rewrite mulv_plus, mulv_scal. reflexivity.
Qed.
Lemma normsq_line n x z t : normsq n (fun i => x i + t * z i) = normsq n x + 2 * t * dot n z x + t * t * normsq n z.
Proof. unfold normsq. rewrite dot_plus_r, dot_scal_r, !dot_plus_l, !dot_scal_l. rewrite (dot_comm n x z). ring. Qed.

(** A nonnegative parabola that vanishes at 0 has no linear term. *)
Lemma no_linear_term b c : (forall t, 0 <= 2 * t * b + t * t * c) -> b = 0.
Proof.
  intros H. destruct (Req_dec b 0) as [E|Hne]; [exact E|]. exfalso.
  destruct (Rle_or_lt c 0) as [Hc|Hc].
  - specialize (H (- b)). assert (0 < b * b) by nra. nra.
  - specialize (H (- b / c)). assert (E : 2 * (- b / c) * b + - b / c * (- b / c) * c = - (b * b / c)) by (field; lra).
    rewrite E in H. assert (0 < b * b / c) by (apply Rdiv_lt_0_compat; nra). lra.
Qed.

Record partial (n m : nat) (A : mat) (e : vec) (U : mat) : Prop := {
  pt_cols : orthonormal_cols n m U;
  pt_eig : forall i k, (i < n)%nat -> (k < m)%nat -> mulv n A (fun j => U j k) i = e k * U i k;
  pt_sort : forall k l, (k <= l)%nat -> (l < m)%nat -> e k <= e l;
  pt_rest : forall k z, (k < m)%nat -> orth n m U z -> e k * normsq n z <= quad n A z }.

Lemma partial_exists n A : symmetric n A -> forall m, (m <= n)%nat -> exists e U, partial n m A e U.
Proof.
  intros Hs. induction m as [|m IH]; intros Hm.
  - exists (fun _ => 0), (fun _ _ => 0). split; [intros k l Hk|intros i k Hi Hk|intros k l Hk Hl|intros k z Hk]; lia.
  - destruct IH as (e & U & [Hc He Hso Hre]); [lia|].
    destruct (few_conditions n m (fun k i => U i k) ltac:(lia)) as (w & Hw & Hwo).
    destruct (min_attained n m U A) as (x & Hx1 & Hx2 & Hmin).
    { exists (fun i => / sqrt (normsq n w) * w i). split; [apply unit_of_nonzero; exact Hw|].
      intros k Hk. rewrite dot_scal_r, (Hwo k Hk). ring. }
    set (lam := quad n A x).
    assert (Hall : forall z, orth n m U z -> lam * normsq n z <= quad n A z).
    { intros z Hz. destruct (vzero_dec n z) as [Hz0|Hnz].
      - assert (E1 : normsq n z = 0) by (unfold normsq, dot; apply rsum_0; intros i Hi; rewrite (Hz0 i Hi); ring).
        assert (E2 : quad n A z = 0) by (unfold quad, dot; apply rsum_0; intros i Hi; rewrite (Hz0 i Hi); ring).
        rewrite E1, E2. lra.
      - assert (Hz0 : ~ vzero n z) by (intros Hv; destruct Hnz as (i & Hi & Hne); apply Hne, Hv, Hi).
        assert (Hle : lam <= quad n A (fun i => / sqrt (normsq n z) * z i)).
        { apply Hmin; [apply unit_of_nonzero; exact Hz0|]. intros k Hk. rewrite dot_scal_r, (Hz k Hk). ring. }
        rewrite quad_scal in Hle. pose proof (normsq_pos n z Hz0) as Hp.
        rewrite <- Rinv_mult in Hle. rewrite sqrt_sqrt in Hle by lra.
        apply (Rmult_le_compat_r (normsq n z)) in Hle; [|lra].
        replace (/ normsq n z * quad n A z * normsq n z) with (quad n A z) in Hle by (field; lra). exact Hle. }
    assert (Hcrit : forall z, orth n m U z -> dot n z (fun i => mulv n A x i - lam * x i) = 0).
    { intros z Hz. apply (no_linear_term _ (quad n A z - lam * normsq n z)). intros t.
      assert (Ho : orth n m U (fun i => x i + t * z i)).
      { intros k Hk. rewrite dot_plus_r, dot_scal_r, (Hx2 k Hk), (Hz k Hk). ring. }
      specialize (Hall _ Ho). rewrite quad_line, normsq_line in Hall by exact Hs. rewrite Hx1 in Hall.
      rewrite dot_minus_r, dot_scal_r. fold lam in Hall.
      match goal with |- 0 <= ?r => match type of Hall with ?a <= ?b => replace r with (b - a) by ring end end. lra. }
    assert (Hres : orth n m U (fun i => mulv n A x i - lam * x i)).
    { intros k Hk. rewrite dot_minus_r, dot_scal_r, (Hx2 k Hk). rewrite dot_mulv_sym by exact Hs.
      rewrite (dot_ext n _ (fun i => e k * U i k) x x); [|intros i Hi; apply He; assumption|intros i Hi; reflexivity].
      rewrite dot_scal_l, (Hx2 k Hk). ring. }
    assert (Hev : forall i, (i < n)%nat -> mulv n A x i = lam * x i).
    { pose proof (normsq_zero n _ (Hcrit _ Hres)) as Hz. intros i Hi. specialize (Hz i Hi). cbn beta in Hz. lra. }
    set (U' := fun i k => if Nat.eqb k m then x i else U i k). set (e' := fun k => if Nat.eqb k m then lam else e k).
    assert (HU : forall k, (k < m)%nat -> forall i, U' i k = U i k).
    { intros k Hk i. unfold U'. destruct (Nat.eqb_spec k m); [lia|reflexivity]. }
    assert (HUm : forall i, U' i m = x i) by (intros i; unfold U'; rewrite Nat.eqb_refl; reflexivity).
    assert (He' : forall k, (k < m)%nat -> e' k = e k) by (intros k Hk; unfold e'; destruct (Nat.eqb_spec k m); [lia|reflexivity]).
    assert (Hem : e' m = lam) by (unfold e'; rewrite Nat.eqb_refl; reflexivity).
    exists e', U'. split.
    + intros k l Hk Hl. destruct (Nat.eq_dec k m) as [->|Hkm]; destruct (Nat.eq_dec l m) as [->|Hlm].
      * rewrite Nat.eqb_refl. erewrite rsum_ext; [|intros i Hi; rewrite HUm; reflexivity]. exact Hx1.
      * destruct (Nat.eqb_spec m l); [lia|]. erewrite rsum_ext; [|intros i Hi; rewrite HUm, (HU l) by lia; apply Rmult_comm].
        exact (Hx2 l ltac:(lia)).
      * destruct (Nat.eqb_spec k m); [lia|]. erewrite rsum_ext; [|intros i Hi; rewrite HUm, (HU k) by lia; reflexivity].
        exact (Hx2 k ltac:(lia)).
      * erewrite rsum_ext; [|intros i Hi; rewrite (HU k), (HU l) by lia; reflexivity]. apply Hc; lia.
    + intros i k Hi Hk. destruct (Nat.eq_dec k m) as [->|Hkm].
      * rewrite Hem, HUm, <- (Hev i Hi). apply mulv_ext; [reflexivity|]. intros j Hj. apply HUm.
      * rewrite He', HU by lia. rewrite <- He by lia. apply mulv_ext; [reflexivity|]. intros j Hj. apply HU. lia.
    + intros k l Hkl Hl. destruct (Nat.eq_dec l m) as [->|Hlm].
      * rewrite Hem. destruct (Nat.eq_dec k m) as [->|Hkm]; [rewrite Hem; lra|]. rewrite He' by lia.
        pose proof (Hre k x ltac:(lia) Hx2) as H. rewrite Hx1 in H. fold lam in H. lra.
      * rewrite !He' by lia. apply Hso; lia.
    + intros k z Hk Hz. assert (Hzm : orth n m U z).
      { intros j Hj. specialize (Hz j ltac:(lia)). rewrite (dot_ext n (fun i => U i j) (fun i => U' i j) z z); [exact Hz| |].
        - intros i Hi. symmetry. apply HU. exact Hj.
        - intros i Hi. reflexivity. }
      destruct (Nat.eq_dec k m) as [->|Hkm]; [rewrite Hem; apply Hall; exact Hzm|]. rewrite He' by lia. apply Hre; [lia|exact Hzm].
Qed.

Lemma cols_rows n U : orthonormal_cols n n U -> orthonormal_cols n n (tr U).
Proof.
  intros Hc.
  assert (HVU : forall x k, (k < n)%nat -> \sum_(i < n) (U i k * mulv n U x i) = x k).
  { intros x k Hk. unfold mulv. erewrite rsum_ext; [|intros i Hi; rewrite <- rsum_scal_l; reflexivity].
    rewrite rsum_swap. erewrite rsum_ext.
    2:{ intros l Hl. instantiate (1 := fun l => (if Nat.eqb k l then 1 else 0) * x l). cbn beta. rewrite <- (Hc k l Hk Hl), <- rsum_scal_r.
        apply rsum_ext. intros i Hi. ring. }
    rewrite (rsum_single n _ k Hk); [rewrite Nat.eqb_refl; ring|]. intros j Hj Hne. destruct (Nat.eqb_spec k j); [lia|ring]. }
  assert (HK : trivial_kernel n U).
  { intros x Hx k Hk. rewrite <- (HVU x k Hk). apply rsum_0. intros i Hi. rewrite (Hx i Hi). ring. }
  destruct (solve_matrix n n U idm HK) as (X & HX).
  assert (EX : forall k j, (k < n)%nat -> (j < n)%nat -> X k j = U j k).
  { intros k j Hk Hj. rewrite <- (HVU (fun l => X l j) k Hk).
    erewrite rsum_ext; [|intros i Hi; rewrite (HX i j Hi Hj : mulv n U (fun l => X l j) i = _); reflexivity].
    rewrite (rsum_single n _ j Hj); [unfold idm; rewrite Nat.eqb_refl; ring|]. intros i Hi Hne. unfold idm. destruct (Nat.eqb_spec i j); [lia|ring]. }
  intros k l Hk Hl. unfold tr. specialize (HX k l Hk Hl). unfold idm in HX. rewrite <- HX. unfold mulm. apply rsum_ext. intros i Hi.
  rewrite EX by assumption. reflexivity.
Qed.

Theorem spectral_theorem n A : symmetric n A -> exists e U, eigh_ok n A e U.
Proof.
  intros Hs. destruct (partial_exists n A Hs n (le_n n)) as (e & U & [Hc He Hso _]). exists e, U.
  split; [exact Hc|apply cols_rows; exact Hc|exact He|exact Hso].
Qed.
