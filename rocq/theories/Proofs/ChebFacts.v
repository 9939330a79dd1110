(** Chebyshev polynomials and the discrete cosine orthogonality behind compute_cheby_coeff. *)
From Coq Require Import Reals Lra Lia List Arith Bool.
From Verif.Base Require Import RSum Prelude LinAlg.
From Verif.Spec Require Import Matrix NdArray FilterSpec.
From Verif.Model Require Import Sparse Graph Traverse Cache Filter.
Import ListNotations.
Open Scope R_scope.

Lemma chebT_cos k t : chebT k (cos t) = cos (INR k * t).
Proof.
  cut (chebT k (cos t) = cos (INR k * t) /\ chebT (S k) (cos t) = cos (INR (S k) * t)); [tauto|].
  induction k as [|k (IH1 & IH2)].
  - cbn [chebT]. cbn [INR]. rewrite Rmult_0_l, Rmult_1_l, cos_0. auto.
  - split; [exact IH2|].
    change (chebT (S (S k)) (cos t)) with (2 * cos t * chebT (S k) (cos t) - chebT k (cos t)). rewrite IH1, IH2.
    replace (INR (S (S k)) * t) with (INR (S k) * t + t) by (rewrite (S_INR (S k)); ring).
    replace (INR k * t) with (INR (S k) * t - t) by (rewrite (S_INR k); ring).
    rewrite cos_plus, cos_minus. ring.
Qed.

Lemma cos_sum N phi : 2 * sin (phi / 2) * (\sum_(j < N) cos (phi * (INR j + /2))) = sin (INR N * phi).
Proof.
  induction N as [|N IH].
  - cbn [rsum INR]. rewrite Rmult_0_l, sin_0. ring.
  - cbn [rsum]. rewrite Rmult_plus_distr_l, IH.
    replace (INR N * phi) with (phi * (INR N + /2) - phi / 2) by field.
    replace (INR (S N) * phi) with (phi * (INR N + /2) + phi / 2) by (rewrite S_INR; field).
    rewrite sin_plus, sin_minus. ring.
Qed.

Lemma sin_kPI k : sin (INR k * PI) = 0.
Proof. apply sin_eq_0_1. exists (Z.of_nat k). rewrite INR_IZR_INZ. reflexivity. Qed.

Lemma cos_sum_zero N k : (0 < k)%nat -> (k < 2 * N)%nat -> \sum_(j < N) cos (PI * INR k * (INR j + /2) / INR N) = 0.
Proof.
  intros Hk HkN. assert (HN : (0 < INR N)) by (apply lt_0_INR; lia).
  pose proof (cos_sum N (PI * INR k / INR N)) as E.
  replace (INR N * (PI * INR k / INR N)) with (INR k * PI) in E by (field; lra). rewrite sin_kPI in E.
  assert (Hs : 0 < sin (PI * INR k / INR N / 2)).
  { assert (0 < INR k) by (apply lt_0_INR; lia). assert (INR k < 2 * INR N).
    { replace 2 with (INR 2) by (cbn; lra). rewrite <- mult_INR. apply lt_INR. lia. }
    pose proof PI_RGT_0. apply sin_gt_0.
    - apply Rdiv_lt_0_compat; [apply Rdiv_lt_0_compat; [apply Rmult_lt_0_compat|]|]; lra.
    - apply Rmult_lt_reg_r with (2 * INR N); [lra|]. replace (PI * INR k / INR N / 2 * (2 * INR N)) with (PI * INR k) by (field; lra).
      apply Rmult_lt_compat_l; lra. }
  apply Rmult_integral in E. destruct E as [E|E]; [lra|]. rewrite <- E. apply rsum_ext. intros j Hj. f_equal. field. lra.
Qed.

Lemma cos_orth N k l : (k < N)%nat -> (l < N)%nat ->
  \sum_(j < N) (cos (PI * INR k * (INR j + /2) / INR N) * cos (PI * INR l * (INR j + /2) / INR N)) =
  if Nat.eqb k l then (if Nat.eqb k 0 then INR N else INR N / 2) else 0.
Proof.
  intros Hk Hl. assert (HN : (0 < INR N)) by (apply lt_0_INR; lia).
  assert (E : forall a b, (a <= b)%nat -> (b < N)%nat -> \sum_(j < N) (cos (PI * INR a * (INR j + /2) / INR N) * cos (PI * INR b * (INR j + /2) / INR N)) =
    / 2 * (\sum_(j < N) cos (PI * INR (b - a) * (INR j + /2) / INR N)) + / 2 * (\sum_(j < N) cos (PI * INR (a + b) * (INR j + /2) / INR N))).
  { intros a b Hab Hb. rewrite <- !rsum_scal_l, <- rsum_plus. apply rsum_ext. intros j Hj.
    replace (PI * INR (b - a) * (INR j + / 2) / INR N) with (PI * INR b * (INR j + /2) / INR N - PI * INR a * (INR j + /2) / INR N)
      by (rewrite minus_INR by exact Hab; field; lra).
    replace (PI * INR (a + b) * (INR j + / 2) / INR N) with (PI * INR b * (INR j + /2) / INR N + PI * INR a * (INR j + /2) / INR N)
      by (rewrite plus_INR; field; lra).
    rewrite cos_minus, cos_plus. field. }
  assert (Z : forall a b, (a <= b)%nat -> (b < N)%nat -> \sum_(j < N) (cos (PI * INR a * (INR j + /2) / INR N) * cos (PI * INR b * (INR j + /2) / INR N)) =
    if Nat.eqb a b then (if Nat.eqb a 0 then INR N else INR N / 2) else 0).
  { intros a b Hab Hb. rewrite E by assumption. destruct (Nat.eqb_spec a b) as [->|Hne].
    - rewrite Nat.sub_diag. rewrite (rsum_ext N _ (fun _ => 1)).
      2:{ intros j Hj. cbn [INR]. replace (PI * 0 * (INR j + / 2) / INR N) with 0 by (field; lra). apply cos_0. }
      rewrite rsum_const. destruct (Nat.eqb_spec b 0) as [->|Hb0].
      + rewrite (rsum_ext N _ (fun _ => 1)).
        2:{ intros j Hj. cbn [INR Nat.add]. replace (PI * 0 * (INR j + / 2) / INR N) with 0 by (field; lra). apply cos_0. }
        rewrite rsum_const. lra.
      + rewrite cos_sum_zero by lia. lra.
    - rewrite !cos_sum_zero by lia. lra. }
  destruct (Nat.le_ge_cases k l) as [Hkl|Hkl]; [apply Z; assumption|].
  rewrite (rsum_ext N _ (fun j => cos (PI * INR l * (INR j + /2) / INR N) * cos (PI * INR k * (INR j + /2) / INR N))) by (intros; ring).
  rewrite Z by assumption. rewrite (Nat.eqb_sym k l). destruct (Nat.eqb_spec l k) as [->|]; reflexivity.
Qed.

(** Functions that are combinations of T_0 .. T_m. *)
Definition tspan (m : nat) (f : R -> R) : Prop := exists b, forall y, f y = \sum_(l < S m) (b l * chebT l y).

Lemma tspan_lin m a b f g : tspan m f -> tspan m g -> tspan m (fun y => a * f y + b * g y).
Proof.
  intros (u & Hu) (w & Hw). exists (fun l => a * u l + b * w l). intros y. rewrite Hu, Hw.
  rewrite <- !rsum_scal_l, <- rsum_plus. apply rsum_ext. intros; ring.
Qed.
Lemma tspan_T m k : (k <= m)%nat -> tspan m (chebT k).
Proof.
  intros Hk. exists (fun l => if Nat.eqb l k then 1 else 0). intros y. rewrite (rsum_single (S m) _ k); [|lia|].
  - rewrite Nat.eqb_refl. ring.
  - intros l Hl Hne. destruct (Nat.eqb_spec l k); [contradiction|ring].
Qed.
Lemma tspan_ext m f g : (forall y, f y = g y) -> tspan m f -> tspan m g.
Proof. intros E (b & Hb). exists b. intros y. rewrite <- E. apply Hb. Qed.
Lemma tspan_sum m k (b : nat -> R) (f : nat -> R -> R) : (forall l, (l < k)%nat -> tspan m (f l)) -> tspan m (fun y => \sum_(l < k) (b l * f l y)).
Proof.
  induction k as [|k IH]; intros H.
  - exists (fun _ => 0). intros y. symmetry. apply rsum_0. intros; ring.
  - apply tspan_ext with (fun y => 1 * (\sum_(l < k) (b l * f l y)) + b k * f k y); [intros; cbn [rsum]; ring|].
    apply tspan_lin; [apply IH; intros; apply H; lia|apply H; lia].
Qed.
Lemma tspan_mono m m' f : (m <= m')%nat -> tspan m f -> tspan m' f.
Proof.
  intros Hm (b & Hb). apply tspan_ext with (fun y => \sum_(l < S m) (b l * chebT l y)); [intros; symmetry; apply Hb|].
  apply (tspan_sum m' (S m) b chebT). intros l Hl. apply tspan_T. lia.
Qed.
Lemma tspan_yT m l : (l < m)%nat -> tspan m (fun y => y * chebT l y).
Proof.
  intros Hl. destruct l as [|l].
  - apply tspan_ext with (chebT 1); [intros; cbn; ring|]. apply tspan_T. lia.
  - apply tspan_ext with (fun y => /2 * chebT (S (S l)) y + /2 * chebT l y).
    + intros y. change (chebT (S (S l)) y) with (2 * y * chebT (S l) y - chebT l y). field.
    + apply tspan_lin; apply tspan_T; lia.
Qed.
Lemma tspan_mul m p q f : tspan m f -> tspan (S m) (fun y => (p * y + q) * f y).
Proof.
  intros (b & Hb).
  apply tspan_ext with (fun y => p * (\sum_(l < S m) (b l * (y * chebT l y))) + q * (\sum_(l < S m) (b l * chebT l y))).
  - intros y. rewrite Hb. rewrite Rmult_plus_distr_r. f_equal. rewrite Rmult_assoc. f_equal. rewrite <- rsum_scal_l. apply rsum_ext; intros; ring.
  - apply tspan_lin.
    + apply (tspan_sum (S m) (S m) b (fun l y => y * chebT l y)). intros l Hl. apply tspan_yT. lia.
    + apply (tspan_sum (S m) (S m) b chebT). intros l Hl. apply tspan_T. lia.
Qed.

(** Polynomials given by their coefficients. *)
Fixpoint peval (a : list R) (x : R) : R := match a with [] => 0 | c :: a' => c + x * peval a' x end.

Lemma tspan_poly a m p q : (List.length a <= S m)%nat -> tspan m (fun y => peval a (p * y + q)).
Proof.
  revert m. induction a as [|c a IH]; intros m Hm.
  - exists (fun _ => 0). intros y. symmetry. apply rsum_0. intros; ring.
  - cbn in Hm. destruct m as [|m].
    + destruct a; [|cbn in Hm; lia]. exists (fun _ => c). intros y. cbn. ring.
    + apply tspan_ext with (fun y => c * chebT 0 y + 1 * ((p * y + q) * peval a (p * y + q))); [intros; cbn; ring|].
      apply tspan_lin; [apply tspan_T; lia|]. apply tspan_mul. apply IH. lia.
Qed.

(** The coefficients computed from samples of a function in the span. *)
Definition dct (N : nat) (y : nat -> R) (o : nat) : R :=
  2 / INR N * (\sum_(j < N) (y j * cos (PI * INR o * (INR j + /2) / INR N))).

Lemma dct_span m N f b o : (m < N)%nat -> (o <= m)%nat ->
  (forall y, f y = \sum_(l < S m) (b l * chebT l y)) ->
  dct N (fun j => f (cos (PI * (INR j + /2) / INR N))) o = if Nat.eqb o 0 then 2 * b 0%nat else b o.
Proof.
  intros HmN Ho Hf. assert (HN : 0 < INR N) by (apply lt_0_INR; lia). unfold dct.
  rewrite (rsum_ext N _ (fun j => \sum_(l < S m) (b l * (cos (PI * INR l * (INR j + /2) / INR N) * cos (PI * INR o * (INR j + /2) / INR N))))).
  2:{ intros j Hj. rewrite Hf, <- rsum_scal_r. apply rsum_ext. intros l Hl. rewrite chebT_cos.
      replace (INR l * (PI * (INR j + / 2) / INR N)) with (PI * INR l * (INR j + /2) / INR N) by (field; lra). ring. }
  rewrite rsum_swap. rewrite (rsum_single (S m) _ o); [|lia|].
  - rewrite rsum_scal_l, cos_orth by lia. rewrite Nat.eqb_refl. destruct (Nat.eqb_spec o 0) as [->|]; field; lra.
  - intros l Hl Hne. rewrite rsum_scal_l, cos_orth by lia. destruct (Nat.eqb_spec l o); [contradiction|ring].
Qed.

Lemma dct_series m N f o : (m < N)%nat -> tspan m f -> (m <= o)%nat -> (o < N)%nat -> forall y,
  cheb_series (map (dct N (fun j => f (cos (PI * (INR j + /2) / INR N)))) (seq 0 (S o))) y = f y.
Proof.
  intros HmN Hsp Hmo HoN y. destruct (tspan_mono m o f Hmo Hsp) as (b & Hb). unfold cheb_series.
  rewrite map_length, seq_length. replace (S o - 1)%nat with o by lia.
  rewrite !nth_map_seq by lia. rewrite (dct_span o N f b 0 HoN ltac:(lia) Hb). cbn [Nat.eqb].
  rewrite Hb, rsum_S_first. f_equal.
  - cbn. field.
  - apply rsum_ext. intros k Hk. rewrite nth_map_seq by lia. rewrite (dct_span o N f b (S k) HoN ltac:(lia) Hb). reflexivity.
Qed.

(** compute_cheby_coeff on a polynomial kernel yields its Chebyshev expansion. *)
Lemma cheby_coeff1_poly lmax a m : 0 < lmax -> (List.length a <= S m)%nat ->
  exists c, cheby_coeff1 lmax (pw (peval a)) m None = Ok c /\ List.length c = S m /\
    forall x, cheb_series c (2 * x / lmax - 1) = peval a x.
Proof.
  intros Hl Ha. unfold cheby_coeff1, pw. cbn [bindr]. unfold cheby_nodes. rewrite !map_length, seq_length, Nat.eqb_refl. cbn [negb].
  eexists. split; [reflexivity|]. split; [rewrite map_length, seq_length; reflexivity|]. intros x.
  pose proof (tspan_poly a m (lmax / 2) (lmax / 2) Ha) as Hsp.
  transitivity (peval a (lmax / 2 * (2 * x / lmax - 1) + lmax / 2)); [|f_equal; field; lra].
  rewrite <- (dct_series m (S m) (fun y => peval a (lmax / 2 * y + lmax / 2)) m ltac:(lia) Hsp ltac:(lia) ltac:(lia) (2 * x / lmax - 1)).
  f_equal. apply map_ext_in. intros o Ho. unfold dct. f_equal. apply rsum_ext. intros j Hj.
  rewrite map_map, nth_map_seq by exact Hj. reflexivity.
Qed.
