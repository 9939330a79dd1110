(** C20: how fast the Chebyshev method approaches the exact method. *)
From Coq Require Import Reals Lra Lia List Arith Bool.
From Coq Require Import List.
From Verif.Base Require Import RSum Prelude LinAlg.
From Verif.Spec Require Import Matrix NdArray FilterSpec StabSpec.
From Verif.Model Require Import Sparse Graph Traverse Cache Filter Kernels.
From Verif.Proofs Require Import SpectralFacts FilterFacts ChebFacts.
From Verif.Props Require Import Caching Filtering ChebInterp StabilityProps.
Import ListNotations.
Open Scope R_scope.

(** ** The series against any combination of T_0 .. T_o *)
Lemma chebT_le1 k y : -1 <= y <= 1 -> Rabs (chebT k y) <= 1.
Proof. intros Hy. rewrite <- (cos_acos y Hy). rewrite chebT_cos. apply Rabs_le, COS_bound. Qed.
Lemma dct_bound m h E o : (forall j, (j <= m)%nat -> Rabs (h j) <= E) -> Rabs (dct (S m) h o) <= 2 * E.
Proof.
  intros H. unfold dct. assert (HN : 0 < INR (S m)) by (apply lt_0_INR; lia). rewrite Rabs_mult, (Rabs_pos_eq (2 / INR (S m))).
  2:{ left. apply Rdiv_lt_0_compat; lra. }
  apply Rle_trans with (2 / INR (S m) * (INR (S m) * E)); [|right; field; lra].
  apply Rmult_le_compat_l; [left; apply Rdiv_lt_0_compat; lra|]. eapply Rle_trans; [apply rsum_abs|]. rewrite <- rsum_const. apply rsum_le. intros j Hj.
  rewrite Rabs_mult. assert (Rabs (cos (PI * INR o * (INR j + / 2) / INR (S m))) <= 1) by (apply Rabs_le, COS_bound).
  specialize (H j ltac:(lia)). pose proof (Rabs_pos (h j)). pose proof (Rabs_pos (cos (PI * INR o * (INR j + / 2) / INR (S m)))). nra.
Qed.
Lemma dct_minus m u v o : dct (S m) u o - dct (S m) v o = dct (S m) (fun j => u j - v j) o.
Proof. unfold dct. rewrite <- Rmult_minus_distr_l, <- rsum_minus. f_equal. apply rsum_ext. intros; ring. Qed.

Lemma near_span lmax g o f E : 0 < lmax -> tspan o f -> (forall y, -1 <= y <= 1 -> Rabs (g (lmax / 2 * y + lmax / 2) - f y) <= E) ->
  exists c, cheby_coeff1 lmax (pw g) o None = Ok c /\
    forall y, -1 <= y <= 1 -> Rabs (cheb_series c y - g (lmax / 2 * y + lmax / 2)) <= INR (2 * o + 2) * E.
Proof.
  intros Hl Hsp Hf. unfold cheby_coeff1, pw. cbn [bindr]. unfold cheby_nodes. rewrite !map_length, seq_length, Nat.eqb_refl. cbn [negb].
  eexists. split; [reflexivity|]. intros y Hy.
  set (G := fun j => g (lmax / 2 * node o j + lmax / 2)). set (Fn := fun j => f (node o j)).
  assert (Es : cheb_series (map (fun o0 => 2 / INR (S o) * \sum_(j < S o) (nth j (map g (map (fun j0 => lmax / 2 * cos (PI * (INR j0 + / 2) / INR (S o)) + lmax / 2) (seq 0 (S o)))) 0 * cos (PI * INR o0 * (INR j + / 2) / INR (S o)))) (seq 0 (S o))) y
    = cheb_series (map (dct (S o) G) (seq 0 (S o))) y).
  { f_equal. apply map_ext_in. intros o' Ho. unfold dct. f_equal. apply rsum_ext. intros j Hj. rewrite map_map, nth_map_seq by exact Hj. reflexivity. }
  rewrite Es. clear Es.
  assert (Ef : cheb_series (map (dct (S o) Fn) (seq 0 (S o))) y = f y).
  { apply (dct_series o (S o) f o ltac:(lia) Hsp ltac:(lia) ltac:(lia) y). }
  set (D := fun j => G j - Fn j).
  assert (E0 : 0 <= E) by (eapply Rle_trans; [apply Rabs_pos|apply (Hf y Hy)]).
  assert (HD : forall j, (j <= o)%nat -> Rabs (D j) <= E) by (intros j Hj; apply Hf, node_range).
  assert (Ed : cheb_series (map (dct (S o) G) (seq 0 (S o))) y - f y = dct (S o) D 0 / 2 + \sum_(k < o) (dct (S o) D (S k) * chebT (S k) y)).
  { rewrite <- Ef. unfold cheb_series. rewrite !map_length, seq_length. replace (S o - 1)%nat with o by lia. rewrite !nth_map_seq by lia.
    cbn [Nat.add]. unfold D. rewrite <- dct_minus.
    rewrite (rsum_ext o (fun k => dct (S o) (fun j => G j - Fn j) (S k) * chebT (S k) y)
      (fun k => nth (S k) (map (dct (S o) G) (seq 0 (S o))) 0 * chebT (S k) y - nth (S k) (map (dct (S o) Fn) (seq 0 (S o))) 0 * chebT (S k) y)).
    - rewrite rsum_minus. lra.
    - intros k Hk. rewrite !nth_map_seq by lia. cbn [Nat.add]. rewrite <- dct_minus. ring. }
  replace (cheb_series (map (dct (S o) G) (seq 0 (S o))) y - g (lmax / 2 * y + lmax / 2))
    with ((cheb_series (map (dct (S o) G) (seq 0 (S o))) y - f y) - (g (lmax / 2 * y + lmax / 2) - f y)) by ring.
  rewrite Ed. clear Ed Ef.
  assert (B1 : Rabs (dct (S o) D 0 / 2) <= E).
  { pose proof (dct_bound o D E 0 HD). unfold Rdiv. rewrite Rabs_mult, (Rabs_pos_eq (/ 2)) by lra. lra. }
  assert (B2 : Rabs (\sum_(k < o) (dct (S o) D (S k) * chebT (S k) y)) <= INR o * (2 * E)).
  { eapply Rle_trans; [apply rsum_abs|]. rewrite <- rsum_const. apply rsum_le. intros k Hk. rewrite Rabs_mult.
    pose proof (dct_bound o D E (S k) HD). pose proof (chebT_le1 (S k) y Hy). pose proof (Rabs_pos (dct (S o) D (S k))). pose proof (Rabs_pos (chebT (S k) y)). nra. }
  pose proof (Hf y Hy) as B3.
  replace (INR (2 * o + 2)) with (2 * INR o + 2) by (rewrite plus_INR, mult_INR; cbn; ring).
  eapply Rle_trans; [apply Rabs_triang|]. rewrite Rabs_Ropp. eapply Rle_trans; [apply Rplus_le_compat_r, Rabs_triang|]. lra.
Qed.
Lemma near_spans lmax o : 0 < lmax -> forall gs (fs : nat -> R -> R) (E : nat -> R),
  (forall i, (i < List.length gs)%nat -> tspan o (fs i) /\ forall y, -1 <= y <= 1 -> Rabs (nth i gs (fun _ => 0) (lmax / 2 * y + lmax / 2) - fs i y) <= E i) ->
  exists c, mapr (fun k => cheby_coeff1 lmax k o None) (map pw gs) = Ok c /\
    forall i y, (i < List.length gs)%nat -> -1 <= y <= 1 -> Rabs (cheb_series (nth i c []) y - nth i gs (fun _ => 0) (lmax / 2 * y + lmax / 2)) <= INR (2 * o + 2) * E i.
Proof.
  intros Hl. induction gs as [|g gs IH]; intros fs E H.
  - exists []. split; [reflexivity|]. intros; cbn in *; lia.
  - destruct (IH (fun i => fs (S i)) (fun i => E (S i))) as (c & Ec & Hc). { intros i Hi. apply (H (S i)). cbn; lia. }
    destruct (H 0%nat ltac:(cbn; lia)) as (Hs & Hn). destruct (near_span lmax g o (fs 0%nat) (E 0%nat) Hl Hs Hn) as (c0 & E0 & H0).
    exists (c0 :: c). cbn [map mapr]. rewrite E0. cbn [bindr]. rewrite Ec. split; [reflexivity|].
    intros [|i] y Hi Hy; cbn [nth]; [apply H0; exact Hy|apply Hc; [cbn in Hi; lia|exact Hy]].
Qed.

(** The spectrum is in [0, lmax]. *)
Definition within (F : view) : Prop := forall k, (k < v_N F)%nat -> 0 <= nth k (v_e F) 0 <= v_lmax F.
Lemma to_unit lmax x : 0 < lmax -> 0 <= x <= lmax -> -1 <= 2 * x / lmax - 1 <= 1.
Proof.
  intros Hl Hx. assert (0 <= x / lmax <= 1).
  { split; [apply Rmult_le_pos; [lra|left; apply Rinv_0_lt_compat; exact Hl]|]. apply Rmult_le_reg_r with lmax; [exact Hl|]. unfold Rdiv. rewrite Rmult_assoc, Rinv_l by lra. lra. }
  replace (2 * x / lmax) with (2 * (x / lmax)) by (field; lra). lra.
Qed.
(** the two methods on the same signal when the gains differ by at most d *)
Lemma gains_close F gs o H f d x : spectral F -> response F (map pw gs) (Chebyshev o) H -> (f < List.length gs)%nat -> 0 <= d ->
  (forall k, (k < v_N F)%nat -> Rabs (H f k - nth f gs (fun _ => 0) (nth k (v_e F) 0)) <= d) ->
  exists oc oe, gfilter F (map pw gs) (Chebyshev o) (vec_arr (v_N F) x) = Ok oc /\ gfilter F (map pw gs) Exact (vec_arr (v_N F) x) = Ok oe /\
    norm2 (v_N F) (vminus (ans F (List.length gs) oc f) (ans F (List.length gs) oe f)) <= d * norm2 (v_N F) x.
Proof.
  intros HF R1 Hf Hd0 Hd. pose proof (response_pw F gs HF) as R2.
  destruct (one_signal F _ _ H x HF R1) as (oc & E1 & _). destruct (one_signal F _ _ _ x HF R2) as (oe & E2 & _).
  exists oc, oe. split; [exact E1|]. split; [exact E2|]. apply norm2_le; [apply Rmult_le_pos; [exact Hd0|apply norm2_nonneg]|].
  replace (d * norm2 (v_N F) x * (d * norm2 (v_N F) x)) with (d * d * (norm2 (v_N F) x * norm2 (v_N F) x)) by ring. rewrite norm2_sq.
  pose proof (C20_error_bound F (map pw gs) o H _ x oc oe f d HF R1 R2) as B. rewrite map_length in B. apply B; assumption.
Qed.
Lemma close_to_span F gs o f p E x : spectral F -> 0 < v_lmax F -> within F -> (1 <= o)%nat -> (f < List.length gs)%nat ->
  tspan o p -> (forall y, -1 <= y <= 1 -> Rabs (nth f gs (fun _ => 0) (v_lmax F / 2 * y + v_lmax F / 2) - p y) <= E) ->
  exists oc oe, gfilter F (map pw gs) (Chebyshev o) (vec_arr (v_N F) x) = Ok oc /\ gfilter F (map pw gs) Exact (vec_arr (v_N F) x) = Ok oe /\
    norm2 (v_N F) (vminus (ans F (List.length gs) oc f) (ans F (List.length gs) oe f)) <= INR (2 * o + 2) * E * norm2 (v_N F) x.
Proof.
  intros HF Hl Hw Ho Hf Hp Hc.
  assert (Hne : gs <> []) by (intros ->; cbn in Hf; lia).
  destruct (response_cheb F gs o Hl Ho Hne) as (H & R1).
  assert (E0 : 0 <= E) by (eapply Rle_trans; [apply Rabs_pos|apply (Hc 0); lra]).
  apply (gains_close F gs o H f (INR (2 * o + 2) * E) x HF R1 Hf); [apply Rmult_le_pos; [apply pos_INR|exact E0]|].
  intros k Hk. destruct R1 as (c & Ec & _ & _ & HH). rewrite HH by (try rewrite map_length; assumption).
  assert (Ec' : mapr (fun k => cheby_coeff1 (v_lmax F) k o None) (map pw gs) = Ok c) by (destruct gs; [congruence|exact Ec]).
  destruct (near_span (v_lmax F) (nth f gs (fun _ => 0)) o p E Hl Hp Hc) as (cf & Ecf & Hcf).
  assert (Ef : nth f c [] = cf).
  { clear - Ec' Ecf Hf. revert f c Ec' Ecf Hf. induction gs as [|g gs IH]; intros f c Ec Ecf Hf; [cbn in Hf; lia|]. cbn [map mapr] in Ec.
    destruct (cheby_coeff1 (v_lmax F) (pw g) o None) as [c0|] eqn:E0; [|discriminate]. cbn [bindr] in Ec.
    destruct (mapr (fun k => cheby_coeff1 (v_lmax F) k o None) (map pw gs)) as [cs|] eqn:Es; [|discriminate]. cbn [bindr] in Ec. injection Ec as <-.
    destruct f as [|f]; cbn [nth] in *; [congruence|]. apply (IH f cs eq_refl Ecf). cbn in Hf. lia. }
  rewrite Ef. specialize (Hcf (2 * nth k (v_e F) 0 / v_lmax F - 1) (to_unit _ _ Hl (Hw k Hk))).
  replace (v_lmax F / 2 * (2 * nth k (v_e F) 0 / v_lmax F - 1) + v_lmax F / 2) with (nth k (v_e F) 0) in Hcf by (field; lra). exact Hcf.
Qed.

(** For every kernel g that some polynomial of degree at most the order matches within E on [0, lmax], filtering with the Chebyshev
    method differs from the exact method by at most (2 order + 2) E times the norm of the signal. *)
Theorem C20_near_best_polynomial : forall F gs o f p E x,
  spectral F -> 0 < v_lmax F -> within F -> (1 <= o)%nat -> (f < List.length gs)%nat ->
  (List.length p <= S o)%nat -> (forall t, 0 <= t <= v_lmax F -> Rabs (nth f gs (fun _ => 0) t - peval p t) <= E) ->
  exists oc oe, gfilter F (map pw gs) (Chebyshev o) (vec_arr (v_N F) x) = Ok oc /\ gfilter F (map pw gs) Exact (vec_arr (v_N F) x) = Ok oe /\
    norm2 (v_N F) (vminus (ans F (List.length gs) oc f) (ans F (List.length gs) oe f)) <= INR (2 * o + 2) * E * norm2 (v_N F) x.
Proof.
  intros F gs o f p E x HF Hl Hw Ho Hf Hp Hc.
  apply (close_to_span F gs o f (fun y => peval p (v_lmax F / 2 * y + v_lmax F / 2)) E x HF Hl Hw Ho Hf); [apply tspan_poly; exact Hp|].
  intros y Hy. apply Hc. nra.
Qed.

(** ** The exponential *)
Lemma E1_S x n : E1 x (S n) = E1 x n + / INR (fact (S n)) * x ^ S n.
Proof. reflexivity. Qed.
Lemma fact_split n j : (fact n * fact j <= fact (n + j))%nat.
Proof.
  induction n as [|n IH]; [cbn; lia|]. change (S n + j)%nat with (S (n + j)). rewrite !fact_simpl. nia.
Qed.
Lemma E1_diff x n m : Rabs (E1 x (n + S m) - E1 x n) <= Rabs x ^ S n / INR (fact (S n)) * E1 (Rabs x) m.
Proof.
  assert (P : forall k, 0 < / INR (fact k)) by (intros; apply Rinv_0_lt_compat, INR_fact_lt_0).
  assert (T : forall j, / INR (fact (S n + j)) * Rabs x ^ (S n + j) <= Rabs x ^ S n / INR (fact (S n)) * (/ INR (fact j) * Rabs x ^ j)).
  { intros j. rewrite pow_add. replace (Rabs x ^ S n / INR (fact (S n)) * (/ INR (fact j) * Rabs x ^ j)) with (/ (INR (fact (S n)) * INR (fact j)) * (Rabs x ^ S n * Rabs x ^ j)) by (field; split; apply INR_fact_neq_0).
    apply Rmult_le_compat_r; [apply Rmult_le_pos; apply pow_le, Rabs_pos|]. apply Rinv_le_contravar; [apply Rmult_lt_0_compat; apply INR_fact_lt_0|].
    rewrite <- mult_INR. apply le_INR, fact_split. }
  induction m as [|m IH].
  - rewrite Nat.add_1_r, E1_S. replace (E1 x n + / INR (fact (S n)) * x ^ S n - E1 x n) with (/ INR (fact (S n)) * x ^ S n) by ring.
    rewrite Rabs_mult, <- RPow_abs, (Rabs_pos_eq (/ _)) by (left; apply P). specialize (T 0%nat). rewrite Nat.add_0_r in T. exact T.
  - rewrite <- plus_n_Sm, E1_S. rewrite (E1_S (Rabs x)).
    replace (E1 x (n + S m) + / INR (fact (S (n + S m))) * x ^ S (n + S m) - E1 x n) with ((E1 x (n + S m) - E1 x n) + / INR (fact (S (n + S m))) * x ^ S (n + S m)) by ring.
    rewrite Rmult_plus_distr_l. eapply Rle_trans; [apply Rabs_triang|]. apply Rplus_le_compat; [exact IH|].
    rewrite Rabs_mult, <- RPow_abs, (Rabs_pos_eq (/ _)) by (left; apply P). exact (T (S m)).
Qed.
Lemma E1_le_exp a m : 0 <= a -> E1 a m <= exp a.
Proof.
  intros Ha. apply (growing_ineq (E1 a)); [|apply E1_cvg]. intros k. rewrite E1_S. assert (0 <= / INR (fact (S k)) * a ^ S k); [|lra].
  apply Rmult_le_pos; [left; apply Rinv_0_lt_compat, INR_fact_lt_0|apply pow_le; exact Ha].
Qed.
Lemma exp_taylor x n : Rabs (exp x - E1 x n) <= Rabs x ^ S n / INR (fact (S n)) * exp (Rabs x).
Proof.
  set (B := Rabs x ^ S n / INR (fact (S n)) * exp (Rabs x)).
  assert (HB : forall m, Rabs (E1 x (n + S m) - E1 x n) <= B).
  { intros m. eapply Rle_trans; [apply E1_diff|]. apply Rmult_le_compat_l; [|apply E1_le_exp, Rabs_pos].
    apply Rmult_le_pos; [apply pow_le, Rabs_pos|left; apply Rinv_0_lt_compat, INR_fact_lt_0]. }
  apply Rnot_lt_le. intros Hc. destruct (E1_cvg x (Rabs (exp x - E1 x n) - B) ltac:(lra)) as (K & HK).
  specialize (HK (n + S K)%nat ltac:(lia)). unfold R_dist in HK. specialize (HB K).
  assert (Rabs (exp x - E1 x n) <= Rabs (E1 x (n + S K) - E1 x n) + Rabs (E1 x (n + S K) - exp x)); [|lra].
  replace (exp x - E1 x n) with ((E1 x (n + S K) - E1 x n) - (E1 x (n + S K) - exp x)) by ring. apply Rabs_triang4_aux || (unfold Rminus at 1; eapply Rle_trans; [apply Rabs_triang|]; rewrite Rabs_Ropp; lra).
Qed.
Lemma tspan_pow m k : (k <= m)%nat -> tspan m (fun y => y ^ k).
Proof.
  revert k. induction m as [|m IH]; intros k Hk.
  - replace k with 0%nat by lia. apply tspan_ext with (chebT 0); [reflexivity|]. apply tspan_T. lia.
  - destruct k as [|k]; [apply tspan_ext with (chebT 0); [reflexivity|]; apply tspan_T; lia|].
    apply tspan_ext with (fun y => (1 * y + 0) * y ^ k); [intros y; cbn [pow]; ring|]. apply tspan_mul, IH. lia.
Qed.
Lemma tspan_E1 o c a : tspan o (fun y => c * E1 (a * y) o).
Proof.
  apply tspan_ext with (fun y => \sum_(k < S o) (c * / INR (fact k) * a ^ k * y ^ k)).
  - intros y. cut (forall m, \sum_(k < S m) (c * / INR (fact k) * a ^ k * y ^ k) = c * E1 (a * y) m); [intros H; apply H|].
    induction m as [|m IHm]; [unfold E1; cbn; field|]. rewrite E1_S, Rmult_plus_distr_l, <- IHm, Rpow_mult_distr. cbn [rsum]. ring.
  - apply (tspan_sum o (S o) (fun k => c * / INR (fact k) * a ^ k) (fun k y => y ^ k)). intros l Hl. apply tspan_pow. lia.
Qed.

(** ** The heat kernel *)
Lemma heat_in lmax s y : 0 < lmax -> 0 <= s -> -1 <= y <= 1 -> heat_fun lmax s (lmax / 2 * y + lmax / 2) = exp (- (s / 2)) * exp (- (s / 2) * y).
Proof.
  intros Hl Hs Hy. unfold heat_fun. rewrite <- exp_plus. replace (- s * (lmax / 2 * y + lmax / 2) / lmax) with (- (s / 2) + - (s / 2) * y) by (field; lra).
  apply Rmin_left. rewrite <- exp_0. assert (H : - (s / 2) + - (s / 2) * y <= 0) by nra.
  destruct H as [H|H]; [left; apply exp_increasing; exact H|rewrite H; right; reflexivity].
Qed.
Lemma heat_near lmax s o y : 0 < lmax -> 0 <= s -> -1 <= y <= 1 ->
  Rabs (heat_fun lmax s (lmax / 2 * y + lmax / 2) - exp (- (s / 2)) * E1 (- (s / 2) * y) o) <= (s / 2) ^ S o / INR (fact (S o)).
Proof.
  intros Hl Hs Hy. rewrite heat_in by assumption. rewrite <- Rmult_minus_distr_l, Rabs_mult, (Rabs_pos_eq (exp _)) by (left; apply exp_pos).
  assert (Ha : Rabs (- (s / 2) * y) <= s / 2) by (apply Rabs_le; nra). pose proof (Rabs_pos (- (s / 2) * y)).
  apply Rle_trans with (exp (- (s / 2)) * ((s / 2) ^ S o / INR (fact (S o)) * exp (s / 2))).
  - apply Rmult_le_compat_l; [left; apply exp_pos|]. eapply Rle_trans; [apply exp_taylor|].
    apply Rmult_le_compat; [apply Rmult_le_pos; [apply pow_le; assumption|left; apply Rinv_0_lt_compat, INR_fact_lt_0]|left; apply exp_pos| |].
    + apply Rmult_le_compat_r; [left; apply Rinv_0_lt_compat, INR_fact_lt_0|]. apply pow_incr. split; assumption.
    + destruct Ha as [Ha|Ha]; [left; apply exp_increasing; exact Ha|rewrite Ha; right; reflexivity].
  - right. rewrite exp_Ropp. field. split; [apply INR_fact_neq_0|]. pose proof (exp_pos (s / 2)). lra.
Qed.
Lemma heat_const o a : INR (2 * o + 2) * (a ^ S o / INR (fact (S o))) = 2 * a ^ S o / INR (fact o).
Proof.
  rewrite fact_simpl, mult_INR. replace (2 * o + 2)%nat with (2 * S o)%nat by lia. rewrite mult_INR. change (INR 2) with 2.
  field. split; [apply INR_fact_neq_0|apply not_0_INR; lia].
Qed.
(** For the heat kernels the error is at most 2 (s/2)^(order+1) / order! for each scale s (divided by the norm of the kernel when it is normalized). *)
Theorem C20_heat_rate : forall F scale normalize o f x,
  spectral F -> 0 < v_lmax F -> within F -> (1 <= o)%nat -> (f < List.length (pvals scale))%nat -> (0 < v_N F)%nat ->
  let s := nth f (pvals scale) 0 in 0 <= s ->
  exists oc oe, gfilter F (Heat F scale normalize) (Chebyshev o) (vec_arr (v_N F) x) = Ok oc /\
    gfilter F (Heat F scale normalize) Exact (vec_arr (v_N F) x) = Ok oe /\
    norm2 (v_N F) (vminus (ans F (List.length (pvals scale)) oc f) (ans F (List.length (pvals scale)) oe f)) <=
      2 * (s / 2) ^ S o / INR (fact o) / (if normalize then heat_norm (v_lmax F) (v_e F) s else 1) * norm2 (v_N F) x.
Proof.
  intros F scale normalize o f x HF Hl Hw Ho Hf HN s Hs.
  set (nrm := fun s => if normalize then heat_norm (v_lmax F) (v_e F) s else 1).
  set (gs := map (fun s x => heat_fun (v_lmax F) s x / nrm s) (pvals scale)).
  assert (Eh : Heat F scale normalize = map pw gs) by (unfold Heat, gs; rewrite map_map; reflexivity).
  assert (Lg : List.length gs = List.length (pvals scale)) by apply map_length.
  rewrite Eh, <- Lg. fold (nrm s).
  assert (Hn : 0 < nrm s).
  { unfold nrm. destruct normalize; [|lra]. unfold heat_norm. apply sqrt_lt_R0. destruct HF as (Hlen & _). destruct (v_e F) as [|e0 es]; [cbn in Hlen; lia|].
    cbn [map]. assert (P : forall t, 0 < heat_fun (v_lmax F) s t) by (intros t; unfold heat_fun; apply Rmin_glb_lt; [apply exp_pos|lra]).
    assert (Q : forall l, 0 <= lsum (map (fun t => heat_fun (v_lmax F) s t * heat_fun (v_lmax F) s t) l)).
    { induction l as [|t l IH]; [right; reflexivity|]. cbn [map]. rewrite lsum_cons. specialize (P t). nra. }
    rewrite lsum_cons. specialize (P e0). specialize (Q es). nra. }
  assert (Eg : forall t, nth f gs (fun _ => 0) t = heat_fun (v_lmax F) s t / nrm s).
  { intros t. unfold gs. rewrite (nth_indep _ (fun _ => 0) (fun x => heat_fun (v_lmax F) 0 x / nrm 0)) by (rewrite map_length; exact Hf).
    rewrite (map_nth (fun s x => heat_fun (v_lmax F) s x / nrm s)). reflexivity. }
  pose proof (close_to_span F gs o f (fun y => exp (- (s / 2)) / nrm s * E1 (- (s / 2) * y) o) ((s / 2) ^ S o / INR (fact (S o)) / nrm s) x HF Hl Hw Ho) as C.
  rewrite Lg in C. specialize (C Hf (tspan_E1 o _ _)). rewrite <- Lg in C. destruct C as (oc & oe & E1' & E2' & B).
  - intros y Hy. rewrite Eg. replace (heat_fun (v_lmax F) s (v_lmax F / 2 * y + v_lmax F / 2) / nrm s - exp (- (s / 2)) / nrm s * E1 (- (s / 2) * y) o)
      with ((heat_fun (v_lmax F) s (v_lmax F / 2 * y + v_lmax F / 2) - exp (- (s / 2)) * E1 (- (s / 2) * y) o) * / nrm s) by (field; lra).
    rewrite Rabs_mult, (Rabs_pos_eq (/ nrm s)) by (left; apply Rinv_0_lt_compat; exact Hn). apply Rmult_le_compat_r; [left; apply Rinv_0_lt_compat; exact Hn|].
    apply heat_near; assumption.
  - exists oc, oe. split; [exact E1'|]. split; [exact E2'|]. eapply Rle_trans; [exact B|]. right. rewrite <- heat_const. field. split; [apply INR_fact_neq_0|lra].
Qed.
(** So the Chebyshev heat filter converges to the exact one as the order grows, uniformly over the signals of norm at most 1 and over
    every graph whose spectrum is in [0, lmax]. *)
Theorem C20_heat_converges : forall s eps, 0 <= s -> 0 < eps -> exists o0, forall F o x,
  spectral F -> 0 < v_lmax F -> within F -> (0 < v_N F)%nat -> (o0 <= o)%nat ->
  exists oc oe, gfilter F (Heat F (Scalar s) false) (Chebyshev o) (vec_arr (v_N F) x) = Ok oc /\
    gfilter F (Heat F (Scalar s) false) Exact (vec_arr (v_N F) x) = Ok oe /\
    norm2 (v_N F) (vminus (ans F 1 oc 0) (ans F 1 oe 0)) <= eps * norm2 (v_N F) x.
Proof.
  intros s eps Hs He. destruct (cv_speed_pow_fact (s / 2) (eps / (s + 1)) ltac:(apply Rdiv_lt_0_compat; lra)) as (K & HK).
  exists (Nat.max 1 K). intros F o x HF Hl Hw HN Ho.
  destruct (C20_heat_rate F (Scalar s) false o 0 x HF Hl Hw ltac:(lia) ltac:(cbn; lia) HN Hs) as (oc & oe & E1' & E2' & B).
  exists oc, oe. split; [exact E1'|]. split; [exact E2'|]. eapply Rle_trans; [exact B|]. apply Rmult_le_compat_r; [apply norm2_nonneg|].
  cbn [pvals nth]. specialize (HK o ltac:(lia)). unfold R_dist in HK. rewrite Rminus_0_r in HK. pose proof (Rle_abs ((s / 2) ^ o / INR (fact o))) as A.
  replace (2 * (s / 2) ^ S o / INR (fact o) / 1) with (s * ((s / 2) ^ o / INR (fact o))) by (cbn [pow]; field; apply INR_fact_neq_0).
  apply Rle_trans with (s * (eps / (s + 1))); [apply Rmult_le_compat_l; lra|]. apply Rmult_le_reg_r with (s + 1); [lra|].
  replace (s * (eps / (s + 1)) * (s + 1)) with (s * eps) by (field; lra). nra.
Qed.
(** The defaults: Heat(G) (scale 10) with order 30. *)
Lemma fact_Z n : IZR (fold_right Z.mul 1%Z (map Z.of_nat (seq 1 n))) = INR (fact n).
Proof.
  assert (A : forall l z, fold_right Z.mul z l = (fold_right Z.mul 1%Z l * z)%Z) by (induction l as [|a l IH]; intros z; cbn [fold_right]; [lia|rewrite IH; lia]).
  induction n as [|n IH]; [reflexivity|]. rewrite seq_S, map_app, fold_right_app. cbn [map fold_right]. rewrite A, mult_IZR, IH, fact_simpl, mult_INR.
  rewrite Z.mul_1_r, <- INR_IZR_INZ. replace (1 + n)%nat with (S n) by lia. ring.
Qed.
Lemma heat_order F s o eps x : spectral F -> 0 < v_lmax F -> within F -> (0 < v_N F)%nat -> 0 <= s -> (1 <= o)%nat ->
  2 * (s / 2) ^ S o * / INR (fact o) <= eps ->
  exists oc oe, gfilter F (Heat F (Scalar s) false) (Chebyshev o) (vec_arr (v_N F) x) = Ok oc /\
    gfilter F (Heat F (Scalar s) false) Exact (vec_arr (v_N F) x) = Ok oe /\
    norm2 (v_N F) (vminus (ans F 1 oc 0) (ans F 1 oe 0)) <= eps * norm2 (v_N F) x.
Proof.
  intros HF Hl Hw HN Hs Ho He.
  destruct (C20_heat_rate F (Scalar s) false o 0 x HF Hl Hw Ho ltac:(cbn; lia) HN Hs) as (oc & oe & E1' & E2' & B).
  exists oc, oe. split; [exact E1'|]. split; [exact E2'|]. eapply Rle_trans; [exact B|]. apply Rmult_le_compat_r; [apply norm2_nonneg|].
  eapply Rle_trans; [right|exact He]. cbn [pvals nth]. field. apply INR_fact_neq_0.
Qed.
Lemma ratio_le (a b c : Z) : (0 < b)%Z -> (0 < c)%Z -> (a * c <= b)%Z -> IZR a * / IZR b <= / IZR c.
Proof.
  intros Hb Hc H. apply IZR_lt in Hb, Hc. apply IZR_le in H. rewrite mult_IZR in H.
  apply Rmult_le_reg_r with (IZR b * IZR c); [apply Rmult_lt_0_compat; assumption|].
  replace (IZR a * / IZR b * (IZR b * IZR c)) with (IZR a * IZR c) by (field; lra). replace (/ IZR c * (IZR b * IZR c)) with (IZR b) by (field; lra). exact H.
Qed.
Lemma default_bound o q : o = 30%nat -> q = fact o -> 2 * (10 / 2) ^ S o * / INR q <= / 10 ^ 10.
Proof.
  intros Eo Eq. assert (E1 : INR q = IZR (fold_right Z.mul 1%Z (map Z.of_nat (seq 1 o)))) by (rewrite Eq; symmetry; apply fact_Z). clear Eq.
  rewrite E1. clear E1. replace (10 / 2) with 5 by lra. rewrite !pow_IZR, <- mult_IZR. rewrite Eo. clear Eo.
  apply ratio_le; vm_compute; [reflexivity|reflexivity|discriminate].
Qed.
Theorem C20_default_heat : forall F x, spectral F -> 0 < v_lmax F -> within F -> (0 < v_N F)%nat ->
  exists oc oe, gfilter F (Heat F (Scalar 10) false) (Chebyshev 30) (vec_arr (v_N F) x) = Ok oc /\
    gfilter F (Heat F (Scalar 10) false) Exact (vec_arr (v_N F) x) = Ok oe /\
    norm2 (v_N F) (vminus (ans F 1 oc 0) (ans F 1 oe 0)) <= / 10 ^ 10 * norm2 (v_N F) x.
Proof.
  assert (G : forall o, o = 30%nat -> forall F x, spectral F -> 0 < v_lmax F -> within F -> (0 < v_N F)%nat ->
    exists oc oe, gfilter F (Heat F (Scalar 10) false) (Chebyshev o) (vec_arr (v_N F) x) = Ok oc /\
      gfilter F (Heat F (Scalar 10) false) Exact (vec_arr (v_N F) x) = Ok oe /\
      norm2 (v_N F) (vminus (ans F 1 oc 0) (ans F 1 oe 0)) <= / 10 ^ 10 * norm2 (v_N F) x).
  { intros o Eo F x HF Hl Hw HN. apply heat_order; try assumption; [lra|lia|]. apply default_bound; [exact Eo|reflexivity]. }
  exact (G 30%nat eq_refl).
Qed.

(** ** The kernel 1/(b + a x): geometric convergence *)
Lemma chebT_neg k z : chebT k (- z) = (-1) ^ k * chebT k z.
Proof.
  cut (chebT k (- z) = (-1) ^ k * chebT k z /\ chebT (S k) (- z) = (-1) ^ S k * chebT (S k) z); [tauto|].
  induction k as [|k (I1 & I2)]; [cbn; split; ring|]. split; [exact I2|]. rewrite !chebT_SS, I1, I2. cbn [pow]. ring.
Qed.
Lemma chebT_hyp r k : 0 < r -> chebT k ((r + / r) / 2) = (r ^ k + (/ r) ^ k) / 2.
Proof.
  intros Hr. cut (chebT k ((r + / r) / 2) = (r ^ k + (/ r) ^ k) / 2 /\ chebT (S k) ((r + / r) / 2) = (r ^ S k + (/ r) ^ S k) / 2); [tauto|].
  induction k as [|k (I1 & I2)]; [cbn; split; field; lra|]. split; [exact I2|]. rewrite chebT_SS, I1, I2. cbn [pow].
  assert (Ei : r * / r = 1) by (field; lra). set (q := / r) in *. clearbody q.
  transitivity ((r * (r * r ^ k) + q * (q * q ^ k)) / 2 + ((r * q) * (r ^ k + q ^ k) - (r ^ k + q ^ k)) / 2); [field|]. rewrite Ei. field.
Qed.
Lemma chebT_geometric z r k : 1 <= r -> r + / r = 2 * Rabs z -> r ^ k / 2 <= Rabs (chebT k z).
Proof.
  intros Hr E. assert (P : 0 < (/ r) ^ k) by (apply pow_lt, Rinv_0_lt_compat; lra). assert (P' : 0 < r ^ k) by (apply pow_lt; lra).
  assert (A : Rabs (chebT k z) = Rabs (chebT k (Rabs z))).
  { unfold Rabs at 3. destruct (Rcase_abs z); [|reflexivity]. rewrite chebT_neg, Rabs_mult, <- RPow_abs. replace (Rabs (-1)) with 1 by (rewrite Rabs_left; lra). rewrite pow1. ring. }
  rewrite A. replace (Rabs z) with ((r + / r) / 2) by lra. rewrite chebT_hyp by lra. rewrite Rabs_pos_eq by lra. lra.
Qed.
(** For 1/(b + a x) with a, b > 0 (the filter of regularised problems), the error decreases geometrically: with r > 1 the root of
    r + 1/r = 2 (1 + 2 b / (a lmax)), it is at most 2/b r^-(order+1) times the norm of the signal. *)
Theorem C20_pole_rate : forall F a b o r x, spectral F -> 0 < v_lmax F -> within F -> (1 <= o)%nat -> 0 < a -> 0 < b ->
  1 <= r -> r + / r = 2 * (1 + 2 * b / (a * v_lmax F)) ->
  exists oc oe, gfilter F [pw (fun t => 1 / (b + a * t))] (Chebyshev o) (vec_arr (v_N F) x) = Ok oc /\
    gfilter F [pw (fun t => 1 / (b + a * t))] Exact (vec_arr (v_N F) x) = Ok oe /\
    norm2 (v_N F) (vminus (ans F 1 oc 0) (ans F 1 oe 0)) <= 2 / (b * r ^ S o) * norm2 (v_N F) x.
Proof.
  intros F a b o r x HF Hl Hw Ho Ha Hb Hr Er.
  pose proof (C20_closed_form_for_a_pole F a b o Hl Ho Ha Hb (fun k Hk => proj1 (Hw k Hk))) as R1.
  assert (P : 0 < r ^ S o) by (apply pow_lt; lra).
  apply (gains_close F [fun t => 1 / (b + a * t)] o _ 0 (2 / (b * r ^ S o)) x HF R1); [cbn; lia|left; apply Rdiv_lt_0_compat; [lra|apply Rmult_lt_0_compat; assumption]|].
  intros k Hk. cbn [nth]. cbv zeta. specialize (Hw k Hk). set (t := nth k (v_e F) 0) in *.
  destruct (pole_out a b (v_lmax F) Ha Hb Hl) as (Hz1 & Hz). set (z := -2 * (b / a) / v_lmax F - 1) in *.
  assert (Ez : Rabs z = 1 + 2 * b / (a * v_lmax F)). { rewrite Rabs_left by lra. unfold z. field. split; lra. }
  assert (G : r ^ S o / 2 <= Rabs (chebT (S o) z)) by (apply chebT_geometric; [exact Hr|rewrite Ez; exact Er]).
  pose proof (chebT_nz z (S o) Hz) as Hnz. pose proof (chebT_le1 (S o) _ (to_unit _ _ Hl Hw)) as T1.
  assert (D : 0 < b + a * t) by nra. set (T := chebT (S o) (2 * t / v_lmax F - 1)) in *. set (Z := chebT (S o) z) in *.
  replace ((1 - T / Z) / (b + a * t) - 1 / (b + a * t)) with (- (T / Z * / (b + a * t))) by (field; split; [lra|exact Hnz]).
  rewrite Rabs_Ropp. unfold Rdiv at 1. rewrite !Rabs_mult, !Rabs_inv.
  assert (HZ : 0 < Rabs Z) by (apply Rabs_pos_lt; exact Hnz). rewrite (Rabs_pos_eq (b + a * t)) by lra.
  replace (2 / (b * r ^ S o)) with (1 * / (r ^ S o / 2) * / b) by (field; split; lra).
  assert (0 < / Rabs Z) by (apply Rinv_0_lt_compat; exact HZ). pose proof (Rabs_pos T).
  apply Rmult_le_compat; [apply Rmult_le_pos; lra|left; apply Rinv_0_lt_compat; exact D| |apply Rinv_le_contravar; nra].
  apply Rmult_le_compat; [assumption|lra|exact T1|apply Rinv_le_contravar; [lra|exact G]].
Qed.
(** such an r always exists and is larger than 1 *)
Lemma C20_pole_ratio : forall w, 1 < w -> exists r, 1 < r /\ r + / r = 2 * w.
Proof.
  intros w Hw. assert (Hq : 0 < w * w - 1) by nra. pose proof (sqrt_lt_R0 _ Hq) as Hs. pose proof (sqrt_sqrt (w * w - 1) ltac:(lra)) as E.
  exists (w + sqrt (w * w - 1)). split; [lra|]. set (q := sqrt (w * w - 1)) in *. apply Rmult_eq_reg_r with (w + q); [|lra].
  rewrite Rmult_plus_distr_r, Rinv_l by lra. nra.
Qed.

(** The hypotheses hold for the two-vertex graph; and with r = 2, 1/(1 + 4 x) of order 9 is within 2/1024 of the exact filter. *)
Example C20_rate_ex : spectral (k2_view 2) /\ within (k2_view 2) /\
  (forall t, 0 <= t <= 2 -> Rabs (t * t - peval [0; 1] t) <= 2) /\
  2 + / 2 = 2 * (1 + 2 * 1 / (4 * v_lmax (k2_view 2))).
Proof.
  split; [apply k2_spectral|]. split; [intros k Hk; cbn in Hk; destruct k as [|[|k]]; [| |lia]; cbn; lra|]. split; [intros t Ht; cbn; apply Rabs_le; nra|]. cbn. lra.
Qed.
