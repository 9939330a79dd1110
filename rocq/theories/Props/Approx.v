(** Chebyshev approximation of a rectangle, Jackson damping, Lanczos: C63, C64. *)
From Coq Require Import Reals Lra Lia List Arith Bool String ZArith.
From Coq Require Import List.
From Verif.Base Require Import RSum Prelude LinAlg.
From Verif.Spec Require Import Matrix GraphSpec NdArray FilterSpec.
From Verif.Model Require Import Sparse Graph Cache Filter Kernels Approx.
From Verif.Proofs Require Import FilterFacts ChebFacts.
From Verif.Props Require Import Caching Filtering.
Import ListNotations.
Open Scope R_scope.

(** ** Specification: [c] is the k-th Chebyshev coefficient of the indicator of the angles [b2, b1],
    that is (2/pi) times the integral of cos(k t) over them. *)
Definition angle_coeff (b1 b2 : R) (k : nat) (c : R) : Prop :=
  exists pr : Riemann_integrable (fun t => cos (INR k * t)) b2 b1, c = 2 / PI * RiemannInt pr.

(** The angles [acos(2 hi/lmax - 1), acos(2 lo/lmax - 1)] are those of the frequencies in [lo, hi]. *)
Lemma band_angles lmax lo hi t : 0 < lmax -> 0 <= lo -> lo <= hi -> hi <= lmax -> 0 <= t <= PI ->
  (acos (2 * hi / lmax - 1) <= t <= acos (2 * lo / lmax - 1) <-> lo <= lmax / 2 * (1 + cos t) <= hi).
Proof.
  intros Hl H0 H1 H2 Ht.
  assert (D : forall b, 0 <= b <= lmax -> -1 <= 2 * b / lmax - 1 <= 1).
  { intros b Hb. assert (0 <= b / lmax <= 1).
    { split; [apply Rmult_le_pos; [lra|left; apply Rinv_0_lt_compat; lra]|].
      apply Rmult_le_reg_r with lmax; [lra|]. unfold Rdiv. rewrite Rmult_assoc, Rinv_l by lra. lra. }
    unfold Rdiv in *. lra. }
  assert (Q : forall b, lmax / 2 * (1 + (2 * b / lmax - 1)) = b) by (intros b; field; lra).
  assert (C : forall b, 0 <= b <= lmax -> (acos (2 * b / lmax - 1) <= t <-> lmax / 2 * (1 + cos t) <= b)).
  { intros b Hb. pose proof (D b Hb) as Hd. pose proof (acos_bound (2 * b / lmax - 1)) as Hab.
    rewrite <- (Q b) at 2. split; intros H.
    - apply Rmult_le_compat_l; [lra|]. apply Rplus_le_compat_l. rewrite <- (cos_acos _ Hd).
      apply cos_decr_1; lra.
    - apply Rmult_le_reg_l in H; [|lra]. apply Rplus_le_reg_l in H. rewrite <- (cos_acos _ Hd) in H.
      apply cos_decr_0; lra. }
  assert (C' : forall b, 0 <= b <= lmax -> (t <= acos (2 * b / lmax - 1) <-> b <= lmax / 2 * (1 + cos t))).
  { intros b Hb. pose proof (D b Hb) as Hd. pose proof (acos_bound (2 * b / lmax - 1)) as Hab.
    rewrite <- (Q b) at 2. split; intros H.
    - apply Rmult_le_compat_l; [lra|]. apply Rplus_le_compat_l. rewrite <- (cos_acos _ Hd).
      apply cos_decr_1; lra.
    - apply Rmult_le_reg_l in H; [|lra]. apply Rplus_le_reg_l in H. rewrite <- (cos_acos _ Hd) in H.
      apply cos_decr_0; lra. }
  rewrite (C hi) by lra. rewrite (C' lo) by lra. tauto.
Qed.

Definition rect_coeff (b1 b2 : R) (k : nat) : R :=
  match k with O => 2 * (b1 - b2) / PI | _ => 2 / (INR k * PI) * (sin (INR k * b1) - sin (INR k * b2)) end.


(** Fundamental theorem of calculus for a function with an explicit antiderivative. *)
Lemma ftc (f g : R -> R) a b : a <= b -> (forall x, continuity_pt f x) -> (forall x, derivable_pt_lim g x (f x)) ->
  exists pr : Riemann_integrable f a b, RiemannInt pr = g b - g a.
Proof.
  intros Hab Hc Hd.
  assert (C0 : forall x, a <= x <= b -> continuity_pt f x) by (intros; apply Hc).
  exists (FTC_P1 Hab C0 Hab (Rle_refl b)).
  rewrite (RiemannInt_P20 Hab (FTC_P1 Hab C0) (FTC_P1 Hab C0 Hab (Rle_refl b))).
  pose proof (RiemannInt_P29 Hab C0) as A1.
  assert (A2 : antiderivative f g a b).
  { split; [|exact Hab]. intros x Hx. exists (exist _ (f x) (Hd x)). reflexivity. }
  destruct (antiderivative_Ucte _ _ _ _ _ A1 A2) as (c & Hcc).
  rewrite (Hcc b) by lra. rewrite (Hcc a) by lra. ring.
Qed.

Lemma lin_deriv c t : derivable_pt_lim (fun t => c * t) t c.
Proof.
  apply (derivable_pt_lim_ext (mult_real_fct c id)); [reflexivity|].
  replace c with (c * 1) at 2 by ring. apply derivable_pt_lim_scal. apply derivable_pt_lim_id.
Qed.

Lemma rect_coeff_spec b1 b2 k : b2 <= b1 -> angle_coeff b1 b2 k (rect_coeff b1 b2 k).
Proof.
  intros Hb.
  assert (Hc : forall x, continuity_pt (fun t => cos (INR k * t)) x).
  { intros x. apply (continuity_pt_comp (fun t => INR k * t) cos).
    - apply derivable_continuous_pt. exists (INR k). apply lin_deriv.
    - apply continuity_cos. }
  destruct k as [|k].
  - destruct (ftc (fun t => cos (INR 0 * t)) (fun t => 1 * t) b2 b1 Hb Hc) as (pr & E).
    { intros x. replace (cos (INR 0 * x)) with 1 by (cbn [INR]; rewrite Rmult_0_l, cos_0; reflexivity). apply lin_deriv. }
    exists pr. rewrite E. unfold rect_coeff. field. apply PI_neq0.
  - assert (Hk : INR (S k) <> 0) by (apply not_0_INR; lia).
    destruct (ftc (fun t => cos (INR (S k) * t)) (fun t => / INR (S k) * sin (INR (S k) * t)) b2 b1 Hb Hc) as (pr & E).
    { intros x. apply (derivable_pt_lim_ext (mult_real_fct (/ INR (S k)) (comp sin (fun t => INR (S k) * t)))).
      { intros z. reflexivity. }
      replace (cos (INR (S k) * x)) with (/ INR (S k) * (cos (INR (S k) * x) * INR (S k))) by (field; assumption).
      apply derivable_pt_lim_scal. apply derivable_pt_lim_comp; [apply lin_deriv|apply derivable_pt_lim_sin]. }
    exists pr. rewrite E. unfold rect_coeff. field. split; [exact Hk|apply PI_neq0].
Qed.

Section Rect.
  Variable F : view.
  Hypothesis HF : spectral F.
  Hypothesis Hl : 0 < v_lmax F.
  Variables b1 b2 : R.
  Notation n := (v_N F).
  Notation z := (fun k => 2 * nth k (v_e F) 0 / v_lmax F - 1).
  Notation rc := (rect_coeff b1 b2).

  Definition rect_inv (x : mat) (k : nat) (st : cheb_state) : Prop :=
    (forall i v, (i < n)%nat -> cs_old st i v = mult F (fun l => chebT (k - 1) (z l)) (fun j => x j v) i) /\
    (forall i v, (i < n)%nat -> cs_cur st i v = mult F (fun l => chebT k (z l)) (fun j => x j v) i) /\
    (forall i v, (i < n)%nat -> cs_r st i v =
       mult F (fun l => rc 0%nat / 2 + \sum_(q < k) (rc (S q) * chebT (S q) (z l))) (fun j => x j v) i).

  Lemma rect_factor_mult h (x : mat) (y : nat -> vec) i v : (forall j, (j < n)%nat -> x j v = mult F h (y v) j) -> (i < n)%nat ->
    rect_factor F x i v = mult F (fun l => 2 * z l * h l) (y v) i.
  Proof.
    intros Hx Hi. unfold rect_factor.
    rewrite (mulv_ext n (v_L F) (v_L F) _ (mult F h (y v)) i).
    2: reflexivity. 2: intros j Hj; apply Hx; exact Hj.
    rewrite (mulv_mult F HF _ _ i Hi), (Hx i Hi).
    rewrite (mult_ext F (fun l => 2 * z l * h l) (fun l => 4 / v_lmax F * (nth l (v_e F) 0 * h l) + (-2) * h l) _ (y v)).
    2:{ intros l Hlt. field. lra. } 2:{ intros ? ?; reflexivity. }
    rewrite (mult_lin_h F (4 / v_lmax F) (-2) (fun l => nth l (v_e F) 0 * h l) h). ring.
  Qed.

  Lemma rect_init_inv x : rect_inv x 1 (rect_init F b1 b2 x).
  Proof.
    assert (Hc : forall i v, (i < n)%nat -> rect_factor F x i v / 2 = mult F (fun l => chebT 1 (z l)) (fun j => x j v) i).
    { intros i v Hi. rewrite (rect_factor_mult (fun _ => 1) x (fun v j => x j v)).
      2:{ intros j Hj. rewrite mult_1 by assumption. reflexivity. } 2: exact Hi.
      rewrite (mult_ext F (fun l => 2 * z l * 1) (fun l => 2 * chebT 1 (z l) + 0 * 1) _ (fun j => x j v)).
      2:{ intros l Hlt. cbn [chebT]. ring. } 2:{ intros ? ?; reflexivity. }
      rewrite (mult_lin_h F 2 0 (fun l => chebT 1 (z l)) (fun _ => 1)). field. }
    split; [|split].
    - intros i v Hi. cbn [rect_init cs_old Nat.sub chebT]. rewrite mult_1 by assumption. reflexivity.
    - exact Hc.
    - intros i v Hi. cbn [rect_init cs_r]. rewrite Hc by exact Hi.
      rewrite <- (mult_1 F HF (fun j => x j v) i Hi) at 1.
      rewrite (mult_ext F (fun l => _ + _) (fun l => rc 0%nat / 2 * 1 + rc 1%nat * chebT 1 (z l)) _ (fun j => x j v)).
      2:{ intros l Hlt. cbn [rsum]. ring. } 2:{ intros ? ?; reflexivity. }
      rewrite (mult_lin_h F _ _ (fun _ => 1) (fun l => chebT 1 (z l))).
      unfold rect_coeff. cbn [INR]. rewrite !Rmult_1_l. f_equal. f_equal. field. apply PI_neq0.
  Qed.

  Lemma rect_step_inv x k st : (1 <= k)%nat -> rect_inv x k st -> rect_inv x (S k) (rect_step F b1 b2 st (S k)).
  Proof.
    intros Hk (Ho & Hc & Hr).
    assert (Hn : forall i v, (i < n)%nat -> cs_cur (rect_step F b1 b2 st (S k)) i v = mult F (fun l => chebT (S k) (z l)) (fun j => x j v) i).
    { intros i v Hi. cbn [rect_step cs_cur]. rewrite Ho by exact Hi.
      rewrite (rect_factor_mult (fun l => chebT k (z l)) (cs_cur st) (fun v j => x j v)).
      2:{ intros j Hj. apply Hc. exact Hj. } 2: exact Hi.
      destruct k as [|k]; [lia|]. replace (S k - 1)%nat with k by lia.
      rewrite (mult_ext F (fun l => chebT (S (S k)) (z l)) (fun l => 1 * (2 * z l * chebT (S k) (z l)) + (-1) * chebT k (z l)) _ (fun j => x j v)).
      2:{ intros l Hlt. rewrite chebT_SS. ring. } 2:{ intros ? ?; reflexivity. }
      rewrite (mult_lin_h F 1 (-1) (fun l => 2 * z l * chebT (S k) (z l)) (fun l => chebT k (z l))). ring. }
    split; [|split].
    - intros i v Hi. cbn [rect_step cs_old]. rewrite Hc by exact Hi. replace (S k - 1)%nat with k by lia. reflexivity.
    - exact Hn.
    - intros i v Hi. specialize (Hn i v Hi). cbn [rect_step cs_r cs_cur] in *. rewrite Hr by exact Hi. rewrite Hn.
      rewrite (mult_ext F (fun l => _ + \sum_(q < S k) _)
        (fun l => 1 * (rc 0%nat / 2 + \sum_(q < k) (rc (S q) * chebT (S q) (z l))) + rc (S k) * chebT (S k) (z l)) _ (fun j => x j v)).
      2:{ intros l Hlt. cbn [rsum]. ring. } 2:{ intros ? ?; reflexivity. }
      rewrite (mult_lin_h F 1 (rc (S k)) (fun l => rc 0%nat / 2 + \sum_(q < k) (rc (S q) * chebT (S q) (z l))) (fun l => chebT (S k) (z l))).
      change (rc (S k)) with (2 / (INR (S k) * PI) * (sin (INR (S k) * b1) - sin (INR (S k) * b2))). ring.
  Qed.

  Lemma rect_loop_inv x m k st : (1 <= k)%nat -> rect_inv x k st ->
    rect_inv x (k + m) (fold_left (rect_step F b1 b2) (seq (S k) m) st).
  Proof.
    revert k st. induction m as [|m IH]; intros k st Hk Hi; cbn [seq fold_left].
    - rewrite Nat.add_0_r. exact Hi.
    - replace (k + S m)%nat with (S k + m)%nat by lia. apply IH; [lia|]. apply rect_step_inv; assumption.
  Qed.

  Lemma rect_series m y : (1 <= m)%nat ->
    cheb_series (map rc (seq 0 (S m))) y = rc 0%nat / 2 + \sum_(q < m) (rc (S q) * chebT (S q) y).
  Proof.
    intros Hm. unfold cheb_series. rewrite map_length, seq_length. replace (S m - 1)%nat with m by lia.
    rewrite (nth_map_seq rc (S m) 0 0) by lia. f_equal.
    apply rsum_ext. intros q Hq. rewrite (nth_map_seq rc (S m) (S q) 0) by lia. reflexivity.
  Qed.
End Rect.

(** C63: [cheby_rect(G, [lo, hi], s, order)] applies to every signal (1-D or 2-D batch) the polynomial
    sum_k c_k T_k(2 lambda/lmax - 1) of the Laplacian truncated at max(order, 1), whose coefficients are
    the Chebyshev coefficients of the indicator of the band [lo, hi] (see [band_angles]). *)
Theorem C63_cheby_rect F lo hi bounds s order :
  spectral F -> 0 < v_lmax F -> 0 <= lo -> lo <= hi -> hi <= v_lmax F ->
  bounds = PyList [lo; hi] \/ bounds = NdArray [lo; hi] ->
  (shape s = [v_N F] \/ exists v, shape s = [v_N F; v]) ->
  exists c out, cheby_rect F bounds s order = Ok out /\ shape out = shape s /\
    List.length c = S (Nat.max 1 order) /\
    (forall k, (k <= Nat.max 1 order)%nat ->
       angle_coeff (acos (2 * lo / v_lmax F - 1)) (acos (2 * hi / v_lmax F - 1)) k (nth k c 0)) /\
    (forall i rest, (i < v_N F)%nat -> List.length (i :: rest) = List.length (shape s) ->
       aget out (i :: rest) =
       mult F (fun k => cheb_series c (2 * nth k (v_e F) 0 / v_lmax F - 1)) (fun j => aget s (j :: rest)) i).
Proof.
  intros HF Hl H0 H1 H2 Hb Hs.
  set (b1 := acos (2 * lo / v_lmax F - 1)). set (b2 := acos (2 * hi / v_lmax F - 1)).
  set (m := Nat.max 1 order).
  assert (Hb21 : b2 <= b1).
  { assert (Ha : 0 <= b2 <= PI) by apply acos_bound.
    apply (proj2 (proj2 (band_angles (v_lmax F) lo hi b2 Hl H0 H1 H2 Ha) ltac:(
      unfold b2; rewrite cos_acos; [replace (v_lmax F / 2 * (1 + (2 * hi / v_lmax F - 1))) with hi by (field; lra); lra|
        assert (0 <= hi / v_lmax F <= 1) by (split; [apply Rmult_le_pos; [lra|left; apply Rinv_0_lt_compat; lra]|
      apply Rmult_le_reg_r with (v_lmax F); [lra|]; unfold Rdiv; rewrite Rmult_assoc, Rinv_l by lra; lra]); unfold Rdiv in *; lra]))). }
  assert (Hm : (1 + (order - 1))%nat = m) by (unfold m; lia).
  exists (map (rect_coeff b1 b2) (seq 0 (S m))).
  assert (E : cheby_rect F bounds s order =
    if negb (Nat.eqb (hd 0%nat (shape s)) (v_N F)) then Raise ValueError
      else let x : mat := fun n v => aget s (n :: match shape s with [_] => [] | _ => [v] end) in
           let st := fold_left (rect_step F b1 b2) (seq 2 (order - 1)) (rect_init F b1 b2 x) in
           match shape s with
           | [_] => Ok (Arr [v_N F] (fun idx => cs_r st (ix idx 0) 0%nat))
           | [_; Nv] => Ok (Arr [v_N F; Nv] (fun idx => cs_r st (ix idx 0) (ix idx 1)))
           | _ => Raise ValueError
           end) by (destruct Hb as [-> | ->]; reflexivity).
  destruct s as [sh g]. cbn [shape] in Hs. destruct Hs as [-> | (v & ->)]; cbn [shape hd] in E; rewrite Nat.eqb_refl in E; cbn [negb] in E.
  - eexists. split; [exact E|]. split; [reflexivity|]. split; [rewrite map_length, seq_length; reflexivity|]. split.
    + intros k Hk. rewrite nth_map_seq by lia. apply rect_coeff_spec. exact Hb21.
    + intros i rest Hi Hr. destruct rest; [|cbn in Hr; lia]. cbn [aget ix nth].
      pose proof (rect_loop_inv F HF Hl b1 b2 (fun i0 v0 => g [i0]) (order - 1) 1 _ (le_n 1) (rect_init_inv F HF Hl b1 b2 _)) as (_ & _ & Q).
      rewrite Q by exact Hi. rewrite Hm. apply mult_ext; [|intros ? ?; reflexivity]. intros l Hlt.
      symmetry. apply (rect_series b1 b2 m); unfold m; lia.
  - eexists. split; [exact E|]. split; [reflexivity|]. split; [rewrite map_length, seq_length; reflexivity|]. split.
    + intros k Hk. rewrite nth_map_seq by lia. apply rect_coeff_spec. exact Hb21.
    + intros i rest Hi Hr. destruct rest as [|j [|]]; try (cbn in Hr; lia). cbn [aget ix nth].
      pose proof (rect_loop_inv F HF Hl b1 b2 (fun i0 v0 => g [i0; v0]) (order - 1) 1 _ (le_n 1) (rect_init_inv F HF Hl b1 b2 _)) as (_ & _ & Q).
      rewrite Q by exact Hi. rewrite Hm. apply mult_ext; [|intros ? ?; reflexivity]. intros l Hlt.
      symmetry. apply (rect_series b1 b2 m); unfold m; lia.
Qed.

(** Bounds that are not a pair in a list or array are rejected. *)
Theorem C63_cheby_rect_bad_bounds F bounds s order :
  (forall lo hi, bounds <> PyList [lo; hi] /\ bounds <> NdArray [lo; hi]) ->
  cheby_rect F bounds s order = Raise ValueError.
Proof.
  intros H. destruct bounds as [x|[|a [|b [|c l]]]|[|a [|b [|c l]]]]; try reflexivity.
  - destruct (H a b) as (H1 & _). congruence.
  - destruct (H a b) as (_ & H1). congruence.
Qed.

Example C63_cheby_rect_ex : exists c out,
  cheby_rect (k2_view 2) (PyList [0; 1]) (vec_arr 2 (fun i => INR i)) 3 = Ok out /\ List.length c = 4%nat /\
  (forall k, (k <= 3)%nat -> angle_coeff (acos (2 * 0 / 2 - 1)) (acos (2 * 1 / 2 - 1)) k (nth k c 0)) /\
  shape out = [2%nat].
Proof.
  destruct (C63_cheby_rect (k2_view 2) 0 1 (PyList [0; 1]) (vec_arr 2 (fun i => INR i)) 3) as (c & out & E & Hs & Hc & Ha & _).
  - apply k2_spectral.
  - cbn. lra.
  - lra.
  - lra.
  - cbn. lra.
  - left. reflexivity.
  - left. reflexivity.
  - exists c, out. split; [exact E|]. split; [exact Hc|]. split; [|exact Hs]. intros k Hk. apply Ha. cbn. lia.
Qed.

(** ** Jackson damping *)
Lemma sin_mul_le M i : (2 <= M)%nat -> (i <= M)%nat -> 0 <= sin (INR i * (PI / INR M)) <= INR i * sin (PI / INR M).
Proof.
  intros HM. assert (HM0 : 0 < INR M) by (apply lt_0_INR; lia). pose proof PI_RGT_0 as HP.
  assert (Ha : 0 < PI / INR M <= PI / 2).
  { split; [apply Rdiv_lt_0_compat; lra|]. apply Rmult_le_compat_l; [lra|].
    apply Rinv_le_contravar; [lra|]. replace 2 with (INR 2) by (cbn; lra). apply le_INR. exact HM. }
  assert (Hs : 0 <= sin (PI / INR M)) by (apply sin_ge_0; lra).
  assert (Hc : 0 <= cos (PI / INR M)) by (apply cos_ge_0; lra).
  assert (Hj : forall j, (j <= M)%nat -> 0 <= INR j * (PI / INR M) <= PI).
  { intros j Hj. split; [apply Rmult_le_pos; [apply pos_INR|lra]|].
    apply Rle_trans with (INR M * (PI / INR M)); [|right; field; lra].
    apply Rmult_le_compat_r; [lra|]. apply le_INR. exact Hj. }
  induction i as [|i IH]; intros Hi.
  - cbn [INR]. rewrite !Rmult_0_l, sin_0. lra.
  - destruct (IH ltac:(lia)) as (I1 & I2). split.
    + apply sin_ge_0; apply Hj; lia.
    + rewrite S_INR, Rmult_plus_distr_r, Rmult_1_l, sin_plus. rewrite Rmult_plus_distr_r, Rmult_1_l.
      pose proof (COS_bound (PI / INR M)). pose proof (COS_bound (INR i * (PI / INR M))).
      apply Rplus_le_compat.
      * apply Rle_trans with (sin (INR i * (PI / INR M)) * 1); [apply Rmult_le_compat_l; lra|lra].
      * apply Rle_trans with (1 * sin (PI / INR M)); [apply Rmult_le_compat_r; lra|lra].
Qed.

Lemma jackson_pos M j : (2 <= M)%nat -> (j <= M)%nat ->
  0 <= sin (INR j * (PI / INR M)) * cos (PI / INR M) - INR j * cos (INR j * (PI / INR M)) * sin (PI / INR M).
Proof.
  intros HM. assert (HM0 : 0 < INR M) by (apply lt_0_INR; lia). pose proof PI_RGT_0 as HP.
  assert (Hc : 0 <= cos (PI / INR M)).
  { apply cos_ge_0; [apply Rle_trans with 0; [lra|left; apply Rdiv_lt_0_compat; lra]|].
    apply Rmult_le_compat_l; [lra|]. apply Rinv_le_contravar; [lra|]. replace 2 with (INR 2) by (cbn; lra). apply le_INR. exact HM. }
  induction j as [|j IH]; intros Hj.
  - cbn [INR]. rewrite !Rmult_0_l, sin_0. lra.
  - specialize (IH ltac:(lia)). destruct (sin_mul_le M j HM ltac:(lia)) as (S1 & _).
    rewrite S_INR, Rmult_plus_distr_r, Rmult_1_l, sin_plus, cos_plus.
    set (a := PI / INR M) in *. set (b := INR j * a) in *.
    replace ((sin b * cos a + cos b * sin a) * cos a - (INR j + 1) * (cos b * cos a - sin b * sin a) * sin a)
      with (cos a * (sin b * cos a - INR j * cos b * sin a) + (INR j + 1) * sin b * (sin a * sin a)) by ring.
    apply Rplus_le_le_0_compat; [apply Rmult_le_pos; assumption|].
    apply Rmult_le_pos; [apply Rmult_le_pos; [pose proof (pos_INR j); lra|exact S1]|apply Rle_0_sqr].
Qed.

Lemma damping_range m i : (i <= m)%nat -> 0 <= jackson_damping m i <= 1.
Proof.
  intros Hi. unfold jackson_damping.
  assert (EM : INR m + 2 = INR (m + 2)) by (rewrite plus_INR; cbn; lra). rewrite EM.
  set (M := (m + 2)%nat) in *. assert (HM : (2 <= M)%nat) by (unfold M; lia).
  assert (HM0 : 0 < INR M) by (apply lt_0_INR; lia). pose proof PI_RGT_0 as HP.
  assert (Hs : 0 < sin (PI / INR M)).
  { apply sin_gt_0; [apply Rdiv_lt_0_compat; lra|]. apply Rmult_lt_reg_r with (INR M); [lra|].
    unfold Rdiv. rewrite Rmult_assoc, Rinv_l by lra. assert (2 <= INR M) by (replace 2 with (INR 2) by (cbn; lra); apply le_INR; exact HM). nra. }
  assert (E : / sin (PI / INR M) * ((1 - INR i / INR M) * sin (PI / INR M) * cos (INR i * (PI / INR M))
                 + / INR M * cos (PI / INR M) * sin (INR i * (PI / INR M)))
     = ((INR M - INR i) * sin (PI / INR M) * cos (INR i * (PI / INR M)) + cos (PI / INR M) * sin (INR i * (PI / INR M)))
       / (INR M * sin (PI / INR M))) by (field; lra).
  rewrite E. assert (HD : 0 < INR M * sin (PI / INR M)) by (apply Rmult_lt_0_compat; lra).
  assert (HiM : INR i <= INR M) by (apply le_INR; unfold M; lia).
  split.
  - apply Rmult_le_pos; [|left; apply Rinv_0_lt_compat; exact HD].
    pose proof (jackson_pos M (M - i) HM ltac:(lia)) as P.
    assert (Ei : INR (M - i) * (PI / INR M) = PI - INR i * (PI / INR M)).
    { rewrite minus_INR by (unfold M; lia). field. lra. }
    rewrite Ei, sin_PI_x, minus_INR in P by (unfold M; lia).
    replace (cos (PI - INR i * (PI / INR M))) with (- cos (INR i * (PI / INR M))) in P.
    2:{ rewrite cos_minus, cos_PI, sin_PI. ring. }
    replace ((INR M - INR i) * sin (PI / INR M) * cos (INR i * (PI / INR M)) + cos (PI / INR M) * sin (INR i * (PI / INR M)))
      with (sin (INR i * (PI / INR M)) * cos (PI / INR M) - (INR M - INR i) * - cos (INR i * (PI / INR M)) * sin (PI / INR M)) by ring.
    exact P.
  - apply Rmult_le_reg_r with (INR M * sin (PI / INR M)); [exact HD|]. unfold Rdiv at 1. rewrite Rmult_assoc, Rinv_l by lra.
    rewrite Rmult_1_r, Rmult_1_l. destruct (sin_mul_le M i HM ltac:(lia)) as (S1 & S2).
    pose proof (COS_bound (PI / INR M)). pose proof (COS_bound (INR i * (PI / INR M))).
    apply Rle_trans with ((INR M - INR i) * sin (PI / INR M) * 1 + 1 * (INR i * sin (PI / INR M))); [|right; ring].
    apply Rplus_le_compat.
    + apply Rmult_le_compat_l; [apply Rmult_le_pos; lra|lra].
    + apply Rle_trans with (1 * sin (INR i * (PI / INR M))); [apply Rmult_le_compat_r; lra|lra].
Qed.

Lemma scaled_bound l u b : l < u -> l <= b <= u -> -1 <= (b - (u + l) / 2) / ((u - l) / 2) <= 1.
Proof.
  intros H1 H2. split.
  - apply Rmult_le_reg_r with ((u - l) / 2); [lra|]. unfold Rdiv at 2. rewrite Rmult_assoc, Rinv_l by lra. lra.
  - apply Rmult_le_reg_r with ((u - l) / 2); [lra|]. unfold Rdiv at 1. rewrite Rmult_assoc, Rinv_l by lra. lra.
Qed.
Lemma acos_anti a b : -1 <= a -> a <= b -> b <= 1 -> acos b <= acos a.
Proof.
  intros Ha Hab Hb. pose proof (acos_bound a). pose proof (acos_bound b).
  apply cos_decr_0; try lra. rewrite !cos_acos; lra.
Qed.

(** C63: for a band inside the spectrum, [compute_jackson_cheby_coeff] returns the Chebyshev coefficients
    of the indicator of the band (in the variable scaled to [-1,1]) and the same coefficients multiplied by
    damping factors that depend on the order only, start at 1 and stay in [0,1]. *)
Theorem C63_jackson lo hi l u m : l < u -> l <= lo -> lo <= hi -> hi <= u ->
  exists ch jch fb,
    compute_jackson_cheby_coeff (lo, hi) (l, u) m = Ok ((ch, jch), fb) /\
    List.length ch = S m /\ List.length jch = S m /\
    exists g : nat -> R, g 0%nat = 1 /\ (forall k, (k <= m)%nat -> 0 <= g k <= 1) /\
    (forall k, (k <= m)%nat ->
      angle_coeff (acos ((lo - (u + l) / 2) / ((u - l) / 2))) (acos ((hi - (u + l) / 2) / ((u - l) / 2))) k (nth k ch 0) /\
      nth k jch 0 = g k * nth k ch 0).
Proof.
  intros Hlu H1 H2 H3. unfold compute_jackson_cheby_coeff. cbn [fst snd].
  destruct (Rltb_spec lo l); [lra|]. destruct (Rltb_spec u hi); [lra|]. cbn [orb]. destruct (Rltb_spec u l); [lra|].
  do 3 eexists. split; [reflexivity|]. split; [rewrite map_length, seq_length; reflexivity|].
  split; [rewrite map_length, seq_length; reflexivity|]. exists (jackson_damping m). split; [|split].
  - unfold jackson_damping. cbn [INR]. rewrite Rmult_0_l, sin_0, cos_0.
    assert (0 < INR m + 2) by (pose proof (pos_INR m); lra). pose proof PI_RGT_0.
    assert (Hsn : 0 < sin (PI / (INR m + 2))); [|field; split; lra]. apply sin_gt_0; [apply Rdiv_lt_0_compat; lra|].
    apply Rmult_lt_reg_r with (INR m + 2); [lra|]. unfold Rdiv. rewrite Rmult_assoc, Rinv_l by lra. pose proof (pos_INR m). nra.
  - intros k Hk. apply damping_range. exact Hk.
  - intros k Hk. set (f0 := (lo - (u + l) / 2) / ((u - l) / 2)). set (f1 := (hi - (u + l) / 2) / ((u - l) / 2)).
    split.
    + rewrite nth_map_seq by lia.
      assert (E : jackson_ch f0 f1 k = rect_coeff (acos f0) (acos f1) k).
      { destruct k; cbn [jackson_ch rect_coeff]; [unfold Rdiv; ring|]. rewrite (Rmult_comm PI). reflexivity. }
      rewrite E. apply rect_coeff_spec. pose proof (scaled_bound l u lo Hlu ltac:(lra)). pose proof (scaled_bound l u hi Hlu ltac:(lra)).
      apply acos_anti; unfold f0, f1; try lra. apply Rmult_le_compat_r; [left; apply Rinv_0_lt_compat; lra|lra].
    + rewrite !nth_map_seq by lia. apply Rmult_comm.
Qed.

(** A band that sticks out of the spectrum is rejected (with a TypeError: the code raises an empty tuple). *)
Theorem C63_jackson_out_of_range lo hi l u m : lo < l \/ u < hi ->
  compute_jackson_cheby_coeff (lo, hi) (l, u) m = Raise TypeError.
Proof.
  intros H. unfold compute_jackson_cheby_coeff. cbn [fst snd].
  destruct (Rltb_spec lo l); [reflexivity|]. destruct (Rltb_spec u hi); [reflexivity|]. destruct H; lra.
Qed.

(** The caller's bounds list is overwritten with the scaled bounds, so that a second identical call
    computes another band: with bounds [1, 2] in [0, 4] the second call fails. *)
Theorem C63_jackson_repeatable_refuted : exists r fb,
  compute_jackson_cheby_coeff (1, 2) (0, 4) 3 = Ok (r, fb) /\
  compute_jackson_cheby_coeff fb (0, 4) 3 = Raise TypeError.
Proof.
  unfold compute_jackson_cheby_coeff at 1. cbn [fst snd].
  destruct (Rltb_spec 1 0); [lra|]. destruct (Rltb_spec 4 2); [lra|]. cbn [orb]. destruct (Rltb_spec 4 0); [lra|].
  do 2 eexists. split; [reflexivity|]. apply C63_jackson_out_of_range. left. replace ((1 - (4 + 0) / 2) / ((4 - 0) / 2)) with (- (1/2)) by field. lra.
Qed.

Example C63_jackson_ex : exists ch jch fb g, compute_jackson_cheby_coeff (1, 2) (0, 4) 3 = Ok ((ch, jch), fb) /\
  nth 2 jch 0 = g * nth 2 ch 0 /\ 0 <= g <= 1.
Proof.
  destruct (C63_jackson 1 2 0 4 3 ltac:(lra) ltac:(lra) ltac:(lra) ltac:(lra)) as (ch & jch & fb & E & _ & _ & g & _ & Hg & H).
  exists ch, jch, fb, (g 2%nat). split; [exact E|]. split; [apply H; lia|apply Hg; lia].
Qed.
