(** Property C23: the advertised tight frames are tight. *)
From Coq Require Import Reals Lra Lia List Arith Bool String ZArith.
From Coq Require Import List.
From Verif.Base Require Import RSum Prelude LinAlg.
From Verif.Spec Require Import Matrix NdArray FilterSpec.
From Verif.Model Require Import Sparse Graph Traverse Cache Filter Kernels.
From Verif.Proofs Require Import SpectralFacts FilterFacts ChebFacts.
From Verif.Props Require Import Caching Filtering Banks.
Import ListNotations.
Open Scope R_scope.

(** What tightness means for signals: the responses of a tight bank have A times the energy of the
    signal, and filtering the responses back gives A times the signal. *)
Theorem C23_tight_banks_preserve_energy_and_reconstruct :
  forall F ks A x, spectral F -> (1 < v_N F)%nat -> (1 < List.length ks)%nat -> tight_bank ks 0 (v_lmax F) A ->
    (forall t, In t (v_e F) -> 0 <= t <= v_lmax F) ->
    exists out back, gfilter F ks Exact (vec_arr (v_N F) x) = Ok out /\ gfilter F ks Exact out = Ok back /\
      \sum_(f < List.length ks) normsq (v_N F) (ans F (List.length ks) out f) = A * normsq (v_N F) x /\
      forall n, (n < v_N F)%nat -> rd [v_N F; 1%nat; 1%nat] back [n; 0%nat; 0%nat] = A * x n.
Proof.
  intros F ks A x HF HN Hk HT He.
  assert (Hne : v_e F <> []). { intros E. pose proof (proj1 HF) as HL. rewrite E in HL. cbn in HL. lia. }
  destruct (HT (v_e F) Hne He) as (y & Ey & Ly & Hy).
  set (H := fun i k => nth k (nth i y []) 0).
  assert (Hr : response F ks Exact H) by (exists y; split; [exact Ey|intros; reflexivity]).
  destruct (one_signal F ks Exact H x HF Hr) as (out & Eo & So & Ho). exists out.
  assert (HN1 : v_N F <> 1%nat) by lia. assert (Hk1 : List.length ks <> 1%nat) by lia.
  destruct (proj1 (resqueeze _ _ _ _ HN1 So) Hk1) as (sg & Hb & Hsg).
  destruct (C19_synthesis_sums_the_filtered_features F ks Exact H out 1 sg HF Hr Hb) as (back & Eb & Sb & Hback).
  exists back. split; [exact Eo|]. split; [exact Eb|].
  assert (HA : forall k, (k < v_N F)%nat -> \sum_(f < List.length ks) (H f k * H f k) = A).
  { intros k Hkk. apply Hy. rewrite (proj1 HF). exact Hkk. }
  split.
  - transitivity (\sum_(f < List.length ks) normsq (v_N F) (mult F (H f) x)).
    + apply rsum_ext. intros f Hf. apply dot_ext; intros n Hn; apply Ho; assumption.
    + rewrite (rsum_ext _ _ (fun f => \sum_(k < v_N F) (H f k * H f k * (fhat F x k * fhat F x k)))) by (intros; apply (mult_normsq F HF)).
      rewrite rsum_swap, <- (fhat_normsq F HF), <- rsum_scal_l. apply rsum_ext. intros k Hkk. rewrite rsum_scal_r, HA by exact Hkk. reflexivity.
  - intros n Hn. rewrite Hback by lia.
    transitivity (\sum_(f < List.length ks) mult F (fun k => H f k * H f k) x n).
    + apply rsum_ext. intros f Hf. rewrite <- (mult_mult F HF). apply mult_ext; [intros ? ?; reflexivity|].
      intros i Hi. rewrite Hsg by lia. apply Ho; assumption.
    + rewrite <- (mult_sum_h F (List.length ks) (fun f k => H f k * H f k)).
      transitivity (mult F (fun k => A * 1) x n).
      * apply mult_ext; [|intros ? ?; reflexivity]. intros k Hkk. rewrite HA by exact Hkk. ring.
      * transitivity (A * mult F (fun _ => 1) x n); [|rewrite (mult_1 F HF x n Hn); reflexivity].
        unfold mult. rewrite <- rsum_scal_l. apply rsum_ext. intros k Hkk. ring.
Qed.

(** *** From pointwise kernels to evaluate *)
Lemma evaluate_with_scales scales (gs : list (nat * (R -> R -> R))) x :
  (forall p, In p gs -> (fst p < List.length scales)%nat) ->
  evaluate (map (fun p => with_scale scales (fst p) (snd p)) gs) x =
  Ok (map (fun p => map (snd p (nth (fst p) scales 0)) x) gs).
Proof.
  intros Hin. unfold evaluate. induction gs as [|p gs IH]; [reflexivity|]. cbn [map mapr].
  unfold with_scale at 1. rewrite (nth_error_nth' scales 0) by (apply Hin; left; reflexivity). cbn [bindr].
  rewrite map_length, Nat.eqb_refl. cbn [bindr]. rewrite IH by (intros q Hq; apply Hin; right; exact Hq). reflexivity.
Qed.

Lemma tight_pw gs lo hi A : (forall t, lo <= t <= hi -> sq_at gs t = A) -> tight_bank (map pw gs) lo hi A.
Proof.
  intros HA x Hx Hin. eexists. split; [apply evaluate_pw|]. rewrite !map_length. split; [reflexivity|].
  intros j Hj. pose proof (nth_sumsq (map pw gs) x _ j (evaluate_pw gs x) Hj) as E. rewrite map_length in E. rewrite <- E.
  rewrite sumsq_pw. rewrite (nth_indep (map (sq_at gs) x) 0 (sq_at gs 0)) by (rewrite map_length; exact Hj). rewrite map_nth.
  apply HA, Hin, nth_In, Hj.
Qed.

Lemma tight_ext ks ks' lo hi A : List.length ks = List.length ks' ->
  (forall x, evaluate ks x = evaluate ks' x) -> tight_bank ks lo hi A -> tight_bank ks' lo hi A.
Proof. intros El Ee HT x Hx Hin. rewrite <- El, <- Ee. apply HT; assumption. Qed.

Lemma pow2_down_nth Nf i : (i < Nf - 1)%nat -> nth i (pow2_down Nf) 0 = 2 ^ (Nf - 2 - i).
Proof. intros Hi. unfold pow2_down. rewrite nth_map_seq by exact Hi. reflexivity. Qed.
Lemma pow2_down_len Nf : List.length (pow2_down Nf) = (Nf - 1)%nat.
Proof. unfold pow2_down. rewrite map_length, seq_length. reflexivity. Qed.

(** Meyer and SimpleTight: with S the squared scaling function, the squared wavelet at t is S(t/2) - S(t),
    and the dyadic scales make the sum telescope. *)
Lemma dyadic_telescope (S W : R -> R) c Nf t : (2 <= Nf)%nat ->
  (forall u, 0 <= u -> W u * W u = S (u / 2) * S (u / 2) - S u * S u) -> 0 <= c * t ->
  sq_at ((fun x => S (c * 2 ^ (Nf - 2) * x)) :: map (fun i x => W (c * 2 ^ (Nf - 2 - i) * x)) (seq 0 (Nf - 1))) t
  = S (c * t / 2) * S (c * t / 2).
Proof.
  intros HN HW Hc. unfold sq_at. cbn [map]. rewrite lsum_cons, map_map, lsum_map_seq0.
  destruct Nf as [|[|m]]; try lia. replace (Datatypes.S (Datatypes.S m) - 2)%nat with m by lia.
  replace (Datatypes.S (Datatypes.S m) - 1)%nat with (Datatypes.S m) by lia.
  assert (Hk : forall k, (k <= m)%nat ->
    S (c * 2 ^ m * t) * S (c * 2 ^ m * t) + \sum_(i < k) (W (c * 2 ^ (m - i) * t) * W (c * 2 ^ (m - i) * t)) =
    S (c * 2 ^ (m - k) * t) * S (c * 2 ^ (m - k) * t)).
  { induction k as [|k IH]; intros Hk; [rewrite Nat.sub_0_r; cbn [rsum]; ring|]. cbn [rsum]. rewrite <- Rplus_assoc, IH by lia.
    rewrite HW.
    - replace (m - k)%nat with (Datatypes.S (m - Datatypes.S k)) by lia. cbn [pow].
      replace (c * (2 * 2 ^ (m - Datatypes.S k)) * t / 2) with (c * 2 ^ (m - Datatypes.S k) * t) by field. ring.
    - assert (0 < 2 ^ (m - k)) by (apply pow_lt; lra). nra. }
  cbn [rsum]. rewrite <- Rplus_assoc, Hk by lia. rewrite Nat.sub_diag, pow_O, Rmult_1_r. rewrite HW by exact Hc. ring.
Qed.

Lemma dyadic_bank (S W : R -> R) c Nf x : (2 <= Nf)%nat ->
  evaluate (with_scale (map (fun p => c * p) (pow2_down Nf)) 0 (fun s x => S (s * x))
            :: map (fun i => with_scale (map (fun p => c * p) (pow2_down Nf)) i (fun s x => W (s * x))) (seq 0 (Nf - 1))) x =
  evaluate (map pw ((fun x => S (c * 2 ^ (Nf - 2) * x)) :: map (fun i x => W (c * 2 ^ (Nf - 2 - i) * x)) (seq 0 (Nf - 1)))) x.
Proof.
  intros HN. set (sc := map (fun p => c * p) (pow2_down Nf)).
  assert (Hl : List.length sc = (Nf - 1)%nat) by (unfold sc; rewrite map_length; apply pow2_down_len).
  assert (Hnth : forall i, (i < Nf - 1)%nat -> nth i sc 0 = c * 2 ^ (Nf - 2 - i)).
  { intros i Hi. unfold sc. rewrite (nth_indep _ 0 (c * 0)) by (rewrite map_length, pow2_down_len; exact Hi).
    rewrite (map_nth (fun p => c * p)), pow2_down_nth by exact Hi. reflexivity. }
  set (gs := (0%nat, fun s x => S (s * x)) :: map (fun i => (i, fun s x => W (s * x))) (seq 0 (Nf - 1))).
  transitivity (evaluate (map (fun p => with_scale sc (fst p) (snd p)) gs) x).
  { f_equal. unfold gs. cbn [map fst snd]. rewrite map_map. reflexivity. }
  rewrite evaluate_with_scales, evaluate_pw.
  - f_equal. unfold gs. cbn [map fst snd]. rewrite !map_map. cbn [fst snd]. f_equal.
    + rewrite Hnth by lia. rewrite Nat.sub_0_r. reflexivity.
    + apply map_ext_in. intros i Hi. apply in_seq in Hi. rewrite Hnth by lia. reflexivity.
  - intros p [<-|Hp]; [cbn; lia|]. apply in_map_iff in Hp. destruct Hp as (i & <- & Hi). apply in_seq in Hi. cbn [fst]. lia.
Qed.

Lemma meyer_split u : 0 <= u -> meyer_wavelet u * meyer_wavelet u = meyer_scaling (u / 2) * meyer_scaling (u / 2) - meyer_scaling u * meyer_scaling u.
Proof.
  intros Hu. unfold meyer_wavelet, meyer_scaling. rewrite !Rabs_pos_eq by lra.
  destruct (Rltb_spec u (2 / 3)); destruct (Rltb_spec (u / 2) (2 / 3)); try lra;
  destruct (Rltb_spec u (4 / 3)); try lra.
  - set (q := PI / 2 * _). pose proof (sin2_cos2 q) as E. unfold Rsqr in E. lra.
  - destruct (Rltb_spec (u / 2) (4 / 3)); destruct (Rltb_spec u (8 / 3)); try lra.
    replace (u / 2 / (2 / 3) - 1) with (u / (4 / 3) - 1) by field. lra.
Qed.

(** Meyer(G, Nf), default scales: sum of squares 1 on [0, lmax]. *)
Theorem C23_meyer :
  forall lmax Nf, 0 < lmax -> (2 <= Nf)%nat ->
    exists ks, Meyer lmax Nf None = Ok ks /\ List.length ks = Nf /\ tight_bank ks 0 lmax 1.
Proof.
  intros lmax Nf Hl HN. unfold Meyer. set (sc := map _ (pow2_down Nf)).
  assert (Hok : scales_ok sc Nf = true) by (unfold scales_ok, sc; rewrite map_length, pow2_down_len; apply Nat.eqb_eq; lia).
  rewrite Hok. cbn [negb]. eexists. split; [reflexivity|]. split; [cbn [List.length]; rewrite map_length, seq_length; lia|].
  eapply tight_ext; [|intros x; symmetry; apply (dyadic_bank meyer_scaling meyer_wavelet (4 / (3 * lmax)) Nf x HN)|].
  { cbn [List.length map]. rewrite !map_length. reflexivity. }
  apply tight_pw. intros t Ht.
  assert (Hc : 0 <= 4 / (3 * lmax) * t <= 4 / 3).
  { assert (0 < / lmax) by (apply Rinv_0_lt_compat; lra). replace (4 / (3 * lmax) * t) with (4 / 3 * (t * / lmax)) by (field; lra).
    assert (0 <= t * / lmax) by (apply Rmult_le_pos; lra).
    assert (t * / lmax <= lmax * / lmax) by (apply Rmult_le_compat_r; lra). rewrite Rinv_r in H1 by lra. lra. }
  rewrite (dyadic_telescope meyer_scaling meyer_wavelet _ Nf t HN meyer_split (proj1 Hc)).
  set (u := 4 / (3 * lmax) * t / 2). assert (Hu : 0 <= u <= 2 / 3) by (unfold u; lra).
  unfold meyer_scaling. destruct (Rltb_spec u (2 / 3)); [ring|]. destruct (Rltb_spec u (4 / 3)); [|lra].
  replace u with (2 / 3) by lra. rewrite Rabs_pos_eq by lra. replace (2 / 3 / (2 / 3) - 1) with 0 by field.
  unfold meyer_v. replace (PI / 2 * _) with 0 by ring. rewrite cos_0. ring.
Qed.

Lemma st_h_range x : 0 <= st_h x <= 1.
Proof. unfold st_h. pose proof (SIN_bound (PI * x / 2)). nra. Qed.
Lemma st_sqrt x : sqrt (1 - st_h x ^ 2) * sqrt (1 - st_h x ^ 2) = 1 - st_h x * st_h x.
Proof. rewrite sqrt_sqrt; pose proof (st_h_range x); [ring|nra]. Qed.
Lemma st_split u : 0 <= u -> st_wavelet u * st_wavelet u = st_scaling (u / 2) * st_scaling (u / 2) - st_scaling u * st_scaling u.
Proof.
  intros Hu. unfold st_wavelet, st_scaling.
  destruct (Rltb_spec u (1 / 4)); destruct (Rltb_spec (u / 2) (1 / 4)); try lra;
  destruct (Rltb_spec u (1 / 2)); try lra.
  - rewrite st_sqrt. replace (4 * (u - 1 / 4)) with (4 * u - 1) by field. ring.
  - destruct (Rltb_spec (u / 2) (1 / 2)); destruct (Rltb_spec u 1); try lra.
    rewrite !st_sqrt. replace (4 * (u / 2) - 1) with (2 * u - 1) by field. ring.
Qed.

(** SimpleTight(G, Nf), default scales. *)
Theorem C23_simple_tight :
  forall lmax Nf, 0 < lmax -> (2 <= Nf)%nat ->
    exists ks, SimpleTight lmax Nf None = Ok ks /\ List.length ks = Nf /\ tight_bank ks 0 lmax 1.
Proof.
  intros lmax Nf Hl HN. unfold SimpleTight. set (sc := map _ (pow2_down Nf)).
  assert (Hok : scales_ok sc Nf = true) by (unfold scales_ok, sc; rewrite map_length, pow2_down_len; apply Nat.eqb_eq; lia).
  rewrite Hok. cbn [negb]. eexists. split; [reflexivity|]. split; [cbn [List.length]; rewrite map_length, seq_length; lia|].
  eapply tight_ext; [|intros x; symmetry; apply (dyadic_bank st_scaling st_wavelet (1 / (2 * lmax)) Nf x HN)|].
  { cbn [List.length map]. rewrite !map_length. reflexivity. }
  apply tight_pw. intros t Ht.
  assert (Hc : 0 <= 1 / (2 * lmax) * t <= 1 / 2).
  { assert (0 < / lmax) by (apply Rinv_0_lt_compat; lra). replace (1 / (2 * lmax) * t) with (1 / 2 * (t * / lmax)) by (field; lra).
    assert (0 <= t * / lmax) by (apply Rmult_le_pos; lra).
    assert (t * / lmax <= lmax * / lmax) by (apply Rmult_le_compat_r; lra). rewrite Rinv_r in H1 by lra. lra. }
  rewrite (dyadic_telescope st_scaling st_wavelet _ Nf t HN st_split (proj1 Hc)).
  set (u := 1 / (2 * lmax) * t / 2). assert (Hu : 0 <= u <= 1 / 4) by (unfold u; lra).
  unfold st_scaling. destruct (Rltb_spec u (1 / 4)); [ring|]. destruct (Rltb_spec u (1 / 2)); [|lra].
  replace u with (1 / 4) by lra. rewrite st_sqrt. unfold st_h. replace (PI * (4 * (1 / 4) - 1) / 2) with 0 by field. rewrite sin_0. ring.
Qed.

(** The number of scales is checked. *)
Theorem C23_wrong_number_of_scales_rejected :
  forall lmax Nf s, S (List.length s) <> Nf ->
    Meyer lmax Nf (Some s) = Raise ValueError /\ (s <> [] -> SimpleTight lmax Nf (Some s) = Raise ValueError).
Proof.
  intros lmax Nf s H. apply Nat.eqb_neq in H. split; [unfold Meyer, scales_ok; rewrite H; reflexivity|].
  intros Hs. destruct s as [|a s]; [congruence|]. unfold SimpleTight, scales_ok. rewrite H. reflexivity.
Qed.

(** *** Itersine and HalfCosine: sliding windows *)
Lemma rsum_window n f a k : (a + k <= n)%nat -> (forall i, (i < n)%nat -> (i < a \/ a + k <= i)%nat -> f i = 0) ->
  rsum n f = \sum_(j < k) f (a + j)%nat.
Proof.
  intros Hn Hz. replace n with (a + (k + (n - a - k)))%nat by lia. rewrite rsum_split, rsum_split.
  rewrite (rsum_0 a) by (intros i Hi; apply Hz; lia). rewrite (rsum_0 (n - a - k)) by (intros i Hi; apply Hz; lia). ring.
Qed.
Lemma between (M : nat) z : 0 <= z <= INR M + 1 -> exists m, (m <= M)%nat /\ INR m <= z <= INR m + 1.
Proof.
  induction M as [|M IH]; intros Hz.
  - exists 0%nat. cbn in *. split; [lia|lra].
  - rewrite S_INR in Hz. destruct (Rle_lt_dec z (INR M + 1)) as [Hle|Hgt].
    + destruct IH as (m & Hm & Hb); [lra|]. exists m. split; [lia|exact Hb].
    + exists (S M). rewrite S_INR. split; [lia|lra].
Qed.

Lemma itersine_edge a : a <= - / 2 \/ / 2 <= a -> itersine_kernel a = 0.
Proof.
  intros H. unfold itersine_kernel. destruct (Rleb_spec (- / 2) a); destruct (Rleb_spec a (/ 2)); cbn [andb]; try (rewrite Rmult_0_r; reflexivity).
  rewrite Rmult_1_r. assert (E : a = / 2 \/ a = - / 2) by lra.
  assert (Hc : cos (a * PI) = 0).
  { destruct E as [-> | ->]; [replace (/ 2 * PI) with (PI / 2) by field; apply cos_PI2|].
    replace (- / 2 * PI) with (- (PI / 2)) by field. rewrite cos_neg. apply cos_PI2. }
  rewrite Hc. replace (/ 2 * PI * 0 ^ 2) with 0 by ring. apply sin_0.
Qed.
Lemma itersine_pair a : 0 <= a <= / 2 ->
  itersine_kernel a * itersine_kernel a + itersine_kernel (a - / 2) * itersine_kernel (a - / 2) = 1.
Proof.
  intros Ha. unfold itersine_kernel. destruct (Rleb_spec (- / 2) a); [|lra]. destruct (Rleb_spec a (/ 2)); [|lra].
  destruct (Rleb_spec (- / 2) (a - / 2)); [|lra]. destruct (Rleb_spec (a - / 2) (/ 2)); [|lra]. cbn [andb].
  replace ((a - / 2) * PI) with (- (PI / 2 - a * PI)) by field. rewrite cos_neg, <- sin_shift, sin_shift. rewrite cos_shift.
  pose proof (sin2_cos2 (a * PI)) as E. unfold Rsqr in E.
  replace (sin (a * PI) ^ 2) with (1 - cos (a * PI) ^ 2) by (cbn [pow]; lra).
  replace (/ 2 * PI * (1 - cos (a * PI) ^ 2)) with (PI / 2 - / 2 * PI * cos (a * PI) ^ 2) by field. rewrite sin_shift.
  set (q := / 2 * PI * _). pose proof (sin2_cos2 q) as E2. unfold Rsqr in E2. lra.
Qed.

(** Itersine(G, Nf, overlap) with an even overlap (the default is 2). *)
Theorem C23_itersine_even_overlap :
  forall lmax Nf h, 0 < lmax -> (0 < h)%nat -> (2 * h <= Nf)%nat ->
    tight_bank (Itersine lmax Nf (2 * h)) 0 lmax 1.
Proof.
  intros lmax Nf h Hl Hh HN. unfold Itersine. rewrite <- (map_map (itersine_fun lmax Nf (2 * h)) pw). apply tight_pw. intros t Ht.
  set (k := (2 * h)%nat) in *. assert (Hk : 0 < INR k) by (apply lt_0_INR; lia). assert (Hhr : 0 < INR h) by (apply lt_0_INR; lia).
  assert (Ek : INR k = 2 * INR h) by (unfold k; rewrite mult_INR; cbn; ring).
  set (M := INR Nf - INR k + 1). assert (HM : 1 <= M) by (unfold M; apply le_INR in HN; lra).
  set (y := t / lmax * M).
  assert (Hy : 0 <= y <= M).
  { unfold y. assert (0 < / lmax) by (apply Rinv_0_lt_compat; lra). assert (0 <= t / lmax) by (apply Rmult_le_pos; lra).
    assert (t / lmax <= 1). { unfold Rdiv. assert (t * / lmax <= lmax * / lmax) by (apply Rmult_le_compat_r; lra). rewrite Rinv_r in H1 by lra. exact H1. } nra. }
  assert (EM : M = INR (Nf - k) + 1) by (unfold M; rewrite minus_INR by lia; ring).
  destruct (between (Nf - k) y ltac:(rewrite <- EM; exact Hy)) as (m & Hm & Hmy).
  assert (Hf : forall i, itersine_fun lmax Nf k i t * itersine_fun lmax Nf k i t =
     2 / INR k * (itersine_kernel ((y - INR i) / INR k + / 2) * itersine_kernel ((y - INR i) / INR k + / 2))).
  { intros i. unfold itersine_fun. fold M. replace (t / (lmax / M * INR k) - (INR i - INR k / 2) / INR k) with ((y - INR i) / INR k + / 2).
    - set (v := itersine_kernel _). replace (v * sqrt (2 / INR k) * (v * sqrt (2 / INR k))) with (v * v * (sqrt (2 / INR k) * sqrt (2 / INR k))) by ring.
      rewrite sqrt_sqrt; [ring|]. apply Rlt_le, Rdiv_lt_0_compat; lra.
    - unfold y. field. repeat split; lra. }
  unfold sq_at. rewrite map_map, lsum_map_seq. rewrite (rsum_window Nf _ m k).
  - unfold k at 1. replace (2 * h)%nat with (h + h)%nat by lia. rewrite rsum_split, <- rsum_plus.
    rewrite (rsum_ext h _ (fun _ => 2 / INR k)).
    + rewrite rsum_const. rewrite Ek. field. lra.
    + intros j Hj. rewrite !Hf, <- Rmult_plus_distr_l. rewrite <- (Rmult_1_r (2 / INR k)) at 2. f_equal.
      set (a := (y - INR (1 + (m + j))) / INR k + / 2).
      replace ((y - INR (1 + (m + (h + j)))) / INR k + / 2) with (a - / 2).
      * apply itersine_pair. unfold a. rewrite !plus_INR. cbn [INR]. apply le_INR in Hj as Hj'. rewrite S_INR in Hj'. pose proof (pos_INR j).
        rewrite Ek. split.
        -- apply Rmult_le_reg_r with (2 * INR h); [lra|]. rewrite Rmult_0_l. rewrite Rmult_plus_distr_r. unfold Rdiv. rewrite Rmult_assoc, Rinv_l by lra. lra.
        -- apply Rmult_le_reg_r with (2 * INR h); [lra|]. rewrite Rmult_plus_distr_r. unfold Rdiv. rewrite Rmult_assoc, Rinv_l by lra. lra.
      * unfold a. rewrite !plus_INR, Ek. field. lra.
  - lia.
  - intros i Hi Hout. rewrite Hf. rewrite itersine_edge; [ring|]. rewrite plus_INR. cbn [INR]. destruct Hout as [Hlt|Hge].
    + right. apply le_INR in Hlt. rewrite S_INR in Hlt. assert (0 <= (y - (1 + INR i)) / INR k); [|lra].
      apply Rmult_le_pos; [lra|apply Rlt_le, Rinv_0_lt_compat, Hk].
    + left. apply le_INR in Hge. rewrite plus_INR in Hge. assert ((y - (1 + INR i)) / INR k <= -1); [|lra].
      apply Rmult_le_reg_r with (INR k); [exact Hk|]. unfold Rdiv. rewrite Rmult_assoc, Rinv_l by lra. lra.
Qed.

(** An odd overlap does not give a tight frame: overlap 3, 3 filters, frequencies 0 and lmax/2. *)
Theorem C23_itersine_odd_overlap_refuted :
  forall lmax A, 0 < lmax -> ~ tight_bank (Itersine lmax 3 3) 0 lmax A.
Proof.
  intros lmax A Hl HT.
  assert (E : forall t, 0 <= t <= lmax -> sq_at (map (itersine_fun lmax 3 3) [1; 2; 3]%nat) t = A).
  { intros t Ht. destruct (HT [t] ltac:(discriminate)) as (y & Ey & _ & Hy); [intros s [<-|[]]; exact Ht|].
    specialize (Hy 0%nat ltac:(cbn; lia)). rewrite <- Hy.
    change (Itersine lmax 3 3) with (map pw (map (itersine_fun lmax 3 3) [1; 2; 3]%nat)) in Ey.
    rewrite evaluate_pw in Ey. injection Ey as <-. cbn. unfold sq_at, lsum. cbn. ring. }
  assert (Hs : sqrt (2 / 3) * sqrt (2 / 3) = 2 / 3) by (apply sqrt_sqrt; lra).
  assert (Hv : forall t i a, (t / (lmax / 1 * 3) - (INR i - 3 / 2) / 3) = a ->
     itersine_fun lmax 3 3 i t * itersine_fun lmax 3 3 i t = itersine_kernel a * itersine_kernel a * (2 / 3)).
  { intros t i a Ha. unfold itersine_fun. replace (INR 3) with 3 by (cbn; lra). replace (3 - 3 + 1) with 1 by lra. rewrite Ha.
    transitivity (itersine_kernel a * itersine_kernel a * (sqrt (2 / 3) * sqrt (2 / 3))); [ring|rewrite Hs; reflexivity]. }
  assert (HP : cos (PI / 6) = sqrt 3 / 2) by apply cos_PI6.
  assert (H3 : cos (PI / 3) = / 2) by (rewrite cos_PI3; lra).
  assert (Hk0 : itersine_kernel 0 = 1).
  { unfold itersine_kernel. destruct (Rleb_spec (- / 2) 0); [|lra]. destruct (Rleb_spec 0 (/ 2)); [|lra]. cbn [andb].
    rewrite Rmult_0_l, cos_0. replace (/ 2 * PI * 1 ^ 2) with (PI / 2) by field. rewrite sin_PI2. ring. }
  assert (Hkz : forall a, a = / 2 \/ a = - / 2 -> itersine_kernel a = 0) by (intros a Ha; apply itersine_edge; lra).
  assert (Hk6 : forall a, a = / 6 \/ a = - / 6 -> itersine_kernel a = sin (3 * (PI / 8))).
  { intros a Ha. unfold itersine_kernel. destruct (Rleb_spec (- / 2) a); [|lra]. destruct (Rleb_spec a (/ 2)); [|lra]. cbn [andb].
    assert (Hc : cos (a * PI) = sqrt 3 / 2).
    { rewrite <- HP. destruct Ha as [-> | ->]; [f_equal; field|]. replace (- / 6 * PI) with (- (PI / 6)) by field. apply cos_neg. }
    rewrite Hc. rewrite Rmult_1_r. f_equal. replace ((sqrt 3 / 2) ^ 2) with (sqrt 3 * sqrt 3 / 4) by field. rewrite sqrt_sqrt by lra. field. }
  assert (Hk3 : forall a, a = / 3 \/ a = - / 3 -> itersine_kernel a = sin (PI / 8)).
  { intros a Ha. unfold itersine_kernel. destruct (Rleb_spec (- / 2) a); [|lra]. destruct (Rleb_spec a (/ 2)); [|lra]. cbn [andb].
    assert (Hc : cos (a * PI) = / 2).
    { rewrite <- H3. destruct Ha as [-> | ->]; [f_equal; field|]. replace (- / 3 * PI) with (- (PI / 3)) by field. apply cos_neg. }
    rewrite Hc. rewrite Rmult_1_r. f_equal. field. }
  pose proof (E 0 ltac:(lra)) as E0. pose proof (E (lmax / 2) ltac:(lra)) as E1.
  unfold sq_at, lsum in E0, E1. cbn [map fold_right] in E0, E1.
  rewrite (Hv 0 1%nat (/ 6)), (Hv 0 2%nat (- / 6)), (Hv 0 3%nat (- / 2)) in E0 by (cbn; field; lra).
  rewrite (Hv (lmax / 2) 1%nat (/ 3)), (Hv (lmax / 2) 2%nat 0), (Hv (lmax / 2) 3%nat (- / 3)) in E1 by (cbn; field; lra).
  rewrite !Hk6, Hkz in E0 by auto. rewrite (Hk3 (/ 3)), (Hk3 (- / 3)), Hk0 in E1 by auto.
  assert (D : sin (3 * (PI / 8)) = cos (PI / 8)) by (rewrite <- cos_shift; f_equal; field).
  rewrite D in E0. pose proof (sin2_cos2 (PI / 8)) as S8. unfold Rsqr in S8.
  assert (C4 : cos (PI / 4) = cos (PI / 8) * cos (PI / 8) - sin (PI / 8) * sin (PI / 8)).
  { replace (PI / 4) with (PI / 8 + PI / 8) by field. apply cos_plus. }
  assert (/ 2 < cos (PI / 4)).
  { rewrite <- H3. apply cos_decreasing_1; pose proof PI_RGT_0; lra. }
  lra.
Qed.

(** HalfCosine(G, Nf): sum of squares 9/8; fewer than three filters are rejected. *)
Theorem C23_half_cosine :
  forall lmax Nf, 0 < lmax ->
    ((Nf <= 2)%nat -> HalfCosine lmax Nf = Raise ValueError) /\
    ((3 <= Nf)%nat -> exists ks, HalfCosine lmax Nf = Ok ks /\ List.length ks = Nf /\ tight_bank ks 0 lmax (9 / 8)).
Proof.
  intros lmax Nf Hl. unfold HalfCosine. split; intros HN; [destruct (Nat.leb_spec Nf 2); [reflexivity|lia]|].
  destruct (Nat.leb_spec Nf 2); [lia|]. eexists. split; [reflexivity|]. split; [rewrite map_length, seq_length; reflexivity|].
  rewrite <- (map_map (halfcosine_fun lmax Nf) pw). apply tight_pw. intros t Ht.
  assert (HNr : INR 3 <= INR Nf) by (apply le_INR; exact HN). replace (INR 3) with 3 in HNr by (cbn; lra).
  set (M := INR Nf - 2). assert (HM : 1 <= M) by (unfold M; lra). set (z := t / lmax * M).
  assert (Hz : 0 <= z <= M).
  { unfold z. assert (0 < / lmax) by (apply Rinv_0_lt_compat; lra). assert (0 <= t / lmax) by (apply Rmult_le_pos; lra).
    assert (t / lmax <= 1). { unfold Rdiv. assert (Hx : t * / lmax <= lmax * / lmax) by (apply Rmult_le_compat_r; lra). rewrite Rinv_r in Hx by lra. exact Hx. } nra. }
  assert (EM : M = INR (Nf - 3) + 1) by (unfold M; rewrite minus_INR by lia; cbn; lra).
  destruct (between (Nf - 3) z ltac:(rewrite <- EM; exact Hz)) as (m & Hm & Hmz).
  set (d := lmax * 3 / M). assert (Hd : 0 < d) by (unfold d; apply Rdiv_lt_0_compat; lra).
  set (w := fun i => (z - (INR i - 2)) / 3).
  assert (Hw : forall i, t - d / 3 * (INR i - 2) = d * w i) by (intros i; unfold w, z, d; field; lra).
  assert (Hin : forall i, 0 <= w i <= 1 -> halfcosine_fun lmax Nf i t = / 2 + / 2 * cos (2 * PI * (w i - / 2))).
  { intros i Hi. unfold halfcosine_fun, halfcosine_kernel. fold M d. rewrite Hw. destruct (Rleb_spec 0 (d * w i)); [|nra].
    destruct (Rleb_spec (d * w i) d); [|nra]. replace (d * w i / d) with (w i) by (field; lra). ring. }
  assert (Hout : forall i, w i <= 0 \/ 1 <= w i -> halfcosine_fun lmax Nf i t = 0).
  { intros i Hi. destruct (Rle_lt_dec 0 (w i)) as [H0|H0]; [destruct (Rle_lt_dec (w i) 1) as [H1|H1]|].
    - rewrite Hin by lra. assert (E : w i = 0 \/ w i = 1) by lra. destruct E as [-> | ->].
      + replace (2 * PI * (0 - / 2)) with (- PI) by field. rewrite cos_neg, cos_PI. lra.
      + replace (2 * PI * (1 - / 2)) with PI by field. rewrite cos_PI. lra.
    - unfold halfcosine_fun, halfcosine_kernel. fold M d. rewrite Hw. destruct (Rleb_spec (d * w i) d); [nra|ring].
    - unfold halfcosine_fun, halfcosine_kernel. fold M d. rewrite Hw. destruct (Rleb_spec 0 (d * w i)); [nra|ring]. }
  unfold sq_at. rewrite map_map, lsum_map_seq0. rewrite (rsum_window Nf _ m 3); [|lia|].
  - cbn [rsum]. rewrite !Nat.add_0_r.
    assert (W1 : w (m + 1)%nat = w m - / 3) by (unfold w; rewrite plus_INR; cbn; field).
    assert (W2 : w (m + 2)%nat = w m - 2 / 3) by (unfold w; rewrite plus_INR; cbn; field).
    assert (W0 : 2 / 3 <= w m <= 1) by (unfold w; lra).
    rewrite !Hin by (rewrite ?W1, ?W2; lra). rewrite W1, W2. set (q := 2 * PI * (w m - / 2)).
    replace (2 * PI * (w m - / 3 - / 2)) with (q - 2 * (PI / 3)) by (unfold q; field).
    replace (2 * PI * (w m - 2 / 3 - / 2)) with (q + 2 * (PI / 3) - 2 * PI) by (unfold q; field).
    replace (cos (q + 2 * (PI / 3) - 2 * PI)) with (cos (q + 2 * (PI / 3))).
    2:{ rewrite <- (cos_period (q + 2 * (PI / 3) - 2 * PI) 1). cbn. f_equal. ring. }
    rewrite cos_minus, cos_plus, cos_2PI3, sin_2PI3.
    pose proof (sin2_cos2 q) as S. unfold Rsqr in S. assert (S3 : sqrt 3 * sqrt 3 = 3) by (apply sqrt_sqrt; lra).
    set (c := cos q) in *. set (s := sin q) in *. set (r := sqrt 3) in *.
    replace (_ + _) with (3 / 4 + c * c * 3 / 8 + s * s * (r * r) / 8) by field. rewrite S3. lra.
  - intros i Hi Ho. rewrite Hout; [ring|]. unfold w. destruct Ho as [Hlt|Hge].
    + right. apply le_INR in Hlt. rewrite S_INR in Hlt. lra.
    + left. apply le_INR in Hge. rewrite plus_INR in Hge. cbn in Hge. lra.
Qed.

(** *** Held, Simoncelli, Papadakis, Regular: a low-pass below one and its complement *)
Lemma tight_complement lmax g hi : 0 < lmax -> (forall t, 0 <= t <= hi -> g (t * 2 / lmax) * g (t * 2 / lmax) <= 1) ->
  tight_bank (with_complement lmax g) 0 hi 1.
Proof.
  intros Hl Hg x Hx Hin. unfold with_complement. change [pw (fun x => g (x * 2 / lmax))] with (map pw [fun x => g (x * 2 / lmax)]).
  destruct (C24_complement_completes_to_a_tight_frame [fun x => g (x * 2 / lmax)] 1 x Hx) as (y & Ey & Ly & Hy).
  { intros t Ht. unfold sq_at, lsum. cbn. rewrite Rplus_0_r. apply Hg, Hin, Ht. }
  exists y. split; [exact Ey|]. split; [exact Ly|]. intros j Hj. rewrite <- (nth_sumsq _ x y j Ey Hj). apply Hy, Hj.
Qed.
Lemma freq_pos t lmax : 0 < lmax -> 0 <= t -> 0 <= t * 2 / lmax.
Proof. intros. apply Rmult_le_pos; [lra|]. apply Rlt_le, Rinv_0_lt_compat. assumption. Qed.
Lemma three_regions_le1 junk l1 l2 mid x : 0 <= x -> l1 <= l2 \/ l1 <= 0 -> (forall x, l1 <= x < l2 -> mid x * mid x <= 1) ->
  three_regions junk l1 l2 mid x * three_regions junk l1 l2 mid x <= 1.
Proof.
  intros Hx Hl Hm. unfold three_regions. destruct (Rleb_spec l2 x); [lra|]. destruct (Rleb_spec l1 x); destruct (Rltb_spec x l2); cbn [andb]; try lra.
  - apply Hm. lra.
  - destruct (Rleb_spec 0 x); [|lra]. destruct (Rltb_spec x l1); cbn [andb]; lra.
Qed.

(** Tight on all of [0, hi], also beyond lmax, whatever np.empty leaves in uncovered entries. *)
Theorem C23_held_simoncelli_papadakis_regular :
  forall junk lmax a degree hi, 0 < lmax -> 0 < a ->
    tight_bank (Held junk lmax a) 0 hi 1 /\ tight_bank (Simoncelli junk lmax a) 0 hi 1 /\
    tight_bank (Papadakis junk lmax a) 0 hi 1 /\ tight_bank (Regular lmax degree) 0 hi 1.
Proof.
  intros junk lmax a degree hi Hl Ha. split; [|split; [|split]]; apply tight_complement; try exact Hl; intros t Ht;
    pose proof (freq_pos t lmax Hl (proj1 Ht)) as Hf; set (x := t * 2 / lmax) in *.
  - apply three_regions_le1; [exact Hf|lra|]. intros y Hy. set (q := 2 * PI * _). pose proof (SIN_bound q). nra.
  - apply three_regions_le1; [exact Hf|lra|]. intros y Hy. set (q := PI / 2 * ln (y / a) / ln 2). pose proof (COS_bound q). nra.
  - apply three_regions_le1; [exact Hf|lra|]. intros y Hy. set (q := 3 * PI / (2 * a) * y). pose proof (SIN_bound q).
    rewrite sqrt_sqrt; lra.
  - unfold regular_kernel. destruct degree; match goal with |- sin ?q * _ <= 1 => pose proof (SIN_bound q); nra end.
Qed.

(** The three-region kernels have no jump: at l1 the middle part is 1, at l2 it is 0. *)
Theorem C23_no_jumps :
  forall junk a, 0 < a ->
    held_kernel junk a a = 1 /\ sin (2 * PI * held_mu ((2 * a) / 8 / a)) = 0 /\
    simoncelli_kernel junk a a = 1 /\ cos (PI / 2 * ln (2 * a / a) / ln 2) = 0 /\
    papadakis_kernel junk a a = 1 /\ sqrt ((1 - sin (3 * PI / (2 * a) * (a * 5 / 3))) / 2) = 0.
Proof.
  intros junk a Ha. repeat split.
  - unfold held_kernel, three_regions. destruct (Rleb_spec (2 * a) a); [lra|]. destruct (Rleb_spec a a); [|lra]. destruct (Rltb_spec a (2 * a)); [|lra]. cbn [andb].
    unfold held_mu. replace (2 * PI * _) with (PI / 2) by (field; lra). apply sin_PI2.
  - unfold held_mu. replace (2 * PI * _) with 0 by (field; lra). apply sin_0.
  - unfold simoncelli_kernel, three_regions. destruct (Rleb_spec (2 * a) a); [lra|]. destruct (Rleb_spec a a); [|lra]. destruct (Rltb_spec a (2 * a)); [|lra]. cbn [andb].
    replace (a / a) with 1 by (field; lra). rewrite ln_1. replace (PI / 2 * 0 / ln 2) with 0 by (unfold Rdiv; ring). apply cos_0.
  - replace (2 * a / a) with 2 by (field; lra). assert (ln 2 <> 0) by (pose proof ln_lt_2; lra). replace (PI / 2 * ln 2 / ln 2) with (PI / 2) by (field; assumption). apply cos_PI2.
  - unfold papadakis_kernel, three_regions. destruct (Rleb_spec (a * 5 / 3) a); [lra|]. destruct (Rleb_spec a a); [|lra]. destruct (Rltb_spec a (a * 5 / 3)); [|lra]. cbn [andb].
    replace (3 * PI / (2 * a) * a) with (3 * (PI / 2)) by (field; lra). rewrite sin_3PI2. replace ((1 - -1) / 2) with 1 by lra. apply sqrt_1.
  - replace (3 * PI / (2 * a) * (a * 5 / 3)) with (PI / 2 + 2 * INR 1 * PI) by (cbn; field; lra). rewrite sin_period, sin_PI2. replace ((1 - 1) / 2) with 0 by lra. apply sqrt_0.
Qed.

Lemma iter_sin_odd n y : iter_sin n (- y) = - iter_sin n y.
Proof. induction n as [|n IH]; cbn; [reflexivity|]. rewrite IH. replace (PI * - iter_sin n y / 2) with (- (PI * iter_sin n y / 2)) by field. apply sin_neg. Qed.
(** Regular: the high-pass is the low-pass mirrored at the middle of the spectrum. *)
Theorem C23_regular_mirror :
  forall lmax degree t, 0 < lmax ->
    let g x := regular_kernel degree (x * 2 / lmax) in g t * g t + g (lmax - t) * g (lmax - t) = 1.
Proof.
  intros lmax degree t Hl g. unfold g, regular_kernel. replace ((lmax - t) * 2 / lmax) with (2 - t * 2 / lmax) by (field; lra).
  set (x := t * 2 / lmax). destruct degree as [|d].
  - replace (PI / 4 * (2 - x)) with (PI / 2 - PI / 4 * x) by field. rewrite sin_shift. set (q := PI / 4 * x). pose proof (sin2_cos2 q) as E. unfold Rsqr in E. lra.
  - replace (PI * (2 - x - 1) / 2) with (- (PI * (x - 1) / 2)) by field. rewrite sin_neg, iter_sin_odd. set (o := iter_sin _ _).
    replace (PI / 4 * (1 + - o)) with (PI / 2 - PI / 4 * (1 + o)) by field. rewrite sin_shift. set (q := PI / 4 * (1 + o)).
    pose proof (sin2_cos2 q) as E. unfold Rsqr in E. lra.
Qed.

Example C23_ex : spectral (k2_view 2) /\ (1 < v_N (k2_view 2))%nat /\ tight_bank (Itersine (v_lmax (k2_view 2)) 6 2) 0 (v_lmax (k2_view 2)) 1 /\
  (forall t, In t (v_e (k2_view 2)) -> 0 <= t <= v_lmax (k2_view 2)).
Proof.
  split; [apply k2_spectral|]. split; [cbn; lia|]. split; [apply (C23_itersine_even_overlap 2 6 1); [lra|lia|lia]|].
  cbn. intros t [<-|[<-|[]]]; lra.
Qed.
