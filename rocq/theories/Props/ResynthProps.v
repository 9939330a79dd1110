(** Property C95: analysis followed by synthesis. *)
From Coq Require Import Reals Lra Lia List Arith Bool String ZArith.
From Verif.Base Require Import RSum Prelude LinAlg.
From Verif.Spec Require Import Matrix NdArray FilterSpec.
From Verif.Model Require Import Sparse Graph Traverse Cache Filter.
From Verif.Proofs Require Import SpectralFacts FilterFacts ChebFacts.
From Verif.Props Require Import Caching Filtering Banks.
Import ListNotations.
Open Scope R_scope.

(** g.filter(g.filter(s)), for any batch of signals, any number of filters (also one, also as many as vertices) and either method,
    applies to each signal the spectral multiplier sum_f h_f^2, and gives back the number of signals it was given. *)
Theorem C95_frame_operator :
  forall F ks m H s v sig, spectral F -> (v_N F <> 1)%nat -> response F ks m H -> batch (v_N F) (List.length ks) s v sig ->
    exists out out', gfilter F ks m s = Ok out /\ gfilter F ks m out = Ok out' /\ shape out' = drop1 [v_N F; v; 1%nat] /\
      forall n j, (n < v_N F)%nat -> (j < v)%nat ->
        rd [v_N F; v; 1%nat] out' [n; j; 0%nat] = mult F (fun k => \sum_(f < List.length ks) (H f k * H f k)) (sig j) n.
Proof.
  intros F ks m H s v sig HF HN Hr Hs.
  destruct (C19_analysis_multiplies_the_spectrum F ks m H s v sig HF Hr Hs) as (out & Eo & So & Ho).
  destruct (resqueeze _ _ _ _ HN So) as (RS1 & RS2).
  assert (Hpt : forall j n, \sum_(f < List.length ks) mult F (H f) (mult F (H f) (sig j)) n =
     mult F (fun k => \sum_(f < List.length ks) (H f k * H f k)) (sig j) n).
  { intros j n. rewrite (mult_sum_h F (List.length ks) (fun f k => H f k * H f k)). apply rsum_ext. intros f Hf. apply (mult_mult F HF). }
  destruct (Nat.eq_dec (List.length ks) 1) as [E1|Hne].
  - destruct (RS2 E1) as (sg & Hb & Hsg). rewrite <- E1 in Hb.
    destruct (C19_analysis_multiplies_the_spectrum F ks m H out v sg HF Hr Hb) as (out' & Eo' & So' & Ho').
    exists out, out'. split; [exact Eo|]. split; [exact Eo'|]. rewrite E1 in *. split; [exact So'|].
    intros n j Hn Hj. rewrite Ho' by lia. rewrite <- Hpt. cbn [rsum]. rewrite Rplus_0_l.
    apply mult_ext; [intros ? ?; reflexivity|]. intros i Hi. rewrite Hsg, Ho by lia. reflexivity.
  - destruct (RS1 Hne) as (sg & Hb & Hsg).
    destruct (C19_synthesis_sums_the_filtered_features F ks m H out v sg HF Hr Hb) as (out' & Eo' & So' & Ho').
    exists out, out'. split; [exact Eo|]. split; [exact Eo'|]. split; [exact So'|].
    intros n j Hn Hj. rewrite Ho' by lia. rewrite <- Hpt. apply rsum_ext. intros f Hf.
    apply mult_ext; [intros ? ?; reflexivity|]. intros i Hi. rewrite Hsg, Ho by lia. reflexivity.
Qed.

(** With the optimal frame bounds A, B > 0 the result, divided by (A+B)/2, is the signal up to a relative error of (B-A)/(B+A): a
    nearly tight frame is nearly self-dual. *)
Theorem C95_approximate_reconstruction :
  forall F ks H A B s v sig, spectral F -> (1 < v_N F)%nat -> response F ks Exact H ->
    estimate_frame_bounds F ks (Some (v_e F)) = Ok (A, B) -> 0 < B -> batch (v_N F) (List.length ks) s v sig ->
    0 <= A <= B /\
    exists out out', gfilter F ks Exact s = Ok out /\ gfilter F ks Exact out = Ok out' /\
      forall j, (j < v)%nat ->
        normsq (v_N F) (fun n => sig j n - 2 / (A + B) * rd [v_N F; v; 1%nat] out' [n; j; 0%nat]) <= ((B - A) / (B + A)) ^ 2 * normsq (v_N F) (sig j).
Proof.
  intros F ks H A B s v sig HF HN Hr EAB HB Hs. pose proof Hr as (y & Hy & HH).
  assert (Q : forall k, (k < v_N F)%nat -> A <= \sum_(f < List.length ks) (H f k * H f k) <= B).
  { intros k Hk. unfold estimate_frame_bounds in EAB. rewrite Hy in EAB. cbn [bindr] in EAB.
    destruct (lmin (sumsq y (List.length (v_e F)))) as [a|] eqn:Ea; [|discriminate]. cbn [bindr] in EAB.
    destruct (lmaxl (sumsq y (List.length (v_e F)))) as [b|] eqn:Eb; [|discriminate]. cbn [bindr] in EAB. injection EAB as <- <-.
    assert (Ek : nth k (sumsq y (List.length (v_e F))) 0 = \sum_(f < List.length ks) (H f k * H f k)).
    { rewrite (nth_sumsq ks _ y k Hy) by (rewrite (proj1 HF); exact Hk). apply rsum_ext. intros f Hf. rewrite HH by assumption. reflexivity. }
    rewrite <- Ek. assert (In (nth k (sumsq y (List.length (v_e F))) 0) (sumsq y (List.length (v_e F)))).
    { apply nth_In. unfold sumsq. rewrite map_length, seq_length, (proj1 HF). exact Hk. }
    split; [apply (proj2 (lmin_spec _ _ Ea))|apply (proj2 (lmaxl_spec _ _ Eb))]; assumption. }
  assert (HA : 0 <= A <= B).
  { destruct (Q 0%nat ltac:(lia)) as (Q1 & Q2). split; [|lra].
    unfold estimate_frame_bounds in EAB. rewrite Hy in EAB. cbn [bindr] in EAB.
    destruct (lmin (sumsq y (List.length (v_e F)))) as [a|] eqn:Ea; [|discriminate]. cbn [bindr] in EAB.
    destruct (lmaxl (sumsq y (List.length (v_e F)))) as [b|] eqn:Eb; [|discriminate]. cbn [bindr] in EAB. injection EAB as <- <-.
    destruct (lmin_spec _ _ Ea) as (Hin & _). destruct (In_nth _ _ 0 Hin) as (k & Hk & <-).
    unfold sumsq in Hk. rewrite map_length, seq_length in Hk. rewrite (nth_sumsq ks _ y k Hy) by exact Hk. apply rsum_nonneg. intros; apply Rle_0_sqr. }
  split; [exact HA|].
  destruct (C95_frame_operator F ks Exact H s v sig HF ltac:(lia) Hr Hs) as (out & out' & E & E' & _ & Ho).
  exists out, out'. split; [exact E|]. split; [exact E'|]. intros j Hj. set (q := fun k => \sum_(f < List.length ks) (H f k * H f k)) in *.
  assert (E1 : normsq (v_N F) (fun n => sig j n - 2 / (A + B) * rd [v_N F; v; 1%nat] out' [n; j; 0%nat]) =
               normsq (v_N F) (mult F (fun k => 1 * 1 + (- (2 / (A + B))) * q k) (sig j))).
  { unfold normsq, dot. apply rsum_ext. intros n Hn. rewrite Ho by assumption. fold q.
    rewrite (mult_lin_h F 1 (- (2 / (A + B))) (fun _ => 1) q (sig j) n), (mult_1 F HF (sig j) n Hn). ring. }
  rewrite E1, (mult_normsq F HF), <- (fhat_normsq F HF (sig j)), <- rsum_scal_l. apply rsum_le. intros k Hk.
  apply Rmult_le_compat_r; [apply Rle_0_sqr|]. specialize (Q k Hk). fold (q k) in Q. set (t := q k) in *.
  replace ((1 * 1 + - (2 / (A + B)) * t) * (1 * 1 + - (2 / (A + B)) * t)) with ((A + B - 2 * t) ^ 2 * (/ (A + B)) ^ 2) by (field; lra).
  replace (((B - A) / (B + A)) ^ 2) with ((B - A) ^ 2 * (/ (A + B)) ^ 2) by (field; lra).
  apply Rmult_le_compat_r; [apply pow2_ge_0|]. nra.
Qed.

Example C95_ex : spectral (k2_view 2) /\ (1 < v_N (k2_view 2))%nat /\
  exists H, response (k2_view 2) [pw (fun t => t); pw (fun t => 2 - t / 2)] Exact H /\
    estimate_frame_bounds (k2_view 2) [pw (fun t => t); pw (fun t => 2 - t / 2)] (Some (v_e (k2_view 2))) = Ok (4, 5).
Proof.
  split; [apply k2_spectral|]. split; [cbn; lia|]. eexists. split; [eexists; split; [reflexivity|intros i k Hi Hk; reflexivity]|].
  unfold estimate_frame_bounds. change [pw (fun t => t); pw (fun t => 2 - t / 2)] with (map pw [fun t => t; fun t => 2 - t / 2]). rewrite evaluate_pw.
  cbn [bindr]. rewrite sumsq_pw. cbn.
  do 2 f_equal; [rewrite Rmin_left|rewrite Rmax_right]; lra.
Qed.

(** The hypotheses of C21 can be met by either method: two filters, a signal and a pair of coefficient vectors. *)
Example C21_ex : forall m, m = Exact \/ m = Chebyshev 2 -> exists H ox oc, let ks := map (fun p => pw (peval p)) [[1; 2]; [0; 0; 3]] in
  spectral (k2_view 2) /\ response (k2_view 2) ks m H /\
  gfilter (k2_view 2) ks m (vec_arr 2 (fun i => INR i)) = Ok ox /\ gfilter (k2_view 2) ks m (mat_arr 2 2 (fun i f => INR (i + f))) = Ok oc.
Proof.
  intros m Hm. set (ks := map (fun p => pw (peval p)) [[1; 2]; [0; 0; 3]]). pose proof (k2_spectral 2) as Hs.
  assert (HR : exists H, response (k2_view 2) ks m H).
  { destruct Hm as [-> | ->].
    - eexists. exact (response_pw (k2_view 2) [peval [1; 2]; peval [0; 0; 3]] Hs).
    - eexists. apply (response_poly (k2_view 2) [[1; 2]; [0; 0; 3]] 2); [cbn; lra|lia|discriminate|]. intros p [<-|[<-|[]]]; cbn; lia. }
  destruct HR as (H & HR). exists H.
  destruct (C19_analysis_multiplies_the_spectrum (k2_view 2) ks m H (vec_arr 2 (fun i => INR i)) 1 (fun _ i => INR i) Hs HR (batch1 _ _ _)) as (ox & E1 & _).
  destruct (C19_synthesis_sums_the_filtered_features (k2_view 2) ks m H (mat_arr 2 2 (fun i f => INR (i + f))) 1 (fun _ f i => INR (i + f)) Hs HR) as (oc & E2 & _).
  { refine (fbatch2 _ _ _ _). cbn. lia. }
  exists ox, oc. auto.
Qed.
