(** C22: the frame bounds estimated by default, from 1000 samples of [0, lmax]. *)
From Coq Require Import Reals Lra Lia List Arith Bool String ZArith.
From Coq Require Import List.
From Verif.Base Require Import RSum Prelude LinAlg.
From Verif.Spec Require Import Matrix GraphSpec NdArray FilterSpec.
From Verif.Model Require Import Sparse Graph Filter Kernels.
From Verif.Proofs Require Import SparseFacts SpectralFacts FilterFacts.
From Verif.Props Require Import Caching Filtering Banks.
Import ListNotations.
Open Scope R_scope.
Open Scope list_scope.

(** The sum of the squared gains of the filters at frequency t. *)
Definition gain2 (gs : list (R -> R)) (t : R) : R := \sum_(f < List.length gs) (nth f gs (fun _ => 0) t * nth f gs (fun _ => 0) t).

Lemma sq_gain gs t : sq_at gs t = gain2 gs t.
Proof.
  unfold sq_at, gain2. induction gs as [|g gs IH]; [reflexivity|]. cbn [map List.length]. rewrite rsum_S_first. cbn [nth]. rewrite <- IH. reflexivity.
Qed.
Lemma default_eq F ks : estimate_frame_bounds F ks None = estimate_frame_bounds F ks (Some (linspace 0 (v_lmax F) 1000)).
Proof. reflexivity. Qed.
Lemma bounds_of gs F xs : xs <> [] -> exists A B, estimate_frame_bounds F (map pw gs) (Some xs) = Ok (A, B) /\
  (exists t, In t xs /\ A = gain2 gs t) /\ (exists t, In t xs /\ B = gain2 gs t) /\ forall t, In t xs -> A <= gain2 gs t <= B.
Proof.
  intros Hx. unfold estimate_frame_bounds. rewrite evaluate_pw. cbn [bindr]. rewrite sumsq_pw.
  assert (Ne : map (sq_at gs) xs <> []) by (destruct xs; [contradiction|discriminate]).
  destruct (lmin (map (sq_at gs) xs)) as [A|] eqn:EA; [|destruct (map (sq_at gs) xs); [contradiction|discriminate]].
  destruct (lmaxl (map (sq_at gs) xs)) as [B|] eqn:EB; [|destruct (map (sq_at gs) xs); [contradiction|discriminate]]. cbn [bindr].
  exists A, B. split; [reflexivity|]. destruct (lmin_spec _ _ EA) as [IA LA]. destruct (lmaxl_spec _ _ EB) as [IB LB].
  split; [apply in_map_iff in IA as (t & <- & Ht); exists t; split; [exact Ht|apply sq_gain]|].
  split; [apply in_map_iff in IB as (t & <- & Ht); exists t; split; [exact Ht|apply sq_gain]|].
  intros t Ht. rewrite <- sq_gain. split; [apply LA|apply LB]; apply in_map; exact Ht.
Qed.

Lemma Rabs_def2_le x a : Rabs x <= a -> - a <= x <= a.
Proof. unfold Rabs. destruct (Rcase_abs x); lra. Qed.

(** The 1000 samples. *)
Lemma samples lmax t : In t (linspace 0 lmax 1000) <-> exists i, (i < 1000)%nat /\ t = INR i * (lmax / 999).
Proof.
  unfold linspace. rewrite in_map_iff. replace (INR (1000 - 1)) with 999 by (rewrite INR_IZR_INZ; f_equal).
  split; [intros (i & <- & Hi); apply in_seq in Hi; exists i; split; [lia|rewrite Rminus_0_r; ring]|].
  intros (i & Hi & ->). exists i. split; [rewrite Rminus_0_r; ring|apply in_seq; lia].
Qed.
Lemma samples_ne lmax : linspace 0 lmax 1000 <> [].
Proof. intros E. assert (In 0 (linspace 0 lmax 1000)) as H by (apply samples; exists 0%nat; split; [lia|cbn; ring]). rewrite E in H. destruct H. Qed.
Lemma samples_range lmax t : 0 <= lmax -> In t (linspace 0 lmax 1000) -> 0 <= t <= lmax.
Proof.
  intros Hl Ht. apply samples in Ht as (i & Hi & ->). assert (0 <= lmax / 999) by lra. assert (0 <= INR i <= 999).
  { split; [apply pos_INR|]. replace 999 with (INR 999) by (rewrite INR_IZR_INZ; f_equal). apply le_INR. lia. }
  split; [apply Rmult_le_pos; lra|]. apply Rle_trans with (999 * (lmax / 999)); [apply Rmult_le_compat_r; lra|lra].
Qed.
(** Every frequency is within half a step of a sample. *)
Lemma nearest lmax t : 0 < lmax -> 0 <= t <= lmax -> exists u, In u (linspace 0 lmax 1000) /\ Rabs (t - u) <= lmax / 1998.
Proof.
  intros Hl Ht. set (h := lmax / 999). assert (Hh : 0 < h) by (unfold h; lra). set (v := t / h + / 2).
  destruct (archimed v) as [U1 U2]. set (i := (up v - 1)%Z) in *. assert (I1 : IZR i <= v) by (unfold i; rewrite minus_IZR; lra).
  assert (I2 : v < IZR i + 1) by (unfold i; rewrite minus_IZR; lra).
  assert (Q : 0 <= t / h <= 999).
  { split; [apply Rmult_le_pos; [lra|left; apply Rinv_0_lt_compat; exact Hh]|]. apply (Rmult_le_reg_r h); [exact Hh|]. unfold Rdiv. rewrite Rmult_assoc, Rinv_l by lra. unfold h. lra. }
  assert (I3 : (0 <= i)%Z) by (apply Z.lt_succ_r; unfold Z.succ; apply lt_IZR; rewrite plus_IZR; unfold v in *; lra).
  assert (I4 : (i < 1000)%Z) by (apply lt_IZR; unfold v in *; lra).
  exists (IZR i * h). split.
  - apply samples. exists (Z.to_nat i). split; [lia|]. rewrite INR_IZR_INZ, Z2Nat.id by exact I3. reflexivity.
  - replace (t - IZR i * h) with ((t / h - IZR i) * h) by (field; lra). rewrite Rabs_mult, (Rabs_pos_eq h) by lra.
    assert (Rabs (t / h - IZR i) <= / 2) by (apply Rabs_le; unfold v in *; lra).
    replace (lmax / 1998) with (/ 2 * h) by (unfold h; field). apply Rmult_le_compat_r; lra.
Qed.

(** The bounds A, B estimated by default are the least and the greatest sum of squares over the samples.  They are frame bounds up to
    K lmax / 1998 when this sum is K-Lipschitz on [0, lmax], and exactly when it is monotone there. *)
Theorem C22_default_bounds :
  forall F gs, spectral F -> (0 < v_N F)%nat -> 0 < v_lmax F -> (forall t, In t (v_e F) -> 0 <= t <= v_lmax F) ->
    exists A B, estimate_frame_bounds F (map pw gs) None = Ok (A, B) /\
      (exists t, 0 <= t <= v_lmax F /\ A = gain2 gs t) /\ (exists t, 0 <= t <= v_lmax F /\ B = gain2 gs t) /\
      (forall K x out, (forall t u, 0 <= t <= v_lmax F -> 0 <= u <= v_lmax F -> Rabs (gain2 gs t - gain2 gs u) <= K * Rabs (t - u)) -> 0 <= K ->
         gfilter F (map pw gs) Exact (vec_arr (v_N F) x) = Ok out ->
         (A - K * (v_lmax F / 1998)) * normsq (v_N F) x <= \sum_(f < List.length gs) normsq (v_N F) (ans F (List.length gs) out f) <= (B + K * (v_lmax F / 1998)) * normsq (v_N F) x) /\
      (forall x out, (forall t u, 0 <= t <= u -> u <= v_lmax F -> gain2 gs t <= gain2 gs u) \/ (forall t u, 0 <= t <= u -> u <= v_lmax F -> gain2 gs u <= gain2 gs t) ->
         gfilter F (map pw gs) Exact (vec_arr (v_N F) x) = Ok out ->
         A * normsq (v_N F) x <= \sum_(f < List.length gs) normsq (v_N F) (ans F (List.length gs) out f) <= B * normsq (v_N F) x).
Proof.
  intros F gs HF HN HL He. destruct (bounds_of gs F (linspace 0 (v_lmax F) 1000) (samples_ne _)) as (A & B & E & (ta & Ia & Ea) & (tb & Ib & Eb) & AB).
  exists A, B. split; [rewrite default_eq; exact E|].
  split; [exists ta; split; [apply samples_range; [lra|exact Ia]|exact Ea]|]. split; [exists tb; split; [apply samples_range; [lra|exact Ib]|exact Eb]|].
  assert (NE : v_e F <> []) by (intros Z; pose proof (proj1 HF) as L; rewrite Z in L; cbn in L; lia).
  destruct (bounds_of gs F (v_e F) NE) as (A' & B' & E' & (ua & Ja & Fa) & (ub & Jb & Fb) & _).
  destruct (C22_frame_bounds F (map pw gs) _ A' B' HF (response_pw F gs HF) E') as [FB _]. rewrite map_length in FB.
  assert (G : forall lo hi, lo <= A' -> B' <= hi -> forall x out, gfilter F (map pw gs) Exact (vec_arr (v_N F) x) = Ok out ->
     lo * normsq (v_N F) x <= \sum_(f < List.length gs) normsq (v_N F) (ans F (List.length gs) out f) <= hi * normsq (v_N F) x).
  { intros lo hi H1 H2 x out Eo. specialize (FB x out Eo). pose proof (normsq_nonneg (v_N F) x) as P. split; [apply Rle_trans with (A' * normsq (v_N F) x); [apply Rmult_le_compat_r; assumption|lra]|].
    apply Rle_trans with (B' * normsq (v_N F) x); [lra|apply Rmult_le_compat_r; assumption]. }
  split.
  - intros K x out HK K0. apply G.
    + destruct (nearest (v_lmax F) ua HL (He ua Ja)) as (u & Iu & Du). specialize (AB u Iu). specialize (HK ua u (He ua Ja) (samples_range (v_lmax F) u ltac:(lra) Iu)).
      apply Rabs_def2_le in HK. assert (K * Rabs (ua - u) <= K * (v_lmax F / 1998)) by (apply Rmult_le_compat_l; assumption). rewrite Fa. lra.
    + destruct (nearest (v_lmax F) ub HL (He ub Jb)) as (u & Iu & Du). specialize (AB u Iu). specialize (HK ub u (He ub Jb) (samples_range (v_lmax F) u ltac:(lra) Iu)).
      apply Rabs_def2_le in HK. assert (K * Rabs (ub - u) <= K * (v_lmax F / 1998)) by (apply Rmult_le_compat_l; assumption). rewrite Fb. lra.
  - assert (I0 : In 0 (linspace 0 (v_lmax F) 1000)) by (apply samples; exists 0%nat; split; [lia|cbn; ring]).
    assert (I1 : In (v_lmax F) (linspace 0 (v_lmax F) 1000)) by (apply samples; exists 999%nat; split; [lia|replace (INR 999) with 999 by (rewrite INR_IZR_INZ; f_equal); field]).
    pose proof (AB 0 I0). pose proof (AB (v_lmax F) I1). pose proof (He ua Ja). pose proof (He ub Jb).
    intros x out HM. apply G; [rewrite Fa|rewrite Fb]; destruct HM as [M|M].
    + pose proof (M 0 ua ltac:(lra) ltac:(lra)). lra.
    + pose proof (M ua (v_lmax F) ltac:(lra) ltac:(lra)). lra.
    + pose proof (M ub (v_lmax F) ltac:(lra) ltac:(lra)). lra.
    + pose proof (M 0 ub ltac:(lra) ltac:(lra)). lra.
Qed.

(** Finding: for a filter as selective as an indicator the default bounds can be wrong by any factor: here B = 0 and the filter keeps an
    eigenvector unchanged. *)
Theorem C22_default_bounds_refuted :
  exists F g, spectral F /\ (forall t, In t (v_e F) -> 0 <= t <= v_lmax F) /\ 0 < v_lmax F /\ estimate_frame_bounds F [pw g] None = Ok (0, 0) /\
    exists x out, ~ vzero (v_N F) x /\ gfilter F [pw g] Exact (vec_arr (v_N F) x) = Ok out /\ normsq (v_N F) (ans F 1 out 0) = normsq (v_N F) x.
Proof.
  set (F := k2_view 2.02). set (g := fun t => if Reqb t 2 then 1 else 0).
  assert (HF : spectral F) by apply k2_spectral.
  assert (He : forall t, In t (v_e F) -> 0 <= t <= v_lmax F) by (intros t [<-|[<-|[]]]; cbn; lra).
  exists F, g. split; [exact HF|]. split; [exact He|]. split; [cbn; lra|]. split.
  - destruct (bounds_of [g] F (linspace 0 (v_lmax F) 1000) (samples_ne _)) as (A & B & E & (ta & Ia & Ea) & (tb & Ib & Eb) & _).
    assert (Z : forall t, In t (linspace 0 (v_lmax F) 1000) -> gain2 [g] t = 0).
    { intros t Ht. apply samples in Ht as (i & _ & ->). unfold gain2, g. cbn. destruct (Reqb_spec (INR i * (2.02 / 999)) 2) as [Q|Q]; [|ring].
      exfalso. rewrite INR_IZR_INZ in Q. assert (K : IZR (Z.of_nat i) * 202 = 199800) by lra. rewrite <- mult_IZR in K. apply eq_IZR in K. lia. }
    rewrite (Z ta Ia) in Ea. rewrite (Z tb Ib) in Eb. subst A B. rewrite default_eq. exact E.
  - destruct (bounds_of [g] F (v_e F)) as (A & B & E & _ & (t & It & Eb) & AB); [discriminate|].
    assert (B1 : B = 1).
    { assert (I2 : In 2 (v_e F)) by (right; left; reflexivity). pose proof (AB 2 I2) as H2. unfold gain2 in H2, Eb. cbn in H2, Eb. unfold g in H2, Eb at 1 2.
      destruct (Reqb_spec 2 2); [|contradiction]. unfold g in Eb. destruct (Reqb t 2); lra. }
    rewrite B1 in E. destruct (C22_frame_bounds F [pw g] _ A 1 HF (response_pw F [g] HF) E) as (_ & _ & x & out & Nx & Eo & S). exists x, out.
    split; [exact Nx|]. split; [exact Eo|]. cbn in S. cbn. lra.
Qed.
Example C22_default_ex : spectral (k2_view 2) /\ (0 < v_N (k2_view 2))%nat /\ 0 < v_lmax (k2_view 2) /\ (forall t, In t (v_e (k2_view 2)) -> 0 <= t <= v_lmax (k2_view 2)) /\
  (forall t u, 0 <= t <= u -> u <= v_lmax (k2_view 2) -> gain2 [fun t => t] t <= gain2 [fun t => t] u).
Proof.
  split; [apply k2_spectral|]. split; [cbn; lia|]. split; [cbn; lra|]. split; [intros t [<-|[<-|[]]]; cbn; lra|].
  intros t u H _. unfold gain2. cbn. nra.
Qed.

Print Assumptions C22_default_bounds.
Print Assumptions C22_default_bounds_refuted.
