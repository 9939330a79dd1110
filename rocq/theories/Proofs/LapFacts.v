(** Laplacian algebra: energies, spectra, factorisation, spectral bounds. *)
From Coq Require Import Reals Lra Lia List Arith Bool Permutation String.
From Verif.Base Require Import RSum Prelude LinAlg.
From Verif.Spec Require Import Matrix GraphSpec.
From Verif.Model Require Import Sparse Graph Difference Bounds.
From Verif.Proofs Require Import SparseFacts InitFacts EdgeFacts.
Import ListNotations.
Open Scope R_scope.

(** ** Abstract weighted graph: symmetric w, degrees d = row sums. *)
Section Abstract.
  Variable n : nat.
  Variable w : mat.
  Hypothesis w_sym : forall i j, (i < n)%nat -> (j < n)%nat -> w i j = w j i.
  Let d (i : nat) : R := \sum_(j < n) w i j.
  Let L : mat := fun i j => (if Nat.eqb i j then d i else 0) - w i j.

  Lemma abs_mulv x i : (i < n)%nat -> mulv n L x i = \sum_(j < n) (w i j * (x i - x j)).
  Proof.
    intros Hi. unfold mulv, L.
    rewrite (rsum_ext n _ (fun j => (if Nat.eqb i j then d i * x j else 0) - w i j * x j)).
    2:{ intros j Hj. destruct (Nat.eqb i j); ring. }
    rewrite rsum_minus, (rsum_delta_l n (fun j => d i * x j) i Hi).
    rewrite (rsum_ext n (fun j => w i j * (x i - x j)) (fun j => w i j * x i - w i j * x j)) by (intros; ring).
    rewrite rsum_minus, rsum_scal_r. reflexivity.
  Qed.

  Lemma abs_energy x :
    quad n L x = (\sum_(i < n) \sum_(j < n) (w i j * ((x i - x j) * (x i - x j)))) / 2.
  Proof.
    unfold quad, dot.
    rewrite (rsum_ext n _ (fun i => \sum_(j < n) (x i * (w i j * (x i - x j))))).
    2:{ intros i Hi. rewrite abs_mulv by exact Hi. rewrite <- rsum_scal_l. reflexivity. }
    set (S := \sum_(i < n) \sum_(j < n) (x i * (w i j * (x i - x j)))).
    assert (E : S = \sum_(i < n) \sum_(j < n) (- (x j * (w i j * (x i - x j))))).
    { unfold S. rewrite rsum_swap. apply sum2_ext; intros i j Hi Hj. rewrite (w_sym j i) by assumption. ring. }
    assert (E2 : S + S = \sum_(i < n) \sum_(j < n) (w i j * ((x i - x j) * (x i - x j)))).
    { rewrite E at 2. unfold S. rewrite <- sum2_plus. apply sum2_ext; intros; ring. }
    lra.
  Qed.

  Lemma abs_row_sum i : (i < n)%nat -> \sum_(j < n) L i j = 0.
  Proof.
    intros Hi. unfold L. rewrite rsum_minus, (rsum_delta_l n (fun _ => d i) i Hi). apply Rminus_diag_eq; reflexivity.
  Qed.

  Lemma abs_sym i j : (i < n)%nat -> (j < n)%nat -> L i j = L j i.
  Proof.
    intros Hi Hj. unfold L. rewrite (w_sym i j) by assumption. rewrite (Nat.eqb_sym j i).
    destruct (Nat.eqb_spec i j) as [->|]; reflexivity.
  Qed.

  Hypothesis w_nonneg : forall i j, (i < n)%nat -> (j < n)%nat -> 0 <= w i j.

  Lemma abs_psd x : 0 <= quad n L x.
  Proof.
    rewrite abs_energy.
    assert (0 <= \sum_(i < n) \sum_(j < n) (w i j * ((x i - x j) * (x i - x j)))); [|lra].
    apply sum2_nonneg; intros i j Hi Hj. pose proof (w_nonneg i j Hi Hj).
    pose proof (Rle_0_sqr (x i - x j)). unfold Rsqr in *. apply Rmult_le_pos; assumption.
  Qed.

  Lemma abs_energy_deg x : quad n L x <= 2 * \sum_(i < n) (d i * (x i * x i)).
  Proof.
    rewrite abs_energy.
    assert (H : \sum_(i < n) \sum_(j < n) (w i j * ((x i - x j) * (x i - x j))) <=
                \sum_(i < n) \sum_(j < n) (2 * (w i j * (x i * x i)) + 2 * (w i j * (x j * x j)))).
    { apply sum2_le; intros i j Hi Hj. pose proof (w_nonneg i j Hi Hj).
      pose proof (Rle_0_sqr (x i + x j)). unfold Rsqr in *.
      assert (w i j * ((x i - x j) * (x i - x j)) <= w i j * (2 * (x i * x i) + 2 * (x j * x j))).
      { apply Rmult_le_compat_l; [assumption|lra]. }
      lra. }
    rewrite sum2_plus in H. rewrite !sum2_scal in H.
    assert (E1 : \sum_(i < n) \sum_(j < n) (w i j * (x i * x i)) = \sum_(i < n) (d i * (x i * x i))).
    { apply rsum_ext; intros i Hi. rewrite rsum_scal_r. reflexivity. }
    assert (E2 : \sum_(i < n) \sum_(j < n) (w i j * (x j * x j)) = \sum_(i < n) (d i * (x i * x i))).
    { rewrite rsum_swap. apply rsum_ext; intros i Hi. rewrite rsum_scal_r. f_equal.
      unfold d. apply rsum_ext; intros j Hj. apply w_sym; assumption. }
    rewrite E1, E2 in H. lra.
  Qed.

  (** Gershgorin. *)
  Lemma abs_bound_deg lam x M : eigenpair n L lam x ->
    (forall i, (i < n)%nat -> d i <= M) -> lam <= 2 * M.
  Proof.
    intros He HM. apply (eigenvalue_le_quad n L lam x _ He).
    eapply Rle_trans; [apply abs_energy_deg|]. unfold normsq, dot.
    rewrite Rmult_assoc. apply Rmult_le_compat_l; [lra|].
    rewrite <- rsum_scal_l. apply rsum_le; intros i Hi.
    apply Rmult_le_compat_r; [apply Rle_0_sqr|apply HM; exact Hi].
  Qed.

  (** N times the largest weight. *)
  Lemma abs_bound_max lam x M : eigenpair n L lam x ->
    (forall i j, (i < n)%nat -> (j < n)%nat -> w i j <= M) -> 0 <= M -> lam <= INR n * M.
  Proof.
    intros He HM HM0. apply (eigenvalue_le_quad n L lam x _ He). rewrite abs_energy.
    assert (H : \sum_(i < n) \sum_(j < n) (w i j * ((x i - x j) * (x i - x j))) <=
                \sum_(i < n) \sum_(j < n) (M * ((x i - x j) * (x i - x j)))).
    { apply sum2_le; intros i j Hi Hj. apply Rmult_le_compat_r; [apply Rle_0_sqr|apply HM; assumption]. }
    rewrite sum2_scal in H.
    assert (E : \sum_(i < n) \sum_(j < n) ((x i - x j) * (x i - x j)) =
                2 * (INR n * normsq n x) - 2 * (rsum n x * rsum n x)).
    { rewrite (sum2_ext n n _ (fun i j => (x i * x i + x j * x j) - 2 * (x i * x j))) by (intros; ring).
      rewrite sum2_minus, sum2_scal, <- rsum_mul, sum2_plus.
      rewrite (rsum_ext n (fun i => \sum_(j < n) (x i * x i)) (fun i => INR n * (x i * x i))) by (intros; apply rsum_const).
      rewrite rsum_scal_l, rsum_const. unfold normsq, dot. ring. }
    rewrite E in H. pose proof (Rle_0_sqr (rsum n x)) as Hs. unfold Rsqr in Hs.
    assert (0 <= M * (rsum n x * rsum n x)) by (apply Rmult_le_pos; assumption).
    replace (INR n * M * normsq n x) with ((M * (2 * (INR n * normsq n x))) / 2) by field. lra.
  Qed.

  (** Anderson and Morley. *)
  Lemma abs_bound_edges lam x M : eigenpair n L lam x ->
    (forall u v, (u < n)%nat -> (v < n)%nat -> 0 < w u v -> d u + d v <= M) -> 0 <= M -> lam <= M.
  Proof.
    intros He HM HM0. destruct (Rle_lt_dec lam 0) as [Hl|Hl]; [lra|].
    (* a pair (u,v), w u v > 0, maximising |x u - x v| *)
    set (g := fun u v => if Rltb 0 (w u v) then Rabs (x u - x v) else 0).
    assert (Hn : (0 < n)%nat).
    { destruct (Nat.eq_dec n 0) as [E|]; [|lia]. exfalso. apply (proj1 He). intros i Hi. lia. }
    assert (Hmax : exists u v, (u < n)%nat /\ (v < n)%nat /\
              forall a b, (a < n)%nat -> (b < n)%nat -> g a b <= g u v).
    { assert (Hrow : forall u, exists v, (v < n)%nat /\ forall b, (b < n)%nat -> g u b <= g u v).
      { intros u. apply (argmax_exists n (g u) Hn). }
      assert (Hk : forall k, (k <= n)%nat -> (0 < k)%nat -> exists u v, (u < k)%nat /\ (v < n)%nat /\
                forall a b, (a < k)%nat -> (b < n)%nat -> g a b <= g u v).
      { induction k as [|k IH]; intros Hk H0; [lia|].
        destruct (Hrow k) as (vk & Hvk & Hmk).
        destruct (Nat.eq_dec k 0) as [->|Hk0].
        - exists 0%nat, vk. split; [lia|]. split; [exact Hvk|]. intros a b Ha Hb.
          replace a with 0%nat by lia. apply Hmk; exact Hb.
        - destruct IH as (u & v & Hu & Hv & Hm); [lia|lia|].
          destruct (Rle_dec (g u v) (g k vk)) as [Hle|Hle].
          + exists k, vk. split; [lia|]. split; [exact Hvk|]. intros a b Ha Hb.
            destruct (Nat.eq_dec a k) as [->|]; [apply Hmk; exact Hb|].
            specialize (Hm a b ltac:(lia) Hb). lra.
          + exists u, v. split; [lia|]. split; [exact Hv|]. intros a b Ha Hb.
            destruct (Nat.eq_dec a k) as [->|]; [specialize (Hmk b Hb); lra|]. apply Hm; [lia|exact Hb]. }
      apply Hk; [lia|exact Hn]. }
    destruct Hmax as (u & v & Hu & Hv & Hm).
    assert (Hgpos : forall a b, 0 <= g a b).
    { intros a b. unfold g. destruct (Rltb 0 (w a b)); [apply Rabs_pos|lra]. }
    destruct (Rle_lt_dec (g u v) 0) as [Hg0|Hg0].
    - (* all differences along edges vanish: energy 0, so lam = 0 *)
      exfalso. assert (Hq : quad n L x = 0).
      { rewrite abs_energy. rewrite rsum_0; [lra|]. intros i Hi. apply rsum_0. intros j Hj.
        pose proof (w_nonneg i j Hi Hj) as Hw. destruct (Req_dec (w i j) 0) as [E|E]; [rewrite E; ring|].
        assert (Hgij : g i j = 0) by (pose proof (Hm i j Hi Hj); pose proof (Hgpos i j); lra).
        unfold g in Hgij. destruct (Rltb_spec 0 (w i j)) as [_|Hc]; [|lra].
        assert (x i - x j = 0).
        { destruct (Req_dec (x i - x j) 0) as [E0|E0]; [exact E0|]. apply Rabs_no_R0 in E0. contradiction. }
        rewrite H. ring. }
      rewrite (eigenpair_quad n L lam x He) in Hq.
      pose proof (normsq_pos n x (proj1 He)).
      assert (0 < lam * normsq n x) by (apply Rmult_lt_0_compat; assumption). lra.
    - assert (Huv : 0 < w u v /\ g u v = Rabs (x u - x v)).
      { unfold g in Hg0 |- *. destruct (Rltb_spec 0 (w u v)); [auto|lra]. }
      destruct Huv as (Hwuv & Eg).
      assert (Hrowb : forall i, (i < n)%nat -> Rabs (mulv n L x i) <= d i * g u v).
      { intros i Hi. rewrite abs_mulv by exact Hi. eapply Rle_trans; [apply rsum_abs|].
        unfold d. rewrite <- rsum_scal_r. apply rsum_le; intros j Hj.
        rewrite Rabs_mult, (Rabs_pos_eq (w i j)) by (apply w_nonneg; assumption).
        pose proof (w_nonneg i j Hi Hj) as Hw. destruct (Req_dec (w i j) 0) as [E|E]; [rewrite E; lra|].
        apply Rmult_le_compat_l; [exact Hw|].
        eapply Rle_trans; [|apply (Hm i j Hi Hj)]. unfold g. destruct (Rltb_spec 0 (w i j)); lra. }
      assert (Hk : Rabs (lam * (x u - x v)) <= (d u + d v) * g u v).
      { replace (lam * (x u - x v)) with (mulv n L x u + - mulv n L x v).
        2:{ rewrite (proj2 He u Hu), (proj2 He v Hv). ring. }
        eapply Rle_trans; [apply Rabs_triang|]. rewrite Rabs_Ropp.
        pose proof (Hrowb u Hu). pose proof (Hrowb v Hv). lra. }
      rewrite Rabs_mult, (Rabs_pos_eq lam), <- Eg in Hk by lra.
      apply Rmult_le_reg_r in Hk; [|exact Hg0].
      specialize (HM u v Hu Hv Hwuv). lra.
  Qed.

  (** Merris. *)
  Lemma abs_bound_merris lam x M : eigenpair n L lam x ->
    (forall i, (i < n)%nat -> 0 < d i) ->
    (forall i, (i < n)%nat -> d i + (\sum_(j < n) (w i j * d j)) / d i <= M) -> lam <= M.
  Proof.
    intros He Hd HM. set (z := fun i => x i / d i).
    destruct (Nat.eq_dec n 0) as [E|Hn0].
    { exfalso. apply (proj1 He). intros i Hi. lia. }
    destruct (argmax_exists n (fun i => Rabs (z i))) as (k & Hk & Hmax); [lia|].
    assert (Hx : forall i, (i < n)%nat -> x i = d i * z i).
    { intros i Hi. unfold z. field. specialize (Hd i Hi). lra. }
    assert (Hzk : 0 < Rabs (z k)).
    { destruct (vzero_dec n x) as [Hz|(i & Hi & Hnz)]; [exfalso; apply (proj1 He); exact Hz|].
      eapply Rlt_le_trans; [|apply (Hmax i Hi)]. apply Rabs_pos_lt. unfold z.
      intros E. apply Hnz. rewrite (Hx i Hi). unfold z. rewrite E. ring. }
    pose proof (proj2 He k Hk) as Hek.
    assert (Hmul : mulv n L x k = d k * x k - \sum_(j < n) (w k j * x j)).
    { rewrite abs_mulv by exact Hk.
      rewrite (rsum_ext n _ (fun j => w k j * x k - w k j * x j)) by (intros; ring).
      rewrite rsum_minus, rsum_scal_r. reflexivity. }
    rewrite Hmul in Hek.
    assert (Hsum : Rabs (\sum_(j < n) (w k j * x j)) <= (\sum_(j < n) (w k j * d j)) * Rabs (z k)).
    { eapply Rle_trans; [apply rsum_abs|]. rewrite <- rsum_scal_r. apply rsum_le; intros j Hj.
      rewrite (Hx j Hj), !Rabs_mult, (Rabs_pos_eq (w k j)), (Rabs_pos_eq (d j)).
      2:{ specialize (Hd j Hj); lra. } 2:{ apply w_nonneg; assumption. }
      rewrite <- Rmult_assoc. apply Rmult_le_compat_l; [|apply (Hmax j Hj)].
      apply Rmult_le_pos; [apply w_nonneg; assumption|specialize (Hd j Hj); lra]. }
    assert (Hlam : lam * d k * Rabs (z k) <= (d k * d k + \sum_(j < n) (w k j * d j)) * Rabs (z k)).
    { pose proof (Hd k Hk) as Hdk. rewrite (Hx k Hk) in Hek.
      assert (E : lam * d k * z k = d k * d k * z k - \sum_(j < n) (w k j * x j)) by lra.
      assert (Habs : Rabs (lam * d k * z k) <= d k * d k * Rabs (z k) + (\sum_(j < n) (w k j * d j)) * Rabs (z k)).
      { rewrite E. unfold Rminus. eapply Rle_trans; [apply Rabs_triang|]. rewrite Rabs_Ropp.
        rewrite Rabs_mult, (Rabs_pos_eq (d k * d k)); [lra|]. apply Rmult_le_pos; lra. }
      eapply Rle_trans; [|eapply Rle_trans; [exact Habs|lra]].
      rewrite Rabs_mult. apply Rmult_le_compat_r; [lra|]. apply Rle_abs. }
    apply Rmult_le_reg_r in Hlam; [|exact Hzk].
    specialize (HM k Hk). specialize (Hd k Hk).
    apply Rmult_le_reg_r with (d k); [exact Hd|].
    assert ((d k + (\sum_(j < n) (w k j * d j)) / d k) * d k <= M * d k) by (apply Rmult_le_compat_r; lra).
    replace ((d k + (\sum_(j < n) (w k j * d j)) / d k) * d k) with (d k * d k + \sum_(j < n) (w k j * d j)) in H
      by (field; lra). lra.
  Qed.
End Abstract.

(** ** The modelled Laplacians. *)
Lemma lap_comb_abs W : good W -> forall i j, (i < nrow W)%nat -> (j < nrow W)%nat ->
  lap_comb W i j = (if Nat.eqb i j then \sum_(k < nrow W) wlap W i k else 0) - wlap W i j.
Proof. intros G i j Hi Hj. unfold lap_comb. rewrite (dw_wlap W i G Hi). reflexivity. Qed.

Lemma lap_comb_entry W : good W -> forall i j, (i < nrow W)%nat -> (j < nrow W)%nat -> i <> j ->
  lap_comb W i j = - (get W i j + get W j i) / 2.
Proof.
  intros G i j Hi Hj Hne. unfold lap_comb. destruct (Nat.eqb_spec i j); [contradiction|].
  rewrite wlap_avg by assumption. lra.
Qed.

Lemma lap_comb_diag W : good W -> forall i, (i < nrow W)%nat -> lap_comb W i i = dw W i - get W i i.
Proof.
  intros G i Hi. unfold lap_comb. rewrite Nat.eqb_refl, wlap_avg by assumption. lra.
Qed.

Lemma lap_comb_sym W : good W -> symmetric (nrow W) (lap_comb W).
Proof.
  intros G i j Hi Hj. unfold tr. rewrite !lap_comb_abs by assumption.
  apply (abs_sym (nrow W) (wlap W)); auto. intros; apply wlap_sym; assumption.
Qed.

Lemma lap_comb_row_sum W : good W -> forall i, (i < nrow W)%nat -> \sum_(j < nrow W) lap_comb W i j = 0.
Proof.
  intros G i Hi. rewrite <- (abs_row_sum (nrow W) (wlap W) i Hi).
  apply rsum_ext; intros j Hj. apply lap_comb_abs; assumption.
Qed.

Lemma sum_wlap_get W (h : nat -> nat -> R) :
  (forall i j, (i < nrow W)%nat -> (j < nrow W)%nat -> h i j = h j i) ->
  \sum_(i < nrow W) \sum_(j < nrow W) (wlap W i j * h i j) =
  \sum_(i < nrow W) \sum_(j < nrow W) (get W i j * h i j).
Proof.
  intros Hh.
  rewrite (sum2_ext _ _ _ (fun i j => (get W i j * h i j) / 2 + (get W j i * h j i) / 2)).
  2:{ intros i j Hi Hj. rewrite wlap_avg by assumption. rewrite (Hh j i) by assumption. field. }
  rewrite sum2_plus. rewrite (sum_sym_swap _ (fun i j => get W j i * h j i / 2)).
  rewrite <- sum2_plus. apply sum2_ext; intros; field.
Qed.

Lemma quad_comb W x : good W ->
  quad (nrow W) (lap_comb W) x =
  (\sum_(i < nrow W) \sum_(j < nrow W) (get W i j * ((x j - x i) * (x j - x i)))) / 2.
Proof.
  intros G. rewrite (quad_ext _ _ _ x (lap_comb_abs W G)).
  rewrite (abs_energy (nrow W) (wlap W)) by (intros; apply wlap_sym; assumption).
  f_equal. rewrite (sum_wlap_get W (fun i j => (x i - x j) * (x i - x j))) by (intros; ring).
  apply sum2_ext; intros; ring.
Qed.

(** L_norm = S L_comb S with S = diag(dinvsqrt), for non-negative weights. *)
Lemma dinvsqrt_sq W i : 0 <= dw W i -> dw W i <> 0 -> dinvsqrt W i * dinvsqrt W i * dw W i = 1.
Proof.
  intros H0 Hne. unfold dinvsqrt. rewrite (proj2 (Reqb_false _ _) Hne).
  assert (Hs : 0 < sqrt (dw W i)) by (apply sqrt_lt_R0; lra).
  rewrite <- (sqrt_sqrt (dw W i)) at 3 by exact H0. field. lra.
Qed.

Lemma dinvsqrt_nonneg W i : 0 <= dinvsqrt W i.
Proof.
  unfold dinvsqrt. destruct (Reqb_spec (dw W i) 0); [lra|].
  destruct (Rle_lt_dec (dw W i) 0) as [H|H].
  - rewrite sqrt_neg_0 by exact H. rewrite Rinv_0. lra.
  - left. apply Rinv_0_lt_compat, sqrt_lt_R0, H.
Qed.

Definition nonnegW (W : csr R) : Prop :=
  forall i j, (i < nrow W)%nat -> (j < nrow W)%nat -> 0 <= get W i j.

Lemma lap_norm_scaled W : good W -> nonnegW W ->
  forall i j, (i < nrow W)%nat -> (j < nrow W)%nat ->
  lap_norm W i j = dinvsqrt W i * lap_comb W i j * dinvsqrt W j.
Proof.
  intros G Hp i j Hi Hj. pose proof (dw_nonneg W G Hp) as Hd.
  unfold lap_norm, lap_comb, idm. destruct (Nat.eqb_spec i j) as [<-|Hne]; cbn [andb].
  - destruct (Reqb_spec (dw W i) 0) as [E|E].
    + unfold dinvsqrt. rewrite (proj2 (Reqb_true _ _) E). ring.
    + pose proof (dinvsqrt_sq W i (Hd i Hi) E). nra.
  - ring.
Qed.

Lemma lap_norm_sym W : good W -> nonnegW W -> symmetric (nrow W) (lap_norm W).
Proof.
  intros G Hp i j Hi Hj. unfold tr. rewrite !lap_norm_scaled by assumption.
  pose proof (lap_comb_sym W G i j Hi Hj) as E. unfold tr in E. rewrite E. ring.
Qed.

Lemma lap_norm_sym_any W : symmetric (nrow W) (lap_norm W).
Proof.
  intros i j Hi Hj. unfold tr, lap_norm, idm. rewrite (Nat.eqb_sym j i).
  destruct (Nat.eqb_spec i j) as [->|Hne]; [reflexivity|]. cbn [andb].
  rewrite (wlap_sym W i j) by assumption. ring.
Qed.

Lemma quad_scaled n A s x :
  quad n (fun i j => s i * A i j * s j) x = quad n A (fun i => s i * x i).
Proof. rewrite !quad_sum. apply sum2_ext; intros; ring. Qed.

Lemma quad_norm W x : good W -> nonnegW W ->
  quad (nrow W) (lap_norm W) x = quad (nrow W) (lap_comb W) (fun i => dinvsqrt W i * x i).
Proof.
  intros G Hp. rewrite (quad_ext _ _ _ x (lap_norm_scaled W G Hp)). apply quad_scaled.
Qed.

Lemma lap_norm_bound W x : good W -> nonnegW W ->
  quad (nrow W) (lap_norm W) x <= 2 * normsq (nrow W) x.
Proof.
  intros G Hp. rewrite quad_norm by assumption. rewrite (quad_ext _ _ _ _ (lap_comb_abs W G)).
  eapply Rle_trans.
  { apply (abs_energy_deg (nrow W) (wlap W)).
    - intros; apply wlap_sym; assumption.
    - intros; apply wlap_nonneg; assumption. }
  apply Rmult_le_compat_l; [lra|]. apply rsum_le; intros i Hi.
  rewrite <- (dw_wlap W i G Hi). pose proof (dw_nonneg W G Hp i Hi) as Hd.
  destruct (Req_dec (dw W i) 0) as [E|E].
  - rewrite E. pose proof (Rle_0_sqr (x i)). unfold Rsqr in *. lra.
  - pose proof (dinvsqrt_sq W i Hd E) as Hs.
    replace (dw W i * (dinvsqrt W i * x i * (dinvsqrt W i * x i))) with
      (dinvsqrt W i * dinvsqrt W i * dw W i * (x i * x i)) by ring. rewrite Hs. lra.
Qed.

(** ** Differential operator. *)
Lemma dscale_sq W : dscale W * dscale W = if is_directed W then 2 else 1.
Proof. unfold dscale. destruct (is_directed W); [apply sqrt_sqrt; lra|lra]. Qed.

Lemma dscale_pos W : 0 < dscale W.
Proof. unfold dscale. destruct (is_directed W); [apply sqrt_lt_R0; lra|lra]. Qed.

(** The scaling attached to a vertex by the Laplacian type. *)
Definition vscale (W : csr R) (t : laptype) (i : nat) : R :=
  match t with Normalized => dinvsqrt W i | _ => 1 end.

Lemma sqrt_div_dinv W a w : 0 <= w -> 0 <= dw W a -> (dw W a = 0 -> w = 0) ->
  sqrt (w / dw W a) = sqrt w * dinvsqrt W a.
Proof.
  intros Hw Hd Hz. unfold dinvsqrt. destruct (Reqb_spec (dw W a) 0) as [E|E].
  - rewrite (Hz E), E. unfold Rdiv. rewrite Rmult_0_l, sqrt_0. ring.
  - rewrite sqrt_div_alt by lra. reflexivity.
Qed.

Definition kron (i j : nat) : R := if Nat.eqb i j then 1 else 0.

Lemma dentry_eq W t i a b w : good W -> nonnegW W -> (t = Combinatorial \/ t = Normalized) ->
  (a < nrow W)%nat -> (b < nrow W)%nat -> w = get W a b ->
  dentry W t i (a, b, w) = (sqrt w / dscale W) * (vscale W t i * (kron b i - kron a i)).
Proof.
  intros G Hp Ht Ha Hb ->. unfold dentry, dvals. cbn [fst snd].
  pose proof (Hp a b Ha Hb) as Hw.
  pose proof (dw_nonneg W G Hp) as Hd.
  assert (Hza : dw W a = 0 -> get W a b = 0).
  { intros E. pose proof (dw_zero_wlap W G Hp a Ha E b Hb) as Hz. rewrite wlap_avg in Hz by assumption.
    pose proof (Hp b a Hb Ha). lra. }
  assert (Hzb : dw W b = 0 -> get W a b = 0).
  { intros E. pose proof (dw_zero_wlap W G Hp b Hb E a Ha) as Hz. rewrite wlap_avg in Hz by assumption.
    pose proof (Hp b a Hb Ha). lra. }
  pose proof (dscale_pos W) as Hs. unfold kron.
  destruct Ht as [->| ->]; cbn [vscale].
  - destruct (Nat.eqb_spec a i), (Nat.eqb_spec b i); field; lra.
  - rewrite (sqrt_div_dinv W a) by auto. rewrite (sqrt_div_dinv W b) by auto.
    destruct (Nat.eqb_spec a i) as [->|], (Nat.eqb_spec b i) as [->|]; field; lra.
Qed.

(** Sum over the edge list of a symmetric quantity vanishing on loops, with the directed factor 1/2. *)
Lemma edge_sum_half W l (f : nat -> nat -> R) : good W -> get_edge_list W = Ok l ->
  (forall i j, f i j = f j i) -> (forall i, f i i = 0) ->
  lsum (map (fun t => f (fst (fst t)) (snd (fst t)) * snd t) l) / (dscale W * dscale W) =
  (\sum_(i < nrow W) \sum_(j < nrow W) (f i j * get W i j)) / 2.
Proof.
  intros G Hl Hs Hd. rewrite dscale_sq. destruct (is_directed W) eqn:E.
  - rewrite (edge_list_sum_directed W l f G E Hl). reflexivity.
  - rewrite (edge_list_sum_undirected W l f G E Hl).
    rewrite (sum2_ext _ _ _ (fun i j => if Nat.leb i j then f i j * get W i j else 0)).
    2:{ intros i j Hi Hj. destruct (Nat.leb i j); ring. }
    rewrite <- (half_sum (nrow W) (fun i j => f i j * get W i j)).
    + lra.
    + intros i j Hi Hj. rewrite (Hs i j). rewrite (proj1 (is_directed_false W) E i j) by assumption. reflexivity.
    + intros i Hi. rewrite Hd. ring.
Qed.

Lemma lap_of_type W t L : laplacian W t = Ok L -> good W -> nonnegW W ->
  (t = Combinatorial \/ t = Normalized) /\
  forall i j, (i < nrow W)%nat -> (j < nrow W)%nat -> L i j = vscale W t i * lap_comb W i j * vscale W t j.
Proof.
  intros HL G Hp. destruct t; cbn in HL; try discriminate; injection HL as <-; cbn [vscale]; split; auto.
  - intros; ring.
  - intros; apply lap_norm_scaled; assumption.
Qed.

Lemma kron_form W i j : good W -> (i < nrow W)%nat -> (j < nrow W)%nat ->
  (\sum_(a < nrow W) \sum_(b < nrow W) ((kron b i - kron a i) * (kron b j - kron a j) * get W a b)) / 2 = lap_comb W i j.
Proof.
  intros G Hi Hj. unfold kron.
  assert (E : forall a b,
    ((if Nat.eqb b i then 1 else 0) - (if Nat.eqb a i then 1 else 0)) *
    ((if Nat.eqb b j then 1 else 0) - (if Nat.eqb a j then 1 else 0)) * get W a b =
    ((if Nat.eqb b i then (if Nat.eqb i j then get W a b else 0) else 0) +
     (if Nat.eqb a i then (if Nat.eqb i j then get W a b else 0) else 0)) -
    ((if Nat.eqb b i then (if Nat.eqb a j then get W a b else 0) else 0) +
     (if Nat.eqb a i then (if Nat.eqb b j then get W a b else 0) else 0))).
  { intros a b. destruct (Nat.eqb_spec b i), (Nat.eqb_spec a i), (Nat.eqb_spec b j), (Nat.eqb_spec a j), (Nat.eqb_spec i j);
      subst; try congruence; ring. }
  rewrite (sum2_ext _ _ _ _ (fun a b _ _ => E a b)).
  rewrite sum2_minus, !sum2_plus.
  set (n := nrow W).
  assert (S1 : \sum_(a < n) \sum_(b < n) (if Nat.eqb b i then (if Nat.eqb i j then get W a b else 0) else 0) =
               if Nat.eqb i j then \sum_(a < n) get W a i else 0).
  { rewrite (rsum_ext n _ (fun a => if Nat.eqb i j then get W a i else 0)).
    - destruct (Nat.eqb i j); [reflexivity|apply rsum_0; reflexivity].
    - intros a Ha. apply (rsum_delta n (fun b => if Nat.eqb i j then get W a b else 0) i Hi). }
  assert (S2 : \sum_(a < n) \sum_(b < n) (if Nat.eqb a i then (if Nat.eqb i j then get W a b else 0) else 0) =
               if Nat.eqb i j then \sum_(b < n) get W i b else 0).
  { rewrite rsum_swap. rewrite (rsum_ext n _ (fun b => if Nat.eqb i j then get W i b else 0)).
    - destruct (Nat.eqb i j); [reflexivity|apply rsum_0; reflexivity].
    - intros b Hb. apply (rsum_delta n (fun a => if Nat.eqb i j then get W a b else 0) i Hi). }
  assert (S3 : \sum_(a < n) \sum_(b < n) (if Nat.eqb b i then (if Nat.eqb a j then get W a b else 0) else 0) = get W j i).
  { rewrite (rsum_ext n _ (fun a => if Nat.eqb a j then get W a i else 0)).
    - apply (rsum_delta n (fun a => get W a i) j Hj).
    - intros a Ha. apply (rsum_delta n (fun b => if Nat.eqb a j then get W a b else 0) i Hi). }
  assert (S4 : \sum_(a < n) \sum_(b < n) (if Nat.eqb a i then (if Nat.eqb b j then get W a b else 0) else 0) = get W i j).
  { rewrite rsum_swap. rewrite (rsum_ext n _ (fun b => if Nat.eqb b j then get W i b else 0)).
    - apply (rsum_delta n (fun b => get W i b) j Hj).
    - intros b Hb. apply (rsum_delta n (fun a => if Nat.eqb b j then get W a b else 0) i Hi). }
  rewrite S1, S2, S3, S4. unfold lap_comb. rewrite wlap_avg by assumption.
  destruct (Nat.eqb_spec i j) as [->|].
  - rewrite (dw_avg W j G Hj). unfold n. lra.
  - lra.
Qed.

(** D D^T = L *)
Lemma diff_op_factor W t L : good W -> nonnegW W -> laplacian W t = Ok L ->
  exists D, diff_op W t = Ok D /\
    forall i j, (i < nrow W)%nat -> (j < nrow W)%nat ->
      \sum_(k < count_edges W) (D i k * D j k) = L i j.
Proof.
  intros G Hp HL. destruct (lap_of_type W t L HL G Hp) as (Ht & HLe).
  destruct (edge_list_ok W G) as (l & Hl & _ & Hlen).
  exists (fun i k => dentry W t i (nth k l (0%nat, 0%nat, 0))). split.
  { unfold diff_op. rewrite Hl. cbn [bindr]. destruct Ht as [-> | ->]; reflexivity. }
  intros i j Hi Hj. rewrite <- Hlen.
  rewrite (rsum_nth_map l (0%nat, 0%nat, 0) (fun e => dentry W t i e * dentry W t j e)).
  set (f := fun a b => (vscale W t i * vscale W t j) * ((kron b i - kron a i) * (kron b j - kron a j))).
  rewrite (lsum_map_ext l _ (fun e => (/ (dscale W * dscale W)) * (f (fst (fst e)) (snd (fst e)) * snd e))).
  - rewrite lsum_map_scal, Rmult_comm.
    change (lsum (map (fun e => f (fst (fst e)) (snd (fst e)) * snd e) l) / (dscale W * dscale W) = L i j).
    rewrite (edge_sum_half W l f G Hl).
    + rewrite (HLe i j Hi Hj), <- (kron_form W i j G Hi Hj). unfold f.
      rewrite (sum2_ext _ _ _ (fun a b => (vscale W t i * vscale W t j) *
         ((kron b i - kron a i) * (kron b j - kron a j) * get W a b))) by (intros; ring).
      rewrite sum2_scal. field.
    + intros a b. unfold f. ring.
    + intros a. unfold f. ring.
  - intros [[a b] w] Hin. apply (edge_list_in W l a b w G Hl) in Hin. destruct Hin as (Ha & Hb & Hw & _ & _).
    rewrite !(dentry_eq W t _ a b w G Hp Ht Ha Hb Hw). cbn [fst snd]. unfold f.
    assert (Hw0 : 0 <= w) by (rewrite Hw; apply Hp; assumption).
    pose proof (dscale_pos W) as Hsp.
    replace (/ (dscale W * dscale W) * (vscale W t i * vscale W t j * ((kron b i - kron a i) * (kron b j - kron a j)) * w))
      with (/ (dscale W * dscale W) * (vscale W t i * vscale W t j * ((kron b i - kron a i) * (kron b j - kron a j)) * (sqrt w * sqrt w)))
      by (rewrite (sqrt_sqrt w Hw0); ring).
    field. lra.
Qed.
