(** Property C01 in floating point: the finiteness check of the constructor, made on a sum that rounds and overflows. *)
From Coq Require Import Reals Lra Lia ZArith List Arith Bool Permutation.
From Flocq Require Import Core.
From Coq Require Import List.
From Verif.Base Require Import RSum Prelude.
From Verif.Spec Require Import Matrix GraphSpec Rounding.
From Verif.Model Require Import Sparse Graph Rounded.
From Verif.Proofs Require Import SparseFacts InitFacts.
From Verif.Props Require Import Core RoundProps.
Import ListNotations.
Open Scope R_scope.
Open Scope list_scope.

Definition is_fin (v : xval) : Prop := exists r, v = Fin r.

Lemma f_add_fin rnd omega a b : is_fin (f_add rnd omega a b) -> is_fin a /\ is_fin b.
Proof. destruct a as [p| | |], b as [q| | |]; cbn; intros (r & E); try discriminate; split; eexists; reflexivity. Qed.
Lemma f_sum_fin rnd omega t f : is_fin (f_sum rnd omega t f) -> forall k, In k (leaves t) -> is_fin (f k).
Proof.
  induction t as [k|a IHa b IHb]; cbn [f_sum leaves]; intros H j Hj; [destruct Hj as [<-|[]]; exact H|].
  apply f_add_fin in H. apply in_app_or in Hj. destruct Hj; [apply IHa|apply IHb]; tauto.
Qed.

Section Float.
Variables (F : R -> Prop) (rnd : R -> R) (u omega : R).
Hypothesis Hr : rounding F rnd u.

Lemma f_add_small x y : Rabs (rnd (x + y)) <= omega -> f_add rnd omega (Fin x) (Fin y) = Fin (rnd (x + y)).
Proof.
  intros H. cbn. assert (H1 : rnd (x + y) <= omega) by (eapply Rle_trans; [apply Rle_abs|exact H]).
  assert (H2 : - omega <= rnd (x + y)). { pose proof (Rle_abs (- rnd (x + y))) as P. rewrite Rabs_Ropp in P. lra. }
  unfold Rltb. destruct (Rlt_dec omega (rnd (x + y))); [lra|]. destruct (Rlt_dec (rnd (x + y)) (- omega)); [lra|]. reflexivity.
Qed.
Lemma f_add_result x y s : f_add rnd omega (Fin x) (Fin y) = Fin s -> s = rnd (x + y) /\ Rabs s <= omega.
Proof.
  cbn. unfold Rltb. destruct (Rlt_dec omega (rnd (x + y))); [discriminate|]. destruct (Rlt_dec (rnd (x + y)) (- omega)); [discriminate|].
  intros E. injection E as <-. split; [reflexivity|]. apply Rabs_le. lra.
Qed.

Lemma f_sum_value t f x s : (forall k, In k (leaves t) -> f k = Fin (x k)) -> f_sum rnd omega t f = Fin s -> s = r_sum rnd t x.
Proof.
  revert s. induction t as [k|a IHa b IHb]; intros s H E; cbn [f_sum r_sum leaves] in *; [rewrite (H k (or_introl eq_refl)) in E; injection E as <-; reflexivity|].
  destruct (f_add_fin rnd omega (f_sum rnd omega a f) (f_sum rnd omega b f)) as [(p & Ep) (q & Eq)]; [exists s; exact E|].
  rewrite (IHa p) in Ep by (try exact Ep; intros; apply H, in_or_app; auto). rewrite (IHb q) in Eq by (try exact Eq; intros; apply H, in_or_app; auto).
  rewrite Ep, Eq in E. apply f_add_result in E. apply E.
Qed.

Lemma f_sum_small t f x : (forall k, In k (leaves t) -> f k = Fin (x k)) -> (forall k, In k (leaves t) -> F (x k)) ->
  (1 + u) ^ (List.length (leaves t) - 1) * lsum (map (fun k => Rabs (x k)) (leaves t)) <= omega -> f_sum rnd omega t f = Fin (r_sum rnd t x).
Proof.
  pose proof (r_unit _ _ _ Hr) as U.
  assert (Ln : forall t', (1 <= List.length (leaves t'))%nat). { induction t' as [k|a IHa b IHb]; cbn [leaves]; [cbn; lia|rewrite app_length; lia]. }
  assert (Pos : forall t', 0 <= lsum (map (fun k => Rabs (x k)) (leaves t'))) by (intros t'; apply lsum_map_nonneg; intros; apply Rabs_pos).
  assert (Le : forall t', Rabs (lsum (map x (leaves t'))) <= lsum (map (fun k => Rabs (x k)) (leaves t'))).
  { intros t'. induction (leaves t') as [|y l IH]; [cbn; rewrite Rabs_R0; lra|]. cbn. eapply Rle_trans; [apply Rabs_triang|]. apply Rplus_le_compat_l. exact IH. }
  induction t as [k|a IHa b IHb]; intros H HF Hs; cbn [f_sum r_sum]; [apply H; left; reflexivity|].
  pose proof (r_sum_err F rnd u Hr (Node a b) x HF) as E. pose proof (Le (Node a b)) as L. cbn [r_sum leaves] in *.
  rewrite map_app, lsum_app, app_length in Hs.
  pose proof (Pos a) as Pa. pose proof (Pos b) as Pb. pose proof (Ln a) as Na. pose proof (Ln b) as Nb.
  set (h := (List.length (leaves a) + List.length (leaves b) - 1)%nat) in *.
  assert (Mo : forall m, (m <= h)%nat -> 1 <= (1 + u) ^ m <= (1 + u) ^ h).
  { intros m Hm. split; [apply pow_R1_Rle; lra|apply Rle_pow; [lra|exact Hm]]. }
  assert (Sub : forall m s s', (m <= h)%nat -> 0 <= s <= s' -> (1 + u) ^ h * s' <= omega -> (1 + u) ^ m * s <= omega).
  { intros m s s' Hm Hss Ho. pose proof (Mo m Hm) as M. eapply Rle_trans; [|exact Ho]. apply Rmult_le_compat; lra. }
  rewrite IHa, IHb.
  - apply f_add_small. rewrite map_app, lsum_app in E, L. rewrite map_app, lsum_app, app_length in E. rewrite map_app, lsum_app in L. fold h in E.
    set (S := lsum (map (fun k => Rabs (x k)) (leaves a)) + lsum (map (fun k => Rabs (x k)) (leaves b))) in *.
    set (T := lsum (map x (leaves a)) + lsum (map x (leaves b))) in *. set (s := rnd (r_sum rnd a x + r_sum rnd b x)) in *.
    replace s with ((s - T) + T) by ring. eapply Rle_trans; [apply Rabs_triang|]. lra.
  - intros k Hk. apply H, in_or_app; auto.
  - intros k Hk. apply HF, in_or_app; auto.
  - apply (Sub _ _ (lsum (map (fun k => Rabs (x k)) (leaves a)) + lsum (map (fun k => Rabs (x k)) (leaves b)))); [unfold h; lia|lra|exact Hs].
  - intros k Hk. apply H, in_or_app; auto.
  - intros k Hk. apply HF, in_or_app; auto.
  - apply (Sub _ _ (lsum (map (fun k => Rabs (x k)) (leaves a)) + lsum (map (fun k => Rabs (x k)) (leaves b)))); [unfold h; lia|lra|exact Hs].
Qed.

(** Non-negative terms: the sum is finite iff its value without overflow is in range. *)
Lemma f_sum_nonneg t f x : (forall k, In k (leaves t) -> f k = Fin (x k)) -> (forall k, In k (leaves t) -> F (x k)) ->
  (forall k, In k (leaves t) -> 0 <= x k <= omega) ->
  (r_sum rnd t x <= omega -> f_sum rnd omega t f = Fin (r_sum rnd t x)) /\ (omega < r_sum rnd t x -> ~ is_fin (f_sum rnd omega t f)).
Proof.
  intros H HF H0. split.
  - induction t as [k|a IHa b IHb]; intros Hs; cbn [f_sum r_sum] in *; [apply H; left; reflexivity|].
    assert (HFa : forall k, In k (leaves a) -> F (x k)) by (intros; apply HF, in_or_app; auto). assert (HFb : forall k, In k (leaves b) -> F (x k)) by (intros; apply HF, in_or_app; auto).
    assert (H0a : forall k, In k (leaves a) -> 0 <= x k <= omega) by (intros; apply H0, in_or_app; auto). assert (H0b : forall k, In k (leaves b) -> 0 <= x k <= omega) by (intros; apply H0, in_or_app; auto).
    assert (Some : forall t', exists k, In k (leaves t')). { induction t' as [k|c (k & Hk) d _]; [exists k; left; reflexivity|exists k; cbn; apply in_or_app; auto]. }
    assert (Pa : 0 <= r_sum rnd a x). { destruct (Some a) as (k & Hk). pose proof (r_sum_ge F rnd u Hr a x HFa (fun j Hj => proj1 (H0a j Hj)) k Hk). pose proof (H0a k Hk). lra. }
    assert (Pb : 0 <= r_sum rnd b x). { destruct (Some b) as (k & Hk). pose proof (r_sum_ge F rnd u Hr b x HFb (fun j Hj => proj1 (H0b j Hj)) k Hk). pose proof (H0b k Hk). lra. }
    pose proof (r_sum_in F rnd u Hr a x HFa) as Fa. pose proof (r_sum_in F rnd u Hr b x HFb) as Fb.
    assert (La : r_sum rnd a x <= rnd (r_sum rnd a x + r_sum rnd b x)). { rewrite <- (r_id _ _ _ Hr _ Fa) at 1. apply (r_mono _ _ _ Hr). lra. }
    assert (Lb : r_sum rnd b x <= rnd (r_sum rnd a x + r_sum rnd b x)). { rewrite <- (r_id _ _ _ Hr _ Fb) at 1. apply (r_mono _ _ _ Hr). lra. }
    rewrite IHa, IHb; try assumption; try lra.
    + apply f_add_small. rewrite Rabs_pos_eq; lra.
    + intros k Hk. apply H, in_or_app; auto.
    + intros k Hk. apply H, in_or_app; auto.
  - intros Hs (s & E). pose proof (f_sum_value t f x s H E) as Es. subst s. destruct t as [k|a b].
    + cbn in *. specialize (H0 k (or_introl eq_refl)). lra.
    + cbn [f_sum] in E. destruct (f_add_fin rnd omega (f_sum rnd omega a f) (f_sum rnd omega b f)) as [(p & Ep) (q & Eq)]; [eexists; exact E|].
      rewrite Ep, Eq in E. apply f_add_result in E. destruct E as [E1 E2]. pose proof (Rle_abs (r_sum rnd (Node a b) x)). lra.
Qed.
End Float.

(** ** The constructor *)
(** The order of the additions visits every stored value once (a matrix that stores none sums to 0). *)
Definition sums_data (t : sumtree) (m : nat) : Prop := Permutation (leaves t) (seq 0 (Nat.max 1 m)).

Lemma check_spec rnd omega t inp : f_init_check rnd omega t inp = Ok tt <->
  (exists n, in_shape inp = [n; n]) /\ is_fin (f_sum rnd omega t (fun k => nth k (data (to_csr inp)) (Fin 0))).
Proof.
  unfold f_init_check. set (s := f_sum _ _ _ _). split.
  - destruct (in_shape inp) as [|a [|b [|c l]]]; cbn; try discriminate. destruct (Nat.eqb_spec a b) as [->|]; cbn; [|discriminate].
    intros H. split; [exists b; reflexivity|]. destruct s as [x| | |]; cbn in H; try discriminate. exists x. reflexivity.
  - intros ((n & ->) & (r & ->)). cbn. rewrite Nat.eqb_refl. reflexivity.
Qed.

Lemma dense_data n (d : list xval) v : In v (data (csr_of_dense n n d)) <-> exists i j, (i < n)%nat /\ (j < n)%nat /\ v = nth (i * n + j) d (Fin 0) /\ xiszero v = false.
Proof.
  unfold data, stored. rewrite in_map_iff. setoid_rewrite in_flat_map. cbn [nrow csr_of_dense]. split.
  - intros (((a & c) & w) & E & (i & Hi & Hw)). cbn in E. subst w. apply in_seq in Hi. apply in_map_iff in Hw. destruct Hw as ((c' & w') & E & Hw). cbn in E.
    apply pair_equal_spec in E. destruct E as [E <-]. unfold row in Hw. cbn [rows csr_of_dense] in Hw.
 rewrite nth_map_seq in Hw by lia. apply filter_In in Hw. destruct Hw as [Hw Hz]. apply in_map_iff in Hw. destruct Hw as (j & Ej & Hj). apply pair_equal_spec in Ej. destruct Ej as [-> <-].
    apply in_seq in Hj. exists i, c'. repeat split; try lia. apply negb_true_iff in Hz. exact Hz.
  - intros (i & j & Hi & Hj & -> & Hz). exists (i, j, nth (i * n + j) d (Fin 0)). split; [reflexivity|]. exists i. split; [apply in_seq; lia|].
    apply in_map_iff. exists (j, nth (i * n + j) d (Fin 0)). split; [reflexivity|]. unfold row. cbn [rows csr_of_dense].
 rewrite nth_map_seq by lia. apply filter_In. split; [apply in_map_iff; exists j; split; [reflexivity|apply in_seq; lia]|]. cbn. rewrite Hz. reflexivity.
Qed.

(** Whatever the rounding, the largest number and the order of the additions, a matrix that passes the check is square and has no
    NaN and no infinity: it is a matrix that the constructor of exact arithmetic accepts. *)
Theorem C01_float_check_rejects_non_finite :
  forall rnd omega t n d, List.length d = (n * n)%nat -> sums_data t (List.length (data (csr_of_dense n n d))) ->
    f_init_check rnd omega t (InDense [n; n]%nat d) = Ok tt ->
    forall i j, (i < n)%nat -> (j < n)%nat -> exists r, input_entry (InDense [n; n]%nat d) i j = Fin r.
Proof.
  intros rnd omega t n d Hd Ht H i j Hi Hj. apply check_spec in H. destruct H as [_ H]. cbn [to_csr nth] in H.
  pose proof (f_sum_fin _ _ _ _ H) as Hf. cbn [input_entry]. cbn. set (v := nth (i * n + j) d (Fin 0)) in *.
  destruct (xiszero v) eqn:Z; [destruct v; try discriminate; eexists; reflexivity|].
  assert (Hin : In v (data (csr_of_dense n n d))) by (apply dense_data; exists i, j; auto).
  apply (In_nth _ _ (Fin 0)) in Hin. destruct Hin as (k & Hk & Ek). rewrite <- Ek. apply (Hf k).
  apply (Permutation_in _ (Permutation_sym Ht)). apply in_seq. lia.
Qed.

Lemma dense_count n (d : list xval) : (List.length (data (csr_of_dense n n d)) <= n * n)%nat.
Proof.
  unfold data, stored. rewrite map_length. cbn [nrow csr_of_dense].
  assert (H : forall l, (forall i, In i l -> (i < n)%nat) -> (List.length (flat_map (fun i => map (fun cv : nat * xval => (i, fst cv, snd cv)) (row (csr_of_dense n n d) i)) l) <= List.length l * n)%nat).
  { induction l as [|i l IH]; intros Hl; [cbn; lia|]. cbn [flat_map List.length]. rewrite app_length, map_length.
    specialize (IH (fun j Hj => Hl j (or_intror Hj))).
    assert (List.length (row (csr_of_dense n n d) i) <= n)%nat; [|change (S (List.length l) * n)%nat with (n + List.length l * n)%nat; lia].
    unfold row. cbn [rows csr_of_dense]. rewrite nth_map_seq by (apply Hl; left; reflexivity).
    transitivity (List.length (map (fun j => (j, nth (i * n + j) d (Fin 0))) (seq 0 n))); [|rewrite map_length, seq_length; lia].
    generalize (map (fun j => (j, nth (i * n + j) d (Fin 0))) (seq 0 n)). clear. intros l. induction l as [|c l IH]; [cbn; lia|]. cbn. destruct (negb _); cbn; lia. }
  specialize (H (seq 0 n)). rewrite seq_length in H. apply H. intros i Hi. apply in_seq in Hi. lia.
Qed.

(** A matrix of finite numbers that are not too large is accepted: of size at most M with n^2 (1+u)^(n^2) M <= omega (for n = 1000 in
    double precision, up to 10^302). *)
Theorem C01_float_check_accepts :
  forall F rnd u omega t n d M, rounding F rnd u -> List.length d = (n * n)%nat -> sums_data t (List.length (data (csr_of_dense n n d))) ->
    (forall i j, (i < n)%nat -> (j < n)%nat -> exists r, input_entry (InDense [n; n]%nat d) i j = Fin r /\ F r /\ Rabs r <= M) ->
    (1 + u) ^ (n * n) * (INR (n * n) * M) <= omega -> 0 <= omega ->
    f_init_check rnd omega t (InDense [n; n]%nat d) = Ok tt.
Proof.
  intros F rnd u omega t n d M Hr Hd Ht He Hs Ho. apply check_spec. split; [exists n; reflexivity|]. cbn [to_csr nth].
  set (l := data (csr_of_dense n n d)) in *. pose proof (r_unit _ _ _ Hr) as U.
  assert (Hl : forall k, exists r, nth k l (Fin 0) = Fin r /\ F r /\ ((k < List.length l)%nat -> Rabs r <= M) /\ ((List.length l <= k)%nat -> r = 0)).
  { intros k. destruct (le_lt_dec (List.length l) k) as [Hk|Hk].
    - exists 0. rewrite nth_overflow by exact Hk. repeat split; [apply (r_zero _ _ _ Hr)|lia].
    - pose proof (nth_In l (Fin 0) Hk) as Hin. apply dense_data in Hin. destruct Hin as (i & j & Hi & Hj & E & _).
      destruct (He i j Hi Hj) as (r & Er & HF & HM). cbn in Er. rewrite Er in E. exists r. repeat split; [exact E|exact HF|intros _; exact HM|lia]. }
  set (x := fun k => xreal (nth k l (Fin 0))).
  exists (r_sum rnd t x). apply (f_sum_small F rnd u omega Hr).
  - intros k _. unfold x. destruct (Hl k) as (r & -> & _). reflexivity.
  - intros k _. unfold x. destruct (Hl k) as (r & -> & H & _). exact H.
  - pose proof (Permutation_length Ht) as Len. rewrite seq_length in Len. pose proof (dense_count n d) as Cnt. fold l in Cnt.
    destruct (Nat.eq_dec (List.length l) 0) as [E0|E0].
    + rewrite E0 in Ht, Len. cbn in Ht, Len. apply Permutation_sym, Permutation_length_1_inv in Ht. rewrite Ht. cbn. unfold x.
      destruct (Hl 0%nat) as (r & -> & _ & _ & Z). rewrite Z by lia. cbn. rewrite Rabs_R0. lra.
    + assert (HM : 0 <= M). { destruct (Hl 0%nat) as (r & _ & _ & B & _). specialize (B ltac:(lia)). pose proof (Rabs_pos r). lra. }
      assert (B : lsum (map (fun k => Rabs (x k)) (leaves t)) <= INR (List.length (leaves t)) * M).
      { assert (Hx : forall k, In k (leaves t) -> Rabs (x k) <= M).
        { intros k Hk. apply (Permutation_in _ Ht) in Hk. apply in_seq in Hk. unfold x. destruct (Hl k) as (r & -> & _ & B & _). apply B. lia. }
        clear - Hx. induction (leaves t) as [|k m IH]; [cbn; lra|]. change (lsum (map (fun k => Rabs (x k)) (k :: m))) with (Rabs (x k) + lsum (map (fun k => Rabs (x k)) m)).
        specialize (IH (fun j Hj => Hx j (or_intror Hj))). specialize (Hx k (or_introl eq_refl)). cbn [List.length]. rewrite S_INR. lra. }
      eapply Rle_trans; [|exact Hs]. apply Rmult_le_compat.
      * apply pow_le. lra.
      * apply lsum_map_nonneg. intros. apply Rabs_pos.
      * apply Rle_pow; [lra|lia].
      * eapply Rle_trans; [exact B|]. apply Rmult_le_compat_r; [exact HM|]. apply le_INR. lia.
Qed.

(** Of matrices of finite non-negative numbers, exactly those whose rounded sum is in range are accepted. *)
Theorem C01_float_check_nonnegative :
  forall F rnd u omega t n d, rounding F rnd u -> List.length d = (n * n)%nat -> sums_data t (List.length (data (csr_of_dense n n d))) -> 0 <= omega ->
    (forall i j, (i < n)%nat -> (j < n)%nat -> exists r, input_entry (InDense [n; n]%nat d) i j = Fin r /\ F r /\ 0 <= r <= omega) ->
    (f_init_check rnd omega t (InDense [n; n]%nat d) = Ok tt <-> r_sum rnd t (fun k => xreal (nth k (data (csr_of_dense n n d)) (Fin 0))) <= omega).
Proof.
  intros F rnd u omega t n d Hr Hd Ht Ho He. set (l := data (csr_of_dense n n d)) in *.
  assert (Hl : forall k, exists r, nth k l (Fin 0) = Fin r /\ F r /\ 0 <= r <= omega).
  { intros k. destruct (le_lt_dec (List.length l) k) as [Hk|Hk].
    - exists 0. rewrite nth_overflow by exact Hk. repeat split; [apply (r_zero _ _ _ Hr)|lra|exact Ho].
    - pose proof (nth_In l (Fin 0) Hk) as Hin. apply dense_data in Hin. destruct Hin as (i & j & Hi & Hj & E & _).
      destruct (He i j Hi Hj) as (r & Er & HF & HM). cbn in Er. rewrite Er in E. exists r. auto. }
  set (x := fun k => xreal (nth k l (Fin 0))).
  destruct (f_sum_nonneg F rnd u omega Hr t (fun k => nth k l (Fin 0)) x) as [A B].
  { intros k _. unfold x. destruct (Hl k) as (r & -> & _). reflexivity. }
  { intros k _. unfold x. destruct (Hl k) as (r & -> & H & _). exact H. }
  { intros k _. unfold x. destruct (Hl k) as (r & -> & _ & H). exact H. }
  rewrite check_spec. cbn [to_csr nth]. fold l. split.
  - intros [_ H]. destruct (Rle_lt_dec (r_sum rnd t x) omega) as [L|L]; [exact L|]. exfalso. apply (B L H).
  - intros H. split; [exists n; reflexivity|]. rewrite (A H). eexists. reflexivity.
Qed.

(** ** Where it goes wrong *)
(** The largest finite double, (2^53 - 1) 2^971. *)
Definition b64_max : R := F2R (Float radix2 9007199254740991 971).
Lemma b64_max_pos : 0 < b64_max.
Proof. apply F2R_gt_0. reflexivity. Qed.
Lemma b64_max_format m : (Z.abs m <= 2)%Z -> b64_format (IZR m * b64_max).
Proof.
  intros Hm. assert (Hc : (m = -2 \/ m = -1 \/ m = 0 \/ m = 1 \/ m = 2)%Z) by lia.
  assert (H1 : b64_format b64_max) by (apply generic_format_FLT; exists (Float radix2 9007199254740991 971); [reflexivity|reflexivity|discriminate]).
  assert (H2 : b64_format (2 * b64_max)).
  { apply generic_format_FLT. exists (Float radix2 9007199254740991 972); [|reflexivity|discriminate].
    unfold b64_max, F2R. cbn [Fnum Fexp]. change 972%Z with (971 + 1)%Z. rewrite bpow_plus. change (bpow radix2 1) with 2. ring. }
  destruct Hc as [ -> | [ -> | [ -> | [ -> | -> ]]]].
  - replace (-2 * b64_max) with (- (2 * b64_max)) by ring. apply generic_format_opp, H2.
  - replace (-1 * b64_max) with (- b64_max) by ring. apply generic_format_opp, H1.
  - rewrite Rmult_0_l. apply generic_format_0.
  - rewrite Rmult_1_l. exact H1.
  - exact H2.
Qed.
Lemma b64_max_add a b : (Z.abs (a + b) <= 2)%Z -> b64_round (IZR a * b64_max + IZR b * b64_max) = IZR (a + b) * b64_max.
Proof.
  intros H. replace (IZR a * b64_max + IZR b * b64_max) with (IZR (a + b) * b64_max) by (rewrite plus_IZR; ring).
  apply (r_id _ _ _ b64_rounding), b64_max_format, H.
Qed.
Lemma f_add_max a b : (Z.abs (a + b) <= 1)%Z -> f_add b64_round b64_max (Fin (IZR a * b64_max)) (Fin (IZR b * b64_max)) = Fin (IZR (a + b) * b64_max).
Proof.
  intros H. pose proof b64_max_pos as P. rewrite f_add_small; rewrite b64_max_add by lia; [reflexivity|].
  rewrite Rabs_mult, (Rabs_pos_eq b64_max) by lra. rewrite <- abs_IZR. pose proof (IZR_le _ _ H) as Hz. rewrite <- (Rmult_1_l b64_max) at 2. apply Rmult_le_compat_r; lra.
Qed.
Lemma f_add_over : f_add b64_round b64_max (Fin (IZR 1 * b64_max)) (Fin (IZR 1 * b64_max)) = PInf.
Proof.
  pose proof b64_max_pos as P. cbn [f_add]. rewrite b64_max_add by lia. unfold Rltb. change (1 + 1)%Z with 2%Z. destruct (Rlt_dec b64_max (2 * b64_max)); [reflexivity|lra].
Qed.

Definition max_data : list xval := map (fun z => Fin (IZR z * b64_max)) [1; 1; -1; -1]%Z.
Lemma max_stored : data (csr_of_dense 2 2 max_data) = max_data.
Proof.
  pose proof b64_max_pos as P. unfold csr_of_dense, max_data. cbn [seq map nth Nat.mul Nat.add]. cbn [xiszero filter snd].
  assert (E1 : Reqb (1 * b64_max) 0 = false). { unfold Reqb. destruct (Req_EM_T (1 * b64_max) 0); [lra|reflexivity]. }
  assert (E2 : Reqb (-1 * b64_max) 0 = false). { unfold Reqb. destruct (Req_EM_T (-1 * b64_max) 0); [lra|reflexivity]. }
  rewrite E1, E2. cbn. reflexivity.
Qed.

(** A matrix of finite doubles that the constructor rejects (with the message that there is an infinite value), or accepts, depending
    on the order in which the entries are added. *)
Theorem C01_float_check_overflow_refuted :
  exists n d t1 t2, List.length d = (n * n)%nat /\
    (forall i j, (i < n)%nat -> (j < n)%nat -> exists r, input_entry (InDense [n; n]%nat d) i j = Fin r /\ b64_format r /\ Rabs r <= b64_max) /\
    sums_data t1 (List.length (data (csr_of_dense n n d))) /\ sums_data t2 (List.length (data (csr_of_dense n n d))) /\
    f_init_check b64_round b64_max t1 (InDense [n; n]%nat d) = Raise ValueError /\
    f_init_check b64_round b64_max t2 (InDense [n; n]%nat d) = Ok tt /\
    exists G, graph_init (InDense [n; n]%nat d) Combinatorial None = Ok G.
Proof.
  pose proof b64_max_pos as P.
  assert (He : forall i j, (i < 2)%nat -> (j < 2)%nat -> exists r, input_entry (InDense [2; 2]%nat max_data) i j = Fin r /\ b64_format r /\ Rabs r <= b64_max).
  { intros i j Hi Hj. assert (exists z, (Z.abs z <= 1)%Z /\ nth (i * 2 + j) max_data (Fin 0) = Fin (IZR z * b64_max)) as (z & Hz & E).
    { destruct i as [|[|i]], j as [|[|j]]; try lia; cbn; [exists 1%Z|exists 1%Z|exists (-1)%Z|exists (-1)%Z]; split; [lia|reflexivity|lia|reflexivity|lia|reflexivity|lia|reflexivity]. }
    exists (IZR z * b64_max). split; [exact E|]. split; [apply b64_max_format; lia|]. rewrite Rabs_mult, (Rabs_pos_eq b64_max) by lra. rewrite <- abs_IZR. pose proof (IZR_le _ _ Hz) as Hz'. rewrite <- (Rmult_1_l b64_max) at 2. apply Rmult_le_compat_r; lra. }
  exists 2%nat, max_data, (Node (Node (Node (Leaf 0) (Leaf 1)) (Leaf 2)) (Leaf 3)), (Node (Node (Leaf 0) (Leaf 2)) (Node (Leaf 1) (Leaf 3))).
  split; [reflexivity|]. split; [exact He|]. rewrite max_stored. split; [apply Permutation_refl|].
  split. { unfold sums_data. cbn. apply perm_skip. apply perm_swap. }
  split; [|split].
  - unfold f_init_check. cbn [to_csr nth in_shape]. rewrite max_stored. cbn [f_sum max_data map nth]. rewrite f_add_over. reflexivity.
  - unfold f_init_check. cbn [to_csr nth in_shape]. rewrite max_stored. cbn [f_sum max_data map nth]. rewrite !f_add_max by (cbn; lia). cbn. reflexivity.
  - apply C01_accepts_exactly_finite_square; [reflexivity|]. split; [left; reflexivity|]. exists 2%nat. split; [reflexivity|]. intros i j Hi Hj. destruct (He i j Hi Hj) as (r & E & _). exists r. exact E.
Qed.

(** An ordinary matrix meets the hypotheses of the acceptance theorem. *)
Example C01_float_ex : f_init_check b64_round b64_max (Node (Leaf 0) (Leaf 1)) (InDense [2; 2]%nat [Fin 0; Fin 1; Fin 1; Fin 0]) = Ok tt.
Proof.
  assert (E : data (csr_of_dense 2 2 [Fin 0; Fin 1; Fin 1; Fin 0]) = [Fin 1; Fin 1]).
  { unfold csr_of_dense. cbn [seq map nth Nat.mul Nat.add]. cbn [xiszero filter snd]. unfold Reqb. destruct (Req_EM_T 0 0); [|lra]. destruct (Req_EM_T 1 0); [lra|]. reflexivity. }
  apply (C01_float_check_accepts b64_format b64_round (/ 2 ^ 53) b64_max _ 2 _ 1).
  - exact b64_rounding.
  - reflexivity.
  - rewrite E. apply Permutation_refl.
  - intros i j Hi Hj. assert (C : input_entry (InDense [2; 2]%nat [Fin 0; Fin 1; Fin 1; Fin 0]) i j = Fin 0 \/ input_entry (InDense [2; 2]%nat [Fin 0; Fin 1; Fin 1; Fin 0]) i j = Fin 1).
    { destruct i as [|[|i]], j as [|[|j]]; try lia; cbn; auto. }
    destruct C as [-> | ->]; eexists; (split; [reflexivity|]); split; [apply generic_format_0|rewrite Rabs_R0; lra|exact b64_one|rewrite Rabs_R1; lra].
  - apply (Rle_trans _ (2 ^ 4 * (INR (2 * 2) * 1))).
    + apply Rmult_le_compat_r; [cbn; lra|]. apply pow_incr. split; [|]; assert (0 < / 2 ^ 53 <= 1); try lra; (split; [apply Rinv_0_lt_compat, pow_lt; lra|]; rewrite <- Rinv_1; apply Rinv_le_contravar; [lra|apply pow_R1_Rle; lra]).
    + unfold b64_max, F2R. cbn [Fnum Fexp]. apply (Rle_trans _ (IZR 9007199254740991 * 1)); [cbn; lra|]. apply Rmult_le_compat_l; [lra|]. change 1 with (bpow radix2 0). apply bpow_le. lia.
  - left. exact b64_max_pos.
Qed.
