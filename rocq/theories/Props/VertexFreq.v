(** Property C68: Gabor and Modulation banks (vertex-frequency representations). *)
From Coq Require Import Reals Lra Lia List Arith Bool String ZArith.
From Coq Require Import List.
From Verif.Base Require Import RSum Prelude LinAlg.
From Verif.Spec Require Import Matrix NdArray FilterSpec.
From Verif.Model Require Import Sparse Graph Traverse Cache Filter Kernels.
From Verif.Proofs Require Import SpectralFacts FilterFacts ChebFacts.
From Verif.Props Require Import Caching Filtering Banks ResynthProps.
Import ListNotations.
Open Scope R_scope.

(** A mother bank of several (or no) filters, or built on another graph, is rejected by both. *)
Theorem C68_wrong_mother_kernel_rejected :
  forall F same mother, (List.length mother <> 1%nat \/ same = false) ->
    Gabor F same mother = Raise ValueError /\ Modulation_check same mother = Raise ValueError.
Proof.
  intros F same mother [H| ->]; unfold Gabor, Modulation_check.
  - apply Nat.eqb_neq in H. rewrite H. auto.
  - destruct (Nat.eqb (List.length mother) 1); auto.
Qed.

(** Gabor: one filter per vertex, the i-th being the mother kernel shifted to the i-th eigenvalue. *)
Theorem C68_gabor_shifts_the_mother_kernel :
  forall F g, exists ks, Gabor F true [pw g] = Ok ks /\ List.length ks = v_N F /\
    forall x, evaluate ks x = Ok (map (fun i => map (fun t => g (t - nth i (v_e F) 0)) x) (seq 0 (v_N F))).
Proof.
  intros F g. unfold Gabor. cbn [List.length Nat.eqb negb]. eexists. split; [reflexivity|]. split; [rewrite map_length, seq_length; reflexivity|].
  intros x. unfold evaluate at 1. generalize (seq 0 (v_N F)). intros l. induction l as [|i l IH]; [reflexivity|]. cbn [map mapr].
  change [pw g] with (map pw [g]) at 1. rewrite evaluate_pw. cbn [bindr map nth]. rewrite !map_length, Nat.eqb_refl. cbn [bindr].
  rewrite IH. cbn [bindr]. rewrite map_map. reflexivity.
Qed.

(** Filtering a signal: coefficient (n, i) is [g(L - e_i I) s](n), whatever method is asked for. *)
Theorem C68_gabor_coefficients :
  forall F g m s, spectral F -> exists ks out, Gabor F true [pw g] = Ok ks /\
    gabor_filter F ks m (vec_arr (v_N F) s) = Ok out /\
    forall i n, (i < v_N F)%nat -> (n < v_N F)%nat -> ans F (v_N F) out i n = mult F (fun k => g (nth k (v_e F) 0 - nth i (v_e F) 0)) s n.
Proof.
  intros F g m s HF. destruct (C68_gabor_shifts_the_mother_kernel F g) as (ks & Ek & Hl & Hev). exists ks.
  assert (Hr : response F ks Exact (fun i k => g (nth k (v_e F) 0 - nth i (v_e F) 0))).
  { eexists. split; [apply Hev|]. rewrite Hl. intros i k Hi Hk. rewrite nth_map_seq by exact Hi.
    set (h := fun t => g (t - nth i (v_e F) 0)). rewrite (nth_indep (map h (v_e F)) 0 (h 0)) by (rewrite map_length, (proj1 HF); exact Hk).
    rewrite map_nth. reflexivity. }
  destruct (one_signal F ks Exact _ s HF Hr) as (out & E & _ & Ho). exists out. split; [exact Ek|]. split; [exact E|].
  intros i n Hi Hn. rewrite Hl in Ho. apply Ho; assumption.
Qed.

(** *** Modulation *)

(** The mother kernel in the vertex domain, and its modulation by eigenvector k. *)
Definition vertex_kernel (F : view) (g : R -> R) : vec := fun n => \sum_(j < v_N F) (v_U F n j * g (nth j (v_e F) 0)).
Definition modulated (F : view) (g : R -> R) (k : nat) : vec := fun n => sqrt (INR (v_N F)) * v_U F n k * vertex_kernel F g n.

Lemma modulation_coeffs F g : spectral F -> v_N F <> 1%nat ->
  exists co, modulation_coefficients F [pw g] = Ok co /\ forall l k, co l k = fhat F (modulated F g k) l.
Proof.
  intros HF HN. unfold modulation_coefficients. change [pw g] with (map pw [g]). rewrite evaluate_pw. cbn [bindr map nth List.length].
  rewrite (proj1 HF). unfold mat_arr, squeeze. cbn [shape drop1 List.filter Nat.eqb negb]. apply Nat.eqb_neq in HN. rewrite HN. cbn [negb].
  unfold igft, check_arr. cbn [shape]. rewrite Nat.eqb_refl. cbn [bindr hd shape]. rewrite (proj1 HF), Nat.eqb_refl. cbn [negb bindr].
  unfold gft, check_arr. cbn [shape]. rewrite Nat.eqb_refl. cbn [bindr]. eexists. split; [reflexivity|].
  intros l k. cbn [aget hd tl]. unfold fhat. apply rsum_ext. intros i Hi. f_equal. cbn [nth hd tl]. unfold modulated. f_equal. unfold vertex_kernel.
  apply rsum_ext. intros j Hj. f_equal. cbn [unsqidx]. rewrite HN. cbn [Nat.eqb hd nth].
  rewrite (nth_indep (map g (v_e F)) 0 (g 0)) by (rewrite map_length, (proj1 HF); exact Hj). apply map_nth.
Qed.

Lemma find_eq_spec x e : forall i, match find_eq x e i with
  | Some k => exists j, k = (i + j)%nat /\ (j < List.length e)%nat /\ nth j e 0 = x /\ forall j', (j' < j)%nat -> nth j' e 0 <> x
  | None => ~ In x e end.
Proof.
  induction e as [|a e IH]; intros i; cbn; [tauto|]. destruct (Reqb_spec x a) as [->|Hne].
  - exists 0%nat. repeat split; [lia|lia|]. intros; lia.
  - specialize (IH (S i)). destruct (find_eq x e (S i)).
    + destruct IH as (j & -> & Hj & Hx & Hmin). exists (S j). repeat split; [lia|lia|exact Hx|]. intros [|j'] Hj'; cbn; [congruence|apply Hmin; lia].
    + intros [E|E]; [congruence|contradiction].
Qed.
Lemma find_eq_distinct e k : NoDup e -> (k < List.length e)%nat -> find_eq (nth k e 0) e 0 = Some k.
Proof.
  intros Hnd Hk. pose proof (find_eq_spec (nth k e 0) e 0) as H. destruct (find_eq _ _ _) as [l|].
  - destruct H as (j & -> & Hj & Hx & _). f_equal. cbn. apply (NoDup_nth e 0); assumption.
  - exfalso. apply H, nth_In, Hk.
Qed.

Lemma modulation_bank_evaluate F g co x : modulation_coefficients F [pw g] = Ok co ->
  evaluate (modulation_bank F [pw g]) x =
  Ok (map (fun k => map (fun t => match find_eq t (v_e F) 0 with Some l => co l k | None => 0 end) x) (seq 0 (v_N F))).
Proof.
  intros Hco. unfold modulation_bank, evaluate. rewrite Hco. cbn [bindr]. generalize (seq 0 (v_N F)). intros l. induction l as [|k l IH]; [reflexivity|].
  cbn [map mapr]. cbn [bindr]. rewrite map_length, Nat.eqb_refl. cbn [bindr]. rewrite IH. reflexivity.
Qed.

(** Modulation first, distinct eigenvalues: coefficient (i, k) is the inner product of the signal with
    T_i M_k g (up to the factor sqrt N of localize): mult applies the spectral multiplier. *)
Theorem C68_modulation_first :
  forall F g s, spectral F -> v_N F <> 1%nat -> NoDup (v_e F) ->
    exists out, modulation_filter_first F [pw g] (vec_arr (v_N F) s) = Ok out /\
      forall i k, (i < v_N F)%nat -> (k < v_N F)%nat ->
        ans F (v_N F) out k i = mult F (fhat F (modulated F g k)) s i /\
        ans F (v_N F) out k i = dot (v_N F) s (mult F (fhat F (modulated F g k)) (fun j => if Nat.eqb j i then 1 else 0)).
Proof.
  intros F g s HF HN Hnd. destruct (modulation_coeffs F g HF HN) as (co & Hco & Hval).
  assert (Hl : List.length (modulation_bank F [pw g]) = v_N F) by (unfold modulation_bank; rewrite map_length, seq_length; reflexivity).
  assert (Hr : response F (modulation_bank F [pw g]) Exact (fun k l => fhat F (modulated F g k) l)).
  { eexists. split; [apply (modulation_bank_evaluate F g co _ Hco)|]. rewrite Hl. intros k l Hk Hl'. rewrite nth_map_seq by exact Hk.
    set (h := fun t => match find_eq t (v_e F) 0 with Some l => co l k | None => 0 end).
    rewrite (nth_indep (map h (v_e F)) 0 (h 0)) by (rewrite map_length, (proj1 HF); exact Hl'). rewrite map_nth.
    unfold h. rewrite find_eq_distinct by (try rewrite (proj1 HF); assumption). symmetry. apply Hval. }
  destruct (one_signal F _ Exact _ s HF Hr) as (out & E & _ & Ho). rewrite Hl in Ho. exists out. split; [exact E|].
  intros i k Hi Hk. rewrite Ho by assumption. split; [reflexivity|].
  rewrite <- (mult_adj F HF). unfold dot. erewrite rsum_ext; [|intros j Hj; rewrite Rmult_comm; reflexivity].
  rewrite (rsum_ext _ _ (fun j => if Nat.eqb j i then mult F (fhat F (modulated F g k)) s j else 0)) by (intros j Hj; destruct (Nat.eqb j i); ring).
  symmetry. rewrite (rsum_single (v_N F) _ i Hi); [rewrite Nat.eqb_refl; reflexivity|]. intros j Hj Hne. apply Nat.eqb_neq in Hne. rewrite Hne. reflexivity.
Qed.

(** Localization first: row i holds the Fourier transform (times sqrt N) of the signal windowed by the
    kernel localized at i. *)
Theorem C68_localization_first :
  forall F mother m H s, spectral F -> v_N F <> 1%nat -> List.length mother = 1%nat -> response F mother m H ->
    exists out, modulation_filter_last F mother m s = Ok out /\ shape out = [v_N F; v_N F] /\
      forall i k, (i < v_N F)%nat -> (k < v_N F)%nat ->
        aget out [i; k] = sqrt (INR (v_N F)) *
          fhat F (fun n => s n * (sqrt (INR (v_N F)) * mult F (H 0%nat) (fun j => if Nat.eqb j i then 1 else 0) n)) k.
Proof.
  intros F mother m H s HF HN H1 Hr. unfold modulation_filter_last.
  set (row := fun i => map (fun k => sqrt (INR (v_N F)) * fhat F (fun n => s n * (sqrt (INR (v_N F)) * mult F (H 0%nat) (fun j => if Nat.eqb j i then 1 else 0) n)) k) (seq 0 (v_N F))).
  assert (Hrow : forall i, (i < v_N F)%nat -> bindr (localize F mother m (Z.of_nat i)) (fun w =>
           bindr (gft F (vec_arr (v_N F) (fun n => s n * aget w [n]))) (fun z =>
           Ok (map (fun k => sqrt (INR (v_N F)) * aget z [k]) (seq 0 (v_N F))))) = Ok (row i)).
  { intros i Hi. destruct (C26_localize F mother m H i HF Hr Hi) as (w & Ew & _ & Hw). rewrite Ew. cbn [bindr].
    unfold gft, check_arr. cbn [shape vec_arr]. rewrite Nat.eqb_refl. cbn [bindr]. f_equal. unfold row. apply map_ext_in. intros k Hk. f_equal.
    cbn [aget hd tl]. unfold fhat. apply rsum_ext. intros n Hn. f_equal. unfold vec_arr. cbn [aget ix nth hd]. f_equal.
    specialize (Hw 0%nat n ltac:(lia) Hn). rewrite H1 in Hw. unfold ans, rd, sqidx in Hw. apply Nat.eqb_neq in HN. rewrite HN in Hw. exact Hw. }
  assert (Hm : forall l, (forall i, In i l -> (i < v_N F)%nat) -> mapr (fun i => bindr (localize F mother m (Z.of_nat i)) (fun w =>
           bindr (gft F (vec_arr (v_N F) (fun n => s n * aget w [n]))) (fun z =>
           Ok (map (fun k => sqrt (INR (v_N F)) * aget z [k]) (seq 0 (v_N F)))))) l = Ok (map row l)).
  { induction l as [|i l IH]; intros Hin; [reflexivity|]. cbn [mapr map]. rewrite Hrow by (apply Hin; left; reflexivity). cbn [bindr].
    rewrite IH by (intros q Hq; apply Hin; right; exact Hq). reflexivity. }
  rewrite Hm by (intros i Hi; apply in_seq in Hi; lia). cbn [bindr]. eexists. split; [reflexivity|]. split; [reflexivity|].
  intros i k Hi Hk. cbn [aget ix nth]. rewrite nth_map_seq by exact Hi. unfold row. rewrite nth_map_seq by exact Hk. reflexivity.
Qed.

(** The window: the atoms the localization of the mother kernel returns. *)
Definition windows (F : view) (mother : list kernel) (m : fmethod) (w : nat -> arr) : Prop :=
  forall i, (i < v_N F)%nat -> localize F mother m (Z.of_nat i) = Ok (w i).

Lemma windows_ok F mother m H w : spectral F -> v_N F <> 1%nat -> List.length mother = 1%nat -> response F mother m H -> windows F mother m w ->
  forall i n, (i < v_N F)%nat -> (n < v_N F)%nat -> aget (w i) [n] = sqrt (INR (v_N F)) * mult F (H 0%nat) (fun j => if Nat.eqb j i then 1 else 0) n.
Proof.
  intros HF HN H1 Hr Hw i n Hi Hn. destruct (C26_localize F mother m H i HF Hr Hi) as (a & E & _ & Ha). rewrite (Hw i Hi) in E. injection E as <-.
  specialize (Ha 0%nat n ltac:(lia) Hn). rewrite H1 in Ha. unfold ans, rd, sqidx in Ha. apply Nat.eqb_neq in HN. rewrite HN in Ha. exact Ha.
Qed.

(** Localization first is the windowed graph Fourier transform: coefficient (i, k) is the inner product of the signal with the
    atom sqrt(N) u_k(n) w_i(n); the energy of the coefficients is the energy of the signal weighted at vertex n by N |w_n|^2, and the
    signal is recovered from the coefficients by the atoms, divided by N |w_n|^2. *)
Theorem C68_windowed_fourier_transform :
  forall F mother m H w s, spectral F -> v_N F <> 1%nat -> List.length mother = 1%nat -> response F mother m H -> windows F mother m w ->
    let N := v_N F in let atom i k n := sqrt (INR N) * v_U F n k * aget (w i) [n] in
    exists out, modulation_filter_last F mother m s = Ok out /\
      (forall i k, (i < N)%nat -> (k < N)%nat -> aget out [i; k] = dot N s (atom i k)) /\
      \sum_(i < N) \sum_(k < N) (aget out [i; k] * aget out [i; k]) = \sum_(n < N) (INR N * normsq N (fun i => aget (w n) [i]) * (s n * s n)) /\
      (forall n, (n < N)%nat ->
         \sum_(i < N) \sum_(k < N) (aget out [i; k] * atom i k n) = INR N * normsq N (fun i => aget (w n) [i]) * s n) /\
      (forall n, (n < N)%nat -> normsq N (fun i => aget (w n) [i]) = INR N * (\sum_(l < N) (H 0%nat l * H 0%nat l * (v_U F n l * v_U F n l))) /\
         ((forall l, (l < N)%nat -> H 0%nat l <> 0) -> 0 < normsq N (fun i => aget (w n) [i]))).
Proof.
  intros F mother m H w s HF HN H1 Hr Hw N atom.
  destruct (C68_localization_first F mother m H s HF HN H1 Hr) as (out & E & _ & Ho). exists out. split; [exact E|].
  pose proof (windows_ok F mother m H w HF HN H1 Hr Hw) as HW. fold N in HW.
  assert (Sym : forall i n, (i < N)%nat -> (n < N)%nat -> aget (w i) [n] = aget (w n) [i]).
  { intros i n Hi Hn. rewrite !HW by assumption. f_equal. apply (mult_delta_sym F); assumption. }
  assert (HNN : sqrt (INR N) * sqrt (INR N) = INR N) by (apply sqrt_sqrt, pos_INR).
  assert (SQ : forall a, sqrt (INR N) * a * (sqrt (INR N) * a) = INR N * (a * a)) by (intros a; transitivity (sqrt (INR N) * sqrt (INR N) * (a * a)); [ring|rewrite HNN; ring]).
  assert (SQ' : forall a b c, sqrt (INR N) * a * (sqrt (INR N) * b * c) = INR N * (a * b * c)) by (intros a b c; transitivity (sqrt (INR N) * sqrt (INR N) * (a * b * c)); [ring|rewrite HNN; ring]).
  assert (Ho' : forall i k, (i < N)%nat -> (k < N)%nat -> aget out [i; k] = sqrt (INR N) * fhat F (fun n => s n * aget (w i) [n]) k).
  { intros i k Hi Hk. rewrite Ho by assumption. f_equal. unfold fhat. apply rsum_ext. intros n Hn. f_equal. rewrite (HW i n Hi Hn). reflexivity. }
  split; [|split; [|split]].
  - intros i k Hi Hk. rewrite Ho' by assumption. unfold fhat, dot, atom. rewrite <- rsum_scal_l. apply rsum_ext. intros n Hn. ring.
  - rewrite (rsum_ext N _ (fun i => INR N * \sum_(n < N) (s n * aget (w i) [n] * (s n * aget (w i) [n])))).
    2:{ intros i Hi. change (\sum_(n < N) (s n * aget (w i) [n] * (s n * aget (w i) [n]))) with (normsq N (fun n => s n * aget (w i) [n])).
        rewrite <- (fhat_normsq F HF), <- rsum_scal_l. apply rsum_ext. intros k Hk. rewrite Ho' by assumption. apply SQ. }
    rewrite rsum_scal_l, rsum_swap, <- rsum_scal_l. apply rsum_ext. intros n Hn. unfold normsq, dot. rewrite Rmult_assoc. f_equal.
    rewrite <- rsum_scal_r. apply rsum_ext. intros i Hi. rewrite (Sym i n Hi Hn). ring.
  - intros n Hn. rewrite (rsum_ext N _ (fun i => INR N * (aget (w i) [n] * aget (w i) [n]) * s n)).
    2:{ intros i Hi. transitivity (INR N * aget (w i) [n] * \sum_(k < N) (v_U F n k * fhat F (fun n => s n * aget (w i) [n]) k)).
        - rewrite <- rsum_scal_l. apply rsum_ext. intros k Hk. rewrite Ho' by assumption. unfold atom. rewrite SQ'. ring.
        - pose proof (mult_1 F HF (fun n => s n * aget (w i) [n]) n Hn) as M. unfold mult in M.
          rewrite (rsum_ext N _ (fun k => v_U F n k * (1 * fhat F (fun n => s n * aget (w i) [n]) k))) by (intros; ring). fold N in M. rewrite M. ring. }
    rewrite rsum_scal_r. f_equal. rewrite rsum_scal_l. f_equal. unfold normsq, dot. apply rsum_ext. intros i Hi. rewrite (Sym i n Hi Hn). reflexivity.
  - intros n Hn. assert (En : normsq N (fun i => aget (w n) [i]) = INR N * (\sum_(l < N) (H 0%nat l * H 0%nat l * (v_U F n l * v_U F n l)))).
    { transitivity (INR N * normsq N (mult F (H 0%nat) (fun j => if Nat.eqb j n then 1 else 0))).
      - unfold normsq, dot. rewrite <- rsum_scal_l. apply rsum_ext. intros i Hi. rewrite (HW n i Hn Hi). apply SQ.
      - f_equal. rewrite (mult_normsq F HF). apply rsum_ext. intros l Hl. rewrite (fhat_delta F n l Hn). reflexivity. }
    split; [exact En|]. intros Hne. rewrite En. apply Rmult_lt_0_compat; [apply lt_0_INR; lia|].
    assert (HU : \sum_(l < N) (v_U F n l * v_U F n l) = 1) by (pose proof (eigh_rows _ _ _ _ (proj2 HF) n n Hn Hn) as Q; unfold tr in Q; rewrite Nat.eqb_refl in Q; exact Q).
    destruct (vzero_dec N (fun l => v_U F n l)) as [Z|(l & Hl & Hnz)].
    { exfalso. rewrite rsum_0 in HU by (intros l Hl; rewrite (Z l Hl); ring). lra. }
    apply (rsum_pos _ _ l); [intros a _; apply Rmult_le_pos; apply Rle_0_sqr|exact Hl|]. specialize (Hne l Hl).
    apply Rmult_lt_0_compat; apply Rsqr_pos_lt; assumption.
Qed.

(** Modulation first, distinct eigenvalues: filtering the coefficients again, as the documentation proposes in order to reconstruct the
    signal, multiplies its spectrum at eigenvalue l by the energy sum_k |<M_k g, u_l>|^2 of the modulated kernels there, which is not 1
    in general. *)
Theorem C68_modulation_resynthesis :
  forall F g s, spectral F -> v_N F <> 1%nat -> NoDup (v_e F) ->
    exists out out', modulation_filter_first F [pw g] (vec_arr (v_N F) s) = Ok out /\ modulation_filter_first F [pw g] out = Ok out' /\
      shape out' = [v_N F] /\
      forall n, (n < v_N F)%nat -> aget out' [n] =
        mult F (fun l => \sum_(k < v_N F) (fhat F (modulated F g k) l * fhat F (modulated F g k) l)) s n.
Proof.
  intros F g s HF HN Hnd. destruct (modulation_coeffs F g HF HN) as (co & Hco & Hval).
  assert (Hl : List.length (modulation_bank F [pw g]) = v_N F) by (unfold modulation_bank; rewrite map_length, seq_length; reflexivity).
  assert (Hr : response F (modulation_bank F [pw g]) Exact (fun k l => fhat F (modulated F g k) l)).
  { eexists. split; [apply (modulation_bank_evaluate F g co _ Hco)|]. rewrite Hl. intros k l Hk Hl'. rewrite nth_map_seq by exact Hk.
    set (h := fun t => match find_eq t (v_e F) 0 with Some l => co l k | None => 0 end).
    rewrite (nth_indep (map h (v_e F)) 0 (h 0)) by (rewrite map_length, (proj1 HF); exact Hl'). rewrite map_nth.
    unfold h. rewrite find_eq_distinct by (try rewrite (proj1 HF); assumption). symmetry. apply Hval. }
  destruct (C95_frame_operator F _ Exact _ (vec_arr (v_N F) s) 1 (fun _ i => s i) HF HN Hr (batch1 _ _ _)) as (out & out' & E & E' & S' & Ho).
  exists out, out'. split; [exact E|]. split; [exact E'|]. pose proof HN as HN'. apply Nat.eqb_neq in HN'.
  split; [rewrite S'; cbn [drop1 List.filter Nat.eqb negb]; rewrite HN'; reflexivity|].
  intros n Hn. specialize (Ho n 0%nat Hn ltac:(lia)). rewrite Hl in Ho. transitivity (rd [v_N F; 1%nat; 1%nat] out' [n; 0%nat; 0%nat]); [unfold rd, sqidx; rewrite HN'; reflexivity|exact Ho].
Qed.

(** Evaluated directly: at an eigenvalue, the coefficient of the modulated kernel on the first eigenvector of the eigenspace; anywhere
    else, NaN: the bank is only defined on the spectrum. *)
Theorem C68_modulation_evaluate :
  forall F g x, spectral F -> v_N F <> 1%nat ->
    exists y, modulation_evaluate F [pw g] x = Ok y /\ List.length y = v_N F /\
      forall k i, (k < v_N F)%nat -> (i < List.length x)%nat ->
        (~ In (nth i x 0) (v_e F) -> nth i (nth k y []) (Some 0) = None) /\
        (forall l, (l < v_N F)%nat -> nth i x 0 = nth l (v_e F) 0 -> (forall l', (l' < l)%nat -> nth l' (v_e F) 0 <> nth i x 0) ->
           nth i (nth k y []) None = Some (fhat F (modulated F g k) l)).
Proof.
  intros F g x HF HN. destruct (modulation_coeffs F g HF HN) as (co & Hco & Hval). unfold modulation_evaluate. rewrite Hco. cbn [bindr].
  eexists. split; [reflexivity|]. split; [rewrite map_length, seq_length; reflexivity|]. intros k i Hk Hi. rewrite nth_map_seq by exact Hk.
  set (h := fun t => option_map (fun l => co l k) (find_eq t (v_e F) 0)).
  assert (En : forall d, nth i (map h x) d = h (nth i x 0)) by (intros d; rewrite (nth_indep (map h x) d (h 0)) by (rewrite map_length; exact Hi); apply map_nth).
  rewrite !En. unfold h. pose proof (find_eq_spec (nth i x 0) (v_e F) 0) as Q. destruct (find_eq (nth i x 0) (v_e F) 0) as [l0|].
  - destruct Q as (j & -> & Hj & Ej & Hmin). split; [intros Hn; exfalso; apply Hn; rewrite <- Ej; apply nth_In; exact Hj|].
    intros l Hl El Hm. cbn [option_map]. rewrite Hval. do 2 f_equal. cbn [Nat.add].
    destruct (Nat.lt_trichotomy j l) as [L|[L|L]]; [exfalso; apply (Hm j L); exact Ej|exact L|exfalso; apply (Hmin l L); symmetry; exact El].
  - split; [reflexivity|]. intros l Hl El Hm. exfalso. apply Q. rewrite El. apply nth_In. rewrite (proj1 HF). exact Hl.
Qed.

(** Finding: with a repeated eigenvalue, modulation first uses the coefficients of the first eigenvector
    of the eigenspace for the others too, and the coefficients are not those of T_i M_k g. *)
Definition two_isolated : view := mkview 2 (fun _ _ => 0) 1 [0; 0] idm.
Theorem C68_repeated_eigenvalue_refuted :
  spectral two_isolated /\ exists out, modulation_filter_first two_isolated [pw (fun _ => 1)] (vec_arr 2 (fun _ => 1)) = Ok out /\
    ans two_isolated 2 out 0%nat 1%nat <> mult two_isolated (fhat two_isolated (modulated two_isolated (fun _ => 1) 0)) (fun _ => 1) 1%nat.
Proof.
  assert (HF : spectral two_isolated).
  { split; [reflexivity|]. constructor.
    - intros k l Hk Hl. cbn in Hk, Hl. destruct k as [|[|k]]; try lia; destruct l as [|[|l]]; try lia; cbn; lra.
    - intros k l Hk Hl. cbn in Hk, Hl. destruct k as [|[|k]]; try lia; destruct l as [|[|l]]; try lia; cbn; lra.
    - intros i k Hi Hk. cbn in Hi, Hk. destruct i as [|[|i]]; try lia; destruct k as [|[|k]]; try lia; cbn; lra.
    - intros k l Hkl Hl. cbn in Hl. destruct k as [|[|k]]; try lia; destruct l as [|[|l]]; try lia; cbn; lra. }
  split; [exact HF|].
  destruct (modulation_coeffs two_isolated (fun _ => 1) HF ltac:(cbn; lia)) as (co & Hco & Hval).
  assert (Hl : List.length (modulation_bank two_isolated [pw (fun _ => 1)]) = 2%nat) by reflexivity.
  assert (Hr : response two_isolated (modulation_bank two_isolated [pw (fun _ => 1)]) Exact (fun k l => co 0%nat k)).
  { eexists. split; [apply (modulation_bank_evaluate _ _ co _ Hco)|]. rewrite Hl. intros k l Hk Hl'. cbn in Hl'. 
    rewrite nth_map_seq by (cbn; lia). cbn [v_e two_isolated map find_eq]. rewrite Reqb_refl. destruct l as [|[|l]]; try lia; reflexivity. }
  destruct (one_signal _ _ Exact _ (fun _ => 1) HF Hr) as (out & E & _ & Ho). exists out. split; [exact E|].
  rewrite Hl in Ho. rewrite Ho by (cbn; lia).
  assert (Hs : 0 < sqrt 2) by (apply sqrt_lt_R0; lra).
  assert (Hc : forall l, fhat two_isolated (modulated two_isolated (fun _ => 1) 0) l = idm 0%nat l * sqrt (1 + 1)).
  { intros l. unfold fhat, modulated, vertex_kernel. cbn. unfold idm. destruct l as [|[|l]]; cbn; ring. }
  unfold mult. rewrite Hval. cbn [v_N two_isolated rsum v_U]. rewrite !Hc. unfold fhat. cbn [v_N v_U two_isolated rsum]. unfold idm. cbn [Nat.eqb].
  replace (1 + 1) with 2 by lra. lra.
Qed.

Example C68_ex : spectral (k2_view 2) /\ NoDup (v_e (k2_view 2)) /\ v_N (k2_view 2) <> 1%nat.
Proof.
  split; [apply k2_spectral|]. split; [|cbn; lia]. cbn. constructor; [|constructor; [intros []|constructor]]. intros [E|[]]. lra.
Qed.
(** Windows exist for every mother kernel, here a heat kernel, whose values are never zero. *)
Example C68_windows_ex : exists H w, response (k2_view 2) [pw (fun t => exp (- t))] Exact H /\ windows (k2_view 2) [pw (fun t => exp (- t))] Exact w /\
  forall l, (l < 2)%nat -> H 0%nat l <> 0.
Proof.
  assert (Hr : response (k2_view 2) [pw (fun t => exp (- t))] Exact (fun _ k => exp (- nth k [0; 2] 0))).
  { eexists. split; [reflexivity|]. intros i k Hi Hk. cbn in Hi, Hk. destruct i as [|i]; [|lia]. destruct k as [|[|k]]; [reflexivity|reflexivity|lia]. }
  exists (fun _ k => exp (- nth k [0; 2] 0)).
  destruct (C26_localize (k2_view 2) _ Exact _ 0 (k2_spectral 2) Hr ltac:(cbn; lia)) as (w0 & E0 & _).
  destruct (C26_localize (k2_view 2) _ Exact _ 1 (k2_spectral 2) Hr ltac:(cbn; lia)) as (w1 & E1 & _).
  exists (fun i => if Nat.eqb i 0 then w0 else w1). split; [exact Hr|]. split.
  - intros i Hi. cbn in Hi. destruct i as [|[|i]]; [exact E0|exact E1|lia].
  - intros l _. pose proof (exp_pos (- nth l [0; 2] 0)). lra.
Qed.
