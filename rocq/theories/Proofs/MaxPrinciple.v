(** Super-harmonic functions on a graph attain their minimum on the boundary; matrix algebra lemmas. *)
From Coq Require Import Reals Lra Lia List Arith Bool.
From Verif.Base Require Import RSum Prelude LinAlg.
From Verif.Spec Require Import Matrix Reach LapSpec.
Open Scope R_scope.

Lemma lap_apply n L x i : is_laplacian n L -> (i < n)%nat ->
  mulv n L x i = \sum_(j < n) (- L i j * (x i - x j)).
Proof.
  intros (_ & Hr & _) Hi. unfold mulv.
  replace (\sum_(j < n) (- L i j * (x i - x j))) with (\sum_(j < n) (L i j * x j) - x i * \sum_(j < n) L i j).
  - rewrite Hr by exact Hi. ring.
  - rewrite <- rsum_scal_l, <- rsum_minus. apply rsum_ext. intros j Hj. ring.
Qed.

(** The quadratic form is a sum of squares of differences over edges. *)
Lemma lap_energy n L x : is_laplacian n L ->
  quad n L x = / 2 * \sum_(i < n) \sum_(j < n) (- L i j * ((x i - x j) * (x i - x j))).
Proof.
  intros HL. pose proof HL as (Hs & Hr & _).
  assert (E : \sum_(i < n) \sum_(j < n) (- L i j * ((x i - x j) * (x i - x j))) =
     2 * \sum_(i < n) (x i * \sum_(j < n) (- L i j * (x i - x j)))).
  { transitivity (\sum_(i < n) \sum_(j < n) (x i * (- L i j * (x i - x j))) + \sum_(i < n) \sum_(j < n) (x j * (- L i j * (x j - x i)))).
    - rewrite <- rsum_plus. apply rsum_ext. intros i Hi. rewrite <- rsum_plus. apply rsum_ext. intros j Hj. ring.
    - rewrite (rsum_swap n n (fun i j => x j * (- L i j * (x j - x i)))).
      rewrite (rsum_ext n (fun j => \sum_(i < n) (x j * (- L i j * (x j - x i)))) (fun j => \sum_(i < n) (x j * (- L j i * (x j - x i))))).
      2:{ intros j Hj. apply rsum_ext. intros i Hi. rewrite (Hs i j Hi Hj). reflexivity. }
      rewrite (rsum_ext n (fun i => x i * _) (fun i => \sum_(j < n) (x i * (- L i j * (x i - x j))))).
      2:{ intros i Hi. rewrite rsum_scal_l. reflexivity. } ring. }
  rewrite E. unfold quad, dot. rewrite <- Rmult_assoc, Rinv_l, Rmult_1_l by lra.
  apply rsum_ext. intros i Hi. rewrite (lap_apply n L x i HL Hi). reflexivity.
Qed.
Lemma lap_psd n L : is_laplacian n L -> psd n L.
Proof.
  intros HL x. rewrite (lap_energy n L x HL). apply Rmult_le_pos; [lra|].
  apply rsum_nonneg. intros i Hi. apply rsum_nonneg. intros j Hj. destruct HL as (_ & _ & Hn).
  destruct (Nat.eq_dec i j) as [->|Hne]; [replace (x j - x j) with 0 by ring; rewrite !Rmult_0_r; lra|].
  apply Rmult_le_pos; [specialize (Hn i j Hi Hj Hne); lra|apply Rle_0_sqr].
Qed.

(** If L x >= 0 off B and every vertex is joined to some vertex of B, the minimum of x is attained on B. *)
Lemma min_principle n L x (B : nat -> bool) : is_laplacian n L -> (0 < n)%nat ->
  (forall i, (i < n)%nat -> B i = false -> 0 <= mulv n L x i) ->
  (forall i, (i < n)%nat -> exists b, (b < n)%nat /\ B b = true /\ reach (lap_edge n L) i b) ->
  exists b, (b < n)%nat /\ B b = true /\ forall i, (i < n)%nat -> x b <= x i.
Proof.
  intros HL Hn Hsup Hconn. destruct (argmin_exists n x Hn) as (m & Hm & Hmin).
  destruct (Hconn m Hm) as (b & Hb & HBb & R).
  assert (K : forall v, reach (lap_edge n L) m v -> (exists b', (b' < n)%nat /\ B b' = true /\ x b' = x m) \/ x v = x m).
  { intros v Rv. induction Rv as [|u v w R1 IH Hs]; [right; reflexivity|].
    destruct (IH Hm Hmin R) as [Hf|Hu]; [left; exact Hf|].
    destruct Hs as (Hun & Hw & Hne & HLw).
    destruct (B v) eqn:Bv; [left; exists v; repeat split; assumption|].
    right. specialize (Hsup v Hun Bv). rewrite (lap_apply n L x v HL Hun) in Hsup.
    assert (T : forall j, (j < n)%nat -> 0 <= - (- L v j * (x v - x j))).
    { intros j Hj. destruct (Nat.eq_dec v j) as [->|Hvj]; [replace (x j - x j) with 0 by ring; lra|].
      destruct HL as (_ & _ & Hneg). specialize (Hneg v j Hun Hj Hvj). specialize (Hmin j Hj). nra. }
    assert (Z : - (- L v w * (x v - x w)) = 0).
    { apply (rsum_zero_all n (fun j => - (- L v j * (x v - x j)))); [exact T| |exact Hw].
      rewrite rsum_opp. pose proof (rsum_nonneg n _ T) as P. rewrite rsum_opp in P.
      change (rsum n (fun i : nat => - L v i * (x v - x i))) with (\sum_(j < n) (- L v j * (x v - x j))) in *. lra. }
    assert (x v - x w = 0); [|lra].
    assert (Z' : L v w * (x v - x w) = 0) by lra. apply Rmult_integral in Z'. destruct Z' as [Z'|Z']; [contradiction|exact Z']. }
  destruct (K b R) as [(b' & Hb' & HBb' & E)|E].
  - exists b'. split; [exact Hb'|]. split; [exact HBb'|]. intros i Hi. rewrite E. apply Hmin. exact Hi.
  - exists b. split; [exact Hb|]. split; [exact HBb|]. intros i Hi. rewrite E. apply Hmin. exact Hi.
Qed.

Lemma mulv_opp n A x i : mulv n A (fun j => - x j) i = - mulv n A x i.
Proof. unfold mulv. rewrite <- rsum_opp. apply rsum_ext. intros j Hj. ring. Qed.

Lemma max_principle n L x (B : nat -> bool) : is_laplacian n L -> (0 < n)%nat ->
  (forall i, (i < n)%nat -> B i = false -> mulv n L x i <= 0) ->
  (forall i, (i < n)%nat -> exists b, (b < n)%nat /\ B b = true /\ reach (lap_edge n L) i b) ->
  exists b, (b < n)%nat /\ B b = true /\ forall i, (i < n)%nat -> x i <= x b.
Proof.
  intros HL Hn Hsub Hconn. destruct (min_principle n L (fun i => - x i) B HL Hn) as (b & Hb & HB & H).
  - intros i Hi HBi. rewrite mulv_opp. specialize (Hsub i Hi HBi). lra.
  - exact Hconn.
  - exists b. split; [exact Hb|]. split; [exact HB|]. intros i Hi. specialize (H i Hi). lra.
Qed.

(** On a connected graph the kernel of the Laplacian is the constants. *)
Lemma lap_kernel n L x : is_laplacian n L -> lap_connected n L ->
  (forall i, (i < n)%nat -> mulv n L x i = 0) -> forall i j, (i < n)%nat -> (j < n)%nat -> x i = x j.
Proof.
  intros HL HC H0.
  assert (K : forall i j, (i < n)%nat -> (j < n)%nat -> x i <= x j).
  { intros i j Hi Hj. destruct (min_principle n L x (fun b => Nat.eqb b i) HL ltac:(lia)) as (b & Hb & HB & Hm).
    - intros k Hk _. rewrite H0 by exact Hk. lra.
    - intros k Hk. exists i. split; [exact Hi|]. split; [apply Nat.eqb_refl|]. apply HC; assumption.
    - apply Nat.eqb_eq in HB. subst b. apply Hm. exact Hj. }
  intros i j Hi Hj. apply Rle_antisym; apply K; assumption.
Qed.

(** ** Matrix algebra *)
Lemma mulm_assoc n A B C i j : mulm n A (mulm n B C) i j = mulm n (mulm n A B) C i j.
Proof.
  unfold mulm. transitivity (\sum_(k < n) \sum_(l < n) (A i k * B k l * C l j)).
  - apply rsum_ext. intros k Hk. rewrite <- rsum_scal_l. apply rsum_ext. intros l Hl. ring.
  - rewrite rsum_swap. apply rsum_ext. intros l Hl. rewrite <- rsum_scal_r. reflexivity.
Qed.
Lemma mulm_ext n A A' B B' : meq n n A A' -> meq n n B B' -> meq n n (mulm n A B) (mulm n A' B').
Proof. intros H1 H2 i j Hi Hj. unfold mulm. apply rsum_ext. intros k Hk. rewrite H1, H2 by assumption. reflexivity. Qed.
Lemma mulm_tr n A B i j : mulm n A B i j = mulm n (tr B) (tr A) j i.
Proof. unfold mulm, tr. apply rsum_ext. intros k Hk. ring. Qed.
Lemma meq_refl n A : meq n n A A. Proof. intros i j _ _. reflexivity. Qed.
Lemma meq_sym n A B : meq n n A B -> meq n n B A. Proof. intros H i j Hi Hj. symmetry. apply H; assumption. Qed.
Lemma meq_trans n A B C : meq n n A B -> meq n n B C -> meq n n A C.
Proof. intros H1 H2 i j Hi Hj. rewrite H1 by assumption. apply H2; assumption. Qed.
Lemma mulm_assoc_meq n A B C : meq n n (mulm n A (mulm n B C)) (mulm n (mulm n A B) C).
Proof. intros i j _ _. apply mulm_assoc. Qed.

(** The pseudo-inverse is unique. *)
Lemma pinv_half n A P Q : pinv n A P -> pinv n A Q -> meq n n (mulm n A P) (mulm n A Q).
Proof.
  intros (P1 & P2 & P3 & P4) (Q1 & Q2 & Q3 & Q4).
  (* AP = (AQ)(AP), transposed: AP = (AP)(AQ) = AQ *)
  assert (H1 : meq n n (mulm n A P) (mulm n (mulm n A Q) (mulm n A P))).
  { eapply meq_trans; [apply mulm_ext; [apply meq_sym; exact Q1|apply meq_refl]|].
    eapply meq_trans; [apply meq_sym; apply mulm_assoc_meq|].
    eapply meq_trans; [apply mulm_ext; [apply meq_refl|apply meq_sym; apply mulm_assoc_meq]|].
    apply mulm_assoc_meq. }
  assert (H2 : meq n n (mulm n A P) (mulm n (mulm n A P) (mulm n A Q))).
  { intros i j Hi Hj. rewrite (P3 i j Hi Hj). unfold tr. rewrite (H1 j i Hj Hi), mulm_tr.
    apply mulm_ext; try assumption; intros a b Ha Hb; symmetry; [apply P3|apply Q3]; assumption. }
  eapply meq_trans; [exact H2|].
  eapply meq_trans; [apply mulm_assoc_meq|]. apply mulm_ext; [|apply meq_refl].
  eapply meq_trans; [apply meq_sym; apply mulm_assoc_meq|]. exact P1.
Qed.
Lemma pinv_tr n A P : symmetric n A -> pinv n A P -> pinv n A (tr P).
Proof.
  intros Hs (P1 & P2 & P3 & P4).
  assert (S1 : meq n n (mulm n A (tr P)) (tr (mulm n P A))).
  { intros i j Hi Hj. unfold tr at 2. rewrite (mulm_tr n P A). apply mulm_ext; try assumption. apply meq_refl. }
  assert (S2 : meq n n (mulm n (tr P) A) (tr (mulm n A P))).
  { intros i j Hi Hj. unfold tr at 2. rewrite (mulm_tr n A P). apply mulm_ext; try assumption. apply meq_refl. }
  split; [|split; [|split]].
  - intros i j Hi Hj. rewrite (mulm_ext n A A _ _ (meq_refl n A) S2 i j Hi Hj).
    rewrite (mulm_ext n _ (tr A) _ _ Hs (meq_refl n _) i j Hi Hj). rewrite <- mulm_tr, <- mulm_assoc.
    rewrite (P1 j i Hj Hi). symmetry. apply Hs; assumption.
  - intros i j Hi Hj. rewrite (mulm_ext n _ _ _ _ (meq_refl n (tr P)) S1 i j Hi Hj). rewrite <- mulm_tr, <- mulm_assoc.
    apply P2; assumption.
  - intros i j Hi Hj. rewrite (S1 i j Hi Hj). unfold tr at 2. rewrite (S1 j i Hj Hi). unfold tr. symmetry. apply P4; assumption.
  - intros i j Hi Hj. rewrite (S2 i j Hi Hj). unfold tr at 2. rewrite (S2 j i Hj Hi). unfold tr. symmetry. apply P3; assumption.
Qed.
Lemma pinv_unique n A P Q : symmetric n A -> pinv n A P -> pinv n A Q -> meq n n P Q.
Proof.
  intros Hs HP HQ. pose proof (pinv_half n A P Q HP HQ) as H1.
  pose proof (pinv_half n A (tr P) (tr Q) (pinv_tr n A P Hs HP) (pinv_tr n A Q Hs HQ)) as H2.
  assert (H3 : meq n n (mulm n P A) (mulm n Q A)).
  { intros i j Hi Hj. rewrite (mulm_tr n P A), (mulm_tr n Q A).
    rewrite (mulm_ext n (tr A) A _ _ (meq_sym _ _ _ Hs) (meq_refl n _) j i Hj Hi).
    rewrite (mulm_ext n (tr A) A _ _ (meq_sym _ _ _ Hs) (meq_refl n (tr Q)) j i Hj Hi). apply H2; assumption. }
  destruct HP as (_ & P2 & _ & _). destruct HQ as (_ & Q2 & _ & _).
  eapply meq_trans; [apply meq_sym; exact P2|]. eapply meq_trans; [apply mulm_ext; [apply meq_refl|exact H1]|].
  eapply meq_trans; [apply mulm_assoc_meq|]. eapply meq_trans; [apply mulm_ext; [exact H3|apply meq_refl]|].
  eapply meq_trans; [apply meq_sym; apply mulm_assoc_meq|]. exact Q2.
Qed.
Lemma pinv_sym n A P : symmetric n A -> pinv n A P -> symmetric n P.
Proof. intros Hs HP. apply (pinv_unique n A P (tr P) Hs HP). apply pinv_tr; assumption. Qed.
