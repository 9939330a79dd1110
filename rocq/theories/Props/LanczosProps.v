(** Lanczos tridiagonalisation: C64. *)
From Coq Require Import Reals Lra Lia List Arith Bool String ZArith.
From Coq Require Import List.
From Verif.Base Require Import RSum Prelude LinAlg.
From Verif.Spec Require Import Matrix NdArray FilterSpec.
From Verif.Model Require Import Sparse Graph Cache Filter Kernels Approx.
Import ListNotations.
Open Scope R_scope.

Definition colv (V : mat) (j : nat) : vec := fun i => V i j.

Section Lanczos.
  Variables (N order : nat) (A : mat).
  Hypothesis Hsym : symmetric N A.

  Lemma dot_comb x m (c : vec) (V : mat) :
    dot N x (fun i => \sum_(l < m) (c l * V i l)) = \sum_(l < m) (c l * dot N x (colv V l)).
  Proof.
    unfold dot, colv.
    transitivity (\sum_(i < N) \sum_(l < m) (c l * (x i * V i l))).
    - apply rsum_ext. intros i Hi. rewrite <- rsum_scal_l. apply rsum_ext. intros l Hl. ring.
    - rewrite rsum_swap. apply rsum_ext. intros l Hl. rewrite rsum_scal_l. reflexivity.
  Qed.

  Record lan_inv (k : nat) (st : lan_state) : Prop := {
    li_on : forall a b, (a <= k)%nat -> (b <= k)%nat -> dot N (colv (la_V st) a) (colv (la_V st) b) = idm a b;
    li_z : forall i j, (k < j)%nat -> la_V st i j = 0;
    li_q : forall i, la_q st i = la_V st i k;
    li_r : forall a, (a <= k)%nat -> dot N (colv (la_V st) a) (la_r st) = 0;
    li_A : forall j, (j < k)%nat -> exists c : vec, forall i, (i < N)%nat ->
             mulv N A (colv (la_V st) j) i = \sum_(l < S (S j)) (c l * la_V st i l);
    li_Ar : exists c : vec, forall i, (i < N)%nat ->
             mulv N A (colv (la_V st) k) i = la_r st i + \sum_(l < S k) (c l * la_V st i l);
    li_H : forall a b, (a <= k)%nat -> (b <= k)%nat -> la_H st a b = dot N (colv (la_V st) a) (mulv N A (colv (la_V st) b));
    li_Hn : la_H st (S k) k = vnorm N (la_r st);
    li_H0 : forall a b, (k < b)%nat \/ (S b < a)%nat \/ (S a < b)%nat -> la_H st a b = 0 }.

  Lemma dot_ext' x y y' : veq N y y' -> dot N x y = dot N x y'.
  Proof. intros H. apply dot_ext; [intros ? ?; reflexivity|exact H]. Qed.

  Lemma lan_init_inv x : ~ vzero N x -> lan_inv 0 (lan_init N A x).
  Proof.
    intros Hx. pose proof (normsq_pos N x Hx) as Hp.
    assert (Hn : 0 < vnorm N x) by (apply sqrt_lt_R0; exact Hp).
    set (q := fun i => x i / vnorm N x).
    assert (Hq : dot N q q = 1).
    { unfold q, dot. transitivity (/ (vnorm N x * vnorm N x) * normsq N x).
      - unfold normsq, dot. rewrite <- rsum_scal_l. apply rsum_ext. intros i Hi. field. lra.
      - unfold vnorm at 1 2. rewrite sqrt_sqr_nonneg by lra. field. lra. }
    assert (EV : forall i, la_V (lan_init N A x) i 0%nat = q i) by reflexivity.
    assert (EH : forall j, la_V (lan_init N A x) j = (fun b => if Nat.eqb b 0 then q j else 0)) by reflexivity.
    constructor.
    - intros a b Ha Hb. assert (a = 0%nat) by lia. assert (b = 0%nat) by lia. subst. exact Hq.
    - intros i j Hj. cbn [lan_init la_V]. unfold colset. destruct (Nat.eqb_spec j 0); [lia|reflexivity].
    - reflexivity.
    - intros a Ha. assert (a = 0%nat) by lia. subst a.
      change (dot N q (fun i => mulv N A q i - dot N q (mulv N A q) * q i) = 0).
      rewrite dot_minus_r, dot_scal_r, Hq. ring.
    - intros j Hj. lia.
    - exists (fun _ => dot N q (mulv N A q)). intros i Hi. cbn [rsum]. rewrite EV.
      change (mulv N A q i = (mulv N A q i - dot N q (mulv N A q) * q i) + (0 + dot N q (mulv N A q) * q i)). ring.
    - intros a b Ha Hb. assert (a = 0%nat) by lia. assert (b = 0%nat) by lia. subst. reflexivity.
    - reflexivity.
    - intros a b Hab. cbn [lan_init la_H]. unfold mset.
      destruct (Nat.eqb_spec b 0); [|rewrite !andb_false_r; reflexivity].
      destruct (Nat.eqb_spec a 1); [lia|]. destruct (Nat.eqb_spec a 0); [lia|reflexivity].
  Qed.

  Lemma lan_step_inv k st : (S k < order)%nat -> lan_inv k st -> 0 < la_H st (S k) k ->
    lan_inv (S k) (lan_step N order A st (S k)).
  Proof.
    intros Hk I Hpos. set (K := S k) in *.
    pose (rho := la_H st K k). pose (q := fun i => la_r st i / rho). pose (V := colset (la_V st) K q).
    pose (r1 := fun i => mulv N A q i - rho * la_q st i). pose (h := dot N q r1).
    pose (r2 := fun i => r1 i - h * q i).
    pose (r3 := fun i => r2 i - \sum_(j < order) (V i j * dot N (colv V j) r2)).
    pose (H' := mset (mset (mset (la_H st) k K rho) K K h) (S K) K (vnorm N r3)).
    assert (Est : lan_step N order A st K = mklan V H' q r3).
    { unfold lan_step. replace (K - 1)%nat with k by (unfold K; lia).
      assert (E : mset (la_H st) k K (la_H st K k) k K = rho) by (unfold mset; rewrite !Nat.eqb_refl; reflexivity).
      rewrite E. reflexivity. }
    rewrite Est. clear Est. fold rho in Hpos.
    assert (Erho : rho * rho = normsq N (la_r st)).
    { unfold rho, K. rewrite (li_Hn _ _ I). unfold vnorm. apply sqrt_sqr_nonneg. apply normsq_nonneg. }
    assert (VK : forall i, V i K = q i) by (intros i; unfold V, colset; rewrite Nat.eqb_refl; reflexivity).
    assert (Vo : forall i j, j <> K -> V i j = la_V st i j).
    { intros i j Hj. unfold V, colset. destruct (Nat.eqb_spec j K); [contradiction|reflexivity]. }
    assert (CK : veq N (colv V K) q) by (intros i _; apply VK).
    assert (Co : forall j, j <> K -> veq N (colv V j) (colv (la_V st) j)) by (intros j Hj i _; apply Vo; exact Hj).
    assert (Dq : forall y, dot N y q = / rho * dot N y (la_r st)).
    { intros y. rewrite <- dot_scal_r. apply dot_ext'. intros i _. unfold q. unfold Rdiv. ring. }
    assert (Dqq : dot N q q = 1).
    { rewrite Dq, dot_comm, Dq. change (dot N (la_r st) (la_r st)) with (normsq N (la_r st)). rewrite <- Erho. field. lra. }
    assert (DVq : forall a, (a <= k)%nat -> dot N (colv (la_V st) a) q = 0).
    { intros a Ha. rewrite Dq, (li_r _ _ I a Ha). ring. }
    assert (ON : forall a b, (a <= K)%nat -> (b <= K)%nat -> dot N (colv V a) (colv V b) = idm a b).
    { intros a b Ha Hb. destruct (Nat.eq_dec a K) as [->|Na]; destruct (Nat.eq_dec b K) as [->|Nb].
      - rewrite (dot_ext N _ q _ q CK CK), Dqq. unfold idm. rewrite Nat.eqb_refl. reflexivity.
      - rewrite (dot_ext N _ q _ _ CK (Co b Nb)), dot_comm, DVq by lia. unfold idm. destruct (Nat.eqb_spec K b); [lia|reflexivity].
      - rewrite (dot_ext N _ _ _ q (Co a Na) CK), DVq by lia. unfold idm. destruct (Nat.eqb_spec a K); [lia|reflexivity].
      - rewrite (dot_ext N _ _ _ _ (Co a Na) (Co b Nb)). apply (li_on _ _ I); lia. }
    assert (Z : forall i j, (K < j)%nat -> V i j = 0) by (intros i j Hj; rewrite Vo by lia; apply (li_z _ _ I); unfold K in Hj; lia).
    assert (Dz : forall j y, (K < j)%nat -> dot N (colv V j) y = 0).
    { intros j y Hj. unfold dot, colv. apply rsum_0. intros i _. rewrite Z by exact Hj. ring. }
    (* the re-orthogonalisation removes everything along V *)
    assert (R3 : forall a, (a <= K)%nat -> dot N (colv V a) r3 = 0).
    { intros a Ha. unfold r3. rewrite dot_minus_r.
      rewrite (dot_ext' _ (fun i => \sum_(j < order) (V i j * dot N (colv V j) r2)) (fun i => \sum_(j < order) (dot N (colv V j) r2 * V i j))).
      2:{ intros i _. apply rsum_ext. intros j _. ring. }
      rewrite dot_comb. rewrite (rsum_single order _ a).
      - rewrite ON by lia. unfold idm. rewrite Nat.eqb_refl. rewrite Rmult_1_r. apply Rminus_diag_eq. reflexivity.
      - lia.
      - intros j Hj Hja. destruct (le_gt_dec j K) as [Hle|Hgt].
        + rewrite ON by lia. unfold idm. destruct (Nat.eqb_spec a j); [lia|ring].
        + rewrite (Dz j) by lia. ring. }
    (* A on the new column *)
    assert (AR : exists c : vec, forall i, (i < N)%nat -> mulv N A q i = r3 i + \sum_(l < S K) (c l * V i l)).
    { exists (fun l => dot N (colv V l) r2 + (if Nat.eqb l k then rho else 0) + (if Nat.eqb l K then h else 0)).
      intros i Hi.
      assert (E1 : \sum_(l < S K) ((dot N (colv V l) r2 + (if Nat.eqb l k then rho else 0) + (if Nat.eqb l K then h else 0)) * V i l)
              = \sum_(l < S K) (V i l * dot N (colv V l) r2) + rho * V i k + h * V i K).
      { transitivity (\sum_(l < S K) (V i l * dot N (colv V l) r2 + (if Nat.eqb l k then rho * V i l else 0) + (if Nat.eqb l K then h * V i l else 0))).
        - apply rsum_ext. intros l Hl. destruct (Nat.eqb l k), (Nat.eqb l K); ring.
        - rewrite !rsum_plus. rewrite (rsum_single (S K) (fun l => if Nat.eqb l k then rho * V i l else 0) k).
          + rewrite Nat.eqb_refl. rewrite (rsum_single (S K) (fun l => if Nat.eqb l K then h * V i l else 0) K).
            * rewrite Nat.eqb_refl. reflexivity.
            * lia.
            * intros l Hl Hne. destruct (Nat.eqb_spec l K); [contradiction|reflexivity].
          + unfold K. lia.
          + intros l Hl Hne. destruct (Nat.eqb_spec l k); [contradiction|reflexivity]. }
      rewrite E1. rewrite VK, (Vo i k) by (unfold K; lia). rewrite <- (li_q _ _ I i).
      assert (E2 : \sum_(j < order) (V i j * dot N (colv V j) r2) = \sum_(l < S K) (V i l * dot N (colv V l) r2)).
      { replace order with (S K + (order - S K))%nat by lia. rewrite rsum_split.
        rewrite (rsum_0 (order - S K)). { ring. } intros j _. rewrite Z by lia. ring. }
      unfold r3. rewrite E2. unfold r2, r1. ring. }
    assert (Hq : dot N q (la_q st) = 0).
    { rewrite dot_comm. rewrite <- (DVq k (le_n k)). apply dot_ext; [intros i _; apply (li_q _ _ I)|intros ? ?; reflexivity]. }
    assert (Hh : h = dot N q (mulv N A q)).
    { unfold h, r1. rewrite dot_minus_r, dot_scal_r, Hq. ring. }
    (* A on an old column *)
    assert (MV : forall j, j <> K -> forall i, mulv N A (colv V j) i = mulv N A (colv (la_V st) j) i).
    { intros j Hj i. apply mulv_ext; [reflexivity|apply Co; exact Hj]. }
    assert (MK : forall i, mulv N A (colv V K) i = mulv N A q i) by (intros i; apply mulv_ext; [reflexivity|exact CK]).
    assert (AOLD : forall j, (j < K)%nat -> exists c : vec, c (S j) = (if Nat.eqb j k then rho else c (S j)) /\ forall i, (i < N)%nat ->
       mulv N A (colv V j) i = \sum_(l < S (S j)) (c l * V i l)).
    { intros j Hj. destruct (Nat.eq_dec j k) as [->|Hne].
      - destruct (li_Ar _ _ I) as (c & Hc). exists (fun l => if Nat.eqb l K then rho else c l). fold K. rewrite !Nat.eqb_refl. split; [reflexivity|].
        intros i Hi. rewrite MV by lia. rewrite (Hc i Hi). change (S (S k)) with (S K). cbn [rsum]. fold K. rewrite Nat.eqb_refl, VK.
        rewrite Rplus_comm. f_equal.
        + change (\sum_(l < K) (c l * la_V st i l) = \sum_(l < K) ((if Nat.eqb l K then rho else c l) * V i l)).
          apply rsum_ext. intros l Hl. destruct (Nat.eqb_spec l K); [lia|]. rewrite Vo by lia. reflexivity.
        + unfold q. field. lra.
      - destruct (li_A _ _ I j ltac:(unfold K in Hj; lia)) as (c & Hc). exists c.
        split; [destruct (Nat.eqb_spec j k); [contradiction|reflexivity]|].
        intros i Hi. rewrite MV by lia. rewrite (Hc i Hi). apply rsum_ext. intros l Hl. rewrite Vo by (unfold K in *; lia). reflexivity. }
    (* inner products of the new column with A times the old ones *)
    assert (DA : forall j, (j < K)%nat -> dot N q (mulv N A (colv V j)) = if Nat.eqb j k then rho else 0).
    { intros j Hj. destruct (AOLD j Hj) as (c & Hcj & Hc). rewrite (dot_ext' q _ _ Hc), dot_comb.
      cbn [rsum]. rewrite rsum_0.
      2:{ intros l Hl. rewrite (dot_ext N q q _ (colv (la_V st) l)); [|intros ? ?; reflexivity|apply Co; lia].
          rewrite dot_comm, DVq by (unfold K in *; lia). ring. }
      rewrite (dot_ext N q q (colv V j) (colv (la_V st) j)); [|intros ? ?; reflexivity|apply Co; lia].
      rewrite (dot_comm N q (colv (la_V st) j)), DVq by (unfold K in *; lia).
      destruct (Nat.eqb_spec j k) as [->|Hne].
      - rewrite Hcj. fold K. rewrite (dot_ext' q _ _ CK), Dqq. ring.
      - rewrite (dot_ext' q _ _ (Co (S j) ltac:(unfold K; lia))). rewrite dot_comm, DVq by (unfold K in *; lia). ring. }
    assert (DA' : forall j, (j < K)%nat -> dot N (colv V j) (mulv N A q) = if Nat.eqb j k then rho else 0).
    { intros j Hj. rewrite (dot_mulv_sym N A _ _ Hsym), dot_comm. apply DA. exact Hj. }
    constructor; cbn [la_V la_H la_q la_r].
    - exact ON.
    - exact Z.
    - intros i. symmetry. apply VK.
    - exact R3.
    - intros j Hj. destruct (AOLD j Hj) as (c & _ & Hc). exists c. exact Hc.
    - destruct AR as (c & Hc). exists c. intros i Hi. rewrite MK. apply Hc. exact Hi.
    - intros a b Ha Hb. unfold H', mset.
      destruct (Nat.eqb_spec a (S K)); [lia|]. cbn [andb].
      destruct (Nat.eq_dec b K) as [->|Nb].
      + rewrite Nat.eqb_refl, !andb_true_r.
        rewrite (dot_ext' _ _ (mulv N A q)) by (intros i _; apply MK).
        destruct (Nat.eqb_spec a K) as [->|Na].
        * rewrite (dot_ext N _ q _ (mulv N A q) CK); [exact Hh|intros ? ?; reflexivity].
        * rewrite DA' by lia. destruct (Nat.eqb_spec a k); [reflexivity|]. apply (li_H0 _ _ I). left. unfold K; lia.
      + destruct (Nat.eqb_spec b K); [contradiction|]. rewrite !andb_false_r.
        destruct (Nat.eq_dec a K) as [->|Na].
        * rewrite (dot_ext N _ q _ _ CK (fun i _ => eq_refl)). rewrite DA by lia.
          destruct (Nat.eqb_spec b k) as [->|Hbk]; [reflexivity|]. apply (li_H0 _ _ I). right. left. unfold K in *; lia.
        * rewrite (dot_ext N _ _ _ _ (Co a Na) (fun i _ => MV b Nb i)). apply (li_H _ _ I); unfold K in *; lia.
    - unfold H', mset. rewrite !Nat.eqb_refl. reflexivity.
    - intros a b Hab. unfold H', mset.
      destruct (Nat.eqb_spec b K) as [->|Nb].
      + rewrite !andb_true_r. destruct (Nat.eqb_spec a (S K)); [lia|]. destruct (Nat.eqb_spec a K); [lia|].
        destruct (Nat.eqb_spec a k); [unfold K in *; lia|]. apply (li_H0 _ _ I). left. unfold K; lia.
      + rewrite !andb_false_r. apply (li_H0 _ _ I). unfold K in *. lia.
  Qed.

  (** What a result promises, for its number of columns. *)
  Definition lan_good (x : vec) (r : lan_result) : Prop :=
    (1 <= lr_cols r)%nat /\ (lr_cols r <= order)%nat /\ lr_hcols r = lr_cols r /\
    orthonormal_cols N (lr_cols r) (lr_V r) /\
    (forall i, (i < N)%nat -> lr_V r i 0%nat = x i / vnorm N x) /\
    (forall a b, (a < lr_cols r)%nat -> (b < lr_cols r)%nat ->
       lr_H r a b = dot N (colv (lr_V r) a) (mulv N A (colv (lr_V r) b))) /\
    (forall a b, (a < lr_cols r)%nat -> (b < lr_cols r)%nat -> (S b < a)%nat \/ (S a < b)%nat -> lr_H r a b = 0) /\
    (forall j i, (S j < lr_cols r)%nat -> (i < N)%nat ->
       mulv N A (colv (lr_V r) j) i = \sum_(l < lr_cols r) (lr_V r i l * lr_H r l j)) /\
    (lr_cols r = order -> lr_hrows r = order) /\
    ((lr_cols r < order)%nat -> lr_hrows r = (lr_cols r - 1)%nat /\
       vnorm N (fun i => mulv N A (colv (lr_V r) (lr_cols r - 1)) i
                         - \sum_(l < lr_cols r) (lr_V r i l * dot N (colv (lr_V r) l) (mulv N A (colv (lr_V r) (lr_cols r - 1))))) <= / 2 ^ 52).

  Lemma inv_good x k st r : lan_inv k st -> (forall i, (i < N)%nat -> la_V st i 0%nat = x i / vnorm N x) -> (k < order)%nat ->
    lr_V r = la_V st -> lr_H r = la_H st -> lr_cols r = S k -> lr_hcols r = S k ->
    (S k = order -> lr_hrows r = order) -> ((S k < order)%nat -> lr_hrows r = k /\ vnorm N (la_r st) <= spacing1) ->
    lan_good x r.
  Proof.
    intros I HV Hk EV EH Ec Ehc Hr1 Hr2. unfold lan_good. rewrite EV, EH, Ec.
    assert (ON : forall a b, (a <= k)%nat -> (b <= k)%nat -> dot N (colv (la_V st) a) (colv (la_V st) b) = idm a b) by apply (li_on _ _ I).
    split; [lia|]. split; [lia|]. split; [lia|]. split.
    { intros a b Ha Hb. apply ON; lia. }
    split; [exact HV|]. split; [intros; apply (li_H _ _ I); lia|]. split; [intros a b Ha Hb Hab; apply (li_H0 _ _ I); lia|].
    split; [|split; [exact Hr1|]].
    - intros j i Hj Hi. destruct (li_A _ _ I j ltac:(lia)) as (c & Hc).
      assert (Hcl : forall l, (l <= k)%nat -> (if Nat.ltb l (S (S j)) then c l else 0) = la_H st l j).
      { intros l Hl. rewrite (li_H _ _ I) by lia. rewrite (dot_ext' _ _ _ Hc), dot_comb.
        destruct (Nat.ltb_spec l (S (S j))) as [Hlt|Hge].
        - rewrite (rsum_single (S (S j)) _ l Hlt).
          + rewrite ON by lia. unfold idm. rewrite Nat.eqb_refl. ring.
          + intros l' Hl' Hne. rewrite ON by lia. unfold idm. destruct (Nat.eqb_spec l l'); [lia|ring].
        - symmetry. apply rsum_0. intros l' Hl'. rewrite ON by lia. unfold idm. destruct (Nat.eqb_spec l l'); [lia|ring]. }
      rewrite (Hc i Hi). replace (S k) with (S (S j) + (k - S j))%nat by lia. rewrite rsum_split.
      rewrite (rsum_0 (k - S j)).
      + rewrite Rplus_0_r. apply rsum_ext. intros l Hl. rewrite <- Hcl by lia. destruct (Nat.ltb_spec l (S (S j))); [ring|lia].
      + intros l Hl. rewrite <- Hcl by lia. destruct (Nat.ltb_spec (S (S j) + l) (S (S j))); [lia|ring].
    - intros Hlt. destruct (Hr2 Hlt) as (Hh & Hs). split; [lia|]. replace (S k - 1)%nat with k by lia.
      eapply Rle_trans; [right|exact Hs]. unfold vnorm. f_equal. destruct (li_Ar _ _ I) as (c & Hc).
      assert (Hcl : forall l, (l <= k)%nat -> dot N (colv (la_V st) l) (mulv N A (colv (la_V st) k)) = c l).
      { intros l Hl. rewrite (dot_ext' _ _ _ Hc), dot_plus_r, dot_comb, (li_r _ _ I) by exact Hl.
        rewrite (rsum_single (S k) _ l ltac:(lia)).
        - rewrite ON by lia. unfold idm. rewrite Nat.eqb_refl. ring.
        - intros l' Hl' Hne. rewrite ON by lia. unfold idm. destruct (Nat.eqb_spec l l'); [lia|ring]. }
      unfold normsq. apply dot_ext; intros i Hi; rewrite (Hc i Hi);
        rewrite (rsum_ext (S k) (fun l => la_V st i l * _) (fun l => c l * la_V st i l)); try ring;
        intros l Hl; rewrite Hcl by lia; ring.
  Qed.

  Lemma lan_loop_good x m k st : lan_inv k st -> (forall i, (i < N)%nat -> la_V st i 0%nat = x i / vnorm N x) ->
    (S k + m = order)%nat -> lan_good x (lan_loop N order A (seq (S k) m) st).
  Proof.
    revert k st. induction m as [|m IH]; intros k st I HV Hm; cbn [seq lan_loop].
    - apply (inv_good x k st); cbn [lr_V lr_H lr_cols lr_hcols lr_hrows]; try reflexivity; try lia; assumption.
    - replace (S k - 1)%nat with k by lia.
      destruct (Rleb_spec (Rabs (la_H st (S k) k)) spacing1) as [Hle|Hgt].
      + apply (inv_good x k st); cbn [lr_V lr_H lr_cols lr_hcols lr_hrows]; try reflexivity; try lia; try assumption.
        intros _. split; [reflexivity|]. rewrite <- (li_Hn _ _ I). eapply Rle_trans; [apply Rle_abs|exact Hle].
      + apply IH; [|  |lia].
        * apply lan_step_inv; [lia|exact I|]. rewrite (li_Hn _ _ I) in *.
          assert (0 < spacing1) by (unfold spacing1; apply Rinv_0_lt_compat; apply pow_lt; lra).
          rewrite Rabs_right in Hgt by (apply Rle_ge; apply sqrt_pos). lra.
        * intros i Hi. cbn [lan_step la_V]. unfold colset. destruct (Nat.eqb_spec 0 (S k)); [lia|]. apply HV. exact Hi.
  Qed.
End Lanczos.

(** C64: for a symmetric matrix and a nonzero start vector, the vectors lanczos returns are orthonormal
    and begin with x/|x|; H is the tridiagonal matrix V^T A V, and A V = V H on every column but the last.
    When the iteration is not cut short H is order x order.  When it is, the discarded residual is at most
    2^-52 in norm, but H is returned with one row too few. *)
Theorem C64_lanczos N A order x : symmetric N A -> ~ vzero N x -> (1 <= order)%nat ->
  lan_good N order A x (lanczos N A order x).
Proof.
  intros Hs Hx Ho. unfold lanczos. apply (lan_loop_good N order A Hs); [apply lan_init_inv; exact Hx|reflexivity|lia].
Qed.

(** At most N orthonormal vectors exist in dimension N (Bessel's inequality at the unit vectors). *)
Lemma orthonormal_count N m V : orthonormal_cols N m V -> (m <= N)%nat.
Proof.
  intros H. apply INR_le.
  assert (B : forall i, (i < N)%nat -> \sum_(k < m) (V i k * V i k) <= 1).
  { intros i Hi. set (e := fun a => if Nat.eqb a i then 1 else 0). set (p := fun a => \sum_(k < m) (V i k * V a k)).
    assert (E1 : dot N e e = 1).
    { unfold dot, e. rewrite (rsum_single N _ i Hi). { rewrite Nat.eqb_refl. ring. } intros j Hj Hne. destruct (Nat.eqb_spec j i); [contradiction|ring]. }
    assert (E2 : forall y, dot N e y = y i).
    { intros y. unfold dot, e. rewrite (rsum_single N _ i Hi). { rewrite Nat.eqb_refl. ring. } intros j Hj Hne. destruct (Nat.eqb_spec j i); [contradiction|ring]. }
    assert (E3 : dot N p p = \sum_(k < m) (V i k * V i k)).
    { unfold p at 2. rewrite (dot_comb N p m (fun k => V i k) V). apply rsum_ext. intros k Hk. f_equal.
      rewrite dot_comm. unfold p. rewrite (dot_comb N (colv V k) m (fun k => V i k) V).
      rewrite (rsum_single m _ k Hk).
      - change (dot N (colv V k) (colv V k)) with (\sum_(a < N) (V a k * V a k)). rewrite (H k k Hk Hk), Nat.eqb_refl. ring.
      - intros l Hl Hne. change (dot N (colv V k) (colv V l)) with (\sum_(a < N) (V a k * V a l)). rewrite (H k l Hk Hl).
        destruct (Nat.eqb_spec k l); [lia|ring]. }
    pose proof (normsq_nonneg N (fun a => e a - p a)) as P. unfold normsq in P.
    rewrite dot_minus_r, !dot_minus_l, E1, (dot_comm N p e), E2, E3 in P. unfold p in P.
    change (p i) with (\sum_(k < m) (V i k * V i k)) in P. lra. }
  replace (INR m) with (\sum_(k < m) \sum_(i < N) (V i k * V i k)).
  - rewrite rsum_swap. rewrite <- (Rmult_1_r (INR N)), <- rsum_const. apply rsum_le. exact B.
  - rewrite <- (Rmult_1_r (INR m)), <- rsum_const. apply rsum_ext. intros k Hk. rewrite (H k k Hk Hk), Nat.eqb_refl. reflexivity.
Qed.

(** C64: asking for more than N vectors always ends in a breakdown: at most N columns come back
    and H is not square. *)
Theorem C64_lanczos_breakdown N A order x : symmetric N A -> ~ vzero N x -> (N < order)%nat ->
  let r := lanczos N A order x in
  (lr_cols r <= N)%nat /\ lr_hrows r = (lr_cols r - 1)%nat /\ lr_hcols r = lr_cols r /\ lr_hrows r <> lr_hcols r.
Proof.
  intros Hs Hx Ho r. destruct (C64_lanczos N A order x Hs Hx ltac:(lia)) as (H1 & H2 & H3 & H4 & _ & _ & _ & _ & _ & Hb).
  fold r in H1, H2, H3, H4, Hb. pose proof (orthonormal_count N _ _ H4) as Hc.
  destruct (Hb ltac:(lia)) as (Hh & _). split; [exact Hc|]. split; [exact Hh|]. split; [exact H3|]. lia.
Qed.

(** The path with two vertices (Laplacian [[1,-1],[-1,1]]) and the start vector (1,0): two steps, no breakdown. *)
Example C64_ex : let A := fun i j => if Nat.eqb i j then 1 else -1 in
  let r := lanczos 2 A 2 (fun i => if Nat.eqb i 0 then 1 else 0) in
  symmetric 2 A /\ ~ vzero 2 (fun i => if Nat.eqb i 0 then 1 else 0) /\ lr_cols r = 2%nat /\ lr_hrows r = 2%nat.
Proof.
  cbn zeta.
  assert (Hs : symmetric 2 (fun i j => if Nat.eqb i j then 1 else -1)).
  { intros i j Hi Hj. unfold tr. rewrite Nat.eqb_sym. reflexivity. }
  assert (Hx : ~ vzero 2 (fun i => if Nat.eqb i 0 then 1 else 0)) by (intros H; specialize (H 0%nat ltac:(lia)); cbn in H; lra).
  split; [exact Hs|]. split; [exact Hx|].
  set (x := fun i => if Nat.eqb i 0 then 1 else 0) in *. set (A := fun i j => if Nat.eqb i j then 1 else -1) in *.
  assert (Hn : vnorm 2 x = 1) by (unfold vnorm, normsq, dot, x; cbn; replace (0 + 1 * 1 + 0 * 0) with 1 by ring; apply sqrt_1).
  unfold lanczos. cbn [Nat.sub seq lan_loop].
  assert (Hr : la_H (lan_init 2 A x) 1%nat 0%nat = 1).
  { cbn [lan_init la_H]. unfold mset. cbn [Nat.eqb andb]. rewrite Hn. unfold vnorm, normsq, dot, mulv, x, A. cbn.
    match goal with |- sqrt ?e = 1 => replace e with 1 by field end. apply sqrt_1. }
  rewrite Hr. destruct (Rleb_spec (Rabs 1) spacing1) as [H|H].
  - exfalso. rewrite Rabs_R1 in H. unfold spacing1 in H. assert (/ 2 ^ 52 < 1); [|lra].
    rewrite <- Rinv_1. apply Rinv_lt_contravar; [rewrite Rmult_1_l; apply pow_lt; lra|]. apply Rlt_pow_R1; [lra|lia].
  - split; reflexivity.
Qed.
