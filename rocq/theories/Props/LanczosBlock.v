(** Property C64, continued: lanczos with several start vectors (a two-dimensional x). *)
From Coq Require Import Reals Lra Lia List Arith Bool String ZArith.
From Coq Require Import List.
From Verif.Base Require Import RSum Prelude LinAlg.
From Verif.Spec Require Import Matrix NdArray FilterSpec.
From Verif.Model Require Import Sparse Graph Cache Filter Kernels Approx.
From Verif.Props Require Import LanczosProps.
Import ListNotations.
Open Scope R_scope.

Section Block.
  Variables (N order M : nat) (A : mat) (own : nat -> nat).
  Hypothesis Hblock : forall i j, (i < N)%nat -> (j < N)%nat -> own i <> own j -> A i j = 0.

  Definition agree (s t : lan_state) : Prop :=
    (forall i k, (i < N)%nat -> la_V s i k = la_V t i k) /\ (forall i, (i < N)%nat -> la_q s i = la_q t i) /\
    (forall i, (i < N)%nat -> la_r s i = la_r t i) /\ (forall a b, la_H s a b = la_H t a b).
  Definition supp (j : nat) (t : lan_state) : Prop :=
    forall i, (i < N)%nat -> own i <> j -> la_q t i = 0 /\ la_r t i = 0 /\ forall k, la_V t i k = 0.

  Lemma mset_same H a b v : mset H a b v a b = v.
  Proof. unfold mset. rewrite !Nat.eqb_refl. reflexivity. Qed.

  Lemma mulv_supp j (q : vec) : (forall i, (i < N)%nat -> own i <> j -> q i = 0) -> forall i, (i < N)%nat -> own i <> j -> mulv N A q i = 0.
  Proof.
    intros Hq i Hi Hne. unfold mulv. apply rsum_0. intros a Ha. destruct (Nat.eq_dec (own a) j) as [E|E].
    - rewrite (Hblock i a Hi Ha) by congruence. ring.
    - rewrite (Hq a Ha E). ring.
  Qed.

  Lemma init_supp j x : (forall i, (i < N)%nat -> x i <> 0 -> own i = j) -> supp j (lan_init N A x).
  Proof.
    intros Hx. set (q := fun i => x i / vnorm N x).
    assert (Hq : forall i, (i < N)%nat -> own i <> j -> q i = 0).
    { intros i Hi Hne. unfold q. destruct (Req_dec (x i) 0) as [->|E]; [unfold Rdiv; ring|exfalso; apply Hne, Hx; assumption]. }
    intros i Hi Hne. cbn [lan_init la_q la_r la_V]. fold q. split; [apply Hq; assumption|]. split.
    - rewrite (mulv_supp j q Hq i Hi Hne). fold (q i). rewrite (Hq i Hi Hne). ring.
    - intros k. unfold colset. destruct (Nat.eqb k 0); [apply Hq; assumption|reflexivity].
  Qed.

  (** One step of each alone, and of all together. *)
  Lemma step_supp j t k : supp j t -> supp j (lan_step N order A t k).
  Proof.
    intros Ht. set (h1 := mset (la_H t) (k - 1) k (la_H t k (k - 1)%nat) (k - 1)%nat k). set (q := fun i => la_r t i / h1).
    assert (Hq : forall i, (i < N)%nat -> own i <> j -> q i = 0) by (intros i Hi Hne; unfold q; rewrite (proj1 (proj2 (Ht i Hi Hne))); unfold Rdiv; ring).
    intros i Hi Hne. destruct (Ht i Hi Hne) as (Zq & Zr & ZV). cbn [lan_step la_q la_r la_V]. fold h1. fold q. split; [apply Hq; assumption|].
    assert (ZV' : forall l, colset (la_V t) k q i l = 0) by (intros l; unfold colset; destruct (Nat.eqb l k); [apply Hq; assumption|apply ZV]).
    split; [|exact ZV']. rewrite (rsum_0 order) by (intros l Hl; rewrite ZV'; ring).
    rewrite (mulv_supp j q Hq i Hi Hne), Zq. fold (q i). rewrite (Hq i Hi Hne). ring.
  Qed.

  Lemma step_agree (s t : nat -> lan_state) k : (forall b, (b < M)%nat -> agree (s b) (t b) /\ supp b (t b)) ->
    forall j, (j < M)%nat -> agree (bl_step N order M A s k j) (lan_step N order A (t j) k).
  Proof.
    intros Hst j Hj. destruct (Hst j Hj) as ((EV & Eq & Er & EH) & Hs).
    set (h1 := la_H (t j) k (k - 1)%nat). set (q := fun i => la_r (t j) i / h1). set (h1' := la_H (s j) k (k - 1)%nat). set (q' := fun i => la_r (s j) i / h1').
    assert (Eh1 : h1' = h1) by apply EH.
    assert (Eqq : forall i, (i < N)%nat -> q' i = q i) by (intros i Hi; unfold q', q; rewrite Er, Eh1 by exact Hi; reflexivity).
    set (V := colset (la_V (t j)) k q).
    set (W := fun b => colset (la_V (s b)) k (fun i => la_r (s b) i / la_H (s b) k (k - 1)%nat)).
    assert (EW : forall i l, (i < N)%nat -> W j i l = V i l).
    { intros i l Hi. unfold W, V, colset. destruct (Nat.eqb l k); [apply Eqq; exact Hi|apply EV; exact Hi]. }
    assert (SW : forall b i l, (b < M)%nat -> (i < N)%nat -> own i <> b -> W b i l = 0).
    { intros b i l Hb Hi Hne. destruct (Hst b Hb) as ((EVb & _ & Erb & _) & Hsb). destruct (Hsb i Hi Hne) as (_ & Z & ZV).
      unfold W, colset. destruct (Nat.eqb l k); [rewrite Erb, Z by exact Hi; unfold Rdiv; ring|rewrite EVb by exact Hi; apply ZV]. }
    assert (Hq : forall i, (i < N)%nat -> own i <> j -> q i = 0) by (intros i Hi Hne; unfold q; rewrite (proj1 (proj2 (Hs i Hi Hne))); unfold Rdiv; ring).
    set (r1 := fun i => mulv N A q i - h1 * la_q (t j) i). set (h := \sum_(i < N) (q i * r1 i)). set (r2 := fun i => r1 i - h * q i).
    set (r3 := fun i => r2 i - \sum_(l < order) (V i l * \sum_(a < N) (V a l * r2 a))).
    assert (Et : lan_step N order A (t j) k = mklan V (mset (mset (mset (la_H (t j)) (k - 1) k h1) k k h) (S k) k (vnorm N r3)) q r3).
    { unfold lan_step. rewrite mset_same. reflexivity. }
    set (r1' := fun i => mulv N A q' i - h1' * la_q (s j) i). set (h' := \sum_(i < N) (q' i * r1' i)). set (r2' := fun i => r1' i - h' * q' i).
    set (r3' := fun i => r2' i - \sum_(b < M) \sum_(l < order) (W b i l * \sum_(a < N) (W b a l * r2' a))).
    assert (Es : bl_step N order M A s k j = mklan (W j) (mset (mset (mset (la_H (s j)) (k - 1) k h1') k k h') (S k) k (vnorm N r3')) q' r3').
    { unfold bl_step. rewrite mset_same. reflexivity. }
    rewrite Es, Et. clear Es Et.
    assert (E1 : forall i, (i < N)%nat -> r1' i = r1 i).
    { intros i Hi. unfold r1', r1. rewrite Eq, Eh1 by exact Hi. f_equal. apply mulv_ext; [reflexivity|exact Eqq]. }
    assert (Eh : h' = h) by (apply rsum_ext; intros i Hi; rewrite Eqq, E1 by exact Hi; reflexivity).
    assert (E2 : forall i, (i < N)%nat -> r2' i = r2 i) by (intros i Hi; unfold r2', r2; rewrite E1, Eh, Eqq by exact Hi; reflexivity).
    assert (S2 : forall i, (i < N)%nat -> own i <> j -> r2 i = 0).
    { intros i Hi Hne. unfold r2, r1. rewrite (mulv_supp j q Hq i Hi Hne), (proj1 (Hs i Hi Hne)), (Hq i Hi Hne). ring. }
    assert (E3 : forall i, (i < N)%nat -> r3' i = r3 i).
    { intros i Hi. unfold r3', r3. rewrite E2 by exact Hi. f_equal. rewrite (rsum_single M _ j Hj).
      - apply rsum_ext. intros l Hl. rewrite EW by exact Hi. f_equal. apply rsum_ext. intros a Ha. rewrite EW, E2 by exact Ha. reflexivity.
      - intros b Hb Hne. apply rsum_0. intros l Hl. rewrite (rsum_0 N); [ring|]. intros a Ha. rewrite E2 by exact Ha.
        destruct (Nat.eq_dec (own a) j) as [E|E]; [rewrite (SW b a l Hb Ha) by congruence; ring|rewrite (S2 a Ha E); ring]. }
    split; [|split; [|split]]; cbn [la_V la_q la_r la_H].
    - intros i l Hi. apply EW. exact Hi.
    - exact Eqq.
    - exact E3.
    - intros a b. rewrite Eh, Eh1. replace (vnorm N r3') with (vnorm N r3) by (unfold vnorm, normsq, dot; f_equal; apply rsum_ext; intros i Hi; rewrite E3 by exact Hi; reflexivity).
      unfold mset. destruct (_ && _)%bool; [reflexivity|]. destruct (_ && _)%bool; [reflexivity|]. destruct (_ && _)%bool; [reflexivity|apply EH].
  Qed.

  Lemma spacing1_pos : 0 < spacing1.
  Proof. unfold spacing1. apply Rinv_0_lt_compat, pow_lt. lra. Qed.

  Lemma div_start j k : (j < M)%nat -> (k < order)%nat -> Nat.div (j * order + k) order = j /\ Nat.modulo (j * order + k) order = k.
  Proof.
    intros Hj Hk. assert (order <> 0)%nat by lia. rewrite Nat.add_comm. split.
    - rewrite Nat.div_add by assumption. rewrite Nat.div_small by assumption. reflexivity.
    - rewrite Nat.mod_add by assumption. apply Nat.mod_small. assumption.
  Qed.

  (** As long as none of them breaks down on its own. *)
  Lemma loop_agree : (0 < M)%nat -> forall m k s t, (k + m = order)%nat -> (forall b, (b < M)%nat -> agree (s b) (t b) /\ supp b (t b)) ->
    (forall b, (b < M)%nat -> lr_cols (lan_loop N order A (seq k m) (t b)) = order) ->
    exists r, bl_loop N order M A (seq k m) s = Some r /\ lr_cols r = (M * order)%nat /\ lr_hrows r = order /\ lr_hcols r = order /\
      (forall b i c, (b < M)%nat -> (i < N)%nat -> (c < order)%nat -> lr_V r i (b * order + c)%nat = lr_V (lan_loop N order A (seq k m) (t b)) i c) /\
      (forall a c, (c < order)%nat -> lr_H r a c = lr_H (lan_loop N order A (seq k m) (t 0%nat)) a c).
  Proof.
    intros HM. induction m as [|m IH]; intros k s t Hk Hst Hc.
    - cbn [seq bl_loop lan_loop]. eexists. split; [reflexivity|]. cbn [lr_cols lr_hrows lr_hcols lr_V lr_H]. split; [reflexivity|]. split; [reflexivity|]. split; [reflexivity|].
      split.
      + intros b i c Hb Hi Hc'. unfold by_start. destruct (div_start b c Hb Hc') as (-> & ->). apply (proj1 (proj1 (Hst b Hb))). exact Hi.
      + intros a c Hc'. unfold by_start. destruct (div_start 0 c HM Hc') as (Q1 & Q2). cbn in Q1, Q2. rewrite Q1, Q2. apply (proj1 (Hst 0%nat HM)).
    - cbn [seq bl_loop lan_loop] in *.
      assert (Hnb : forall b, (b < M)%nat -> spacing1 < Rabs (la_H (t b) k (k - 1)%nat)).
      { intros b Hb. specialize (Hc b Hb). destruct (Rleb_spec (Rabs (la_H (t b) k (k - 1)%nat)) spacing1) as [H|H]; [cbn [lr_cols] in Hc; lia|lra]. }
      assert (Et : forall b, (b < M)%nat -> lan_loop N order A (k :: seq (S k) m) (t b) = lan_loop N order A (seq (S k) m) (lan_step N order A (t b) k)).
      { intros b Hb. cbn [lan_loop]. specialize (Hnb b Hb). destruct (Rleb_spec (Rabs (la_H (t b) k (k - 1)%nat)) spacing1) as [H|H]; [lra|reflexivity]. }
      destruct (IH (S k) (bl_step N order M A s k) (fun b => lan_step N order A (t b) k) ltac:(lia)) as (r & E & R).
      + intros b Hb. split; [apply step_agree; assumption|apply step_supp, Hst; exact Hb].
      + intros b Hb. rewrite <- (Et b Hb). cbn [lan_loop]. apply Hc. exact Hb.
      + exists r. split.
        * pose proof spacing1_pos as Hsp. destruct (Rleb_spec (\sum_(j < M) Rabs (la_H (s j) k (k - 1)%nat)) spacing1) as [H|H].
          { exfalso. pose proof (rsum_ge_term M (fun j => Rabs (la_H (s j) k (k - 1)%nat)) 0 ltac:(intros; apply Rabs_pos) HM) as Q.
            cbn beta in Q. rewrite (proj2 (proj2 (proj2 (proj1 (Hst 0%nat HM))))) in Q. specialize (Hnb 0%nat HM). lra. }
          replace (forallb (fun j => negb (Reqb (la_H (s j) k (k - 1)%nat) 0)) (seq 0 M)) with true; [exact E|].
          symmetry. apply forallb_forall. intros j Hj. apply in_seq in Hj. apply negb_true_iff.
          destruct (Reqb_spec (la_H (s j) k (k - 1)%nat) 0) as [Z|Z]; [|reflexivity]. exfalso.
          specialize (Hnb j ltac:(lia)). rewrite (proj2 (proj2 (proj2 (proj1 (Hst j ltac:(lia)))))) in Z. rewrite Z, Rabs_R0 in Hnb. lra.
        * destruct R as (R1 & R2 & R3 & R4 & R5). split; [exact R1|]. split; [exact R2|]. split; [exact R3|]. split.
          { intros b i c Hb Hi Hc'. change (lr_V r i (b * order + c)%nat = lr_V (lan_loop N order A (k :: seq (S k) m) (t b)) i c). rewrite (Et b Hb). apply R4; assumption. }
          { intros a c Hc'. change (lr_H r a c = lr_H (lan_loop N order A (k :: seq (S k) m) (t 0%nat)) a c). rewrite (Et 0%nat HM). apply R5; assumption. }
  Qed.
End Block.

Lemma nonzero_columns N M (x : mat) : (forall j, (j < M)%nat -> ~ vzero N (fun i => x i j)) ->
  forallb (fun j => negb (Reqb (normsq N (fun i => x i j)) 0)) (seq 0 M) = true.
Proof.
  intros H. apply forallb_forall. intros j Hj. apply in_seq in Hj. apply negb_true_iff. pose proof (normsq_pos N _ (H j ltac:(lia))) as P.
  destruct (Reqb_spec (normsq N (fun i => x i j)) 0); [lra|reflexivity].
Qed.

(** Start vectors that live on parts of the graph that are not connected to each other (vertex i belongs to start vector own(i)),
    none of which breaks down by itself: the columns of V are those of each start vector alone, one block of [order] columns after the
    other.  H however is that of the first start vector only: the others are dropped. *)
Theorem C64_separate_start_vectors :
  forall N A order M x own, (1 <= order)%nat -> (1 <= M)%nat ->
    (forall i j, (i < N)%nat -> (j < N)%nat -> own i <> own j -> A i j = 0) ->
    (forall j i, (j < M)%nat -> (i < N)%nat -> x i j <> 0 -> own i = j) ->
    (forall j, (j < M)%nat -> ~ vzero N (fun i => x i j) /\ lr_cols (lanczos N A order (fun i => x i j)) = order) ->
    exists r, lanczos_block N A order M x = Some r /\ lr_cols r = (M * order)%nat /\ lr_hrows r = order /\ lr_hcols r = order /\
      (forall j i k, (j < M)%nat -> (i < N)%nat -> (k < order)%nat ->
         lr_V r i (j * order + k)%nat = lr_V (lanczos N A order (fun i => x i j)) i k) /\
      (forall a k, (a < order)%nat -> (k < order)%nat -> lr_H r a k = lr_H (lanczos N A order (fun i => x i 0%nat)) a k).
Proof.
  intros N A order M x own Ho HM Hb Hx Hc. unfold lanczos_block. rewrite nonzero_columns by (intros j Hj; apply (proj1 (Hc j Hj))).
  destruct (loop_agree N order M A own Hb ltac:(lia) (order - 1) 1 (fun j => lan_init N A (fun i => x i j)) (fun j => lan_init N A (fun i => x i j)) ltac:(lia)) as (r & E & R1 & R2 & R3 & R4 & R5).
  - intros b Hb'. split; [repeat split; reflexivity|]. apply (init_supp N A own Hb). intros i Hi. apply Hx; assumption.
  - intros b Hb'. apply (proj2 (Hc b Hb')).
  - exists r. split; [exact E|]. split; [exact R1|]. split; [exact R2|]. split; [exact R3|]. split; [exact R4|]. intros a k _ Hk. apply R5. exact Hk.
Qed.

(** One column is the same as a one-dimensional x, with or without breakdown. *)
Theorem C64_one_column :
  forall N A order x, (1 <= order)%nat -> ~ vzero N x ->
    let l := lanczos N A order x in
    exists r, lanczos_block N A order 1 (fun i _ => x i) = Some r /\ lr_cols r = lr_cols l /\ lr_hrows r = lr_hrows l /\ lr_hcols r = lr_hcols l /\
      (forall i k, (i < N)%nat -> (k < lr_cols l)%nat -> lr_V r i k = lr_V l i k) /\
      (forall a k, (a < lr_hrows l)%nat -> (k < lr_hcols l)%nat -> lr_H r a k = lr_H l a k).
Proof.
  intros N A order x Ho Hx l. unfold lanczos_block. rewrite nonzero_columns by (intros; exact Hx). subst l. unfold lanczos.
  set (own := fun _ : nat => 0%nat).
  assert (Hb : forall i j, (i < N)%nat -> (j < N)%nat -> own i <> own j -> A i j = 0) by (intros i j _ _ H; exfalso; apply H; reflexivity).
  assert (G : forall m k s t, (1 <= k)%nat -> (k + m = order)%nat -> (forall b, (b < 1)%nat -> agree N (s b) (t b) /\ supp N own b (t b)) ->
    exists r, bl_loop N order 1 A (seq k m) s = Some r /\ lr_cols r = lr_cols (lan_loop N order A (seq k m) (t 0%nat)) /\
      lr_hrows r = lr_hrows (lan_loop N order A (seq k m) (t 0%nat)) /\ lr_hcols r = lr_hcols (lan_loop N order A (seq k m) (t 0%nat)) /\
      (forall i c, (i < N)%nat -> (c < lr_cols (lan_loop N order A (seq k m) (t 0%nat)))%nat -> lr_V r i c = lr_V (lan_loop N order A (seq k m) (t 0%nat)) i c) /\
      (forall a c, (a < lr_hrows (lan_loop N order A (seq k m) (t 0%nat)))%nat -> (c < lr_hcols (lan_loop N order A (seq k m) (t 0%nat)))%nat -> lr_H r a c = lr_H (lan_loop N order A (seq k m) (t 0%nat)) a c)).
  { induction m as [|m IH]; intros k s t Hk1 Hk Hst; destruct (Hst 0%nat ltac:(lia)) as ((EV & _ & _ & EH) & _).
    - cbn [seq bl_loop lan_loop]. eexists. split; [reflexivity|]. cbn [lr_cols lr_hrows lr_hcols lr_V lr_H]. split; [lia|]. split; [reflexivity|]. split; [reflexivity|].
      unfold by_start. split; intros a c Ha Hc; rewrite Nat.div_small, Nat.mod_small by exact Hc; auto.
    - cbn [seq bl_loop lan_loop]. cbn [rsum]. rewrite Rplus_0_l, EH.
      destruct (Rleb_spec (Rabs (la_H (t 0%nat) k (k - 1)%nat)) spacing1) as [H|H].
      + eexists. split; [reflexivity|]. cbn [lr_cols lr_hrows lr_hcols lr_V lr_H]. split; [lia|]. split; [reflexivity|]. split; [lia|].
        unfold by_step. split; intros a c Ha Hc; rewrite Nat.mod_1_r, Nat.div_1_r; auto.
      + cbn [seq forallb]. rewrite EH. destruct (Reqb_spec (la_H (t 0%nat) k (k - 1)%nat) 0) as [Z|Z].
        { exfalso. rewrite Z, Rabs_R0 in H. pose proof spacing1_pos. lra. }
        cbn [negb andb]. apply (IH (S k) (bl_step N order 1 A s k) (fun b => lan_step N order A (t b) k) ltac:(lia) ltac:(lia)).
        intros b Hb'. split; [apply (step_agree N order 1 A own Hb); assumption|]. apply (step_supp N order A own Hb), Hst. exact Hb'. }
  apply (G (order - 1)%nat 1%nat _ (fun _ => lan_init N A x) ltac:(lia) ltac:(lia)).
  intros b Hb'. split; [repeat split; reflexivity|]. intros i Hi Hne. unfold own in Hne. lia.
Qed.

(** ** Several start vectors in the same component *)

(** The combinatorial Laplacian of Path(3), and the two impulses at its ends. *)
Definition path3 : mat := fun i j => if Nat.eqb i j then (if Nat.eqb i 1 then 2 else 1) else if (Nat.eqb i 1 || Nat.eqb j 1)%bool then -1 else 0.
Definition ends3 : mat := fun i j => if Nat.eqb i (2 * j) then 1 else 0.

Lemma sqrt_is x y : 0 <= y -> x = y * y -> sqrt x = y.
Proof. intros Hy ->. apply sqrt_square. exact Hy. Qed.

Ltac three i Hi := destruct i as [|[|[|i]]]; [| | |exfalso; lia].

Lemma ends_init j : (j < 2)%nat -> let t := lan_init 3 path3 (fun i => ends3 i j) in
  (forall i, (i < 3)%nat -> la_q t i = ends3 i j) /\ (forall i, (i < 3)%nat -> la_r t i = if Nat.eqb i 1 then -1 else 0) /\
  (forall i k, (i < 3)%nat -> la_V t i k = if Nat.eqb k 0 then ends3 i j else 0) /\ la_H t 1%nat 0%nat = 1.
Proof.
  intros Hj t. assert (Hn : vnorm 3 (fun i => ends3 i j) = 1).
  { apply sqrt_is; [lra|]. unfold normsq, dot, ends3. destruct j as [|[|j]]; [| |lia]; cbn; ring. }
  assert (Hq : forall i, (i < 3)%nat -> la_q t i = ends3 i j) by (intros i Hi; unfold t; cbn [lan_init la_q]; rewrite Hn; field).
  assert (Hr : forall i, (i < 3)%nat -> la_r t i = if Nat.eqb i 1 then -1 else 0).
  { intros i Hi. unfold t. cbn [lan_init la_r]. rewrite Hn. unfold mulv, path3, ends3. destruct j as [|[|j]]; [| |lia]; three i Hi; cbn; field. }
  split; [exact Hq|]. split; [exact Hr|]. split.
  - intros i k Hi. unfold t. cbn [lan_init la_V]. unfold colset. destruct (Nat.eqb k 0); [rewrite Hn; field|reflexivity].
  - change (vnorm 3 (la_r t) = 1). apply sqrt_is; [lra|]. unfold normsq, dot. cbn [rsum]. rewrite !Hr by lia. cbn. ring.
Qed.

Lemma not_small : Rleb 1 spacing1 = false /\ Rleb 2 spacing1 = false.
Proof.
  assert (spacing1 < 1). { unfold spacing1. rewrite <- Rinv_1. apply Rinv_lt_contravar; [rewrite Rmult_1_l; apply pow_lt; lra|]. apply Rlt_pow_R1; [lra|lia]. }
  split; [destruct (Rleb_spec 1 spacing1)|destruct (Rleb_spec 2 spacing1)]; lra || reflexivity.
Qed.

(** Finding: with several start vectors each one is orthogonalised against the Krylov spaces of the others.  On the path with three
    vertices, three steps from either end alone give three vectors; started together from both ends the iteration stops after two
    steps, returns the columns in another order than a complete run (step by step instead of start vector by start vector), and they are
    not orthonormal: the last two are equal. *)
Theorem C64_several_start_vectors_refuted :
  symmetric 3 path3 /\ (forall j, (j < 2)%nat -> lr_cols (lanczos 3 path3 3 (fun i => ends3 i j)) = 3%nat) /\
  exists r, lanczos_block 3 path3 3 2 ends3 = Some r /\ lr_cols r = 4%nat /\ lr_hrows r = 1%nat /\ lr_hcols r = 4%nat /\
    (forall i j, (i < 3)%nat -> (j < 2)%nat -> lr_V r i j = ends3 i j) /\ (forall i, (i < 3)%nat -> lr_V r i 2%nat = lr_V r i 3%nat).
Proof.
  destruct not_small as (NS1 & NS2).
  split; [intros i j Hi Hj; unfold tr; three i Hi; three j Hj; reflexivity|]. split.
  - intros j Hj. destruct (ends_init j Hj) as (Hq & Hr & HV & HH). unfold lanczos. cbn [Nat.sub seq lan_loop]. cbn [Nat.sub]. rewrite HH, Rabs_R1, NS1.
    set (t := lan_init 3 path3 (fun i => ends3 i j)) in *.
    assert (R : forall i, (i < 3)%nat -> la_r (lan_step 3 3 path3 t 1) i = ends3 (2 - i)%nat j).
    { intros i Hi. cbn [lan_step la_r]. cbn [Nat.sub]. rewrite mset_same, HH. unfold colset, mulv. cbn [rsum Nat.eqb]. rewrite !Hr, !Hq, !HV by lia.
      destruct j as [|[|j]]; [| |lia]; three i Hi; rewrite ?Hr, ?Hq, ?HV by lia; unfold path3, ends3; cbn; field. }
    assert (H21 : la_H (lan_step 3 3 path3 t 1) 2%nat 1%nat = 1).
    { change (vnorm 3 (la_r (lan_step 3 3 path3 t 1)) = 1). apply sqrt_is; [lra|]. unfold normsq, dot. cbn [rsum]. rewrite !R by lia.
      destruct j as [|[|j]]; [| |lia]; unfold ends3; cbn; ring. }
    rewrite H21, Rabs_R1, NS1. reflexivity.
  - unfold lanczos_block. rewrite nonzero_columns.
    2:{ intros j Hj Z. specialize (Z (2 * j)%nat ltac:(lia)). unfold ends3 in Z. rewrite Nat.eqb_refl in Z. lra. }
    set (s := fun j => lan_init 3 path3 (fun i => ends3 i j)).
    destruct (ends_init 0 ltac:(lia)) as (Hq0 & Hr0 & HV0 & HH0). destruct (ends_init 1 ltac:(lia)) as (Hq1 & Hr1 & HV1 & HH1).
    change (lan_init 3 path3 (fun i => ends3 i 0%nat)) with (s 0%nat) in *. change (lan_init 3 path3 (fun i => ends3 i 1%nat)) with (s 1%nat) in *.
    cbn [Nat.sub seq bl_loop]. cbn [rsum]. cbn [Nat.sub]. rewrite HH0, HH1, Rabs_R1. replace (0 + 1 + 1) with 2 by ring. rewrite NS2.
    cbn [seq forallb]. rewrite HH0, HH1. destruct (Reqb_spec 1 0) as [Z|_]; [lra|]. cbn [negb andb].
    set (u := bl_step 3 3 2 path3 s 1).
    assert (R : forall j i, (j < 2)%nat -> (i < 3)%nat -> la_r (u j) i = 0).
    { intros j i Hj Hi. unfold u. cbn [bl_step la_r]. cbn [Nat.sub]. rewrite mset_same. unfold colset, mulv. cbn [rsum Nat.eqb].
      rewrite !HH0, !HH1, !Hr0, !Hr1, !HV0, !HV1 by lia.
      destruct j as [|[|j]]; [| |lia]; three i Hi; rewrite ?HH0, ?HH1, ?Hr0, ?Hq0, ?HV0, ?Hr1, ?Hq1, ?HV1 by lia; unfold path3, ends3; cbn; field. }
    assert (H21 : forall j, (j < 2)%nat -> la_H (u j) 2%nat 1%nat = 0).
    { intros j Hj. change (vnorm 3 (la_r (u j)) = 0). apply sqrt_is; [lra|]. unfold normsq, dot. cbn [rsum]. rewrite !R by lia. ring. }
    rewrite !H21, Rabs_R0 by lia. destruct (Rleb_spec (0 + 0 + 0) spacing1) as [_|Z]; [|pose proof spacing1_pos; lra].
    eexists. split; [reflexivity|]. cbn [lr_cols lr_hrows lr_hcols lr_V]. split; [reflexivity|]. split; [reflexivity|]. split; [reflexivity|].
    unfold by_step. split.
    + intros i j Hi Hj. destruct j as [|[|j]]; [| |lia]; cbn [Nat.modulo Nat.div Nat.divmod fst snd Nat.sub]; unfold u; cbn [bl_step la_V]; unfold colset; cbn [Nat.eqb]; [rewrite HV0|rewrite HV1]; auto.
    + intros i Hi. cbn [Nat.modulo Nat.div Nat.divmod fst snd Nat.sub]. unfold u. cbn [bl_step la_V]. unfold colset. cbn [Nat.eqb Nat.sub].
      rewrite HH0, HH1, Hr0, Hr1 by lia. reflexivity.
Qed.

(** Finding: when one of the start vectors is an eigenvector (its iteration is over after one step) and another one is not, what is
    returned is NaN: the sum over the start vectors does not detect the breakdown. *)
Theorem C64_mixed_start_vectors_refuted :
  forall N A order M x a b lam, (2 <= order)%nat -> (a < M)%nat -> (b < M)%nat ->
    (forall j, (j < M)%nat -> ~ vzero N (fun i => x i j)) ->
    (forall i, (i < N)%nat -> mulv N A (fun i => x i a) i = lam * x i a) ->
    (let q := fun i => x i b / vnorm N (fun i => x i b) in / 2 ^ 52 < vnorm N (fun i => mulv N A q i - dot N q (mulv N A q) * q i)) ->
    lanczos_block N A order M x = None.
Proof.
  intros N A order M x a b lam Ho Ha Hb Hx Ea Eb. unfold lanczos_block. rewrite nonzero_columns by exact Hx.
  set (s := fun j => lan_init N A (fun i => x i j)).
  replace (order - 1)%nat with (S (order - 2)) by lia. cbn [seq bl_loop Nat.sub].
  assert (Hb1 : spacing1 < la_H (s b) 1%nat 0%nat) by exact Eb.
  assert (Ha0 : la_H (s a) 1%nat 0%nat = 0).
  { change (vnorm N (la_r (s a)) = 0). set (q := fun i => x i a / vnorm N (fun i => x i a)).
    pose proof (normsq_pos N _ (Hx a Ha)) as Hp. assert (Hn : 0 < vnorm N (fun i => x i a)) by (apply sqrt_lt_R0; exact Hp).
    assert (Hq : dot N q q = 1).
    { unfold q, dot. transitivity (/ (vnorm N (fun i => x i a) * vnorm N (fun i => x i a)) * normsq N (fun i => x i a)).
      - unfold normsq, dot. rewrite <- rsum_scal_l. apply rsum_ext. intros i Hi. field. lra.
      - unfold vnorm at 1 2. rewrite sqrt_sqrt by lra. field. lra. }
    assert (Aq : forall i, (i < N)%nat -> mulv N A q i = lam * q i).
    { intros i Hi. unfold q. transitivity (/ vnorm N (fun i => x i a) * mulv N A (fun i => x i a) i).
      - unfold mulv. rewrite <- rsum_scal_l. apply rsum_ext. intros l Hl. field. lra.
      - rewrite Ea by exact Hi. field. lra. }
    apply sqrt_is; [lra|]. transitivity 0; [|ring]. unfold normsq, dot. apply rsum_0. intros i Hi. cbn [s lan_init la_r]. fold q.
    assert (Z : mulv N A q i - (\sum_(l < N) (q l * mulv N A q l)) * q i = 0).
    { rewrite Aq by exact Hi. rewrite (rsum_ext N _ (fun l => lam * (q l * q l))) by (intros l Hl; rewrite Aq by exact Hl; ring).
      rewrite rsum_scal_l. change (\sum_(l < N) (q l * q l)) with (dot N q q). rewrite Hq. ring. }
    change ((mulv N A q i - (\sum_(l < N) (q l * mulv N A q l)) * q i) * (mulv N A q i - (\sum_(l < N) (q l * mulv N A q l)) * q i) = 0). rewrite Z. ring. }
  destruct (Rleb_spec (\sum_(j < M) Rabs (la_H (s j) 1%nat 0%nat)) spacing1) as [H|H].
  - exfalso. pose proof (rsum_ge_term M (fun j => Rabs (la_H (s j) 1%nat 0%nat)) b ltac:(intros; apply Rabs_pos) Hb) as Q. cbn beta in Q.
    pose proof (Rle_abs (la_H (s b) 1%nat 0%nat)). lra.
  - destruct (forallb _ (seq 0 M)) eqn:E; [|reflexivity]. exfalso. rewrite forallb_forall in E. specialize (E a ltac:(apply in_seq; lia)).
    rewrite Ha0 in E. destruct (Reqb_spec 0 0) as [_|Z]; [discriminate E|]. apply Z. reflexivity.
Qed.

(** Two edges that do not touch, and an impulse on each of them: two steps each. *)
Definition two_edges : mat := fun i j => if Nat.eqb (Nat.div i 2) (Nat.div j 2) then (if Nat.eqb i j then 1 else -1) else 0.
Example C64_separate_ex :
  (forall i j, (i < 4)%nat -> (j < 4)%nat -> Nat.div i 2 <> Nat.div j 2 -> two_edges i j = 0) /\
  (forall j i, (j < 2)%nat -> (i < 4)%nat -> ends3 i j <> 0 -> Nat.div i 2 = j) /\
  (forall j, (j < 2)%nat -> ~ vzero 4 (fun i => ends3 i j) /\ lr_cols (lanczos 4 two_edges 2 (fun i => ends3 i j)) = 2%nat).
Proof.
  split; [intros i j _ _ H; unfold two_edges; apply Nat.eqb_neq in H; rewrite H; reflexivity|]. split.
  - intros j i Hj Hi H. unfold ends3 in H. destruct (Nat.eqb_spec i (2 * j)) as [->|E]; [|lra]. rewrite Nat.mul_comm. apply Nat.div_mul. lia.
  - intros j Hj. split; [intros Z; specialize (Z (2 * j)%nat ltac:(lia)); unfold ends3 in Z; rewrite Nat.eqb_refl in Z; lra|].
    assert (Hn : vnorm 4 (fun i => ends3 i j) = 1).
    { apply sqrt_is; [lra|]. unfold normsq, dot, ends3. destruct j as [|[|j]]; [| |lia]; cbn; ring. }
    unfold lanczos. cbn [Nat.sub seq lan_loop]. cbn [Nat.sub]. set (t := lan_init 4 two_edges (fun i => ends3 i j)).
    assert (Hr : forall i, (i < 4)%nat -> la_r t i = if Nat.eqb i (2 * j + 1) then -1 else 0).
    { intros i Hi. unfold t. cbn [lan_init la_r]. rewrite Hn. unfold mulv, two_edges, ends3.
      destruct j as [|[|j]]; [| |lia]; destruct i as [|[|[|[|i]]]]; try (exfalso; lia); cbn; field. }
    assert (HH : la_H t 1%nat 0%nat = 1).
    { change (vnorm 4 (la_r t) = 1). apply sqrt_is; [lra|]. unfold normsq, dot. cbn [rsum]. rewrite !Hr by lia. destruct j as [|[|j]]; [| |lia]; cbn; ring. }
    rewrite HH, Rabs_R1, (proj1 not_small). reflexivity.
Qed.

(** The path with two vertices: a constant vector next to an impulse. *)
Example C64_mixed_ex : let A := fun i j => if Nat.eqb i j then 1 else -1 in let x := fun i j => if (Nat.eqb j 0 || Nat.eqb i 0)%bool then 1 else 0 in
  lanczos_block 2 A 2 2 x = None.
Proof.
  intros A x. apply (C64_mixed_start_vectors_refuted 2 A 2 2 x 0 1 0); [lia|lia|lia| | |].
  - intros j Hj Z. specialize (Z 0%nat ltac:(lia)). unfold x in Z. rewrite orb_true_r in Z. lra.
  - intros i Hi. unfold mulv, A, x. destruct i as [|[|i]]; [| |lia]; cbn; ring.
  - cbn zeta. assert (Hn : vnorm 2 (fun i => x i 1%nat) = 1) by (apply sqrt_is; [lra|]; unfold normsq, dot, x; cbn; ring).
    rewrite Hn. match goal with |- _ < ?v => replace v with 1 end.
    + destruct not_small as (N1 & _). destruct (Rleb_spec 1 spacing1); [discriminate|lra].
    + symmetry. apply sqrt_is; [lra|]. unfold normsq, dot, mulv, A, x. cbn. field.
Qed.
