(** Tikhonov regression on matrices. *)
From Coq Require Import Reals Lra Lia List Arith Bool.
From Coq Require Import List.
From Verif.Base Require Import RSum Prelude LinAlg Solve.
From Verif.Spec Require Import Matrix NdArray Reach LapSpec LearnSpec.
From Verif.Model Require Import Sparse Graph Filter Reduction Learning.
From Verif.Proofs Require Import MaxPrinciple SchurFacts.
Import ListNotations.
Open Scope R_scope.

Lemma tik_expand n L M tau y x z : symmetric n L ->
  tik_cost n L M tau y z = tik_cost n L M tau y x +
    2 * (\sum_(i < n) ((z i - x i) * (tik_op n L M tau x i - zero_unlabelled M y i))) +
    tik_cost n L M tau (fun _ => 0) (fun i => z i - x i).
Proof.
  intros Hs. unfold tik_cost.
  assert (Q : quad n L z = quad n L x + 2 * dot n (fun i => z i - x i) (mulv n L x) + quad n L (fun i => z i - x i)).
  { unfold quad. rewrite (dot_ext n z (fun a => x a + (z a - x a)) (mulv n L z) (fun a => mulv n L x a + mulv n L (fun i => z i - x i) a)).
    - rewrite dot_plus_l, !dot_plus_r. rewrite (dot_mulv_sym n L x (fun i => z i - x i) Hs). rewrite (dot_comm n (mulv n L x)). ring.
    - intros a Ha. ring.
    - intros a Ha. rewrite <- mulv_plus. apply mulv_ext; [intros ? ?; reflexivity|]. intros b Hb. ring. }
  rewrite Q.
  assert (S1 : \sum_(i < n) ((z i - x i) * (tik_op n L M tau x i - zero_unlabelled M y i)) =
     \sum_(i < n) ((z i - x i) * (if nth i M false then x i - y i else 0)) + tau * dot n (fun i => z i - x i) (mulv n L x)).
  { unfold dot. rewrite <- rsum_scal_l, <- rsum_plus. apply rsum_ext. intros i Hi. unfold tik_op, zero_unlabelled, mval. destruct (nth i M false); ring. }
  rewrite S1.
  assert (S2 : \sum_(i < n) (if nth i M false then (z i - y i) * (z i - y i) else 0) =
    \sum_(i < n) (if nth i M false then (x i - y i) * (x i - y i) else 0) + 2 * (\sum_(i < n) ((z i - x i) * (if nth i M false then x i - y i else 0))) +
    \sum_(i < n) (if nth i M false then (z i - x i - 0) * (z i - x i - 0) else 0)).
  { rewrite <- rsum_scal_l, <- !rsum_plus. apply rsum_ext. intros i Hi. destruct (nth i M false); ring. }
  rewrite S2. ring.
Qed.
Lemma tik_cost_nonneg n L M tau y x : psd n L -> 0 <= tau -> 0 <= tik_cost n L M tau y x.
Proof.
  intros Hp Ht. unfold tik_cost. apply Rplus_le_le_0_compat.
  - apply rsum_nonneg. intros i Hi. destruct (nth i M false); [|lra]. apply Rle_0_sqr.
  - apply Rmult_le_pos; [exact Ht|apply Hp].
Qed.

(** every vertex can reach a labelled one *)
Definition lcov (n : nat) (L : mat) (M : list bool) : Prop :=
  forall i, (i < n)%nat -> exists b, (b < n)%nat /\ nth b M false = true /\ reach (lap_edge n L) i b.

Lemma lap_at_min n L x b : is_laplacian n L -> (b < n)%nat -> (forall i, (i < n)%nat -> x b <= x i) -> mulv n L x b <= 0.
Proof.
  intros HL Hb Hmin. rewrite (lap_apply n L x b HL Hb). assert (0 <= \sum_(j < n) (L b j * (x b - x j))).
  { apply rsum_nonneg. intros j Hj. destruct (Nat.eq_dec b j) as [->|Hne]; [replace (x j - x j) with 0 by ring; lra|].
    destruct HL as (_ & _ & Hn). specialize (Hn b j Hb Hj Hne). specialize (Hmin j Hj). nra. }
  rewrite (rsum_ext n _ (fun j => - (L b j * (x b - x j)))); [rewrite rsum_opp; change (rsum n (fun k => L b k * (x b - x k))) with (\sum_(j < n) (L b j * (x b - x j))); lra|].
  intros; ring.
Qed.
Lemma tik_lower n L M tau y x : is_laplacian n L -> 0 < tau -> lcov n L M ->
  (forall i, (i < n)%nat -> tik_op n L M tau x i = zero_unlabelled M y i) ->
  forall v, (v < n)%nat -> exists b, (b < n)%nat /\ nth b M false = true /\ y b <= x v.
Proof.
  intros HL Ht HC E v Hv.
  destruct (min_principle n L x (fun i => nth i M false) HL ltac:(lia)) as (b & Hb & HB & Hmin).
  - intros i Hi Hf. specialize (E i Hi). unfold tik_op, zero_unlabelled, mval in E. rewrite Hf in E. nra.
  - exact HC.
  - exists b. split; [exact Hb|]. split; [exact HB|]. pose proof (lap_at_min n L x b HL Hb Hmin) as H0.
    specialize (E b Hb). unfold tik_op, zero_unlabelled, mval in E. rewrite HB in E. specialize (Hmin v Hv). nra.
Qed.
Lemma tik_opp n L M tau x i : tik_op n L M tau (fun j => - x j) i = - tik_op n L M tau x i.
Proof. unfold tik_op. rewrite mulv_opp. ring. Qed.
Lemma tik_upper n L M tau y x : is_laplacian n L -> 0 < tau -> lcov n L M ->
  (forall i, (i < n)%nat -> tik_op n L M tau x i = zero_unlabelled M y i) ->
  forall v, (v < n)%nat -> exists b, (b < n)%nat /\ nth b M false = true /\ x v <= y b.
Proof.
  intros HL Ht HC E v Hv. destruct (tik_lower n L M tau (fun i => - y i) (fun i => - x i) HL Ht HC) with (v := v) as (b & Hb & HB & H); [|exact Hv|].
  - intros i Hi. rewrite tik_opp, (E i Hi). unfold zero_unlabelled. destruct (nth i M false); ring.
  - exists b. split; [exact Hb|]. split; [exact HB|]. lra.
Qed.
Lemma tik_sub n L M tau x z i : tik_op n L M tau (fun j => x j - z j) i = tik_op n L M tau x i - tik_op n L M tau z i.
Proof. unfold tik_op. rewrite mulv_minus. ring. Qed.
Lemma tik_kernel n L M tau x : is_laplacian n L -> 0 < tau -> lcov n L M ->
  (forall i, (i < n)%nat -> tik_op n L M tau x i = 0) -> vzero n x.
Proof.
  intros HL Ht HC E v Hv. assert (E' : forall i, (i < n)%nat -> tik_op n L M tau x i = zero_unlabelled M (fun _ => 0) i).
  { intros i Hi. rewrite E by exact Hi. unfold zero_unlabelled. destruct (nth i M false); reflexivity. }
  destruct (tik_lower n L M tau _ x HL Ht HC E' v Hv) as (b & _ & _ & H1).
  destruct (tik_upper n L M tau _ x HL Ht HC E' v Hv) as (b' & _ & _ & H2). cbv beta in *. lra.
Qed.
(** the matrix of the operator *)
Definition tik_mat (L : mat) (M : list bool) (tau : R) : mat := fun i j => mval M i * idm i j + tau * L i j.
Lemma tik_mat_op n L M tau x i : (i < n)%nat -> mulv n (tik_mat L M tau) x i = tik_op n L M tau x i.
Proof.
  intros Hi. unfold tik_op. rewrite <- (mulv_id n x i Hi). unfold mulv, tik_mat. rewrite <- !rsum_scal_l, <- rsum_plus. apply rsum_ext. intros; ring.
Qed.
Lemma tik_solvable n L M tau y : is_laplacian n L -> 0 < tau -> lcov n L M ->
  exists x, forall i, (i < n)%nat -> tik_op n L M tau x i = zero_unlabelled M y i.
Proof.
  intros HL Ht HC. destruct (solve_exists n (tik_mat L M tau) (zero_unlabelled M y)) as (x & Hx).
  - intros x Hx. apply (tik_kernel n L M tau x HL Ht HC). intros i Hi. rewrite <- tik_mat_op by exact Hi. apply Hx. exact Hi.
  - exists x. intros i Hi. rewrite <- tik_mat_op by exact Hi. apply Hx. exact Hi.
Qed.

(** ** tau = 0 *)
Lemma indl_in M v : In v (indl M) <-> nth v M false = true.
Proof.
  unfold indl. rewrite filter_In, in_seq. split; [tauto|]. intros H. split; [|exact H].
  destruct (lt_dec v (List.length M)); [lia|]. rewrite nth_overflow in H by lia. discriminate.
Qed.
Lemma indl_nodup M : NoDup (indl M). Proof. unfold indl. apply NoDup_filter. apply seq_NoDup. Qed.
Lemma indl_lt M v : In v (indl M) -> (v < List.length M)%nat.
Proof. unfold indl. rewrite filter_In, in_seq. lia. Qed.
Lemma indu_setdiff M : indu M = setdiff (List.length M) (indl M).
Proof.
  unfold indu, setdiff. apply filter_ext_in. intros v Hv. apply in_seq in Hv. f_equal.
  destruct (nth v M false) eqn:E.
  - symmetry. apply existsb_exists. exists v. split; [apply indl_in; exact E|apply Nat.eqb_refl].
  - destruct (existsb (Nat.eqb v) (indl M)) eqn:E2; [|reflexivity]. apply existsb_exists in E2. destruct E2 as (w & Hw & Ew).
    apply Nat.eqb_eq in Ew. subst w. apply indl_in in Hw. congruence.
Qed.
Lemma assign_in y ind part i : NoDup ind -> (i < List.length ind)%nat -> assign y ind part (nth i ind 0%nat) = part i.
Proof.
  intros Hnd Hi. unfold assign.
  assert (G : forall c s acc, (s + c <= List.length ind)%nat ->
    fold_left (fun acc j => if Nat.eqb (nth j ind 0%nat) (nth i ind 0%nat) then part j else acc) (seq s c) acc =
    if (Nat.leb s i && Nat.ltb i (s + c))%bool then part i else acc).
  { induction c as [|c IH]; intros s acc Hsc; cbn [seq fold_left].
    - destruct (Nat.leb_spec s i), (Nat.ltb_spec i (s + 0)); cbn; try reflexivity; lia.
    - rewrite IH by lia. destruct (Nat.eqb_spec (nth s ind 0%nat) (nth i ind 0%nat)) as [E|E].
      + assert (s = i) by (apply (proj1 (NoDup_nth ind 0%nat) Hnd); [lia|exact Hi|exact E]). subst s.
        destruct (Nat.leb_spec (S i) i), (Nat.leb_spec i i), (Nat.ltb_spec i (i + S c)); cbn; try lia; reflexivity.
      + assert (s <> i) by congruence.
        destruct (Nat.leb_spec (S s) i), (Nat.leb_spec s i), (Nat.ltb_spec i (S s + c)), (Nat.ltb_spec i (s + S c)); cbn; try lia; reflexivity. }
  rewrite G by lia. destruct (Nat.leb_spec 0 i), (Nat.ltb_spec i (0 + List.length ind)); cbn; try lia; reflexivity.
Qed.
Lemma assign_out y ind part v : ~ In v ind -> assign y ind part v = y v.
Proof.
  intros Hn. unfold assign.
  assert (G : forall l acc, (forall j, In j l -> (j < List.length ind)%nat) ->
     fold_left (fun acc j => if Nat.eqb (nth j ind 0%nat) v then part j else acc) l acc = acc).
  { induction l as [|a l IH]; intros acc Hl; [reflexivity|]. cbn [fold_left].
    destruct (Nat.eqb_spec (nth a ind 0%nat) v) as [E|]; [|apply IH; intros j Hj; apply Hl; right; exact Hj].
    exfalso. apply Hn. rewrite <- E. apply nth_In. apply Hl. left. reflexivity. }
  apply G. intros j Hj. apply in_seq in Hj. lia.
Qed.
(** the assembled signal keeps the labels and is harmonic elsewhere *)
Section Harmonic.
  Variables (n : nat) (L : mat) (M : list bool) (y s : vec).
  Hypothesis Hn : List.length M = n.
  Hypothesis Hsol : forall k, (k < List.length (indu M))%nat ->
    mulv (List.length (indu M)) (Luu L M) s k = \sum_(j < List.length (indl M)) (Wul L M k j * y (nth j (indl M) 0%nat)).
  Let x := assign y (indu M) s.
  Lemma harm_label v : nth v M false = true -> x v = y v.
  Proof.
    intros Hv. unfold x. apply assign_out. rewrite indu_setdiff, setdiff_in. intros (_ & H). apply H. apply indl_in. exact Hv.
  Qed.
  Lemma harm_zero v : (v < n)%nat -> nth v M false = false -> mulv n L x v = 0.
  Proof.
    intros Hv Hf.
    assert (Hin : forall w, In w (indl M) -> (w < n)%nat) by (intros w Hw; rewrite <- Hn; apply indl_lt; exact Hw).
    assert (Ec : indu M = setdiff n (indl M)) by (rewrite indu_setdiff, Hn; reflexivity).
    assert (Hnv : ~ In v (indl M)) by (rewrite indl_in; congruence).
    destruct (comp_onto n (indl M) v Hv Hnv) as (k & Hk & Ek).
    unfold mulv. rewrite (split_sum n (indl M) (indl_nodup M) Hin).
    rewrite <- Ec in *. specialize (Hsol k Hk). unfold mulv, Luu, Wul in Hsol. rewrite Ek in Hsol.
    rewrite (rsum_ext (List.length (indu M)) _ (fun l => L v (nth l (indu M) 0%nat) * s l)).
    2:{ intros l Hl. unfold x. rewrite assign_in; [reflexivity| |exact Hl]. rewrite Ec. apply setdiff_nodup. }
    rewrite Hsol, <- rsum_plus. apply rsum_0. intros j Hj. rewrite (harm_label (nth j (indl M) 0%nat)); [ring|]. apply indl_in. apply nth_In. exact Hj.
  Qed.
End Harmonic.
Lemma harm_min n L M x w : symmetric n L -> psd n L -> (forall v, (v < n)%nat -> nth v M false = false -> mulv n L x v = 0) ->
  (forall v, (v < n)%nat -> nth v M false = true -> w v = x v) -> quad n L x <= quad n L w.
Proof.
  intros Hs Hp Hh Hw.
  pose proof (tik_expand n L [] 1 (fun _ => 0) x w Hs) as E. unfold tik_cost in E.
  rewrite !(rsum_0 n (fun i => if nth i [] false then _ else _)) in E by (intros i Hi; destruct i; reflexivity).
  assert (Z : \sum_(i < n) ((w i - x i) * (tik_op n L [] 1 x i - zero_unlabelled [] (fun _ => 0) i)) = 0).
  { apply rsum_0. intros i Hi. unfold tik_op, zero_unlabelled, mval. replace (nth i [] false) with false by (destruct i; reflexivity).
    destruct (nth i M false) eqn:Em; [rewrite (Hw i Hi Em); ring|rewrite (Hh i Hi Em); ring]. }
  rewrite Z in E. pose proof (Hp (fun i => w i - x i)). lra.
Qed.
Lemma harm_range n L M x : is_laplacian n L -> lcov n L M -> (forall v, (v < n)%nat -> nth v M false = false -> mulv n L x v = 0) ->
  forall v, (v < n)%nat -> exists a b, (a < n)%nat /\ (b < n)%nat /\ nth a M false = true /\ nth b M false = true /\ x a <= x v <= x b.
Proof.
  intros HL HC Hh v Hv.
  destruct (min_principle n L x (fun i => nth i M false) HL ltac:(lia)) as (a & Ha & HA & Hmin).
  - intros i Hi Hf. rewrite (Hh i Hi Hf). lra.
  - exact HC.
  - destruct (max_principle n L x (fun i => nth i M false) HL ltac:(lia)) as (b & Hb & HB & Hmax).
    + intros i Hi Hf. rewrite (Hh i Hi Hf). lra.
    + exact HC.
    + exists a, b. repeat (split; [assumption|]). split; [apply Hmin|apply Hmax]; exact Hv.
Qed.
Lemma harm_unique n L M x z : is_laplacian n L -> lcov n L M -> (forall v, (v < n)%nat -> nth v M false = false -> mulv n L x v = mulv n L z v) ->
  (forall v, (v < n)%nat -> nth v M false = true -> x v = z v) -> veq n x z.
Proof.
  intros HL HC Hh He v Hv.
  destruct (harm_range n L M (fun i => x i - z i) HL HC) with (v := v) as (a & b & Ha & Hb & HA & HB & H); [|exact Hv|].
  - intros i Hi Hf. rewrite mulv_minus, (Hh i Hi Hf). ring.
  - cbv beta in H. rewrite (He a Ha HA), (He b Hb HB) in H. lra.
Qed.
Lemma harm_solvable n L M y : is_laplacian n L -> List.length M = n -> lcov n L M -> exists s, forall k, (k < List.length (indu M))%nat ->
    mulv (List.length (indu M)) (Luu L M) s k = \sum_(j < List.length (indl M)) (Wul L M k j * y (nth j (indl M) 0%nat)).
Proof.
  intros HL Hn HC. apply solve_exists. intros z Hz k Hk.
  pose proof (harm_label M (fun _ => 0) z) as Hlab.
  pose proof (harm_zero n L M (fun _ => 0) z Hn) as Hz0. 
  assert (Hall : forall v, (v < n)%nat -> nth v M false = false -> mulv n L (assign (fun _ => 0) (indu M) z) v = 0).
  { apply Hz0. intros k' Hk'. rewrite (Hz k' Hk'). symmetry. apply rsum_0. intros j Hj. ring. }
  pose proof (harm_unique n L M _ (fun _ => 0) HL HC (fun v Hv Hf => eq_trans (Hall v Hv Hf) (eq_sym (rsum_0 n (fun j => L v j * 0) (fun j _ => Rmult_0_r _)))) (fun v Hv Ht => Hlab v Ht)) as U.
  assert (Hnd : NoDup (indu M)) by (rewrite indu_setdiff; apply setdiff_nodup).
  rewrite <- (assign_in (fun _ => 0) (indu M) z k Hnd Hk). apply U.
  rewrite indu_setdiff in *. apply (comp_lt (List.length M) (indl M)) in Hk. rewrite <- Hn. apply Hk.
Qed.
