(** C55: community graphs. *)
From Coq Require Import Reals Lra Lia ZArith List Arith Bool Permutation Sorted.
From Coq Require Import List.
From Verif.Base Require Import RSum Prelude.
From Verif.Spec Require Import Matrix GraphSpec Card Reach GenSpec.
From Verif.Model Require Import Sparse Graph Traverse Generators Community.
From Verif.Proofs Require Import SparseFacts InitFacts EdgeFacts SubgraphFacts TraverseFacts GenFacts.
From Verif.Props Require Import Core Traversal UtilsProps ReductionProps GenProps GridProps.
Import ListNotations.
Open Scope nat_scope.
Open Scope list_scope.

Notation cnt l v := (count_occ Nat.eq_dec l v).
(** ** Sorted lists are determined by their counts *)
Lemma sorted_unique l l' : StronglySorted le l -> StronglySorted le l' -> Permutation l l' -> l = l'.
Proof.
  revert l'. induction l as [|x l IH]; intros l' H H' P; [apply Permutation_nil in P; congruence|].
  destruct l' as [|y l']; [apply Permutation_sym, Permutation_nil in P; discriminate|].
  apply StronglySorted_inv in H. apply StronglySorted_inv in H'. destruct H as (H & F), H' as (H' & F'). rewrite Forall_forall in F, F'.
  assert (x = y).
  { assert (Hx : In x (y :: l')) by (apply (Permutation_in _ P); left; reflexivity). assert (Hy : In y (x :: l)) by (apply (Permutation_in _ (Permutation_sym P)); left; reflexivity).
    destruct Hx as [Hx|Hx]; [auto|]. destruct Hy as [Hy|Hy]; [auto|]. apply Nat.le_antisymm; auto. }
  subst y. f_equal. apply IH; try assumption. apply Permutation_cons_inv in P. exact P.
Qed.
(** vertices labelled block after block *)
Fixpoint blocks_from (c : nat) (ss : list nat) : list nat := match ss with [] => [] | s :: ss' => repeat c s ++ blocks_from (S c) ss' end.
Definition blocks (ss : list nat) : list nat := blocks_from 0 ss.
Lemma blocks_from_map ss : forall c, blocks_from c ss = flat_map (fun k => repeat (c + k) (nth k ss 0)) (seq 0 (List.length ss)).
Proof.
  induction ss as [|s ss IH]; intros c; [reflexivity|]. cbn [blocks_from List.length seq flat_map nth]. rewrite Nat.add_0_r. f_equal. rewrite IH, <- seq_shift.
  rewrite !flat_map_concat_map, map_map. f_equal. apply map_ext. intros k. cbn [nth]. f_equal. lia.
Qed.
Lemma blocks_ge ss : forall c x, In x (blocks_from c ss) -> c <= x < c + List.length ss.
Proof.
  induction ss as [|s ss IH]; intros c x H; [destruct H|]. cbn [blocks_from] in H. apply in_app_or in H. cbn [List.length]. destruct H as [H|H]; [apply repeat_spec in H; lia|apply IH in H; lia].
Qed.
Lemma blocks_sorted ss : forall c, StronglySorted le (blocks_from c ss).
Proof.
  induction ss as [|s ss IH]; intros c; [constructor|]. cbn [blocks_from]. induction s as [|s IHs]; [apply IH|]. cbn [repeat app]. constructor; [exact IHs|].
  apply Forall_forall. intros x Hx. apply in_app_or in Hx. destruct Hx as [Hx|Hx]; [apply repeat_spec in Hx; lia|apply blocks_ge in Hx; lia].
Qed.
Lemma blocks_count ss : forall c k, cnt (blocks_from c ss) (c + k) = nth k ss 0.
Proof.
  induction ss as [|s ss IH]; intros c k; [destruct k; reflexivity|]. cbn [blocks_from]. rewrite count_occ_app. destruct k as [|k].
  - rewrite Nat.add_0_r. cbn [nth]. rewrite (proj1 (count_occ_not_In Nat.eq_dec (blocks_from (S c) ss) c)) by (intros H; apply blocks_ge in H; lia).
    assert (R : cnt (repeat c s) c = s) by (induction s as [|s IHs]; [reflexivity|cbn; destruct (Nat.eq_dec c c); [rewrite IHs; reflexivity|congruence]]). lia.
  - cbn [nth]. rewrite <- (IH (S c) k). replace (S c + k) with (c + S k) by lia. rewrite (proj1 (count_occ_not_In Nat.eq_dec (repeat c s) (c + S k))) by (intros H; apply repeat_spec in H; lia). reflexivity.
Qed.
Lemma blocks_len ss : forall c, List.length (blocks_from c ss) = list_sum ss.
Proof. induction ss as [|s ss IH]; intros c; [reflexivity|]. cbn [blocks_from]. rewrite app_length, repeat_length, IH. reflexivity. Qed.
Lemma sorted_blocks l k : StronglySorted le l -> (forall x, In x l -> x < k) -> l = blocks (map (fun c => cnt l c) (seq 0 k)).
Proof.
  intros Hs Hb. apply sorted_unique; [exact Hs|apply blocks_sorted|]. apply (Permutation_count_occ Nat.eq_dec). intros x. unfold blocks.
  rewrite <- (Nat.add_0_l x) at 2. rewrite blocks_count. destruct (Nat.lt_ge_cases x k) as [H|H].
  - rewrite (nth_map_seq (fun c => cnt l c) k x 0 H). reflexivity.
  - rewrite nth_overflow by (rewrite map_length, seq_length; exact H). apply (proj1 (count_occ_not_In Nat.eq_dec l x)). intros Hx. specialize (Hb x Hx). lia.
Qed.
(** ** Where the blocks are *)
Definition off (ss : list nat) (c : nat) : nat := list_sum (firstn c ss).
Lemma off_S ss c : off ss (S c) = off ss c + nth c ss 0.
Proof.
  unfold off. revert c. induction ss as [|s ss IH]; intros c; [destruct c; reflexivity|]. destruct c as [|c]; [cbn; lia|].
  change (firstn (S (S c)) (s :: ss)) with (s :: firstn (S c) ss). change (firstn (S c) (s :: ss)) with (s :: firstn c ss). cbn [list_sum fold_right nth]. change (fold_right Nat.add 0) with list_sum. rewrite IH. lia.
Qed.
Lemma off_mono ss c d : c <= d -> off ss c <= off ss d.
Proof. induction 1 as [|d H IH]; [lia|]. rewrite off_S. lia. Qed.
Lemma off_all ss : off ss (List.length ss) = list_sum ss.
Proof. unfold off. rewrite firstn_all. reflexivity. Qed.
Lemma blocks_nth ss : forall b c a, c < List.length ss -> a < nth c ss 0 -> nth (off ss c + a) (blocks_from b ss) 0 = b + c.
Proof.
  induction ss as [|s ss IH]; intros b c a Hc Ha; [cbn in Hc; lia|]. destruct c as [|c].
  - cbn [nth] in Ha. cbn [off firstn list_sum fold_right blocks_from]. change (off (s :: ss) 0) with 0. cbn [Nat.add]. rewrite app_nth1 by (rewrite repeat_length; exact Ha).
    rewrite Nat.add_0_r. rewrite (nth_indep _ 0 b) by (rewrite repeat_length; exact Ha). apply nth_repeat.
  - cbn [nth] in Ha. cbn [List.length] in Hc. change (off (s :: ss) (S c)) with (s + off ss c). cbn [blocks_from]. rewrite app_nth2 by (rewrite repeat_length; lia). rewrite repeat_length.
    replace (s + off ss c + a - s) with (off ss c + a) by lia. rewrite IH by lia. lia.
Qed.
Lemma in_block ss : forall v, v < list_sum ss -> exists c a, c < List.length ss /\ a < nth c ss 0 /\ v = off ss c + a.
Proof.
  induction ss as [|s ss IH]; intros v Hv; [cbn in Hv; lia|]. cbn [list_sum fold_right] in Hv. change (fold_right Nat.add 0) with list_sum in Hv. destruct (Nat.lt_ge_cases v s) as [H|H].
  - exists 0, v. split; [cbn; lia|]. split; [exact H|]. reflexivity.
  - destruct (IH (v - s)) as (c & a & Hc & Ha & E); [lia|]. exists (S c), a. split; [cbn [List.length]; lia|]. split; [exact Ha|]. change (off (s :: ss) (S c)) with (s + off ss c). lia.
Qed.
Lemma label_iff ss c v : v < list_sum ss -> c < List.length ss -> (nth v (blocks ss) 0 = c <-> off ss c <= v < off ss c + nth c ss 0).
Proof.
  intros Hv Hc. split.
  - intros H. destruct (in_block ss v Hv) as (c' & a & Hc' & Ha & E). subst v. unfold blocks in H. rewrite blocks_nth in H by assumption. cbn [Nat.add] in H. subst c'. lia.
  - intros H. replace v with (off ss c + (v - off ss c)) by lia. unfold blocks. rewrite blocks_nth by lia. reflexivity.
Qed.
(** ** Pairs of a triangle *)
Lemma tril_in n r c : In (r, c) (tril_pairs n) <-> c < r < n.
Proof.
  unfold tril_pairs. rewrite in_flat_map. split.
  - intros (x & Hx & H). apply in_seq in Hx. apply in_map_iff in H. destruct H as (y & E & Hy). apply in_seq in Hy. injection E as <- <-. lia.
  - intros H. exists r. split; [apply in_seq; lia|]. apply in_map_iff. exists c. split; [reflexivity|apply in_seq; lia].
Qed.
Lemma tril_nodup n : NoDup (tril_pairs n).
Proof.
  apply NoDup_flat_map; [apply seq_NoDup| |].
  - intros r _. apply map_seq_nodup. intros s t _ _ E. injection E. auto.
  - intros r r' p _ _ H H'. rewrite map_seq_in in H, H'. destruct H as (a & _ & <-), H' as (b & _ & E). injection E. auto.
Qed.
Lemma tril_len n : 2 * List.length (tril_pairs n) = n * (n - 1).
Proof.
  unfold tril_pairs. rewrite flat_map_length_sum. rewrite (map_ext _ (fun r => r)) by (intros r; rewrite map_length, seq_length; reflexivity). rewrite map_id.
  induction n as [|n IH]; [reflexivity|]. rewrite seq_S, list_sum_app. cbn [Nat.add]. change (list_sum [n]) with (n + 0). destruct n as [|n]; [reflexivity|]. rewrite !Nat.sub_succ, !Nat.sub_0_r in *. nia.
Qed.
Lemma tril_len' n : List.length (tril_pairs n) = n * (n - 1) / 2.
Proof. rewrite <- tril_len, Nat.mul_comm, Nat.div_mul by lia. reflexivity. Qed.
(** ** Picking by a permutation *)
Lemma NoDup_firstn {A} (l : list A) m : NoDup l -> NoDup (firstn m l).
Proof.
  intros H. revert m. induction H as [|x l Hx H IH]; intros m; [rewrite firstn_nil; constructor|]. destruct m as [|m]; [constructor|]. cbn [firstn]. constructor; [|apply IH].
  intros Hin. apply Hx. rewrite <- (firstn_skipn m l). apply in_or_app. left. exact Hin.
Qed.
Lemma pick_ok (l : list (nat * nat)) (p : list nat) m : NoDup l -> Permutation p (seq 0 (List.length l)) ->
  NoDup (map (fun e => nth e l (0, 0)) (firstn m p)) /\ (forall x, In x (map (fun e => nth e l (0, 0)) (firstn m p)) -> In x l) /\
  (m <= List.length l -> List.length (map (fun e => nth e l (0, 0)) (firstn m p)) = m).
Proof.
  intros Hl Hp. assert (Hnd : NoDup p) by (apply (Permutation_NoDup (Permutation_sym Hp)), seq_NoDup).
  assert (Hf : forall e, In e (firstn m p) -> e < List.length l) by (intros e He; assert (H : In e p) by (rewrite <- (firstn_skipn m p); apply in_or_app; left; exact He); apply (Permutation_in _ Hp) in H; apply in_seq in H; lia).
  assert (Hnf : NoDup (firstn m p)) by (apply NoDup_firstn; exact Hnd).
  split; [|split].
  - apply NoDup_map_on; [|exact Hnf]. intros x y Hx Hy E. apply (NoDup_nth l (0, 0)) in E; auto.
  - intros x Hx. apply in_map_iff in Hx. destruct Hx as (e & <- & He). apply nth_In. apply Hf. exact He.
  - intros Hm. rewrite map_length, firstn_length, (Permutation_length Hp), seq_length. lia.
Qed.

(** ** The pairs between communities *)
Section Blocks.
Variables (ss : list nat).
Notation Nc := (List.length ss).
Notation N := (list_sum ss).
Notation z := (blocks ss).
Lemma block_lt c a : c < Nc -> a < nth c ss 0 -> off ss c + a < N.
Proof. intros Hc Ha. rewrite <- (off_all ss). pose proof (off_mono ss (S c) Nc Hc). rewrite off_S in *. lia. Qed.
Lemma points_in a b : In (a, b) (comm_points Nc ss) <-> b < a < N /\ nth a z 0 <> nth b z 0.
Proof.
  unfold comm_points. rewrite in_flat_map. split.
  - intros (i & Hi & H). apply in_seq in Hi. apply in_flat_map in H. destruct H as (j & Hj & H). apply in_seq in Hj. apply in_flat_map in H. destruct H as (r & Hr & H). apply in_seq in Hr.
    apply in_map_iff in H. destruct H as (c & E & Hc). apply in_seq in Hc. change (list_sum (firstn j ss)) with (off ss j) in E. change (list_sum (firstn i ss)) with (off ss i) in E. injection E as <- <-.
    assert (Hj' : j < Nc) by lia. assert (Hi' : i < Nc) by lia. unfold blocks. rewrite !blocks_nth by lia. pose proof (off_mono ss (S i) j ltac:(lia)) as Hm. rewrite off_S in Hm. pose proof (block_lt j r Hj' ltac:(lia)). lia.
  - intros ((Hba & Ha) & Hne). destruct (in_block ss a Ha) as (j & r & Hj & Hr & Ea). destruct (in_block ss b ltac:(lia)) as (i & c & Hi & Hc & Eb). subst a b. unfold blocks in Hne. rewrite !blocks_nth in Hne by assumption.
    assert (Hij : i < j). { destruct (Nat.lt_trichotomy i j) as [H|[H|H]]; [exact H|congruence|]. pose proof (off_mono ss (S j) i H) as Hm. rewrite off_S in Hm. lia. }
    exists i. split; [apply in_seq; lia|]. apply in_flat_map. exists j. split; [apply in_seq; lia|]. apply in_flat_map. exists r. split; [apply in_seq; lia|]. apply in_map_iff. exists c. split; [reflexivity|apply in_seq; lia].
Qed.
Lemma off_inj c c' a a' : c < Nc -> c' < Nc -> a < nth c ss 0 -> a' < nth c' ss 0 -> off ss c + a = off ss c' + a' -> c = c' /\ a = a'.
Proof.
  intros Hc Hc' Ha Ha' E. assert (c = c').
  { pose proof (blocks_nth ss 0 c a Hc Ha) as E1. rewrite E, blocks_nth in E1 by assumption. lia. }
  subst c'. lia.
Qed.
Lemma points_nodup : NoDup (comm_points Nc ss).
Proof.
  unfold comm_points. change (fun i => list_sum (firstn i ss)) with (off ss).
  assert (R : forall i j x, In x (flat_map (fun r => map (fun c => (list_sum (firstn j ss) + r, list_sum (firstn i ss) + c)) (seq 0 (nth i ss 0))) (seq 0 (nth j ss 0))) ->
    exists r c, r < nth j ss 0 /\ c < nth i ss 0 /\ x = (off ss j + r, off ss i + c)).
  { intros i j x H. apply in_flat_map in H. destruct H as (r & Hr & H). apply in_seq in Hr. apply in_map_iff in H. destruct H as (c & <- & Hc). apply in_seq in Hc. exists r, c. split; [lia|]. split; [lia|reflexivity]. }
  apply NoDup_flat_map; [apply seq_NoDup| |].
  - intros i Hi. apply in_seq in Hi. apply NoDup_flat_map; [apply seq_NoDup| |].
    + intros j Hj. apply NoDup_flat_map; [apply seq_NoDup| |].
      * intros r _. apply map_seq_nodup. intros a b _ _ E. apply pair_equal_spec in E. lia.
      * intros r r' x _ _ H H'. rewrite map_seq_in in H, H'. destruct H as (a & _ & <-), H' as (b & _ & E). apply pair_equal_spec in E. lia.
    + intros j j' x Hj Hj' H H'. apply in_seq in Hj, Hj'. apply R in H. apply R in H'. destruct H as (r & c & Hr & Hc & ->), H' as (r' & c' & Hr' & Hc' & E). apply pair_equal_spec in E. destruct E as (E & _).
      apply (off_inj j j' r r'); try assumption; lia.
  - intros i i' x Hi Hi' H H'. apply in_seq in Hi, Hi'. apply in_flat_map in H. apply in_flat_map in H'. destruct H as (j & _ & H), H' as (j' & _ & H'). apply R in H. apply R in H'. destruct H as (r & c & Hr & Hc & ->), H' as (r' & c' & Hr' & Hc' & E). apply pair_equal_spec in E. destruct E as (_ & E).
    apply (off_inj i i' c c'); try assumption; lia.
Qed.
(** Every pair is either inside a community or between two. *)
Definition inside : list (nat * nat) := flat_map (fun c => map (fun p => (off ss c + fst p, off ss c + snd p)) (tril_pairs (nth c ss 0))) (seq 0 Nc).
Lemma inside_in a b : In (a, b) inside <-> b < a < N /\ nth a z 0 = nth b z 0.
Proof.
  unfold inside. rewrite in_flat_map. split.
  - intros (c & Hc & H). apply in_seq in Hc. apply in_map_iff in H. destruct H as ([r d] & E & H). apply tril_in in H. cbn [fst snd] in E. apply pair_equal_spec in E. destruct E as [<- <-].
    unfold blocks. rewrite !blocks_nth by lia. pose proof (block_lt c r ltac:(lia) ltac:(lia)). lia.
  - intros ((Hba & Ha) & E). destruct (in_block ss a Ha) as (j & r & Hj & Hr & Ea). destruct (in_block ss b ltac:(lia)) as (i & c & Hi & Hc & Eb). subst a b. unfold blocks in E. rewrite !blocks_nth in E by assumption. cbn [Nat.add] in E. subst j.
    exists i. split; [apply in_seq; lia|]. apply in_map_iff. exists (r, c). split; [reflexivity|apply tril_in; lia].
Qed.
Lemma inside_nodup : NoDup inside.
Proof.
  apply NoDup_flat_map; [apply seq_NoDup| |].
  - intros c _. apply FinFun.Injective_map_NoDup; [|apply tril_nodup]. intros [x y] [x' y'] E. cbn [fst snd] in E. apply pair_equal_spec in E. f_equal; lia.
  - intros c c' x Hc Hc' H H'. apply in_seq in Hc, Hc'. apply in_map_iff in H. apply in_map_iff in H'. destruct H as ([r d] & <- & H), H' as ([r' d'] & E & H'). apply tril_in in H. apply tril_in in H'. cbn [fst snd] in E. apply pair_equal_spec in E. destruct E as (E & _).
    symmetry in E. apply (off_inj c c' r r'); try assumption; lia.
Qed.
Lemma points_len : 2 * List.length (comm_points Nc ss) + list_sum (map (fun s => s * s) ss) = N * N.
Proof.
  assert (E : List.length (comm_points Nc ss) + List.length inside = List.length (tril_pairs N)).
  { rewrite <- app_length. apply Nat.le_antisymm.
    - apply NoDup_length_le; [apply NoDup_app_disj; [apply points_nodup|apply inside_nodup|]|].
      + intros [a b] H H'. apply points_in in H. apply inside_in in H'. tauto.
      + intros [a b] H. apply tril_in. apply in_app_or in H. destruct H as [H|H]; [apply points_in in H|apply inside_in in H]; lia.
    - apply NoDup_length_le; [apply tril_nodup|]. intros [a b] H. apply tril_in in H. apply in_or_app. destruct (Nat.eq_dec (nth a z 0) (nth b z 0)); [right; apply inside_in; lia|left; apply points_in; lia]. }
  assert (I : 2 * List.length inside + N = list_sum (map (fun s => s * s) ss)).
  { unfold inside. rewrite flat_map_length_sum. rewrite (map_ext _ (fun c => List.length (tril_pairs (nth c ss 0)))) by (intros; apply map_length).
    assert (Q : (map (fun c => List.length (tril_pairs (nth c ss 0))) (seq 0 (List.length ss))) = map (fun s => List.length (tril_pairs s)) ss).
    { clear. induction ss as [|s l IH]; [reflexivity|]. cbn [List.length seq map nth]. f_equal. rewrite <- seq_shift, map_map. exact IH. }
    rewrite Q. clear. induction ss as [|s l IH]; [reflexivity|]. cbn [map list_sum fold_right]. change (fold_right Nat.add 0) with list_sum. pose proof (tril_len s) as T. destruct s as [|s]; [cbn in *; lia|]. rewrite Nat.sub_succ, Nat.sub_0_r in T. nia. }
  pose proof (tril_len N) as T. destruct N as [|n]; [lia|]. rewrite Nat.sub_succ, Nat.sub_0_r in T. nia.
Qed.
End Blocks.
(** ** Rejection sampling *)
Section Reject.
Variables (N : nat) (z : list nat) (nb : nat) (ints : nat -> nat * nat).
Hypothesis Hints : forall t, fst (ints t) < N /\ snd (ints t) < N.
Definition inter_pair (p : nat * nat) : Prop := fst p < snd p < N /\ nth (fst p) z 0 <> nth (snd p) z 0.
Definition rej_inv (acc : list (nat * nat)) : Prop := NoDup acc /\ (forall p, In p acc -> inter_pair p) /\ List.length acc <= nb.
Definition rej_add (t : nat) (acc : list (nat * nat)) : list (nat * nat) :=
  let lo := Nat.min (fst (ints t)) (snd (ints t)) in let hi := Nat.max (fst (ints t)) (snd (ints t)) in
  if Nat.eqb (nth lo z 0) (nth hi z 0) then acc else if existsb (fun p => (Nat.eqb (fst p) lo && Nat.eqb (snd p) hi)%bool) acc then acc else acc ++ [(lo, hi)].
Lemma rej_step t acc : rej_inv acc -> List.length acc < nb -> rej_inv (rej_add t acc) /\ incl acc (rej_add t acc) /\
  (nth (fst (ints t)) z 0 <> nth (snd (ints t)) z 0 -> In (Nat.min (fst (ints t)) (snd (ints t)), Nat.max (fst (ints t)) (snd (ints t))) (rej_add t acc)).
Proof.
  intros (H1 & H2 & H3) Hlt. unfold rej_add. destruct (Hints t) as (B1 & B2). set (x := fst (ints t)) in *. set (y := snd (ints t)) in *. clearbody x y. cbv zeta. set (lo := Nat.min x y). set (hi := Nat.max x y).
  destruct (Nat.eqb_spec (nth lo z 0) (nth hi z 0)) as [E|E].
  - split; [split; auto|]. split; [apply incl_refl|]. intros Hne. exfalso. unfold lo, hi in E. destruct (Nat.le_gt_cases x y) as [Hc|Hc].
    + rewrite Nat.min_l, Nat.max_r in E by lia. contradiction.
    + rewrite Nat.min_r, Nat.max_l in E by lia. congruence.
  - assert (Hlh : lo < hi). { assert (lo <> hi) by congruence. unfold lo, hi in *. lia. }
    destruct (existsb _ acc) eqn:Ex.
    + split; [split; auto|]. split; [apply incl_refl|]. intros _. apply existsb_exists in Ex. destruct Ex as ([a b] & Hin & Ex). cbn [fst snd] in Ex. apply andb_true_iff in Ex. destruct Ex as (E1 & E2). apply Nat.eqb_eq in E1, E2. subst a b. exact Hin.
    + assert (Hni : ~ In (lo, hi) acc).
      { intros Hin. assert (X : existsb (fun p => (Nat.eqb (fst p) lo && Nat.eqb (snd p) hi)%bool) acc = true) by (apply existsb_exists; exists (lo, hi); cbn [fst snd]; rewrite !Nat.eqb_refl; auto). congruence. }
      split; [split; [|split]|split].
      * apply NoDup_app_disj; [exact H1|repeat constructor; intros []|]. intros p Hp [<-|[]]. contradiction.
      * intros p Hp. apply in_app_or in Hp. destruct Hp as [Hp|[<-|[]]]; [apply H2; exact Hp|]. split; [cbn [fst snd]; unfold lo, hi in *; lia|exact E].
      * rewrite app_length. cbn [List.length]. lia.
      * intros p Hp. apply in_or_app. left. exact Hp.
      * intros _. apply in_or_app. right. left. reflexivity.
Qed.
Lemma reject_unfold fuel t acc : comm_reject fuel z nb ints t acc = if Nat.leb nb (List.length acc) then Some acc else match fuel with O => None | S f => comm_reject f z nb ints (S t) (rej_add t acc) end.
Proof. destruct fuel; reflexivity. Qed.
Lemma reject_ok fuel : forall t acc l, rej_inv acc -> comm_reject fuel z nb ints t acc = Some l -> rej_inv l /\ List.length l = nb.
Proof.
  induction fuel as [|fuel IH]; intros t acc l Hi; rewrite reject_unfold; destruct (Nat.leb_spec nb (List.length acc)) as [H|H]; try discriminate; try (intros E; injection E as <-; split; [exact Hi|]; destruct Hi as (_ & _ & Hi); lia).
  intros E. apply (IH _ _ _ (proj1 (rej_step t acc Hi H)) E).
Qed.
Lemma reject_none fuel : forall t acc, rej_inv acc -> comm_reject fuel z nb ints t acc = None ->
  exists acc', rej_inv acc' /\ List.length acc' < nb /\ incl acc acc' /\ forall s, t <= s < t + fuel -> nth (fst (ints s)) z 0 <> nth (snd (ints s)) z 0 -> In (Nat.min (fst (ints s)) (snd (ints s)), Nat.max (fst (ints s)) (snd (ints s))) acc'.
Proof.
  induction fuel as [|fuel IH]; intros t acc Hi; rewrite reject_unfold; destruct (Nat.leb_spec nb (List.length acc)) as [H|H]; try discriminate; intros E.
  - exists acc. split; [exact Hi|]. split; [exact H|]. split; [apply incl_refl|]. intros s Hs. lia.
  - destruct (rej_step t acc Hi H) as (Hi' & Hinc & Hadd). destruct (IH _ _ Hi' E) as (acc' & K1 & K2 & K3 & K4). exists acc'. split; [exact K1|]. split; [exact K2|]. split; [intros p Hp; apply K3, Hinc; exact Hp|].
    intros s Hs Hne. destruct (Nat.eq_dec s t) as [->|Hst]; [apply K3, Hadd; exact Hne|]. apply K4; [lia|exact Hne].
Qed.
End Reject.
(** ** Python numbers *)
Lemma py_int_le (x : R) n : (0 <= x <= INR n)%R -> py_int x <= n.
Proof.
  intros (H0 & H1). unfold py_int. destruct (base_Int_part x) as (B1 & B2). apply Nat2Z.inj_le. rewrite Z2Nat.id.
  - apply le_IZR. rewrite <- INR_IZR_INZ. lra.
  - assert (X : (-1 < Int_part x)%Z) by (apply lt_IZR; lra). lia.
Qed.
Lemma filter_full {A} (f : A -> bool) l : List.length l <= List.length (filter f l) -> filter f l = l /\ forall x, In x l -> f x = true.
Proof.
  induction l as [|x l IH]; intros H; [split; [reflexivity|intros x []]|]. cbn [filter] in *. assert (L : forall l : list A, List.length (filter f l) <= List.length l) by (clear; induction l as [|a l IH]; [reflexivity|cbn; destruct (f a); cbn [List.length]; lia]).
  destruct (f x) eqn:E; cbn [List.length] in H; [|specialize (L l); lia]. destruct (IH ltac:(lia)) as (-> & Hx). split; [reflexivity|]. intros y [<-|Hy]; auto.
Qed.
(** ** Contracts of the generator *)
Definition rng_ok (P : comm_args) (rng : comm_rng) : Prop :=
  (c_sizes P = None -> List.length (r_choice rng) = c_N P - the_min_comm P * the_Nc P /\ forall x, In x (r_choice rng) -> x < the_Nc P) /\
  (forall i n, Permutation (r_perm rng i n) (seq 0 n)) /\ (forall t, fst (r_ints rng t) < c_N P /\ snd (r_ints rng t) < c_N P).
Lemma tile_count Nc m c : c < Nc -> cnt (flat_map (fun _ => seq 0 Nc) (seq 0 m)) c = m.
Proof.
  intros Hc. assert (H1 : cnt (seq 0 Nc) c = 1) by (apply NoDup_count_occ'; [apply seq_NoDup | apply in_seq; lia]).
  generalize 0 at 2 as s0. induction m as [|m IH]; intros s0; [reflexivity|]. cbn [seq flat_map]. rewrite count_occ_app, H1, IH. reflexivity.
Qed.
Lemma tile_len Nc m : List.length (flat_map (fun _ => seq 0 Nc) (seq 0 m)) = m * Nc.
Proof. generalize 0 at 2 as s0. induction m as [|m IH]; intros s0; [reflexivity|]. cbn [seq flat_map]. rewrite app_length, seq_length, IH. reflexivity. Qed.
Lemma labels_ok P rng z : rng_ok P rng -> the_min_comm P * the_Nc P <= c_N P -> comm_labels P rng = Ok z ->
  List.length z = c_N P /\ StronglySorted le z /\ (forall x, In x z -> x < the_Nc P) /\
  (c_sizes P = None -> forall c, c < the_Nc P -> the_min_comm P <= cnt z c) /\ (forall ss, c_sizes P = Some ss -> forall c, cnt z c = nth c ss 0).
Proof.
  intros (Hch & _) Hmin. unfold comm_labels. destruct (c_sizes P) as [ss|] eqn:Es.
  - destruct (Nat.eqb_spec (List.length ss) (the_Nc P)) as [E1|]; cbn [negb]; [|discriminate]. destruct (Nat.eqb_spec (list_sum ss) (c_N P)) as [E2|]; cbn [negb]; [|discriminate].
    intros E. injection E as <-. change (flat_map (fun c => repeat c (nth c ss 0)) (seq 0 (List.length ss))) with (flat_map (fun c => repeat (0 + c) (nth c ss 0)) (seq 0 (List.length ss))). rewrite <- (blocks_from_map ss 0).
    split; [rewrite blocks_len; exact E2|]. split; [apply blocks_sorted|]. split; [intros x Hx; apply blocks_ge in Hx; lia|]. split; [discriminate|]. intros ss' Ess c. injection Ess as <-. apply (blocks_count ss 0 c).
  - destruct (_ && _)%bool; [discriminate|]. intros E. injection E as <-. destruct (Hch eq_refl) as (Hl & Hx). pose proof (isort_perm (flat_map (fun _ => seq 0 (the_Nc P)) (seq 0 (the_min_comm P)) ++ r_choice rng)) as HP.
    split; [rewrite (Permutation_length HP), app_length, tile_len, Hl; lia|]. split; [apply isort_sorted|]. split.
    + intros x H. apply (Permutation_in _ HP) in H. apply in_app_or in H. destruct H as [H|H]; [|apply Hx; exact H]. apply in_flat_map in H. destruct H as (_ & _ & H). apply in_seq in H. lia.
    + split; [|discriminate]. intros _ c Hc. rewrite (proj1 (Permutation_count_occ Nat.eq_dec _ _) HP c), count_occ_app, tile_count by exact Hc. lia.
Qed.
(** ** Symmetric lists of pairs *)
Definition swap (p : nat * nat) : nat * nat := (snd p, fst p).
Lemma swap_in p l : In p (map swap l) <-> In (swap p) l.
Proof.
  rewrite in_map_iff. split.
  - intros (q & <- & H). destruct q. exact H.
  - intros H. exists (swap p). split; [destruct p; reflexivity|exact H].
Qed.
Lemma sym_nodup E : NoDup E -> (forall p, In p E -> ~ In (swap p) E) -> NoDup (E ++ map swap E) /\ (forall i j, In (i, j) (E ++ map swap E) <-> In (i, j) E \/ In (j, i) E).
Proof.
  intros Hn Hs. split.
  - apply NoDup_app_disj; [exact Hn|apply FinFun.Injective_map_NoDup; [intros [a b] [c d] X; injection X as -> ->; reflexivity|exact Hn]|]. intros p H H'. apply swap_in in H'. exact (Hs p H H').
  - intros i j. rewrite in_app_iff, swap_in. reflexivity.
Qed.
(** ** The edges inside a community *)
Section Intra.
Variables (P : comm_args) (rng : comm_rng) (pos : nat -> R * R).
Hypothesis Hrng : rng_ok P rng.
Definition dist (p q : R * R) : R := sqrt ((fst p - fst q) * (fst p - fst q) + (snd p - snd q) * (snd p - snd q)).
Lemma near_in n f eps a b : In (a, b) (near_pairs n f eps) <-> a < b < n /\ (dist (f a) (f b) <= eps)%R.
Proof.
  unfold near_pairs. change (fun p : nat * nat => (snd p, fst p)) with swap. rewrite filter_In, swap_in. unfold swap. cbn [fst snd]. rewrite tril_in. unfold dist, Rleb. destruct (Rle_dec _ eps); split; intros (H1 & H2); (split; [exact H1|]); try assumption; try reflexivity; try discriminate; contradiction.
Qed.
Lemma intra_ok i first s : (forall d, c_density P = Some d -> (0 <= d <= 1)%R) ->
  NoDup (comm_intra P rng pos i first s) /\ (forall u v, In (u, v) (comm_intra P rng pos i first s) -> exists a b, a < b < s /\ u = first + a /\ v = first + b) /\
  (forall d, c_density P = Some d -> List.length (comm_intra P rng pos i first s) = py_int (d * (INR (s * (s - 1)) / 2))) /\
  (c_density P = None -> forall k, c_k_neigh P = Some k -> comm_intra P rng pos i first s = []) /\
  (c_density P = None -> c_k_neigh P = None -> forall a b, In (first + a, first + b) (comm_intra P rng pos i first s) <-> a < b < s /\ (dist (pos (first + a)) (pos (first + b)) <= the_eps P)%R).
Proof.
  intros Hd. destruct Hrng as (_ & Hperm & _). unfold comm_intra. destruct (c_density P) as [d|].
  - specialize (Hd d eq_refl). set (nb := py_int _). set (p := r_perm rng i _).
    assert (Hp : Permutation p (seq 0 (List.length (tril_pairs s)))) by (rewrite tril_len'; apply Hperm).
    destruct (pick_ok (tril_pairs s) p nb (tril_nodup s) Hp) as (K1 & K2 & K3).
    rewrite <- (map_map (fun e => nth e (tril_pairs s) (0, 0)) (fun x => (first + snd x, first + fst x))).
    split; [apply FinFun.Injective_map_NoDup; [intros [a b] [c e] E; cbn [fst snd] in E; apply pair_equal_spec in E; f_equal; lia|exact K1]|].
    split; [|split; [|split; discriminate]].
    + intros u v H. apply in_map_iff in H. destruct H as ([r c] & E & H). apply K2, tril_in in H. cbn [fst snd] in E. apply pair_equal_spec in E. destruct E as [<- <-]. exists c, r. lia.
    + intros d' E. injection E as <-. rewrite map_length. apply K3. apply py_int_le. rewrite <- (tril_len s), mult_INR. change (INR 2) with 2%R. pose proof (pos_INR (List.length (tril_pairs s))). split; [|].
      * apply Rmult_le_pos; [lra|]. lra.
      * replace (2 * INR (List.length (tril_pairs s)) / 2)%R with (INR (List.length (tril_pairs s))) by field. rewrite <- (Rmult_1_l (INR (List.length (tril_pairs s)))) at 2. apply Rmult_le_compat_r; lra.
  - destruct (c_k_neigh P) as [k|].
    + split; [constructor|]. split; [intros u v []|]. split; [discriminate|]. split; [reflexivity|discriminate].
    + split; [|split; [|split; [discriminate|split; [discriminate|]]]].
      * apply FinFun.Injective_map_NoDup; [intros [a b] [c e] E; cbn [fst snd] in E; apply pair_equal_spec in E; f_equal; lia|]. apply NoDup_filter, FinFun.Injective_map_NoDup; [|apply tril_nodup]. intros [a b] [c e] E. cbn [fst snd] in E. apply pair_equal_spec in E. destruct E as [-> ->]. reflexivity.
      * intros u v H. apply in_map_iff in H. destruct H as ([a b] & E & H). apply near_in in H. cbn [fst snd] in E. apply pair_equal_spec in E. destruct E as [<- <-]. exists a, b. tauto.
      * intros _ _ a b. rewrite in_map_iff. split.
        -- intros ([a' b'] & E & H). cbn [fst snd] in E. apply pair_equal_spec in E. assert (a' = a) by lia. assert (b' = b) by lia. subst. apply near_in in H. exact H.
        -- intros H. exists (a, b). split; [reflexivity|]. apply near_in. exact H.
Qed.
End Intra.
Lemma inter_count (w : R) ss : (0 <= w <= 1)%R -> let M := List.length (comm_points (List.length ss) ss) in
  ((INR (list_sum ss * list_sum ss)%nat - INR (list_sum (map (fun s => (s * s)%nat) ss))) / 2 = INR M)%R /\ (list_sum ss * list_sum ss - list_sum (map (fun s => s * s) ss)) / 2 = M /\ py_int (w * INR M) <= M.
Proof.
  intros Hw M. pose proof (points_len ss) as E. fold M in E. split; [|split].
  - rewrite <- E, plus_INR, mult_INR. change (INR 2) with 2%R. field.
  - rewrite <- E. replace (2 * M + list_sum (map (fun s => s * s) ss) - list_sum (map (fun s => s * s) ss)) with (M * 2) by lia. apply Nat.div_mul. lia.
  - apply py_int_le. pose proof (pos_INR M). split; [apply Rmult_le_pos; lra|]. rewrite <- (Rmult_1_l (INR M)) at 2. apply Rmult_le_compat_r; lra.
Qed.
(** pairs of vertices of different communities, smaller first *)
Definition between (N : nat) (z : list nat) (e : nat * nat) : Prop := fst e < snd e < N /\ nth (fst e) z 0 <> nth (snd e) z 0.
Definition within (N : nat) (z : list nat) (c : nat) (e : nat * nat) : Prop := fst e < snd e < N /\ nth (fst e) z 0 = c /\ nth (snd e) z 0 = c.
Lemma points_card ss : card (between (list_sum ss) (blocks ss)) (List.length (comm_points (List.length ss) ss)).
Proof.
  exists (map swap (comm_points (List.length ss) ss)). split; [|split; [|apply map_length]].
  - apply FinFun.Injective_map_NoDup; [intros [a b] [c d] X; injection X as -> ->; reflexivity|apply points_nodup].
  - intros [u v]. rewrite swap_in. unfold swap, between. cbn [fst snd]. rewrite points_in. split; intros (H1 & H2); (split; [lia|congruence]).
Qed.
Lemma inter_ok fuel P rng ss l : rng_ok P rng -> List.length ss = the_Nc P -> list_sum ss = c_N P -> (0 <= the_world P <= 1)%R -> comm_inter fuel P rng (blocks ss) ss = Some l ->
  exists l', (l' = l \/ l' = map swap l) /\ NoDup l' /\ (forall p, In p l' -> between (c_N P) (blocks ss) p) /\ List.length l' = py_int (the_world P * INR (List.length (comm_points (List.length ss) ss))).
Proof.
  intros (_ & Hperm & Hints) HN Hs Hw. unfold comm_inter. cbv zeta. destruct (inter_count (the_world P) ss Hw) as (E1 & E2 & E3). cbv zeta in E1, E2, E3. rewrite Hs in E1, E2. rewrite E1, E2. set (nb := py_int _) in *.
  destruct (Rltb (the_world P) (35 / 100)).
  - intros H. assert (I0 : rej_inv (c_N P) (blocks ss) nb []) by (split; [constructor|split; [intros p []|cbn; lia]]). destruct (reject_ok (c_N P) (blocks ss) nb (r_ints rng) Hints _ _ _ _ I0 H) as ((R1 & R2 & _) & R3). exists l. split; [left; reflexivity|]. auto.
  - intros H. injection H as <-. rewrite <- HN.
    destruct (pick_ok (comm_points (List.length ss) ss) (r_perm rng (List.length ss) (List.length (comm_points (List.length ss) ss))) nb (points_nodup ss) (Hperm _ _)) as (K1 & K2 & K3).
    eexists. split; [right; reflexivity|]. split; [apply FinFun.Injective_map_NoDup; [intros [a b] [c d] X; injection X as -> ->; reflexivity|exact K1]|]. split; [|rewrite map_length; apply K3; exact E3].
    intros [u v] H. apply swap_in, K2 in H. unfold swap in H. cbn [fst snd] in H. apply points_in in H. rewrite Hs in H. unfold between. cbn [fst snd]. split; [lia|]. destruct H as (_ & H). congruence.
Qed.
(** The core: the edge set is the union of the lists of the communities and of the list between communities. *)
Lemma comm_run fuel P rng lap G z : rng_ok P rng -> valid_lap lap -> Community fuel P rng lap = Some (Ok (G, z)) ->
  exists ss IE BE, let pos := comm_coord P rng z ss in
    List.length ss = the_Nc P /\ list_sum ss = c_N P /\ z = blocks ss /\ (forall c, c < the_Nc P -> 0 < nth c ss 0) /\ the_min_comm P * the_Nc P <= c_N P /\ comm_labels P rng = Ok z /\
    (forall d, c_density P = Some d -> (0 <= d <= 1)%R) /\ (0 <= the_world P <= 1)%R /\
    NoDup (IE ++ BE) /\ IE = flat_map (fun i => comm_intra P rng pos i (off ss i) (nth i ss 0)) (seq 0 (the_Nc P)) /\
    (forall u v, In (u, v) IE -> u < v < c_N P /\ nth u z 0 = nth v z 0) /\ (forall p, In p BE -> between (c_N P) z p) /\
    List.length BE = py_int (the_world P * INR (List.length (comm_points (List.length ss) ss))) /\
    unit_graph G (c_N P) (fun i j => In (i, j) (IE ++ BE) \/ In (j, i) (IE ++ BE)) /\ undirected G /\ loop_free G /\ g_n_edges G = List.length (IE ++ BE) /\
    g_coords G = Some (map (fun v => [fst (pos v); snd (pos v)]) (seq 0 (c_N P))).
Proof.
  intros Hrng Hl. unfold Community. destruct (c_min_deg P); [discriminate|]. destruct (negb _) eqn:Ew; [discriminate|]. apply negb_false_iff, andb_true_iff in Ew. destruct Ew as (Ew1 & Ew2). unfold Rleb in Ew1, Ew2. destruct (Rle_dec 0 (the_world P)) as [W0|]; [|discriminate]. destruct (Rle_dec (the_world P) 1) as [W1|]; [|discriminate].
  destruct (Nat.ltb_spec (c_N P) (the_min_comm P * the_Nc P)) as [|Hmin]; [discriminate|]. destruct (comm_labels P rng) as [z'|] eqn:Elab; [|discriminate].
  destruct (match c_density P with Some d => _ | None => _ end) eqn:Ed; [discriminate|]. destruct (Nat.ltb_spec (List.length (comm_counts (the_Nc P) z')) (the_Nc P)) as [|Hlen]; [discriminate|].
  destruct (labels_ok P rng z' Hrng Hmin Elab) as (Lz & Sz & Bz & _).
  assert (Hd : forall d, c_density P = Some d -> (0 <= d <= 1)%R).
  { intros d E. rewrite E in Ed. apply negb_false_iff, andb_true_iff in Ed. destruct Ed as (D1 & D2). unfold Rleb in D1, D2. destruct (Rle_dec 0 d); [|discriminate]. destruct (Rle_dec d 1); [|discriminate]. split; assumption. }
  destruct (filter_full (fun s => negb (Nat.eqb s 0)) (map (fun c => cnt z' c) (seq 0 (the_Nc P)))) as (Ef & Hpos); [rewrite map_length, seq_length; exact Hlen|].
  unfold comm_counts in *. rewrite Ef in *. clear Ef. pose proof (sorted_blocks z' (the_Nc P) Sz Bz) as Ez. set (ss := map (fun c => cnt z' c) (seq 0 (the_Nc P))) in *.
  assert (HNc : List.length ss = the_Nc P) by (unfold ss; rewrite map_length, seq_length; reflexivity).
  assert (HN : list_sum ss = c_N P) by (rewrite <- Lz; rewrite Ez at 1; unfold blocks; symmetry; apply blocks_len).
  assert (Hp : forall c, c < the_Nc P -> 0 < nth c ss 0).
  { intros c Hc. assert (H : In (nth c ss 0) ss) by (apply nth_In; lia). apply Hpos in H. destruct (Nat.eqb_spec (nth c ss 0) 0); [discriminate|lia]. }
  clearbody ss. set (pos := comm_coord P rng z' ss). set (IE := flat_map (fun i => comm_intra P rng pos i (list_sum (firstn i ss)) (nth i ss 0)) (seq 0 (the_Nc P))).
  destruct (comm_inter fuel P rng z' ss) as [l|] eqn:Ei; [|discriminate]. intros H.
  assert (Ei' := Ei). rewrite Ez in Ei'. destruct (inter_ok fuel P rng ss l Hrng HNc HN (conj W0 W1) Ei') as (BE & HBE & B1 & B2 & B3). rewrite <- Ez in B2.
  assert (Hblk : forall c a, c < the_Nc P -> a < nth c ss 0 -> nth (off ss c + a) z' 0 = c /\ off ss c + a < c_N P).
  { intros c a Hc Ha. rewrite Ez. unfold blocks. rewrite blocks_nth by lia. split; [reflexivity|]. rewrite <- HN. apply block_lt; lia. }
  assert (HIE : forall u v, In (u, v) IE -> u < v < c_N P /\ nth u z' 0 = nth v z' 0).
  { intros u v H0. apply in_flat_map in H0. destruct H0 as (c & Hc & H0). apply in_seq in Hc. apply (intra_ok P rng pos Hrng c _ _ Hd) in H0. destruct H0 as (a & b & Hab & -> & ->). change (list_sum (firstn c ss)) with (off ss c).
    destruct (Hblk c a ltac:(lia) ltac:(lia)), (Hblk c b ltac:(lia) ltac:(lia)). split; [lia|congruence]. }
  assert (NIE : NoDup IE).
  { apply NoDup_flat_map; [apply seq_NoDup|intros c _; apply (intra_ok P rng pos Hrng c _ _ Hd)|]. intros c c' [u v] Hc Hc' X X'. apply in_seq in Hc, Hc'. apply (intra_ok P rng pos Hrng c _ _ Hd) in X. apply (intra_ok P rng pos Hrng c' _ _ Hd) in X'.
    destruct X as (a & b & Hab & -> & ->), X' as (a' & b' & Hab' & E & _). apply (off_inj ss c c' a a'); try lia. exact E. }
  assert (NE : NoDup (IE ++ BE)).
  { apply NoDup_app_disj; [exact NIE|exact B1|]. intros [u v] X X'. apply HIE in X. apply B2 in X'. destruct X' as (_ & X'). cbn [fst snd] in X'. tauto. }
  assert (NL : NoDup (IE ++ l) /\ (forall p, In p (IE ++ l) -> ~ In (swap p) (IE ++ l)) /\ (forall i j, (In (i, j) (IE ++ l) \/ In (j, i) (IE ++ l)) <-> (In (i, j) (IE ++ BE) \/ In (j, i) (IE ++ BE))) /\ List.length (IE ++ l) = List.length (IE ++ BE)).
  { destruct HBE as [->|HBE].
    - split; [exact NE|]. split; [|split; [reflexivity|reflexivity]]. intros [u v] X X'. assert (Q : forall a b, In (a, b) (IE ++ l) -> a < b) by (intros a b Y; apply in_app_or in Y; destruct Y as [Y|Y]; [apply HIE in Y|apply B2 in Y; destruct Y as (Y & _); cbn in Y]; lia).
      apply Q in X. unfold swap in X'. cbn [fst snd] in X'. apply Q in X'. lia.
    - assert (Bl : forall a b, In (a, b) l -> b < a < c_N P /\ nth b z' 0 <> nth a z' 0) by (intros a b Y; apply (B2 (b, a)); rewrite HBE; apply swap_in; exact Y).
      split; [|split; [|split]].
      + apply NoDup_app_disj; [exact NIE|rewrite HBE in B1; apply NoDup_map_inv in B1; exact B1|]. intros [u v] X X'. apply HIE in X. apply Bl in X'. lia.
      + intros [u v] X X'. unfold swap in X'. cbn [fst snd] in X'. apply in_app_or in X. apply in_app_or in X'. destruct X as [X|X], X' as [X'|X']; [apply HIE in X; apply HIE in X'|apply HIE in X; apply Bl in X'|apply Bl in X; apply HIE in X'|apply Bl in X; apply Bl in X']; lia || (destruct X, X'; congruence).
      + intros i j. rewrite HBE, !in_app_iff, !swap_in. unfold swap. cbn [fst snd]. tauto.
      + rewrite HBE, !app_length, map_length. reflexivity. }
  destruct NL as (N1 & N2 & N3 & N4). destruct (sym_nodup _ N1 N2) as (S1 & S2). change (fun p : nat * nat => (snd p, fst p)) with swap in H.
  assert (N5 : forall i j, In (i, j) (IE ++ BE) -> i < j < c_N P) by (intros i j Y; apply in_app_or in Y; destruct Y as [Y|Y]; [apply HIE in Y|apply B2 in Y; destruct Y as (Y & _); cbn in Y]; lia).
  destruct (simple_unit (c_N P) ((IE ++ l) ++ map swap (IE ++ l)) lap (Some (map (fun v => [fst (pos v); snd (pos v)]) (seq 0 (c_N P)))) S1) as (G' & EG & HU & Hu & Hlf & _ & Hedges & _ & Hc).
  { intros [i j] X. apply S2, N3 in X. cbn [fst snd]. destruct X as [X|X]; apply N5 in X; lia. }
  { intros i j X. apply S2. apply S2 in X. tauto. }
  { intros i X. apply S2, N3 in X. destruct X as [X|X]; apply N5 in X; lia. }
  { exact Hl. }
  rewrite EG in H. injection H as <- <-. exists ss, IE, BE. cbv zeta.
  split; [exact HNc|]. split; [exact HN|]. split; [exact Ez|]. split; [exact Hp|]. split; [exact Hmin|]. split; [reflexivity|]. split; [exact Hd|]. split; [exact (conj W0 W1)|]. split; [exact NE|]. split; [reflexivity|]. split; [exact HIE|]. split; [exact B2|]. split; [exact B3|].
  split; [|split; [exact Hu|split; [exact Hlf|split; [|exact Hc]]]].
  - revert HU. apply unit_graph_iff. intros i j _ _. rewrite S2. apply N3.
  - rewrite app_length, map_length in Hedges. lia.
Qed.
(** ** Consequences *)
Lemma py_int_spec x : (0 <= x)%R -> (INR (py_int x) <= x < INR (py_int x) + 1)%R.
Proof.
  intros H. unfold py_int. destruct (base_Int_part x) as (B1 & B2). assert (X : (-1 < Int_part x)%Z) by (apply lt_IZR; lra).
  rewrite INR_IZR_INZ, Z2Nat.id by lia. lra.
Qed.
Lemma unit_iff G n (E : nat -> nat -> Prop) i j : (forall i j, {E i j} + {~ E i j}) -> unit_graph G n E -> i < n -> j < n -> (wt G i j = 1%R <-> E i j).
Proof.
  intros D (_ & _ & H) Hi Hj. destruct (H i j Hi Hj) as (H1 & H0). split; [|exact H1]. intros E1. destruct (D i j) as [|H2]; [assumption|]. specialize (H0 H2). lra.
Qed.
Lemma in_dec2 (l : list (nat * nat)) i j : {In (i, j) l \/ In (j, i) l} + {~ (In (i, j) l \/ In (j, i) l)}.
Proof. destruct (in_dec pair_dec (i, j) l); [left; auto|]. destruct (in_dec pair_dec (j, i) l); [left; auto|right; tauto]. Qed.
Lemma nodup_app_r {A} (l l' : list A) : NoDup (l ++ l') -> NoDup l'.
Proof. induction l as [|x l IH]; [auto|]. cbn [app]. intros H. inversion H. auto. Qed.
(** the point drawn for vertex v *)
Definition place (cs : list (list R)) (v : nat) : R * R := (nth 0 (nth v cs []) 0%R, nth 1 (nth v cs []) 0%R).
Section Run.
Variables (fuel : nat) (P : comm_args) (rng : comm_rng) (lap : laptype) (G : graph) (z : list nat).
Hypothesis Hrng : rng_ok P rng.
Hypothesis Hl : valid_lap lap.
Hypothesis HC : Community fuel P rng lap = Some (Ok (G, z)).
(** weights are 0 or 1, no direction, no loop *)
Theorem C55_graph : built G /\ g_n_vertices G = c_N P /\ undirected G /\ loop_free G /\ (forall i j, i < c_N P -> j < c_N P -> wt G i j = 0%R \/ wt G i j = 1%R).
Proof.
  destruct (comm_run _ _ _ _ _ _ Hrng Hl HC) as (ss & IE & BE & _ & _ & _ & _ & _ & _ & _ & _ & _ & _ & _ & _ & _ & HU & Hu & Hlf & _).
  destruct HU as (H1 & H2 & H3). split; [exact H1|]. split; [exact H2|]. split; [exact Hu|]. split; [exact Hlf|]. intros i j Hi Hj. destruct (H3 i j Hi Hj) as (A & B). destruct (in_dec2 (IE ++ BE) i j); auto.
Qed.
(** labels are sorted; every community occurs; each has at least min_comm vertices, or exactly the size asked for *)
Theorem C55_labels : List.length z = c_N P /\ StronglySorted le z /\ (forall c, In c z <-> c < the_Nc P) /\
  (c_sizes P = None -> forall c, c < the_Nc P -> the_min_comm P <= cnt z c) /\ (forall ss, c_sizes P = Some ss -> List.length ss = the_Nc P /\ forall c, cnt z c = nth c ss 0).
Proof.
  destruct (comm_run _ _ _ _ _ _ Hrng Hl HC) as (ss & IE & BE & E1 & E2 & Ez & Hp & Hm & El & _). destruct (labels_ok P rng z Hrng Hm El) as (L1 & L2 & L3 & L4 & L5).
  split; [exact L1|]. split; [exact L2|]. split; [|split; [exact L4|]].
  - intros c. split; [apply L3|]. intros Hc. apply (count_occ_In Nat.eq_dec). rewrite Ez. unfold blocks. pose proof (blocks_count ss 0 c) as B. cbn [Nat.add] in B. rewrite B. apply Hp. exact Hc.
  - intros ss' Es. split; [|apply L5; exact Es]. unfold comm_labels in El. rewrite Es in El. destruct (Nat.eqb_spec (List.length ss') (the_Nc P)); [assumption|discriminate].
Qed.
(** the number of edges between communities is the floor of world_density times the number of pairs of vertices of different communities *)
Theorem C55_inter_edges M : card (between (c_N P) z) M ->
  exists k, card (fun e => between (c_N P) z e /\ wt G (fst e) (snd e) = 1%R) k /\ (INR k <= the_world P * INR M < INR k + 1)%R.
Proof.
  intros HM. destruct (comm_run _ _ _ _ _ _ Hrng Hl HC) as (ss & IE & BE & E1 & E2 & Ez & _ & _ & _ & _ & Hw & ND & _ & HIE & HBE & HL & HU & _).
  pose proof (points_card ss) as C0. rewrite E2, <- Ez in C0. pose proof (card_unique _ _ _ HM C0) as EM. rewrite <- EM in HL. exists (py_int (the_world P * INR M)). split.
  - exists BE. split; [apply nodup_app_r in ND; exact ND|]. split; [|exact HL]. intros [u v]. cbn [fst snd]. split.
    + intros H. assert (B := HBE _ H). split; [exact B|]. destruct B as ((B1 & B2) & _). cbn [fst snd] in B1, B2. apply (unit_iff G _ _ u v (in_dec2 _) HU); try lia. left. apply in_or_app. right. exact H.
    + intros (((B1 & B2) & B3) & H). cbn [fst snd] in *. apply (unit_iff G _ _ u v (in_dec2 _) HU) in H; try lia. rewrite !in_app_iff in H. destruct H as [[H|H]|[H|H]]; [apply HIE in H; tauto|exact H|apply HIE in H; lia|apply HBE in H; destruct H as (H & _); cbn in H; lia].
  - apply py_int_spec. apply Rmult_le_pos; [lra|apply pos_INR].
Qed.
Lemma intra_iff ss IE BE u v c : let pos := comm_coord P rng z ss in List.length ss = the_Nc P -> list_sum ss = c_N P -> z = blocks ss -> (forall d, c_density P = Some d -> (0 <= d <= 1)%R) ->
  IE = flat_map (fun i => comm_intra P rng pos i (off ss i) (nth i ss 0)) (seq 0 (the_Nc P)) -> (forall p, In p BE -> between (c_N P) z p) ->
  unit_graph G (c_N P) (fun i j => In (i, j) (IE ++ BE) \/ In (j, i) (IE ++ BE)) -> u < v < c_N P -> nth u z 0 = c -> nth v z 0 = c -> c < the_Nc P ->
  (wt G u v = 1%R <-> In (u, v) (comm_intra P rng pos c (off ss c) (nth c ss 0))).
Proof.
  intros pos E1 E2 Ez Hd EI HBE HU Huv Hu Hv Hc. rewrite (unit_iff G _ _ u v (in_dec2 _) HU) by lia.
  assert (Q : forall a b i, i < the_Nc P -> In (a, b) (comm_intra P rng pos i (off ss i) (nth i ss 0)) -> a < b /\ nth a z 0 = i /\ nth b z 0 = i).
  { intros a b i Hi H. apply (intra_ok P rng pos Hrng i _ _ Hd) in H. destruct H as (a' & b' & Hab & -> & ->). rewrite Ez. unfold blocks. rewrite !blocks_nth by lia. lia. }
  split.
  - intros H. rewrite !in_app_iff in H. destruct H as [[H|H]|[H|H]].
    + rewrite EI in H. apply in_flat_map in H. destruct H as (i & Hi & H). apply in_seq in Hi. pose proof (Q _ _ i ltac:(lia) H). replace c with i by lia. exact H.
    + apply HBE in H. destruct H as (_ & H). cbn in H. congruence.
    + rewrite EI in H. apply in_flat_map in H. destruct H as (i & Hi & H). apply in_seq in Hi. pose proof (Q _ _ i ltac:(lia) H). lia.
    + apply HBE in H. destruct H as (_ & H). cbn in H. congruence.
  - intros H. left. apply in_or_app. left. rewrite EI. apply in_flat_map. exists c. split; [apply in_seq; lia|exact H].
Qed.
(** comm_density: every community of s vertices gets floor(d s (s-1) / 2) edges *)
Theorem C55_density d c : c_density P = Some d -> c < the_Nc P ->
  exists k, card (fun e => within (c_N P) z c e /\ wt G (fst e) (snd e) = 1%R) k /\ let s := INR (cnt z c) in (INR k <= d * (s * (s - 1) / 2) < INR k + 1)%R.
Proof.
  intros Ed Hc. destruct (comm_run _ _ _ _ _ _ Hrng Hl HC) as (ss & IE & BE & E1 & E2 & Ez & Hp & _ & _ & Hd & _ & _ & EI & _ & HBE & _ & HU & _).
  pose proof (blocks_count ss 0 c) as B. cbn [Nat.add] in B. fold (blocks ss) in B. rewrite <- Ez in B. rewrite B. set (s := nth c ss 0) in *.
  destruct (intra_ok P rng (comm_coord P rng z ss) Hrng c (off ss c) s Hd) as (I1 & I2 & I3 & _). specialize (I3 d Ed).
  assert (Es : INR (s * (s - 1)) = (INR s * (INR s - 1))%R). { specialize (Hp c Hc). fold s in Hp. rewrite mult_INR, minus_INR by lia. reflexivity. }
  rewrite Es in I3. exists (py_int (d * (INR s * (INR s - 1) / 2))). split.
  - exists (comm_intra P rng (comm_coord P rng z ss) c (off ss c) s). split; [exact I1|]. split; [|exact I3]. intros [u v]. cbn [fst snd]. split.
    + intros H. assert (W : within (c_N P) z c (u, v)).
      { destruct (I2 _ _ H) as (a & b & Hab & -> & ->). unfold within. cbn [fst snd]. rewrite Ez. unfold blocks. rewrite !blocks_nth by (fold s; lia). pose proof (block_lt ss c b ltac:(lia) ltac:(fold s; lia)). lia. }
      split; [exact W|]. destruct W as (W1 & W2 & W3). cbn [fst snd] in *. apply (intra_iff ss IE BE u v c); assumption.
    + intros ((W1 & W2 & W3) & H). cbn [fst snd] in *. apply (intra_iff ss IE BE u v c) in H; assumption.
  - cbv zeta. apply py_int_spec. rewrite <- Es. specialize (Hd d Ed). apply Rmult_le_pos; [lra|]. pose proof (pos_INR (s * (s - 1))). lra.
Qed.
(** neither comm_density nor k_neigh: two vertices of one community are joined iff they are within epsilon *)
Theorem C55_epsilon cs u v : c_density P = None -> c_k_neigh P = None -> g_coords G = Some cs -> u < c_N P -> v < c_N P -> u <> v -> nth u z 0 = nth v z 0 ->
  (wt G u v = 1%R <-> (dist (place cs u) (place cs v) <= the_eps P)%R).
Proof.
  intros Ed Ek Ecs. destruct (comm_run _ _ _ _ _ _ Hrng Hl HC) as (ss & IE & BE & E1 & E2 & Ez & Hp & Hm & El & Hd & _ & _ & EI & _ & HBE & _ & HU & Hu & _ & _ & Hcs). rewrite Hcs in Ecs. injection Ecs as <-.
  destruct (labels_ok P rng z Hrng Hm El) as (L1 & _ & L3 & _).
  set (pos := comm_coord P rng z ss) in *. assert (Pl : forall w, w < c_N P -> place (map (fun v0 => [fst (pos v0); snd (pos v0)]) (seq 0 (c_N P))) w = pos w).
  { intros w Hw. unfold place. rewrite (nth_map_seq (fun v0 => [fst (pos v0); snd (pos v0)]) (c_N P) w []) by exact Hw. destruct (pos w). reflexivity. }
  assert (W : forall u v, u < v < c_N P -> nth u z 0 = nth v z 0 -> (wt G u v = 1%R <-> (dist (pos u) (pos v) <= the_eps P)%R)).
  { clear u v. intros u v Huv E. assert (Hc : nth u z 0 < the_Nc P) by (apply L3, nth_In; lia). set (c := nth u z 0) in *. rewrite (intra_iff ss IE BE u v c E1 E2 Ez Hd EI HBE HU Huv eq_refl (eq_sym E) Hc). fold pos.
    destruct (intra_ok P rng pos Hrng c (off ss c) (nth c ss 0) Hd) as (_ & _ & _ & _ & I5). specialize (I5 Ed Ek).
    assert (Bu : off ss c <= u < off ss c + nth c ss 0) by (apply (label_iff ss c u); [lia|lia|rewrite <- Ez; reflexivity]). assert (Bv : off ss c <= v < off ss c + nth c ss 0) by (apply (label_iff ss c v); [lia|lia|rewrite <- Ez; congruence]).
    specialize (I5 (u - off ss c) (v - off ss c)). replace (off ss c + (u - off ss c)) with u in I5 by lia. replace (off ss c + (v - off ss c)) with v in I5 by lia. rewrite I5. split; [tauto|]. intros H. split; [lia|exact H]. }
  intros Hu0 Hv0 Hne E. rewrite !Pl by assumption. destruct (Nat.lt_ge_cases u v) as [H|H]; [apply W; [lia|exact E]|].
  destruct HU as (_ & Hn & _). rewrite (Hu u v) by lia. rewrite (W v u) by (lia || congruence). replace (dist (pos u) (pos v)) with (dist (pos v) (pos u)); [tauto|]. unfold dist. f_equal. ring.
Qed.
Lemma some_inj {A} (x y : A) : Some x = Some y -> x = y. Proof. congruence. Qed.
(** coordinates: the centres are spread on a circle of radius comm_ratio * sqrt(N), and vertex v lies in the disc of radius the square root of the size of
    its community around the centre of its community, at the drawn radius and angle *)
Theorem C55_coordinates cs v : g_coords G = Some cs -> v < c_N P ->
  let c := nth v z 0 in let s := sqrt (INR (cnt z c)) in let a := (2 * PI * (INR c + 1) / INR (the_Nc P))%R in let rad := (c_ratio P * sqrt (INR (c_N P)))%R in
  let centre := (rad * cos a, rad * sin a)%R in let (r, t) := r_uniform rng v in
  place cs v = (fst centre + s * (r * cos (2 * PI * t)), snd centre + s * (r * sin (2 * PI * t)))%R /\
  ((0 <= r <= 1)%R -> (dist (place cs v) centre <= s)%R).
Proof.
  intros Ecs Hv. destruct (comm_run _ _ _ _ _ _ Hrng Hl HC) as (ss & IE & BE & E1 & E2 & Ez & Hp & Hm & El & Hd & _ & _ & EI & _ & HBE & _ & HU & Hu & _ & _ & Hcs). rewrite Hcs in Ecs. apply some_inj in Ecs. subst cs.
  cbv zeta. pose proof (blocks_count ss 0 (nth v z 0%nat)) as B. cbn [Nat.add] in B. fold (blocks ss) in B. rewrite <- Ez in B.
  destruct (r_uniform rng v) as [r t] eqn:Eu.
  assert (E : place (map (fun v0 => [fst (comm_coord P rng z ss v0); snd (comm_coord P rng z ss v0)]) (seq 0 (c_N P))) v =
    (c_ratio P * sqrt (INR (c_N P)) * cos (2 * PI * (INR (nth v z 0%nat) + 1) / INR (the_Nc P)) + sqrt (INR (cnt z (nth v z 0%nat))) * (r * cos (2 * PI * t)),
     c_ratio P * sqrt (INR (c_N P)) * sin (2 * PI * (INR (nth v z 0%nat) + 1) / INR (the_Nc P)) + sqrt (INR (cnt z (nth v z 0%nat))) * (r * sin (2 * PI * t)))%R).
  { unfold place. rewrite (nth_map_seq (fun v0 => [fst (comm_coord P rng z ss v0); snd (comm_coord P rng z ss v0)]) (c_N P) v []) by exact Hv. cbn [nth].
    unfold comm_coord. rewrite Eu, S_INR, B. cbn [fst snd]. reflexivity. }
  rewrite E. split; [reflexivity|]. intros Hr. unfold dist. cbn [fst snd].
  set (s := sqrt (INR (cnt z (nth v z 0%nat)))). assert (Hs : (0 <= s)%R) by apply sqrt_pos. set (b := (2 * PI * t)%R). set (X := (_ * cos (2 * PI * _ / _))%R). set (Y := (_ * sin (2 * PI * _ / _))%R).
  replace (_ + _)%R with ((s * r) * (s * r))%R.
  - rewrite sqrt_square by (apply Rmult_le_pos; lra). rewrite <- (Rmult_1_r s) at 2. apply Rmult_le_compat_l; lra.
  - pose proof (sin2_cos2 b) as T. unfold Rsqr in T. transitivity ((s * r) * (s * r) * (sin b * sin b + cos b * cos b))%R; [rewrite T; ring|ring].
Qed.
(** k_neigh: no edge at all inside a community *)
Theorem C55_k_neigh_refuted k u v : c_density P = None -> c_k_neigh P = Some k -> u < c_N P -> v < c_N P -> nth u z 0 = nth v z 0 -> wt G u v = 0%R.
Proof.
  intros Ed Ek. destruct (comm_run _ _ _ _ _ _ Hrng Hl HC) as (ss & IE & BE & E1 & E2 & Ez & Hp & Hm & El & Hd & _ & _ & EI & HIE & HBE & _ & HU & _).
  assert (X : IE = []). { rewrite EI. generalize (seq 0 (the_Nc P)). induction l as [|i l IH]; [reflexivity|]. cbn [flat_map]. rewrite IH. destruct (intra_ok P rng (comm_coord P rng z ss) Hrng i (off ss i) (nth i ss 0) Hd) as (_ & _ & _ & I4 & _). rewrite (I4 Ed k Ek). reflexivity. }
  intros Hu Hv E. destruct HU as (_ & _ & HU). apply (HU u v Hu Hv). rewrite X. cbn [app]. intros [H|H]; apply HBE in H; destruct H as (_ & H); cbn in H; congruence.
Qed.
End Run.
(** ** When construction succeeds *)
(** every pair of vertices of different communities is eventually drawn *)
Definition fair (N : nat) (z : list nat) (ints : nat -> nat * nat) : Prop := forall u v, u < v < N -> nth u z 0 <> nth v z 0 -> exists t, ints t = (u, v) \/ ints t = (v, u).
Lemma fair_bound N z ints : fair N z ints -> forall l, (forall p, In p l -> between N z p) -> exists T, forall u v, In (u, v) l -> exists t, t < T /\ (ints t = (u, v) \/ ints t = (v, u)).
Proof.
  intros Hf. induction l as [|[u v] l IH]; intros Hb; [exists 0; intros u v []|]. destruct IH as (T & HT); [intros p Hp; apply Hb; right; exact Hp|].
  destruct (Hb (u, v) (or_introl eq_refl)) as (B1 & B2). cbn [fst snd] in *. destruct (Hf u v B1 B2) as (t & Ht). exists (Nat.max T (S t)). intros a b [E|H].
  - apply pair_equal_spec in E. destruct E as [<- <-]. exists t. split; [lia|exact Ht].
  - destruct (HT a b H) as (t' & L & E). exists t'. split; [lia|exact E].
Qed.
Lemma inter_succeeds P rng ss : rng_ok P rng -> list_sum ss = c_N P -> (0 <= the_world P <= 1)%R -> ((the_world P < 35 / 100)%R -> fair (c_N P) (blocks ss) (r_ints rng)) ->
  exists T, forall fuel, T <= fuel -> comm_inter fuel P rng (blocks ss) ss <> None.
Proof.
  intros Hrng HN Hw Hf. unfold comm_inter. cbv zeta. destruct (inter_count (the_world P) ss Hw) as (E1 & _ & E3). cbv zeta in E1, E3. rewrite HN in E1. rewrite E1. set (nb := py_int _) in *.
  unfold Rltb. destruct (Rlt_dec (the_world P) (35 / 100)) as [Hlt|Hge]; [|exists 0; discriminate]. specialize (Hf Hlt).
  pose proof (points_card ss) as (l & L1 & L2 & L3). rewrite HN in L2. destruct (fair_bound _ _ _ Hf l (fun p H => proj1 (L2 p) H)) as (T & HT).
  exists T. intros fuel HF En. assert (I0 : rej_inv (c_N P) (blocks ss) nb []) by (split; [constructor|split; [intros p []|cbn; lia]]).
  destruct (reject_none (c_N P) (blocks ss) nb (r_ints rng) (proj2 (proj2 Hrng)) fuel 0 [] I0 En) as (acc & A1 & A2 & _ & A3).
  assert (List.length l <= List.length acc).
  { apply NoDup_length_le; [exact L1|]. intros [u v] H. destruct (HT u v H) as (t & Ht & E). specialize (A3 t ltac:(lia)). apply L2 in H. destruct H as (H1 & H2). cbn [fst snd] in *.
    destruct E as [E|E]; rewrite E in A3; cbn [fst snd] in A3; [rewrite Nat.min_l, Nat.max_r in A3 by lia|rewrite Nat.min_r, Nat.max_l in A3 by lia]; apply A3; congruence. }
  lia.
Qed.
Lemma reject_mono z nb ints fuel : forall fuel' t acc l, fuel <= fuel' -> comm_reject fuel z nb ints t acc = Some l -> comm_reject fuel' z nb ints t acc = Some l.
Proof.
  induction fuel as [|fuel IH]; intros fuel' t acc l Hf; rewrite (reject_unfold _ _ _ _ t acc), (reject_unfold _ _ _ fuel' t acc); destruct (Nat.leb nb (List.length acc)); try (intros H; exact H); [discriminate|].
  destruct fuel' as [|fuel']; [lia|]. apply IH. lia.
Qed.
Lemma inter_mono fuel fuel' P rng z ss l : fuel <= fuel' -> comm_inter fuel P rng z ss = Some l -> comm_inter fuel' P rng z ss = Some l.
Proof. intros Hf. unfold comm_inter. cbv zeta. destruct (Rltb _ _); [apply reject_mono; exact Hf|auto]. Qed.
Lemma community_mono fuel fuel' P rng lap r : fuel <= fuel' -> Community fuel P rng lap = Some (Ok r) -> Community fuel' P rng lap = Some (Ok r).
Proof.
  intros Hf. unfold Community. destruct (c_min_deg P); [auto|]. destruct (negb _); [auto|]. destruct (Nat.ltb (c_N P) _); [auto|]. destruct (comm_labels P rng) as [z|e]; [|auto].
  destruct (match c_density P with Some d => _ | None => _ end); [auto|]. destruct (Nat.ltb _ (the_Nc P)); [auto|]. destruct (comm_inter fuel P rng z _) as [l|] eqn:E; [|discriminate]. rewrite (inter_mono _ _ _ _ _ _ _ Hf E). auto.
Qed.
(** With admissible parameters and non-empty communities the constructor terminates and succeeds; below density 0.35 provided every pair is eventually drawn. *)
Theorem C55_succeeds P rng lap : rng_ok P rng -> valid_lap lap -> c_min_deg P = false -> (0 <= the_world P <= 1)%R -> the_min_comm P * the_Nc P <= c_N P ->
  match c_sizes P with None => 1 <= the_Nc P /\ 1 <= the_min_comm P | Some ss => List.length ss = the_Nc P /\ list_sum ss = c_N P /\ forall s, In s ss -> 1 <= s end ->
  (forall d, c_density P = Some d -> (0 <= d <= 1)%R) -> (c_density P = None -> forall k, c_k_neigh P = Some k -> (0 <= k)%Z) ->
  (forall z, comm_labels P rng = Ok z -> (the_world P < 35 / 100)%R -> fair (c_N P) z (r_ints rng)) ->
  exists T G z, forall fuel, T <= fuel -> Community fuel P rng lap = Some (Ok (G, z)).
Proof.
  intros Hrng Hl Hdeg Hw Hmin Hs Hd Hk Hf.
  assert (El : exists z, comm_labels P rng = Ok z).
  { unfold comm_labels. destruct (c_sizes P) as [ss|].
    - destruct Hs as (S1 & S2 & _). rewrite S1, S2, !Nat.eqb_refl. cbn [negb]. eexists. reflexivity.
    - destruct Hs as (S1 & _). destruct (Nat.eqb_spec (the_Nc P) 0); [lia|]. cbn [andb]. eexists. reflexivity. }
  destruct El as (z & El). specialize (Hf z El). destruct (labels_ok P rng z Hrng Hmin El) as (Lz & Sz & Bz & Cz & Dz).
  assert (Hpos : forall c, c < the_Nc P -> 1 <= cnt z c).
  { intros c Hc. destruct (c_sizes P) as [ss|] eqn:Es.
    - destruct Hs as (S1 & _ & S3). rewrite (Dz ss eq_refl c). apply S3, nth_In. lia.
    - destruct Hs as (_ & S2). specialize (Cz eq_refl c Hc). lia. }
  assert (Ec : comm_counts (the_Nc P) z = map (fun c => cnt z c) (seq 0 (the_Nc P))).
  { unfold comm_counts. assert (Hall : forall s, In s (map (fun c => cnt z c) (seq 0 (the_Nc P))) -> negb (Nat.eqb s 0) = true).
    { intros s H. apply in_map_iff in H. destruct H as (c & <- & H). apply in_seq in H. specialize (Hpos c ltac:(lia)). destruct (Nat.eqb_spec (cnt z c) 0); [lia|reflexivity]. }
    revert Hall. generalize (map (fun c => cnt z c) (seq 0 (the_Nc P))). induction l as [|s l IH]; intros Hall; [reflexivity|]. cbn [filter]. rewrite (Hall s (or_introl eq_refl)). f_equal. apply IH. intros x Hx. apply Hall. right. exact Hx. }
  pose proof (sorted_blocks z (the_Nc P) Sz Bz) as Ez. rewrite <- Ec in Ez. set (ss := comm_counts (the_Nc P) z) in *.
  assert (HNc : List.length ss = the_Nc P) by (rewrite Ec, map_length, seq_length; reflexivity).
  assert (HN : list_sum ss = c_N P) by (rewrite <- Lz; rewrite Ez at 1; unfold blocks; symmetry; apply blocks_len).
  destruct (inter_succeeds P rng ss Hrng HN Hw) as (T & HT); [rewrite <- Ez; exact Hf|].
  assert (R : forall fuel, T <= fuel -> exists G, Community fuel P rng lap = Some (Ok (G, z))).
  { intros fuel HF. specialize (HT fuel HF). rewrite <- Ez in HT. destruct (comm_inter fuel P rng z ss) as [l|] eqn:Ei; [|congruence].
    unfold Community. rewrite Hdeg, El. unfold Rleb. destruct (Rle_dec 0 (the_world P)); [|lra]. destruct (Rle_dec (the_world P) 1); [|lra]. cbn [andb negb].
    destruct (Nat.ltb_spec (c_N P) (the_min_comm P * the_Nc P)); [lia|].
    replace (match c_density P with Some d => _ | None => _ end) with false.
    2:{ destruct (c_density P) as [d|]; [specialize (Hd d eq_refl); destruct (Rle_dec 0 d), (Rle_dec d 1); try lra; reflexivity|]. destruct (c_k_neigh P) as [k|]; [|reflexivity]. specialize (Hk eq_refl k eq_refl). destruct (Z.ltb_spec k 0); [lia|reflexivity]. }
    fold ss. destruct (Nat.ltb_spec (List.length ss) (the_Nc P)); [lia|]. rewrite Ei. set (E := _ ++ l).
    assert (Hr : forall p, In p (E ++ map (fun p => (snd p, fst p)) E) -> fst p < c_N P /\ snd p < c_N P).
    { assert (Q : forall p, In p E -> fst p < c_N P /\ snd p < c_N P).
      { intros [u v] K0. unfold E in K0. apply in_app_or in K0. cbn [fst snd]. destruct K0 as [K0|K0].
        - apply in_flat_map in K0. destruct K0 as (c & Hc & K0). apply in_seq in Hc. apply (intra_ok P rng _ Hrng c _ _ Hd) in K0. destruct K0 as (a & b & Hab & -> & ->). change (list_sum (firstn c ss)) with (off ss c). rewrite <- HN.
          pose proof (block_lt ss c a ltac:(lia) ltac:(lia)). pose proof (block_lt ss c b ltac:(lia) ltac:(lia)). lia.
        - rewrite Ez in Ei. destruct (inter_ok fuel P rng ss l Hrng HNc HN Hw Ei) as (BE & [->|HB] & _ & B2 & _).
          + apply B2 in K0. destruct K0 as (K0 & _). cbn in K0. lia.
          + specialize (B2 (v, u)). rewrite HB, swap_in in B2. specialize (B2 K0). destruct B2 as (B2 & _). cbn in B2. lia. }
      intros p Hp. apply in_app_or in Hp. destruct Hp as [Hp|Hp]; [auto|]. change (fun p : nat * nat => (snd p, fst p)) with swap in Hp. apply swap_in, Q in Hp. destruct p. cbn in *. tauto. }
    match goal with |- context [unit_init _ _ _ ?cs] => destruct (unit_weights (c_N P) _ lap cs Hr Hl) as (G & EG & _) end. rewrite EG. eauto. }
  destruct (R T (Nat.le_refl T)) as (G & EG). exists T, G, z. intros fuel HF. apply (community_mono T); [exact HF|exact EG].
Qed.

(** ** Rejected parameters *)
Theorem C55_bad_parameters_rejected fuel P rng lap :
  (c_min_deg P = true -> Community fuel P rng lap = Some (Raise NotImplementedError)) /\
  (c_min_deg P = false -> (the_world P < 0 \/ 1 < the_world P)%R -> Community fuel P rng lap = Some (Raise ValueError)) /\
  (c_min_deg P = false -> c_N P < the_min_comm P * the_Nc P -> Community fuel P rng lap = Some (Raise ValueError)) /\
  (forall ss, c_min_deg P = false -> c_sizes P = Some ss -> List.length ss <> the_Nc P \/ list_sum ss <> c_N P -> Community fuel P rng lap = Some (Raise ValueError)) /\
  (forall d, c_min_deg P = false -> c_density P = Some d -> (d < 0 \/ 1 < d)%R -> Community fuel P rng lap = Some (Raise ValueError)) /\
  (forall k, c_min_deg P = false -> c_density P = None -> c_k_neigh P = Some k -> (k < 0)%Z -> Community fuel P rng lap = Some (Raise ValueError)).
Proof.
  unfold Community, Rleb. split; [intros ->; reflexivity|]. split; [|split; [|split; [|split]]].
  - intros -> H. destruct (Rle_dec 0 (the_world P)), (Rle_dec (the_world P) 1); cbn [andb negb]; try reflexivity. lra.
  - intros -> H. destruct (negb _); [reflexivity|]. destruct (Nat.ltb_spec (c_N P) (the_min_comm P * the_Nc P)); [reflexivity|lia].
  - intros ss -> Es H. destruct (negb _); [reflexivity|]. destruct (Nat.ltb (c_N P) _); [reflexivity|]. unfold comm_labels. rewrite Es. destruct (Nat.eqb_spec (List.length ss) (the_Nc P)) as [E1|]; cbn [negb]; [|reflexivity]. destruct (Nat.eqb_spec (list_sum ss) (c_N P)) as [E2|]; cbn [negb]; [|reflexivity]. tauto.
  - intros d -> Ed H. destruct (negb _); [reflexivity|]. destruct (Nat.ltb (c_N P) _); [reflexivity|]. destruct (comm_labels P rng) as [z|e] eqn:El.
    + rewrite Ed. destruct (Rle_dec 0 d), (Rle_dec d 1); cbn [andb negb]; try reflexivity. lra.
    + unfold comm_labels in El. destruct (c_sizes P) as [ss|]; [destruct (negb _); [|destruct (negb _)]|destruct (_ && _)%bool]; congruence.
  - intros k -> Ed Ek H. destruct (negb _); [reflexivity|]. destruct (Nat.ltb (c_N P) _); [reflexivity|]. destruct (comm_labels P rng) as [z|e] eqn:El.
    + rewrite Ed, Ek. destruct (Z.ltb_spec k 0); [reflexivity|lia].
    + unfold comm_labels in El. destruct (c_sizes P) as [ss|]; [destruct (negb _); [|destruct (negb _)]|destruct (_ && _)%bool]; congruence.
Qed.
(** A community of size 0, although asked for explicitly, is an IndexError. *)
Theorem C55_empty_community_refuted fuel P rng lap ss : c_min_deg P = false -> (0 <= the_world P <= 1)%R -> the_min_comm P * the_Nc P <= c_N P ->
  c_density P = None -> c_k_neigh P = None -> c_sizes P = Some ss -> List.length ss = the_Nc P -> list_sum ss = c_N P -> In 0 ss -> Community fuel P rng lap = Some (Raise IndexError).
Proof.
  intros Hdeg Hw Hmin Hd Hk Es S1 S2 H0. unfold Community, comm_labels, Rleb. rewrite Hdeg, Es, Hd, Hk, S1, S2, !Nat.eqb_refl. cbn [negb]. destruct (Rle_dec 0 (the_world P)); [|lra]. destruct (Rle_dec (the_world P) 1); [|lra]. cbn [andb negb].
  destruct (Nat.ltb_spec (c_N P) (the_min_comm P * the_Nc P)); [lia|]. match goal with |- context [Nat.ltb ?a ?b] => destruct (Nat.ltb_spec a b) as [|K] end; [reflexivity|]. exfalso.
  unfold comm_counts in K. change (flat_map (fun c => repeat c (nth c ss 0)) (seq 0 (the_Nc P))) with (flat_map (fun c => repeat (0 + c) (nth c ss 0)) (seq 0 (the_Nc P))) in K. rewrite <- S1 in K at 1. 
  assert (Q : map (fun c => cnt (flat_map (fun c => repeat (0 + c) (nth c ss 0)) (seq 0 (the_Nc P))) c) (seq 0 (the_Nc P)) = ss).
  { rewrite <- S1, <- blocks_from_map. apply (nth_ext _ _ 0 0); [rewrite map_length, seq_length; reflexivity|]. intros c Hc. rewrite map_length, seq_length in Hc. rewrite (nth_map_seq _ _ _ _ Hc). apply (blocks_count ss 0 c). }
  rewrite Q, S1 in K. rewrite <- S1 in K. apply filter_full in K. destruct K as (_ & K). specialize (K 0 H0). discriminate.
Qed.
(** ** Default parameters *)
Lemma py_round_spec x : (0 <= x)%R -> (x - 1 / 2 <= INR (py_round x) <= x + 1 / 2)%R.
Proof.
  intros H. unfold py_round. cbv zeta. destruct (base_Int_part x) as (B1 & B2). assert (X : (-1 < Int_part x)%Z) by (apply lt_IZR; lra).
  unfold Rltb. destruct (Rlt_dec (x - IZR (Int_part x)) (1 / 2)); [rewrite INR_IZR_INZ, Z2Nat.id by lia; lra|].
  destruct (Rlt_dec (1 / 2) (x - IZR (Int_part x))); [rewrite INR_IZR_INZ, Z2Nat.id by lia; rewrite plus_IZR; lra|].
  destruct (Z.even (Int_part x)); rewrite INR_IZR_INZ, Z2Nat.id by lia; rewrite ?plus_IZR; lra.
Qed.
Lemma py_round_tie x : (0 <= x)%R -> (Rabs (INR (py_round x) - x) = 1 / 2)%R -> Nat.Even (py_round x).
Proof.
  intros H. unfold py_round. cbv zeta. destruct (base_Int_part x) as (B1 & B2). assert (X : (-1 < Int_part x)%Z) by (apply lt_IZR; lra).
  unfold Rltb. destruct (Rlt_dec (x - IZR (Int_part x)) (1 / 2)).
  { rewrite INR_IZR_INZ, Z2Nat.id by lia. intros E. exfalso. revert E. unfold Rabs. destruct (Rcase_abs _); lra. }
  destruct (Rlt_dec (1 / 2) (x - IZR (Int_part x))).
  { rewrite INR_IZR_INZ, Z2Nat.id by lia. rewrite plus_IZR. intros E. exfalso. revert E. unfold Rabs. destruct (Rcase_abs _); lra. }
  intros _. destruct (Z.even (Int_part x)) eqn:Ev.
  - apply Z.even_spec in Ev. destruct Ev as (k & Ek). exists (Z.to_nat k). lia.
  - rewrite <- Z.negb_odd in Ev. apply negb_false_iff, Z.odd_spec in Ev. destruct Ev as (k & Ek). exists (Z.to_nat (k + 1)). lia.
Qed.
(** [m] is the nearest integer to x, the even one when two are equally near. *)
Definition rounded (x : R) (m : nat) : Prop := (Rabs (INR m - x) <= 1 / 2)%R /\ ((Rabs (INR m - x) = 1 / 2)%R -> Nat.Even m).
Lemma py_round_ok x : (0 <= x)%R -> rounded x (py_round x).
Proof. intros H. split; [|apply py_round_tie, H]. pose proof (py_round_spec x H). unfold Rabs. destruct (Rcase_abs _); lra. Qed.
(** What the default parameters are: the number of communities, the smallest size, the density between communities and the distance that joins. *)
Theorem C55_default_parameters P : 1 <= c_N P -> 1 <= the_Nc P ->
  (c_Nc P = None -> rounded (sqrt (INR (c_N P)) / 2) (the_Nc P)) /\ (c_min_comm P = None -> rounded (INR (c_N P) / (3 * INR (the_Nc P))) (the_min_comm P)) /\
  (c_world P = None -> the_world P = 1 / INR (c_N P))%R /\ (c_eps P = None -> the_eps P = sqrt (2 * sqrt (INR (c_N P))) / 2)%R.
Proof.
  intros HN Hc. assert (0 < INR (the_Nc P))%R by (apply lt_0_INR; lia). assert (0 <= sqrt (INR (c_N P)))%R by apply sqrt_pos. split; [|split; [|split]]; intros E.
  - unfold the_Nc. rewrite E. apply py_round_ok. lra.
  - unfold the_min_comm. rewrite E. rewrite mult_INR. change (INR 3) with (1 + 1 + 1)%R. replace (1 + 1 + 1)%R with 3%R by ring. apply py_round_ok. apply Rmult_le_pos; [apply pos_INR|]. apply Rlt_le, Rinv_0_lt_compat. lra.
  - unfold the_world. rewrite E. reflexivity.
  - unfold the_eps. rewrite E. reflexivity.
Qed.
Lemma INR_lt_1 n : (0 < INR n)%R -> 1 <= n.
Proof. destruct n; [cbn; lra|lia]. Qed.
Definition default_args (N : nat) : comm_args := mkcomm N None None false None 1 None None None None.
Theorem C55_defaults N : 2 <= N -> let P := default_args N in 1 <= the_Nc P /\ 1 <= the_min_comm P /\ the_min_comm P * the_Nc P <= N /\ (0 <= the_world P <= 1)%R.
Proof.
  intros HN P. assert (HR : (2 <= INR N)%R) by (change 2%R with (INR 2); apply le_INR; exact HN).
  assert (Q0 := sqrt_pos (INR N)). assert (Q1 := sqrt_sqrt (INR N) ltac:(lra)). set (q := sqrt (INR N)) in *. assert (Q2 : (14 / 10 <= q)%R) by nra.
  assert (R1 := py_round_spec (q / 2) ltac:(lra)). change (py_round (q / 2)) with (the_Nc P) in R1. assert (Hc : 1 <= the_Nc P). { apply INR_lt_1. lra. }
  assert (HcR : (1 <= INR (the_Nc P))%R) by (change 1%R with (INR 1); apply le_INR; exact Hc).
  set (C := INR (the_Nc P)) in *. assert (E3 : INR (3 * the_Nc P) = (3 * C)%R) by (rewrite mult_INR; unfold C; change (INR 3) with (2 + 1)%R; ring).
  assert (Dp : (0 <= INR N / (3 * C))%R) by (apply Rmult_le_pos; [lra|]; apply Rlt_le, Rinv_0_lt_compat; lra). assert (Dq : (INR N / (3 * C) * C = INR N / 3)%R) by (field; lra).
  assert (R2 := py_round_spec (INR N / (3 * C)) Dp). assert (Em : py_round (INR N / (3 * C)) = the_min_comm P) by (rewrite <- E3; reflexivity). rewrite Em in R2.
  split; [exact Hc|]. split; [|split].
  - apply INR_lt_1. assert ((1 / 2 < INR N / (3 * C))%R); [|lra]. apply (Rmult_lt_reg_r C); [lra|]. rewrite Dq. nra.
  - apply INR_le. rewrite mult_INR. fold C. set (m := INR (the_min_comm P)) in *. set (D := (INR N / (3 * C))%R) in *. assert (m * C <= (D + 1 / 2) * C)%R by (apply Rmult_le_compat_r; lra). nra.
  - unfold the_world, P. cbn. split; [apply Rmult_le_pos; [lra|]; apply Rlt_le, Rinv_0_lt_compat; lra|]. apply (Rmult_le_reg_r (INR N)); [lra|]. field_simplify; lra.
Qed.
(** ** Examples: a generator meeting the contracts, with which every size from 2 on succeeds with default arguments; likewise with comm_density, with k_neigh and with given sizes *)
Definition ex_rng (P : comm_args) : comm_rng := mkrng (repeat 0 (c_N P - the_min_comm P * the_Nc P)) (fun _ => (0%R, 0%R)) (fun _ n => seq 0 n) (fun t => (t mod c_N P, (t / c_N P) mod c_N P)).
Lemma ex_rng_ok P : 1 <= c_N P -> 1 <= the_Nc P -> rng_ok P (ex_rng P).
Proof.
  intros HN Hc. split; [|split].
  - intros _. cbn [ex_rng r_choice]. rewrite repeat_length. split; [reflexivity|]. intros x Hx. apply repeat_spec in Hx. lia.
  - intros i n. apply Permutation_refl.
  - intros t. cbn [ex_rng r_ints fst snd]. split; apply Nat.mod_upper_bound; lia.
Qed.
Lemma ex_fair P z : 1 <= c_N P -> fair (c_N P) z (r_ints (ex_rng P)).
Proof.
  intros HN u v Huv _. exists (u + v * c_N P). left. cbn [ex_rng r_ints]. rewrite Nat.mod_add, Nat.div_add, (Nat.div_small u), Nat.add_0_l, !Nat.mod_small by lia. reflexivity.
Qed.
Theorem C55_default_succeeds N rng lap : 2 <= N -> let P := default_args N in rng_ok P rng -> valid_lap lap -> (forall z, fair N z (r_ints rng)) -> exists T G z, forall fuel, T <= fuel -> Community fuel P rng lap = Some (Ok (G, z)).
Proof.
  intros HN P Hr Hl Hf. destruct (C55_defaults N HN) as (D1 & D2 & D3 & D4). fold P in D1, D2, D3, D4. apply C55_succeeds; try assumption; try reflexivity; try discriminate.
  - exact (conj D1 D2).
  - intros z _ _. apply Hf.
Qed.
Example C55_ex N lap : 2 <= N -> valid_lap lap -> exists T G z, forall fuel, T <= fuel -> Community fuel (default_args N) (ex_rng (default_args N)) lap = Some (Ok (G, z)).
Proof.
  intros HN Hl. destruct (C55_defaults N HN) as (D1 & _). apply C55_default_succeeds; [exact HN|apply ex_rng_ok; cbn [c_N default_args]; [lia|exact D1]|exact Hl|]. intros z. apply (ex_fair (default_args N)). cbn. lia.
Qed.
Definition ex_args (d : option R) (k : option Z) : comm_args := mkcomm 5 (Some 2) (Some 2) false (Some [3; 2]) 1 (Some (1 / 2)%R) d k None.
Example C55_ex_density lap : valid_lap lap -> exists G z, Community 0 (ex_args (Some (1 / 2)%R) None) (ex_rng (ex_args (Some (1 / 2)%R) None)) lap = Some (Ok (G, z)) /\ z = [0; 0; 0; 1; 1].
Proof.
  intros Hl. set (P := ex_args _ _). assert (Hr : rng_ok P (ex_rng P)) by (apply ex_rng_ok; cbn; lia).
  destruct (C55_succeeds P (ex_rng P) lap Hr Hl) as (T & G & z & H); try reflexivity; cbn; try lra; try lia.
  - split; [reflexivity|]. split; [reflexivity|]. intros s [<-|[<-|[]]]; lia.
  - intros d E. injection E as <-. lra.
  - discriminate.
  - intros. lra.
  - assert (E : Community 0 P (ex_rng P) lap = Community T P (ex_rng P) lap).
    { unfold Community, comm_inter. cbv zeta. change (the_world P) with (1 / 2)%R. unfold Rltb. destruct (Rlt_dec (1 / 2) (35 / 100)); [lra|]. reflexivity. }
    specialize (H T (Nat.le_refl T)). exists G, z. split; [exact (eq_trans E H)|]. destruct (comm_run _ _ _ _ _ _ Hr Hl H) as (ss & IE & BE & _ & _ & _ & _ & _ & El & _). unfold comm_labels in El. cbn in El. injection El as <-. reflexivity.
Qed.
Example C55_ex_k_neigh lap : valid_lap lap -> exists T G z, forall fuel, T <= fuel -> Community fuel (ex_args None (Some 2%Z)) (ex_rng (ex_args None (Some 2%Z))) lap = Some (Ok (G, z)).
Proof.
  intros Hl. set (P := ex_args _ _). assert (Hr : rng_ok P (ex_rng P)) by (apply ex_rng_ok; cbn; lia).
  apply (C55_succeeds P (ex_rng P) lap Hr Hl); try reflexivity; cbn; try lra; try lia; try discriminate.
  - split; [reflexivity|]. split; [reflexivity|]. intros s [<-|[<-|[]]]; lia.
  - intros _ k E. injection E as <-. lia.
  - intros. lra.
Qed.
