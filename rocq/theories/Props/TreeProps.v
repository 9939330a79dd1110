(** C54: LowStretchTree. *)
From Coq Require Import Reals Lra Lia List Arith Bool String.
From Coq Require Import List.
From Verif.Base Require Import RSum Prelude.
From Verif.Spec Require Import Matrix GraphSpec Card Reach GenSpec.
From Verif.Model Require Import Sparse Graph Traverse Utils Reduction Generators Ring.
From Verif.Proofs Require Import SparseFacts InitFacts EdgeFacts SubgraphFacts TraverseFacts GenFacts.
From Verif.Props Require Import Core Traversal UtilsProps ReductionProps GenProps GridProps.
Import ListNotations.
Open Scope nat_scope.
Open Scope list_scope.

(** ** Specification: a spanning tree of the 2^k x 2^k grid *)
Definition joined (T : list (nat * nat)) (u v : nat) : Prop := In (u, v) T \/ In (v, u) T.
Definition spanning_tree (n : nat) (T : list (nat * nat)) : Prop :=
  NoDup T /\ (forall i j, In (i, j) T -> i < j < n) /\ S (List.length T) = n /\ forall u v, u < n -> v < n -> reach (joined T) u v.
Definition unit_distance (p q : nat * nat) : Prop := ndist (fst p) (fst q) + ndist (snd p) (snd q) = 1.

Ltac pinj E := apply pair_equal_spec in E; destruct E as [<- <-].
(** ** Four copies of a list of pairs, linked *)
Definition four (q : nat) (l e : list (nat * nat)) : list (nat * nat) := l ++ shift_pairs q l ++ shift_pairs (2 * q) l ++ shift_pairs (3 * q) l ++ e.
Lemma shift_in d l i j : In (i, j) (shift_pairs d l) <-> exists a b, In (a, b) l /\ i = a + d /\ j = b + d.
Proof.
  unfold shift_pairs. rewrite in_map_iff. split.
  - intros ([a b] & E & H). cbn in E. pinj E. exists a, b. auto.
  - intros (a & b & H & -> & ->). exists (a, b). auto.
Qed.
Lemma four_in q l e i j : In (i, j) (four q l e) <-> (exists c a b, c < 4 /\ In (a, b) l /\ i = a + c * q /\ j = b + c * q) \/ In (i, j) e.
Proof.
  unfold four. rewrite !in_app_iff, !shift_in. split.
  - intros [H|[H|[H|[H|H]]]]; [left; exists 0, i, j; split; [lia|split; [exact H|lia]]| | | |right; exact H];
      destruct H as (a & b & H & -> & ->); left; [exists 1, a, b|exists 2, a, b|exists 3, a, b]; (split; [lia|split; [exact H|lia]]).
  - intros [(c & a & b & Hc & H & -> & ->)|H]; [|auto]. destruct c as [|[|[|[|c]]]]; [left; replace (a + 0 * q) with a by lia; replace (b + 0 * q) with b by lia; exact H| | | |lia].
    + right. left. exists a, b. split; [exact H|lia].
    + right. right. left. exists a, b. split; [exact H|lia].
    + right. right. right. left. exists a, b. split; [exact H|lia].
Qed.
Definition below (q : nat) (l : list (nat * nat)) : Prop := forall i j, In (i, j) l -> i < q /\ j < q.
Lemma shift_nodup d l : NoDup l -> NoDup (shift_pairs d l).
Proof. intros H. apply FinFun.Injective_map_NoDup; [|exact H]. intros [a b] [a' b'] E. cbn in E. injection E as E1 E2. f_equal; lia. Qed.
Lemma four_nodup q l e : below q l -> NoDup l -> NoDup e -> (forall i j, In (i, j) e -> i / q <> j / q) -> 0 < q -> NoDup (four q l e).
Proof.
  intros Hb Hl He Hc Hq. unfold four.
  assert (D : forall c i j, In (i, j) (shift_pairs (c * q) l) -> i / q = c /\ j / q = c).
  { intros c i j H. apply shift_in in H. destruct H as (a & b & H & -> & ->). destruct (Hb a b H). split; rewrite Nat.div_add, Nat.div_small by lia; lia. }
  assert (D0 : forall i j, In (i, j) l -> i / q = 0 /\ j / q = 0) by (intros i j H; destruct (Hb i j H); split; apply Nat.div_small; assumption).
  assert (D1 : forall i j, In (i, j) (shift_pairs q l) -> i / q = 1 /\ j / q = 1) by (intros i j H; apply D; replace (1 * q) with q by lia; exact H).
  pose proof (D 2) as D2. pose proof (D 3) as D3. clear D.
  repeat apply NoDup_app_disj; try (apply shift_nodup; exact Hl); try assumption; intros [i j]; rewrite ?in_app_iff; intros H1 H2.
  - apply D3 in H1. apply Hc in H2. destruct H1; lia.
  - apply D2 in H1. destruct H2 as [H2|H2]; [apply D3 in H2|apply Hc in H2]; destruct H1; lia.
  - apply D1 in H1. destruct H2 as [H2|[H2|H2]]; [apply D2 in H2|apply D3 in H2|apply Hc in H2]; destruct H1; lia.
  - apply D0 in H1. destruct H2 as [H2|[H2|[H2|H2]]]; [apply D1 in H2|apply D2 in H2|apply D3 in H2|apply Hc in H2]; destruct H1; lia.
Qed.
(** ** The tree *)
Definition links (r : nat) : list (nat * nat) := [(3 * r, 5 * r + 1); (3 * r, 7 * r + 2); (7 * r + 2, 9 * r + 3)].
Fixpoint rr (m : nat) : nat := match m with O => 1 | S m' => 4 * rr m' + 1 end.
Lemma rr_pow m : 4 ^ (S m) = 3 * rr m + 1.
Proof. induction m as [|m IH]; [reflexivity|]. rewrite Nat.pow_succ_r', IH. cbn [rr]. lia. Qed.
Lemma rr_mod m : exists t, rr m = 4 * t + 1.
Proof. destruct m; [exists 0; reflexivity | exists (rr m); reflexivity]. Qed.
Fixpoint tree (m : nat) : list (nat * nat) :=
  match m with O => [(0, 1); (0, 2); (2, 3)] | S m' => four (4 ^ (S m')) (tree m') (links (rr m')) end.
Lemma level_eq r l : lst_level (3 * r + 1) l = four (3 * r + 1) l [(3 * r, 5 * r + 1); (3 * r, 7 * r + 2); (7 * r + 2, 9 * r + 3); (5 * r + 1, 3 * r); (7 * r + 2, 3 * r); (9 * r + 3, 7 * r + 2)].
Proof.
  unfold lst_level, four. replace (Nat.div (5 * (3 * r + 1) + 1) 3 - 1) with (5 * r + 1).
  2:{ replace (5 * (3 * r + 1) + 1) with ((5 * r + 2) * 3) by lia. rewrite Nat.div_mul by lia. lia. }
  replace (3 * r + 1 + Nat.div (4 * (3 * r + 1) + 2) 3 - 1) with (7 * r + 2).
  2:{ replace (4 * (3 * r + 1) + 2) with ((4 * r + 2) * 3) by lia. rewrite Nat.div_mul by lia. lia. }
  replace (3 * r + 1 - 1) with (3 * r) by lia. replace (3 * (3 * r + 1)) with (9 * r + 3) by lia. reflexivity.
Qed.
Lemma div_block r x c : 1 <= r -> c * (3 * r + 1) <= x < S c * (3 * r + 1) -> x / (3 * r + 1) = c.
Proof. intros Hr H. symmetry. apply (Nat.div_unique x (3 * r + 1) c (x - c * (3 * r + 1))); lia. Qed.
Lemma blocks r : 1 <= r -> (3 * r) / (3 * r + 1) = 0 /\ (5 * r + 1) / (3 * r + 1) = 1 /\ (7 * r + 2) / (3 * r + 1) = 2 /\ (9 * r + 3) / (3 * r + 1) = 3.
Proof. intros Hr. repeat split; apply div_block; lia. Qed.
Lemma rr_pos m : 1 <= rr m.
Proof. destruct m; cbn [rr]; lia. Qed.
Lemma tree_ok m : below (4 ^ (S m)) (tree m) /\ NoDup (tree m) /\ (forall i j, In (i, j) (tree m) -> i < j) /\ S (List.length (tree m)) = 4 ^ (S m) /\
  forall u v, u < 4 ^ (S m) -> v < 4 ^ (S m) -> reach (joined (tree m)) u v.
Proof.
  induction m as [|m (Hb & Hnd & Hlt & Hlen & Hc)].
  - cbn [tree Nat.pow Nat.mul Nat.add]. split; [|split; [|split; [|split]]].
    + intros i j [E|[E|[E|[]]]]; pinj E; lia.
    + repeat constructor; cbn [In]; intros H; repeat (destruct H as [H|H]; [discriminate|]); exact H.
    + intros i j [E|[E|[E|[]]]]; pinj E; lia.
    + reflexivity.
    + assert (K : forall v, v < 4 -> reach (joined [(0, 1); (0, 2); (2, 3)]) 0 v).
      { intros v Hv. destruct v as [|[|[|[|v]]]]; [apply reach_refl| | | |lia].
        - apply reach_one. left. cbn. auto.
        - apply reach_one. left. cbn. auto.
        - apply (reach_trans _ 0 2 3); apply reach_one; left; cbn; auto. }
      intros u v Hu Hv. apply (reach_trans _ u 0 v); [|apply K; exact Hv]. apply (reach_rev (joined [(0, 1); (0, 2); (2, 3)])); [unfold joined; tauto|apply K; exact Hu].
  - cbn [tree]. rewrite (rr_pow m) in *. pose proof (rr_pos m) as Hr. rewrite (Nat.pow_succ_r' 4 (S m)), rr_pow. set (r := rr m) in *. set (l := tree m) in *. clearbody r l.
    destruct (blocks r Hr) as (B1 & B2 & B3 & B4).
    assert (Hin : forall c, c < 4 -> forall i j, In (i, j) l -> In (i + c * (3 * r + 1), j + c * (3 * r + 1)) (four (3 * r + 1) l (links r))) by (intros c Hc' i j H; apply four_in; left; exists c, i, j; auto).
    assert (Hlk : forall i j, In (i, j) (links r) -> i < j /\ j < 4 * (3 * r + 1) /\ i / (3 * r + 1) <> j / (3 * r + 1)) by (intros i j [E|[E|[E|[]]]]; pinj E; (split; [lia|split; [lia|rewrite ?B1, ?B2, ?B3, ?B4; discriminate]])).
    split; [|split; [|split; [|split]]].
    + intros i j H. apply four_in in H. destruct H as [(c & a & b & Hc' & H & -> & ->)|H].
      * destruct (Hb a b H). assert (c * (3 * r + 1) <= 3 * (3 * r + 1)) by (apply Nat.mul_le_mono_r; lia). lia.
      * apply Hlk in H. lia.
    + apply four_nodup; [exact Hb|exact Hnd| |intros i j H; apply Hlk in H; tauto|lia].
      unfold links. repeat constructor; cbn [In]; intros H; repeat (destruct H as [H|H]; [injection H; lia|]); exact H.
    + intros i j H. apply four_in in H. destruct H as [(c & a & b & Hc' & H & -> & ->)|H]; [apply Hlt in H; lia|apply Hlk in H; tauto].
    + unfold four, shift_pairs, links. rewrite !app_length, !map_length. cbn [List.length]. lia.
    + set (F := four (3 * r + 1) l (links r)) in *.
      assert (M : forall c u v, c < 4 -> u < 3 * r + 1 -> v < 3 * r + 1 -> reach (joined F) (u + c * (3 * r + 1)) (v + c * (3 * r + 1))).
      { intros c u v Hc' Hu Hv. specialize (Hc u v Hu Hv). clear Hu Hv. induction Hc as [x|x y z H1 IH H2]; [apply reach_refl|]. eapply reach_step; [exact IH|]. destruct H2 as [H2|H2]; [left|right]; apply Hin; assumption. }
      assert (L : forall i j, In (i, j) (links r) -> reach (joined F) i j) by (intros i j H; apply reach_one; left; apply four_in; right; exact H).
      assert (X : forall x, x < 4 * (3 * r + 1) -> exists c y, c < 4 /\ y < 3 * r + 1 /\ x = y + c * (3 * r + 1)).
      { intros x Hx. exists (x / (3 * r + 1)), (x mod (3 * r + 1)). split; [apply Nat.div_lt_upper_bound; lia|]. split; [apply Nat.mod_upper_bound; lia|]. rewrite (Nat.div_mod x (3 * r + 1)) at 1 by lia. lia. }
      assert (K : forall x, x < 4 * (3 * r + 1) -> reach (joined F) (3 * r) x).
      { intros x Hx. destruct (X x Hx) as (c & y & Hc' & Hy & ->). destruct c as [|[|[|[|c]]]]; [| | | |lia].
        - specialize (M 0 (3 * r) y ltac:(lia) ltac:(lia) Hy). rewrite !Nat.mul_0_l, !Nat.add_0_r in *. exact M.
        - apply (reach_trans _ _ (5 * r + 1)); [apply L; unfold links; cbn [In]; auto|]. replace (5 * r + 1) with (2 * r + 1 * (3 * r + 1)) by lia. apply M; lia.
        - apply (reach_trans _ _ (7 * r + 2)); [apply L; unfold links; cbn [In]; auto|]. replace (7 * r + 2) with (r + 2 * (3 * r + 1)) by lia. apply M; lia.
        - apply (reach_trans _ _ (7 * r + 2)); [apply L; unfold links; cbn [In]; auto|]. apply (reach_trans _ _ (9 * r + 3)); [apply L; unfold links; cbn [In]; auto|]. replace (9 * r + 3) with (0 + 3 * (3 * r + 1)) by lia. apply M; lia. }
      intros u v Hu Hv. apply (reach_trans _ u (3 * r) v); [|apply K; exact Hv]. apply (reach_rev (joined F)); [unfold joined; tauto|apply K; exact Hu].
Qed.
(** ** The arcs of the code *)
Definition missing (i j : nat) : Prop := i mod 4 = 1 /\ i = j + 1.
Lemma mod4_shift a c q : q mod 4 = 0 -> (a + c * q) mod 4 = a mod 4.
Proof. intros H. apply Nat.mod_divides in H; [|lia]. destruct H as (t & ->). replace (a + c * (4 * t)) with (a + (c * t) * 4) by lia. apply Nat.mod_add. lia. Qed.
Lemma q_mod m : (4 ^ (S m)) mod 4 = 0.
Proof. rewrite Nat.pow_succ_r'. rewrite Nat.mul_comm. apply Nat.mod_mul. lia. Qed.
Lemma pairs_spec m : below (4 ^ (S m)) (lst_pairs m) /\ NoDup (lst_pairs m) /\
  forall i j, In (i, j) (lst_pairs m) <-> In (i, j) (tree m) \/ (In (j, i) (tree m) /\ ~ missing i j) \/ (i = j /\ i mod 4 = 1 /\ i < 4 ^ (S m)).
Proof.
  induction m as [|m (Hb & Hnd & Hin)].
  - cbn [lst_pairs tree Nat.pow Nat.mul Nat.add]. split; [|split].
    + intros i j H. cbn [In] in H. repeat (destruct H as [H|H]; [pinj H; lia|]). destruct H.
    + repeat constructor; cbn [In]; intros H; repeat (destruct H as [H|H]; [discriminate|]); exact H.
    + intros i j. cbn [In]. split.
      * intros H. unfold missing. repeat (destruct H as [H|H]; [pinj H; cbn; solve [auto | right; right; repeat split; lia | right; left; split; [auto|lia]]|]). destruct H.
      * intros [H|[(H & Hm)|(<- & H & Hlt)]].
        -- repeat (destruct H as [H|H]; [pinj H; auto 8|]). destruct H.
        -- repeat (destruct H as [H|H]; [pinj H; try (exfalso; apply Hm; split; reflexivity); auto 8|]). destruct H.
        -- destruct i as [|[|[|[|i]]]]; try discriminate; auto; lia.
  - cbn [lst_pairs tree]. pose proof (tree_ok m) as (Tb & _ & Tlt & _). pose proof (q_mod m) as Hq4. rewrite (Nat.pow_succ_r' 4 (S m)). rewrite (rr_pow m) in *. pose proof (rr_pos m) as Hr. destruct (rr_mod m) as (t & Ht). rewrite level_eq. set (r := rr m) in *. clearbody r.
    destruct (blocks r Hr) as (B1 & B2 & B3 & B4).
    set (e := [(3 * r, 5 * r + 1); (3 * r, 7 * r + 2); (7 * r + 2, 9 * r + 3); (5 * r + 1, 3 * r); (7 * r + 2, 3 * r); (9 * r + 3, 7 * r + 2)]) in *.
    assert (He : forall i j, In (i, j) e -> i < 4 * (3 * r + 1) /\ j < 4 * (3 * r + 1) /\ i / (3 * r + 1) <> j / (3 * r + 1)).
    { intros i j H. unfold e in H. cbn [In] in H. repeat (destruct H as [H|H]; [pinj H; (split; [lia|split; [lia|rewrite ?B1, ?B2, ?B3, ?B4; discriminate]])|]). destruct H. }
    assert (Hel : forall i j, In (i, j) e <-> In (i, j) (links r) \/ (In (j, i) (links r) /\ ~ missing i j)).
    { intros i j. unfold e, links. cbn [In]. split.
      - intros H. repeat (destruct H as [H|H]; [pinj H; solve [auto | right; split; [auto|unfold missing; lia]]|]). destruct H.
      - intros [H|(H & _)]; repeat (destruct H as [H|H]; [pinj H; auto 8|]); destruct H. }
    split; [|split].
    + intros i j H. apply four_in in H. destruct H as [(c & a & b & Hc' & H & -> & ->)|H].
      * destruct (Hb a b H). assert (c * (3 * r + 1) <= 3 * (3 * r + 1)) by (apply Nat.mul_le_mono_r; lia). lia.
      * apply He in H. lia.
    + apply four_nodup; [exact Hb|exact Hnd| |intros i j H; apply He in H; tauto|lia].
      unfold e. repeat constructor; cbn [In]; intros H; repeat (destruct H as [H|H]; [injection H; lia|]); exact H.
    + intros i j. rewrite !four_in, Hel. unfold missing. split.
      * intros [(c & a & b & Hc' & H & -> & ->)|[H|(H & H')]]; [|tauto|tauto]. apply Hin in H. destruct H as [H|[(H & H')|(<- & H & H')]].
        -- left. left. exists c, a, b. auto.
        -- right. left. split; [left; exists c, b, a; auto|]. rewrite mod4_shift by exact Hq4. intros (X & Y). apply H'. split; [exact X|lia].
        -- right. right. split; [reflexivity|]. rewrite mod4_shift by exact Hq4. split; [exact H|]. assert (c * (3 * r + 1) <= 3 * (3 * r + 1)) by (apply Nat.mul_le_mono_r; lia). lia.
      * intros [[(c & a & b & Hc' & H & -> & ->)|H]|[([(c & a & b & Hc' & H & -> & ->)|H] & Hm)|(<- & Hm & Hlt)]].
        -- left. exists c, a, b. split; [exact Hc'|]. split; [apply Hin; auto|auto].
        -- right. left. exact H.
        -- left. exists c, b, a. split; [exact Hc'|]. split; [|auto]. apply Hin. right. left. split; [exact H|]. rewrite mod4_shift in Hm by exact Hq4. intros (X & Y). apply Hm. split; [exact X|lia].
        -- right. right. split; [exact H|exact Hm].
        -- left. exists (i / (3 * r + 1)), (i mod (3 * r + 1)), (i mod (3 * r + 1)). assert (E : i = i mod (3 * r + 1) + i / (3 * r + 1) * (3 * r + 1)) by (rewrite (Nat.div_mod i (3 * r + 1)) at 1 by lia; lia).
           split; [apply Nat.div_lt_upper_bound; lia|]. split; [|auto]. apply Hin. right. right. split; [reflexivity|]. split; [|apply Nat.mod_upper_bound; lia].
           rewrite E in Hm. rewrite mod4_shift in Hm by exact Hq4. exact Hm.
Qed.
(** ** The coordinates *)
Definition xy (m v : nat) : nat * nat := nth v (lst_xy m) (0, 0).
Lemma xy_len m : List.length (lst_xy m) = 4 ^ (S m).
Proof. induction m as [|m IH]; [reflexivity|]. cbn [lst_xy]. rewrite !app_length, !map_length, IH, (Nat.pow_succ_r' 4 (S m)). lia. Qed.
Lemma xy_block m c v : c < 4 -> v < 4 ^ (S m) ->
  xy (S m) (v + c * 4 ^ (S m)) = (fst (xy m v) + (c mod 2) * 2 ^ (S m), snd (xy m v) + (c / 2) * 2 ^ (S m)).
Proof.
  intros Hc Hv. unfold xy. cbn [lst_xy]. pose proof (xy_len m) as HL. set (l := lst_xy m) in *. set (q := 4 ^ (S m)) in *. set (s := 2 ^ (S m)). clearbody q s l.
  assert (N1 : forall (f : nat * nat -> nat * nat), nth v (map f l) (0, 0) = f (nth v l (0, 0))).
  { intros f. rewrite (nth_indep _ (0, 0) (f (0, 0))) by (rewrite map_length; lia). apply map_nth. }
  destruct c as [|[|[|[|c]]]]; [| | | |lia].
  - rewrite app_nth1 by lia. change (0 mod 2) with 0. change (0 / 2) with 0. replace (v + 0 * q) with v by lia. destruct (nth v l (0, 0)) as [x y]. cbn [fst snd]. f_equal; lia.
  - rewrite app_nth2 by lia. rewrite app_nth1 by (rewrite map_length; lia). replace (v + 1 * q - List.length l) with v by lia. rewrite N1. change (1 mod 2) with 1. change (1 / 2) with 0. cbn [fst snd]. f_equal; lia.
  - rewrite app_nth2 by lia. rewrite app_nth2 by (rewrite map_length; lia). rewrite app_nth1 by (rewrite !map_length; lia). rewrite map_length. replace (v + 2 * q - List.length l - List.length l) with v by lia. rewrite N1.
    change (2 mod 2) with 0. change (2 / 2) with 1. cbn [fst snd]. f_equal; lia.
  - rewrite app_nth2 by lia. rewrite app_nth2 by (rewrite map_length; lia). rewrite app_nth2 by (rewrite !map_length; lia). rewrite !map_length. replace (v + 3 * q - List.length l - List.length l - List.length l) with v by lia. rewrite N1.
    change (3 mod 2) with 1. change (3 / 2) with 1. cbn [fst snd]. f_equal; lia.
Qed.
Lemma xy_corners m : let s := 2 ^ (S m) in let r := rr m in
  xy m 0 = (1, 1) /\ xy m r = (s, 1) /\ xy m (2 * r) = (1, s) /\ xy m (3 * r) = (s, s).
Proof.
  induction m as [|m IH]; [repeat split|]. cbv zeta in *. pose proof (rr_pow m) as Hq. pose proof (rr_pos m) as Hr. destruct IH as (I0 & I1 & I2 & I3).
  rewrite (Nat.pow_succ_r' 2 (S m)). cbn [rr]. set (r := rr m) in *. set (s := 2 ^ (S m)) in *.
  assert (B : forall c v x y, c < 4 -> v < 4 ^ (S m) -> xy m v = (x, y) -> xy (S m) (v + c * (3 * r + 1)) = (x + (c mod 2) * s, y + (c / 2) * s)).
  { intros c v x y Hc Hv E. rewrite <- Hq, xy_block, E by assumption. reflexivity. }
  clearbody r s. split; [|split; [|split]].
  - pose proof (B 0 0 1 1 ltac:(lia) ltac:(lia) I0) as E. cbn in E. exact E.
  - pose proof (B 1 r s 1 ltac:(lia) ltac:(lia) I1) as E. replace (r + 1 * (3 * r + 1)) with (4 * r + 1) in E by lia. rewrite E. change (1 mod 2) with 1. change (1 / 2) with 0. f_equal; lia.
  - pose proof (B 2 (2 * r) 1 s ltac:(lia) ltac:(lia) I2) as E. replace (2 * r + 2 * (3 * r + 1)) with (2 * (4 * r + 1)) in E by lia. rewrite E. change (2 mod 2) with 0. change (2 / 2) with 1. f_equal; lia.
  - pose proof (B 3 (3 * r) s s ltac:(lia) ltac:(lia) I3) as E. replace (3 * r + 3 * (3 * r + 1)) with (3 * (4 * r + 1)) in E by lia. rewrite E. change (3 mod 2) with 1. change (3 / 2) with 1. f_equal; lia.
Qed.
Lemma unit_shift x y x' y' a b : unit_distance (x, y) (x', y') -> unit_distance (x + a, y + b) (x' + a, y' + b).
Proof. unfold unit_distance, ndist. cbn [fst snd]. lia. Qed.
Lemma tree_unit m i j : In (i, j) (tree m) -> unit_distance (xy m i) (xy m j).
Proof.
  revert i j. induction m as [|m IH]; intros i j H.
  - cbn [tree In] in H. repeat (destruct H as [H|H]; [pinj H; reflexivity|]). destruct H.
  - cbn [tree] in H. pose proof (tree_ok m) as (Tb & _). pose proof (rr_pow m) as Hq. pose proof (xy_corners m) as (C0 & C1 & C2 & C3). pose proof (rr_pos m) as Hr.
    apply four_in in H. destruct H as [(c & a & b & Hc & H & -> & ->)|H].
    + destruct (Tb a b H) as (Ha & Hb). rewrite !xy_block by assumption. specialize (IH a b H). destruct (xy m a) as [x y], (xy m b) as [x' y']. apply unit_shift. exact IH.
    + set (r := rr m) in *. unfold links in H. cbn [In] in H.
      assert (E1 : xy (S m) (3 * r) = (2 ^ (S m), 2 ^ (S m))).
      { replace (3 * r) with (3 * r + 0 * 4 ^ (S m)) by lia. rewrite xy_block, C3 by lia. change (0 mod 2) with 0. change (0 / 2) with 0. cbn [fst snd]. f_equal; lia. }
      assert (E2 : xy (S m) (5 * r + 1) = (1 + 2 ^ (S m), 2 ^ (S m))).
      { replace (5 * r + 1) with (2 * r + 1 * 4 ^ (S m)) by lia. rewrite xy_block, C2 by lia. change (1 mod 2) with 1. change (1 / 2) with 0. cbn [fst snd]. f_equal; lia. }
      assert (E3 : xy (S m) (7 * r + 2) = (2 ^ (S m), 1 + 2 ^ (S m))).
      { replace (7 * r + 2) with (r + 2 * 4 ^ (S m)) by lia. rewrite xy_block, C1 by lia. change (2 mod 2) with 0. change (2 / 2) with 1. cbn [fst snd]. f_equal; lia. }
      assert (E4 : xy (S m) (9 * r + 3) = (1 + 2 ^ (S m), 1 + 2 ^ (S m))).
      { replace (9 * r + 3) with (0 + 3 * 4 ^ (S m)) by lia. rewrite xy_block, C0 by lia. change (3 mod 2) with 1. change (3 / 2) with 1. cbn [fst snd]. f_equal; lia. }
      repeat (destruct H as [H|H]; [pinj H; rewrite ?E1, ?E2, ?E3, ?E4; unfold unit_distance, ndist; cbn [fst snd]; lia|]). destruct H.
Qed.
Lemma xy_range m v : v < 4 ^ (S m) -> 1 <= fst (xy m v) <= 2 ^ (S m) /\ 1 <= snd (xy m v) <= 2 ^ (S m).
Proof.
  revert v. induction m as [|m IH]; intros v Hv.
  - change (4 ^ 1) with 4 in Hv. destruct v as [|[|[|[|v]]]]; [| | | |lia]; cbn; lia.
  - rewrite Nat.pow_succ_r' in Hv. assert (P : 4 ^ (S m) <> 0) by (apply Nat.pow_nonzero; lia).
    rewrite (Nat.div_mod v (4 ^ (S m)) P). set (c := v / 4 ^ (S m)). set (w := v mod 4 ^ (S m)). assert (Hc : c < 4) by (apply Nat.div_lt_upper_bound; lia). assert (Hw : w < 4 ^ (S m)) by (apply Nat.mod_upper_bound; exact P).
    replace (4 ^ (S m) * c + w) with (w + c * 4 ^ (S m)) by lia. rewrite xy_block by assumption. destruct (IH w Hw) as (H1 & H2). cbn [fst snd]. rewrite (Nat.pow_succ_r' 2 (S m)). clearbody c w.
    destruct c as [|[|[|[|c]]]]; [| | | |lia]; cbn [Nat.div Nat.modulo Nat.divmod fst snd Nat.sub]; lia.
Qed.
Lemma xy_inj m u v : u < 4 ^ (S m) -> v < 4 ^ (S m) -> xy m u = xy m v -> u = v.
Proof.
  revert u v. induction m as [|m IH]; intros u v Hu Hv.
  - change (4 ^ 1) with 4 in *. destruct u as [|[|[|[|u]]]]; [| | | |lia]; (destruct v as [|[|[|[|v]]]]; [| | | |lia]); cbn; intros E; congruence.
  - rewrite Nat.pow_succ_r' in Hu, Hv. assert (P : 4 ^ (S m) <> 0) by (apply Nat.pow_nonzero; lia).
    rewrite (Nat.div_mod u (4 ^ (S m)) P), (Nat.div_mod v (4 ^ (S m)) P).
    assert (Hc : u / 4 ^ (S m) < 4) by (apply Nat.div_lt_upper_bound; lia). assert (Hw : u mod 4 ^ (S m) < 4 ^ (S m)) by (apply Nat.mod_upper_bound; exact P).
    assert (Hc' : v / 4 ^ (S m) < 4) by (apply Nat.div_lt_upper_bound; lia). assert (Hw' : v mod 4 ^ (S m) < 4 ^ (S m)) by (apply Nat.mod_upper_bound; exact P).
    set (c := u / 4 ^ (S m)) in *. set (w := u mod 4 ^ (S m)) in *. set (c' := v / 4 ^ (S m)) in *. set (w' := v mod 4 ^ (S m)) in *. clearbody c w c' w'.
    rewrite (Nat.mul_comm _ c), (Nat.mul_comm _ c'), (Nat.add_comm _ w), (Nat.add_comm _ w'). rewrite !xy_block by assumption. intros E. apply pair_equal_spec in E. destruct E as (E1 & E2).
    destruct (xy_range m w Hw) as (R1 & R2), (xy_range m w' Hw') as (R1' & R2').
    assert (K : c = c' /\ fst (xy m w) = fst (xy m w') /\ snd (xy m w) = snd (xy m w')).
    { destruct c as [|[|[|[|c]]]]; [| | | |lia]; (destruct c' as [|[|[|[|c']]]]; [| | | |lia]); cbn [Nat.div Nat.modulo Nat.divmod fst snd Nat.sub] in E1, E2; lia. }
    destruct K as (-> & K1 & K2). f_equal. apply IH; try assumption. destruct (xy m w), (xy m w'). cbn [fst snd] in *. congruence.
Qed.
(** ** The statement *)
Lemma list_max_exact l n : (forall x, In x l -> x < S n) -> In n l -> list_max l = n.
Proof.
  intros H1 H2. apply Nat.le_antisymm.
  - apply list_max_le. apply Forall_forall. intros x Hx. specialize (H1 x Hx). lia.
  - pose proof (proj1 (list_max_le l (list_max l)) (le_n _)) as F. rewrite Forall_forall in F. apply F. exact H2.
Qed.
Lemma last_pairs m : In (3 * rr m, 3 * rr m - 1) (lst_pairs m).
Proof.
  induction m as [|m IH]; [cbn; auto 8|]. cbn [lst_pairs]. rewrite rr_pow, level_eq. apply four_in. left. exists 3, (3 * rr m), (3 * rr m - 1). pose proof (rr_pos m). cbn [rr]. split; [lia|]. split; [exact IH|lia].
Qed.
Lemma last_pairs' m : exists i, In (i, 3 * rr m) (lst_pairs m).
Proof.
  induction m as [|m (i & IH)]; [exists 2; cbn; auto 8|]. cbn [lst_pairs]. rewrite rr_pow, level_eq. eexists. apply four_in. left. exists 3, i, (3 * rr m). pose proof (rr_pos m). cbn [rr]. split; [lia|]. split; [exact IH|]. split; [reflexivity|lia].
Qed.
Lemma lst_run m lap : valid_lap lap -> exists G, LowStretchTree (S m) lap = Ok G /\ unit_graph G (4 ^ (S m)) (fun i j => In (i, j) (lst_pairs m)) /\
  g_coords G = Some (map (fun p => [INR (fst p); INR (snd p)]) (lst_xy m)).
Proof.
  intros Hl. unfold LowStretchTree. replace (S m - 1) with m by lia. destruct (pairs_spec m) as (Hb & Hnd & Hin).
  assert (M1 : S (list_max (map fst (lst_pairs m))) = 4 ^ (S m)).
  { rewrite rr_pow. rewrite (list_max_exact _ (3 * rr m)); [lia| |].
    - intros x Hx. apply in_map_iff in Hx. destruct Hx as ([i j] & <- & Hx). apply Hb in Hx. rewrite rr_pow in Hx. cbn [fst]. lia.
    - apply in_map_iff. exists (3 * rr m, 3 * rr m - 1). split; [reflexivity|apply last_pairs]. }
  assert (M2 : S (list_max (map snd (lst_pairs m))) = 4 ^ (S m)).
  { rewrite rr_pow. rewrite (list_max_exact _ (3 * rr m)); [lia| |].
    - intros x Hx. apply in_map_iff in Hx. destruct Hx as ([i j] & <- & Hx). apply Hb in Hx. rewrite rr_pow in Hx. cbn [snd]. lia.
    - destruct (last_pairs' m) as (i & Hi). apply in_map_iff. exists (i, 3 * rr m). split; [reflexivity|exact Hi]. }
  rewrite M1, M2.
  destruct (unit_nodup (4 ^ (S m)) (lst_pairs m) lap (Some (map (fun p => [INR (fst p); INR (snd p)]) (lst_xy m))) Hnd) as (G & E & HG & _ & Hcoords); [|exact Hl|].
  { intros [i j] H. apply Hb in H. exact H. }
  exists G. split; [exact E|]. split; [exact HG|exact Hcoords].
Qed.
Lemma tree_leaf m t : joined (tree m) t 1 -> t = 0.
Proof.
  revert t. induction m as [|m IH]; intros t.
  - intros [H|H]; cbn [tree In] in H; repeat (destruct H as [H|H]; [apply pair_equal_spec in H; lia|]); destruct H.
  - assert (P : 4 <= 4 ^ (S m)) by (replace 4 with (4 ^ 1) at 1 by reflexivity; apply Nat.pow_le_mono_r; lia). pose proof (rr_pos m) as Hr.
    assert (S1 : forall x c, x + c * 4 ^ (S m) = 1 -> c = 0 /\ x = 1) by (intros x c H; destruct c as [|c]; [lia|]; rewrite Nat.mul_succ_l in H; lia).
    intros [H|H]; cbn [tree] in H; apply four_in in H; (destruct H as [(c & a & b & Hc & H & E1 & E2)|H]; [|unfold links in H; cbn [In] in H; repeat (destruct H as [H|H]; [apply pair_equal_spec in H; lia|]); destruct H]).
    + destruct (S1 b c (eq_sym E2)) as (-> & ->). rewrite Nat.mul_0_l, Nat.add_0_r in E1. subst t. apply IH. left. exact H.
    + destruct (S1 a c (eq_sym E1)) as (-> & ->). rewrite Nat.mul_0_l, Nat.add_0_r in E2. subst t. apply IH. right. exact H.
Qed.
Lemma pairs_length m : List.length (lst_pairs m) + 2 = 2 * 4 ^ (S m).
Proof. induction m as [|m IH]; [reflexivity|]. cbn [lst_pairs]. rewrite rr_pow, level_eq. unfold four, shift_pairs. rewrite !app_length, !map_length. cbn [List.length]. rewrite (Nat.pow_succ_r' 4 (S m)), rr_pow in *. lia. Qed.
(** What the code builds, for all k >= 1: the coordinates enumerate the 2^k x 2^k grid without repetition; there is a spanning tree of the grid
    whose edges are all present in one direction, and in both except the 4^(k-1) of them that join the vertices v and v + 1, v divisible by 4,
    whose reverse arc is replaced by a loop. *)
Theorem C54_graph k lap : 1 <= k -> valid_lap lap -> exists G T, LowStretchTree k lap = Ok G /\ spanning_tree (4 ^ k) T /\
  (exists pos : nat -> nat * nat, g_coords G = Some (map (fun v => [INR (fst (pos v)); INR (snd (pos v))]) (seq 0 (4 ^ k))) /\
    (forall v, v < 4 ^ k -> 1 <= fst (pos v) <= 2 ^ k /\ 1 <= snd (pos v) <= 2 ^ k) /\
    (forall u v, u < 4 ^ k -> v < 4 ^ k -> pos u = pos v -> u = v) /\ (forall i j, In (i, j) T -> unit_distance (pos i) (pos j))) /\
  unit_graph G (4 ^ k) (fun i j => In (i, j) T \/ (In (j, i) T /\ ~ (i mod 4 = 1 /\ i = j + 1)) \/ (i = j /\ i mod 4 = 1)) /\
  (forall t, 4 * t + 1 < 4 ^ k -> In (4 * t, 4 * t + 1) T) /\ (forall t, joined T t 1 -> t = 0) /\
  lst_root k < 4 ^ k.
Proof.
  intros Hk Hl. unfold lst_root. replace k with (S (k - 1)) by lia. set (m := k - 1). clearbody m.
  destruct (pairs_spec m) as (Hb & Hnd & Hin). destruct (tree_ok m) as (Tb & Tnd & Tlt & Tlen & Tc). destruct (lst_run m lap Hl) as (G & E & HG & Hcoords).
  exists G, (tree m). split; [exact E|]. split; [split; [exact Tnd|]; split; [intros i j H; split; [apply Tlt; exact H|apply Tb in H; tauto]|]; split; [exact Tlen|exact Tc]|].
  split; [|split; [|split; [|split]]].
  - exists (xy m). split; [|split; [apply xy_range|split; [apply xy_inj|apply tree_unit]]].
    rewrite Hcoords. f_equal. apply nth_ext with (d := [INR (fst (0, 0)); INR (snd (0, 0))]) (d' := [INR (fst (0, 0)); INR (snd (0, 0))]); [rewrite !map_length, seq_length; apply xy_len|].
    intros v Hv. rewrite map_length, xy_len in Hv. rewrite (map_nth (fun p => [INR (fst p); INR (snd p)]) (lst_xy m) (0, 0)). rewrite (nth_indep _ _ ((fun v => [INR (fst (xy m v)); INR (snd (xy m v))]) 0)) by (rewrite map_length, seq_length; exact Hv).
    rewrite (map_nth (fun v => [INR (fst (xy m v)); INR (snd (xy m v))])), seq_nth by exact Hv. reflexivity.
  - revert HG. apply unit_graph_iff. intros i j Hi Hj. rewrite Hin. unfold missing. tauto.
  - clear. induction m as [|m IH]; intros t Ht.
    + change (4 ^ 1) with 4 in Ht. assert (t = 0) by lia. subst. cbn. auto.
    + cbn [tree]. apply four_in. left. rewrite (Nat.pow_succ_r' 4 (S m)) in Ht. assert (P : 4 ^ m <> 0) by (apply Nat.pow_nonzero; lia). assert (Q : 4 ^ (S m) = 4 * 4 ^ m) by apply Nat.pow_succ_r'.
      exists (t / 4 ^ m), (4 * (t mod 4 ^ m)), (4 * (t mod 4 ^ m) + 1). pose proof (Nat.mod_upper_bound t (4 ^ m) P) as R. pose proof (Nat.div_mod t (4 ^ m) P) as D.
      split; [apply Nat.div_lt_upper_bound; lia|]. rewrite Q in *. split; [apply IH; lia|]. set (c := t / 4 ^ m) in *. set (w := t mod 4 ^ m) in *. set (q := 4 ^ m) in *. clearbody c w q. subst t. lia.
  - apply tree_leaf.
  - replace (S m - 1) with m by lia. apply Nat.pow_lt_mono_r; lia.
Qed.
(** FINDING (lowstretchtree.py:36: jj[2] is 1, should be 0).  The graph is never undirected, has a loop at every vertex 4t + 1, is never connected
    (vertex 1 has no way out), and reports 2(4^k - 1) edges instead of the 4^k - 1 of a tree. *)
Theorem C54_tree_refuted k lap G pop pop' : 1 <= k -> valid_lap lap -> LowStretchTree k lap = Ok G -> pop_ok pop -> pop_ok pop' ->
  ~ undirected G /\ (forall t, 4 * t + 1 < 4 ^ k -> wt G (4 * t + 1) (4 * t + 1) = 1%R) /\ is_connected pop pop' (gW G) = Some (Ok false) /\ g_n_edges G = 2 * (4 ^ k - 1).
Proof.
  intros Hk Hl HG Hp Hp'. destruct (C54_graph k lap Hk Hl) as (G' & T & E & (Tnd & Tb & Tlen & Tc) & _ & (Hb & Hn & Hw) & Hloop & Leaf & _). rewrite HG in E. injection E as <-.
  assert (P : 4 <= 4 ^ k) by (replace 4 with (4 ^ 1) at 1 by reflexivity; apply Nat.pow_le_mono_r; lia).
  assert (Hmod : forall t, (4 * t + 1) mod 4 = 1) by (intros t; rewrite Nat.add_comm, Nat.mul_comm; rewrite Nat.mod_add by lia; reflexivity).
  assert (H01 : wt G 0 1 = 1%R) by (apply (Hw 0 1); [lia|lia|]; left; apply (Hloop 0); lia).
  assert (H10 : wt G 1 0 = 0%R).
  { apply (Hw 1 0); [lia|lia|]. intros [H|[(_ & H)|(H & _)]]; [apply Tb in H; lia|apply H; split; reflexivity|discriminate]. }
  assert (Hd : ~ undirected G) by (intros H; specialize (H 0 1 ltac:(lia) ltac:(lia)); rewrite H01, H10 in H; lra).
  split; [exact Hd|]. split; [intros t Ht; apply (Hw (4 * t + 1) (4 * t + 1)); [exact Ht|exact Ht|]; right; right; split; [reflexivity|apply Hmod]|]. split.
  - destruct (C05_is_connected_decides_connectivity G pop pop' Hb Hp Hp' ltac:(lia)) as ([|] & E & HC); [|exact E]. exfalso.
    pose proof (proj1 HC eq_refl 1 0 ltac:(lia) ltac:(lia)) as R.
    assert (K : forall v, reach (has_arc G) 1 v -> v = 1 \/ exists t, In (t, 1) T /\ t <> 0 \/ In (1, t) T).
    { intros v R'. remember 1 as o eqn:Eo in R'. induction R' as [u|u v w R' IH H]; [left; exact Eo|]. destruct (IH Eo) as [Ev|Hex]; [|right; exact Hex]. subst v. destruct H as (_ & Hw' & Hne).
      destruct (Nat.eq_dec w 1) as [->|Hw1]; [left; reflexivity|]. right. exists w. rewrite Hn in Hw'. 
      destruct (in_dec pair_dec (1, w) T) as [H1|H1]; [right; exact H1|]. left. destruct (in_dec pair_dec (w, 1) T) as [H2|H2].
      - split; [exact H2|]. intros ->. apply Hne. exact H10.
      - exfalso. apply Hne. apply (Hw 1 w); [lia|exact Hw'|]. intros [H|[(H & _)|(H & _)]]; [contradiction|contradiction|congruence]. }
    (* vertex 1 has a single tree edge, to 0 *)
    destruct (K 0 R) as [X|(t & [(X & Y)|X])]; [discriminate| |].
    + apply Y, Leaf. left. exact X.
    + pose proof (Tb _ _ X). assert (t = 0) by (apply Leaf; right; exact X). lia.
  - replace k with (S (k - 1)) in * by lia. set (m := k - 1) in *. destruct (lst_run m lap Hl) as (G' & E & (_ & _ & Hw') & _). rewrite HG in E. injection E as <-.
    destruct (pairs_spec m) as (Pb & Pnd & _). apply (card_unique _ _ _ (C02_n_edges_directed G Hb Hd)). exists (lst_pairs m). split; [exact Pnd|]. split; [|pose proof (pairs_length m); lia].
    intros [i j]. cbn [fst snd]. rewrite Hn. split.
    + intros H. destruct (Pb i j H) as (Hi & Hj). split; [exact Hi|]. split; [exact Hj|]. rewrite (proj1 (Hw' i j Hi Hj) H). lra.
    + intros (Hi & Hj & Hne). destruct (in_dec pair_dec (i, j) (lst_pairs m)) as [H|H]; [exact H|]. exfalso. apply Hne. apply (Hw' i j Hi Hj). exact H.
Qed.
(** k = 0 builds the graph of k = 1. *)
Theorem C54_zero lap : LowStretchTree 0 lap = LowStretchTree 1 lap.
Proof. reflexivity. Qed.
