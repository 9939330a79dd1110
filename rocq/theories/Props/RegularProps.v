(** C52: random regular graphs. *)
From Coq Require Import Reals Lra Lia List Arith Bool String.
From Coq Require Import List.
From Verif.Base Require Import RSum Prelude.
From Verif.Spec Require Import Matrix GraphSpec Card Reach GenSpec.
From Verif.Model Require Import Sparse Graph Traverse Utils Reduction Random.
From Verif.Proofs Require Import SparseFacts InitFacts EdgeFacts SubgraphFacts TraverseFacts GenFacts.
From Verif.Props Require Import Core Traversal UtilsProps ReductionProps GenProps GridProps SbmProps.
Import ListNotations.
Open Scope R_scope.
Open Scope list_scope.

(** rng.integers(0, n) is below n *)
Definition draws_ok (d : nat -> nat -> nat) : Prop := forall t n, (0 < n)%nat -> (d t n < n)%nat.

Lemma nth_firstn_below (U : list nat) a b : (a < b)%nat -> nth a (firstn b U) 0%nat = nth a U 0%nat.
Proof. revert a b. induction U as [|x U IH]; intros a b H; [rewrite firstn_nil; reflexivity|]. destruct b; [lia|]. destruct a; [reflexivity|]. cbn. apply IH. lia. Qed.

Notation cnt l v := (count_occ Nat.eq_dec l v).
Lemma cut_count (U : list nat) i v : (i < List.length U)%nat -> cnt U v = ((if Nat.eq_dec (nth i U 0%nat) v then 1 else 0) + cnt (firstn i U ++ skipn (i + 1) U) v)%nat.
Proof.
  revert i. induction U as [|x U IH]; intros i Hi; [cbn in Hi; lia|]. destruct i as [|i].
  - cbn [nth firstn app skipn Nat.add]. cbn [count_occ]. destruct (Nat.eq_dec x v); reflexivity.
  - cbn [nth firstn app Nat.add skipn count_occ]. cbn [List.length] in Hi. rewrite (IH i ltac:(lia)). destruct (Nat.eq_dec x v); [lia|]. reflexivity.
Qed.
Lemma remove_count U i1 i2 v : (i1 < List.length U)%nat -> (i2 < List.length U)%nat -> i1 <> i2 ->
  cnt U v = ((if Nat.eq_dec (nth i1 U 0%nat) v then 1 else 0) + (if Nat.eq_dec (nth i2 U 0%nat) v then 1 else 0) + cnt (rr_remove U i1 i2) v)%nat.
Proof.
  assert (K : forall a b, (a < b)%nat -> (b < List.length U)%nat -> cnt U v = ((if Nat.eq_dec (nth a U 0%nat) v then 1 else 0) + (if Nat.eq_dec (nth b U 0%nat) v then 1 else 0) +
     cnt (firstn a U ++ firstn (b - (a + 1)) (skipn (a + 1) U) ++ skipn (b + 1) U) v)%nat).
  { intros a b Hab Hb. rewrite (cut_count U b v Hb). rewrite (cut_count (firstn b U ++ skipn (b + 1) U) a v) by (rewrite app_length, firstn_length, skipn_length; lia).
    rewrite app_nth1 by (rewrite firstn_length; lia). rewrite nth_firstn_below by exact Hab.
    assert (E : firstn a (firstn b U ++ skipn (b + 1) U) ++ skipn (a + 1) (firstn b U ++ skipn (b + 1) U) = firstn a U ++ firstn (b - (a + 1)) (skipn (a + 1) U) ++ skipn (b + 1) U).
    { rewrite firstn_app, firstn_firstn, firstn_length. replace (Nat.min a b) with a by lia. replace (a - Nat.min b (List.length U))%nat with 0%nat by lia. rewrite firstn_O, app_nil_r. f_equal.
      rewrite skipn_app, firstn_length. replace (a + 1 - Nat.min b (List.length U))%nat with 0%nat by lia. cbn [skipn]. f_equal. rewrite skipn_firstn_comm. reflexivity. }
    rewrite E. lia. }
  intros H1 H2 Hne. unfold rr_remove. destruct (Nat.lt_trichotomy i1 i2) as [H|[H|H]]; [|contradiction|].
  - replace (Nat.min i1 i2) with i1 by lia. replace (Nat.max i1 i2) with i2 by lia. apply K; assumption.
  - replace (Nat.min i1 i2) with i2 by lia. replace (Nat.max i1 i2) with i1 by lia. rewrite (K i2 i1 H H1). lia.
Qed.

Lemma half_count N k v : (v < N)%nat -> cnt (rr_half_edges N k) v = k.
Proof.
  intros Hv. assert (H1 : cnt (seq 0 N) v = 1%nat).
  { apply NoDup_count_occ'; [apply seq_NoDup | apply in_seq; lia]. }
  unfold rr_half_edges. generalize 0%nat at 2 as s0. induction k as [|k IH]; intros s0; [reflexivity|].
  cbn [seq flat_map]. rewrite count_occ_app, H1, IH. reflexivity.
Qed.
Lemma half_below N k : Forall (fun v => (v < N)%nat) (rr_half_edges N k).
Proof. apply Forall_forall. intros v Hv. unfold rr_half_edges in Hv. apply in_flat_map in Hv. destruct Hv as (x & _ & H). apply in_seq in H. lia. Qed.
Lemma half_length N k : List.length (rr_half_edges N k) = (N * k)%nat.
Proof.
  unfold rr_half_edges. generalize 0%nat at 2 as s0. induction k as [|k IH]; intros s0; [cbn; lia|].
  cbn [seq flat_map]. rewrite app_length, seq_length, IH. lia.
Qed.
Lemma remove_below N U i1 i2 : Forall (fun v => (v < N)%nat) U -> Forall (fun v => (v < N)%nat) (rr_remove U i1 i2).
Proof.
  intros H. rewrite Forall_forall in *. intros v Hv. apply H. unfold rr_remove in Hv. rewrite !in_app_iff in Hv.
  assert (F : forall n (l : list nat), In v (firstn n l) -> In v l) by (intros n l Hl; rewrite <- (firstn_skipn n l); apply in_or_app; left; exact Hl).
  assert (S' : forall n (l : list nat), In v (skipn n l) -> In v l) by (intros n l Hl; rewrite <- (firstn_skipn n l); apply in_or_app; right; exact Hl).
  destruct Hv as [Hv|[Hv|Hv]]; eauto.
Qed.
(** The loop invariant: an undirected loop-free 0/1 matrix where every vertex has k minus its open half-edges neighbours. *)
Definition rr_inv (N k : nat) (A : mat) (U : list nat) : Prop :=
  (forall a b, A a b = A b a) /\ (forall a, A a a = 0) /\ (forall a b, A a b = 0 \/ A a b = 1) /\ Forall (fun v => (v < N)%nat) U /\
  (forall v, (v < N)%nat -> \sum_(j < N) (A v j) + INR (cnt U v) = INR k).
Lemma rr_inv_start N k : rr_inv N k (fun _ _ => 0) (rr_half_edges N k).
Proof.
  split; [reflexivity|split; [reflexivity|split; [left; reflexivity|split; [apply half_below|]]]].
  intros v Hv. rewrite rsum_0 by reflexivity. rewrite half_count by exact Hv. lra.
Qed.
Lemma link_sum N (A : mat) v1 v2 v : (v1 < N)%nat -> (v2 < N)%nat -> v1 <> v2 -> A v1 v2 = 0 -> A v2 v1 = 0 ->
  \sum_(j < N) (rr_link A v1 v2 v j) = \sum_(j < N) (A v j) + INR (if Nat.eq_dec v1 v then 1 else 0) + INR (if Nat.eq_dec v2 v then 1 else 0).
Proof.
  intros H1 H2 Hne Z1 Z2.
  assert (K : forall w, (w < N)%nat -> (forall j, rr_link A v1 v2 v j = A v j + (if Nat.eqb j w then 1 else 0)) ->
    \sum_(j < N) (rr_link A v1 v2 v j) = \sum_(j < N) (A v j) + 1).
  { intros w Hw E. rewrite (rsum_ext N _ (fun j => A v j + (if Nat.eqb j w then 1 else 0))) by (intros; apply E). rewrite rsum_plus. f_equal.
    rewrite (rsum_single N _ w Hw); [rewrite Nat.eqb_refl; reflexivity|]. intros j _ Hj. apply Nat.eqb_neq in Hj. rewrite Hj. reflexivity. }
  unfold rr_link in *. destruct (Nat.eq_dec v1 v) as [E|E]; [|destruct (Nat.eq_dec v2 v) as [E2|E2]].
  - subst v. destruct (Nat.eq_dec v2 v1) as [X|X]; [congruence|]. cbn [INR]. rewrite (K v2 H2); [lra|]. intros j. rewrite Nat.eqb_refl. apply Nat.eqb_neq in Hne. rewrite Hne. cbn.
    destruct (Nat.eqb_spec j v2); cbn; [subst; lra|lra].
  - subst v. cbn [INR]. rewrite (K v1 H1); [lra|]. intros j. rewrite Nat.eqb_refl. apply Nat.eqb_neq in X || idtac. replace (Nat.eqb v2 v1) with false by (symmetry; apply Nat.eqb_neq; congruence). cbn.
    destruct (Nat.eqb_spec j v1); cbn; [subst; lra|lra].
  - cbn [INR]. rewrite !Rplus_0_r. apply rsum_ext. intros j _. replace (Nat.eqb v v1) with false by (symmetry; apply Nat.eqb_neq; congruence).
    replace (Nat.eqb v v2) with false by (symmetry; apply Nat.eqb_neq; congruence). reflexivity.
Qed.
Lemma rr_inv_step N k A U i1 i2 : rr_inv N k A U -> (i1 < List.length U)%nat -> (i2 < List.length U)%nat ->
  nth i1 U 0%nat <> nth i2 U 0%nat -> A (nth i1 U 0%nat) (nth i2 U 0%nat) <> 1 ->
  rr_inv N k (rr_link A (nth i1 U 0%nat) (nth i2 U 0%nat)) (rr_remove U i1 i2).
Proof.
  intros (Hs & Hl & H01 & Hb & Hd) H1 H2 Hne Hn.
  assert (B1 : (nth i1 U 0 < N)%nat) by (rewrite Forall_forall in Hb; apply Hb, nth_In; exact H1).
  assert (B2 : (nth i2 U 0 < N)%nat) by (rewrite Forall_forall in Hb; apply Hb, nth_In; exact H2).
  assert (Hi : i1 <> i2) by congruence.
  pose proof (fun v => remove_count U i1 i2 v H1 H2 Hi) as RC.
  remember (nth i1 U 0%nat) as v1 eqn:E1. remember (nth i2 U 0%nat) as v2 eqn:E2. clear E1 E2.
  assert (Z1 : A v1 v2 = 0) by (destruct (H01 v1 v2) as [Z|Z]; [exact Z|contradiction]).
  assert (Z2 : A v2 v1 = 0) by (rewrite Hs; exact Z1).
  split; [|split; [|split; [|split]]].
  - intros a b. unfold rr_link. rewrite (Hs a b). destruct (Nat.eqb a v1), (Nat.eqb b v2), (Nat.eqb a v2), (Nat.eqb b v1); reflexivity.
  - intros a. unfold rr_link. rewrite Hl. destruct (Nat.eqb_spec a v1), (Nat.eqb_spec a v2); cbn; try reflexivity. congruence.
  - intros a b. unfold rr_link. destruct (_ || _)%bool; [right; reflexivity | apply H01].
  - apply remove_below. exact Hb.
  - intros v Hv. rewrite (link_sum N A v1 v2 v B1 B2 Hne Z1 Z2). pose proof (Hd v Hv) as D. rewrite (RC v) in D. rewrite !plus_INR in D. lra.
Qed.
Lemma rr_loop_inv N k max_iter strict d : draws_ok d -> forall fuel t U A tested rep flt A' U' rep', rr_inv N k A U ->
  rr_loop fuel N k max_iter strict d t U A tested rep flt = Some (Ok (A', U', rep')) -> rr_inv N k A' U' /\ (U' = [] \/ (max_iter <= rep')%nat).
Proof.
  intros Hd fuel. induction fuel as [|fuel IH]; intros t U A tested rep flt A' U' rep' Hinv H; [discriminate|].
  cbn [rr_loop] in H.
  destruct (Nat.eqb (List.length U) 0) eqn:E0; [cbn [orb] in H; injection H as <- <- <-; split; [exact Hinv | left; apply Nat.eqb_eq in E0; destruct U; [reflexivity|discriminate]]|].
  destruct (Nat.leb max_iter rep) eqn:E1; cbn [orb] in H; [injection H as <- <- <-; split; [exact Hinv | right; apply Nat.leb_le; exact E1]|].
  apply Nat.eqb_neq in E0. assert (P : (0 < List.length U)%nat) by lia.
  pose proof (Hd t _ P) as D1. pose proof (Hd (S t) _ P) as D2.
  remember (d t (List.length U)) as i1. remember (d (S t) (List.length U)) as i2. clear Heqi1 Heqi2.
  destruct (Nat.eqb_spec (nth i1 U 0%nat) (nth i2 U 0%nat)) as [Ev|Ev].
  { destruct (Nat.eqb (S tested) (N * k)); eapply IH; try exact H; [apply rr_inv_start | exact Hinv]. }
  destruct (strict && flt)%bool; [discriminate|].
  destruct (Reqb (A (nth i1 U 0%nat) (nth i2 U 0%nat)) 1) eqn:Ew.
  { destruct (Nat.eqb (S tested) (N * k)); eapply IH; try exact H; [apply rr_inv_start | exact Hinv]. }
  eapply IH; [|exact H]. apply rr_inv_step; try assumption. apply Reqb_false. exact Ew.
Qed.

(** ** The check at the end *)
(** The message for the three possible complaints *)
Definition complaint (asym irregular loops : bool) : option string :=
  match asym, irregular, loops with
  | false, false, false => None
  | true, false, false => Some "The given matrix is not symmetric."%string
  | false, true, false => Some "The given matrix is not d-regular."%string
  | false, false, true => Some "The given matrix has self loop."%string
  | true, true, false => Some "The given matrix is not symmetric, is not d-regular."%string
  | true, false, true => Some "The given matrix is not symmetric, has self loop."%string
  | false, true, true => Some "The given matrix is not d-regular, has self loop."%string
  | true, true, true => Some "The given matrix is not symmetric, is not d-regular, has self loop."%string
  end.
Lemma bool_of (P : Prop) b : (b = true <-> P) -> (b = false <-> ~ P).
Proof. intros H. rewrite <- H. destruct b; split; intros X; try discriminate; try reflexivity; try (intros Y; discriminate). exfalso. apply X. reflexivity. Qed.
(** The check reports exactly: an arc of positive weight whose reverse has none, two vertices of different degrees, a loop of positive weight.
    Parallel edges can never be reported: the adjacency matrix it looks at is boolean. *)
Theorem C52_check G : built G -> (1 <= g_n_vertices G)%nat -> exists asym irregular loops, is_regular G = Ok (complaint asym irregular loops) /\
  (asym = true <-> exists i j, (i < g_n_vertices G)%nat /\ (j < g_n_vertices G)%nat /\ 0 < wt G i j /\ wt G j i <= 0) /\
  (irregular = true <-> exists i j, (i < g_n_vertices G)%nat /\ (j < g_n_vertices G)%nat /\ deg (gW G) i <> deg (gW G) j) /\
  (loops = true <-> exists i, (i < g_n_vertices G)%nat /\ 0 < wt G i i).
Proof.
  intros Hb HN. destruct (built_good G Hb) as (_ & Hn & _ & _). rewrite Hn in *.
  remember (nrow (gW G)) as N eqn:EN.
  exists (nexists N (fun i => nexists N (fun j => negb (Nat.eqb (if adjb (gW G) i j then 1 else 0) (if adjb (gW G) j i then 1 else 0))))).
  exists (nexists N (fun i => negb (Reqb (deg (gW G) i) (deg (gW G) 0)))).
  exists (nexists N (fun i => Nat.eqb (if adjb (gW G) i i then 1 else 0) 1)).
  split; [|split; [|split]].
  - unfold is_regular. cbv zeta. rewrite <- EN. replace (Nat.eqb N 0) with false by (symmetry; apply Nat.eqb_neq; lia).
    replace (nexists N (fun i => nexists N (fun j => Nat.ltb 1 (if adjb (gW G) i j then 1 else 0)))) with false.
    2:{ symmetry. apply nexists_false. intros i _. apply nexists_false. intros j _. destruct (adjb (gW G) i j); reflexivity. }
    rewrite orb_false_r. match goal with |- context [(?a || ?b || ?c)%bool] => destruct a, b, c end; reflexivity.
  - rewrite nexists_true. split.
    + intros (i & Hi & H). apply nexists_true in H. destruct H as (j & Hj & H). unfold adjb in H. change (get (gW G) i j) with (wt G i j) in H. change (get (gW G) j i) with (wt G j i) in H.
      destruct (Rltb_spec 0 (wt G i j)), (Rltb_spec 0 (wt G j i)); try discriminate; [exists i, j | exists j, i]; repeat split; try assumption; lra.
    + intros (i & j & Hi & Hj & P1 & P2). exists i. split; [exact Hi|]. apply nexists_true. exists j. split; [exact Hj|]. unfold adjb. change (get (gW G) i j) with (wt G i j). change (get (gW G) j i) with (wt G j i).
      destruct (Rltb_spec 0 (wt G i j)), (Rltb_spec 0 (wt G j i)); try reflexivity; lra.
  - rewrite nexists_true. split.
    + intros (i & Hi & H). exists i, 0%nat. repeat split; [exact Hi|lia|]. destruct (Reqb_spec (deg (gW G) i) (deg (gW G) 0)); [discriminate|assumption].
    + intros (i & j & Hi & Hj & Hne). destruct (Req_dec (deg (gW G) i) (deg (gW G) 0)) as [E|E].
      * exists j. split; [exact Hj|]. destruct (Reqb_spec (deg (gW G) j) (deg (gW G) 0)); [congruence|reflexivity].
      * exists i. split; [exact Hi|]. destruct (Reqb_spec (deg (gW G) i) (deg (gW G) 0)); [contradiction|reflexivity].
  - rewrite nexists_true. split; intros (i & Hi & H); exists i; (split; [exact Hi|]); unfold adjb in *; change (get (gW G) i i) with (wt G i i) in *;
      (destruct (Rltb_spec 0 (wt G i i)); [reflexivity || assumption|try discriminate; lra]).
Qed.
(** No message exactly when the adjacency is symmetric, all degrees are equal and there is no loop. *)
Corollary C52_silent_iff G : built G -> (1 <= g_n_vertices G)%nat -> (is_regular G = Ok None <->
  (forall i j, (i < g_n_vertices G)%nat -> (j < g_n_vertices G)%nat -> 0 < wt G i j -> 0 < wt G j i) /\
  (forall i j, (i < g_n_vertices G)%nat -> (j < g_n_vertices G)%nat -> deg (gW G) i = deg (gW G) j) /\
  (forall i, (i < g_n_vertices G)%nat -> wt G i i <= 0)).
Proof.
  intros Hb HN. destruct (C52_check G Hb HN) as (a & b & c & E & Ha & Hi & Hc). rewrite E. split.
  - intros H. assert (a = false /\ b = false /\ c = false) as (Ea & Eb & Ec) by (destruct a, b, c; cbn in H; try discriminate; repeat split; reflexivity).
    apply (bool_of _ _ Ha) in Ea. apply (bool_of _ _ Hi) in Eb. apply (bool_of _ _ Hc) in Ec. split; [|split].
    + intros i j Bi Bj P. destruct (Rlt_dec 0 (wt G j i)) as [Q|Q]; [exact Q|]. exfalso. apply Ea. exists i, j. repeat split; try assumption. lra.
    + intros i j Bi Bj. destruct (Req_dec (deg (gW G) i) (deg (gW G) j)) as [Q|Q]; [exact Q|]. exfalso. apply Eb. exists i, j. repeat split; assumption.
    + intros i Bi. destruct (Rle_dec (wt G i i) 0) as [Q|Q]; [exact Q|]. exfalso. apply Ec. exists i. split; [assumption|lra].
  - intros (H1 & H2 & H3).
    assert (Ea : a = false) by (apply (bool_of _ _ Ha); intros (i & j & Bi & Bj & P & Q); specialize (H1 i j Bi Bj P); lra).
    assert (Eb : b = false) by (apply (bool_of _ _ Hi); intros (i & j & Bi & Bj & P); apply P, H2; assumption).
    assert (Ec : c = false) by (apply (bool_of _ _ Hc); intros (i & Bi & P); specialize (H3 i Bi); lra).
    subst. reflexivity.
Qed.
Lemma is_regular_ok G : built G -> (1 <= g_n_vertices G)%nat -> exists m, is_regular G = Ok m.
Proof. intros Hb HN. destruct (C52_check G Hb HN) as (a & b & c & E & _). eexists. exact E. Qed.
Lemma is_regular_empty G : built G -> g_n_vertices G = 0%nat -> is_regular G = Raise ValueError.
Proof. intros Hb H0. destruct (built_good G Hb) as (_ & Hn & _ & _). unfold is_regular. cbv zeta. rewrite <- Hn, H0. reflexivity. Qed.

(** ** The statement *)
(** Whatever the draws, a returned graph is simple and no vertex has more than k neighbours; when the construction stopped because no open
    half-edge was left (the only way to stop before the iteration limit), it is k-regular. *)
Theorem C52_graph fuel N k max_iter strict lap d G : draws_ok d -> valid_lap lap -> RandomRegular fuel N k max_iter strict lap d = Some (Ok G) ->
  built G /\ g_n_vertices G = N /\ undirected G /\ loop_free G /\ (forall i j, (i < N)%nat -> (j < N)%nat -> wt G i j = 0 \/ wt G i j = 1) /\
  (forall v, (v < N)%nat -> \sum_(j < N) wt G v j <= INR k) /\
  exists A U rep, rr_run fuel N k max_iter strict d = Some (Ok (A, U, rep)) /\
    (U = [] -> forall v, (v < N)%nat -> \sum_(j < N) wt G v j = INR k) /\ ((rep < max_iter)%nat -> U = []).
Proof.
  intros Hd Hl H. unfold RandomRegular in H. destruct (rr_run fuel N k max_iter strict d) as [[[[A U] rep]|]|] eqn:E; try discriminate.
  injection H as H. destruct (mat_init_ok N A lap Hl) as (G' & EG & Hb & Hn & _ & Hw). rewrite EG in H. cbn [bindr] in H.
  destruct (is_regular G') as [msg|] eqn:EM; [|discriminate]. injection H as <-.
  assert (Hr : rr_loop fuel N k max_iter strict d 0 (rr_half_edges N k) (fun _ _ => 0) 0 1 false = Some (Ok (A, U, rep))).
  { unfold rr_run in E. destruct (Nat.eqb _ 1); [discriminate|exact E]. }
  destruct (rr_loop_inv N k max_iter strict d Hd _ _ _ _ _ _ _ _ _ _ (rr_inv_start N k) Hr) as ((Hs & Hz & H01 & _ & Hdeg) & Hexit).
  assert (Hsum : forall v, (v < N)%nat -> \sum_(j < N) wt G' v j = \sum_(j < N) (A v j)) by (intros v Hv; apply rsum_ext; intros j Hj; apply Hw; assumption).
  split; [exact Hb|]. split; [exact Hn|]. split; [intros i j Hi Hj; rewrite Hn in *; rewrite !Hw by assumption; apply Hs|].
  split; [intros i Hi; rewrite Hn in Hi; rewrite Hw by assumption; apply Hz|].
  split; [intros i j Hi Hj; rewrite Hw by assumption; apply H01|].
  split; [intros v Hv; rewrite Hsum by exact Hv; pose proof (Hdeg v Hv); pose proof (pos_INR (cnt U v)); lra|].
  exists A, U, rep. split; [reflexivity|]. split.
  - intros -> v Hv. rewrite Hsum by exact Hv. pose proof (Hdeg v Hv) as D. cbn [count_occ INR] in D. lra.
  - intros Hr'. destruct Hexit as [X|X]; [exact X|lia].
Qed.
Theorem C52_odd_rejected fuel N k max_iter strict lap d : Nat.Odd (N * k) -> RandomRegular fuel N k max_iter strict lap d = Some (Raise ValueError).
Proof.
  intros (m & Hm). unfold RandomRegular, rr_run. replace (Nat.modulo (N * k) 2) with 1%nat; [reflexivity|].
  rewrite Hm. replace (2 * m + 1)%nat with (1 + m * 2)%nat by lia. rewrite Nat.mod_add by lia. reflexivity.
Qed.
(** With max_iter at most 1 nothing is drawn: the graph has no edge, whatever k. *)
Theorem C52_max_iter_one fuel N k max_iter strict lap d : (1 <= N)%nat -> (max_iter <= 1)%nat -> Nat.Even (N * k) -> valid_lap lap ->
  exists G, RandomRegular (S fuel) N k max_iter strict lap d = Some (Ok G) /\ built G /\ g_n_vertices G = N /\ forall i j, (i < N)%nat -> (j < N)%nat -> wt G i j = 0.
Proof.
  intros HN Hm (m & He) Hl. unfold RandomRegular, rr_run. replace (Nat.modulo (N * k) 2) with 0%nat by (rewrite He; replace (2 * m)%nat with (0 + m * 2)%nat by lia; rewrite Nat.mod_add by lia; reflexivity).
  cbn [Nat.eqb rr_loop]. replace (Nat.leb max_iter 1) with true by (symmetry; apply Nat.leb_le; exact Hm). rewrite orb_true_r.
  destruct (mat_init_ok N (fun _ _ => 0) lap Hl) as (G & EG & Hb & Hn & _ & Hw). exists G. rewrite EG. cbn [bindr].
  destruct (is_regular_ok G Hb ltac:(rewrite Hn; exact HN)) as (msg & EM). rewrite EM. split; [reflexivity|]. split; [exact Hb|]. split; [exact Hn|exact Hw].
Qed.
(** There is no random regular graph without vertices: the final check looks for a maximum in an empty matrix. *)
Theorem C52_empty_rejected fuel k max_iter strict lap d : valid_lap lap -> RandomRegular (S fuel) 0 k max_iter strict lap d = Some (Raise ValueError).
Proof.
  intros Hl. unfold RandomRegular, rr_run. cbn [Nat.mul Nat.modulo Nat.divmod fst snd Nat.sub Nat.eqb]. cbn [rr_loop].
  replace (List.length (rr_half_edges 0 k)) with 0%nat by (rewrite half_length; reflexivity). cbn [Nat.eqb orb].
  destruct (mat_init_ok 0 (fun _ _ => 0) lap Hl) as (G & EG & Hb & Hn & _ & Hw). rewrite EG. cbn [bindr]. rewrite (is_regular_empty G Hb Hn). reflexivity.
Qed.
(** A construction that used up all its half-edges is never reported... *)
Theorem C52_finished_silent fuel N k max_iter strict lap d G : draws_ok d -> valid_lap lap -> RandomRegular fuel N k max_iter strict lap d = Some (Ok G) ->
  (forall v, (v < N)%nat -> \sum_(j < N) wt G v j = INR k) -> is_regular G = Ok None.
Proof.
  intros Hd Hl H Hk. pose proof (C52_graph fuel N k max_iter strict lap d G Hd Hl H) as (Hb & Hn & Hu & Hlf & H01 & _).
  assert (HN : (1 <= g_n_vertices G)%nat).
  { destruct (Nat.eq_dec (g_n_vertices G) 0) as [Z|Z]; [|lia]. exfalso. unfold RandomRegular in H. destruct (rr_run fuel N k max_iter strict d) as [[[[A U] rep]|]|]; try discriminate.
    injection H as H. destruct (mat_init N A lap) as [G'|]; [|discriminate]. cbn [bindr] in H. destruct (is_regular G') as [msg|] eqn:EM; [|discriminate]. injection H as ->.
    rewrite (is_regular_empty G Hb Z) in EM. discriminate. }
  apply (C52_silent_iff G Hb HN). rewrite Hn in *. split; [|split].
  - intros i j Hi Hj P. rewrite Hu by (rewrite Hn; assumption). exact P.
  - assert (Dk : forall i, (i < N)%nat -> deg (gW G) i = INR k).
    { intros i Hi. rewrite <- (Hk i Hi). destruct (built_good G Hb) as (Hg & Hn' & _ & _). rewrite Hn in Hn'.
      rewrite (deg_avg (gW G) i Hg) by (rewrite <- Hn'; exact Hi). rewrite <- Hn'. rewrite !ncount_INR.
      assert (E : forall a b, (a < N)%nat -> (b < N)%nat -> (if nzb (gW G) a b then 1 else 0) = wt G a b).
      { intros a b Ha' Hb'. destruct (nzb (gW G) a b) eqn:Z.
        - apply nzb_true in Z. change (wt G a b <> 0) in Z. destruct (H01 a b Ha' Hb') as [Q|Q]; [contradiction|symmetry; exact Q].
        - unfold nzb in Z. apply negb_false_iff in Z. destruct (Reqb_spec (get (gW G) a b) 0) as [Q|Q]; [symmetry; exact Q|discriminate]. }
      rewrite (rsum_ext N (fun j => if nzb (gW G) j i then 1 else 0) (fun j => wt G i j)).
      2:{ intros j Hj. rewrite E by assumption. apply Hu; rewrite Hn; assumption. }
      rewrite (rsum_ext N (fun j => if nzb (gW G) i j then 1 else 0) (fun j => wt G i j)) by (intros j Hj; apply E; assumption). lra. }
    intros i j Hi Hj. rewrite !Dk by assumption. reflexivity.
  - intros i Hi. rewrite Hlf by (rewrite Hn; exact Hi). lra.
Qed.
(** FINDING: ... but silence does not mean that the graph is k-regular.  The check never looks at k: with max_iter = 1 the graph returned for k >= 1
    has no edge at all and nothing is logged. *)
Theorem C52_silence_refuted fuel N k strict lap d : (1 <= N)%nat -> (1 <= k)%nat -> Nat.Even (N * k) -> valid_lap lap ->
  exists G, RandomRegular (S fuel) N k 1 strict lap d = Some (Ok G) /\ is_regular G = Ok None /\ forall v, (v < N)%nat -> \sum_(j < N) wt G v j <> INR k.
Proof.
  intros HN Hk He Hl. destruct (C52_max_iter_one fuel N k 1 strict lap d HN (Nat.le_refl 1) He Hl) as (G & E & Hb & Hn & Hw). exists G. split; [exact E|]. split.
  - apply (C52_silent_iff G Hb); rewrite Hn; [exact HN|]. split; [|split].
    + intros i j Hi Hj P. rewrite Hw in P by assumption. lra.
    + destruct (built_good G Hb) as (Hg & Hn' & _ & _). rewrite Hn in Hn'.
      assert (Z : forall i, (i < N)%nat -> deg (gW G) i = 0).
      { intros i Hi. rewrite (deg_avg (gW G) i Hg) by (rewrite <- Hn'; exact Hi). rewrite <- Hn', !ncount_INR. rewrite !rsum_0; [lra| |]; intros j Hj; destruct (nzb _ _ _) eqn:Q; try reflexivity;
          apply nzb_true in Q; exfalso; apply Q; apply Hw; assumption. }
      intros i j Hi Hj. rewrite !Z by assumption. reflexivity.
    + intros i Hi. rewrite Hw by assumption. lra.
  - intros v Hv. rewrite rsum_0 by (intros j Hj; apply Hw; assumption). apply Rlt_not_eq. apply lt_0_INR. lia.
Qed.
(** ** Restarts *)
(** Drawing the same half-edge again and again until the test counter reaches N*k restarts the construction, with float half-edges. *)
Lemma rr_zeros N k max_iter strict d m : forall fuel t U A tested rep flt, (0 < List.length U)%nat -> (rep < max_iter)%nat -> (tested + S m = N * k)%nat ->
  (forall s n, (t <= s < t + 2 * S m)%nat -> d s n = 0%nat) ->
  rr_loop (S m + fuel) N k max_iter strict d t U A tested rep flt = rr_loop fuel N k max_iter strict d (t + 2 * S m) (rr_half_edges N k) (fun _ _ => 0) 0 (S rep) true.
Proof.
  induction m as [|m IH]; intros fuel t U A tested rep flt HU Hr Ht Hd.
  - cbn [Nat.add rr_loop]. replace (Nat.eqb (List.length U) 0) with false by (symmetry; apply Nat.eqb_neq; lia). replace (Nat.leb max_iter rep) with false by (symmetry; apply Nat.leb_gt; exact Hr).
    cbn [orb]. rewrite (Hd t), (Hd (S t)) by lia. rewrite Nat.eqb_refl. replace (Nat.eqb (S tested) (N * k)) with true by (symmetry; apply Nat.eqb_eq; lia). do 2 f_equal. lia.
  - change (S (S m) + fuel)%nat with (S (S m + fuel))%nat. cbn [rr_loop]. replace (Nat.eqb (List.length U) 0) with false by (symmetry; apply Nat.eqb_neq; lia). replace (Nat.leb max_iter rep) with false by (symmetry; apply Nat.leb_gt; exact Hr).
    cbn [orb]. rewrite (Hd t), (Hd (S t)) by lia. rewrite Nat.eqb_refl. replace (Nat.eqb (S tested) (N * k)) with false by (symmetry; apply Nat.eqb_neq; lia).
    rewrite IH; try assumption; [|lia|intros s n Hs; apply Hd; lia]. f_equal. lia.
Qed.
(** FINDING (randomregular.py:92 forgets astype(int)).  With a scipy that rejects float indices, a restart makes the next distinct pair raise:
    for all N >= 2 and k >= 1 and every iteration limit that permits a second attempt, some draws end in an exception. *)
Theorem C52_restart_refuted N k max_iter lap : (2 <= N)%nat -> (1 <= k)%nat -> Nat.Even (N * k) -> (3 <= max_iter)%nat ->
  exists d, draws_ok d /\ exists fuel, RandomRegular fuel N k max_iter true lap d = Some (Raise ValueError).
Proof.
  intros HN Hk (m & He) Hmax. exists (fun t n => if Nat.eqb t (2 * (N * k) + 1) then Nat.modulo 1 n else 0%nat). split.
  { intros t n Hn. destruct (Nat.eqb t (2 * (N * k) + 1)); [apply Nat.mod_upper_bound; lia|exact Hn]. }
  assert (HP : (2 <= N * k)%nat) by (replace 2%nat with (2 * 1)%nat by reflexivity; apply Nat.mul_le_mono; assumption).
  exists (S (N * k - 1) + 1)%nat. unfold RandomRegular, rr_run. replace (Nat.modulo (N * k) 2) with 0%nat by (rewrite He; replace (2 * m)%nat with (0 + m * 2)%nat by lia; rewrite Nat.mod_add by lia; reflexivity).
  cbn [Nat.eqb]. rewrite rr_zeros; [|rewrite half_length; lia|lia|lia|].
  2:{ intros s n Hs. destruct (Nat.eqb_spec s (2 * (N * k) + 1)); [lia|reflexivity]. }
  cbn [rr_loop]. rewrite half_length. replace (Nat.eqb (N * k) 0) with false by (symmetry; apply Nat.eqb_neq; lia). replace (Nat.leb max_iter 2) with false by (symmetry; apply Nat.leb_gt; lia). cbn [orb].
  replace (0 + 2 * S (N * k - 1))%nat with (2 * (N * k))%nat by lia. replace (Nat.eqb (2 * (N * k)) (2 * (N * k) + 1)) with false by (symmetry; apply Nat.eqb_neq; lia).
  replace (Nat.eqb (S (2 * (N * k))) (2 * (N * k) + 1)) with true by (symmetry; apply Nat.eqb_eq; lia). rewrite Nat.mod_small by lia.
  replace (nth 0 (rr_half_edges N k) 0%nat) with 0%nat; [replace (nth 1 (rr_half_edges N k) 0%nat) with 1%nat; [reflexivity|]|].
  all: unfold rr_half_edges; destruct k as [|k']; [lia|]; destruct N as [|[|N']]; [lia|lia|]; reflexivity.
Qed.
(** FINDING.  The counter is compared with N*k only after a failure: an edge accepted at the N*k-th test disarms the restart for ever.  For two
    vertices of degree 2 (no simple graph exists) such a stream never ends, whatever is drawn afterwards and whatever max_iter >= 2. *)
Theorem C52_nontermination_refuted max_iter lap d : (2 <= max_iter)%nat -> draws_ok d -> (forall t n, (t < 7)%nat -> d t n = 0%nat) -> (forall n, d 7%nat n = 1%nat) ->
  forall fuel, RandomRegular fuel 2 2 max_iter false lap d = None.
Proof.
  intros Hmax Hd H0 H1 fuel.
  assert (Stuck : forall fuel t tested, (4 <= tested)%nat -> rr_loop fuel 2 2 max_iter false d t [0%nat; 1%nat] (rr_link (fun _ _ => 0) 0 1) tested 1 false = None).
  { clear fuel. induction fuel as [|fuel IH]; intros t tested Ht; [reflexivity|]. cbn [rr_loop List.length]. change (Nat.eqb 2 0) with false. replace (Nat.leb max_iter 1) with false by (symmetry; apply Nat.leb_gt; lia). cbn [orb].
    replace (Nat.eqb (S tested) (2 * 2)) with false by (symmetry; apply Nat.eqb_neq; lia). rewrite (IH (S (S t)) (S tested)) by lia.
    pose proof (Hd t 2%nat ltac:(lia)) as B1. pose proof (Hd (S t) 2%nat ltac:(lia)) as B2.
    destruct (d t 2%nat) as [|[|x]]; [| |lia]; (destruct (d (S t) 2%nat) as [|[|y]]; [| |lia]); cbn [nth Nat.eqb andb]; try reflexivity.
    all: unfold rr_link; cbn [Nat.eqb andb orb]; rewrite Reqb_refl; reflexivity. }
  assert (L : (Nat.leb max_iter 1) = false) by (apply Nat.leb_gt; lia).
  unfold RandomRegular, rr_run. change (Nat.modulo (2 * 2) 2) with 0%nat. cbn [Nat.eqb].
  assert (Q : rr_loop fuel 2 2 max_iter false d 0 (rr_half_edges 2 2) (fun _ _ => 0) 0 1 false = None); [|rewrite Q; reflexivity].
  change (rr_half_edges 2 2) with [0%nat; 1%nat; 0%nat; 1%nat].
  do 3 (destruct fuel as [|fuel]; [reflexivity|]; cbn [rr_loop List.length]; change (Nat.eqb 4 0) with false; rewrite L; cbn [orb]; rewrite !H0 by lia; cbn [nth Nat.eqb Nat.mul Nat.add]).
  destruct fuel as [|fuel]; [reflexivity|]. cbn [rr_loop List.length]. change (Nat.eqb 4 0) with false. rewrite L. cbn [orb]. rewrite H0 by lia. rewrite H1. cbn [nth Nat.eqb Nat.mul Nat.add andb].
  destruct (Reqb_spec 0 1) as [X|_]; [lra|]. unfold rr_remove. cbn [Nat.min Nat.max Nat.add Nat.sub firstn skipn app]. apply Stuck. lia.
Qed.
(** A stream that succeeds: four vertices of degree 1. *)
Example C52_ex : exists d G, draws_ok d /\ RandomRegular 3 4 1 10 true Combinatorial d = Some (Ok G) /\
  exists A, rr_run 3 4 1 10 true d = Some (Ok (A, [], 1%nat)).
Proof.
  exists (fun t n => if Nat.eqb (Nat.modulo t 2) 1 then Nat.modulo 1 n else 0%nat).
  assert (E : exists A, rr_run 3 4 1 10 true (fun t n => if Nat.eqb (Nat.modulo t 2) 1 then Nat.modulo 1 n else 0%nat) = Some (Ok (A, [], 1%nat))).
  { eexists. unfold rr_run. change (Nat.modulo (4 * 1) 2) with 0%nat. cbn [Nat.eqb]. change (rr_half_edges 4 1) with [0%nat; 1%nat; 2%nat; 3%nat].
    cbn [rr_loop List.length]. change (Nat.eqb 4 0) with false. change (Nat.leb 10 1) with false. cbn [orb].
    change (Nat.modulo 0 2) with 0%nat. change (Nat.modulo 1 2) with 1%nat. change (Nat.modulo 1 4) with 1%nat. cbn [Nat.eqb nth andb]. destruct (Reqb_spec 0 1) as [X|_]; [lra|].
    unfold rr_remove at 1 2 3 4 5 6. cbn [Nat.min Nat.max Nat.add Nat.sub firstn skipn app List.length]. change (Nat.eqb 2 0) with false. cbn [orb].
    change (Nat.modulo 2 2) with 0%nat. change (Nat.modulo 3 2) with 1%nat. cbn [Nat.eqb nth andb]. unfold rr_link at 1. cbn [Nat.eqb andb orb]. destruct (Reqb_spec 0 1) as [X|_]; [lra|].
    cbn. destruct (Reqb_spec 0 1) as [X|_]; [lra|]. reflexivity. }
  destruct E as (A & E). destruct (mat_init_ok 4 A Combinatorial (or_introl eq_refl)) as (G & EG & Hb & HnG & _). exists G. destruct (is_regular_ok G Hb ltac:(lia)) as (msg & EM). split.
  - intros t n Hn. destruct (Nat.eqb _ 1); [apply Nat.mod_upper_bound; lia|exact Hn].
  - split; [unfold RandomRegular; rewrite E, EG; cbn [bindr]; rewrite EM; reflexivity | exists A; exact E].
Qed.
