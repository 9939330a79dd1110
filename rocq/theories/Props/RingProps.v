(** C53: random rings. *)
From Coq Require Import Reals Lra Lia List Arith Bool String Permutation Sorted.
From Coq Require Import List.
From Verif.Base Require Import RSum Prelude.
From Verif.Spec Require Import Matrix GraphSpec Card Reach GenSpec.
From Verif.Model Require Import Sparse Graph Traverse Utils Reduction Ring.
From Verif.Proofs Require Import SparseFacts InitFacts EdgeFacts SubgraphFacts TraverseFacts GenFacts.
From Verif.Props Require Import Core Traversal UtilsProps ReductionProps GenProps GridProps.
Import ListNotations.
Open Scope R_scope.
Open Scope list_scope.

(** ** Sorting *)
Lemma rinsert_perm x l : Permutation (rinsert x l) (x :: l).
Proof. induction l as [|y l IH]; [apply Permutation_refl|]. cbn. destruct (Rltb y x); [|apply Permutation_refl]. rewrite IH. apply perm_swap. Qed.
Lemma rsort_perm l : Permutation (rsort l) l.
Proof. induction l as [|x l IH]; [constructor|]. cbn. rewrite rinsert_perm. constructor. exact IH. Qed.
Lemma rinsert_sorted x l : StronglySorted Rle l -> StronglySorted Rle (rinsert x l).
Proof.
  induction l as [|y l IH]; intros H; [repeat constructor|]. apply StronglySorted_inv in H. destruct H as (H & F). cbn. destruct (Rltb_spec y x) as [E|E].
  - constructor; [apply IH; exact H|]. apply Forall_forall. intros z Hz. apply (Permutation_in _ (rinsert_perm x l)) in Hz. destruct Hz as [->|Hz]; [lra|]. rewrite Forall_forall in F. apply F. exact Hz.
  - constructor; [constructor; assumption|]. constructor; [lra|]. rewrite Forall_forall in F |- *. intros z Hz. specialize (F z Hz). lra.
Qed.
Lemma rsort_sorted l : StronglySorted Rle (rsort l).
Proof. induction l as [|x l IH]; [constructor|]. cbn. apply rinsert_sorted. exact IH. Qed.
Lemma sorted_nth l : StronglySorted Rle l -> forall i j, (i <= j)%nat -> (j < List.length l)%nat -> nth i l 0 <= nth j l 0.
Proof.
  induction 1 as [|x l H IH F]; intros i j Hij Hj; [cbn in Hj; lia|]. destruct j as [|j]; [assert (i = 0)%nat by lia; subst; lra|]. cbn [List.length] in Hj.
  destruct i as [|i]; cbn [nth]; [|apply IH; lia]. rewrite Forall_forall in F. apply F, nth_In. lia.
Qed.

(** ** The arcs *)
(** Angle from vertex t to the next one, going round. *)
Definition arc (N : nat) (a : list R) (t : nat) : R := if Nat.ltb (S t) N then nth (S t) a 0 - nth t a 0 else 2 * PI + nth 0 a 0 - nth t a 0.
Section Arcs.
Variables (N : nat) (a : list R).
Hypothesis HN : (3 <= N)%nat.
Lemma upper_cases i j : (i < N)%nat -> (j < N)%nat ->
  ring_upper N a i j = if Nat.eqb j (S i) then arc N a i else if (Nat.eqb i 0 && Nat.eqb j (N - 1))%bool then arc N a (N - 1) else 0.
Proof.
  intros Hi Hj. unfold ring_upper, arc. destruct (Nat.ltb_spec (S (N - 1)) N); [lia|].
  destruct (Nat.eqb_spec j (S i)) as [E|E]; cbn [andb].
  - subst j. destruct (Nat.ltb_spec (S i) N); [|lia]. destruct (Nat.eqb_spec i 0); cbn [andb]; [destruct (Nat.eqb_spec (S i) (N - 1)); [lia|]|]; ring.
  - destruct (_ && _)%bool; ring.
Qed.
Lemma upper_sum (f : R -> R) : f 0 = 0 -> \sum_(i < N) \sum_(j < N) f (ring_upper N a i j) = \sum_(t < N) f (arc N a t).
Proof.
  intros F0.
  assert (E : forall i, (i < N)%nat -> \sum_(j < N) f (ring_upper N a i j) = (if Nat.ltb (S i) N then f (arc N a i) else 0) + (if Nat.eqb i 0 then f (arc N a (N - 1)) else 0)).
  { intros i Hi. rewrite (rsum_ext N _ (fun j => (if Nat.eqb j (S i) then f (arc N a i) else 0) + (if (Nat.eqb i 0 && Nat.eqb j (N - 1))%bool then f (arc N a (N - 1)) else 0))).
    - rewrite rsum_plus. f_equal.
      + destruct (Nat.ltb_spec (S i) N) as [H|H]; [rewrite (rsum_single N _ (S i) H); [rewrite Nat.eqb_refl; reflexivity|]|apply rsum_0]; intros j Hj; [intros Hne|]; destruct (Nat.eqb_spec j (S i)); try reflexivity; lia.
      + destruct (Nat.eqb i 0); cbn [andb]; [|apply rsum_0; reflexivity]. rewrite (rsum_single N _ (N - 1)%nat) by (try lia; intros j Hj Hne; apply Nat.eqb_neq in Hne; rewrite Hne; reflexivity). rewrite Nat.eqb_refl. reflexivity.
    - intros j Hj. rewrite upper_cases by assumption. destruct (Nat.eqb_spec j (S i)) as [E'|E'].
      + destruct (Nat.eqb_spec i 0); cbn [andb]; [destruct (Nat.eqb_spec j (N - 1)); [lia|]|]; ring.
      + destruct (_ && _)%bool; rewrite ?F0; ring. }
  rewrite (rsum_ext N _ _ E), rsum_plus.
  assert (L : forall g, rsum N g = rsum (N - 1) g + g (N - 1)%nat) by (intros g; replace N with (S (N - 1)) at 1 by lia; reflexivity).
  rewrite (L (fun t => f (arc N a t))), (L (fun i => if Nat.ltb (S i) N then f (arc N a i) else 0)).
  rewrite (rsum_ext (N - 1) (fun i => if Nat.ltb (S i) N then f (arc N a i) else 0) (fun i => f (arc N a i))) by (intros i Hi; destruct (Nat.ltb_spec (S i) N); [reflexivity|lia]).
  destruct (Nat.ltb_spec (S (N - 1)) N); [lia|]. rewrite (rsum_single N (fun i => if Nat.eqb i 0 then f (arc N a (N - 1)) else 0) 0%nat) by (try lia; intros j Hj Hne; apply Nat.eqb_neq in Hne; rewrite Hne; reflexivity). cbn [Nat.eqb]. ring.
Qed.
Lemma arcs_total : \sum_(t < N) arc N a t = 2 * PI.
Proof.
  assert (T : forall m, (m < N)%nat -> \sum_(t < m) arc N a t = nth m a 0 - nth 0 a 0).
  { induction m as [|m IH]; intros Hm; [cbn; ring|]. cbn [rsum]. rewrite IH by lia. unfold arc. destruct (Nat.ltb_spec (S m) N); [ring|lia]. }
  replace N with (S (N - 1)) at 1 by lia. cbn [rsum]. rewrite T by lia. unfold arc. destruct (Nat.ltb_spec (S (N - 1)) N); [lia|]. ring.
Qed.
Hypothesis Hlen : List.length a = N.
Hypothesis Hs : StronglySorted Rle a.
Hypothesis Hr : forall x, In x a -> 0 <= x < 2 * PI.
Lemma in_range k : (k < N)%nat -> 0 <= nth k a 0 < 2 * PI.
Proof. intros Hk. apply Hr, nth_In. rewrite Hlen. exact Hk. Qed.
Lemma arc_nonneg t : (t < N)%nat -> 0 <= arc N a t.
Proof.
  intros Ht. unfold arc. destruct (Nat.ltb_spec (S t) N) as [H|H].
  - pose proof (sorted_nth a Hs t (S t) ltac:(lia) ltac:(lia)). lra.
  - pose proof (in_range t%nat ltac:(lia)). pose proof (in_range 0%nat ltac:(lia)). lra.
Qed.
Lemma arc_last : 0 < arc N a (N - 1).
Proof.
  unfold arc. destruct (Nat.ltb_spec (S (N - 1)) N); [lia|].
  pose proof (in_range (N - 1)%nat ltac:(lia)). pose proof (in_range 0%nat ltac:(lia)). lra.
Qed.
Lemma upper_nonneg i j : (i < N)%nat -> (j < N)%nat -> 0 <= ring_upper N a i j.
Proof.
  intros Hi Hj. rewrite upper_cases by assumption. destruct (Nat.eqb j (S i)); [apply arc_nonneg; assumption|]. destruct (_ && _)%bool; [apply arc_nonneg; lia|lra].
Qed.
Lemma upper_lower i j : (i < N)%nat -> (j < N)%nat -> (j <= i)%nat -> ring_upper N a i j = 0.
Proof. intros Hi Hj H. rewrite upper_cases by assumption. destruct (Nat.eqb_spec j (S i)); [lia|]. destruct (Nat.eqb_spec i 0), (Nat.eqb_spec j (N - 1)); cbn [andb]; try reflexivity. lia. Qed.
Definition ring_sym : mat := sym_maximum true (triu (ring_upper N a)).
Lemma sym_cases_ring i j : (i < N)%nat -> (j < N)%nat -> ring_sym i j = if Nat.ltb i j then ring_upper N a i j else if Nat.ltb j i then ring_upper N a j i else 0.
Proof.
  intros Hi Hj. unfold ring_sym. rewrite sym_max_is_max. unfold triu. pose proof (upper_nonneg i j Hi Hj). pose proof (upper_nonneg j i Hj Hi).
  destruct (Nat.ltb_spec i j).
  - destruct (Nat.leb_spec i j); [|lia]. destruct (Nat.leb_spec j i); [lia|]. apply Rmax_left. assumption.
  - destruct (Nat.ltb_spec j i).
    + destruct (Nat.leb_spec i j); [lia|]. destruct (Nat.leb_spec j i); [|lia]. apply Rmax_right. assumption.
    + assert (i = j) by lia. subst j. rewrite upper_lower by lia. destruct (Nat.leb i i); apply Rmax_left; lra.
Qed.
Lemma sym_sum (f : R -> R) : f 0 = 0 -> \sum_(i < N) \sum_(j < N) f (ring_sym i j) = 2 * \sum_(t < N) f (arc N a t).
Proof.
  intros F0. rewrite (rsum_ext N _ (fun i => \sum_(j < N) (f (ring_upper N a i j)) + \sum_(j < N) (f (ring_upper N a j i)))).
  - rewrite rsum_plus, (rsum_swap N N (fun i j => f (ring_upper N a j i))), !upper_sum by exact F0. ring.
  - intros i Hi. rewrite <- rsum_plus. apply rsum_ext. intros j Hj. rewrite sym_cases_ring by assumption.
    destruct (Nat.ltb_spec i j) as [H|H].
    + rewrite (upper_lower j i) by lia. rewrite F0. ring.
    + rewrite (upper_lower i j) by lia. rewrite F0. destruct (Nat.ltb_spec j i); [ring|]. assert (i = j) by lia. subst j. rewrite upper_lower, F0 by lia. ring.
Qed.
Lemma mean_value : stored_mean N ring_sym = 2 * PI / \sum_(t < N) (if Reqb (arc N a t) 0 then 0 else 1).
Proof.
  unfold stored_mean. rewrite (sym_sum (fun x => x) eq_refl), arcs_total. rewrite (sym_sum (fun x => if Reqb x 0 then 0 else 1)) by (rewrite Reqb_refl; reflexivity).
  assert (P : 0 < \sum_(t < N) (if Reqb (arc N a t) 0 then 0 else 1)).
  { apply (rsum_pos N _ (N - 1)%nat); [|lia|].
    - intros t Ht. destruct (Reqb (arc N a t) 0); lra.
    - destruct (Reqb_spec (arc N a (N - 1)) 0) as [E|E]; [pose proof arc_last; lra|lra]. }
  field. lra.
Qed.
End Arcs.

(** ** The statement *)
(** The angles used: the given ones, or the generator's. *)
Definition used (angles : option (list R)) (draws : list R) : list R := match angles with Some l => l | None => draws end.
Definition ring_pre (N : nat) (angles : option (list R)) (draws : list R) : Prop :=
  (3 <= N)%nat /\ List.length (used angles draws) = N /\ forall x, In x (used angles draws) -> 0 <= x < 2 * PI.
Lemma ring_run N angles draws lap a : ring_pre N angles draws -> a = rsort (used angles draws) ->
  List.length a = N /\ StronglySorted Rle a /\ (forall x, In x a -> 0 <= x < 2 * PI) /\
  RandomRing N angles draws lap =
    (if negb (Rltb (2 * PI / (\sum_(t < N) (if Reqb (arc N a t) 0 then 0 else 1)) - 2 * PI / INR N) (1 / 10000000000)) then Raise AssertionError
     else graph_init (InDense [N; N] (map Fin (dense N (fun i j => if Reqb (ring_sym N a i j) 0 then 0 else (2 * PI / INR N) / ring_sym N a i j)))) lap (Some (map (fun x => [cos x; sin x]) a))).
Proof.
  intros (HN & Hlen & Hr) Ea. assert (Hp : Permutation a (used angles draws)) by (rewrite Ea; apply rsort_perm).
  assert (Hs : StronglySorted Rle a) by (rewrite Ea; apply rsort_sorted).
  assert (Hl : List.length a = N) by (rewrite (Permutation_length Hp); exact Hlen).
  assert (Hr' : forall x, In x a -> 0 <= x < 2 * PI) by (intros x Hx; apply Hr; exact (Permutation_in _ Hp Hx)).
  split; [exact Hl|]. split; [exact Hs|]. split; [exact Hr'|]. unfold RandomRing.
  change (match angles with Some l => l | None => draws end) with (used angles draws). rewrite <- Ea.
  replace (match angles with Some l => List.length l | None => N end) with N by (destruct angles; cbn [used] in Hlen; congruence).
  replace (match angles with Some _ => existsb (fun x => (Rltb x 0 || negb (Rltb x (2 * PI)))%bool) a | None => false end) with false.
  2:{ symmetry. destruct angles; [|reflexivity]. destruct (existsb _ a) eqn:E; [|reflexivity]. apply existsb_exists in E. destruct E as (x & Hx & E). destruct (Hr' x Hx) as (H1 & H2).
      destruct (Rltb_spec x 0); [lra|]. destruct (Rltb_spec x (2 * PI)); [discriminate|lra]. }
  destruct (Nat.ltb_spec N 3); [lia|].
  replace (symmetrize (mkmarg true N N (ring_upper N a)) "triu") with (Ok (ring_sym N a)) by (unfold symmetrize; cbn [m_rows m_cols]; rewrite Nat.eqb_refl; reflexivity).
  cbn [bindr]. rewrite (mean_value N a HN Hl Hs Hr'). reflexivity.
Qed.
Lemma distinct_arcs N a : (3 <= N)%nat -> List.length a = N -> StronglySorted Rle a -> (forall x, In x a -> 0 <= x < 2 * PI) -> NoDup a -> forall t, (t < N)%nat -> 0 < arc N a t.
Proof.
  intros HN Hl Hs Hr Hnd t Ht. pose proof (arc_nonneg N a HN Hl Hs Hr t Ht) as H0. destruct (Req_dec (arc N a t) 0) as [E|E]; [|lra]. exfalso. revert E. unfold arc. destruct (Nat.ltb_spec (S t) N) as [H|H].
  - intros E. assert (X : nth (S t) a 0 = nth t a 0) by lra. apply (NoDup_nth a 0) in X; [lia|assumption| |]; rewrite Hl; lia.
  - intros E. pose proof (arc_last N a HN Hl Hr) as L. unfold arc in L. replace (N - 1)%nat with t in L by lia. destruct (Nat.ltb_spec (S t) N); lra || lia.
Qed.
(** next vertex going round *)
Definition next (N t : nat) : nat := if Nat.ltb (S t) N then S t else 0%nat.
(** Distinct angles: a cycle through the vertices in increasing angle, each edge weighted by (2 pi / N) / (angle between its ends). *)
Theorem C53_ring N angles draws lap : ring_pre N angles draws -> NoDup (used angles draws) -> valid_lap lap ->
  exists a G, Permutation a (used angles draws) /\ StronglySorted Rle a /\ RandomRing N angles draws lap = Ok G /\ built G /\ g_n_vertices G = N /\
    undirected G /\ loop_free G /\ nonneg_weights G /\ connected G /\ g_n_edges G = N /\
    (forall t, (t < N)%nat -> wt G t (next N t) = (2 * PI / INR N) / arc N a t /\ 0 < arc N a t) /\
    (forall i j, (i < N)%nat -> (j < N)%nat -> wt G i j <> 0 -> j = next N i \/ i = next N j) /\
    \sum_(t < N) arc N a t = 2 * PI /\
    g_coords G = Some (map (fun x => [cos x; sin x]) a).
Proof.
  intros Hpre Hnd Hl. destruct (ring_run N angles draws lap _ Hpre eq_refl) as (Hlen & Hs & Hr & E). set (a := rsort (used angles draws)) in *.
  assert (Hp : Permutation a (used angles draws)) by apply rsort_perm. assert (Hnd' : NoDup a) by (apply (Permutation_NoDup (Permutation_sym Hp)); exact Hnd).
  destruct Hpre as (HN & _). pose proof (distinct_arcs N a HN Hlen Hs Hr Hnd') as Harc.
  assert (HI : 0 < INR N) by (apply lt_0_INR; lia). pose proof PI_RGT_0 as HPI.
  rewrite (rsum_ext N (fun t => if Reqb (arc N a t) 0 then 0 else 1) (fun _ => 1)) in E.
  2:{ intros t Ht. specialize (Harc t Ht). destruct (Reqb_spec (arc N a t) 0); [lra|reflexivity]. }
  rewrite rsum_const, Rmult_1_r, Rminus_diag_eq in E by reflexivity. destruct (Rltb_spec 0 (1 / 10000000000)) as [_|X]; [|lra]. cbn [negb] in E.
  destruct (finite_entry_built N (dense N (fun i j => if Reqb (ring_sym N a i j) 0 then 0 else (2 * PI / INR N) / ring_sym N a i j)) lap (Some (map (fun x => [cos x; sin x]) a)) (dense_len _ _) Hl) as (G & EG & Hb & Hn & Ht & Hc & Hw).
  rewrite EG in E. exists a, G.
  assert (Hw' : forall i j, (i < N)%nat -> (j < N)%nat -> wt G i j = if Reqb (ring_sym N a i j) 0 then 0 else (2 * PI / INR N) / ring_sym N a i j) by (intros i j Hi Hj; rewrite Hw by assumption; apply dense_nth; assumption).
  pose proof (sym_cases_ring N a HN Hlen Hs Hr) as SC. pose proof (upper_cases N a HN) as UC.
  assert (Hu : undirected G).
  { intros i j Hi Hj. rewrite Hn in *. rewrite !Hw' by assumption. replace (ring_sym N a j i) with (ring_sym N a i j); [reflexivity|]. rewrite !SC by assumption.
    destruct (Nat.ltb_spec i j), (Nat.ltb_spec j i); try reflexivity; lia. }
  assert (Hup : forall i j, (i < N)%nat -> (j < N)%nat -> (i < j)%nat -> wt G i j = if Nat.eqb j (S i) then (2 * PI / INR N) / arc N a i else if (Nat.eqb i 0 && Nat.eqb j (N - 1))%bool then (2 * PI / INR N) / arc N a (N - 1) else 0).
  { intros i j Hi Hj Hij. rewrite Hw', SC by assumption. destruct (Nat.ltb_spec i j); [|lia]. rewrite UC by assumption. destruct (Nat.eqb j (S i)).
    - pose proof (Harc i Hi). destruct (Reqb_spec (arc N a i) 0); [lra|reflexivity].
    - destruct (_ && _)%bool; [|rewrite Reqb_refl; reflexivity]. pose proof (Harc (N - 1)%nat ltac:(lia)). destruct (Reqb_spec (arc N a (N - 1)) 0); [lra|reflexivity]. }
  assert (Hdiag : forall i, (i < N)%nat -> wt G i i = 0) by (intros i Hi; rewrite Hw', SC by assumption; rewrite Nat.ltb_irrefl, Reqb_refl; reflexivity).
  assert (Hpos : forall t, (t < N)%nat -> 0 < (2 * PI / INR N) / arc N a t) by (intros t Ht'; apply Rdiv_lt_0_compat; [apply Rdiv_lt_0_compat; lra|apply Harc; exact Ht']).
  assert (Hnext : forall t, (t < N)%nat -> wt G t (next N t) = (2 * PI / INR N) / arc N a t).
  { intros t Ht'. unfold next. destruct (Nat.ltb_spec (S t) N) as [H|H].
    - rewrite Hup by lia. rewrite Nat.eqb_refl. reflexivity.
    - rewrite Hu by (rewrite Hn; lia). rewrite Hup by lia. destruct (Nat.eqb_spec t 1); [lia|]. replace t with (N - 1)%nat by lia. rewrite !Nat.eqb_refl. reflexivity. }
  assert (Honly : forall i j, (i < N)%nat -> (j < N)%nat -> wt G i j <> 0 -> (i < j)%nat -> j = next N i \/ i = next N j).
  { intros i j Hi Hj Hne Hij. rewrite Hup in Hne by assumption. unfold next. destruct (Nat.eqb_spec j (S i)) as [E1|E1]; [left; destruct (Nat.ltb_spec (S i) N); lia|].
    destruct (Nat.eqb_spec i 0) as [E2|E2], (Nat.eqb_spec j (N - 1)) as [E3|E3]; cbn [andb] in Hne; try (exfalso; apply Hne; reflexivity). right. destruct (Nat.ltb_spec (S j) N); lia. }
  split; [exact Hp|]. split; [exact Hs|]. split; [exact E|]. split; [exact Hb|]. split; [exact Hn|]. split; [exact Hu|].
  split; [intros i Hi; rewrite Hn in Hi; apply Hdiag; exact Hi|]. split; [|split; [|split; [|split; [|split; [|split]]]]].
  - assert (K : forall i j, (i < N)%nat -> (j < N)%nat -> 0 <= wt G i j).
    { assert (K' : forall i j, (i < N)%nat -> (j < N)%nat -> (i < j)%nat -> 0 <= wt G i j).
      { intros i j Hi Hj Hij. rewrite Hup by assumption. destruct (Nat.eqb j (S i)); [apply Rlt_le, Hpos; exact Hi|]. destruct (_ && _)%bool; [apply Rlt_le, Hpos; lia|lra]. }
      intros i j Hi Hj. destruct (Nat.lt_trichotomy i j) as [H|[H|H]]; [apply K'; assumption| |rewrite Hu by (rewrite Hn; assumption); apply K'; assumption]. subst j. rewrite Hdiag by exact Hi. lra. }
    intros i j Hi Hj. rewrite Hn in *. apply K; assumption.
  - apply ladder_connected; [exact Hu|]. intros v Hv. rewrite Hn in Hv. exists v. split; [lia|]. split; [rewrite Hn; lia|]. split; [rewrite Hn; lia|]. rewrite Hup, Nat.eqb_refl by lia. pose proof (Hpos v ltac:(lia)). lra.
  - rewrite (edges_listed G ((0%nat, (N - 1)%nat) :: map (fun t => (t, S t)) (seq 0 (N - 1))) Hb Hu); [cbn [List.length]; rewrite map_length, seq_length; lia| |].
    + constructor; [rewrite map_seq_in; intros (t & Ht' & X); injection X; lia|]. apply map_seq_nodup. intros s t _ _ X. injection X. auto.
    + intros i j. cbn [In]. rewrite map_seq_in, Hn. split.
      * intros [X|(t & Ht' & X)]; injection X as <- <-; (split; [lia|split; [lia|]]); rewrite Hup by lia.
        -- destruct (Nat.eqb_spec (N - 1) 1); [lia|]. rewrite !Nat.eqb_refl. pose proof (Hpos (N - 1)%nat ltac:(lia)). cbn [andb]. lra.
        -- rewrite Nat.eqb_refl. pose proof (Hpos t ltac:(lia)). lra.
      * intros (Hij & Hj & Hne). assert (Hlt : (i < j)%nat) by (destruct (Nat.eq_dec i j) as [->|]; [exfalso; apply Hne, Hdiag; exact Hj|lia]).
        rewrite Hup in Hne by lia. destruct (Nat.eqb_spec j (S i)) as [E1|E1]; [right; exists i; split; [lia|congruence]|].
        destruct (Nat.eqb_spec i 0) as [E2|E2], (Nat.eqb_spec j (N - 1)) as [E3|E3]; cbn [andb] in Hne; try (exfalso; apply Hne; reflexivity). left. congruence.
  - intros t Ht'. split; [apply Hnext; exact Ht' | apply Harc; exact Ht'].
  - intros i j Hi Hj Hne. destruct (Nat.lt_trichotomy i j) as [H|[H|H]]; [apply Honly; assumption| |].
    + subst j. exfalso. apply Hne, Hdiag. exact Hi.
    + rewrite Hu in Hne by (rewrite Hn; assumption). destruct (Honly j i Hj Hi Hne H); auto.
  - apply arcs_total. exact HN.
  - exact Hc.
Qed.
Theorem C53_too_few_rejected N angles draws lap : List.length (used angles draws) = N -> (N < 3)%nat -> RandomRing N angles draws lap = Raise ValueError.
Proof.
  intros Hlen HN. unfold RandomRing. replace (match angles with Some l => List.length l | None => N end) with N by (destruct angles; cbn [used] in Hlen; congruence).
  destruct (Nat.ltb_spec N 3); [|lia]. destruct (match angles with Some _ => _ | None => _ end); reflexivity.
Qed.
Theorem C53_out_of_range_rejected N l draws lap x : In x l -> x < 0 \/ 2 * PI <= x -> RandomRing N (Some l) draws lap = Raise ValueError.
Proof.
  intros Hx Ho. unfold RandomRing. replace (existsb (fun x => (Rltb x 0 || negb (Rltb x (2 * PI)))%bool) (rsort l)) with true; [reflexivity|].
  symmetry. apply existsb_exists. exists x. split; [apply (Permutation_in _ (Permutation_sym (rsort_perm l))); exact Hx|].
  destruct (Rltb_spec x 0); [reflexivity|]. destruct (Rltb_spec x (2 * PI)); [lra|reflexivity].
Qed.
(** FINDING.  Two coinciding angles: the internal assertion fails (for all sizes below 200000, where the slack 1e-10 does not matter). *)
Theorem C53_coinciding_refuted N angles draws lap : ring_pre N angles draws -> INR N <= 200000 -> ~ NoDup (used angles draws) -> RandomRing N angles draws lap = Raise AssertionError.
Proof.
  intros Hpre HB' Hdup. destruct (ring_run N angles draws lap _ Hpre eq_refl) as (Hlen & Hs & Hr & E). set (a := rsort (used angles draws)) in *. rewrite E.
  assert (HN : (3 <= N)%nat) by apply Hpre. assert (HI : 0 < INR N) by (apply lt_0_INR; lia).
  assert (Hz : exists t, (t < N)%nat /\ arc N a t = 0).
  { destruct (Classical_Prop.classic (exists t, (t < N)%nat /\ arc N a t = 0)) as [H|H]; [exact H|]. exfalso. apply Hdup. apply (Permutation_NoDup (rsort_perm (used angles draws))). fold a.
    apply (NoDup_nth a 0). rewrite Hlen.
    assert (Inc : forall i j, (i < j)%nat -> (j < N)%nat -> nth i a 0 < nth j a 0).
    { intros i j Hij Hj. apply Rlt_le_trans with (nth (S i) a 0); [|apply (sorted_nth a Hs); lia].
      destruct (Req_dec (arc N a i) 0) as [Z|Z]; [exfalso; apply H; exists i; split; [lia|exact Z]|]. pose proof (arc_nonneg N a HN Hlen Hs Hr i ltac:(lia)) as P. unfold arc in *. destruct (Nat.ltb_spec (S i) N); [lra|lia]. }
    intros i j Hi Hj X. destruct (Nat.lt_trichotomy i j) as [C|[C|C]]; [|exact C|]; exfalso; pose proof (Inc _ _ C ltac:(assumption)); lra. }
  destruct Hz as (t & Ht & Z).
  pose proof (arc_last N a HN Hlen Hr) as HL.
  assert (Hle : \sum_(t < N) (if Reqb (arc N a t) 0 then 0 else 1) <= INR N - 1).
  { assert (X : \sum_(s < N) (if Reqb (arc N a s) 0 then 0 else 1) <= \sum_(s < N) (1 - (if Nat.eqb s t then 1 else 0))).
    { apply rsum_le. intros s Hs'. destruct (Nat.eqb_spec s t) as [->|]; [rewrite Z, Reqb_refl; lra|]. destruct (Reqb _ 0); lra. }
    rewrite rsum_minus, rsum_const in X. rewrite (rsum_single N (fun s => if Nat.eqb s t then 1 else 0) t Ht) in X by (intros k Hk Hne; cbv beta; apply Nat.eqb_neq in Hne; rewrite Hne; reflexivity). rewrite Nat.eqb_refl in X. lra. }
  assert (Hge : 1 <= \sum_(t < N) (if Reqb (arc N a t) 0 then 0 else 1)).
  { assert (X := rsum_ge_term N (fun t => if Reqb (arc N a t) 0 then 0 else 1) (N - 1) ltac:(intros i _; cbv beta; destruct (Reqb _ 0); lra) ltac:(lia)). cbv beta in X.
    destruct (Reqb_spec (arc N a (N - 1)) 0); lra. }
  set (c := \sum_(t < N) (if Reqb (arc N a t) 0 then 0 else 1)) in *. clearbody c.
  assert (HPI : 2 < PI) by (pose proof PI2_1; pose proof PI_RGT_0; unfold PI2 in *; lra).
  assert (K : 1 / 10000000000 <= 2 * PI / c - 2 * PI / INR N).
  { replace (2 * PI / c - 2 * PI / INR N) with (2 * PI * ((INR N - c) / (c * INR N))) by (field; lra).
    assert (A1 : 1 / (200000 * 200000) <= (INR N - c) / (c * INR N)).
    { unfold Rdiv. apply Rmult_le_compat; [lra| |lra|].
      - left. apply Rinv_0_lt_compat. lra.
      - apply Rinv_le_contravar; [apply Rmult_lt_0_compat; lra|]. apply Rmult_le_compat; lra. }
    apply Rle_trans with (4 * (1 / (200000 * 200000))); [lra|]. apply Rmult_le_compat; lra. }
  destruct (Rltb_spec (2 * PI / c - 2 * PI / INR N) (1 / 10000000000)); [lra|reflexivity].
Qed.
(** Three angles meeting the hypotheses of C53_ring, and three coinciding ones. *)
Example C53_ex : ring_pre 3 (Some [2; 0; 1]) [] /\ NoDup (used (Some [2; 0; 1]) []) /\ ring_pre 3 (Some [1; 0; 1]) [] /\ ~ NoDup (used (Some [1; 0; 1]) []).
Proof.
  assert (HPI : 2 < 2 * PI) by (pose proof PI2_1; unfold PI2 in *; lra). split; [|split; [|split]].
  - split; [lia|]. split; [reflexivity|]. intros x [<-|[<-|[<-|[]]]]; lra.
  - cbn [used]. repeat constructor; cbn [In]; intros H; repeat (destruct H as [H|H]; [lra|]); exact H.
  - split; [lia|]. split; [reflexivity|]. intros x [<-|[<-|[<-|[]]]]; lra.
  - intros H. inversion H as [|? ? H1 _]; subst. apply H1. right. left. reflexivity.
Qed.
