(** C50: stochastic block model and Erdos-Renyi graphs. *)
From Coq Require Import Reals Lra Lia List Arith Bool String Permutation.
From Coq Require Import List.
From Verif.Base Require Import RSum Prelude.
From Verif.Spec Require Import Matrix GraphSpec Card Reach GenSpec.
From Verif.Model Require Import Sparse Graph Traverse Utils Reduction Random.
From Verif.Proofs Require Import SparseFacts InitFacts EdgeFacts SubgraphFacts TraverseFacts GenFacts.
From Verif.Props Require Import Core Traversal UtilsProps ReductionProps GenProps GridProps.
Import ListNotations.
Open Scope R_scope.

(** ** Positions in a list *)
Fixpoint index_of (p : nat * nat) (l : list (nat * nat)) : nat :=
  match l with [] => 0%nat | a :: l' => if pair_dec a p then 0%nat else S (index_of p l') end.
Lemma index_nth p l d : In p l -> nth (index_of p l) l d = p.
Proof. induction l as [|a l IH]; intros H; [destruct H|]. cbn [index_of]. destruct (pair_dec a p) as [E|E]; [exact E|]. cbn [nth]. apply IH. destruct H; [contradiction|assumption]. Qed.
Lemma index_inj p q l : In p l -> In q l -> index_of p l = index_of q l -> p = q.
Proof. intros Hp Hq E. rewrite <- (index_nth p l (0%nat, 0%nat) Hp), <- (index_nth q l (0%nat, 0%nat) Hq), E. reflexivity. Qed.

Section Scan.
Variables (z : list nat) (m : nat * nat * mat) (dir sl : bool) (u : nat -> R) (Pr : nat -> nat -> R).
Lemma scan_ok ps : (forall p, In p ps -> sbm_prob z m (fst p) (snd p) = Ok (Pr (fst p) (snd p))) -> NoDup ps -> forall s,
  exists l, sbm_scan z m dir sl u ps s = Ok (l, (s + List.length (filter (sbm_eligible dir sl) ps))%nat) /\
    forall p, In p l <-> In p ps /\ sbm_eligible dir sl p = true /\ u (s + index_of p (filter (sbm_eligible dir sl) ps))%nat < Pr (fst p) (snd p).
Proof.
  intros HP Hnd. induction ps as [|a ps IH]; intros s.
  - exists []. split; [cbn; rewrite Nat.add_0_r; reflexivity|]. intros p. split; [intros []|intros ([] & _)].
  - inversion Hnd as [|? ? Hna Hnd']; subst. cbn [sbm_scan filter]. destruct (sbm_eligible dir sl a) eqn:Ea.
    + rewrite HP by (left; reflexivity). cbn [bindr]. destruct (IH (fun p Hp => HP p (or_intror Hp)) Hnd' (S s)) as (l & -> & Hl). cbn [bindr fst snd].
      eexists. split; [f_equal; f_equal; cbn [List.length]; lia|]. intros p. cbn [index_of]. destruct (pair_dec a p) as [<-|Hne].
      * rewrite Nat.add_0_r. destruct (Rltb_spec (u s) (Pr (fst a) (snd a))) as [H|H].
        -- split; [intros _|intros _; left; reflexivity]. split; [left; reflexivity|]. split; [exact Ea|exact H].
        -- split; [intros H'; apply Hl in H'; destruct H' as (H' & _); contradiction|]. intros (_ & _ & H'). lra.
      * replace (s + S (index_of p (filter (sbm_eligible dir sl) ps)))%nat with (S s + index_of p (filter (sbm_eligible dir sl) ps))%nat by lia.
        assert (Q : In p (if Rltb (u s) (Pr (fst a) (snd a)) then a :: l else l) <-> In p l).
        { destruct (Rltb _ _); [|tauto]. cbn [In]. split; [intros [E|E]; [contradiction|exact E]|tauto]. }
        rewrite Q, Hl. cbn [In]. split; [tauto|]. intros ([E|E] & H); [contradiction|tauto].
    + destruct (IH (fun p Hp => HP p (or_intror Hp)) Hnd' s) as (l & -> & Hl). eexists. split; [reflexivity|]. intros p. rewrite Hl. cbn [In].
      split; [tauto|]. intros ([<-|E] & H & H'); [congruence|tauto].
Qed.
End Scan.
Lemma pairs_in N p : In p (sbm_pairs N) <-> (fst p < N)%nat /\ (snd p < N)%nat.
Proof.
  unfold sbm_pairs. rewrite in_flat_map. destruct p as [r c]. cbn [fst snd]. split.
  - intros (a & Ha & H). apply in_seq in Ha. apply map_seq_in in H. destruct H as (t & Ht & E). injection E as <- <-. lia.
  - intros (Hr & Hc). exists c. split; [apply in_seq; lia|]. apply map_seq_in. exists r. split; [lia|reflexivity].
Qed.
Lemma pairs_nodup N : NoDup (sbm_pairs N).
Proof.
  apply NoDup_flat_map; [apply seq_NoDup| |].
  - intros c _. apply map_seq_nodup. intros s t _ _ E. injection E. auto.
  - intros c c' p _ _ H H'. rewrite map_seq_in in H, H'. destruct H as (a & _ & <-), H' as (b & _ & E). injection E. auto.
Qed.
Lemma pair_matrix_in l i j : pair_matrix l i j = if in_dec pair_dec (i, j) l then 1 else 0.
Proof.
  unfold pair_matrix. destruct (existsb _ l) eqn:E.
  - apply existsb_exists in E. destruct E as ([a b] & Hin & E). cbn [fst snd] in E. apply andb_true_iff in E. destruct E as (E1 & E2). apply Nat.eqb_eq in E1, E2. subst.
    destruct (in_dec pair_dec (i, j) l); [reflexivity|contradiction].
  - destruct (in_dec pair_dec (i, j) l) as [H|]; [|reflexivity]. exfalso. assert (K : existsb (fun p => (Nat.eqb (fst p) i && Nat.eqb (snd p) j)%bool) l = true).
    { apply existsb_exists. exists (i, j). split; [exact H|]. cbn [fst snd]. rewrite !Nat.eqb_refl. reflexivity. } congruence.
Qed.
Lemma sbm_W_ok N dir l : (dir = false -> forall i j, In (i, j) l -> (j <= i)%nat) ->
  exists W, sbm_W N dir l = Ok W /\ (dir = true -> forall i j, W i j = pair_matrix l i j) /\
    (dir = false -> (forall i j, W i j = W j i) /\ forall i j, (j <= i)%nat -> W i j = pair_matrix l i j).
Proof.
  intros Hl. unfold sbm_W. destruct dir.
  - exists (pair_matrix l). split; [reflexivity|]. split; [reflexivity|discriminate].
  - destruct (symmetrize (mkmarg true N N (pair_matrix l)) "tril") as [W|e] eqn:E.
    + exists W. split; [reflexivity|]. split; [discriminate|]. intros _. split; [intros; apply (C32_symmetric _ _ _ E)|].
      intros i j Hij. assert (H0 : 0 <= pair_matrix l i j) by (rewrite pair_matrix_in; destruct in_dec; lra). apply (C32_tril _ _ E i j Hij H0).
    + exfalso. unfold symmetrize in E. cbn [m_rows m_cols] in E. rewrite Nat.eqb_refl in E. discriminate.
Qed.
Lemma mat_init_ok N W lap : valid_lap lap -> exists G, mat_init N W lap = Ok G /\ built G /\ g_n_vertices G = N /\ g_lap_type G = lap /\
  forall i j, (i < N)%nat -> (j < N)%nat -> wt G i j = W i j.
Proof.
  intros Hl. destruct (finite_entry_built N (dense N W) lap None (dense_len _ _) Hl) as (G & E & Hb & Hn & Ht & _ & Hw). exists G.
  split; [exact E|]. split; [exact Hb|]. split; [exact Hn|]. split; [exact Ht|]. intros i j Hi Hj. rewrite Hw by assumption. apply dense_nth; assumption.
Qed.

(** ** The statement *)
(** Which ordered pairs get a draw: the lower triangle (all pairs when directed), the diagonal only with self_loops. *)
Definition drawn (dir sl : bool) (i j : nat) : Prop := (i <> j \/ sl = true) /\ ((j <= i)%nat \/ dir = true).
Lemma drawn_eligible dir sl i j : sbm_eligible dir sl (i, j) = true <-> drawn dir sl i j.
Proof.
  unfold sbm_eligible, drawn. cbn [fst snd]. rewrite andb_true_iff, !orb_true_iff, negb_true_iff, Nat.eqb_neq, Nat.leb_le. reflexivity.
Qed.
(** G is the outcome of comparing, for every drawn pair, its own draw with its probability. *)
Definition sbm_outcome (N : nat) (dir sl : bool) (Pr : nat -> nat -> R) (u : nat -> R) (G : graph) : Prop :=
  built G /\ g_n_vertices G = N /\
  (exists pos : nat -> nat -> nat,
     (forall i j i' j', (i < N)%nat -> (j < N)%nat -> (i' < N)%nat -> (j' < N)%nat -> drawn dir sl i j -> drawn dir sl i' j' -> pos i j = pos i' j' -> i = i' /\ j = j') /\
     forall i j, (i < N)%nat -> (j < N)%nat -> drawn dir sl i j -> (u (pos i j) < Pr i j -> wt G i j = 1) /\ (~ u (pos i j) < Pr i j -> wt G i j = 0)) /\
  (dir = false -> undirected G) /\ (sl = false -> loop_free G).
Section Loop.
Variables (N : nat) (z : list nat) (m : nat * nat * mat) (dir sl conn : bool) (lap : laptype) (u : nat -> R) (pops : nat -> popper * popper) (Pr : nat -> nat -> R).
Hypothesis HN : (1 <= N)%nat.
Hypothesis HP : forall i j, (i < N)%nat -> (j < N)%nat -> sbm_prob z m i j = Ok (Pr i j).
Hypothesis Hlap : valid_lap lap.
Hypothesis Hpops : forall t, pop_ok (fst (pops t)) /\ pop_ok (snd (pops t)).

Lemma trial s : exists l s' W, sbm_scan z m dir sl u (sbm_pairs N) s = Ok (l, s') /\ sbm_W N dir l = Ok W /\
  forall lap, valid_lap lap -> exists G, mat_init N W lap = Ok G /\ sbm_outcome N dir sl Pr u G /\ g_lap_type G = lap /\
    (forall i j, (i < N)%nat -> (j < N)%nat -> wt G i j = W i j).
Proof.
  destruct (scan_ok z m dir sl u Pr (sbm_pairs N)) with (s := s) as (l & E & Hl).
  { intros p Hp. apply pairs_in in Hp. apply HP; tauto. } { apply pairs_nodup. }
  destruct (sbm_W_ok N dir l) as (W & EW & HWd & HWu).
  { intros -> i j Hin. apply Hl in Hin. destruct Hin as (_ & Hin & _). apply drawn_eligible in Hin. destruct Hin as (_ & [H|H]); [exact H|discriminate]. }
  eexists l, _, W. split; [exact E|]. split; [exact EW|]. intros lap' Hlap'. destruct (mat_init_ok N W lap' Hlap') as (G & EG & Hb & Hn & Ht & Hw).
  exists G. split; [exact EG|]. split; [|split; assumption].
  assert (HWp : forall i j, drawn dir sl i j -> W i j = pair_matrix l i j).
  { intros i j (_ & Hd). destruct dir; [apply HWd; reflexivity|]. destruct Hd as [Hd|Hd]; [|discriminate]. apply HWu; [reflexivity|exact Hd]. }
  split; [exact Hb|]. split; [exact Hn|]. split; [|split].
  - exists (fun i j => (s + index_of (i, j) (filter (sbm_eligible dir sl) (sbm_pairs N)))%nat). split.
    + intros i j i' j' Hi Hj Hi' Hj' Hd Hd' Ep. assert (Eq : (i, j) = (i', j')); [|injection Eq; auto].
      apply (index_inj (i, j) (i', j') (filter (sbm_eligible dir sl) (sbm_pairs N))); [| |lia]; apply filter_In; (split; [apply pairs_in; cbn; tauto|apply drawn_eligible; assumption]).
    + intros i j Hi Hj Hd. rewrite Hw, HWp, pair_matrix_in by assumption. destruct (in_dec pair_dec (i, j) l) as [Hin|Hin]; split; intros H; try lra.
      * apply Hl in Hin. cbn [fst snd] in Hin. tauto.
      * exfalso. apply Hin. apply Hl. split; [apply pairs_in; cbn; tauto|]. split; [apply drawn_eligible; exact Hd|exact H].
  - intros Hdir i j Hi Hj. rewrite Hn in Hi, Hj. rewrite !Hw by assumption. apply (HWu Hdir).
  - intros Hsl i Hi. rewrite Hn in Hi. rewrite Hw by assumption. assert (W i i = pair_matrix l i i) as ->.
    { destruct dir; [apply HWd; reflexivity|apply HWu; [reflexivity|lia]]. }
    rewrite pair_matrix_in. destruct (in_dec pair_dec (i, i) l) as [Hin|]; [|reflexivity]. exfalso. apply Hl in Hin. destruct Hin as (_ & Hin & _).
    apply drawn_eligible in Hin. destruct Hin as ([H|H] & _); congruence.
Qed.
Lemma loop_ok : forall fuel n_try s G, sbm_loop fuel N z m dir sl conn n_try lap u pops s = Some (Ok G) ->
  sbm_outcome N dir sl Pr u G /\ g_lap_type G = lap /\ (conn = true -> connected G).
Proof.
  induction fuel as [|fuel IH]; intros n_try s G; [discriminate|]. cbn [sbm_loop].
  destruct (match n_try with Some 0%nat => true | _ => false end) eqn:En; [destruct n_try as [[|?]|]; discriminate|].
  destruct (trial s) as (l & s' & W & E & EW & HG). destruct (HG lap Hlap) as (G1 & E1 & Ho1 & Ht1 & Hw1). destruct (HG Combinatorial (or_introl eq_refl)) as (G0 & E0 & Ho0 & Ht0 & Hw0).
  rewrite E, EW, E0, E1.
  assert (K : Some (Ok G1) = Some (Ok G) -> (conn = true -> connected G1) -> sbm_outcome N dir sl Pr u G /\ g_lap_type G = lap /\ (conn = true -> connected G)).
  { intros EE Hc. injection EE as <-. tauto. }
  destruct conn; cbn [negb].
  2:{ destruct n_try as [[|n]|]; [discriminate| |]; intros EE; apply K; try exact EE; discriminate. }
  destruct Ho0 as (Hb0 & Hn0 & _). destruct (Hpops fuel) as (P1 & P2).
  destruct (C05_is_connected_decides_connectivity G0 _ _ Hb0 P1 P2 ltac:(lia)) as (b & -> & Hc).
  assert (Hc1 : b = true -> connected G1).
  { intros Hbt. pose proof (proj1 Hc Hbt) as R0. destruct Ho1 as (_ & Hn1 & _). intros x y Hx Hy. rewrite Hn1 in Hx, Hy. rewrite Hn0 in R0. specialize (R0 x y Hx Hy).
    apply (reach_mono (has_arc G0)); [|exact R0]. intros p q (H1 & H2 & H3). rewrite Hn0 in H1, H2. split; [rewrite Hn1; exact H1|]. split; [rewrite Hn1; exact H2|]. rewrite Hw1, <- Hw0 by assumption. exact H3. }
  destruct n_try as [[|n]|]; [discriminate| |]; (destruct b; [intros EE; apply K; auto|apply IH]).
Qed.
Lemma loop_terminates : forall fuel n s, (n < fuel)%nat ->
  exists r, sbm_loop fuel N z m dir sl conn (Some n) lap u pops s = Some r /\
    match r with Ok _ => (1 <= n)%nat | Raise e => (conn = true /\ e = ValueError) \/ (conn = false /\ n = 0%nat /\ e = UnboundLocalError) end.
Proof.
  induction fuel as [|fuel IH]; intros n s Hf; [lia|]. cbn [sbm_loop]. destruct n as [|n].
  { eexists. split; [reflexivity|]. destruct conn; [left; tauto|right; tauto]. }
  destruct (trial s) as (l & s' & W & E & EW & HG). destruct (HG lap Hlap) as (G1 & E1 & Ho1 & Ht1 & Hw1). destruct (HG Combinatorial (or_introl eq_refl)) as (G0 & E0 & Ho0 & Ht0 & Hw0).
  rewrite E, EW, E0, E1. destruct conn; cbn [negb]; [|eexists; split; [reflexivity|cbv beta iota; lia]].
  destruct Ho0 as (Hb0 & Hn0 & _). destruct (Hpops fuel) as (P1 & P2).
  destruct (C05_is_connected_decides_connectivity G0 _ _ Hb0 P1 P2 ltac:(lia)) as (b & -> & Hc). destruct b; [eexists; split; [reflexivity|cbv beta iota; lia]|].
  replace (S n - 1)%nat with n by lia. destruct (IH n s' ltac:(lia)) as (r & Er & Hr). exists r. split; [exact Er|]. destruct r; [lia|]. destruct Hr as [Hr|(Hr & _)]; [left; exact Hr|discriminate].
Qed.
End Loop.

(** The labels used: those given, or the sorted random ones. *)
Definition labels (z : option (list nat)) (zs : list nat) : list nat := match z with Some z => z | None => isort zs end.
Definition labels_ok (N a b : nat) (z : list nat) : Prop := (N <= List.length z)%nat /\ forall v, (v < N)%nat -> (nth v z 0 < a)%nat /\ (nth v z 0 < b)%nat.
Lemma labels_prob N a b M z : labels_ok N a b z -> forall i j, (i < N)%nat -> (j < N)%nat -> sbm_prob z (a, b, M) i j = Ok (M (nth i z 0%nat) (nth j z 0%nat)).
Proof.
  intros (Hl & Hz) i j Hi Hj. unfold sbm_prob. rewrite (nth_error_nth' z 0%nat) by lia. rewrite (nth_error_nth' z 0%nat) by lia.
  destruct (Hz i Hi) as (H1 & _), (Hz j Hj) as (_ & H2). destruct (Nat.ltb_spec (nth i z 0%nat) a); [|lia]. destruct (Nat.ltb_spec (nth j z 0%nat) b); [|lia]. reflexivity.
Qed.
(** Every graph returned is an outcome of independent comparisons (one draw per pair), undirected unless asked, loop-free unless asked,
    and connected when asked. *)
Theorem C50_graph fuel N k z M p q dir sl conn n_try lap zs u pops a b m G :
  (1 <= N)%nat -> valid_lap lap -> (forall t, pop_ok (fst (pops t)) /\ pop_ok (snd (pops t))) ->
  sbm_probs k M p q = Ok (a, b, m) -> labels_ok N a b (labels z zs) ->
  SBM fuel N k z M p q dir sl conn n_try lap zs u pops = Some (Ok G) ->
  sbm_outcome N dir sl (fun i j => m (nth i (labels z zs) 0%nat) (nth j (labels z zs) 0%nat)) u G /\ g_lap_type G = lap /\ (conn = true -> connected G).
Proof.
  intros HN Hl Hp Hm Hz. unfold SBM. rewrite Hm. fold (labels z zs).
  apply (loop_ok N (labels z zs) (a, b, m) dir sl conn lap u pops (fun i j => m (nth i (labels z zs) 0%nat) (nth j (labels z zs) 0%nat)) HN); try assumption.
  apply labels_prob. exact Hz.
Qed.
(** With a limit on the trials the constructor always ends, with a graph, or, only when a connected graph is asked for, with ValueError. *)
Theorem C50_terminates fuel N k z M p q dir sl conn n lap zs u pops a b m :
  (1 <= N)%nat -> valid_lap lap -> (forall t, pop_ok (fst (pops t)) /\ pop_ok (snd (pops t))) ->
  sbm_probs k M p q = Ok (a, b, m) -> labels_ok N a b (labels z zs) -> (1 <= n < fuel)%nat ->
  (exists G, SBM fuel N k z M p q dir sl conn (Some n) lap zs u pops = Some (Ok G)) \/
  (conn = true /\ SBM fuel N k z M p q dir sl conn (Some n) lap zs u pops = Some (Raise ValueError)).
Proof.
  intros HN Hl Hp Hm Hz Hf. unfold SBM. rewrite Hm. fold (labels z zs).
  destruct (loop_terminates N (labels z zs) (a, b, m) dir sl conn lap u pops _ HN (labels_prob N a b m _ Hz) Hl Hp fuel n 0 ltac:(lia)) as ([G|e] & E & Hr).
  - left. exists G. exact E.
  - right. destruct Hr as [(Hc & ->)|(_ & Hn & _)]; [split; assumption|lia].
Qed.
(** ** Which attempt is returned *)
(** The t-th attempt reads draws number t*E .. t*E+E-1, one for each of the E drawn pairs, at the place pos i j of the pair. *)
Definition attempt (N : nat) (dir sl : bool) (Pr : nat -> nat -> R) (u : nat -> R) (E : nat) (pos : nat -> nat -> nat) (t : nat) (G : graph) : Prop :=
  built G /\ g_n_vertices G = N /\ (dir = false -> undirected G) /\ (sl = false -> loop_free G) /\
  forall i j, (i < N)%nat -> (j < N)%nat -> drawn dir sl i j ->
    (u (t * E + pos i j)%nat < Pr i j -> wt G i j = 1) /\ (~ u (t * E + pos i j)%nat < Pr i j -> wt G i j = 0).
Lemma ps_in N dir sl p : let ps := filter (sbm_eligible dir sl) (sbm_pairs N) in In p ps <-> (fst p < N)%nat /\ (snd p < N)%nat /\ drawn dir sl (fst p) (snd p).
Proof. intros ps. unfold ps. rewrite filter_In, pairs_in. destruct p as [i j]. rewrite (drawn_eligible dir sl i j). cbn [fst snd]. tauto. Qed.
Lemma index_lt p l : In p l -> (index_of p l < List.length l)%nat.
Proof. induction l as [|a l IH]; intros H; [destruct H|]. cbn [index_of List.length]. destruct (pair_dec a p); [lia|]. destruct H as [H|H]; [contradiction|]. specialize (IH H). lia. Qed.
Section Attempts.
Variables (N : nat) (z : list nat) (m : nat * nat * mat) (dir sl : bool) (lap : laptype) (u : nat -> R) (pops : nat -> popper * popper) (Pr : nat -> nat -> R).
Hypothesis HN : (1 <= N)%nat.
Hypothesis HP : forall i j, (i < N)%nat -> (j < N)%nat -> sbm_prob z m i j = Ok (Pr i j).
Hypothesis Hlap : valid_lap lap.
Hypothesis Hpops : forall t, pop_ok (fst (pops t)) /\ pop_ok (snd (pops t)).
Let ps := filter (sbm_eligible dir sl) (sbm_pairs N).
Let E := List.length ps.
Let pos i j := index_of (i, j) ps.
Lemma attempt_trial t : exists l W, sbm_scan z m dir sl u (sbm_pairs N) (t * E) = Ok (l, (S t * E)%nat) /\ sbm_W N dir l = Ok W /\
  forall lap, valid_lap lap -> exists G, mat_init N W lap = Ok G /\ attempt N dir sl Pr u E pos t G.
Proof.
  destruct (scan_ok z m dir sl u Pr (sbm_pairs N)) with (s := (t * E)%nat) as (l & El & Hl).
  { intros p Hp. apply pairs_in in Hp. apply HP; tauto. } { apply pairs_nodup. }
  destruct (sbm_W_ok N dir l) as (W & EW & HWd & HWu).
  { intros -> i j Hin. apply Hl in Hin. destruct Hin as (_ & Hin & _). apply drawn_eligible in Hin. destruct Hin as (_ & [H|H]); [exact H|discriminate]. }
  exists l, W. split; [rewrite El; fold ps; fold E; f_equal; f_equal; lia|]. split; [exact EW|]. intros lap' Hlap'. destruct (mat_init_ok N W lap' Hlap') as (G & EG & Hb & Hn & Ht & Hw).
  exists G. split; [exact EG|].
  assert (HWp : forall i j, drawn dir sl i j -> W i j = pair_matrix l i j).
  { intros i j (_ & Hd). destruct dir; [apply HWd; reflexivity|]. destruct Hd as [Hd|Hd]; [|discriminate]. apply HWu; [reflexivity|exact Hd]. }
  split; [exact Hb|]. split; [exact Hn|]. split; [|split].
  - intros Hdir i j Hi Hj. rewrite Hn in Hi, Hj. rewrite !Hw by assumption. apply (HWu Hdir).
  - intros Hsl i Hi. rewrite Hn in Hi. rewrite Hw by assumption. assert (W i i = pair_matrix l i i) as ->.
    { destruct dir; [apply HWd; reflexivity|apply HWu; [reflexivity|lia]]. }
    rewrite pair_matrix_in. destruct (in_dec pair_dec (i, i) l) as [Hin|]; [|reflexivity]. exfalso. apply Hl in Hin. destruct Hin as (_ & Hin & _).
    apply drawn_eligible in Hin. destruct Hin as ([H|H] & _); congruence.
  - intros i j Hi Hj Hd. rewrite Hw, HWp, pair_matrix_in by assumption. destruct (in_dec pair_dec (i, j) l) as [Hin|Hin]; split; intros H; try lra.
    + apply Hl in Hin. cbn [fst snd] in Hin. exfalso. apply H. apply Hin.
    + exfalso. apply Hin. apply Hl. split; [apply pairs_in; cbn; tauto|]. split; [apply drawn_eligible; exact Hd|exact H].
Qed.
Lemma attempt_same t G G' : attempt N dir sl Pr u E pos t G -> attempt N dir sl Pr u E pos t G' -> forall i j, (i < N)%nat -> (j < N)%nat -> wt G i j = wt G' i j.
Proof.
  intros (_ & Hn & Hu & Hs & Hw) (_ & Hn' & Hu' & Hs' & Hw').
  assert (K : forall i j, (i < N)%nat -> (j < N)%nat -> drawn dir sl i j -> wt G i j = wt G' i j).
  { intros i j Hi Hj Hd. destruct (Hw i j Hi Hj Hd) as (A1 & A0), (Hw' i j Hi Hj Hd) as (B1 & B0). destruct (Rlt_dec (u (t * E + pos i j)%nat) (Pr i j)) as [H|H]; [rewrite A1, B1 by exact H|rewrite A0, B0 by exact H]; reflexivity. }
  intros i j Hi Hj. destruct (Nat.eq_dec i j) as [<-|Hne].
  - destruct sl eqn:Esl; [apply K; auto; split; [right; reflexivity|left; lia]|]. rewrite (Hs eq_refl i), (Hs' eq_refl i) by (rewrite ?Hn, ?Hn'; exact Hi). reflexivity.
  - destruct dir eqn:Ed; [apply K; auto; split; [left; exact Hne|right; reflexivity]|]. destruct (Nat.le_gt_cases j i) as [H|H]; [apply K; auto; split; [left; exact Hne|left; exact H]|].
    transitivity (wt G j i); [apply (Hu eq_refl); rewrite Hn; assumption|]. rewrite (Hu' eq_refl i j) by (rewrite Hn'; assumption). apply K; auto. split; [left; lia|left; lia].
Qed.
Lemma attempt_connected t G G' : attempt N dir sl Pr u E pos t G -> attempt N dir sl Pr u E pos t G' -> connected G -> connected G'.
Proof.
  intros A A' Hc x y Hx Hy. pose proof (attempt_same t G G' A A') as Hw. destruct A as (_ & Hn & _), A' as (_ & Hn' & _). rewrite Hn' in Hx, Hy.
  apply (reach_mono (has_arc G)); [|apply Hc; rewrite Hn; assumption]. intros p q (H1 & H2 & H3). rewrite Hn in H1, H2. split; [rewrite Hn'; exact H1|]. split; [rewrite Hn'; exact H2|]. rewrite <- Hw by assumption. exact H3.
Qed.
Lemma attempts_loop : forall fuel n t, (n < fuel)%nat ->
  let r := sbm_loop fuel N z m dir sl true (Some n) lap u pops (t * E) in
  (exists t' G, (t <= t' < t + n)%nat /\ r = Some (Ok G) /\ attempt N dir sl Pr u E pos t' G /\ connected G /\ forall t'' G', (t <= t'' < t')%nat -> attempt N dir sl Pr u E pos t'' G' -> ~ connected G') \/
  (r = Some (Raise ValueError) /\ forall t' G', (t <= t' < t + n)%nat -> attempt N dir sl Pr u E pos t' G' -> ~ connected G').
Proof.
  induction fuel as [|fuel IH]; intros n t Hf r; [lia|]. subst r. cbn [sbm_loop]. destruct n as [|n]. { right. split; [reflexivity|]. intros; lia. }
  destruct (attempt_trial t) as (l & W & El & EW & HG). destruct (HG lap Hlap) as (G1 & E1 & A1). destruct (HG Combinatorial (or_introl eq_refl)) as (G0 & E0 & A0).
  rewrite El, EW, E0, E1. cbn [negb]. pose proof A0 as (Hb0 & Hn0 & _). destruct (Hpops fuel) as (P1 & P2).
  destruct (C05_is_connected_decides_connectivity G0 _ _ Hb0 P1 P2 ltac:(lia)) as (b & -> & Hc). destruct b.
  - left. exists t, G1. split; [lia|]. split; [reflexivity|]. split; [exact A1|]. split; [|intros; lia]. apply (attempt_connected t G0 G1 A0 A1). exact (proj1 Hc eq_refl).
  - replace (S n - 1)%nat with n by lia. assert (Z : forall G', attempt N dir sl Pr u E pos t G' -> ~ connected G').
    { intros G' A' Hc'. pose proof (attempt_connected t G' G0 A' A0 Hc') as H. apply Hc in H. discriminate. }
    destruct (IH n (S t) ltac:(lia)) as [(t' & G & Ht & Er & At & Hcn & Hb)|(Er & Hb)].
    + left. exists t', G. split; [lia|]. split; [exact Er|]. split; [exact At|]. split; [exact Hcn|]. intros t'' G' H A'. destruct (Nat.eq_dec t'' t) as [->|]; [apply Z; exact A'|apply (Hb t'' G'); [lia|exact A']].
    + right. split; [exact Er|]. intros t' G' H A'. destruct (Nat.eq_dec t' t) as [->|]; [apply Z; exact A'|apply (Hb t' G'); [lia|exact A']].
Qed.
End Attempts.
(** With connected=True and a limit of n attempts, the graph returned is that of the first attempt whose graph is connected; ValueError is raised
    exactly when none of the n attempts is connected.  Every attempt has its own draws; without the requirement the first attempt is returned. *)
Theorem C50_first_connected_attempt fuel N k z M p q dir sl n lap zs u pops a b m :
  (1 <= N)%nat -> valid_lap lap -> (forall t, pop_ok (fst (pops t)) /\ pop_ok (snd (pops t))) ->
  sbm_probs k M p q = Ok (a, b, m) -> labels_ok N a b (labels z zs) -> (1 <= n < fuel)%nat ->
  let Pr i j := m (nth i (labels z zs) 0%nat) (nth j (labels z zs) 0%nat) in
  exists E pos, card (fun e : nat * nat => (fst e < N)%nat /\ (snd e < N)%nat /\ drawn dir sl (fst e) (snd e)) E /\
    (forall i j, (i < N)%nat -> (j < N)%nat -> drawn dir sl i j -> (pos i j < E)%nat) /\
    (forall i j i' j', (i < N)%nat -> (j < N)%nat -> (i' < N)%nat -> (j' < N)%nat -> drawn dir sl i j -> drawn dir sl i' j' -> pos i j = pos i' j' -> i = i' /\ j = j') /\
    (forall t, exists G, attempt N dir sl Pr u E pos t G) /\
    (let r := SBM fuel N k z M p q dir sl true (Some n) lap zs u pops in
     (exists t G, (t < n)%nat /\ r = Some (Ok G) /\ attempt N dir sl Pr u E pos t G /\ connected G /\ forall t' G', (t' < t)%nat -> attempt N dir sl Pr u E pos t' G' -> ~ connected G') \/
     (r = Some (Raise ValueError) /\ forall t' G', (t' < n)%nat -> attempt N dir sl Pr u E pos t' G' -> ~ connected G')) /\
    (exists G, SBM fuel N k z M p q dir sl false (Some n) lap zs u pops = Some (Ok G) /\ attempt N dir sl Pr u E pos 0 G).
Proof.
  intros HN Hl Hp Hm Hz Hf Pr. pose proof (labels_prob N a b m _ Hz) as HP. set (ps := filter (sbm_eligible dir sl) (sbm_pairs N)).
  exists (List.length ps), (fun i j => index_of (i, j) ps). split; [|split; [|split; [|split; [|split]]]].
  - exists ps. split; [apply NoDup_filter, pairs_nodup|]. split; [|reflexivity]. intros e. apply (ps_in N dir sl e).
  - intros i j Hi Hj Hd. apply index_lt. apply (ps_in N dir sl (i, j)). tauto.
  - intros i j i' j' Hi Hj Hi' Hj' Hd Hd' Ep. assert (Eq : (i, j) = (i', j')); [|injection Eq; auto].
    apply (index_inj (i, j) (i', j') ps); [apply (ps_in N dir sl (i, j)); tauto|apply (ps_in N dir sl (i', j')); tauto|exact Ep].
  - intros t. destruct (attempt_trial N (labels z zs) (a, b, m) dir sl u Pr HN HP t) as (l & W & _ & _ & HG). destruct (HG lap Hl) as (G & _ & A). exists G. exact A.
  - unfold SBM. rewrite Hm. fold (labels z zs).
    destruct (attempts_loop N (labels z zs) (a, b, m) dir sl lap u pops Pr HN HP Hl Hp fuel n 0 ltac:(lia)) as [(t' & G & Ht & Er & At & Hcn & Hb)|(Er & Hb)].
    + left. exists t', G. split; [lia|]. split; [exact Er|]. split; [exact At|]. split; [exact Hcn|]. intros t'' G' H. apply Hb. lia.
    + right. split; [exact Er|]. intros t' G' H. apply Hb. lia.
  - unfold SBM. rewrite Hm. fold (labels z zs). destruct fuel as [|fuel]; [lia|]. cbn [sbm_loop]. destruct n as [|n]; [lia|].
    destruct (attempt_trial N (labels z zs) (a, b, m) dir sl u Pr HN HP 0) as (l & W & El & EW & HG). destruct (HG lap Hl) as (G & E1 & A). cbn [Nat.mul] in El. rewrite El, EW. cbn [negb]. rewrite E1.
    exists G. split; [reflexivity|exact A].
Qed.
(** n_try = 0 without a connectivity requirement: the graph matrix is never built. *)
Theorem C50_n_try_zero_refuted fuel N k z M p q dir sl lap zs u pops m : sbm_probs k M p q = Ok m ->
  SBM (S fuel) N k z M p q dir sl false (Some 0%nat) lap zs u pops = Some (Raise UnboundLocalError).
Proof. intros H. unfold SBM. rewrite H. reflexivity. Qed.
(** Pairs of probability 0 are never joined, pairs of probability 1 always (draws are in [0, 1)). *)
Theorem C50_certain_pairs N dir sl Pr u G i j : (forall t, 0 <= u t < 1) -> sbm_outcome N dir sl Pr u G -> (i < N)%nat -> (j < N)%nat -> drawn dir sl i j ->
  (Pr i j = 0 -> wt G i j = 0) /\ (Pr i j = 1 -> wt G i j = 1) /\ (wt G i j = 0 \/ wt G i j = 1).
Proof.
  intros Hu (Hb & Hn & (pos & _ & Hw) & _) Hi Hj Hd. destruct (Hw i j Hi Hj Hd) as (H1 & H0). specialize (Hu (pos i j)). split; [|split].
  - intros E. apply H0. rewrite E. lra.
  - intros E. apply H1. rewrite E. lra.
  - destruct (Rlt_dec (u (pos i j)) (Pr i j)); [right; auto|left; auto].
Qed.
(** Random labels are sorted and are the labels drawn. *)
Theorem C50_labels zs : Sorted.StronglySorted le (labels None zs) /\ Permutation (labels None zs) zs.
Proof. split; [apply isort_sorted|apply isort_perm]. Qed.

(** ** The probabilities *)
Theorem C50_probabilities_in_range k M p q a b m : sbm_probs k M p q = Ok (a, b, m) -> forall i j, (i < a)%nat -> (j < b)%nat -> 0 <= m i j <= 1.
Proof.
  unfold sbm_probs. destruct (match M with Some m => Ok m | None => _ end) as [[[a' b'] m']|e]; cbn [bindr]; [|discriminate].
  destruct (nexists a' _) eqn:E; [discriminate|]. intros H i j Hi Hj. injection H as -> -> ->. pose proof (proj1 (nexists_false _ _) E i Hi) as E1. cbv beta in E1.
  pose proof (proj1 (nexists_false _ _) E1 j Hj) as E2. cbv beta in E2. apply orb_false_iff in E2. destruct E2 as (E2 & E3).
  destruct (Rltb_spec (m i j) 0); [discriminate|]. destruct (Rltb_spec 1 (m i j)); [discriminate|]. lra.
Qed.
Theorem C50_out_of_range_rejected fuel N k z a b m p q dir sl conn n_try lap zs u pops i j : (i < a)%nat -> (j < b)%nat -> (m i j < 0 \/ 1 < m i j) ->
  SBM fuel N k z (Some (a, b, m)) p q dir sl conn n_try lap zs u pops = Some (Raise ValueError).
Proof.
  intros Hi Hj H. unfold SBM, sbm_probs. cbn [bindr]. replace (nexists a _) with true; [reflexivity|]. symmetry. apply nexists_true. exists i. split; [exact Hi|].
  apply nexists_true. exists j. split; [exact Hj|]. apply orb_true_iff. rewrite !Rltb_true. exact H.
Qed.
(** p: a scalar or one value per block; q: a scalar (default 0.3 / k) or a k x k matrix; anything else is rejected. *)
Definition p_value (p : arr) (i : nat) : R := if Nat.eqb (a_size p) 1 then nth 0 (a_data p) 0 else nth i (a_data p) 0.
Definition q_value (k : nat) (q : option arr) (i j : nat) : R :=
  match q with None => 0.3 / INR k | Some q => if Nat.eqb (a_size q) 1 then nth 0 (a_data q) 0 else nth (i * k + j) (a_data q) 0 end.
Theorem C50_probabilities k p q a b m : (forall x, q = Some x -> a_int x = false) -> sbm_probs k None p q = Ok (a, b, m) ->
  a = k /\ b = k /\ (a_size p = 1%nat \/ a_shape p = [k]) /\ (forall x, q = Some x -> a_size x = 1%nat \/ a_shape x = [k; k]) /\
  forall i j, m i j = if Nat.eqb i j then p_value p i else q_value k q i j.
Proof.
  intros Hint. unfold sbm_probs, sbm_M, sbm_p, p_value, q_value, shape_eqb. destruct (Nat.eqb_spec (a_size p) 1) as [Ep|Ep]; cbn [bindr];
  [|destruct (list_eq_dec Nat.eq_dec (a_shape p) [k]) as [Es|Es]; cbn [bindr]; [|discriminate]].
  - destruct q as [q|].
    + specialize (Hint q eq_refl). destruct (Nat.eqb_spec (a_size q) 1) as [Eq|Eq]; cbn [bindr]; [|destruct (list_eq_dec Nat.eq_dec (a_shape q) [k; k]) as [Eqs|]; cbn [bindr]; [|discriminate]];
      (destruct (nexists k _); [discriminate|]); intros H; injection H as <- <- <-; (split; [reflexivity|split; [reflexivity|split; [left; exact Ep|split; [intros x Hx; injection Hx as <-; tauto|]]]]); intros i j; rewrite ?Hint; reflexivity.
    + cbn [a_size scalar a_shape fold_right Nat.eqb bindr]. destruct (nexists k _); [discriminate|]. intros H; injection H as <- <- <-.
      split; [reflexivity|split; [reflexivity|split; [left; exact Ep|split; [discriminate|]]]]. intros i j. reflexivity.
  - destruct q as [q|].
    + specialize (Hint q eq_refl). destruct (Nat.eqb_spec (a_size q) 1) as [Eq|Eq]; cbn [bindr]; [|destruct (list_eq_dec Nat.eq_dec (a_shape q) [k; k]) as [Eqs|]; cbn [bindr]; [|discriminate]];
      (destruct (nexists k _); [discriminate|]); intros H; injection H as <- <- <-; (split; [reflexivity|split; [reflexivity|split; [right; exact Es|split; [intros x Hx; injection Hx as <-; tauto|]]]]); intros i j; rewrite ?Hint; reflexivity.
    + cbn [a_size scalar a_shape fold_right Nat.eqb bindr]. destruct (nexists k _); [discriminate|]. intros H; injection H as <- <- <-.
      split; [reflexivity|split; [reflexivity|split; [right; exact Es|split; [discriminate|]]]]. intros i j. reflexivity.
Qed.
Theorem C50_bad_shape_rejected fuel N k z p q dir sl conn n_try lap zs u pops :
  (a_size p <> 1%nat /\ a_shape p <> [k]) \/ (exists x, q = Some x /\ a_size x <> 1%nat /\ a_shape x <> [k; k]) ->
  SBM fuel N k z None p q dir sl conn n_try lap zs u pops = Some (Raise ValueError).
Proof.
  intros H. unfold SBM, sbm_probs, sbm_M, sbm_p, shape_eqb. destruct (Nat.eqb_spec (a_size p) 1) as [Ep|Ep]; cbn [bindr].
  - destruct H as [(H & _)|(x & -> & H1 & H2)]; [contradiction|]. destruct (Nat.eqb_spec (a_size x) 1); [contradiction|]. destruct (list_eq_dec Nat.eq_dec (a_shape x) [k; k]); [contradiction|]. reflexivity.
  - destruct (list_eq_dec Nat.eq_dec (a_shape p) [k]); cbn [bindr]; [|reflexivity].
    destruct H as [(_ & H)|(x & -> & H1 & H2)]; [contradiction|]. destruct (Nat.eqb_spec (a_size x) 1); [contradiction|]. destruct (list_eq_dec Nat.eq_dec (a_shape x) [k; k]); [contradiction|]. reflexivity.
Qed.
(** A q of integer dtype silently replaces every p below 1 by 0. *)
Theorem C50_integer_q_refuted k p q a b m i : (2 <= k)%nat -> a_int q = true -> a_shape q = [k; k] -> sbm_probs k None p (Some q) = Ok (a, b, m) ->
  0 <= p_value p i < 1 -> m i i = 0.
Proof.
  intros Hk Hi Hs. unfold sbm_probs, sbm_M, sbm_p, p_value, shape_eqb. assert (Eq : Nat.eqb (a_size q) 1 = false) by (apply Nat.eqb_neq; unfold a_size; rewrite Hs; cbn [fold_right]; nia).
  assert (T : forall x, 0 <= x < 1 -> trunc x = 0).
  { intros x Hx. unfold trunc. destruct (Rltb_spec x 0); [lra|]. replace (Int_part x) with 0%Z; [reflexivity|]. unfold Int_part. rewrite <- (tech_up x 1); [reflexivity|lra|lra]. }
  rewrite Eq, Hs. destruct (list_eq_dec Nat.eq_dec [k; k] [k; k]) as [_|n]; [|exfalso; apply n; reflexivity]. rewrite Hi.
  destruct (Nat.eqb_spec (a_size p) 1); cbn [bindr].
  - destruct (nexists k _); [discriminate|]. intros H Hp. injection H as <- <- <-. rewrite Nat.eqb_refl. apply T. exact Hp.
  - destruct (list_eq_dec Nat.eq_dec (a_shape p) [k]); cbn [bindr]; [|discriminate]. destruct (nexists k _); [discriminate|]. intros H Hp. injection H as <- <- <-. rewrite Nat.eqb_refl. apply T. exact Hp.
Qed.
(** Erdos-Renyi: every drawn pair is joined exactly when its own draw is below p. *)
Theorem C50_erdos_renyi fuel N p dir sl conn n_try lap zs u pops G :
  (1 <= N)%nat -> valid_lap lap -> (forall t, pop_ok (fst (pops t)) /\ pop_ok (snd (pops t))) -> (N <= List.length zs)%nat -> (forall x, In x zs -> x = 0%nat) ->
  0 <= p <= 1 -> ErdosRenyi fuel N (scalar p) dir sl conn n_try lap zs u pops = Some (Ok G) ->
  sbm_outcome N dir sl (fun _ _ => p) u G /\ g_lap_type G = lap /\ (conn = true -> connected G).
Proof.
  intros HN Hl Hp Hz Hzs Hpr H. unfold ErdosRenyi in H.
  assert (E : sbm_probs 1 None (scalar p) None = Ok (1%nat, 1%nat, fun i j => if Nat.eqb i j then p else 0.3 / INR 1)).
  { unfold sbm_probs, sbm_M, sbm_p. cbn [a_size scalar a_shape fold_right Nat.eqb bindr nth a_data]. replace (nexists 1 _) with false; [reflexivity|]. symmetry.
    apply nexists_false. intros i Hi. apply nexists_false. intros j Hj. assert (i = 0 /\ j = 0)%nat as (-> & ->) by lia. cbn [Nat.eqb]. apply orb_false_iff.
    destruct (Rltb_spec p 0); [lra|]. destruct (Rltb_spec 1 p); [lra|]. split; reflexivity. }
  assert (L : (N <= List.length (labels None zs))%nat) by (rewrite (Permutation_length (proj2 (C50_labels zs))); exact Hz).
  assert (Z : forall v, (v < N)%nat -> nth v (labels None zs) 0%nat = 0%nat).
  { intros v Hv. apply Hzs. apply (Permutation_in _ (proj2 (C50_labels zs))). apply nth_In. lia. }
  destruct (C50_graph fuel N 1 None None (scalar p) None dir sl conn n_try lap zs u pops 1 1 _ G HN Hl Hp E) as (Ho & Ht & Hc); [split; [exact L|intros v Hv; rewrite Z by exact Hv; lia]|exact H|].
  split; [|tauto]. destruct Ho as (Hb & Hn & (pos & Hi & Hw) & Hu & Hlf). split; [exact Hb|]. split; [exact Hn|]. split; [|tauto]. exists pos. split; [exact Hi|].
  intros i j Hi' Hj' Hd. specialize (Hw i j Hi' Hj' Hd). rewrite !Z in Hw by assumption. exact Hw.
Qed.
(** The hypotheses are met: a two-block model with certain edges inside the blocks. *)
Example C50_ex : exists m, sbm_probs 2 None (mkarr [2%nat] [1; 0.5] false) (Some (scalar 0)) = Ok (2%nat, 2%nat, m) /\ labels_ok 3 2 2 (labels None [1; 0; 1]%nat) /\ m 0%nat 0%nat = 1 /\ m 1%nat 0%nat = 0.
Proof.
  exists (fun i j => if Nat.eqb i j then nth i [1; 0.5] 0 else nth 0 [0] 0). unfold sbm_probs, sbm_M, sbm_p, shape_eqb. cbn [a_size scalar a_shape fold_right Nat.mul Nat.add Nat.eqb bindr a_data].
  destruct (list_eq_dec Nat.eq_dec [2%nat] [2%nat]) as [_|n]; [|exfalso; apply n; reflexivity]. cbn [bindr]. split; [|split; [|split; reflexivity]].
  - replace (nexists 2 _) with false; [reflexivity|]. symmetry. apply nexists_false. intros i Hi. apply nexists_false. intros j Hj. apply orb_false_iff.
    assert (H : 0 <= (if Nat.eqb i j then nth i [1; 0.5] 0 else nth 0 [0] 0) <= 1).
    { destruct i as [|[|i]]; [| |lia]; (destruct j as [|[|j]]; [| |lia]); cbn [Nat.eqb nth]; lra. }
    destruct (Rltb_spec (if Nat.eqb i j then nth i [1; 0.5] 0 else nth 0 [0] 0) 0); [lra|]. destruct (Rltb_spec 1 (if Nat.eqb i j then nth i [1; 0.5] 0 else nth 0 [0] 0)); [lra|]. split; reflexivity.
  - split; [cbn; lia|]. intros v Hv. destruct v as [|[|[|v]]]; [cbn; lia|cbn; lia|cbn; lia|lia].
Qed.
