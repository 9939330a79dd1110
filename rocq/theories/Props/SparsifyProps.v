(** C69: graph_sparsify. *)
From Coq Require Import Reals Lra Lia List Arith Bool.
From Coq Require Import List.
From Verif.Base Require Import RSum Prelude LinAlg.
From Verif.Spec Require Import Matrix GraphSpec Card Reach GenSpec LapSpec.
From Verif.Model Require Import Sparse Graph Traverse Utils Reduction Community Sparsify.
From Verif.Proofs Require Import SparseFacts InitFacts EdgeFacts LapFacts SubgraphFacts TraverseFacts MaxPrinciple GenFacts IOFacts.
From Verif.Props Require Import Core Laplacian Traversal UtilsProps ReductionProps GenProps SbmProps CommunityProps.
Import ListNotations.
Open Scope R_scope.
Open Scope list_scope.

Lemma xsum_nan l : In NaN l -> xsum l = NaN.
Proof.
  induction l as [|a l IH]; intros H; [destruct H|]. change (xsum (a :: l)) with (xadd a (xsum l)). destruct H as [-> | H]; [reflexivity|].
  rewrite IH by exact H. destruct a; reflexivity.
Qed.
Lemma init_comb_error inp co e : graph_init inp Combinatorial co = Raise e -> e = ValueError.
Proof.
  unfold graph_init. destruct (negb _); [congruence|]. destruct (xisnan _); [congruence|]. destruct (xisinf _); [congruence|]. cbn. discriminate.
Qed.
Lemma count_sum l m : (forall k, In k l -> (k < m)%nat) -> \sum_(k < m) INR (count_occ Nat.eq_dec l k) = INR (List.length l).
Proof.
  induction l as [|a l IH]; intros H; [apply rsum_0; intros; reflexivity|].
  rewrite (rsum_ext m _ (fun k => (if Nat.eqb k a then 1 else 0) + INR (count_occ Nat.eq_dec l k))).
  - rewrite rsum_plus, IH by (intros k Hk; apply H; right; exact Hk). rewrite (rsum_delta m (fun _ => 1) a) by (apply H; left; reflexivity).
    cbn [List.length]. rewrite S_INR. ring.
  - intros k _. cbn [count_occ]. destruct (Nat.eq_dec a k) as [->|Ne].
    + rewrite Nat.eqb_refl, S_INR. ring.
    + destruct (Nat.eqb_spec k a); [congruence|]. ring.
Qed.

Lemma lsum_nth {A} (f : A -> R) (l : list A) d : lsum (map f l) = \sum_(k < List.length l) f (nth k l d).
Proof.
  induction l as [|e l IH] using rev_ind; [reflexivity|]. rewrite map_app, lsum_app, app_length, Nat.add_1_r, IH. cbn [rsum]. f_equal.
  - apply rsum_ext. intros k Hk. rewrite app_nth1 by exact Hk. reflexivity.
  - rewrite app_nth2, Nat.sub_diag by lia. unfold lsum. cbn. ring.
Qed.

Section Core.
Variables (N : nat) (W Rd : mat).
Hypothesis Wnn : forall i j, 0 <= W i j.
Hypothesis Rloop : forall i, Rd i i = 0.
Hypothesis Rsym : forall i j, Rd i j = Rd j i.
Let es := sp_edges N W.
Let m := List.length es.
Let edge k := nth k es (0%nat, 0%nat).

Lemma es_in i j : In (i, j) es <-> (i < N)%nat /\ (j <= i)%nat /\ W i j <> 0.
Proof.
  unfold es, sp_edges. rewrite in_flat_map. split.
  - intros (c & Hc & H). apply in_map_iff in H as (a & E & Ha). injection E as <- <-. apply filter_In in Ha as (Ha & Hb). apply in_seq in Ha.
    apply andb_true_iff in Hb as (H1 & H2). apply Nat.leb_le in H1. apply negb_true_iff in H2. apply Reqb_false in H2. repeat split; [lia|exact H1|exact H2].
  - intros (Hi & Hj & Hw). exists j. split; [apply in_seq; lia|]. apply in_map_iff. exists i. split; [reflexivity|]. apply filter_In. split; [apply in_seq; lia|].
    apply andb_true_iff. split; [apply Nat.leb_le; exact Hj|]. apply negb_true_iff. apply Reqb_false. exact Hw.
Qed.
Lemma es_nodup : NoDup es.
Proof.
  apply NoDup_flat_map; [apply seq_NoDup| |].
  - intros c _. apply FinFun.Injective_map_NoDup; [intros a b E; injection E; auto|]. apply NoDup_filter, seq_NoDup.
  - intros c c' p _ _ H H'. apply in_map_iff in H as (a & <- & _). apply in_map_iff in H' as (b & E & _). injection E. auto.
Qed.
Lemma edge_in k : (k < m)%nat -> In (edge k) es.
Proof. intros H. apply nth_In. exact H. Qed.
Lemma edge_inj k k' : (k < m)%nat -> (k' < m)%nat -> edge k = edge k' -> k = k'.
Proof. intros H H' E. apply (proj1 (NoDup_nth es (0%nat, 0%nat)) es_nodup); assumption. Qed.
Lemma edge_index i j : In (i, j) es -> exists k, (k < m)%nat /\ edge k = (i, j).
Proof. intros H. destruct (In_nth es (i, j) (0%nat, 0%nat) H) as (k & Hk & E). exists k. auto. Qed.

(** sum over the edges at a position *)
Definition at_pos (v : nat -> R) (i j : nat) : R := \sum_(k < m) (if pair_dec (edge k) (i, j) then v k else 0).
Lemma at_pos_edge v k i j : (k < m)%nat -> edge k = (i, j) -> at_pos v i j = v k.
Proof.
  intros Hk E. unfold at_pos. rewrite (rsum_single m _ k Hk).
  - destruct (pair_dec (edge k) (i, j)); [reflexivity|contradiction].
  - intros k' Hk' Ne. destruct (pair_dec (edge k') (i, j)) as [E'|]; [|reflexivity]. exfalso. apply Ne. apply edge_inj; congruence.
Qed.
Lemma at_pos_none v i j : ~ In (i, j) es -> at_pos v i j = 0.
Proof.
  intros H. apply rsum_0. intros k Hk. destruct (pair_dec (edge k) (i, j)) as [E|]; [|reflexivity]. exfalso. apply H. rewrite <- E. apply edge_in. exact Hk.
Qed.
Lemma at_pos_sum v (f : nat -> nat -> R) : \sum_(i < N) \sum_(j < N) (at_pos v i j * f i j) = \sum_(k < m) (v k * f (fst (edge k)) (snd (edge k))).
Proof.
  unfold at_pos.
  rewrite (rsum_ext N _ (fun i => \sum_(k < m) \sum_(j < N) ((if pair_dec (edge k) (i, j) then v k else 0) * f i j))).
  2:{ intros i _. rewrite rsum_swap. apply rsum_ext. intros j _. symmetry. apply rsum_scal_r. }
  rewrite rsum_swap. apply rsum_ext. intros k Hk. pose proof (edge_in k Hk) as Hin. destruct (edge k) as [a b] eqn:E. apply es_in in Hin as (Ha & Hb & _). cbn [fst snd].
  rewrite (rsum_single N _ a Ha).
  - rewrite (rsum_single N _ b); [|lia|].
    + destruct (pair_dec (a, b) (a, b)); [reflexivity|congruence].
    + intros j _ Ne. destruct (pair_dec (a, b) (a, j)) as [E'|]; [|ring]. injection E' as E'. congruence.
  - intros i _ Ne. apply rsum_0. intros j _. destruct (pair_dec (a, b) (i, j)) as [E'|]; [|ring]. injection E' as E1 E2. congruence.
Qed.

Lemma score_nonneg e : 0 <= sp_score W Rd e.
Proof. unfold sp_score. apply Rmult_le_pos; apply Rmax_l. Qed.
Lemma total_nonneg : 0 <= sp_total N W Rd.
Proof. unfold sp_total. apply lsum_map_nonneg. intros e _. apply score_nonneg. Qed.
Lemma total_rsum : sp_total N W Rd = \sum_(k < m) sp_score W Rd (edge k).
Proof.
  unfold sp_total. fold es. apply (lsum_nth (sp_score W Rd) es (0%nat, 0%nat)).
Qed.
Lemma prob_nonneg k : 0 <= sp_prob N W Rd k.
Proof.
  unfold sp_prob, Rdiv. destruct (Req_dec (sp_total N W Rd) 0) as [-> | H]; [rewrite Rinv_0; lra|].
  apply Rmult_le_pos; [apply score_nonneg|]. left. apply Rinv_0_lt_compat. pose proof total_nonneg. lra.
Qed.
Lemma prob_sum : sp_total N W Rd <> 0 -> \sum_(k < m) sp_prob N W Rd k = 1.
Proof.
  intros H. unfold sp_prob, Rdiv. rewrite rsum_scal_r. fold es. change (fun k => sp_score W Rd (nth k es (0%nat, 0%nat))) with (fun k => sp_score W Rd (edge k)).
  rewrite <- total_rsum. apply Rinv_r. exact H.
Qed.

(** ** One attempt *)
Definition wk (k : nat) : R := W (fst (edge k)) (snd (edge k)).
Definition val (q : nat) (l : list nat) (k : nat) : R := INR (count_occ Nat.eq_dec l k) * (wk k / (INR q * sp_prob N W Rd k)).
Definition good (q : nat) : Prop := forall k, (k < m)%nat -> INR q * sp_prob N W Rd k <> 0.

Lemma good_dec q : good q \/ exists k, (k < m)%nat /\ INR q * sp_prob N W Rd k = 0.
Proof.
  unfold good. generalize m as n. induction n as [|n IH]; [left; intros k Hk; lia|].
  destruct IH as [IH|(k & Hk & E)]; [|right; exists k; split; [lia|exact E]].
  destruct (Req_dec (INR q * sp_prob N W Rd n) 0) as [E|E]; [right; exists n; split; [lia|exact E]|].
  left. intros k Hk. destruct (Nat.eq_dec k n) as [->|]; [exact E|]. apply IH. lia.
Qed.
Lemma attempt_bad q l k : (k < m)%nat -> INR q * sp_prob N W Rd k = 0 ->
  graph_init (InCOO N N (sp_entries N W Rd q l)) Combinatorial None = Raise ValueError.
Proof.
  intros Hk E. set (inp := InCOO N N (sp_entries N W Rd q l)). destruct (graph_init inp Combinatorial None) as [G|e] eqn:EG; [|f_equal; eapply init_comb_error; exact EG]. exfalso.
  assert (Hwf : wf_input inp).
  { intros t Ht. unfold sp_entries in Ht. fold es in Ht. apply in_app_iff in Ht. destruct Ht as [Ht|Ht]; apply in_map_iff in Ht as (k' & <- & Hk'); apply in_seq in Hk'; cbn [fst snd];
      pose proof (edge_in k' (proj2 Hk')) as Hin; unfold edge in Hin; destruct (nth k' es (0%nat, 0%nat)) as [a b]; apply es_in in Hin; cbn [fst snd]; lia. }
  destruct (proj1 (init_accepts inp Combinatorial None Hwf) (ex_intro _ G EG)) as (_ & n & Hs & Hf). injection Hs as <-.
  pose proof (edge_in k Hk) as Hin. destruct (edge k) as [a b] eqn:Ek. pose proof (proj1 (es_in a b) Hin) as (Ha & Hb & _). specialize (Hf a b Ha ltac:(lia)). cbn [input_entry inp] in Hf.
  rewrite xsum_nan in Hf; [destruct Hf; discriminate|]. apply in_map_iff. exists ((a, b), NaN). split; [reflexivity|]. apply filter_In. cbn [fst snd]. rewrite !Nat.eqb_refl. split; [|reflexivity].
  unfold sp_entries. apply in_app_iff. left. apply in_map_iff. exists k. split; [|apply in_seq; fold es; fold m; lia].
  fold es. change (nth k es (0%nat, 0%nat)) with (edge k). rewrite Ek. f_equal. unfold sp_weight. rewrite E, Reqb_refl. reflexivity.
Qed.
Lemma weight_fin q l k : good q -> (k < m)%nat -> sp_weight N W Rd q l k = Fin (val q l k).
Proof.
  intros Hg Hk. unfold sp_weight. destruct (Reqb_spec (INR q * sp_prob N W Rd k) 0) as [E|_]; [exfalso; apply (Hg k Hk); exact E|].
  unfold val, wk, edge. fold es. rewrite Rmax_right by apply Wnn. reflexivity.
Qed.
Lemma here_pos (f : nat -> nat * nat) v i j : lsum (coo_here i j (map (fun k => (f k, v k)) (seq 0 m))) = \sum_(k < m) (if pair_dec (f k) (i, j) then v k else 0).
Proof.
  rewrite <- lsum_map_seq0. unfold coo_here. induction (seq 0 m) as [|k l IH]; [reflexivity|]. cbn [map filter fst snd].
  destruct (pair_dec (f k) (i, j)) as [E|E].
  - rewrite E. cbn [fst snd]. rewrite !Nat.eqb_refl. cbn [andb map]. change (lsum (?a :: ?b)) with (a + lsum b). rewrite IH. reflexivity.
  - destruct (f k) as [a b]. cbn [fst snd]. replace (Nat.eqb a i && Nat.eqb b j)%bool with false.
    + rewrite IH. change (lsum (0 :: ?b)) with (0 + lsum b). ring.
    + symmetry. apply andb_false_iff. destruct (Nat.eqb_spec a i); [|left; reflexivity]. right. apply Nat.eqb_neq. congruence.
Qed.
Lemma attempt_good q l : good q -> exists G, graph_init (InCOO N N (sp_entries N W Rd q l)) Combinatorial None = Ok G /\ built G /\ g_n_vertices G = N /\
  forall i j, (i < N)%nat -> (j < N)%nat -> wt G i j = at_pos (val q l) i j + at_pos (val q l) j i.
Proof.
  intros Hg.
  set (e := map (fun k => (edge k, val q l k)) (seq 0 m) ++ map (fun k => ((snd (edge k), fst (edge k)), val q l k)) (seq 0 m)).
  destruct (init_coo N e Combinatorial None) as (G & EG & Hb & Hn & _ & _ & _ & Hw).
  - intros t Ht. apply in_app_iff in Ht. destruct Ht as [Ht|Ht]; apply in_map_iff in Ht as (k' & <- & Hk'); apply in_seq in Hk'; cbn [fst snd];
      pose proof (edge_in k' (proj2 Hk')) as Hin; destruct (edge k') as [a b]; apply es_in in Hin; cbn [fst snd]; lia.
  - left. reflexivity.
  - exists G. split.
    + rewrite <- EG. f_equal. f_equal. unfold sp_entries, e. rewrite map_app, !map_map. fold es. fold m. f_equal; apply map_ext_in; intros k Hk; apply in_seq in Hk; cbn [fst snd];
        rewrite weight_fin by (exact Hg || lia); reflexivity.
    + split; [exact Hb|]. split; [exact Hn|]. intros i j Hi Hj. rewrite Hw by assumption. unfold e, coo_here. rewrite filter_app, map_app, lsum_app. f_equal; [apply (here_pos edge)|].
      etransitivity; [apply (here_pos (fun k => (snd (edge k), fst (edge k))))|]. apply rsum_ext. intros k _. destruct (edge k) as [a b]. cbn [fst snd].
      destruct (pair_dec (b, a) (i, j)) as [E1|E1], (pair_dec (a, b) (j, i)) as [E2|E2]; try reflexivity; exfalso; congruence.
Qed.
Lemma good_no_loop q k : good q -> (k < m)%nat -> fst (edge k) <> snd (edge k).
Proof.
  intros Hg Hk E. apply (Hg k Hk). unfold sp_prob, sp_score. fold es. change (nth k es (0%nat, 0%nat)) with (edge k). rewrite E, Rloop, (Rmax_left 0 0) by lra. unfold Rdiv. ring.
Qed.
Lemma good_pos q k : good q -> (k < m)%nat -> 0 < INR q /\ 0 < sp_prob N W Rd k.
Proof.
  intros Hg Hk. specialize (Hg k Hk). pose proof (pos_INR q). pose proof (prob_nonneg k).
  split; apply Rnot_le_lt; intros L; apply Hg; [replace (INR q) with 0 by lra|replace (sp_prob N W Rd k) with 0 by lra]; ring.
Qed.
Lemma val_nonneg q l k : good q -> (k < m)%nat -> 0 <= val q l k.
Proof.
  intros Hg Hk. destruct (good_pos q k Hg Hk). unfold val. apply Rmult_le_pos; [apply pos_INR|]. unfold Rdiv. apply Rmult_le_pos; [apply Wnn|].
  left. apply Rinv_0_lt_compat. apply Rmult_lt_0_compat; assumption.
Qed.
Lemma wk_pos k : (k < m)%nat -> 0 < wk k.
Proof. intros Hk. pose proof (edge_in k Hk) as Hin. unfold wk. destruct (edge k) as [a b]. apply es_in in Hin as (_ & _ & H). cbn [fst snd]. pose proof (Wnn a b). lra. Qed.
Lemma val_zero q l k : good q -> (k < m)%nat -> val q l k <> 0 <-> In k l.
Proof.
  intros Hg Hk. destruct (good_pos q k Hg Hk) as [P1 P2]. pose proof (wk_pos k Hk) as P3. unfold val. rewrite (count_occ_In Nat.eq_dec). split.
  - intros H. destruct (count_occ Nat.eq_dec l k); [exfalso; apply H; cbn; ring|lia].
  - intros H. apply Rmult_integral_contrapositive. split; [apply not_0_INR; lia|]. apply Rgt_not_eq. apply Rdiv_lt_0_compat; [exact P3|]. apply Rmult_lt_0_compat; assumption.
Qed.
(** the two positions of an edge *)
Definition sumv (q : nat) (l : list nat) (i j : nat) : R := at_pos (val q l) i j + at_pos (val q l) j i.
Lemma sumv_nz q l i j : good q -> sumv q l i j <> 0 <-> exists k, (k < m)%nat /\ In k l /\ (edge k = (i, j) \/ edge k = (j, i)).
Proof.
  intros Hg. unfold sumv. split.
  - intros H. destruct (in_dec pair_dec (i, j) es) as [I1|I1].
    + destruct (edge_index i j I1) as (k & Hk & E). destruct (Req_dec (val q l k) 0) as [Z|Z].
      * destruct (in_dec pair_dec (j, i) es) as [I2|I2].
        -- destruct (edge_index j i I2) as (k' & Hk' & E'). exists k'. split; [exact Hk'|]. split; [|right; exact E']. apply (val_zero q l k' Hg Hk').
           rewrite (at_pos_edge _ k i j Hk E), (at_pos_edge _ k' j i Hk' E'), Z in H. intros Z'. apply H. rewrite Z'. ring.
        -- exfalso. apply H. rewrite (at_pos_edge _ k i j Hk E), (at_pos_none _ j i I2), Z. ring.
      * exists k. split; [exact Hk|]. split; [apply (val_zero q l k Hg Hk); exact Z|left; exact E].
    + destruct (in_dec pair_dec (j, i) es) as [I2|I2].
      * destruct (edge_index j i I2) as (k' & Hk' & E'). exists k'. split; [exact Hk'|]. split; [|right; exact E']. apply (val_zero q l k' Hg Hk').
        rewrite (at_pos_none _ i j I1), (at_pos_edge _ k' j i Hk' E') in H. intros Z'. apply H. rewrite Z'. ring.
      * exfalso. apply H. rewrite !at_pos_none by assumption. ring.
  - intros (k & Hk & Hl & E). assert (NN : forall a b, 0 <= at_pos (val q l) a b).
    { intros a b. apply rsum_nonneg. intros k' Hk'. destruct (pair_dec _ _); [apply val_nonneg; assumption|lra]. }
    pose proof (val_nonneg q l k Hg Hk) as V. pose proof (proj2 (val_zero q l k Hg Hk) Hl) as Z. pose proof (NN i j). pose proof (NN j i).
    destruct E as [E|E]; pose proof (at_pos_edge (val q l) k _ _ Hk E) as P; lra.
Qed.
Lemma sumv_loop q l i : good q -> sumv q l i i = 0.
Proof.
  intros Hg. destruct (Req_dec (sumv q l i i) 0) as [|H]; [assumption|]. exfalso. apply (sumv_nz q l i i Hg) in H. destruct H as (k & Hk & _ & E).
  apply (good_no_loop q k Hg Hk). destruct E as [-> | ->]; reflexivity.
Qed.
Lemma sumv_nonneg q l i j : good q -> 0 <= sumv q l i j.
Proof. intros Hg. unfold sumv. apply Rplus_le_le_0_compat; apply rsum_nonneg; intros k Hk; (destruct (pair_dec _ _); [apply val_nonneg; assumption|lra]). Qed.
Lemma sumv_sym q l i j : sumv q l i j = sumv q l j i.
Proof. unfold sumv. ring. Qed.

(** every draw gives the same total of weight times resistance *)
Lemma score_wR q k : good q -> (k < m)%nat -> sp_score W Rd (edge k) = wk k * Rd (fst (edge k)) (snd (edge k)).
Proof.
  intros Hg Hk. destruct (good_pos q k Hg Hk) as [_ P]. unfold sp_prob in P. fold es in P. change (nth k es (0%nat, 0%nat)) with (edge k) in P.
  unfold sp_score in *. fold (wk k) in *. rewrite (Rmax_right 0 (wk k)) in * by apply Wnn. f_equal. apply Rmax_right. apply Rnot_lt_le. intros L.
  rewrite Rmax_left in P by lra. unfold Rdiv in P. lra.
Qed.
Lemma sumv_resistance q l : good q -> sp_total N W Rd <> 0 -> List.length l = q -> (forall k, In k l -> (k < m)%nat) ->
  (0 < m)%nat -> \sum_(i < N) \sum_(j < N) (sumv q l i j * Rd i j) = 2 * sp_total N W Rd.
Proof.
  intros Hg Ht Hl Hk Hm. unfold sumv.
  rewrite (rsum_ext N _ (fun i => \sum_(j < N) (at_pos (val q l) i j * Rd i j) + \sum_(j < N) (at_pos (val q l) j i * Rd j i))).
  2:{ intros i _. rewrite <- rsum_plus. apply rsum_ext. intros j _. rewrite (Rsym j i). ring. }
  rewrite rsum_plus, at_pos_sum. rewrite (rsum_swap N N (fun i j => at_pos (val q l) j i * Rd j i)), at_pos_sum.
  assert (E : \sum_(k < m) (val q l k * Rd (fst (edge k)) (snd (edge k))) = sp_total N W Rd); [|rewrite E; ring].
  destruct (good_pos q 0%nat Hg Hm) as [Pq _].
  rewrite (rsum_ext m _ (fun k => INR (count_occ Nat.eq_dec l k) * (sp_total N W Rd / INR q))).
  - rewrite rsum_scal_r, (count_sum l m Hk), Hl. field. lra.
  - intros k Hkm. unfold val. destruct (good_pos q k Hg Hkm) as [_ P]. pose proof (score_wR q k Hg Hkm) as S. unfold sp_prob in P |- *. fold es in P |- *.
    change (nth k es (0%nat, 0%nat)) with (edge k) in P |- *. rewrite S in P |- *.
    assert (A : wk k * Rd (fst (edge k)) (snd (edge k)) <> 0) by (intros Z; rewrite Z in P; unfold Rdiv in P; lra).
    assert (wk k <> 0) by (intros Z; apply A; rewrite Z; ring). assert (Rd (fst (edge k)) (snd (edge k)) <> 0) by (intros Z; apply A; rewrite Z; ring).
    field. repeat split; try assumption; lra.
Qed.

(** ** The attempts *)
Section Loop.
Variables (draw : nat -> nat -> list nat) (pops : nat -> popper * popper) (eps0 : R).
Hypothesis HN : (1 <= N)%nat.
Hypothesis Hpops : forall t, pop_ok (fst (pops t)) /\ pop_ok (snd (pops t)).
(** epsilon at attempt t *)
Definition eps_at (t : nat) : R := 1 / sqrt (INR N) + (eps0 - 1 / sqrt (INR N)) / 2 ^ t.
Lemma eps_next t : eps_at t - (eps_at t - 1 / sqrt (INR N)) / 2 = eps_at (S t).
Proof. unfold eps_at. cbn [pow]. field. split; [|apply pow_nonzero; lra]. apply Rgt_not_eq. apply sqrt_lt_R0. apply lt_0_INR. lia. Qed.
Definition linked (t : nat) (i j : nat) : Prop :=
  let q := sp_draws N (eps_at t) in exists k, (k < m)%nat /\ In k (draw t q) /\ (edge k = (i, j) \/ edge k = (j, i)).
Definition joined (t : nat) : Prop := forall u v, (u < N)%nat -> (v < N)%nat -> reach (linked t) u v.

Lemma loop_ok rem : forall t M, sp_loop N W Rd draw pops rem t (eps_at t) = Some (Ok M) ->
  exists t', (t <= t' < t + rem)%nat /\ let q := sp_draws N (eps_at t') in good q /\
    (forall i j, (i < N)%nat -> (j < N)%nat -> M i j = sumv q (draw t' q) i j) /\
    (joined t' \/ forall t'', (t <= t'' < t + rem)%nat -> ~ joined t'').
Proof.
  induction rem as [|r IH]; intros t M H; [discriminate|]. cbn [sp_loop] in H. set (q := sp_draws N (eps_at t)) in *.
  destruct (good_dec q) as [Hg|(k & Hk & E)]; [|rewrite (attempt_bad q _ k Hk E) in H; discriminate].
  destruct (attempt_good q (draw t q) Hg) as (G & EG & Hb & Hn & Hw). rewrite EG in H. destruct (Hpops t) as [P1 P2].
  destruct (C05_is_connected_decides_connectivity G _ _ Hb P1 P2 ltac:(lia)) as (b & Eb & Hc). rewrite Eb in H.
  assert (A : forall i j, has_arc G i j <-> (i < N)%nat /\ (j < N)%nat /\ linked t i j).
  { intros i j. unfold has_arc. rewrite Hn. split.
    - intros (Hi & Hj & Hz). split; [exact Hi|]. split; [exact Hj|]. apply (sumv_nz q (draw t q) i j Hg). unfold sumv. rewrite <- Hw by assumption. exact Hz.
    - intros (Hi & Hj & Hl). split; [exact Hi|]. split; [exact Hj|]. rewrite Hw by assumption. apply (sumv_nz q (draw t q) i j Hg). exact Hl. }
  assert (LN : forall i j, linked t i j -> (i < N)%nat /\ (j < N)%nat).
  { intros i j (k & Hk & _ & E). pose proof (edge_in k Hk) as Hin. destruct E as [E|E]; rewrite E in Hin; apply es_in in Hin; lia. }
  assert (J : b = true <-> joined t).
  { rewrite Hc, Hn. split; intros J u v Hu Hv; specialize (J u v Hu Hv); (eapply reach_mono; [|exact J]); intros x y Hxy.
    - apply A in Hxy. tauto.
    - apply A. destruct (LN x y Hxy). tauto. }
  destruct (b || Nat.eqb r 0)%bool eqn:Eq.
  - injection H as <-. exists t. split; [lia|]. cbv zeta. fold q. split; [exact Hg|]. split; [intros i j Hi Hj; apply Hw; assumption|].
    destruct b; [left; apply J; reflexivity|]. cbn [orb] in Eq. apply Nat.eqb_eq in Eq. subst r. right. intros t'' Ht. replace t'' with t by lia. intros Jt. apply J in Jt. discriminate.
  - apply orb_false_iff in Eq as [Eb' Er]. rewrite eps_next in H. destruct (IH (S t) M H) as (t' & Ht' & G' & M' & C'). exists t'. split; [lia|]. split; [exact G'|]. split; [exact M'|].
    destruct C' as [C'|C']; [left; exact C'|right]. intros t'' Ht. destruct (Nat.eq_dec t'' t) as [->|]; [intros Jt; apply J in Jt; congruence|apply C'; lia].
Qed.
Lemma loop_total rem : (1 <= rem)%nat -> forall t, (forall t', (t <= t' < t + rem)%nat -> good (sp_draws N (eps_at t'))) ->
  exists M, sp_loop N W Rd draw pops rem t (eps_at t) = Some (Ok M).
Proof.
  induction rem as [|r IH]; [lia|]. intros _ t Hg. cbn [sp_loop]. set (q := sp_draws N (eps_at t)).
  destruct (attempt_good q (draw t q) (Hg t ltac:(lia))) as (G & EG & Hb & Hn & Hw). rewrite EG. destruct (Hpops t) as [P1 P2].
  destruct (C05_is_connected_decides_connectivity G _ _ Hb P1 P2 ltac:(lia)) as (b & Eb & Hc). rewrite Eb.
  destruct (b || Nat.eqb r 0)%bool eqn:Eq; [eexists; reflexivity|]. apply orb_false_iff in Eq as [_ Er]. apply Nat.eqb_neq in Er. rewrite eps_next. apply IH; [lia|]. intros t' Ht. apply Hg. lia.
Qed.
Lemma loop_bad rem t k : (1 <= rem)%nat -> (k < m)%nat -> INR (sp_draws N (eps_at t)) * sp_prob N W Rd k = 0 ->
  sp_loop N W Rd draw pops rem t (eps_at t) = Some (Raise ValueError).
Proof. intros Hr Hk E. destruct rem as [|r]; [lia|]. cbn [sp_loop]. rewrite (attempt_bad _ _ k Hk E). reflexivity. Qed.
End Loop.
End Core.

(** ** The number of draws *)
Lemma eps_range N eps0 t : 1 / sqrt (INR N) <= eps0 -> 1 / sqrt (INR N) <= eps_at N eps0 t <= eps0.
Proof.
  intros H. unfold eps_at. assert (P : 1 <= 2 ^ t) by (apply pow_R1_Rle; lra). assert (Q : / 2 ^ t <= 1) by (rewrite <- Rinv_1; apply Rinv_le_contravar; lra).
  assert (Q0 : 0 < / 2 ^ t) by (apply Rinv_0_lt_compat; lra). unfold Rdiv. split; nra.
Qed.
Lemma exp_nat n x : exp (INR n * x) = exp x ^ n.
Proof. induction n as [|n IH]; [cbn; rewrite Rmult_0_l; apply exp_0|]. rewrite S_INR, Rmult_plus_distr_r, Rmult_1_l, exp_plus, IH. cbn. ring. Qed.
Lemma ln3 : 1.042 < ln 3.
Proof.
  rewrite <- (ln_exp 1.042). apply ln_increasing; [apply exp_pos|].
  assert (E : exp 1.042 = / (exp (- (1.042 / 16)) ^ 16)).
  { rewrite <- exp_nat, <- exp_Ropp. f_equal. cbn [INR]. lra. }
  rewrite E. pose proof (exp_ineq1_le (- (1.042 / 16))) as H. assert (P : 0.934875 ^ 16 <= exp (- (1.042 / 16)) ^ 16) by (apply pow_incr; lra).
  assert (Q : 1 / 3 < 0.934875 ^ 16) by (cbn; lra). apply Rle_lt_trans with (/ 0.934875 ^ 16); [apply Rinv_le_contravar; lra|].
  replace 3 with (/ (1 / 3)) by lra. apply Rinv_lt_contravar; [|exact Q]. apply Rmult_lt_0_compat; lra.
Qed.
Lemma ln2 : ln 2 < 0.78.
Proof.
  rewrite <- (ln_exp 0.78). apply ln_increasing; [lra|]. replace 0.78 with (INR 4 * 0.195) by (cbn [INR]; lra). rewrite exp_nat.
  pose proof (exp_ineq1_le 0.195) as H. apply Rlt_le_trans with (1.195 ^ 4); [cbn; lra|]. apply pow_incr. lra.
Qed.
Lemma draws_pos N eps : (3 <= N)%nat -> 0 < eps < 1 -> (1 <= sp_draws N eps)%nat.
Proof.
  intros HN He. unfold sp_draws. set (x := _ / eps ^ 2). assert (N3 : 3 <= INR N) by (replace 3 with (INR 3) by (cbn; lra); apply le_INR; exact HN).
  assert (L : ln 3 <= ln (INR N)). { destruct (Req_dec 3 (INR N)) as [<-|]; [lra|]. left. apply ln_increasing; lra. }
  pose proof ln3 as L3. assert (X : 1 / 2 < x).
  { unfold x. apply (Rmult_lt_reg_r (eps ^ 2)); [apply pow_lt; lra|]. unfold Rdiv at 2. rewrite Rmult_assoc, Rinv_l, Rmult_1_r by (apply pow_nonzero; lra).
    assert (E2 : eps ^ 2 < 1) by nra. assert (3 * 1.042 <= INR N * ln (INR N)) by (apply Rmult_le_compat; lra). lra. }
  pose proof (py_round_spec x ltac:(lra)) as [R1 _]. destruct (py_round x); [cbn in R1; lra|lia].
Qed.
Lemma draws_two eps : 1 / sqrt 2 <= eps -> sp_draws 2 eps = 0%nat.
Proof.
  intros He. unfold sp_draws. set (x := _ / eps ^ 2). assert (S2 : 0 < sqrt 2) by (apply sqrt_lt_R0; lra).
  assert (P : 0 < 1 / sqrt 2) by (apply Rdiv_lt_0_compat; lra). assert (E2 : 1 / 2 <= eps ^ 2).
  { replace (1 / 2) with ((1 / sqrt 2) ^ 2); [apply pow_incr; lra|]. replace ((1 / sqrt 2) ^ 2) with (1 / (sqrt 2 * sqrt 2)) by (field; lra). rewrite sqrt_sqrt by lra. reflexivity. }
  pose proof ln2 as L2. assert (L0 : 0 < ln 2) by (rewrite <- ln_1; apply ln_increasing; lra). assert (X : 0 <= x < 1 / 2).
  { unfold x. change (INR 2) with (1 + 1). replace (1 + 1) with 2 by lra. split.
    - apply Rmult_le_pos; [|left; apply Rinv_0_lt_compat; lra]. lra.
    - apply (Rmult_lt_reg_r (eps ^ 2)); [lra|]. unfold Rdiv at 1. rewrite Rmult_assoc, Rinv_l, Rmult_1_r by lra. lra. }
  pose proof (py_round_spec x ltac:(lra)) as [_ R1]. destruct (py_round x) as [|n]; [reflexivity|]. rewrite S_INR in R1. pose proof (pos_INR n). lra.
Qed.

(** ** Graphs *)
Lemma rd_loop o i : resistance_distance_L o i i = 0.
Proof. destruct o; cbn; unfold resistance_of; ring. Qed.
Lemma rd_sym o i j : resistance_distance_L o i j = resistance_distance_L o j i.
Proof. destruct o; cbn; unfold resistance_of; ring. Qed.
Lemma small_pos : 0 < small.
Proof. unfold small. apply Rinv_0_lt_compat. apply pow_lt. lra. Qed.
Lemma drop_nonneg W i j : 0 <= drop_small W i j.
Proof. unfold drop_small. pose proof small_pos. destruct (Rltb_spec (W i j) small); lra. Qed.
Lemma drop_nz W i j : drop_small W i j <> 0 <-> small <= W i j.
Proof. unfold drop_small. pose proof small_pos. destruct (Rltb_spec (W i j) small); split; intros; lra. Qed.

(** The entries of the lower triangle that are large enough, in the order of the code: the edges among which is drawn. *)
Definition kept_edges (G : graph) : list (nat * nat) := sp_edges (g_n_vertices G) (drop_small (fun i j => get (gW G) i j)).
(** What [rv_discrete.rvs(size=q)] promises: q indices of edges. *)
Definition draws_ok (G : graph) (draw : nat -> nat -> list nat) : Prop :=
  forall t q, List.length (draw t q) = q /\ forall k, In k (draw t q) -> (k < List.length (kept_edges G))%nat.
Definition pops_ok (pops : nat -> popper * popper) : Prop := forall t, pop_ok (fst (pops t)) /\ pop_ok (snd (pops t)).

Lemma range_ok N eps : sp_range N eps = true <-> (1 <= N)%nat /\ 1 / sqrt (INR N) <= eps /\ eps < 1.
Proof.
  unfold sp_range. rewrite !andb_true_iff, negb_true_iff, Nat.eqb_neq. destruct (Rleb_spec (1 / sqrt (INR N)) eps), (Rltb_spec eps 1); split; intros H; try (destruct H as [[H1 H2] H3]; try discriminate);
    repeat split; try tauto; try lia; try lra; exfalso; lra.
Qed.
Lemma range_two N eps : sp_range N eps = true -> (2 <= N)%nat.
Proof.
  intros H. apply range_ok in H as (H1 & H2 & H3). destruct (Nat.eq_dec N 1) as [E|]; [|lia]. exfalso. rewrite E in H2. cbn in H2. rewrite sqrt_1 in H2. lra.
Qed.

Section OnGraph.
Variables (G : graph) (o : inv_out) (eps : R) (maxiter : nat) (draw : nat -> nat -> list nat) (pops : nat -> popper * popper).
Hypothesis Hb : built G.
Hypothesis Hpops : pops_ok pops.
Let N := g_n_vertices G.
Let W := drop_small (fun i j => get (gW G) i j).
Let Rd := resistance_distance_L o.

Lemma final_id (M : mat) dir i j : (forall i, (i < N)%nat -> M i i = 0) -> (forall i j, (i < N)%nat -> (j < N)%nat -> M i j = M j i) ->
  (i < N)%nat -> (j < N)%nat -> sp_final dir (sp_lap M) i j = M i j.
Proof.
  intros H0 Hs Hi Hj. unfold sp_final, sp_lap.
  assert (F : forall a b, (a < N)%nat -> (b < N)%nat -> (if Nat.eqb a b then (if Nat.eqb a a then M a a else 0) - M a a else 0) - ((if Nat.eqb a b then M a a else 0) - M a b) = M a b).
  { intros a b Ha Hb'. rewrite Nat.eqb_refl. rewrite (H0 a Ha). destruct (Nat.eqb a b); ring. }
  destruct dir; [apply F; assumption|]. rewrite !F by assumption. rewrite (Hs j i) by assumption. lra.
Qed.
Lemma sparsify_inv G' : sparsify_graph G o eps maxiter draw pops = Some (Ok G') ->
  g_lap_type G = Combinatorial /\ (1 <= N)%nat /\ 1 / sqrt (INR N) <= eps < 1 /\ sp_total N W Rd <> 0 /\
  built G' /\ g_n_vertices G' = N /\ g_lap_type G' = Combinatorial /\ g_coords G' = None /\
  exists t, (t < maxiter)%nat /\ let q := sp_draws N (eps_at N eps t) in good N W Rd q /\
    (forall i j, (i < N)%nat -> (j < N)%nat -> wt G' i j = sumv N W Rd q (draw t q) i j) /\
    (joined N W draw eps t \/ forall t', (t' < maxiter)%nat -> ~ joined N W draw eps t').
Proof.
  unfold sparsify_graph. destruct (g_lap_type G); try discriminate. fold N. fold W. fold Rd. destruct (sp_range N eps) eqn:ER; cbn [negb]; [|discriminate].
  pose proof (proj1 (range_ok N eps) ER) as (HN & He). unfold sp_run. destruct (Reqb_spec (sp_total N W Rd) 0) as [|HT]; [discriminate|].
  destruct (sp_loop N W Rd draw pops maxiter 0 eps) as [[M|e]|] eqn:EL; try discriminate. intros H. injection H as H.
  assert (E0 : eps = eps_at N eps 0). { unfold eps_at. cbn [pow]. field. apply Rgt_not_eq. apply sqrt_lt_R0. apply lt_0_INR. lia. }
  rewrite E0 in EL at 1. destruct (loop_ok N W Rd (drop_nonneg _) draw pops eps HN Hpops maxiter 0 M EL) as (t & Ht & Hg & HM & HC).
  split; [reflexivity|]. split; [exact HN|]. split; [exact He|]. split; [exact HT|].
  set (A := sp_final (is_directed (gW G)) (sp_lap M)) in H. destruct (finite_entry_built N (dense N A) Combinatorial None (dense_len _ _) (or_introl eq_refl)) as (G2 & E2 & Hb2 & Hn2 & Ht2 & Hc2 & Hw2).
  rewrite E2 in H. injection H as <-. repeat (split; [assumption|]). exists t. split; [lia|]. cbv zeta in Hg, HM, HC |- *. split; [exact Hg|]. split.
  - intros i j Hi Hj. rewrite Hw2, dense_nth by assumption. unfold A. rewrite final_id; try assumption; [apply HM; assumption| |].
    + intros a Ha. rewrite HM by assumption. apply sumv_loop; [apply drop_nonneg|apply rd_loop|exact Hg].
    + intros a b Ha Hb'. rewrite !HM by assumption. apply sumv_sym.
  - destruct HC as [HC|HC]; [left; exact HC|right]. intros t' Ht'. apply HC. lia.
Qed.
End OnGraph.

(** The sparsified graph is an undirected graph without loops and with non-negative weights on the same vertices, and each
    of its edges is an edge of the given graph, of weight at least 1e-10. *)
Theorem C69_subgraph :
  forall G o eps maxiter draw pops G', built G -> pops_ok pops -> sparsify_graph G o eps maxiter draw pops = Some (Ok G') ->
    built G' /\ g_n_vertices G' = g_n_vertices G /\ undirected G' /\ nonneg_weights G' /\ loop_free G' /\
    forall i j, (j < i < g_n_vertices G)%nat -> wt G' i j <> 0 -> / 10 ^ 10 <= wt G i j.
Proof.
  intros G o eps maxiter draw pops G' Hb Hp H. destruct (sparsify_inv G o eps maxiter draw pops Hp G' H) as (_ & HN & _ & _ & Hb' & Hn & _ & _ & t & _ & Hg & Hw & _).
  cbv zeta in Hg, Hw. set (q := sp_draws _ _) in *. split; [exact Hb'|]. split; [exact Hn|]. split; [|split; [|split]].
  - intros i j Hi Hj. rewrite Hn in Hi, Hj. rewrite !Hw by assumption. apply sumv_sym.
  - intros i j Hi Hj. rewrite Hn in Hi, Hj. rewrite Hw by assumption. apply sumv_nonneg; [apply drop_nonneg|exact Hg].
  - intros i Hi. rewrite Hn in Hi. rewrite Hw by assumption. apply sumv_loop; [apply drop_nonneg|apply rd_loop|exact Hg].
  - intros i j Hij Hz. rewrite Hw in Hz by lia. apply sumv_nz in Hz; [|apply drop_nonneg|exact Hg]. destruct Hz as (k & Hk & _ & E).
    pose proof (edge_in (g_n_vertices G) _ k Hk) as Hin. cbv beta in Hin. change (small <= wt G i j).
    destruct E as [E|E]; rewrite E in Hin; apply es_in in Hin as (H1 & H2 & H3); [|lia]. apply (drop_nz (fun i j => get (gW G) i j)). exact H3.
Qed.

(** Unless all the allowed attempts failed, the result is connected: it is disconnected only if the edges drawn by each
    attempt leave the graph disconnected. *)
Theorem C69_connected_or_all_failed :
  forall G o eps maxiter draw pops G', built G -> pops_ok pops -> sparsify_graph G o eps maxiter draw pops = Some (Ok G') ->
    connected G' \/
    forall t, (t < maxiter)%nat ->
      let eps_t := 1 / sqrt (INR (g_n_vertices G)) + (eps - 1 / sqrt (INR (g_n_vertices G))) / 2 ^ t in
      let drawn i j := exists k, In k (draw t (sp_draws (g_n_vertices G) eps_t)) /\ nth_error (kept_edges G) k = Some (i, j) in
      ~ forall u v, (u < g_n_vertices G)%nat -> (v < g_n_vertices G)%nat -> reach (fun i j => drawn i j \/ drawn j i) u v.
Proof.
  intros G o eps maxiter draw pops G' Hb Hp H. destruct (sparsify_inv G o eps maxiter draw pops Hp G' H) as (_ & HN & _ & _ & Hb' & Hn & _ & _ & t & _ & Hg & Hw & HC).
  cbv zeta in Hg, Hw, HC |- *. destruct HC as [HC|HC].
  - left. intros u v Hu Hv. rewrite Hn in Hu, Hv. specialize (HC u v Hu Hv). eapply reach_mono; [|exact HC]. intros a b (k & Hk & Hl & E).
    pose proof (edge_in (g_n_vertices G) _ k Hk) as Hin. cbv beta in Hin. assert (Hab : (a < g_n_vertices G)%nat /\ (b < g_n_vertices G)%nat).
    { destruct E as [E|E]; rewrite E in Hin; apply es_in in Hin; lia. }
    split; [rewrite Hn; tauto|]. split; [rewrite Hn; tauto|]. rewrite Hw by tauto. apply sumv_nz; [apply drop_nonneg|exact Hg|]. exists k. tauto.
  - right. intros t' Ht' J. apply (HC t' Ht'). intros u v Hu Hv. eapply reach_mono; [|apply J; assumption]. intros a b Hab. unfold linked.
    destruct Hab as [(k & Hk & E)|(k & Hk & E)]; exists k; (split; [apply nth_error_Some; unfold kept_edges in E; rewrite E; discriminate|]; split; [exact Hk|]);
      apply nth_error_nth with (d := (0%nat, 0%nat)) in E; unfold kept_edges in E; tauto.
Qed.

(** ** Weights times resistances *)
Lemma total_double N W Rd : (forall i j, 0 <= W i j) -> (forall i j, (i < N)%nat -> (j < N)%nat -> W i j = W j i) -> (forall i, Rd i i = 0) -> (forall i j, Rd i j = Rd j i) ->
  (forall i j, (i < N)%nat -> (j < N)%nat -> W i j <> 0 -> 0 <= Rd i j) ->
  \sum_(i < N) \sum_(j < N) (W i j * Rd i j) = 2 * sp_total N W Rd.
Proof.
  intros Wnn Wsym Rl Rs Rp.
  pose (v := fun k => wk N W k).
  assert (V : forall i j, (i < N)%nat -> (j < N)%nat -> i <> j -> at_pos N W v i j + at_pos N W v j i = W i j).
  { assert (K : forall i j, (i < N)%nat -> (j < i)%nat -> at_pos N W v i j + at_pos N W v j i = W i j).
    { intros i j Hi Hj. rewrite (at_pos_none N W v j i) by (intros H; apply es_in in H; lia). destruct (Req_dec (W i j) 0) as [Z|Z].
      - rewrite at_pos_none, Z; [ring|]. intros H. apply es_in in H. tauto.
      - destruct (edge_index N W i j) as (k & Hk & E); [apply es_in; repeat split; [exact Hi|lia|exact Z]|]. rewrite (at_pos_edge N W v k i j Hk E). unfold v, wk. cbv beta in E. rewrite E. cbn [fst snd]. ring. }
    intros i j Hi Hj Ne. destruct (Nat.lt_ge_cases j i) as [L|L]; [apply K; assumption|]. rewrite Rplus_comm, K, (Wsym i j) by (assumption || lia). reflexivity. }
  rewrite (rsum_ext N _ (fun i => \sum_(j < N) (at_pos N W v i j * Rd i j) + \sum_(j < N) (at_pos N W v j i * Rd j i))).
  2:{ intros i Hi. rewrite <- rsum_plus. apply rsum_ext. intros j Hj. rewrite (Rs j i). destruct (Nat.eq_dec i j) as [->|Ne]; [rewrite !Rl; ring|]. rewrite <- (V i j) by assumption. ring. }
  rewrite rsum_plus, at_pos_sum, (rsum_swap N N (fun i j => at_pos N W v j i * Rd j i)), at_pos_sum.
  rewrite total_rsum. rewrite <- (Rmult_1_l (rsum _ _)) at 1. rewrite <- (Rmult_1_l (rsum _ _)) at 2. rewrite <- Rmult_plus_distr_r. f_equal. apply rsum_ext. intros k Hk.
  unfold v, wk, sp_score. pose proof (edge_in N W k Hk) as Hin. cbv beta in Hin. set (e := nth k (sp_edges N W) (0%nat, 0%nat)) in *. destruct e as [a b]. apply es_in in Hin as (Ha & Hb & Hz). cbn [fst snd].
  rewrite !Rmax_right; [reflexivity| |apply Wnn]. apply Rp; [exact Ha|lia|exact Hz].
Qed.

(** Foster's theorem: on a connected graph the weights times the resistances of the edges sum to N - 1. *)
Theorem C34_foster :
  forall G o R', built G -> nonneg_weights G -> undirected G -> g_lap_type G = Combinatorial -> connected G -> (1 <= g_n_vertices G)%nat ->
    let n := g_n_vertices G in inv_contract n (gL G) o -> resistance_distance G o = Ok R' ->
    (\sum_(i < n) \sum_(j < n) (wt G i j * R' i j)) / 2 = INR n - 1.
Proof.
  intros G o R' Hb Hp Hu Ht HC Hn n Ho HR. pose proof (graph_is_laplacian G Hb Hp Ht) as HL. pose proof (connected_lap G Hb Hp Ht HC) as HCL.
  fold n in HL, HCL, Hn. unfold resistance_distance in HR. rewrite Ht in HR. injection HR as <-. destruct (C09_combinatorial_structure G Hb Ht) as (_ & _ & H3 & _). fold n in H3.
  destruct o as [P|P]; cbn [inv_contract resistance_distance_L] in *; [exfalso; apply (lap_not_invertible n (gL G) P HL); [lia|exact Ho]|].
  destruct HL as (Ls & Lr & Lo).
  assert (E : \sum_(i < n) \sum_(j < n) (wt G i j * resistance_of P i j) = 2 * \sum_(i < n) mulm n (gL G) P i i).
  { set (r := fun i => \sum_(j < n) (- gL G i j) * P i i). set (c := fun i => \sum_(j < n) ((- gL G i j) * P j j)).
    rewrite (rsum_ext n _ (fun i => (\sum_(j < n) (gL G i j * P i j) + \sum_(j < n) (gL G i j * P j i)) + ((\sum_(j < n) (- gL G i j)) * P i i + \sum_(j < n) (- gL G i j * P j j)))).
    2:{ intros i Hi. rewrite <- rsum_scal_r, <- !rsum_plus. apply rsum_ext. intros j Hj. destruct (Nat.eq_dec i j) as [->|Ne]; [unfold resistance_of; ring|].
        rewrite (H3 i j Hi Hj Ne), (Hu j i Hj Hi). unfold resistance_of. field. }
    rewrite !rsum_plus.
    assert (Z1 : \sum_(i < n) ((\sum_(j < n) (- gL G i j)) * P i i) = 0).
    { apply rsum_0. intros i Hi. replace (\sum_(j < n) (- gL G i j)) with (- 1 * \sum_(j < n) gL G i j); [rewrite Lr by exact Hi; ring|]. rewrite <- rsum_scal_l. apply rsum_ext. intros; ring. }
    assert (Z2 : \sum_(i < n) \sum_(j < n) (- gL G i j * P j j) = 0).
    { rewrite rsum_swap. apply rsum_0. intros j Hj. rewrite rsum_scal_r. replace (\sum_(i < n) (- gL G i j)) with (- 1 * \sum_(i < n) gL G j i); [rewrite Lr by exact Hj; ring|].
      rewrite <- rsum_scal_l. apply rsum_ext. intros i Hi. rewrite (Ls i j Hi Hj). unfold tr. ring. }
    rewrite Z1, Z2. replace (\sum_(i < n) \sum_(j < n) (gL G i j * P i j)) with (\sum_(i < n) mulm n (gL G) P i i).
    - unfold mulm. ring.
    - rewrite rsum_swap. apply rsum_ext. intros i Hi. unfold mulm. apply rsum_ext. intros j Hj. rewrite (Ls i j Hi Hj). unfold tr. reflexivity. }
  rewrite E. rewrite (rsum_ext n _ (fun i => 1 - / INR n)).
  - rewrite rsum_const. field. apply not_0_INR. lia.
  - intros i Hi. rewrite (LP_entry n (gL G) P (conj Ls (conj Lr Lo)) HCL Ho) by assumption. unfold idm. rewrite Nat.eqb_refl. reflexivity.
Qed.

(** Whatever is drawn, the weights times the resistances (in the given graph) of the edges keep the same sum. *)
Theorem C69_total_resistance :
  forall G o eps maxiter draw pops G', built G -> nonneg_weights G -> undirected G -> connected G -> pops_ok pops -> draws_ok G draw ->
    let n := g_n_vertices G in inv_contract n (gL G) o ->
    (forall i j, (i < n)%nat -> (j < n)%nat -> wt G i j <> 0 -> / 10 ^ 10 <= wt G i j) ->
    sparsify_graph G o eps maxiter draw pops = Some (Ok G') ->
    (\sum_(i < n) \sum_(j < n) (wt G' i j * resistance_distance_L o i j)) / 2 = (\sum_(i < n) \sum_(j < n) (wt G i j * resistance_distance_L o i j)) / 2 /\
    (\sum_(i < n) \sum_(j < n) (wt G' i j * resistance_distance_L o i j)) / 2 = INR n - 1.
Proof.
  intros G o eps maxiter draw pops G' Hb Hp Hu HC Hpo Hd n Ho Hs H.
  destruct (sparsify_inv G o eps maxiter draw pops Hpo G' H) as (Ht & HN & _ & HT & Hb' & Hn & _ & _ & t & _ & Hg & Hw & _). cbv zeta in Hg, Hw. fold n in HN, HT, Hg, Hw.
  set (q := sp_draws _ _) in *. set (W := drop_small (fun i j => get (gW G) i j)) in *. set (Rd := resistance_distance_L o) in *.
  assert (EW : forall i j, (i < n)%nat -> (j < n)%nat -> W i j = wt G i j).
  { intros i j Hi Hj. unfold W, drop_small. change (get (gW G) i j) with (wt G i j). destruct (Rltb_spec (wt G i j) small) as [L|L]; [|reflexivity].
    destruct (Req_dec (wt G i j) 0) as [->|Z]; [reflexivity|]. specialize (Hs i j Hi Hj Z). unfold small in L. lra. }
  assert (HR : resistance_distance G o = Ok Rd) by (unfold resistance_distance; rewrite Ht; reflexivity).
  pose proof (C34_foster G o Rd Hb Hp Hu Ht HC HN Ho HR) as F. fold n in F. destruct (C34_metric G o Rd Hb Hp Ht HC Ho HR) as (_ & _ & Rp & _). fold n in Rp.
  assert (E2 : \sum_(i < n) \sum_(j < n) (wt G i j * Rd i j) = 2 * sp_total n W Rd).
  { rewrite <- total_double.
    - apply rsum_ext. intros i Hi. apply rsum_ext. intros j Hj. rewrite EW by assumption. reflexivity.
    - apply drop_nonneg.
    - intros i j Hi Hj. rewrite !EW by assumption. apply Hu; assumption.
    - apply rd_loop.
    - apply rd_sym.
    - intros i j Hi Hj _. apply Rp; assumption. }
  assert (E1 : \sum_(i < n) \sum_(j < n) (wt G' i j * Rd i j) = 2 * sp_total n W Rd).
  { rewrite <- (sumv_resistance n W Rd (drop_nonneg _) (rd_sym o) q (draw t q)).
    - apply rsum_ext. intros i Hi. apply rsum_ext. intros j Hj. rewrite Hw by assumption. reflexivity.
    - exact Hg.
    - exact HT.
    - apply Hd.
    - apply Hd.
    - destruct (sp_edges n W) eqn:Ee; [|cbn; lia]. exfalso. apply HT. unfold sp_total. rewrite Ee. reflexivity. }
  split; [rewrite E1, E2; reflexivity|]. rewrite <- F, E1, E2. reflexivity.
Qed.

(** The result has at most as many edges as draws: 0.16 N log N / epsilon^2, epsilon being halfway closer to 1/sqrt(N) at each attempt. *)
Theorem C69_edge_count :
  forall G o eps maxiter draw pops G', built G -> pops_ok pops -> draws_ok G draw -> sparsify_graph G o eps maxiter draw pops = Some (Ok G') ->
    let n := INR (g_n_vertices G) in
    exists t, (t < maxiter)%nat /\ INR (g_n_edges G') <= 0.16 * n * ln n / (1 / sqrt n + (eps - 1 / sqrt n) / 2 ^ t) ^ 2 + 1 / 2.
Proof.
  intros G o eps maxiter draw pops G' Hb Hpo Hd H n. destruct (C69_subgraph G o eps maxiter draw pops G' Hb Hpo H) as (_ & _ & Hu' & _ & Hl' & _).
  destruct (sparsify_inv G o eps maxiter draw pops Hpo G' H) as (Ht & HN & He & HT & Hb' & Hn & _ & _ & t & Htm & Hg & Hw & _). cbv zeta in Hg, Hw. fold n in He.
  set (q := sp_draws _ _) in *. exists t. split; [exact Htm|]. set (et := 1 / sqrt n + (eps - 1 / sqrt n) / 2 ^ t).
  assert (Hq : (g_n_edges G' <= q)%nat).
  { destruct (C02_n_edges_undirected G' Hb' Hu') as (l & Hnd & Hin & <-). rewrite <- (proj1 (Hd t q)).
    apply Nat.le_trans with (List.length (map (fun k => let e := nth k (kept_edges G) (0%nat, 0%nat) in (snd e, fst e)) (draw t q))); [|rewrite map_length; lia].
    apply NoDup_incl_length; [exact Hnd|]. intros [a b] Hab. apply Hin in Hab. cbn [fst snd] in Hab. rewrite Hn in Hab. destruct Hab as (H1 & H2 & H3).
    rewrite Hw in H3 by lia. apply sumv_nz in H3; [|apply drop_nonneg|exact Hg]. destruct H3 as (k & Hk & Hkl & E). apply in_map_iff. exists k. split; [|exact Hkl].
    pose proof (edge_in (g_n_vertices G) _ k Hk) as Hin2. cbv beta in Hin2, E |- *. unfold kept_edges. destruct E as [E|E]; rewrite E in *; cbn [fst snd]; [|reflexivity].
    apply es_in in Hin2. replace b with a by lia. reflexivity. }
  apply le_INR in Hq. eapply Rle_trans; [exact Hq|]. unfold q, sp_draws, eps_at. fold n. fold et.
  assert (Ep : 0 < et). { destruct (eps_range (g_n_vertices G) eps t (proj1 He)) as [R1 _]. unfold eps_at in R1. fold n in R1. fold et in R1. eapply Rlt_le_trans; [|exact R1]. apply Rdiv_lt_0_compat; [lra|]. apply sqrt_lt_R0. apply lt_0_INR. lia. }
  assert (N1 : 1 <= n) by (change 1 with (INR 1); apply le_INR; exact HN). assert (L0 : 0 <= ln n). { rewrite <- ln_1. destruct (Req_dec 1 n) as [<-|]; [lra|]. left. apply ln_increasing; lra. }
  assert (NL : 0 <= n * ln n) by (apply Rmult_le_pos; lra).
  assert (P2 : 0 < et ^ 2) by (apply pow_lt; exact Ep).
  eapply Rle_trans; [apply py_round_spec|].
  - apply Rmult_le_pos; [nra|]. left. apply Rinv_0_lt_compat. exact P2.
  - apply Rplus_le_compat_r. right. unfold Rdiv. f_equal. lra.
Qed.

(** ** When it succeeds *)
(** On a connected undirected graph with at least three vertices, no loops and weights of at least 1e-10, a correct epsilon and at
    least one attempt, a graph is returned, whatever is drawn. *)
Theorem C69_succeeds :
  forall G o eps maxiter draw pops, built G -> nonneg_weights G -> undirected G -> loop_free G -> connected G -> g_lap_type G = Combinatorial ->
    pops_ok pops -> (3 <= g_n_vertices G)%nat -> inv_contract (g_n_vertices G) (gL G) o ->
    (forall i j, (i < g_n_vertices G)%nat -> (j < g_n_vertices G)%nat -> wt G i j <> 0 -> / 10 ^ 10 <= wt G i j) ->
    1 / sqrt (INR (g_n_vertices G)) <= eps < 1 -> (1 <= maxiter)%nat ->
    exists G', sparsify_graph G o eps maxiter draw pops = Some (Ok G').
Proof.
  intros G o eps maxiter draw pops Hb Hp Hu Hl HC Ht Hpo HN Ho Hs He Hm. set (n := g_n_vertices G) in *.
  unfold sparsify_graph. rewrite Ht. fold n. set (W := drop_small _). set (Rd := resistance_distance_L o).
  rewrite (proj2 (range_ok n eps)) by (split; [lia|exact He]). cbn [negb].
  assert (HR : resistance_distance G o = Ok Rd) by (unfold resistance_distance; rewrite Ht; reflexivity).
  destruct (C34_metric G o Rd Hb Hp Ht HC Ho HR) as (_ & _ & Rp & R0 & _). fold n in Rp, R0.
  assert (Wp : forall i j, (i < n)%nat -> (j < n)%nat -> W i j <> 0 <-> wt G i j <> 0).
  { intros i j Hi Hj. unfold W. rewrite drop_nz. change (get (gW G) i j) with (wt G i j). split; [pose proof small_pos; lra|]. intros Z. apply Hs; assumption. }
  assert (SP : forall k, (k < List.length (sp_edges n W))%nat -> 0 < sp_score W Rd (nth k (sp_edges n W) (0%nat, 0%nat))).
  { intros k Hk. pose proof (edge_in n W k Hk) as Hin. cbv beta in Hin. destruct (nth k (sp_edges n W) (0%nat, 0%nat)) as [a b]. apply es_in in Hin as (Ha & Hab & Hz).
    unfold sp_score. cbn [fst snd]. pose proof (drop_nonneg (fun i j => get (gW G) i j) a b) as Wn. fold W in Wn.
    assert (Ne : a <> b). { intros ->. apply (Wp b b Ha Ha) in Hz. apply Hz. apply Hl. exact Ha. }
    assert (Rab : 0 < Rd a b). { pose proof (Rp a b Ha ltac:(lia)) as P. destruct (Req_dec (Rd a b) 0) as [Z|]; [|lra]. exfalso. apply Ne. apply R0; [exact Ha|lia|exact Z]. }
    rewrite !Rmax_right by lra. apply Rmult_lt_0_compat; lra. }
  assert (HE : (0 < List.length (sp_edges n W))%nat).
  { destruct (sp_edges n W) as [|e l] eqn:Ee; [|cbn; lia]. exfalso.
    assert (R01 : reach (has_arc G) 0%nat 1%nat) by (apply HC; fold n; lia).
    inversion R01 as [|u v w _ (Hv & Hw1 & Hz)]; subst. fold n in Hv, Hw1. pose proof (proj2 (Wp v 1%nat Hv Hw1) Hz) as Z1.
    pose proof Hz as Hz'. rewrite (Hu v 1%nat Hv Hw1) in Hz'. pose proof (proj2 (Wp 1%nat v Hw1 Hv) Hz') as Z2.
    destruct (Nat.le_ge_cases v 1) as [L|L]; [assert (X : In (1%nat, v) (sp_edges n W)) by (apply es_in; tauto)|assert (X : In (v, 1%nat) (sp_edges n W)) by (apply es_in; tauto)]; rewrite Ee in X; destruct X. }
  assert (TP : 0 < sp_total n W Rd).
  { rewrite total_rsum. apply rsum_pos with (k := 0%nat).
    - intros k Hk. left. apply SP. exact Hk.
    - exact HE.
    - apply SP. exact HE. }
  unfold sp_run. destruct (Reqb_spec (sp_total n W Rd) 0) as [|_]; [lra|].
  assert (E0 : eps = eps_at n eps 0). { unfold eps_at. cbn [pow]. field. apply Rgt_not_eq. apply sqrt_lt_R0. apply lt_0_INR. lia. }
  destruct (loop_total n W Rd (drop_nonneg _) draw pops eps ltac:(lia) Hpo maxiter Hm 0%nat) as (M & EM).
  - intros t' _ k Hk. destruct (eps_range n eps t' (proj1 He)) as [Q1 Q2].
    assert (Q0 : 0 < 1 / sqrt (INR n)) by (apply Rdiv_lt_0_compat; [lra|]; apply sqrt_lt_R0; apply lt_0_INR; lia).
    pose proof (draws_pos n (eps_at n eps t') HN ltac:(lra)) as Q. apply Rmult_integral_contrapositive. split; [apply not_0_INR; lia|].
    unfold sp_prob. apply Rgt_not_eq. apply Rdiv_lt_0_compat; [apply SP; exact Hk|exact TP].
  - rewrite <- E0 in EM. rewrite EM.
    destruct (finite_entry_built n (dense n (sp_final (is_directed (gW G)) (sp_lap M))) Combinatorial None (dense_len _ _) (or_introl eq_refl)) as (G' & E' & _). exists G'. rewrite E'. reflexivity.
Qed.

(** ** What is rejected *)
Theorem C69_rejects :
  forall G o eps maxiter draw pops, 
    (g_lap_type G <> Combinatorial -> sparsify_graph G o eps maxiter draw pops = Some (Raise NotImplementedError)) /\
    (g_lap_type G = Combinatorial -> eps < 1 / sqrt (INR (g_n_vertices G)) \/ 1 <= eps -> sparsify_graph G o eps maxiter draw pops = Some (Raise ValueError)).
Proof.
  intros G o eps maxiter draw pops. unfold sparsify_graph. split.
  - intros H. destruct (g_lap_type G); [contradiction|reflexivity|reflexivity].
  - intros -> H. destruct (sp_range (g_n_vertices G) eps) eqn:E; [|reflexivity]. apply (range_ok (g_n_vertices G) eps) in E. lra.
Qed.

(** Findings: a graph with two vertices, a graph with a loop, and a graph without edges are all rejected with ValueError; without
    any attempt (maxiter = 0) the call ends in UnboundLocalError. *)
Theorem C69_small_or_loop_refuted :
  forall G o eps maxiter draw pops, g_lap_type G = Combinatorial -> pops_ok pops -> (1 <= maxiter)%nat ->
    (g_n_vertices G <= 2)%nat \/ (exists i, (i < g_n_vertices G)%nat /\ / 10 ^ 10 <= wt G i i) \/
    (forall i j, (i < g_n_vertices G)%nat -> (j < g_n_vertices G)%nat -> wt G i j = 0) ->
    sparsify_graph G o eps maxiter draw pops = Some (Raise ValueError).
Proof.
  intros G o eps maxiter draw pops Ht Hpo Hm H. unfold sparsify_graph. rewrite Ht. set (n := g_n_vertices G) in *. set (W := drop_small _). set (Rd := resistance_distance_L o).
  destruct (sp_range n eps) eqn:ER; [|reflexivity]. cbn [negb]. pose proof (range_two (g_n_vertices G) eps ER) as N2. fold n in N2. pose proof (proj1 (range_ok (g_n_vertices G) eps) ER) as (HN & He). fold n in HN, He.
  unfold sp_run. destruct (Reqb_spec (sp_total n W Rd) 0) as [|HT]; [reflexivity|].
  assert (E0 : eps = eps_at n eps 0). { unfold eps_at. cbn [pow]. field. apply Rgt_not_eq. apply sqrt_lt_R0. apply lt_0_INR. lia. }
  assert (HE : (0 < List.length (sp_edges n W))%nat). { destruct (sp_edges n W) eqn:Ee; [|cbn; lia]. exfalso. apply HT. unfold sp_total. rewrite Ee. reflexivity. }
  assert (K : exists k, (k < List.length (sp_edges n W))%nat /\ INR (sp_draws n (eps_at n eps 0)) * sp_prob n W Rd k = 0).
  { destruct H as [H|[(i & Hi & Hw)|H]].
    - exists 0%nat. split; [exact HE|]. replace n with 2%nat in * by lia. rewrite <- E0. rewrite draws_two; [cbn; ring|]. destruct He as [He _]. replace 2 with (INR 2) by (cbn; lra). exact He.
    - destruct (edge_index n W i i) as (k & Hk & E). { apply es_in. split; [exact Hi|]. split; [lia|]. apply (drop_nz (fun i j => get (gW G) i j)). exact Hw. }
      exists k. split; [exact Hk|]. cbv beta in E. unfold sp_prob, sp_score. rewrite E. cbn [fst snd]. unfold Rd. rewrite rd_loop, (Rmax_left 0 0) by lra. unfold Rdiv. ring.
    - exfalso. pose proof (edge_in n W 0%nat HE) as Hin. cbv beta in Hin. destruct (nth 0 (sp_edges n W) (0%nat, 0%nat)) as [a b]. apply es_in in Hin as (Ha & Hab & Hz).
      apply (drop_nz (fun i j => get (gW G) i j)) in Hz. change (get (gW G) a b) with (wt G a b) in Hz. rewrite H in Hz by lia. pose proof small_pos. lra. }
  destruct K as (k & Hk & Z). pose proof (loop_bad n W Rd draw pops eps HN maxiter 0 k Hm Hk Z) as E. rewrite <- E0 in E. rewrite E. reflexivity.
Qed.
Theorem C69_no_attempt_refuted :
  forall G o eps draw pops, g_lap_type G = Combinatorial -> 1 / sqrt (INR (g_n_vertices G)) <= eps < 1 -> (1 <= g_n_vertices G)%nat ->
    sparsify_graph G o eps 0 draw pops = Some (Raise UnboundLocalError) \/ sparsify_graph G o eps 0 draw pops = Some (Raise ValueError).
Proof.
  intros G o eps draw pops Ht He HN. unfold sparsify_graph. rewrite Ht, (proj2 (range_ok (g_n_vertices G) eps)) by tauto. cbn [negb]. unfold sp_run. destruct (Reqb _ 0); [right|left]; reflexivity.
Qed.

(** Finding: the matrix returned for a Laplacian is not a Laplacian: its diagonal is zero and no entry is positive, so that it has
    zero row sums only if it is zero. *)
Theorem C69_matrix_refuted :
  forall N L o eps maxiter draw pops L', pops_ok pops -> sparsify_matrix N L o eps maxiter draw pops = Some (Ok L') ->
    (forall i, (i < N)%nat -> L' i i = 0) /\ (forall i j, (i < N)%nat -> (j < N)%nat -> L' i j <= 0) /\
    (forall i, (i < N)%nat -> \sum_(j < N) L' i j = 0 -> forall j, (j < N)%nat -> L' i j = 0).
Proof.
  intros N L o eps maxiter draw pops L' Hpo H. unfold sparsify_matrix in H. destruct (sp_range N eps) eqn:ER; cbn [negb] in H; [|discriminate].
  assert (HN : (1 <= N)%nat) by (unfold sp_range in ER; destruct (Nat.eqb_spec N 0); [discriminate|lia]).
  set (W := drop_small _) in H. set (Rd := resistance_distance_L o) in H. unfold sp_run in H. destruct (Reqb (sp_total N W Rd) 0); [discriminate|].
  destruct (sp_loop N W Rd draw pops maxiter 0 eps) as [[M|e]|] eqn:EL; try discriminate. injection H as <-.
  assert (E0 : eps = eps_at N eps 0). { unfold eps_at. cbn [pow]. field. apply Rgt_not_eq. apply sqrt_lt_R0. apply lt_0_INR. lia. }
  rewrite E0 in EL at 1. destruct (loop_ok N W Rd (drop_nonneg _) draw pops eps HN Hpo maxiter 0 M EL) as (t & Ht & Hg & HM & _). cbv zeta in Hg, HM.
  assert (D : forall i, (i < N)%nat -> sp_lap M i i = 0) by (intros i Hi; unfold sp_lap; rewrite Nat.eqb_refl; ring).
  assert (Np : forall i j, (i < N)%nat -> (j < N)%nat -> sp_lap M i j <= 0).
  { intros i j Hi Hj. unfold sp_lap. assert (M i j = sumv N W Rd _ _ i j) as -> by (apply HM; assumption). destruct (Nat.eqb_spec i j) as [->|]; [rewrite (HM j j) by assumption; lra|].
    pose proof (sumv_nonneg N W Rd (drop_nonneg _) _ (draw t (sp_draws N (eps_at N eps t))) i j Hg). lra. }
  split; [exact D|]. split; [exact Np|]. intros i Hi S j Hj. pose proof (Np i j Hi Hj) as P. destruct (Rlt_le_dec (sp_lap M i j) 0) as [Lt|]; [|lra]. exfalso.
  pose proof (rsum_ge_term N (fun j => - sp_lap M i j) j) as T. cbv beta in T. specialize (T ltac:(intros k Hk; pose proof (Np i k Hi Hk); lra) Hj).
  replace (\sum_(j < N) (- sp_lap M i j)) with (- 1 * \sum_(j < N) sp_lap M i j) in T; [rewrite S in T; lra|]. rewrite <- rsum_scal_l. apply rsum_ext. intros; ring.
Qed.

(** ** Unbiasedness *)
(** The expectation of f over q independent draws of k < m with probabilities p. *)
Fixpoint expect (m : nat) (p : nat -> R) (q : nat) (f : list nat -> R) : R :=
  match q with O => f [] | S q' => \sum_(k < m) (p k * expect m p q' (fun l => f (k :: l))) end.
Lemma expect_ext m p q : forall f g, (forall l, List.length l = q -> (forall k, In k l -> (k < m)%nat) -> f l = g l) -> expect m p q f = expect m p q g.
Proof.
  induction q as [|q IH]; intros f g H; [apply H; [reflexivity|intros k []]|]. cbn. apply rsum_ext. intros k Hk. f_equal. apply IH.
  intros l Hl Hm. apply H; [cbn; rewrite Hl; reflexivity|]. intros k' [<-|Hk']; [exact Hk|apply Hm; exact Hk'].
Qed.
Lemma expect_count m p q a c d : \sum_(k < m) p k = 1 -> (a < m)%nat ->
  expect m p q (fun l => INR (count_occ Nat.eq_dec l a) * c + d) = INR q * p a * c + d.
Proof.
  intros Hp Ha. revert d. induction q as [|q IH]; intros d; [cbn; ring|]. cbn [expect].
  rewrite (rsum_ext m _ (fun k => p k * (INR q * p a * c + d) + (if Nat.eqb k a then p k * c else 0))).
  - rewrite rsum_plus, rsum_scal_r. change (\sum_(k < m) p k) with (rsum m p) in Hp. rewrite Hp, (rsum_delta m (fun k => p k * c) a Ha), S_INR. ring.
  - intros k Hk. rewrite (expect_ext m p q _ (fun l => INR (count_occ Nat.eq_dec l a) * c + (d + if Nat.eqb k a then c else 0))).
    + rewrite IH. destruct (Nat.eqb k a); ring.
    + intros l _ _. cbn [count_occ]. destruct (Nat.eq_dec k a) as [->|Ne]; [rewrite Nat.eqb_refl, S_INR; ring|]. destruct (Nat.eqb_spec k a); [contradiction|ring].
Qed.
(** With one attempt, the expectation of the weight of every edge of the result is the weight of that edge. *)
Theorem C69_unbiased :
  forall G o eps pops (result : list nat -> graph), built G -> nonneg_weights G -> undirected G -> loop_free G -> connected G -> g_lap_type G = Combinatorial ->
    pops_ok pops -> inv_contract (g_n_vertices G) (gL G) o ->
    let n := g_n_vertices G in let m := List.length (kept_edges G) in let q := sp_draws n eps in
    let p k := let e := nth k (kept_edges G) (0%nat, 0%nat) in
               wt G (fst e) (snd e) * resistance_distance_L o (fst e) (snd e) / (\sum_(k < m) (let e := nth k (kept_edges G) (0%nat, 0%nat) in wt G (fst e) (snd e) * resistance_distance_L o (fst e) (snd e))) in
    (forall i j, (i < n)%nat -> (j < n)%nat -> wt G i j <> 0 -> / 10 ^ 10 <= wt G i j) ->
    (forall l, List.length l = q -> (forall k, In k l -> (k < m)%nat) -> sparsify_graph G o eps 1 (fun _ _ => l) pops = Some (Ok (result l))) ->
    (0 < m)%nat ->
    forall i j, (i < n)%nat -> (j < n)%nat -> expect m p q (fun l => wt (result l) i j) = wt G i j.
Proof.
  intros G o eps pops result Hb Hp Hu Hl HC Ht Hpo Ho n m q p Hs Hr Hm i j Hi Hj.
  set (W := drop_small (fun i j => get (gW G) i j)). set (Rd := resistance_distance_L o). change (kept_edges G) with (sp_edges n W) in m. fold n in Ho.
  assert (EW : forall i j, (i < n)%nat -> (j < n)%nat -> W i j = wt G i j).
  { intros a b Ha Hb'. unfold W, drop_small. change (get (gW G) a b) with (wt G a b). destruct (Rltb_spec (wt G a b) small) as [L|L]; [|reflexivity].
    destruct (Req_dec (wt G a b) 0) as [->|Z]; [reflexivity|]. specialize (Hs a b Ha Hb' Z). unfold small in L. lra. }
  assert (HR : resistance_distance G o = Ok Rd) by (unfold resistance_distance; rewrite Ht; reflexivity).
  destruct (C34_metric G o Rd Hb Hp Ht HC Ho HR) as (_ & _ & Rp & _). fold n in Rp.
  assert (SC : forall k, (k < m)%nat -> let e := nth k (sp_edges n W) (0%nat, 0%nat) in sp_score W Rd e = wt G (fst e) (snd e) * Rd (fst e) (snd e)).
  { intros k Hk e. pose proof (edge_in n W k Hk) as Hin. cbv beta in Hin. fold e in Hin. destruct e as [a b]. apply es_in in Hin as (Ha & Hab & _). unfold sp_score. cbn [fst snd].
    rewrite EW by lia. rewrite !Rmax_right; [reflexivity|apply Rp; lia|apply Hp; fold n; lia]. }
  assert (TT : sp_total n W Rd = \sum_(k < m) (let e := nth k (sp_edges n W) (0%nat, 0%nat) in wt G (fst e) (snd e) * Rd (fst e) (snd e))).
  { rewrite total_rsum. apply rsum_ext. intros k Hk. apply SC. exact Hk. }
  assert (EP : forall k, (k < m)%nat -> p k = sp_prob n W Rd k).
  { intros k Hk. pose proof (SC k Hk) as S1. cbv zeta in S1. unfold sp_prob. rewrite S1, TT. reflexivity. }
  assert (X : exists l0, List.length l0 = q /\ forall k, In k l0 -> (k < m)%nat).
  { exists (repeat 0%nat q). split; [apply repeat_length|]. intros k Hk. apply repeat_spec in Hk. subst k. exact Hm. }
  destruct X as (l0 & Hl0 & Hl0m).
  assert (Z0 : forall l, List.length l = q -> (forall k, In k l -> (k < m)%nat) -> sp_total n W Rd <> 0 /\ good n W Rd q /\ wt (result l) i j = sumv n W Rd q l i j).
  { intros l Hll Hlm. destruct (sparsify_inv G o eps 1 (fun _ _ => l) pops Hpo (result l) (Hr l Hll Hlm)) as (_ & HN & _ & HT & _ & _ & _ & _ & t & Ht1 & Hg & Hw & _).
    replace t with 0%nat in * by lia. cbv zeta in Hg, Hw. assert (E0 : eps_at n eps 0 = eps). { unfold eps_at. cbn [pow]. field. apply Rgt_not_eq. apply sqrt_lt_R0. apply lt_0_INR. fold n in HN. lia. }
    change (g_n_vertices G) with n in Hg, Hw, HT. rewrite E0 in Hg, Hw. split; [exact HT|]. split; [exact Hg|]. apply Hw; assumption. }
  destruct (Z0 l0 Hl0 Hl0m) as (HT & Hg & _).
  rewrite (expect_ext m p q _ (fun l => sumv n W Rd q l i j)) by (intros l H1 H2; apply Z0; assumption).
  assert (Psum : \sum_(k < m) p k = 1). { etransitivity; [apply rsum_ext; exact EP|apply (prob_sum n W Rd HT)]. }
  assert (One : forall a b k, (k < m)%nat -> nth k (sp_edges n W) (0%nat, 0%nat) = (a, b) -> a <> b ->
    (forall l, sumv n W Rd q l a b = INR (count_occ Nat.eq_dec l k) * (wk n W k / (INR q * sp_prob n W Rd k)) + 0)).
  { intros a b k Hk E Ne l. unfold sumv. rewrite (at_pos_edge n W _ k a b Hk E), at_pos_none; [unfold val; ring|].
    intros Hin. apply es_in in Hin. pose proof (edge_in n W k Hk) as Hin2. cbv beta in Hin2. rewrite E in Hin2. apply es_in in Hin2. lia. }
  assert (Fin1 : forall a b k, (k < m)%nat -> nth k (sp_edges n W) (0%nat, 0%nat) = (a, b) -> a <> b -> expect m p q (fun l => sumv n W Rd q l a b) = wt G a b).
  { intros a b k Hk E Ne. rewrite (expect_ext m p q _ (fun l => INR (count_occ Nat.eq_dec l k) * (wk n W k / (INR q * sp_prob n W Rd k)) + 0)) by (intros l _ _; apply One; assumption).
    rewrite expect_count by assumption. rewrite EP by exact Hk. destruct (good_pos n W Rd q k Hg Hk) as [Q1 Q2]. unfold wk. cbv beta. rewrite E. cbn [fst snd].
    pose proof (edge_in n W k Hk) as Hin. cbv beta in Hin. rewrite E in Hin. apply es_in in Hin. rewrite EW by lia. field. lra. }
  destruct (Nat.eq_dec i j) as [->|Ne].
  { rewrite (expect_ext m p q _ (fun l => INR (count_occ Nat.eq_dec l 0%nat) * 0 + 0)).
    - rewrite expect_count by assumption. rewrite Hl by exact Hi. ring.
    - intros l _ _. rewrite sumv_loop; [ring|apply drop_nonneg|apply rd_loop|exact Hg]. }
  destruct (in_dec pair_dec (i, j) (sp_edges n W)) as [I1|I1].
  { destruct (edge_index n W i j I1) as (k & Hk & E). apply (Fin1 i j k Hk E Ne). }
  destruct (in_dec pair_dec (j, i) (sp_edges n W)) as [I2|I2].
  { destruct (edge_index n W j i I2) as (k & Hk & E). rewrite (expect_ext m p q _ (fun l => sumv n W Rd q l j i)) by (intros l _ _; apply sumv_sym).
    rewrite (Fin1 j i k Hk E) by congruence. apply Hu; assumption. }
  rewrite (expect_ext m p q _ (fun l => INR (count_occ Nat.eq_dec l 0%nat) * 0 + 0)).
  - rewrite expect_count by assumption. assert (Z : wt G i j = 0); [|rewrite Z; ring]. destruct (Req_dec (wt G i j) 0) as [|Z]; [assumption|]. exfalso.
    assert (Z' : wt G j i <> 0) by (rewrite (Hu j i Hj Hi); exact Z). destruct (Nat.le_ge_cases j i) as [L|L].
    + apply I1. apply es_in. rewrite EW by assumption. tauto.
    + apply I2. apply es_in. rewrite EW by assumption. tauto.
  - intros l _ _. unfold sumv. rewrite !at_pos_none by assumption. ring.
Qed.

(** The path with three vertices: its pseudo-inverse, and what the theorems above assume. *)
Definition p3P : mat := fun i j => nth (i * 3 + j) [5; -1; -4; -1; 2; -1; -4; -1; 5] 0 / 9.
Example C69_ex : exists G G' draw pops,
  built G /\ nonneg_weights G /\ undirected G /\ loop_free G /\ connected G /\ g_lap_type G = Combinatorial /\ pops_ok pops /\ draws_ok G draw /\ g_n_vertices G = 3%nat /\
  inv_contract 3 (gL G) (InvSingular p3P) /\
  (forall i j, (i < 3)%nat -> (j < 3)%nat -> wt G i j <> 0 -> / 10 ^ 10 <= wt G i j) /\ 1 / sqrt (INR 3) <= 0.9 < 1 /\
  (forall l, exists Gl, sparsify_graph G (InvSingular p3P) 0.9 1 (fun _ _ => l) pops = Some (Ok Gl)) /\
  sparsify_graph G (InvSingular p3P) 0.9 10 draw pops = Some (Ok G').
Proof.
  destruct (p3_weights None) as (G & (Hb & Hn & Ht & Hc & Hp & Hu & HC & HL) & Hw).
  assert (Hl : loop_free G). { intros i Hi. rewrite Hn in Hi. rewrite Hw by assumption. destruct i as [|[|[|i]]]; try lia; reflexivity. }
  assert (HP : inv_contract 3 (gL G) (InvSingular p3P)).
  { cbn [inv_contract]. unfold pinv, symmetric, meq, tr, mulm. split; [|split; [|split]]; intros i j Hi Hj; cbn [rsum]; rewrite ?HL by lia;
      destruct i as [|[|[|i]]]; try lia; destruct j as [|[|[|j]]]; try lia; unfold p3P; cbn; field. }
  assert (Hs : forall i j, (i < 3)%nat -> (j < 3)%nat -> wt G i j <> 0 -> / 10 ^ 10 <= wt G i j).
  { assert (P1 : / 10 ^ 10 <= 1) by (rewrite <- Rinv_1; apply Rinv_le_contravar; [lra|apply pow_R1_Rle; lra]).
    intros i j Hi Hj. rewrite Hw by assumption. destruct i as [|[|[|i]]]; try lia; destruct j as [|[|[|j]]]; try lia; cbn -[pow]; intros; try lra; exfalso; auto. }
  assert (He : 1 / sqrt (INR 3) <= 0.9 < 1).
  { split; [|lra]. assert (S3 : 0 < sqrt (INR 3)) by (apply sqrt_lt_R0; cbn; lra). apply (Rmult_le_reg_r (sqrt (INR 3))); [exact S3|]. unfold Rdiv. rewrite Rmult_assoc, Rinv_l by lra.
    assert (10 / 9 <= sqrt (INR 3)); [|lra]. rewrite <- (sqrt_Rsqr (10 / 9)) by lra. apply sqrt_le_1_alt. unfold Rsqr. cbn. lra. }
  set (pops := fun _ : nat => (pop_first, pop_first)). set (draw := fun _ q : nat => repeat 0%nat q).
  assert (Hpo : pops_ok pops) by (intros t; split; apply pop_first_ok).
  assert (Hk : (0 < List.length (kept_edges G))%nat).
  { assert (Hin : In (1, 0)%nat (kept_edges G)).
    { apply es_in. rewrite Hn. split; [lia|]. split; [lia|]. apply (drop_nz (fun i j => get (gW G) i j)). change (small <= wt G 1 0). apply Hs; [lia|lia|]. rewrite Hw by lia. cbn. lra. }
    destruct (kept_edges G); [destruct Hin|cbn; lia]. }
  assert (A : forall mi d, (1 <= mi)%nat -> exists G', sparsify_graph G (InvSingular p3P) 0.9 mi d pops = Some (Ok G')).
  { intros mi d Hmi. apply C69_succeeds; try assumption; rewrite ?Hn; try assumption. lia. }
  destruct (A 10%nat draw ltac:(lia)) as (G' & EG'). exists G, G', draw, pops. repeat (split; [assumption|]). split.
  { intros t q. split; [apply repeat_length|]. intros k Hin. apply repeat_spec in Hin. subst k. exact Hk. }
  repeat (split; [assumption|]). split; [intros l; apply A; lia|exact EG'].
Qed.

Print Assumptions C69_unbiased.
Print Assumptions C69_succeeds.
Print Assumptions C69_edge_count.
