(** The traversal loop: termination, correctness, independence of the pop order. *)
From Coq Require Import Reals Lra Lia Arith Bool String ZArith Permutation Sorted List.
From Verif.Base Require Import RSum Prelude.
From Verif.Spec Require Import Reach.
From Verif.Model Require Import Sparse Graph Traverse.
Import ListNotations.
Open Scope nat_scope.

Lemma set_update_in s l x : In x (set_update s l) <-> In x s \/ In x l.
Proof.
  revert s; induction l as [|y l IH]; intros s; cbn [set_update]; [cbn; tauto|].
  rewrite IH. destruct (existsb (Nat.eqb y) s) eqn:E.
  - apply existsb_exists in E. destruct E as (z & Hz & E). apply Nat.eqb_eq in E. subst z.
    cbn [In]. split; [tauto|]. intros [H|[H|H]]; [tauto|subst; tauto|tauto].
  - rewrite in_app_iff. cbn [In]. tauto.
Qed.

Lemma set_update_nodup s l : NoDup s -> NoDup (set_update s l).
Proof.
  revert s; induction l as [|y l IH]; intros s H; cbn [set_update]; [exact H|].
  apply IH. destruct (existsb (Nat.eqb y) s) eqn:E; [exact H|].
  apply NoDup_app_disj; [exact H|repeat constructor; cbn; tauto|].
  intros x Hx [<-|[]]. assert (existsb (Nat.eqb y) s = true); [|congruence].
  apply existsb_exists. exists y. rewrite Nat.eqb_refl. auto.
Qed.

Lemma remove_length_in v s : In v s -> NoDup s -> length (remove Nat.eq_dec v s) + 1 = length s.
Proof.
  induction s as [|y s IH]; intros Hin Hnd; [contradiction|]. cbn [remove]. inversion Hnd; subst.
  destruct (Nat.eq_dec v y) as [->|Hne].
  - rewrite notin_remove by assumption. cbn; lia.
  - destruct Hin as [E|Hin]; [congruence|]. cbn. rewrite <- (IH Hin H2). lia.
Qed.

Lemma remove_nodup v s : NoDup s -> NoDup (remove Nat.eq_dec v s).
Proof.
  induction s as [|y s IH]; intros H; cbn [remove]; [constructor|]. inversion H; subst.
  destruct (Nat.eq_dec v y); [apply IH; assumption|]. constructor; [|apply IH; assumption].
  intros Hin. apply in_remove in Hin. tauto.
Qed.

Definition unvisited (n : nat) (visited : nat -> bool) : nat := ncount n (fun v => negb (visited v)).

Lemma unvisited_mark n visited v : v < n -> visited v = false ->
  unvisited n (mark visited v) + 1 = unvisited n visited.
Proof.
  unfold unvisited. induction n as [|n IH]; intros Hv E; [lia|]. cbn [ncount].
  destruct (Nat.eq_dec v n) as [->|Hne].
  - unfold mark at 2. rewrite Nat.eqb_refl, E. cbn [negb].
    rewrite (ncount_ext n (fun u => negb (mark visited n u)) (fun u => negb (visited u))); [lia|].
    intros i Hi. unfold mark. destruct (Nat.eqb_spec i n); [lia|reflexivity].
  - rewrite <- (IH ltac:(lia) E). unfold mark at 2. destruct (Nat.eqb_spec n v); [lia|]. lia.
Qed.

Section Visit.
  Variable n : nat.
  Variable pop : popper.
  Hypothesis Hpop : pop_ok pop.
  Variable only_new : bool.
  Variable nbrs : nat -> list nat.
  Hypothesis nbrs_lt : forall v u, In u (nbrs v) -> u < n.

  Let E (u v : nat) : Prop := In v (nbrs u).

  (** Visited before this loop started: [v0]. *)
  Variable v0 : nat -> bool.
  (** Nothing unvisited leads to what was visited before. *)
  Hypothesis v0_closed : forall u v, u < n -> v0 v = true -> E u v -> v0 u = true.
  Variable start : nat.

  Definition linv (visited : nat -> bool) (comp stack : list nat) : Prop :=
    NoDup stack /\ (forall u, In u stack -> u < n) /\ NoDup comp /\
    (forall u, visited u = true <-> v0 u = true \/ In u comp) /\
    (forall u, In u comp -> v0 u = false) /\
    (forall u, In u comp -> reach E start u) /\ (forall u, In u stack -> reach E start u) /\
    (forall u v, In u comp -> E u v -> visited v = true \/ In v stack) /\
    (start < n -> visited start = true \/ In start stack).

  Lemma visit_spec fuel : forall hist visited comp stack, linv visited comp stack ->
    S n * unvisited n visited + length stack <= fuel ->
    exists visited' comp', visit fuel pop only_new nbrs hist visited comp stack = Some (visited', comp') /\
      linv visited' comp' [].
  Proof.
    induction fuel as [|fuel IH]; intros hist visited comp stack Hi Hf.
    - destruct stack; [|cbn in Hf; lia]. exists visited, comp. split; [reflexivity|exact Hi].
    - destruct stack as [|s0 st] eqn:Est; [exists visited, comp; split; [reflexivity|exact Hi]|].
      rewrite <- Est in *. set (v := pop hist stack). 
      assert (Hv : In v stack) by (apply Hpop; rewrite Est; discriminate).
      assert (Hunf : visit (S fuel) pop only_new nbrs hist visited comp stack =
        let stack' := remove Nat.eq_dec v stack in
          if visited v
          then visit fuel pop only_new nbrs (v :: hist) visited comp stack'
          else
            let visited' := mark visited v in
            let new := if only_new then filter (fun u => negb (visited' u)) (nbrs v) else nbrs v in
            visit fuel pop only_new nbrs (v :: hist) visited' (comp ++ [v]) (set_update stack' new)).
      { rewrite Est at 1. cbn [visit]. rewrite <- Est. reflexivity. }
      rewrite Hunf. clear Hunf. cbv zeta.
      destruct Hi as (H1 & H2 & H3 & H4 & H5 & H6 & H7 & H8 & H9).
      pose proof (remove_length_in v stack Hv H1) as Hlen.
      pose proof (remove_nodup v stack H1) as Hnd.
      destruct (visited v) eqn:Evis.
      + apply IH.
        * repeat split; try assumption.
          -- intros u Hu. apply in_remove in Hu. apply H2; tauto.
          -- intros Hu; apply H4, Hu.
          -- intros Hu; apply H4, Hu.
          -- intros u Hu. apply in_remove in Hu. apply H7; tauto.
          -- intros u w Hu Hw. destruct (H8 u w Hu Hw) as [E1|E1]; [left; exact E1|].
             destruct (Nat.eq_dec w v) as [->|Hne]; [left; exact Evis|right; apply in_in_remove; auto].
          -- intros Hs. destruct (H9 Hs) as [E1|E1]; [left; exact E1|].
             destruct (Nat.eq_dec start v) as [->|Hne]; [left; exact Evis|right; apply in_in_remove; auto].
        * lia.
      + pose proof (H2 v Hv) as Hvn. pose proof (unvisited_mark n visited v Hvn Evis) as Hun.
        assert (Hvc : ~ In v comp).
        { intros Hc. assert (visited v = true) by (apply H4; right; exact Hc). congruence. }
        assert (Hv0 : v0 v = false).
        { destruct (v0 v) eqn:E0; [|reflexivity]. assert (visited v = true) by (apply H4; left; exact E0). congruence. }
        set (new := if only_new then filter (fun u => negb (mark visited v u)) (nbrs v) else nbrs v).
        assert (Hnew : forall u, In u new -> In u (nbrs v)).
        { intros u. unfold new. destruct only_new; [|tauto]. intros Hu. apply filter_In in Hu. tauto. }
        assert (Hnew' : forall u, In u (nbrs v) -> mark visited v u = true \/ In u new).
        { intros u Hu. unfold new. destruct only_new; [|right; exact Hu].
          destruct (mark visited v u) eqn:Em; [left; reflexivity|right].
          apply filter_In. rewrite Em. split; [exact Hu|reflexivity]. }
        assert (Hnd2 : NoDup (set_update (remove Nat.eq_dec v stack) new)) by (apply set_update_nodup, Hnd).
        assert (Hlt : forall u, In u (set_update (remove Nat.eq_dec v stack) new) -> u < n).
        { intros u Hu. apply set_update_in in Hu. destruct Hu as [Hu|Hu].
          - apply in_remove in Hu. apply H2; tauto.
          - apply (nbrs_lt v u), Hnew, Hu. }
        apply IH.
        * split; [exact Hnd2|]. split; [exact Hlt|]. split.
          { apply NoDup_app_disj; [exact H3|repeat constructor; cbn; tauto|]. intros x Hx [<-|[]]. contradiction. }
          split.
          { intros u. unfold mark. destruct (Nat.eqb_spec u v) as [->|Hne].
            - split; [intros _; right; apply in_or_app; right; left; reflexivity|reflexivity].
            - rewrite H4, in_app_iff. cbn [In]. split; [tauto|]. intros [A|[A|[A|[]]]]; [tauto|tauto|congruence]. }
          split.
          { intros u Hu. apply in_app_iff in Hu. destruct Hu as [Hu|[<-|[]]]; [apply H5, Hu|exact Hv0]. }
          split.
          { intros u Hu. apply in_app_iff in Hu. destruct Hu as [Hu|[<-|[]]]; [apply H6, Hu|apply H7, Hv]. }
          split.
          { intros u Hu. apply set_update_in in Hu. destruct Hu as [Hu|Hu].
            - apply in_remove in Hu. apply H7; tauto.
            - eapply reach_step; [apply H7, Hv|]. apply Hnew, Hu. }
          split.
          { intros u w Hu Hw. apply in_app_iff in Hu. destruct Hu as [Hu|[<-|[]]].
            - destruct (H8 u w Hu Hw) as [E1|E1].
              + left. unfold mark. rewrite E1. destruct (Nat.eqb w v); reflexivity.
              + destruct (Nat.eq_dec w v) as [->|Hne].
                * left. unfold mark. rewrite Nat.eqb_refl. reflexivity.
                * right. apply set_update_in. left. apply in_in_remove; auto.
            - destruct (Hnew' w Hw) as [A|A]; [left; exact A|right; apply set_update_in; right; exact A]. }
          { intros Hs. destruct (H9 Hs) as [E1|E1].
            - left. unfold mark. rewrite E1. destruct (Nat.eqb start v); reflexivity.
            - destruct (Nat.eq_dec start v) as [->|Hne].
              + left. unfold mark. rewrite Nat.eqb_refl. reflexivity.
              + right. apply set_update_in. left. apply in_in_remove; auto. }
        * assert (length (set_update (remove Nat.eq_dec v stack) new) <= n).
          { rewrite <- (seq_length n 0). apply NoDup_incl_length; [exact Hnd2|].
            intros u Hu. apply in_seq. specialize (Hlt u Hu). lia. }
          lia.
  Qed.

  (** A completed loop started at an unvisited vertex visits exactly what it reaches. *)
  Lemma visit_correct : start < n -> v0 start = false ->
    forall hist, exists visited' comp',
      visit (visit_fuel n) pop only_new nbrs hist v0 [] [start] = Some (visited', comp') /\
      NoDup comp' /\ (forall u, In u comp' <-> reach E start u) /\ (forall u, In u comp' -> u < n) /\
      (forall u, In u comp' -> v0 u = false) /\
      (forall u, visited' u = true <-> v0 u = true \/ In u comp').
  Proof.
    intros Hs Hv0 hist.
    destruct (visit_spec (visit_fuel n) hist v0 [] [start]) as (visited' & comp' & Hv & Hl).
    - repeat split; cbn [In]; try tauto.
      + repeat constructor; cbn; tauto.
      + intros u [<-|[]]; exact Hs.
      + constructor.
      + intros u [<-|[]]. apply reach_refl.
    - unfold visit_fuel, unvisited. pose proof (ncount_le n (fun v => negb (v0 v))). cbn [length]. nia.
    - exists visited', comp'. split; [exact Hv|]. destruct Hl as (_ & _ & H3 & H4 & H5 & H6 & _ & H8 & H9).
      assert (Hst : In start comp').
      { destruct (H9 Hs) as [E1|[]]. apply H4 in E1. destruct E1 as [E1|E1]; [congruence|exact E1]. }
      assert (Hcn : forall u, In u comp' -> u < n).
      { intros u Hu. pose proof (H6 u Hu) as R. destruct R as [a|a b c R Hbc]; [exact Hs|]. exact (nbrs_lt b c Hbc). }
      assert (Hr : forall u, reach E start u -> In u comp').
      { intros u R. clear - R H4 H5 H8 Hst v0_closed Hcn. 
        revert Hst. induction R as [a|a b c R IH Hbc]; intros Hst; [exact Hst|].
        specialize (IH Hst). destruct (H8 b c IH Hbc) as [E1|[]].
        apply H4 in E1. destruct E1 as [E1|E1]; [|exact E1]. exfalso.
        pose proof (H5 b IH) as H0. rewrite (v0_closed b c (Hcn b IH) E1 Hbc) in H0. discriminate. }
      split; [exact H3|]. split; [intros u; split; [apply H6|apply Hr]|]. split; [exact Hcn|split; [exact H5|exact H4]].
  Qed.
End Visit.

Lemma isort_perm l : Permutation (isort l) l.
Proof.
  induction l as [|x l IH]; cbn; [constructor|].
  assert (H : forall y m, Permutation (insert y m) (y :: m)).
  { intros y m. induction m as [|z m IHm]; cbn; [reflexivity|].
    destruct (Nat.leb y z); [reflexivity|]. rewrite IHm. apply perm_swap. }
  fold (isort l). rewrite H. constructor. exact IH.
Qed.

Lemma insert_sorted x l : StronglySorted le l -> StronglySorted le (insert x l).
Proof.
  induction l as [|y l IH]; intros H; cbn; [repeat constructor|].
  destruct (Nat.leb_spec x y).
  - constructor; [exact H|]. inversion H; subst. constructor; [assumption|].
    eapply Forall_impl; [|eassumption]. cbn; lia.
  - inversion H; subst. constructor; [apply IH; assumption|].
    assert (Hf : forall l', Forall (le y) l' -> Forall (le y) (insert x l')).
    { induction l' as [|z l' IHl]; intros Hl; cbn; [repeat constructor; lia|].
      inversion Hl; subst. destruct (Nat.leb x z); repeat constructor; try lia; auto. }
    apply Hf. assumption.
Qed.

Lemma isort_sorted l : StronglySorted le (isort l).
Proof. induction l as [|x l IH]; cbn; [constructor|]. apply insert_sorted, IH. Qed.

Lemma sorted_nodup_lt l : StronglySorted le l -> NoDup l -> StronglySorted lt l.
Proof.
  induction l as [|x l IH]; intros H1 H2; [constructor|]. inversion H1; inversion H2; subst.
  constructor; [apply IH; assumption|]. apply Forall_forall. intros y Hy.
  rewrite Forall_forall in H4. specialize (H4 y Hy). assert (x <> y) by (intros ->; contradiction). lia.
Qed.

(** A strictly sorted list is determined by its elements. *)
Lemma sorted_ext l l' : StronglySorted lt l -> StronglySorted lt l' -> (forall x, In x l <-> In x l') -> l = l'.
Proof.
  revert l'; induction l as [|x l IH]; intros [|y l'] H1 H2 H.
  - reflexivity.
  - exfalso. apply (H y). left; reflexivity.
  - exfalso. apply (H x). left; reflexivity.
  - apply StronglySorted_inv in H1. apply StronglySorted_inv in H2. destruct H1 as (S1 & H4), H2 as (S2 & H8).
    rewrite Forall_forall in H4, H8.
    assert (x = y).
    { destruct (proj1 (H x) (or_introl eq_refl)) as [E|E]; [congruence|].
      destruct (proj2 (H y) (or_introl eq_refl)) as [E'|E']; [congruence|].
      specialize (H4 y E'). specialize (H8 x E). lia. }
    subst y. f_equal. apply IH; auto. intros z. split; intros Hz.
    + destruct (proj1 (H z) (or_intror Hz)) as [E|E]; [|exact E]. subst z. specialize (H4 x Hz). lia.
    + destruct (proj2 (H z) (or_intror Hz)) as [E|E]; [|exact E]. subst z. specialize (H8 x Hz). lia.
Qed.

(** ** is_connected *)

Lemma all_reached_spec pop n nbrs : pop_ok pop -> 0 < n -> (forall v u, In u (nbrs v) -> u < n) ->
  exists b, all_reached pop n nbrs = Some b /\
    (b = true <-> forall v, v < n -> reach (fun a c => In c (nbrs a)) 0 v).
Proof.
  intros Hp Hn Hlt. unfold all_reached.
  destruct (visit_correct n pop Hp false nbrs Hlt (fun _ => false) ltac:(intros; discriminate) 0 Hn eq_refl [])
    as (vis & comp & E & _ & Hin & _ & _ & Hv).
  rewrite E. exists (nforall n vis). split; [reflexivity|]. rewrite nforall_true. split.
  - intros H v Hvn. apply Hin. apply H, Hv in Hvn. destruct Hvn as [A|A]; [discriminate|exact A].
  - intros H i Hi. apply Hv. right. apply Hin, H, Hi.
Qed.

Lemma out_nbrs_in W v u : In u (out_nbrs W v) <-> u < nrow W /\ get W v u <> 0%R.
Proof.
  unfold out_nbrs. rewrite filter_In, in_seq. destruct (Reqb_spec (get W v u) 0); cbn; split; intuition (try discriminate; try lia).
Qed.
Lemma in_nbrs_in W v u : In u (in_nbrs W v) <-> u < nrow W /\ get W u v <> 0%R.
Proof.
  unfold in_nbrs. rewrite filter_In, in_seq. destruct (Reqb_spec (get W u v) 0); cbn; split; intuition (try discriminate; try lia).
Qed.
Lemma pos_nbrs_in W v u : In u (pos_nbrs W v) <-> u < nrow W /\ (0 < get W v u)%R.
Proof.
  unfold pos_nbrs, adjb. rewrite filter_In, in_seq, Rltb_true. intuition lia.
Qed.

(** Directed adjacency of W on its vertices. *)
Definition arc (W : csr R) (u v : nat) : Prop := u < nrow W /\ v < nrow W /\ get W u v <> 0%R.

Lemma reach_arc W nb : (forall a c, In c (nb a) <-> c < nrow W /\ get W a c <> 0%R) -> 
  forall u v, u < nrow W -> (reach (fun a c => In c (nb a)) u v <-> reach (arc W) u v).
Proof.
  intros Hnb u v Hu. split; intros R.
  - assert (H : reach (arc W) u v /\ v < nrow W); [|apply H].
    induction R as [u|u v w R IH Hs]; [split; [apply reach_refl|exact Hu]|].
    destruct (IH Hu) as (IH1 & IH2). apply Hnb in Hs. split; [|tauto]. eapply reach_step; [exact IH1|]. unfold arc; tauto.
  - eapply reach_mono; [|exact R]. intros a b (Ha & Hb & Hw). apply Hnb. auto.
Qed.

Lemma reach_arc_in W : 
  forall u v, u < nrow W -> (reach (fun a c => In c (in_nbrs W a)) u v <-> reach (arc W) v u).
Proof.
  intros u v Hu. split; intros R.
  - assert (H : reach (arc W) v u /\ v < nrow W); [|apply H].
    induction R as [u|u v w R IH Hs]; [split; [apply reach_refl|exact Hu]|].
    destruct (IH Hu) as (IH1 & IH2). apply in_nbrs_in in Hs. split; [|tauto].
    eapply reach_trans; [apply reach_one|exact IH1]. unfold arc; tauto.
  - eapply reach_rev; [|exact R]. intros a b (Ha & Hb & Hw). apply in_nbrs_in. auto.
Qed.

Lemma is_connected_spec pop pop' W : pop_ok pop -> pop_ok pop' -> 0 < nrow W ->
  (is_directed W = false -> forall i j, i < nrow W -> j < nrow W -> get W i j = get W j i) ->
  exists b, is_connected pop pop' W = Some (Ok b) /\
    (b = true <-> forall u v, u < nrow W -> v < nrow W -> reach (arc W) u v).
Proof.
  intros Hp Hp' Hn Hsym. unfold is_connected. destruct (Nat.eqb_spec (nrow W) 0); [lia|].
  destruct (all_reached_spec pop (nrow W) (out_nbrs W) Hp Hn) as (b & Eb & Hb).
  { intros v u Hu. apply out_nbrs_in in Hu. tauto. }
  assert (Hb' : b = true <-> forall v, v < nrow W -> reach (arc W) 0 v).
  { rewrite Hb. split; intros H v Hv; apply (reach_arc W (out_nbrs W) (out_nbrs_in W) 0 v Hn); auto. }
  rewrite Eb. destruct b.
  - destruct (is_directed W) eqn:Ed.
    + destruct (all_reached_spec pop' (nrow W) (in_nbrs W) Hp' Hn) as (b' & Eb' & Hb2).
      { intros v u Hu. apply in_nbrs_in in Hu. tauto. }
      rewrite Eb'. exists b'. split; [reflexivity|]. rewrite Hb2. split.
      * intros H u v Hu Hv. eapply reach_trans; [apply (reach_arc_in W 0 u Hn), H, Hu|apply Hb'; auto].
      * intros H v Hv. apply (reach_arc_in W 0 v Hn), H; auto.
    + exists true. split; [reflexivity|]. split; [|reflexivity]. intros _ u v Hu Hv.
      eapply reach_trans; [|apply Hb'; auto]. eapply reach_rev; [|apply (proj1 Hb' eq_refl u Hu)].
      intros a b (Ha & Hbb & Hw). repeat split; auto. rewrite <- (Hsym eq_refl a b) by assumption. exact Hw.
  - exists false. split; [reflexivity|]. split; [discriminate|]. intros H. apply Hb'. intros v Hv. apply H; auto.
Qed.

(** ** extract_components *)

Definition pos_edge (W : csr R) (u v : nat) : Prop := u < nrow W /\ v < nrow W /\ (0 < get W u v)%R.

Lemma filter_seq_hd_false (p : nat -> bool) n v l :
  filter p (seq 0 n) = v :: l -> v < n /\ p v = true.
Proof.
  intros H. assert (Hin : In v (filter p (seq 0 n))) by (rewrite H; left; reflexivity).
  apply filter_In in Hin. rewrite in_seq in Hin. split; [lia|tauto].
Qed.

Lemma components_spec pop W : pop_ok pop ->
  (forall i j, i < nrow W -> j < nrow W -> get W i j = get W j i) ->
  forall fuel visited, unvisited (nrow W) visited < fuel ->
  (forall u v, pos_edge W u v -> visited v = true -> visited u = true) ->
  exists cs, components_loop fuel pop W visited = Some cs /\
    (forall c, In c cs -> c <> [] /\ StronglySorted lt c) /\
    NoDup (concat cs) /\
    (forall v, In v (concat cs) <-> v < nrow W /\ visited v = false) /\
    (forall c u v, In c cs -> In u c -> (In v c <-> reach (pos_edge W) u v)).
Proof.
  intros Hp Hsym. set (n := nrow W).
  assert (Hsp : forall u v, pos_edge W u v -> pos_edge W v u).
  { intros u v (Hu & Hv & Hw). repeat split; auto. rewrite <- (Hsym u v) by assumption. exact Hw. }
  induction fuel as [|fuel IH]; intros visited Hf Hcl; [lia|]. cbn [components_loop]. fold n.
  destruct (filter (fun v => negb (visited v)) (seq 0 n)) as [|s l] eqn:El.
  - exists []. split; [reflexivity|]. split; [intros c []|]. split; [constructor|]. split; [|intros c u v []].
    cbn [concat In]. intros v. split; [tauto|]. intros (Hv & E).
    assert (In v (filter (fun v => negb (visited v)) (seq 0 n))).
    { apply filter_In. rewrite in_seq, E. split; [lia|reflexivity]. }
    rewrite El in H. destruct H.
  - destruct (filter_seq_hd_false _ _ _ _ El) as (Hs & Es). apply negb_true_iff in Es.
    destruct (visit_correct n pop Hp true (pos_nbrs W)) with (v0 := visited) (start := s) (hist := @nil nat)
      as (vis & comp & E & Hnd & Hin & Hlt & Hnew & Hv).
    { intros v u Hu. apply pos_nbrs_in in Hu. tauto. }
    { intros u v Hun Hv Hu. apply pos_nbrs_in in Hu. apply (Hcl u v); [|exact Hv]. unfold pos_edge. tauto. }
    { exact Hs. } { exact Es. }
    rewrite E.
    assert (Hin' : forall u, In u comp <-> reach (pos_edge W) s u).
    { intros u. rewrite Hin. split; intros R.
      - assert (H : reach (pos_edge W) s u /\ u < n); [|apply H]. clear - R Hs.
        induction R as [s|s v w R IH Hs']; [split; [apply reach_refl|exact Hs]|].
        destruct (IH Hs) as (IH1 & IH2). apply pos_nbrs_in in Hs'. split; [|tauto].
        eapply reach_step; [exact IH1|]. unfold pos_edge. tauto.
      - eapply reach_mono; [|exact R]. intros a b (Ha & Hb & Hw). apply pos_nbrs_in. auto. }
    destruct (IH vis) as (cs & Ecs & H1 & H2 & H3 & H4).
    { assert (Hsc : In s comp) by (apply Hin', reach_refl).
      enough (unvisited n vis < unvisited n visited) by lia.
      unfold unvisited. clear - Hs Es Hsc Hv.
      assert (Hle : forall m, ncount m (fun v => negb (vis v)) <= ncount m (fun v => negb (visited v)) /\
                 (s < m -> ncount m (fun v => negb (vis v)) < ncount m (fun v => negb (visited v)))).
      { induction m as [|m (IH1 & IH2)]; [cbn; lia|]. cbn [ncount].
        assert (visited m = true -> vis m = true) by (intros; apply Hv; auto).
        destruct (Nat.eq_dec s m) as [->|Hne].
        - assert (vis m = true) by (apply Hv; auto). rewrite H0, Es. cbn. lia.
        - destruct (visited m); [rewrite H by reflexivity; cbn; lia|]. destruct (vis m); cbn; lia. }
      apply Hle, Hs. }
    { intros u v He Hvv. apply Hv in Hvv. apply Hv. destruct Hvv as [A|A]; [left; apply (Hcl u v He A)|right].
      apply Hin'. apply Hin' in A. eapply reach_step; [exact A|]. apply Hsp, He. }
    rewrite Ecs. exists (isort comp :: cs). split; [reflexivity|].
    assert (Hperm : forall u, In u (isort comp) <-> In u comp).
    { intros u. split; apply Permutation_in; [|symmetry]; apply isort_perm. }
    assert (Hndi : NoDup (isort comp)).
    { eapply Permutation_NoDup; [symmetry; apply isort_perm|exact Hnd]. }
    split.
    { intros c [<-|Hc]; [|apply H1, Hc]. split.
      - intros E0. assert (In s (isort comp)) by (apply Hperm, Hin', reach_refl). rewrite E0 in H. destruct H.
      - apply sorted_nodup_lt; [apply isort_sorted|exact Hndi]. }
    split.
    { cbn [concat]. apply NoDup_app_disj; [exact Hndi|exact H2|].
      intros x Hx Hx2. apply Hperm in Hx. apply H3 in Hx2. destruct Hx2 as (_ & Hx2).
      assert (vis x = true) by (apply Hv; right; exact Hx). congruence. }
    split.
    { intros v. cbn [concat]. rewrite in_app_iff, Hperm, H3. split.
      - intros [A|(A & B)]; [split; [apply Hlt, A|apply Hnew, A]|split; [exact A|]].
        destruct (visited v) eqn:E0; [|reflexivity]. assert (vis v = true) by (apply Hv; auto). congruence.
      - intros (A & B). destruct (vis v) eqn:E0; [|right; auto]. left. apply Hv in E0. destruct E0; [congruence|assumption]. }
    intros c u v [<-|Hc] Hu.
    + rewrite Hperm in *. apply Hin' in Hu. rewrite Hin'. split; intros R.
      * eapply reach_trans; [|exact R]. eapply reach_rev; [|exact Hu]. exact Hsp.
      * eapply reach_trans; eassumption.
    + apply H4; assumption.
Qed.
