(** Decision procedures for finite edge lists over N, and their correctness: what is needed to establish
    facts about the packaged data files by computation. *)
From Coq Require Import List Arith Bool NArith PArith Lia MSetPositive.
Import ListNotations.
Open Scope N_scope.

(** Codes of vertices and of pairs of vertices below [width]. *)
Definition width : N := 8192.
Definition vkey (v : N) : positive := N.succ_pos v.
Definition pkey (p : N * N) : positive := N.succ_pos (fst p * width + snd p).
Definition below (n : N) (p : N * N) : bool := (fst p <? n) && (snd p <? n).

Lemma vkey_inj u v : vkey u = vkey v -> u = v.
Proof. unfold vkey. intros H. apply (f_equal Npos) in H. rewrite !N.succ_pos_spec in H. lia. Qed.
Lemma pkey_inj p q : snd p < width -> snd q < width -> pkey p = pkey q -> p = q.
Proof.
  unfold pkey. intros Hp Hq H. apply (f_equal Npos) in H. rewrite !N.succ_pos_spec in H. apply N.succ_inj in H.
  destruct p as [a b], q as [c d]. cbn [fst snd] in *. 
  assert (E : a = c).
  { rewrite (N.div_unique (a * width + b) width a b), (N.div_unique (c * width + d) width c d); [rewrite H; reflexivity|assumption|lia|assumption|lia]. }
  subst c. f_equal. lia.
Qed.

(** The set of the codes of a list, if no code comes twice. *)
Fixpoint collect {A} (key : A -> positive) (l : list A) (s : PositiveSet.t) : option PositiveSet.t :=
  match l with
  | [] => Some s
  | a :: l => if PositiveSet.mem (key a) s then None else collect key l (PositiveSet.add (key a) s)
  end.
Lemma collect_spec {A} (key : A -> positive) l : forall s t, collect key l s = Some t ->
  NoDup (map key l) /\ (forall a, In a l -> PositiveSet.mem (key a) s = false) /\ (forall k, PositiveSet.mem k t = true <-> PositiveSet.mem k s = true \/ In k (map key l)).
Proof.
  induction l as [|a l IH]; intros s t E; cbn [collect map] in *.
  - injection E as <-. split; [constructor|]. split; [intros a []|]. intros k. cbn. tauto.
  - destruct (PositiveSet.mem (key a) s) eqn:M; [discriminate|]. destruct (IH _ _ E) as (H1 & H2 & H3).
    assert (Q : forall k, PositiveSet.mem k (PositiveSet.add (key a) s) = true <-> k = key a \/ PositiveSet.mem k s = true).
    { intros k. rewrite !PositiveSet.mem_spec, PositiveSet.add_spec. reflexivity. }
    split; [|split].
    + constructor; [|exact H1]. intros H. apply in_map_iff in H. destruct H as (b & Eb & Hb). specialize (H2 b Hb).
      assert (PositiveSet.mem (key b) (PositiveSet.add (key a) s) = true) by (apply Q; left; exact Eb). congruence.
    + intros b [<-|Hb]; [exact M|]. specialize (H2 b Hb). destruct (PositiveSet.mem (key b) s) eqn:Mb; [|reflexivity].
      assert (PositiveSet.mem (key b) (PositiveSet.add (key a) s) = true) by (apply Q; right; exact Mb). congruence.
    + intros k. rewrite H3, Q. cbn [In]. intuition congruence.
Qed.
Definition set_of {A} (key : A -> positive) (l : list A) : option PositiveSet.t := collect key l PositiveSet.empty.
Lemma empty_mem k : PositiveSet.mem k PositiveSet.empty = false.
Proof. destruct (PositiveSet.mem k PositiveSet.empty) eqn:M; [|reflexivity]. apply PositiveSet.mem_spec in M. exfalso. exact (PositiveSet.empty_spec M). Qed.

(** The pairs of a list, all below n <= width and all different. *)
Definition pair_set (n : N) (l : list (N * N)) : option PositiveSet.t :=
  if (n <=? width) && forallb (below n) l then set_of pkey l else None.
Lemma NoDup_of_map {A B} (f : A -> B) l : NoDup (map f l) -> NoDup l.
Proof.
  induction l as [|a l IH]; intros H; [constructor|]. cbn [map] in H. inversion H as [|? ? Hn Hd]; subst. constructor; [|apply IH; exact Hd].
  intros K. apply Hn. apply in_map. exact K.
Qed.
Lemma pair_set_spec n l s : pair_set n l = Some s ->
  n <= width /\ NoDup l /\ (forall p, In p l -> fst p < n /\ snd p < n) /\ (forall p, fst p < n -> snd p < n -> PositiveSet.mem (pkey p) s = true <-> In p l).
Proof.
  unfold pair_set. destruct (n <=? width) eqn:W; [|discriminate]. destruct (forallb (below n) l) eqn:B; [|discriminate]. cbn [andb]. intros E.
  apply N.leb_le in W. rewrite forallb_forall in B.
  assert (R : forall p, In p l -> fst p < n /\ snd p < n).
  { intros p Hp. specialize (B p Hp). unfold below in B. apply andb_true_iff in B. rewrite !N.ltb_lt in B. exact B. }
  destruct (collect_spec _ _ _ _ E) as (H1 & _ & H3). split; [exact W|]. split; [apply (NoDup_of_map pkey), H1|]. split; [exact R|].
  intros p P1 P2. rewrite H3, empty_mem. split.
  - intros [H|H]; [discriminate|]. apply in_map_iff in H. destruct H as (q & Eq & Hq). destruct (R q Hq) as (Q1 & Q2).
    rewrite <- (pkey_inj q p); [exact Hq|lia|lia|exact Eq].
  - intros H. right. apply in_map. exact H.
Qed.

(** Growing a tree: each (child, parent) has its parent in the tree already and the pair, one way round or the
    other, in the list. *)
Definition swap (p : N * N) : N * N := (snd p, fst p).
Fixpoint grow (n : N) (s : PositiveSet.t) (tree : list (N * N)) (r : PositiveSet.t) : option PositiveSet.t :=
  match tree with
  | [] => Some r
  | (c, p) :: tree =>
      if (c <? n) && (p <? n) && PositiveSet.mem (vkey p) r && (PositiveSet.mem (pkey (p, c)) s || PositiveSet.mem (pkey (c, p)) s)
      then grow n s tree (PositiveSet.add (vkey c) r) else None
  end.
Fixpoint from (v : N) (k : nat) : list N := match k with O => [] | S k => v :: from (N.succ v) k end.
Lemma from_in k : forall v w, In w (from v k) <-> v <= w < v + N.of_nat k.
Proof. induction k as [|k IH]; intros v w; cbn [from In]; [lia|]. rewrite IH. lia. Qed.
(** every vertex below n is in the tree grown from the root *)
Definition spans (n : N) (s : PositiveSet.t) (root : N) (tree : list (N * N)) : bool :=
  match grow n s tree (PositiveSet.add (vkey root) PositiveSet.empty) with
  | Some r => forallb (fun v => PositiveSet.mem (vkey v) r) (from 0 (N.to_nat n))
  | None => false
  end.

Inductive nreach (E : N -> N -> Prop) : N -> N -> Prop :=
| nrefl u : nreach E u u
| nstep u v w : nreach E u v -> E v w -> nreach E u w.
Lemma grow_spec n s E tree root : (forall p, fst p < n -> snd p < n -> PositiveSet.mem (pkey p) s = true -> E (fst p) (snd p) /\ E (snd p) (fst p)) ->
  forall r r', (forall v, PositiveSet.mem (vkey v) r = true -> nreach E root v) -> grow n s tree r = Some r' -> forall v, PositiveSet.mem (vkey v) r' = true -> nreach E root v.
Proof.
  intros HE. induction tree as [|[c p] tree IH]; intros r r' Hr G v Hv; cbn [grow] in G.
  - injection G as <-. apply Hr, Hv.
  - destruct ((c <? n) && (p <? n) && PositiveSet.mem (vkey p) r && (PositiveSet.mem (pkey (p, c)) s || PositiveSet.mem (pkey (c, p)) s)) eqn:C; [|discriminate].
    rewrite !andb_true_iff, orb_true_iff, !N.ltb_lt in C. destruct C as (((C1 & C2) & C3) & C4).
    apply (IH (PositiveSet.add (vkey c) r) r'); try assumption.
    intros w Hw. rewrite PositiveSet.mem_spec, PositiveSet.add_spec, <- PositiveSet.mem_spec in Hw. destruct Hw as [Hw|Hw]; [|apply Hr, Hw].
    apply vkey_inj in Hw. subst w. apply (nstep _ _ p); [apply Hr, C3|].
    destruct C4 as [C4|C4]; [apply (HE (p, c)); assumption|apply (HE (c, p)); assumption].
Qed.
Lemma spans_spec n s E root tree : (forall p, fst p < n -> snd p < n -> PositiveSet.mem (pkey p) s = true -> E (fst p) (snd p) /\ E (snd p) (fst p)) ->
  spans n s root tree = true -> forall v, v < n -> nreach E root v.
Proof.
  unfold spans. intros HE H v Hv. destruct (grow n s tree (PositiveSet.add (vkey root) PositiveSet.empty)) as [r|] eqn:G; [|discriminate].
  rewrite forallb_forall in H. apply (grow_spec n s E tree root HE _ _) with (2 := G).
  - intros w Hw. rewrite PositiveSet.mem_spec, PositiveSet.add_spec, <- PositiveSet.mem_spec, empty_mem in Hw. destruct Hw as [Hw|Hw]; [|discriminate]. apply vkey_inj in Hw. subst w. constructor.
  - apply H. apply from_in. lia.
Qed.
