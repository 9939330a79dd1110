(** C113: what adding, removing or leaving out labels does to the predictions of regression_tikhonov. *)
From Coq Require Import Reals Lra Lia List Arith Bool String ZArith Classical.
From Verif.Base Require Import RSum Prelude LinAlg Solve.
From Verif.Spec Require Import Matrix NdArray GraphSpec Reach LapSpec LearnSpec StabSpec.
From Verif.Model Require Import Sparse Graph Traverse Utils Learning.
From Verif.Proofs Require Import SparseFacts InitFacts EdgeFacts LapFacts MaxPrinciple TikhonovFacts TraverseFacts.
From Verif.Props Require Import Core Laplacian Traversal Caching UtilsProps ReductionProps LearningProps StabilityProps VotingProps.
Import ListNotations.
Open Scope R_scope.
Open Scope list_scope.

(** Every label of M is a label of M'. *)
Definition more_labels (M M' : list bool) : Prop := forall v, labelled M v -> labelled M' v.

Lemma more_covered G M M' : more_labels M M' -> covered G M -> covered G M'.
Proof. intros H HC v Hv. destruct (HC v Hv) as (l & A & B & C). exists l. split; [exact A|]. split; [apply H; exact B|exact C]. Qed.

Section Labels.
  Variables (n : nat) (L : mat) (M M' : list bool) (t : R).
  Hypothesis HL : is_laplacian n L.
  Hypothesis HS : more_labels M M'.
  (** a prediction is also the prediction from more labels, if it has their values *)
  Lemma predicts_more y y' x : predicts n L M t y x -> (forall v, (v < n)%nat -> labelled M v -> y' v = y v) ->
    (forall v, (v < n)%nat -> labelled M' v -> ~ labelled M v -> y' v = x v) -> predicts n L M' t y' x.
  Proof using HS.
    intros P H1 H2 i Hi. specialize (P i Hi). cbv beta in *. destruct (nth i M false) eqn:Ei.
    - rewrite (HS i Ei : nth i M' false = true). rewrite (H1 i Hi Ei). exact P.
    - destruct (nth i M' false) eqn:Ei'; [|exact P]. rewrite (H2 i Hi Ei') by (unfold labelled; rewrite Ei; discriminate). rewrite P. ring.
  Qed.
  (** and conversely, for tau > 0: labels that are met exactly can be dropped *)
  Lemma predicts_fewer y y' x : 0 < t -> predicts n L M' t y' x -> (forall v, (v < n)%nat -> labelled M v -> y' v = y v) ->
    (forall v, (v < n)%nat -> labelled M' v -> ~ labelled M v -> y' v = x v) -> predicts n L M t y x.
  Proof using HS.
    intros Ht P H1 H2 i Hi. specialize (P i Hi). cbv beta in *. destruct (nth i M false) eqn:Ei.
    - rewrite (HS i Ei : nth i M' false = true) in P. rewrite <- (H1 i Hi Ei). exact P.
    - destruct (nth i M' false) eqn:Ei'; [|exact P]. rewrite (H2 i Hi Ei') in P by (unfold labelled; rewrite Ei; discriminate).
      assert (Q : t * mulv n L x i = 0) by lra. destruct (Rmult_integral _ _ Q); [lra|assumption].
  Qed.
  Lemma predicts_energy y y' x x' : predicts n L M 0 y x -> predicts n L M' 0 y' x' -> (forall v, (v < n)%nat -> labelled M v -> y' v = y v) ->
    quad n L x' = quad n L x + quad n L (fun i => x' i - x i).
  Proof using HL HS.
    intros P P' H1. pose proof HL as (Hs & _). set (d := fun i => x' i - x i).
    assert (Z : dot n d (mulv n L x) = 0).
    { unfold dot. apply rsum_0. intros i Hi. pose proof (P i Hi) as Q. pose proof (P' i Hi) as Q'. cbv beta in Q, Q'. unfold d. destruct (nth i M false) eqn:Ei.
      - rewrite (HS i Ei : nth i M' false = true), (H1 i Hi Ei) in Q'. replace (x' i - x i) with 0 by lra. ring.
      - rewrite Q. ring. }
    assert (E : forall i, mulv n L x' i = mulv n L x i + mulv n L d i).
    { intros i. unfold mulv. rewrite <- rsum_plus. apply rsum_ext. intros j Hj. unfold d. ring. }
    assert (Z2 : dot n x (mulv n L d) = 0) by (rewrite (dot_mulv_sym n L x d Hs), dot_comm; exact Z).
    unfold quad. rewrite (dot_ext n x' (fun i => x i + d i) (mulv n L x') (fun i => mulv n L x i + mulv n L d i)).
    - rewrite dot_plus_r, !dot_plus_l, Z, Z2. ring.
    - intros i Hi. unfold d. ring.
    - intros i Hi. apply E.
  Qed.
End Labels.

Section OneOut.
  Variables (n : nat) (L : mat) (M M' : list bool) (t : R) (i : nat).
  Hypothesis HL : is_laplacian n L.
  Hypothesis HC : lcov n L M.
  Hypothesis HC' : lcov n L M'.
  Hypothesis Ht : 0 <= t.
  Hypothesis Hi : (i < n)%nat.
  Hypothesis Li : labelled M i.
  Hypothesis HM : forall v, labelled M' v <-> labelled M v /\ v <> i.
  Let unit_i : vec := fun v => if Nat.eqb v i then 1 else 0.
  Variable u : vec.
  Hypothesis Hu : predicts n L M t unit_i u.
  Lemma influence_range v : (v < n)%nat -> 0 <= u v <= 1.
  Proof using HL HC Ht Hu.
    intros Hv. destruct (predicts_range n L M t HL HC Ht _ _ v Hu Hv) as (a & b & _ & _ & _ & _ & H). unfold unit_i in H.
    destruct (Nat.eqb a i), (Nat.eqb b i); lra.
  Qed.
  Lemma influence_below : 0 < t -> u i < 1.
  Proof using HL HC HC' Ht Hi Li HM Hu.
    intros Tp. pose proof (influence_range i Hi) as R. destruct (Req_dec (u i) 1) as [E|E]; [exfalso|lra].
    assert (Q : predicts n L M' t (fun _ => 0) u).
    { apply (predicts_fewer n L M' M t (fun v H => proj1 (proj1 (HM v) H)) (fun _ => 0) unit_i u Tp Hu).
      - intros v Hv Lv. apply HM in Lv. unfold unit_i. destruct (Nat.eqb_spec v i); [tauto|reflexivity].
      - intros v Hv Lv Nv. destruct (Nat.eq_dec v i) as [->|Ne]; [unfold unit_i; rewrite Nat.eqb_refl; symmetry; exact E|]. exfalso. apply Nv, HM. tauto. }
    destruct (predicts_range n L M' t HL HC' Ht _ _ i Q Hi) as (a & b & _ & _ & _ & _ & H). lra.
  Qed.
  Lemma left_out y y' x z : predicts n L M t y x -> predicts n L M' t y' z -> (forall v, labelled M' v -> y' v = y v) ->
    forall v, (v < n)%nat -> x v - z v = u v * (y i - z i).
  Proof using HL HC Ht Hi Li HM Hu.
    intros P P' Hy v Hv. set (y1 := fun v => if Nat.eqb v i then z i else y v).
    assert (P1 : predicts n L M t y1 z).
    { apply (predicts_more n L M' M t (fun v H => proj1 (proj1 (HM v) H)) y' y1 z P').
      - intros w Hw Lw. rewrite (Hy w Lw). apply HM in Lw. unfold y1. destruct (Nat.eqb_spec w i); [tauto|reflexivity].
      - intros w Hw Lw Nw. unfold y1. destruct (Nat.eqb_spec w i) as [->|Ne]; [reflexivity|]. exfalso. apply Nw, HM. tauto. }
    pose proof (predicts_sub n L M t _ _ _ _ P P1) as D.
    assert (S : predicts n L M t (fun w => y w - y1 w) (fun w => u w * (y i - z i))).
    { intros w Hw. pose proof (Hu w Hw) as Q. cbv beta in Q |- *. assert (E : mulv n L (fun w => u w * (y i - z i)) w = mulv n L u w * (y i - z i)).
      { unfold mulv. rewrite <- rsum_scal_r. apply rsum_ext. intros k Hk. ring. }
      rewrite E. unfold y1. unfold unit_i in Q. destruct (nth w M false).
      - replace (u w * (y i - z i) + t * (mulv n L u w * (y i - z i))) with ((u w + t * mulv n L u w) * (y i - z i)) by ring. rewrite Q.
        destruct (Nat.eqb_spec w i) as [->|]; ring.
      - rewrite Q. ring. }
    apply (predicts_unique n L M t HL HC Ht _ _ _ D S v Hv).
  Qed.
End OneOut.

(** ** The API *)

(** Labels that have the values already predicted change nothing; for tau > 0, labels met exactly can be dropped without changing anything. *)
Theorem C113_predicted_labels_change_nothing : forall G M M' tau b y c sig sol b' y' sig' sol', built G -> nonneg_weights G -> g_lap_type G = Combinatorial ->
  covered G M -> more_labels M M' -> let n := g_n_vertices G in List.length M = n -> List.length M' = n -> columns n y c sig -> columns n y' c sig' ->
  (0 < tau \/ (b = false /\ (shape y = [n] \/ c <> 1%nat)) /\ (b' = false /\ (shape y' = [n] \/ c <> 1%nat))) ->
  (forall j v, (j < c)%nat -> labelled M v -> sig' j v = sig j v) ->
  (forall j, (j < c)%nat -> solves G M tau (sig j) (sol j) /\ solves G M' tau (sig' j) (sol' j)) ->
  exists x xs x' xs', regression_tikhonov G b y M tau sol = Ok x /\ columns n x c xs /\ regression_tikhonov G b' y' M' tau sol' = Ok x' /\ columns n x' c xs' /\
    forall j, (j < c)%nat ->
      ((forall v, labelled M' v -> ~ labelled M v -> sig' j v = xs j v) -> forall v, (v < n)%nat -> xs' j v = xs j v) /\
      (0 < tau -> (forall v, labelled M' v -> ~ labelled M v -> sig' j v = xs' j v) -> forall v, (v < n)%nat -> xs j v = xs' j v) /\
      (tau <= 0 -> quad n (gL G) (xs' j) = quad n (gL G) (xs j) + quad n (gL G) (fun v => xs' j v - xs j v)).
Proof.
  intros G M M' tau b y c sig sol b' y' sig' sol' Hb Hp Hl HC HM n N1 N2 Hy Hy' Hc Hsig Hs.
  pose proof (graph_is_laplacian G Hb Hp Hl) as HL. fold n in HL. pose proof (covered_lcov G M Hb Hp Hl HC) as C1. fold n in C1.
  pose proof (covered_lcov G M' Hb Hp Hl (more_covered G M M' HM HC)) as C2. fold n in C2.
  destruct (regression_answer G M tau N1 b y c sig sol Hy ltac:(fold n; tauto)) as (x & E & _ & xs & Hx & Ex).
  destruct (regression_answer G M' tau N2 b' y' c sig' sol' Hy' ltac:(fold n; tauto)) as (x' & E' & _ & xs' & Hx' & Ex').
  exists x, xs, x', xs'. split; [exact E|]. split; [exact Hx|]. split; [exact E'|]. split; [exact Hx'|]. intros j Hj. destruct (Hs j Hj) as (S1 & S2).
  pose proof (answer_predicts G M tau N1 _ _ S1) as P1. pose proof (answer_predicts G M' tau N2 _ _ S2) as P2. fold n in P1, P2. pose proof (Rmax_l 0 tau) as T0.
  assert (Q1 : predicts n (gL G) M (Rmax 0 tau) (sig j) (xs j)).
  { intros i Hi. pose proof (P1 i Hi) as Q. cbv beta in Q |- *. rewrite (Ex j i Hj), (mulv_ext n (gL G) (gL G) (xs j) (answer M tau (sig j) (sol j)) i); [exact Q|reflexivity|intros k Hk; apply Ex; exact Hj]. }
  assert (Q2 : predicts n (gL G) M' (Rmax 0 tau) (sig' j) (xs' j)).
  { intros i Hi. pose proof (P2 i Hi) as Q. cbv beta in Q |- *. rewrite (Ex' j i Hj), (mulv_ext n (gL G) (gL G) (xs' j) (answer M' tau (sig' j) (sol' j)) i); [exact Q|reflexivity|intros k Hk; apply Ex'; exact Hj]. }
  split; [|split].
  - intros Hv v Hn. apply (predicts_unique n (gL G) M' (Rmax 0 tau) HL C2 T0 (sig' j)); [exact Q2| |exact Hn].
    apply (predicts_more n (gL G) M M' (Rmax 0 tau) HM (sig j) (sig' j) (xs j) Q1); [intros; apply Hsig; assumption|intros; apply Hv; assumption].
  - intros Tp Hv v Hn. apply (predicts_unique n (gL G) M (Rmax 0 tau) HL C1 T0 (sig j)); [exact Q1| |exact Hn].
    apply (predicts_fewer n (gL G) M M' (Rmax 0 tau) HM (sig j) (sig' j) (xs' j)); [rewrite Rmax_right; lra|exact Q2|intros; apply Hsig; assumption|intros; apply Hv; assumption].
  - intros Tz. rewrite Rmax_left in Q1, Q2 by exact Tz. apply (predicts_energy n (gL G) M M' HL HM (sig j) (sig' j) (xs j) (xs' j) Q1 Q2). intros; apply Hsig; assumption.
Qed.

(** Leaving out the label i: every prediction moves by a fixed multiple u v of the error then made at i.  For tau > 0 that error is read off the
    prediction that uses the label (leave-one-out cross-validation without any refit). *)
Theorem C113_leave_one_out : forall G M M' tau i, built G -> nonneg_weights G -> g_lap_type G = Combinatorial -> 0 <= tau ->
  let n := g_n_vertices G in List.length M = n -> List.length M' = n -> labelled M i -> (forall v, labelled M' v <-> labelled M v /\ v <> i) -> covered G M' ->
  exists u, (forall v, (v < n)%nat -> 0 <= u v <= 1) /\ (0 < tau -> u i < 1) /\
    (forall s, solves G M tau (fun v => if Nat.eqb v i then 1 else 0) s ->
       exists x, regression_tikhonov G false (Arr [n] (fun idx => if Nat.eqb (nth 0 idx 0%nat) i then 1 else 0)) M tau (fun _ => s) = Ok x /\ forall v, (v < n)%nat -> aget x [v] = u v) /\
    forall b y c sig sol b' y' sig' sol', columns n y c sig -> columns n y' c sig' ->
      (0 < tau \/ (b = false /\ (shape y = [n] \/ c <> 1%nat)) /\ (b' = false /\ (shape y' = [n] \/ c <> 1%nat))) ->
      (forall j v, (j < c)%nat -> labelled M' v -> sig' j v = sig j v) ->
      (forall j, (j < c)%nat -> solves G M tau (sig j) (sol j) /\ solves G M' tau (sig' j) (sol' j)) ->
      exists x xs x' xs', regression_tikhonov G b y M tau sol = Ok x /\ columns n x c xs /\ regression_tikhonov G b' y' M' tau sol' = Ok x' /\ columns n x' c xs' /\
        forall j, (j < c)%nat -> (forall v, (v < n)%nat -> xs j v - xs' j v = u v * (sig j i - xs' j i)) /\
          (0 < tau -> sig j i - xs' j i = (sig j i - xs j i) / (1 - u i)).
Proof.
  intros G M M' tau i Hb Hp Hl T0 n N1 N2 Li HM HC'.
  assert (HS : more_labels M' M) by (intros v H; apply HM in H; apply H).
  pose proof (more_covered G M' M HS HC') as HC.
  pose proof (graph_is_laplacian G Hb Hp Hl) as HL. fold n in HL. pose proof (covered_lcov G M Hb Hp Hl HC) as C1. fold n in C1.
  pose proof (covered_lcov G M' Hb Hp Hl HC') as C2. fold n in C2.
  assert (Hi : (i < n)%nat).
  { destruct (le_lt_dec n i) as [Q|Q]; [|exact Q]. unfold labelled in Li. rewrite nth_overflow in Li by lia. discriminate. }
  destruct (predicts_exists n (gL G) M tau HL C1 T0 (fun v => if Nat.eqb v i then 1 else 0)) as (u & Hu). exists u.
  assert (Et : Rmax 0 tau = tau) by (apply Rmax_right; exact T0).
  split; [|split; [|split]].
  - intros v Hv. apply (influence_range n (gL G) M tau i HL C1 T0 u Hu v Hv).
  - intros Tp. apply (influence_below n (gL G) M M' tau i HL C1 C2 T0 Hi Li HM u Hu Tp).
  - intros s S1. pose proof (answer_predicts G M tau N1 _ _ S1) as P. fold n in P. rewrite Et in P.
    assert (Hcol : columns n (Arr [n] (fun idx => if Nat.eqb (nth 0 idx 0%nat) i then 1 else 0)) 1 (fun _ v => if Nat.eqb v i then 1 else 0)) by (apply (columns1 n (fun idx => if Nat.eqb (nth 0 idx 0%nat) i then 1 else 0))).
    destruct (regression_answer G M tau N1 false _ 1 _ (fun _ => s) Hcol ltac:(right; split; [reflexivity|left; reflexivity])) as (x & E & Sx & xs & Hx & Ex).
    exists x. split; [exact E|]. intros v Hv. assert (EV : aget x [v] = xs 0%nat v) by (inversion Hx; subst; [reflexivity|discriminate Sx]).
    rewrite EV, (Ex 0%nat v ltac:(lia)). apply (predicts_unique n (gL G) M tau HL C1 T0 _ _ _ P Hu v Hv).
  - intros b y c sig sol b' y' sig' sol' Hy Hy' Hc Hsig Hs.
    destruct (regression_answer G M tau N1 b y c sig sol Hy ltac:(fold n; tauto)) as (x & E & _ & xs & Hx & Ex).
    destruct (regression_answer G M' tau N2 b' y' c sig' sol' Hy' ltac:(fold n; tauto)) as (x' & E' & _ & xs' & Hx' & Ex').
    exists x, xs, x', xs'. split; [exact E|]. split; [exact Hx|]. split; [exact E'|]. split; [exact Hx'|]. intros j Hj. destruct (Hs j Hj) as (S1 & S2).
    pose proof (answer_predicts G M tau N1 _ _ S1) as P1. pose proof (answer_predicts G M' tau N2 _ _ S2) as P2. fold n in P1, P2. rewrite Et in P1, P2.
    pose proof (left_out n (gL G) M M' tau i HL C1 T0 Hi Li HM u Hu _ _ _ _ P1 P2 (fun v H => Hsig j v Hj H)) as D.
    assert (D1 : forall v, (v < n)%nat -> xs j v - xs' j v = u v * (sig j i - xs' j i)) by (intros v Hv; rewrite (Ex j v Hj), !(Ex' j _ Hj); apply D; exact Hv).
    split; [exact D1|]. intros Tp. pose proof (influence_below n (gL G) M M' tau i HL C1 C2 T0 Hi Li HM u Hu Tp) as U1. pose proof (D1 i Hi) as Q.
    apply (Rmult_eq_reg_r (1 - u i)); [|lra]. unfold Rdiv. rewrite Rmult_assoc, Rinv_l by lra. lra.
Qed.

(** The path of three vertices of C98_ex, labelled 0 and 4 at its ends, tau = 1: the prediction is (1, 2, 3); without the second label it is 0 everywhere.
    The influence of the second label is (1/4, 1/2, 3/4): 3 - 0 = 3/4 * (4 - 0), and 4 - 0 = (4 - 3) / (1 - 3/4). *)
Example C113_ex : exists G, built G /\ nonneg_weights G /\ g_lap_type G = Combinatorial /\ g_n_vertices G = 3%nat /\ covered G [true; false; false] /\
  more_labels [true; false; false] [true; false; true] /\ (forall v, labelled [true; false; false] v <-> labelled [true; false; true] v /\ v <> 2%nat) /\
  solves G [true; false; true] 1 (fun v => nth v [0; 7; 4] 0) (fun v => nth v [1; 2; 3] 0) /\
  solves G [true; false; false] 1 (fun v => nth v [0; 7; 4] 0) (fun _ => 0) /\
  solves G [true; false; true] 1 (fun v => if Nat.eqb v 2 then 1 else 0) (fun v => nth v [1 / 4; 1 / 2; 3 / 4] 0) /\
  solves G [true; true; true] 1 (fun v => nth v [0; 2; 4] 0) (fun v => nth v [1; 2; 3] 0).
Proof.
  destruct (p3_graph None) as (G & Hb & Hn & Ht & _ & Hp & Hu & HC & HL). exists G.
  split; [exact Hb|]. split; [exact Hp|]. split; [exact Ht|]. split; [exact Hn|].
  split; [intros v Hv; exists 0%nat; split; [lia|]; split; [reflexivity|]; apply HC; lia|].
  assert (HM : forall v, labelled [true; false; false] v <-> labelled [true; false; true] v /\ v <> 2%nat).
  { intros v. unfold labelled. destruct v as [|[|[|v]]]; cbn; try (split; [intros H; split; [exact H|lia]|tauto]).
    - split; [discriminate|intros (_ & H); exfalso; apply H; reflexivity].
    }
  split; [intros v H; apply HM in H; apply H|]. split; [exact HM|].
  assert (Row : forall z i, (i < 3)%nat -> mulv 3 (gL G) z i = \sum_(j < 3) (nth (i * 3 + j) [1; -1; 0; -1; 2; -1; 0; -1; 1] 0 * z j)).
  { intros z i Hi. unfold mulv. apply rsum_ext. intros j Hj. rewrite HL by assumption. reflexivity. }
  repeat split; try lra; intros _ i Hi; rewrite Hn in *; rewrite Row by exact Hi; destruct i as [|[|[|i]]]; try lia; cbn; lra.
Qed.
