(** C114: the classes of classification_tikhonov can be renamed, merged and predicted one at a time; when a logit is 0 or 1. *)
From Coq Require Import Reals Lra Lia List Arith Bool String ZArith Classical.
From Verif.Base Require Import RSum Prelude LinAlg Solve.
From Verif.Spec Require Import Matrix NdArray GraphSpec Reach LapSpec LearnSpec StabSpec.
From Verif.Model Require Import Sparse Graph Traverse Utils Learning.
From Verif.Proofs Require Import SparseFacts InitFacts EdgeFacts LapFacts MaxPrinciple TikhonovFacts TraverseFacts.
From Verif.Props Require Import Core Laplacian Traversal Caching UtilsProps ReductionProps LearningProps StabilityProps VotingProps.
Import ListNotations.
Open Scope R_scope.
Open Scope list_scope.

(** The labels a vertex hears of: those at the end of a path from it (for tau = 0, a path that passes through no other label). *)
Definition hears (G : graph) (M : list bool) (tau : R) (v i : nat) : Prop :=
  labelled M i /\ reach (fun a b => linked G a b /\ (0 < tau \/ ~ labelled M a)) v i.
(** The labels are accepted: with tau = 0 at least one of them has a class other than 0. *)
Definition accepted (M : list bool) (tau : R) (y : list nat) : Prop := 0 < tau \/ exists v, labelled M v /\ nth v y 0%nat <> 0%nat.
(** The solver answers the system of each class. *)
Definition solves_classes (G : graph) (M : list bool) (tau : R) (y : list nat) (sol : nat -> vec) : Prop :=
  forall c, solves G M tau (fun v => if Nat.eqb c (nth v y 0%nat) then 1 else 0) (sol c).

(** Classes replaced by a function of them: the logits of the classes that f sends to k add up to the logit of k.  (f injective: renaming; otherwise merging.) *)
Theorem C114_classes_rename_and_merge : forall G M tau f y y' sol sol', built G -> nonneg_weights G -> g_lap_type G = Combinatorial -> covered G M ->
  let n := g_n_vertices G in (0 < n)%nat -> List.length M = n -> List.length y = n -> List.length y' = n ->
  (forall i, labelled M i -> nth i y' 0%nat = f (nth i y 0%nat)) -> accepted M tau y -> accepted M tau y' -> solves_classes G M tau y sol -> solves_classes G M tau y' sol' ->
  exists x C x' C', classification_tikhonov G y M tau sol = Ok x /\ shape x = [n; C] /\ classification_tikhonov G y' M tau sol' = Ok x' /\ shape x' = [n; C'] /\
    forall v k, (v < n)%nat -> (k < C')%nat -> aget x' [v; k] = \sum_(c < C) (if Nat.eqb (f c) k then aget x [v; c] else 0).
Proof.
  intros G M tau f y y' sol sol' Hb Hp Hl HC n Hn HM Ly Ly' Hf A A' S S'.
  destruct (C98_predictions_are_weighted_averages G M tau Hb Hp Hl HC HM) as (P & (P0 & P1 & P2) & _ & _ & _ & _ & PC). fold n in P0, P1, P2, PC.
  destruct (PC y sol Hn Ly A S) as (x & C & E & Sx & HCl & Ex). destruct (PC y' sol' Hn Ly' A' S') as (x' & C' & E' & Sx' & _ & Ex').
  exists x, C, x', C'. split; [exact E|]. split; [exact Sx|]. split; [exact E'|]. split; [exact Sx'|]. intros v k Hv Hk. rewrite (Ex' v k Hv Hk).
  rewrite (rsum_ext C _ (fun c => \sum_(i < n) (if Nat.eqb (f c) k then if Nat.eqb (nth i y 0%nat) c then P v i else 0 else 0))).
  2:{ intros c Hc. destruct (Nat.eqb (f c) k); [apply Ex; assumption|]. symmetry. apply rsum_0. reflexivity. }
  rewrite rsum_swap. apply rsum_ext. intros i Hi. destruct (nth i M false) eqn:Ei.
  - rewrite (Hf i Ei). rewrite (rsum_single C _ (nth i y 0%nat) (HCl i Ei)).
    + rewrite Nat.eqb_refl. reflexivity.
    + intros c Hc Ne. destruct (Nat.eqb (f c) k); [|reflexivity]. destruct (Nat.eqb_spec (nth i y 0%nat) c); [exfalso; auto|reflexivity].
  - assert (Z : P v i = 0) by (apply P1; unfold labelled; rewrite Ei; discriminate). rewrite Z. rewrite rsum_0; [destruct (Nat.eqb _ _); reflexivity|].
    intros c Hc. destruct (Nat.eqb (f c) k), (Nat.eqb (nth i y 0%nat) c); reflexivity.
Qed.

(** One class against the rest: the column of a class is the regression on its indicator. *)
Theorem C114_one_class_at_a_time : forall G M tau y sol, built G -> nonneg_weights G -> g_lap_type G = Combinatorial -> covered G M ->
  let n := g_n_vertices G in (0 < n)%nat -> List.length M = n -> List.length y = n -> accepted M tau y -> solves_classes G M tau y sol ->
  exists x C, classification_tikhonov G y M tau sol = Ok x /\ shape x = [n; C] /\
    forall c z s, (c < C)%nat -> (forall i, labelled M i -> z i = if Nat.eqb (nth i y 0%nat) c then 1 else 0) -> solves G M tau z s ->
      exists r, regression_tikhonov G false (Arr [n] (fun idx => z (nth 0 idx 0%nat))) M tau (fun _ => s) = Ok r /\ forall v, (v < n)%nat -> aget x [v; c] = aget r [v].
Proof.
  intros G M tau y sol Hb Hp Hl HC n Hn HM Ly A S.
  destruct (C98_predictions_are_weighted_averages G M tau Hb Hp Hl HC HM) as (P & (P0 & P1 & P2) & _ & _ & _ & PR & PC). fold n in P0, P1, P2, PR, PC.
  destruct (PC y sol Hn Ly A S) as (x & C & E & Sx & HCl & Ex). exists x, C. split; [exact E|]. split; [exact Sx|]. intros c z s Hc Hz Hs.
  destruct (PR false (Arr [n] (fun idx => z (nth 0 idx 0%nat))) 1%nat (fun _ => z) (fun _ => s) (columns1 n (fun idx => z (nth 0 idx 0%nat)))
              (or_intror (conj eq_refl (or_introl eq_refl))) (fun _ _ => Hs)) as (r & Er & Sr & xs & Hx & Exs).
  exists r. split; [exact Er|]. intros v Hv. assert (EV : aget r [v] = xs 0%nat v) by (inversion Hx; subst; [reflexivity|discriminate Sr]).
  rewrite EV, (Exs 0%nat v ltac:(lia) Hv), (Ex v c Hv Hc). apply rsum_ext. intros i Hi. destruct (nth i M false) eqn:Ei.
  - rewrite (Hz i Ei). destruct (Nat.eqb (nth i y 0%nat) c); ring.
  - assert (Z : P v i = 0) by (apply P1; unfold labelled; rewrite Ei; discriminate). rewrite Z. destruct (Nat.eqb _ _); ring.
Qed.

(** The logit of a class is positive iff the vertex hears of a label of the class, and 1 iff it hears of no other class. *)
Theorem C114_certain_and_impossible_classes : forall G M tau y sol, built G -> nonneg_weights G -> g_lap_type G = Combinatorial -> covered G M ->
  let n := g_n_vertices G in (0 < n)%nat -> List.length M = n -> List.length y = n -> accepted M tau y -> solves_classes G M tau y sol ->
  exists x C, classification_tikhonov G y M tau sol = Ok x /\ shape x = [n; C] /\
    forall v c, (v < n)%nat -> (c < C)%nat ->
      (0 < aget x [v; c] <-> exists i, hears G M tau v i /\ nth i y 0%nat = c) /\
      (aget x [v; c] = 1 <-> forall i, hears G M tau v i -> nth i y 0%nat = c).
Proof.
  intros G M tau y sol Hb Hp Hl HC n Hn HM Ly A S.
  destruct (C98_predictions_are_weighted_averages G M tau Hb Hp Hl HC HM) as (P & (P0 & P1 & P2) & PP & _ & _ & _ & PC). fold n in P0, P1, P2, PP, PC.
  destruct (PC y sol Hn Ly A S) as (x & C & E & Sx & HCl & Ex). exists x, C. split; [exact E|]. split; [exact Sx|]. intros v c Hv Hc. rewrite (Ex v c Hv Hc).
  assert (Lt : forall i, labelled M i -> (i < n)%nat).
  { intros i Li. destruct (le_lt_dec n i) as [Q|Q]; [|exact Q]. unfold labelled in Li. rewrite nth_overflow in Li by lia. discriminate. }
  assert (N0 : forall i, (i < n)%nat -> 0 <= if Nat.eqb (nth i y 0%nat) c then P v i else 0) by (intros i Hi; destruct (Nat.eqb _ _); [apply P0; assumption|lra]).
  split; split.
  - intros Q. apply NNPP. intros No. rewrite rsum_0 in Q; [lra|]. intros i Hi. destruct (Nat.eqb_spec (nth i y 0%nat) c) as [Ec|]; [|reflexivity].
    destruct (nth i M false) eqn:Ei; [|apply P1; unfold labelled; rewrite Ei; discriminate].
    destruct (Rle_lt_or_eq_dec _ _ (P0 v i Hv Hi)) as [Z|Z]; [|symmetry; exact Z]. exfalso. apply No. exists i. split; [|exact Ec]. split; [exact Ei|]. apply (PP v i Hv Hi Ei). exact Z.
  - intros (i & (Li & R) & Ec). pose proof (Lt i Li) as Hi. apply (rsum_pos n _ i N0 Hi). rewrite Ec, Nat.eqb_refl. apply (PP v i Hv Hi Li). exact R.
  - intros Q i (Li & R). pose proof (Lt i Li) as Hi. destruct (Nat.eq_dec (nth i y 0%nat) c) as [|Ne]; [assumption|exfalso].
    assert (D : 0 < \sum_(k < n) (P v k - if Nat.eqb (nth k y 0%nat) c then P v k else 0)).
    { apply (rsum_pos n _ i).
      - intros k Hk. pose proof (P0 v k Hv Hk). destruct (Nat.eqb _ _); lra.
      - exact Hi.
      - destruct (Nat.eqb_spec (nth i y 0%nat) c); [contradiction|]. rewrite Rminus_0_r. apply (PP v i Hv Hi Li). exact R. }
    rewrite rsum_minus in D. rewrite Q in D. pose proof (P2 v Hv) as S1. change (rsum n (fun k => P v k)) with (rsum n (P v)) in S1. lra.
  - intros All. rewrite <- (P2 v Hv). apply rsum_ext. intros i Hi. destruct (Nat.eqb_spec (nth i y 0%nat) c) as [|Ne]; [reflexivity|].
    destruct (nth i M false) eqn:Ei; [|symmetry; apply P1; unfold labelled; rewrite Ei; discriminate].
    destruct (Rle_lt_or_eq_dec _ _ (P0 v i Hv Hi)) as [Z|Z]; [exfalso|exact Z]. apply Ne, All. split; [exact Ei|]. apply (PP v i Hv Hi Ei). exact Z.
Qed.

(** The path of three vertices, with class 2 at one end and class 1 at the other, tau = 1; the classes are exchanged. *)
Example C114_ex : exists G, built G /\ nonneg_weights G /\ g_lap_type G = Combinatorial /\ g_n_vertices G = 3%nat /\ covered G [true; false; true] /\
  (forall i, labelled [true; false; true] i -> nth i [1; 0; 2]%nat 0%nat = (3 - nth i [2; 0; 1]%nat 0%nat)%nat) /\
  accepted [true; false; true] 0 [2; 0; 1]%nat /\ accepted [true; false; true] 1 [2; 0; 1]%nat /\
  solves_classes G [true; false; true] 1 [2; 0; 1]%nat (fun c => match c with 1%nat => fun v => nth v [1 / 4; 1 / 2; 3 / 4] 0 | 2%nat => fun v => nth v [3 / 4; 1 / 2; 1 / 4] 0 | _ => fun _ => 0 end) /\
  solves_classes G [true; false; true] 1 [1; 0; 2]%nat (fun c => match c with 2%nat => fun v => nth v [1 / 4; 1 / 2; 3 / 4] 0 | 1%nat => fun v => nth v [3 / 4; 1 / 2; 1 / 4] 0 | _ => fun _ => 0 end) /\
  hears G [true; false; true] 1 1 0 /\ hears G [true; false; true] 1 1 2 /\ ~ hears G [true; false; true] 0 0 2.
Proof.
  destruct (p3_graph None) as (G & Hb & Hn & Ht & _ & Hp & Hu & HC & HL). exists G.
  split; [exact Hb|]. split; [exact Hp|]. split; [exact Ht|]. split; [exact Hn|].
  split; [intros v Hv; exists 0%nat; split; [lia|]; split; [reflexivity|]; apply HC; lia|].
  split. { intros i Li. unfold labelled in Li. destruct i as [|[|[|i]]]; cbn in *; try reflexivity; try discriminate. destruct i; discriminate. }
  split; [right; exists 0%nat; split; [reflexivity|discriminate]|]. split; [left; lra|].
  assert (Row : forall z i, (i < 3)%nat -> mulv 3 (gL G) z i = \sum_(j < 3) (nth (i * 3 + j) [1; -1; 0; -1; 2; -1; 0; -1; 1] 0 * z j)).
  { intros z i Hi. unfold mulv. apply rsum_ext. intros j Hj. rewrite HL by assumption. reflexivity. }
  split; [|split].
  1,2: intros c; split; [intros _|lra]; intros i Hi; rewrite Hn in *; rewrite Row by exact Hi; destruct c as [|[|[|c]]]; destruct i as [|[|[|i]]]; try lia; cbn; lra.
  assert (R : forall v i, (v < 3)%nat -> (i < 3)%nat -> reach (fun a b => linked G a b /\ (0 < 1 \/ ~ labelled [true; false; true] a)) v i).
  { intros v i Hv Hi. apply (reach_mono (has_arc G)); [intros a b Q; split; [left; exact Q|left; lra]|]. apply HC; lia. }
  split; [split; [reflexivity|apply R; lia]|]. split; [split; [reflexivity|apply R; lia]|].
  intros (_ & Q). assert (K : forall a b, reach (fun a b => linked G a b /\ (0 < 0 \/ ~ labelled [true; false; true] a)) a b -> a = 0%nat -> b = 0%nat).
  { intros a b W. induction W as [a|a b d W IH (_ & [Z|Z])]; [auto|lra|]. intros ->. specialize (IH eq_refl). subst b. exfalso. apply Z. reflexivity. }
  specialize (K _ _ Q eq_refl). discriminate.
Qed.
