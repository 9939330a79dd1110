(** C98: what Tikhonov regression and classification predict is a weighted average of the labels. *)
From Coq Require Import Reals Lra Lia List Arith Bool.
From Coq Require Import List.
From Verif.Base Require Import RSum Prelude LinAlg Solve.
From Verif.Spec Require Import Matrix NdArray GraphSpec Reach LapSpec LearnSpec StabSpec.
From Verif.Model Require Import Sparse Graph Traverse Filter Utils Reduction Learning.
From Verif.Proofs Require Import SparseFacts InitFacts EdgeFacts LapFacts SubgraphFacts MaxPrinciple SchurFacts TikhonovFacts TraverseFacts.
From Verif.Props Require Import Core Laplacian Traversal Caching UtilsProps ReductionProps LearningProps StabilityProps.
Import ListNotations.
Open Scope R_scope.

(** What the solver is asked for column y: (M + tau L) x = M y when tau > 0, the harmonic extension of the labels when tau <= 0. *)
Definition solves (G : graph) (M : list bool) (tau : R) (y s : vec) : Prop :=
  (0 < tau -> cg_ok G M tau y s) /\ (tau <= 0 -> spsolve_labels_ok G M y s).
(** a and b are joined by an edge, whatever its direction *)
Definition linked (G : graph) (a b : nat) : Prop := has_arc G a b \/ has_arc G b a.

Section Predict.
Variables (n : nat) (L : mat) (M : list bool) (t : R).
Hypothesis HL : is_laplacian n L.
Hypothesis HC : lcov n L M.
Hypothesis Ht : 0 <= t.
(** both systems at once: the equation of a labelled vertex is x + t L x = y, that of another L x = 0 *)
Let op (x : vec) (i : nat) : R := if nth i M false then x i + t * mulv n L x i else mulv n L x i.
Let rhs (y : vec) (i : nat) : R := if nth i M false then y i else 0.
Definition predicts (y x : vec) : Prop := forall i, (i < n)%nat -> op x i = rhs y i.

Lemma op_tik x y : 0 < t -> (predicts y x <-> forall i, (i < n)%nat -> tik_op n L M t x i = zero_unlabelled M y i).
Proof.
  intros H. unfold predicts, op, rhs, tik_op, zero_unlabelled, mval. split; intros E i Hi; specialize (E i Hi); destruct (nth i M false); try lra.
  - rewrite E. ring.
  - assert (Q : t * mulv n L x i = 0) by lra. apply Rmult_integral in Q. lra.
Qed.
Lemma predicts_range y x v : predicts y x -> (v < n)%nat ->
  exists a b, (a < n)%nat /\ (b < n)%nat /\ nth a M false = true /\ nth b M false = true /\ y a <= x v <= y b.
Proof.
  intros E Hv. destruct (Rle_lt_or_eq_dec 0 t Ht) as [Hp|E0].
  - pose proof (proj1 (op_tik x y Hp) E) as Et.
    destruct (tik_lower n L M t y x HL Hp HC Et v Hv) as (a & Ha & La & H1).
    destruct (tik_upper n L M t y x HL Hp HC Et v Hv) as (b & Hb & Lb & H2).
    exists a, b. repeat (split; [assumption|]). assumption.
  - destruct (harm_range n L M x HL HC) with (v := v) as (a & b & Ha & Hb & La & Lb & H); [|exact Hv|].
    + intros i Hi Hf. specialize (E i Hi). unfold op, rhs in E. rewrite Hf in E. exact E.
    + exists a, b. repeat (split; [assumption|]). pose proof (E a Ha) as E1. pose proof (E b Hb) as E2. unfold op, rhs in E1, E2.
      rewrite La in E1. rewrite Lb in E2. rewrite <- E0 in E1, E2. lra.
Qed.
Lemma predicts_sub y y' x x' : predicts y x -> predicts y' x' -> predicts (fun i => y i - y' i) (fun i => x i - x' i).
Proof.
  intros E E' i Hi. specialize (E i Hi). specialize (E' i Hi). unfold op, rhs in *. rewrite mulv_minus. destruct (nth i M false); lra.
Qed.
Lemma predicts_unique y x x' : predicts y x -> predicts y x' -> veq n x x'.
Proof.
  intros E E' v Hv. destruct (predicts_range _ _ v (predicts_sub _ _ _ _ E E') Hv) as (a & b & _ & _ & _ & _ & H). lra.
Qed.
Lemma predicts_exists y : exists x, predicts y x.
Proof.
  destruct (solve_exists n (fun i j => if nth i M false then idm i j + t * L i j else L i j) (rhs y)) as (x & Hx).
  - intros x Hx. assert (Z : predicts (fun _ => 0) x).
    { intros i Hi. specialize (Hx i Hi). unfold op, rhs. unfold mulv in Hx. destruct (nth i M false); [|exact Hx]. rewrite <- Hx.
      rewrite <- (mulv_id n x i Hi) at 1. unfold mulv. rewrite <- rsum_scal_l, <- rsum_plus. apply rsum_ext. intros; ring. }
    intros v Hv. destruct (predicts_range _ _ v Z Hv) as (a & b & _ & _ & _ & _ & H). lra.
  - exists x. intros i Hi. rewrite <- (Hx i Hi). unfold op, mulv. destruct (nth i M false); [|reflexivity].
    rewrite <- (mulv_id n x i Hi) at 1. unfold mulv. rewrite <- rsum_scal_l, <- rsum_plus. apply rsum_ext. intros; ring.
Qed.
Lemma predicts_one : predicts (fun _ => 1) (fun _ => 1).
Proof. intros i Hi. unfold op, rhs. rewrite (lap_const n L i HL Hi). destruct (nth i M false); ring. Qed.
Lemma predicts_sum (y x : nat -> vec) (c : vec) m : (forall k, (k < m)%nat -> predicts (y k) (x k)) ->
  predicts (fun i => \sum_(k < m) (y k i * c k)) (fun i => \sum_(k < m) (x k i * c k)).
Proof.
  intros E i Hi. unfold op, rhs.
  assert (Em : mulv n L (fun i => \sum_(k < m) (x k i * c k)) i = \sum_(k < m) (mulv n L (x k) i * c k)).
  { rewrite (mulv_sum n L m (fun k v => x k v * c k) i). apply rsum_ext. intros k Hk. unfold mulv. rewrite <- rsum_scal_r. apply rsum_ext. intros; ring. }
  rewrite Em. destruct (nth i M false) eqn:Ei.
  - rewrite <- rsum_scal_l, <- rsum_plus. apply rsum_ext. intros k Hk. specialize (E k Hk i Hi). unfold op, rhs in E. rewrite Ei in E. rewrite <- E. ring.
  - apply rsum_0. intros k Hk. specialize (E k Hk i Hi). unfold op, rhs in E. rewrite Ei in E. rewrite E. ring.
Qed.
Lemma predicts_rhs y y' x : (forall i, (i < n)%nat -> nth i M false = true -> y i = y' i) -> predicts y x -> predicts y' x.
Proof.
  intros H E i Hi. rewrite (E i Hi). unfold rhs. destruct (nth i M false) eqn:Ei; [apply H; assumption|reflexivity].
Qed.

(** column i of the weights: the prediction from a 1 at vertex i and 0 elsewhere *)
Definition weights_ok (P : mat) : Prop :=
  (forall i, (i < n)%nat -> nth i M false = true -> predicts (unitv i) (fun v => P v i)) /\ (forall v i, nth i M false = false -> P v i = 0).
Lemma weights_exist : exists P, weights_ok P.
Proof.
  destruct (fin_choice n (fun i x => predicts (unitv i) x) (fun _ => 0)) as (X & HX); [intros i Hi; apply predicts_exists|].
  exists (fun v i => if nth i M false then X i v else 0). split; [|intros v i Hf; rewrite Hf; reflexivity].
  intros i Hi Hl. rewrite Hl. apply HX. exact Hi.
Qed.
Variable P : mat.
Hypothesis HP : weights_ok P.
Lemma weights_answer y x : predicts y x -> forall v, (v < n)%nat -> x v = \sum_(i < n) (P v i * y i).
Proof.
  intros E v Hv. apply (predicts_unique y x (fun v => \sum_(i < n) (P v i * y i)) E); [|exact Hv].
  apply (predicts_rhs (fun v => \sum_(i < n) ((if nth i M false then unitv i v else 0) * y i)) y).
  - intros i Hi Hl. rewrite (rsum_single n _ i); [rewrite Hl; unfold unitv; rewrite Nat.eqb_refl; ring|exact Hi|].
    intros k Hk Hne. unfold unitv. destruct (Nat.eqb_spec i k); [congruence|]. destruct (nth k M false); ring.
  - apply predicts_sum with (y := fun i v => if nth i M false then unitv i v else 0) (x := fun i v => P v i). intros k Hk. destruct (nth k M false) eqn:Ek.
    + apply HP; assumption.
    + intros i Hi. unfold op, rhs. assert (Z : mulv n L (fun v => P v k) i = 0).
      { unfold mulv. apply rsum_0. intros j Hj. rewrite (proj2 HP j k Ek). ring. }
      rewrite Z, (proj2 HP i k Ek). destruct (nth i M false); ring.
Qed.
Lemma weights_nonneg v i : (v < n)%nat -> (i < n)%nat -> 0 <= P v i.
Proof.
  intros Hv Hi. destruct (nth i M false) eqn:Ei; [|rewrite (proj2 HP v i Ei); lra].
  destruct (predicts_range _ _ v (proj1 HP i Hi Ei) Hv) as (a & b & _ & _ & _ & _ & H). unfold unitv in H. destruct (Nat.eqb a i); lra.
Qed.
Lemma weights_sum v : (v < n)%nat -> \sum_(i < n) P v i = 1.
Proof.
  intros Hv. pose proof (weights_answer _ _ predicts_one v Hv) as H. rewrite H. apply rsum_ext. intros; ring.
Qed.
Lemma weights_averaging : averaging n M P.
Proof.
  split; [exact weights_nonneg|]. split; [|exact weights_sum]. intros v i Hn. apply (proj2 HP). unfold labelled in Hn. destruct (nth i M false); [contradiction Hn; reflexivity|reflexivity].
Qed.
Lemma weights_keep v i : t = 0 -> (v < n)%nat -> (i < n)%nat -> nth v M false = true -> P v i = if Nat.eqb i v then 1 else 0.
Proof.
  intros E0 Hv Hi Hl. destruct (nth i M false) eqn:Ei.
  - pose proof (proj1 HP i Hi Ei v Hv) as H. unfold op, rhs in H. rewrite Hl, E0 in H. unfold unitv in H. rewrite Nat.eqb_sym in H. lra.
  - rewrite (proj2 HP v i Ei). destruct (Nat.eqb_spec i v); [congruence|reflexivity].
Qed.
Lemma weights_sym i j : (i < n)%nat -> (j < n)%nat -> nth i M false = true -> nth j M false = true -> 0 < t -> P i j = P j i.
Proof.
  intros Hi Hj Li Lj Hp. pose proof HL as (Hs & _).
  pose proof (proj1 (op_tik _ _ Hp) (proj1 HP i Hi Li)) as Ei. pose proof (proj1 (op_tik _ _ Hp) (proj1 HP j Hj Lj)) as Ej.
  set (xi := fun v => P v i) in *. set (xj := fun v => P v j) in *.
  assert (S : dot n xi (tik_op n L M t xj) = dot n xj (tik_op n L M t xi)).
  { rewrite (dot_ext n xi xi (tik_op n L M t xj) (fun k => mval M k * xj k + t * mulv n L xj k)) by (intros ? ?; reflexivity).
    rewrite (dot_ext n xj xj (tik_op n L M t xi) (fun k => mval M k * xi k + t * mulv n L xi k)) by (intros ? ?; reflexivity).
    rewrite !dot_plus_r, !dot_scal_r, (dot_mulv_sym n L xi xj Hs), (dot_comm n (mulv n L xi) xj). f_equal. unfold dot. apply rsum_ext. intros; ring. }
  assert (D : forall x k, (k < n)%nat -> nth k M false = true -> dot n x (zero_unlabelled M (unitv k)) = x k).
  { intros x k Hk Lk. unfold dot. rewrite (rsum_single n _ k Hk); [unfold zero_unlabelled, unitv; rewrite Lk, Nat.eqb_refl; ring|].
    intros a Ha Hne. unfold zero_unlabelled, unitv. destruct (Nat.eqb_spec a k); [contradiction|]. destruct (nth a M false); ring. }
  rewrite (dot_ext n xi xi _ (zero_unlabelled M (unitv j))) in S by (try (intros ? ?; reflexivity); exact Ej).
  rewrite (dot_ext n xj xj _ (zero_unlabelled M (unitv i))) in S by (try (intros ? ?; reflexivity); exact Ei).
  rewrite !D in S by assumption. unfold xi, xj in S. symmetry. exact S.
Qed.

(** ** which labels count *)
Definition counts (a b : nat) : Prop := lap_edge n L a b /\ (0 < t \/ nth a M false = false).
Lemma op_at_zero x a b : (forall v, (v < n)%nat -> 0 <= x v) -> lap_edge n L a b -> x a = 0 -> 0 < x b -> mulv n L x a < 0.
Proof.
  intros Hx (Ha & Hb & Hne & Hw) X0 Xb. rewrite (lap_apply n L x a HL Ha). pose proof HL as (_ & _ & Hneg).
  apply Ropp_lt_cancel. rewrite Ropp_0, <- rsum_opp.
  assert (T : forall j, (j < n)%nat -> 0 <= - (- L a j * (x a - x j))).
  { intros j Hj. rewrite X0. destruct (Nat.eq_dec a j) as [<-|Hne']; [rewrite X0; lra|]. specialize (Hneg a j Ha Hj Hne'). specialize (Hx j Hj). nra. }
  apply (rsum_pos n _ b T Hb). rewrite X0. specialize (Hneg a b Ha Hb Hne). nra.
Qed.
Lemma weights_positive v i : (i < n)%nat -> nth i M false = true -> reach counts v i -> (v < n)%nat -> 0 < P v i.
Proof.
  intros Hi Li R Hv. pose proof (proj1 HP i Hi Li) as E. set (x := fun v => P v i) in *. change (0 < x v).
  assert (Hx : forall v, (v < n)%nat -> 0 <= x v) by (intros u Hu; apply weights_nonneg; assumption).
  assert (K : forall u, reach (fun a b => counts b a) i u -> 0 < x u).
  { intros u Q. revert E. clearbody x. induction Q as [w|w b c Q IH Hs]; intros E.
    - specialize (E w Hi). unfold op, rhs in E. rewrite Li in E. unfold unitv in E. rewrite Nat.eqb_refl in E.
      destruct (Rle_lt_or_eq_dec 0 (x w) (Hx w Hi)) as [|X0]; [assumption|]. exfalso.
      pose proof (lap_at_min n L x w HL Hi) as H. specialize (H ltac:(intros k Hk; rewrite <- X0; apply Hx; exact Hk)). nra.
    - specialize (IH Hi Li R E). destruct Hs as (He & Hc). pose proof He as (Hc1 & Hb1 & Hne & _). specialize (E c Hc1).
      destruct (Rle_lt_or_eq_dec 0 (x c) (Hx c Hc1)) as [|X0]; [assumption|]. exfalso.
      pose proof (op_at_zero x c b Hx He (eq_sym X0) IH) as H. unfold op, rhs in E.
      assert (U : 0 <= unitv w c) by (unfold unitv; destruct (Nat.eqb c w); lra).
      destruct (nth c M false); [|lra]. destruct Hc as [Hc|Hc]; [|discriminate]. nra. }
  apply K. apply (reach_rev counts (fun a b => counts b a)); [intros a b H; exact H|exact R].
Qed.
Lemma counts_dec v i : (v < n)%nat -> reach counts v i \/ ~ reach counts v i.
Proof.
  intros Hv. set (nb := fun a => filter (fun b => (Nat.ltb a n && negb (Nat.eqb a b) && negb (Reqb (L a b) 0) && (Rltb 0 t || negb (nth a M false)))%bool) (seq 0 n)).
  assert (Hnb : forall a b, In b (nb a) <-> counts a b).
  { intros a b. unfold nb, counts, lap_edge. rewrite filter_In, in_seq, !andb_true_iff, !negb_true_iff, orb_true_iff, negb_true_iff, Nat.ltb_lt, Nat.eqb_neq, Rltb_true.
    destruct (Reqb_spec (L a b) 0); intuition (try discriminate; try lia; try congruence). }
  destruct (visit_correct n pop_first pop_first_ok false nb ltac:(intros a b H; apply Hnb in H; apply H) (fun _ => false) ltac:(intros; discriminate) v Hv eq_refl []) as (vis & comp & _ & _ & Hc & _).
  destruct (in_dec Nat.eq_dec i comp) as [H|H]; rewrite Hc in H; [left|right; intros R; apply H]; (eapply reach_mono; [|eassumption]); intros a b; apply Hnb.
Qed.
Lemma weights_reach v i : (i < n)%nat -> nth i M false = true -> (v < n)%nat -> ~ reach counts v i -> P v i = 0.
Proof.
  intros Hi Li Hv Hn. destruct (fin_choice n (fun u (b : bool) => b = true <-> reach counts u i) true) as (B & HB).
  { intros u Hu. destruct (counts_dec u i Hu) as [R|R]; [exists true|exists false]; split; try tauto. discriminate. }
  pose proof (proj1 HP i Hi Li) as E. set (x := fun v => P v i) in *. change (x v = 0). clearbody x. pose proof HL as (Hs & _).
  assert (Bi : B i = true) by (apply HB; [exact Hi|apply reach_refl]).
  assert (Bv : B v = false) by (destruct (B v) eqn:Eb; [apply HB in Eb; [contradiction|exact Hv]|reflexivity]).
  assert (Bin : forall u j, (u < n)%nat -> (j < n)%nat -> (0 < t \/ nth u M false = false) -> L u j <> 0 -> B j = true -> B u = true).
  { intros u j Hu Hj Hc Hw Hb. destruct (Nat.eq_dec u j) as [->|Hne]; [exact Hb|]. apply HB; [exact Hu|].
    apply reach_trans with j; [apply reach_one|apply HB; assumption]. split; [|exact Hc]. split; [assumption|]. split; [assumption|]. split; assumption. }
  assert (E' : predicts (unitv i) (fun u => if B u then x u else 0)).
  { intros u Hu. rewrite <- (E u Hu). unfold op. assert (Em : (0 < t \/ nth u M false = false) -> mulv n L (fun u => if B u then x u else 0) u = if B u then mulv n L x u else 0).
    { intros Hc. unfold mulv. destruct (B u) eqn:Bu.
      - apply rsum_ext. intros j Hj. destruct (B j) eqn:Bj; [reflexivity|]. destruct (Req_dec (L u j) 0) as [->|Hw]; [ring|].
        (* j is labelled, otherwise it would reach i through u *)
        destruct Hc as [Hc|Hc]; [exfalso; rewrite (Bin j u Hj Hu (or_introl Hc)) in Bj; [discriminate|rewrite Hs by assumption; exact Hw|exact Bu]|].
        destruct (nth j M false) eqn:Lj; [|exfalso; rewrite (Bin j u Hj Hu (or_intror Lj)) in Bj; [discriminate|rewrite Hs by assumption; exact Hw|exact Bu]].
        destruct (Rle_lt_or_eq_dec 0 t Ht) as [Hp|E0]; [exfalso; rewrite (Bin j u Hj Hu (or_introl Hp)) in Bj; [discriminate|rewrite Hs by assumption; exact Hw|exact Bu]|].
        pose proof (E j Hj) as Ej. unfold op, rhs in Ej. rewrite Lj, <- E0 in Ej. unfold unitv in Ej. destruct (Nat.eqb_spec j i) as [->|]; [congruence|].
        replace (x j) with 0 by lra. ring.
      - apply rsum_0. intros j Hj. destruct (B j) eqn:Bj; [|ring]. destruct (Req_dec (L u j) 0) as [->|Hw]; [ring|]. exfalso.
        rewrite (Bin u j Hu Hj Hc Hw Bj) in Bu. discriminate. }
    destruct (nth u M false) eqn:Lu.
    - destruct (Rle_lt_or_eq_dec 0 t Ht) as [Hp|E0].
      + rewrite Em by (left; exact Hp). destruct (B u) eqn:Bu; [reflexivity|]. pose proof (E u Hu) as Eu. unfold op, rhs in Eu. rewrite Lu in Eu. rewrite Eu. unfold unitv.
        destruct (Nat.eqb_spec u i) as [->|]; [congruence|ring].
      + rewrite <- E0, !Rmult_0_l. destruct (B u) eqn:Bu; [reflexivity|]. pose proof (E u Hu) as Eu. unfold op, rhs in Eu. rewrite Lu, <- E0 in Eu. unfold unitv in Eu.
        destruct (Nat.eqb_spec u i) as [->|]; [congruence|lra].
    - rewrite Em by (right; reflexivity). destruct (B u) eqn:Bu; [reflexivity|]. pose proof (E u Hu) as Eu. unfold op, rhs in Eu. rewrite Lu in Eu. rewrite Eu. reflexivity. }
  pose proof (predicts_unique _ _ _ E E' v Hv) as Q. cbn beta in Q. rewrite Bv in Q. exact Q.
Qed.
End Predict.

(** ** The API *)
Section Graphs.
Variables (G : graph) (M : list bool) (tau : R).
Hypothesis Hb : built G.
Hypothesis Hp : nonneg_weights G.
Hypothesis Hl : g_lap_type G = Combinatorial.
Hypothesis HC : covered G M.
Hypothesis HM : List.length M = g_n_vertices G.
Let n := g_n_vertices G.
Let t := Rmax 0 tau.
Let HLap : is_laplacian n (gL G) := graph_is_laplacian G Hb Hp Hl.
Let HCov : lcov n (gL G) M := covered_lcov G M Hb Hp Hl HC.
Let Ht : 0 <= t := Rmax_l 0 tau.
(** the signal the function returns for one column *)
Definition answer (y s : vec) : vec := if Rltb 0 tau then s else assign y (indu M) s.
Lemma answer_predicts y s : solves G M tau y s -> predicts n (gL G) M t y (answer y s).
Proof.
  intros (H1 & H2). unfold answer, t. destruct (Rlt_dec 0 tau) as [H|H].
  - rewrite (tau_pos tau H), Rmax_right by lra. apply op_tik; [exact H|]. apply (cg_op G M tau y s (H1 H)).
  - rewrite (tau_zero tau) by lra. rewrite Rmax_left by lra. pose proof (spsolve_labels G M y s HM (H2 ltac:(lra))) as HS.
    intros i Hi. destruct (nth i M false) eqn:Ei; [rewrite Rmult_0_l, Rplus_0_r; apply harm_label; exact Ei|].
    apply (harm_zero n (gL G) M y s HM HS i Hi Ei).
Qed.
Lemma regression_answer b y c sig sol : columns n y c sig -> (0 < tau \/ b = false /\ (shape y = [n] \/ c <> 1%nat)) ->
  exists x, regression_tikhonov G b y M tau sol = Ok x /\ shape x = shape y /\ exists xs, columns n x c xs /\
    forall j i, (j < c)%nat -> xs j i = answer (sig j) (sol j) i.
Proof.
  intros Hy Hc. unfold answer. destruct (Rlt_dec 0 tau) as [H|H].
  - rewrite (tau_pos tau H). apply (regression_pos G b y c sig M tau sol Hy HM H).
  - rewrite (tau_zero tau) by lra. destruct Hc as [Hc|(-> & Hc)]; [lra|]. apply (regression_zero G y c sig M tau sol Hy HM ltac:(lra)). unfold n in Hc. tauto.
Qed.
Lemma linked_edge a b : lap_edge n (gL G) a b <-> linked G a b /\ a <> b.
Proof.
  destruct (C09_combinatorial_structure G Hb Hl) as (_ & _ & H3 & _). fold n in H3. unfold lap_edge, linked, has_arc. fold n. split.
  - intros (Ha & Hb' & Hne & Hw). split; [|exact Hne]. rewrite H3 in Hw by assumption.
    destruct (Req_dec (wt G a b) 0) as [E|E]; [right|left; tauto]. split; [exact Hb'|]. split; [exact Ha|]. intros E'. apply Hw. rewrite E, E'. lra.
  - intros (H & Hne). assert (Ha : (a < n)%nat) by tauto. assert (Hb' : (b < n)%nat) by tauto. split; [exact Ha|]. split; [exact Hb'|]. split; [exact Hne|].
    rewrite H3 by assumption. pose proof (Hp a b Ha Hb'). pose proof (Hp b a Hb' Ha). destruct H as [(_ & _ & H)|(_ & _ & H)]; lra.
Qed.
Lemma counts_reach v i : reach (fun a b => linked G a b /\ (0 < tau \/ ~ labelled M a)) v i <-> reach (counts n (gL G) M t) v i.
Proof.
  assert (Et : 0 < tau <-> 0 < t). { unfold t. destruct (Rlt_dec 0 tau); [rewrite Rmax_right by lra|rewrite Rmax_left by lra]; lra. }
  assert (El : forall a, ~ labelled M a <-> nth a M false = false). { intros a. unfold labelled. destruct (nth a M false); split; congruence. }
  split; intros R; (induction R as [|a b c R IH (H1 & H2)]; [apply reach_refl|]).
  - destruct (Nat.eq_dec b c) as [->|Hne]; [exact IH|]. apply reach_step with b; [exact IH|]. split; [apply linked_edge; split; assumption|]. rewrite <- Et, <- El. exact H2.
  - apply reach_step with b; [exact IH|]. split; [apply linked_edge in H1; apply H1|]. rewrite Et, El. exact H2.
Qed.
End Graphs.

(** The weights depend on the graph, the mask and tau only.  A label counts at a vertex exactly if a path leads from the vertex to it: any path
    when tau > 0, a path not leaving a labelled vertex when tau = 0.  Regression averages the measurements with these weights, column by
    column, and classification lets each labelled vertex vote for its class with its weight. *)
Theorem C98_predictions_are_weighted_averages : forall G M tau, built G -> nonneg_weights G -> g_lap_type G = Combinatorial -> covered G M ->
  let n := g_n_vertices G in List.length M = n ->
  exists P, averaging n M P /\
    (forall v i, (v < n)%nat -> (i < n)%nat -> labelled M i ->
      (0 < P v i <-> reach (fun a b => linked G a b /\ (0 < tau \/ ~ labelled M a)) v i)) /\
    (0 < tau -> forall i j, labelled M i -> labelled M j -> P i j = P j i) /\
    (tau <= 0 -> forall v i, (i < n)%nat -> labelled M v -> P v i = if Nat.eqb i v then 1 else 0) /\
    (forall b y c sig sol, columns n y c sig -> (0 < tau \/ b = false /\ (shape y = [n] \/ c <> 1%nat)) ->
      (forall j, (j < c)%nat -> solves G M tau (sig j) (sol j)) ->
      exists x, regression_tikhonov G b y M tau sol = Ok x /\ shape x = shape y /\ exists xs, columns n x c xs /\
        forall j v, (j < c)%nat -> (v < n)%nat -> xs j v = \sum_(i < n) (P v i * sig j i)) /\
    (forall y sol, (0 < n)%nat -> List.length y = n -> (0 < tau \/ exists v, labelled M v /\ nth v y 0%nat <> 0%nat) ->
      (forall c, solves G M tau (fun v => if Nat.eqb c (nth v y 0%nat) then 1 else 0) (sol c)) ->
      exists x C, classification_tikhonov G y M tau sol = Ok x /\ shape x = [n; C] /\
        (forall i, labelled M i -> (nth i y 0 < C)%nat) /\
        forall v c, (v < n)%nat -> (c < C)%nat -> aget x [v; c] = \sum_(i < n) (if Nat.eqb (nth i y 0%nat) c then P v i else 0)).
Proof.
  intros G M tau Hb Hp Hl HC n HM. pose proof (graph_is_laplacian G Hb Hp Hl) as HL. fold n in HL.
  pose proof (covered_lcov G M Hb Hp Hl HC) as HC'. fold n in HC'. pose proof (Rmax_l 0 tau) as Ht.
  assert (Hlt : forall v, labelled M v -> (v < n)%nat).
  { intros v Hv. destruct (lt_dec v n); [assumption|]. unfold labelled in Hv. rewrite nth_overflow in Hv by lia. discriminate. }
  destruct (weights_exist n (gL G) M (Rmax 0 tau) HL HC' Ht) as (P & HP). exists P.
  split; [apply (weights_averaging n (gL G) M (Rmax 0 tau) HL HC' Ht P HP)|]. split; [|split; [|split; [|split]]].
  - intros v i Hv Hi Li. split.
    + intros Q. apply counts_reach; [assumption..|]. destruct (counts_dec n (gL G) M (Rmax 0 tau) v i Hv) as [R|R]; [exact R|].
      pose proof (weights_reach n (gL G) M (Rmax 0 tau) HL HC' Ht P HP v i Hi Li Hv R). lra.
    + intros R. apply (weights_positive n (gL G) M (Rmax 0 tau) HL HC' Ht P HP v i Hi Li); [|exact Hv]. apply counts_reach; assumption.
  - intros H i j Li Lj. apply (weights_sym n (gL G) M (Rmax 0 tau) HL P HP); auto. rewrite Rmax_right; lra.
  - intros H v i Hi Lv. apply (weights_keep n (gL G) M (Rmax 0 tau) P HP); auto. apply Rmax_left. lra.
  - intros b y c sig sol Hy Hc Hs. destruct (regression_answer G M tau HM b y c sig sol Hy Hc) as (x & E & Sx & xs & Hx & Ex).
    exists x. split; [exact E|]. split; [exact Sx|]. exists xs. split; [exact Hx|]. intros j v Hj Hv. rewrite (Ex j v Hj).
    apply (weights_answer n (gL G) M (Rmax 0 tau) HL HC' Ht P HP); [|exact Hv]. apply answer_predicts; [exact HM|apply Hs; exact Hj].
  - intros y sol Hn Hy Hcls Hs. unfold classification_tikhonov. rewrite Hy, HM, Nat.eqb_refl. cbn [negb].
    set (m := mask_labels M y). assert (Lm : List.length m = n) by (unfold m, mask_labels; rewrite map_length, seq_length; exact Hy).
    set (C := S (list_max m)). set (g := fun idx => if Nat.eqb (ix idx 1) (nth (ix idx 0) m 0%nat) then 1 else 0).
    assert (EY : to_logits m = Ok (Arr [n; C] g)).
    { unfold to_logits, C, g. rewrite Lm. clear - Lm Hn. destruct m; [cbn in Lm; lia|reflexivity]. }
    rewrite EY. cbn [bindr].
    assert (Em : forall i, labelled M i -> nth i m 0%nat = nth i y 0%nat).
    { intros i Li. unfold m. rewrite mask_labels_nth by (rewrite Hy; apply Hlt; exact Li). unfold labelled in Li. rewrite Li. reflexivity. }
    assert (HCl : forall i, labelled M i -> (nth i y 0 < C)%nat).
    { intros i Li. rewrite <- (Em i Li). unfold C. pose proof (list_max_ge m i ltac:(rewrite Lm; apply Hlt; exact Li)). lia. }
    assert (Hsol : forall c, solves G M tau (fun v => g [v; c]) (sol c)).
    { intros c. destruct (Hs c) as (S1 & S2). assert (Q : forall i, labelled M i -> g [i; c] = if Nat.eqb c (nth i y 0%nat) then 1 else 0).
      { intros i Li. unfold g, ix. cbn [nth]. rewrite (Em i Li). reflexivity. }
      split; intros H.
      - intros i Hi. rewrite (S1 H i Hi). destruct (nth i M false) eqn:Ei; [symmetry; apply Q; exact Ei|reflexivity].
      - specialize (S2 H). unfold spsolve_labels_ok in *. intros k Hk. rewrite (S2 k Hk). f_equal. apply rsum_ext. intros j Hj. f_equal. symmetry. apply Q.
        pose proof (nth_In _ 0%nat Hj) as I. apply filter_In in I. apply I. }
    assert (Hc : 0 < tau \/ false = false /\ (shape (Arr [n; C] g) = [n] \/ C <> 1%nat)).
    { destruct Hcls as [H|(v & Lv & Hne)]; [left; exact H|]. right. split; [reflexivity|]. right. pose proof (HCl v Lv). lia. }
    destruct (regression_answer G M tau HM false (Arr [n; C] g) C _ sol (columns2 n C g) Hc) as (x & E & Sx & xs & Hx & Ex).
    exists x, C. split; [exact E|]. split; [exact Sx|]. split; [exact HCl|]. intros v c Hv Hcc.
    assert (Exx : aget x [v; c] = xs c v) by (inversion Hx; subst; [discriminate Sx|reflexivity]).
    rewrite Exx, (Ex c v Hcc).
    rewrite (weights_answer n (gL G) M (Rmax 0 tau) HL HC' Ht P HP _ _ (answer_predicts G M tau HM _ _ (Hsol c)) v Hv).
    apply rsum_ext. intros i Hi. destruct (nth i M false) eqn:Ei.
    + unfold g, ix. cbn [nth]. rewrite (Em i Ei), Nat.eqb_sym. destruct (Nat.eqb (nth i y 0%nat) c); ring.
    + rewrite (proj2 HP v i Ei). destruct (Nat.eqb (nth i y 0%nat) c); ring.
Qed.

(** Measurements known up to eps (on the labelled vertices) give predictions known up to eps, everywhere; measurements in other units give the
    prediction in those units. *)
Theorem C98_predictions_are_stable : forall G M tau b b' y y' c sig sig' sol sol' x x', built G -> nonneg_weights G -> g_lap_type G = Combinatorial -> covered G M ->
  let n := g_n_vertices G in List.length M = n -> columns n y c sig -> columns n y' c sig' ->
  (0 < tau \/ b = false /\ b' = false /\ (shape y = [n] \/ c <> 1%nat) /\ shape y' = shape y) ->
  (forall j, (j < c)%nat -> solves G M tau (sig j) (sol j) /\ solves G M tau (sig' j) (sol' j)) ->
  regression_tikhonov G b y M tau sol = Ok x -> regression_tikhonov G b' y' M tau sol' = Ok x' ->
  exists xs xs', columns n x c xs /\ columns n x' c xs' /\ forall j, (j < c)%nat ->
    (forall eps, (forall i, labelled M i -> Rabs (sig j i - sig' j i) <= eps) -> forall v, (v < n)%nat -> Rabs (xs j v - xs' j v) <= eps) /\
    (forall k d, (forall i, labelled M i -> sig' j i = k * sig j i + d) -> forall v, (v < n)%nat -> xs' j v = k * xs j v + d).
Proof.
  intros G M tau b b' y y' c sig sig' sol sol' x x' Hb Hp Hl HC n HM Hy Hy' Hc Hs E E'.
  destruct (C98_predictions_are_weighted_averages G M tau Hb Hp Hl HC HM) as (P & (P0 & P1 & P2) & _ & _ & _ & PR & _). fold n in P0, P1, P2, PR.
  assert (C1 : 0 < tau \/ b = false /\ (shape y = [n] \/ c <> 1%nat)) by tauto.
  assert (C2 : 0 < tau \/ b' = false /\ (shape y' = [n] \/ c <> 1%nat)). { destruct Hc as [|(_ & Q & Q2 & ->)]; tauto. }
  destruct (PR b y c sig sol Hy C1 (fun j Hj => proj1 (Hs j Hj))) as (x1 & E1 & _ & xs & Hx & Ex). rewrite E in E1. injection E1 as <-.
  destruct (PR b' y' c sig' sol' Hy' C2 (fun j Hj => proj2 (Hs j Hj))) as (x2 & E2 & _ & xs' & Hx' & Ex'). rewrite E' in E2. injection E2 as <-.
  exists xs, xs'. split; [exact Hx|]. split; [exact Hx'|]. intros j Hj.
  assert (Off : forall v i a, ~ labelled M i -> P v i * a = 0) by (intros v i a Hn; rewrite (P1 v i Hn); ring).
  assert (Lab : forall i, labelled M i \/ ~ labelled M i) by (intros i; unfold labelled; destruct (nth i M false); [left|right]; congruence). split.
  - intros eps He v Hv. rewrite (Ex j v Hj Hv), (Ex' j v Hj Hv), <- rsum_minus. eapply Rle_trans; [apply rsum_abs|].
    rewrite <- (Rmult_1_l eps), <- (P2 v Hv), <- rsum_scal_r. apply rsum_le. intros i Hi. specialize (P0 v i Hv Hi).
    destruct (Lab i) as [Li|Li]; [|rewrite !(Off v i _ Li), Rminus_0_r, Rabs_R0; lra].
    rewrite <- Rmult_minus_distr_l, Rabs_mult, (Rabs_pos_eq _ P0). apply Rmult_le_compat_l; [exact P0|apply He; exact Li].
  - intros k d Hk v Hv. rewrite (Ex j v Hj Hv), (Ex' j v Hj Hv). rewrite <- (Rmult_1_l d), <- (P2 v Hv), <- rsum_scal_l, <- rsum_scal_r, <- rsum_plus.
    apply rsum_ext. intros i Hi. destruct (Lab i) as [Li|Li]; [rewrite (Hk i Li); ring|rewrite (P1 v i Li); ring].
Qed.

(** Denoising (every vertex measured): measurements, weights and the solver may all be inexact.  If the solver leaves residuals r, r', the two answers
    are no further apart than the measurements, the residuals and tau times the change of L applied to the first answer. *)
Theorem C98_denoising_is_stable : forall G G' tau y y' x x' r r', built G -> nonneg_weights G -> g_lap_type G = Combinatorial ->
  built G' -> nonneg_weights G' -> g_lap_type G' = Combinatorial -> g_n_vertices G' = g_n_vertices G -> 0 < tau ->
  let n := g_n_vertices G in
  (forall i, (i < n)%nat -> x i + tau * mulv n (gL G) x i = y i + r i) ->
  (forall i, (i < n)%nat -> x' i + tau * mulv n (gL G') x' i = y' i + r' i) ->
  norm2 n (fun i => x i - x' i) <= norm2 n (fun i => y i - y' i) + (norm2 n r + norm2 n r') + tau * norm2 n (fun i => mulv n (gL G) x i - mulv n (gL G') x i).
Proof.
  intros G G' tau y y' x x' r r' Hb Hp Hl Hb' Hp' Hl' Hn Ht n E E'.
  pose proof (graph_is_laplacian G' Hb' Hp' Hl') as HL'. rewrite Hn in HL'. fold n in HL'. pose proof (lap_psd _ _ HL') as PSD.
  set (d := fun i => x i - x' i). set (q := fun i => mulv n (gL G) x i - mulv n (gL G') x i).
  assert (D : forall i, (i < n)%nat -> d i + tau * mulv n (gL G') d i = (y i - y' i) + ((r i + - 1 * r' i) + - tau * q i)).
  { intros i Hi. specialize (E i Hi). specialize (E' i Hi). unfold d, q. rewrite mulv_minus. lra. }
  set (h := fun i => (y i - y' i) + ((r i + - 1 * r' i) + - tau * q i)).
  assert (Q : norm2 n d * norm2 n d <= norm2 n d * norm2 n h).
  { rewrite norm2_sq. eapply Rle_trans; [|apply dot_le_norm]. rewrite (dot_ext n d d h (fun i => d i + tau * mulv n (gL G') d i)); [|intros ? ?; reflexivity|intros i Hi; symmetry; apply D; exact Hi].
    rewrite dot_plus_r, dot_scal_r. pose proof (PSD d) as S. unfold quad in S. unfold normsq. nra. }
  assert (B : norm2 n d <= norm2 n h).
  { pose proof (norm2_nonneg n d). pose proof (norm2_nonneg n h). destruct (Rle_lt_or_eq_dec 0 (norm2 n d) ltac:(assumption)) as [Hd|<-]; [|assumption].
    apply Rmult_le_reg_l with (norm2 n d); assumption. }
  eapply Rle_trans; [exact B|]. unfold h.
  eapply Rle_trans; [apply (norm2_plus n (fun i => y i - y' i) (fun i => (r i + - 1 * r' i) + - tau * q i))|]. rewrite Rplus_assoc. apply Rplus_le_compat_l.
  eapply Rle_trans; [apply (norm2_plus n (fun i => r i + - 1 * r' i) (fun i => - tau * q i))|]. apply Rplus_le_compat.
  - eapply Rle_trans; [apply (norm2_plus n r (fun i => - 1 * r' i))|]. rewrite norm2_scal, Rabs_left by lra. lra.
  - rewrite norm2_scal, Rabs_left by lra. rewrite Ropp_involutive. apply Rle_refl.
Qed.

(** The path of three vertices, its ends measured as 0 and 4, tau = 1 and tau = 0: the middle vertex weighs both ends equally; with tau = 1 the ends
    weigh 3/4 for themselves and 1/4 for each other. *)
Example C98_ex : exists G, built G /\ nonneg_weights G /\ g_lap_type G = Combinatorial /\ covered G [true; false; true] /\ g_n_vertices G = 3%nat /\
  solves G [true; false; true] 1 (fun v => nth v [0; 7; 4] 0) (fun v => nth v [1; 2; 3] 0) /\
  solves G [true; false; true] 0 (fun v => nth v [0; 7; 4] 0) (fun _ => 2) /\
  (forall P, averaging 3 [true; false; true] P ->
    regression_tikhonov G false (Arr [3%nat] (fun idx => nth (nth 0 idx 0%nat) [0; 7; 4] 0)) [true; false; true] 1 (fun _ v => nth v [1; 2; 3] 0) =
      Ok (Arr [3%nat] (fun idx => nth (ix idx 0) [1; 2; 3] 0)) /\
    ((forall v, (v < 3)%nat -> nth v [1; 2; 3] 0 = \sum_(i < 3) (P v i * nth i [0; 7; 4] 0)) -> P 0%nat 2%nat = 1 / 4 /\ P 1%nat 2%nat = 1 / 2 /\ P 2%nat 2%nat = 3 / 4)).
Proof.
  destruct (p3_graph None) as (G & Hb & Hn & Ht & Hc & Hp & Hu & HC & HL). exists G.
  split; [exact Hb|]. split; [exact Hp|]. split; [exact Ht|]. split; [intros v Hv; exists 0%nat; split; [lia|]; split; [reflexivity|]; apply HC; lia|]. split; [exact Hn|].
  split; [split; [intros _|lra]|split; [split; [lra|intros _]|]].
  - intros i Hi. rewrite Hn in *. unfold mulv. rewrite (rsum_ext 3 _ (fun j => nth (i * 3 + j) [1; -1; 0; -1; 2; -1; 0; -1; 1] 0 * nth j [1; 2; 3] 0)) by (intros j Hj; rewrite HL by assumption; reflexivity).
    destruct i as [|[|[|i]]]; [| | |lia]; cbn; lra.
  - unfold spsolve_labels_ok. rewrite Hn. cbn. intros k Hk. destruct k; [|lia]. rewrite !HL by lia. cbn. lra.
  - intros P (_ & P1 & P2). split.
    + unfold regression_tikhonov. rewrite (tau_pos 1) by lra. rewrite Hn. reflexivity.
    + intros H. pose proof (H 0%nat ltac:(lia)) as H0. pose proof (H 1%nat ltac:(lia)) as H1. pose proof (H 2%nat ltac:(lia)) as H2.
      assert (Z : forall v, P v 1%nat = 0) by (intros v; apply P1; discriminate). cbn [rsum nth] in H0, H1, H2. rewrite !Z in *. lra.
Qed.
