(** C42, C43: the projection, gradient and step of classification_tikhonov_simplex. *)
From Coq Require Import Reals Lra Lia List Arith Bool Permutation.
From Coq Require Import List.
From Verif.Base Require Import RSum Prelude LinAlg.
From Verif.Spec Require Import Matrix NdArray GraphSpec Reach LapSpec LearnSpec.
From Verif.Model Require Import Sparse Graph Filter Learning.
From Verif.Proofs Require Import SparseFacts InitFacts EdgeFacts LapFacts SubgraphFacts MaxPrinciple.
From Verif.Props Require Import Core Laplacian Traversal Caching UtilsProps ReductionProps.
Import ListNotations.
Open Scope R_scope.

(** ** C42: the projection *)
Lemma sorts_len d y idx : sorts d y idx -> List.length idx = d.
Proof. intros (P & _). rewrite (Permutation_length P). apply seq_length. Qed.
Lemma sorts_sum d y idx (f : nat -> R) : sorts d y idx -> rsum d f = \sum_(k < d) f (nth k idx 0%nat).
Proof.
  intros H. pose proof (sorts_len d y idx H) as Hl. rewrite <- lsum_map_seq0. rewrite <- (lsum_perm _ _ (Permutation_map f (proj1 H))).
  rewrite <- (rsum_nth_map idx 0%nat f), Hl. reflexivity.
Qed.
Lemma sorts_onto d y idx i : sorts d y idx -> (i < d)%nat -> exists k, (k < d)%nat /\ nth k idx 0%nat = i.
Proof.
  intros H Hi. pose proof (sorts_len d y idx H) as Hl. assert (Hin : In i idx).
  { apply (Permutation_in _ (Permutation_sym (proj1 H))). apply in_seq. lia. }
  destruct (In_nth _ _ 0%nat Hin) as (k & Hk & E). exists k. split; [lia|exact E].
Qed.
Lemma tail_split f k d : (k < d)%nat -> tail_sum f k d = f k + tail_sum f (S k) d.
Proof.
  intros Hk. unfold tail_sum. replace (d - k)%nat with (S (d - S k)) by lia. rewrite rsum_S_first. rewrite Nat.add_0_r. f_equal.
  apply rsum_ext. intros i Hi. f_equal. lia.
Qed.
Lemma evalpL_alt d y idx k : evalpL d y idx k = tail_sum (fun i => y (nth i idx 0%nat)) k d - INR (d - k) * y (nth k idx 0%nat) - 1.
Proof. unfold evalpL, tail_sum. rewrite rsum_minus, rsum_const. reflexivity. Qed.
Lemma evalpL_last d y idx : (0 < d)%nat -> evalpL d y idx (d - 1) = -1.
Proof.
  intros Hd. unfold evalpL, tail_sum. replace (d - (d - 1))%nat with 1%nat by lia. cbn. rewrite Nat.add_0_r. ring.
Qed.
Lemma evalpL_pred d y idx k : (S k < d)%nat -> evalpL d y idx k = tail_sum (fun i => y (nth i idx 0%nat)) (S k) d - INR (d - S k) * y (nth k idx 0%nat) - 1.
Proof.
  intros Hk. rewrite evalpL_alt, tail_split by lia. replace (d - k)%nat with (S (d - S k)) by lia. rewrite S_INR. ring.
Qed.
Lemma bisect_spec d y idx fuel : forall lo hi, (hi - lo <= fuel)%nat -> (lo < hi)%nat -> (hi < d)%nat ->
  0 <= evalpL d y idx lo -> evalpL d y idx hi <= 0 ->
  exists k, bisect (S fuel) d y idx lo hi = Some (S k) /\ (S k < d)%nat /\ 0 <= evalpL d y idx k /\ evalpL d y idx (S k) <= 0.
Proof.
  induction fuel as [|fuel IH]; intros lo hi Hf Hlt Hd Hlo Hhi; [lia|]. cbn [bisect]. destruct (Nat.ltb_spec 1 (hi - lo)) as [H1|H1].
  - set (mid := Nat.div (lo + hi) 2).
    assert (Hmid : (lo < mid < hi)%nat).
    { unfold mid. split.
      - apply Nat.div_le_lower_bound; lia.
      - apply Nat.div_lt_upper_bound; lia. }
    destruct (Rltb 0 (evalpL d y idx mid)) eqn:E.
    + apply Rltb_true in E. apply IH; try lia; lra.
    + assert (evalpL d y idx mid <= 0). { destruct (Rle_dec (evalpL d y idx mid) 0); [assumption|]. exfalso. assert (0 < evalpL d y idx mid) by lra. apply Rltb_true in H. congruence. }
      apply IH; try lia; lra.
  - exists lo. assert (hi = S lo) by lia. subst hi. split; [reflexivity|]. split; [exact Hd|]. split; assumption.
Qed.
(** Where the search stops: the threshold separates the k smallest entries from the others. *)
Lemma bisectsearch_spec d y idx fuel : (0 < d)%nat -> (d <= fuel)%nat ->
  exists k, bisectsearch fuel d y idx = Some k /\ (k < d)%nat /\ evalpL d y idx k <= 0 /\ forall j, k = S j -> 0 <= evalpL d y idx j.
Proof.
  intros Hd Hf. unfold bisectsearch. destruct (Rltb (evalpL d y idx 0) 0) eqn:E.
  - apply Rltb_true in E. exists 0%nat. split; [reflexivity|]. split; [exact Hd|]. split; [lra|]. intros j Hj; discriminate.
  - assert (H0 : 0 <= evalpL d y idx 0). { destruct (Rlt_dec (evalpL d y idx 0) 0) as [H|H]; [apply Rltb_true in H; congruence|lra]. }
    assert (d <> 1)%nat. { intros ->. pose proof (evalpL_last 1 y idx ltac:(lia)) as H. cbn in H. cbn in H0. lra. }
    destruct fuel as [|fuel]; [lia|].
    destruct (bisect_spec d y idx fuel 0 (d - 1)) as (k & E1 & Hk & Ha & Hb'); try lia; [exact H0|rewrite evalpL_last by exact Hd; lra|].
    exists (S k). split; [exact E1|]. split; [exact Hk|]. split; [exact Hb'|]. intros j Hj. injection Hj as <-. exact Ha.
Qed.
Lemma max_shift a b : (a <= b -> Rmax 0 (b - a) = b - a) /\ (b <= a -> Rmax 0 (b - a) = 0).
Proof. split; intros H; [rewrite Rmax_right by lra|rewrite Rmax_left by lra]; lra. Qed.

(** For every row y with d >= 1 entries and every index list that sorts it, the bisection stops (d rounds are enough) and the result is the point of
    the probability simplex closest to y, and the only one. *)
Theorem C42_projection_is_the_closest_point d y idx : (0 < d)%nat -> sorts d y idx ->
  exists x, proj_row d d y idx = Some x /\ simplex d x /\
    forall z, simplex d z -> dist2 d y x + dist2 d x z <= dist2 d y z.
Proof.
  intros Hd HS. destruct (bisectsearch_spec d y idx d Hd (le_n d)) as (k & E & Hk & Hle & Hge).
  unfold proj_row. rewrite E. set (lam := (tail_sum (fun i => y (nth i idx 0%nat)) k d - 1) / INR (d - k)).
  assert (Hpos : 0 < INR (d - k)) by (apply lt_0_INR; lia).
  assert (Hlam : INR (d - k) * lam = tail_sum (fun i => y (nth i idx 0%nat)) k d - 1) by (unfold lam; field; lra).
  assert (Hup : lam <= y (nth k idx 0%nat)). { rewrite evalpL_alt in Hle. apply (Rmult_le_reg_l (INR (d - k))); [exact Hpos|]. lra. }
  assert (Hlow : forall j, (j < k)%nat -> y (nth j idx 0%nat) <= lam).
  { intros j Hj. destruct k as [|k]; [lia|]. specialize (Hge k eq_refl). rewrite evalpL_pred in Hge by lia.
    apply Rle_trans with (y (nth k idx 0%nat)); [apply (proj2 HS); lia|]. apply (Rmult_le_reg_l (INR (d - S k))); [exact Hpos|]. lra. }
  assert (Hhigh : forall j, (k <= j)%nat -> (j < d)%nat -> lam <= y (nth j idx 0%nat)).
  { intros j Hj Hjd. apply Rle_trans with (y (nth k idx 0%nat)); [exact Hup|apply (proj2 HS); lia]. }
  set (x := fun i => Rmax 0 (y i - lam)).
  assert (Hsum : rsum d x = 1).
  { rewrite (sorts_sum d y idx x HS). replace d with (k + (d - k))%nat at 1 by lia. rewrite rsum_split.
    rewrite (rsum_0 k) by (intros j Hj; unfold x; apply (proj2 (max_shift _ _)); apply Hlow; exact Hj).
    rewrite (rsum_ext (d - k) _ (fun i => y (nth (k + i) idx 0%nat) - lam)) by (intros i Hi; unfold x; apply (proj1 (max_shift _ _)); apply Hhigh; lia).
    rewrite rsum_minus, rsum_const. unfold tail_sum in Hlam. cbv beta in Hlam. lra. }
  exists x. split; [reflexivity|]. split; [split; [intros i Hi; apply Rmax_l|exact Hsum]|].
  intros z (Hz0 & Hz1). unfold dist2. rewrite <- rsum_plus.
  assert (Hkey : \sum_(i < d) ((y i - x i) * (z i - x i)) <= 0).
  { apply Rle_trans with (\sum_(i < d) (lam * (z i - x i))).
    - apply rsum_le. intros i Hi. specialize (Hz0 i Hi). unfold x. destruct (Rle_dec lam (y i)) as [H|H].
      + rewrite (proj1 (max_shift _ _) H). apply Req_le. ring.
      + rewrite (proj2 (max_shift lam (y i))) by lra. nra.
    - rewrite rsum_scal_l, rsum_minus. change (rsum d z) with (\sum_(i < d) z i). rewrite Hz1, Hsum. lra. }
  apply Rle_trans with (\sum_(i < d) (((y i - z i) * (y i - z i)) + 2 * ((y i - x i) * (z i - x i)))).
  - apply rsum_le. intros i Hi. apply Req_le. ring.
  - rewrite rsum_plus, rsum_scal_l. lra.
Qed.
(** A sorting exists for every row, and a concrete projection: (1, 1, 0) goes to (1/2, 1/2, 0). *)
Lemma sorts_sig d y : {idx | sorts d y idx}.
Proof.
  assert (H : forall l, {l' | Permutation l' l /\ forall i j, (i <= j)%nat -> (j < List.length l')%nat -> y (nth i l' 0%nat) <= y (nth j l' 0%nat)}).
  { induction l as [|a l (l' & P & S)].
    - exists []. split; [constructor|]. cbn. intros; lia.
    - assert (I : forall l', (forall i j, (i <= j)%nat -> (j < List.length l')%nat -> y (nth i l' 0%nat) <= y (nth j l' 0%nat)) ->
        {m | Permutation m (a :: l') /\ (forall i j, (i <= j)%nat -> (j < List.length m)%nat -> y (nth i m 0%nat) <= y (nth j m 0%nat)) /\
          (y (nth 0 m 0%nat) = y a \/ exists b t, l' = b :: t /\ y b <= y (nth 0 m 0%nat))}).
      { clear. induction l' as [|b l' IH]; intros S.
        - exists [a]. split; [apply Permutation_refl|]. split; [|left; reflexivity]. cbn. intros i j Hi Hj. assert (i = 0 /\ j = 0)%nat as (-> & ->) by lia. lra.
        - destruct (Rle_dec (y a) (y b)) as [H|H].
          + exists (a :: b :: l'). split; [apply Permutation_refl|]. split; [|left; reflexivity].
            intros i j Hi Hj. destruct i as [|i], j as [|j]; try lia; [lra| |apply S; cbn in *; lia].
            apply Rle_trans with (y b); [exact H|]. apply (S 0%nat j); cbn in *; lia.
          + destruct IH as (m & P & Sm & Hh). { intros i j Hi Hj. apply (S (Datatypes.S i) (Datatypes.S j)); cbn; lia. }
            exists (b :: m). split; [apply (Permutation_trans (perm_skip b P)); apply perm_swap|]. split.
            * intros i j Hi Hj. destruct i as [|i], j as [|j]; try lia; [lra| |apply Sm; cbn in *; lia].
              assert (Hb0 : y b <= y (nth 0 m 0%nat)).
              { destruct Hh as [->|(c & t & -> & Hc)]; [lra|]. apply Rle_trans with (y c); [|exact Hc]. apply (S 0%nat 1%nat); cbn; lia. }
              apply Rle_trans with (y (nth 0 m 0%nat)); [exact Hb0|]. apply (Sm 0%nat j); cbn in *; lia.
            * right. exists b, l'. split; [reflexivity|]. cbn. lra. }
      destruct (I l' S) as (m & Pm & Sm & _). exists m. split; [apply (Permutation_trans Pm); apply perm_skip; exact P|exact Sm]. }
  destruct (H (seq 0 d)) as (l' & P & S). exists l'. split; [exact P|]. intros i j Hi Hj. apply S; [exact Hi|]. rewrite (Permutation_length P), seq_length. exact Hj.
Qed.
Lemma sorts_exists d y : exists idx, sorts d y idx.
Proof. destruct (sorts_sig d y) as (idx & H). exists idx. exact H. Qed.
Example C42_ex : let y := fun i => if Nat.eqb i 2 then 0 else 1 in
  sorts 3 y [2; 0; 1]%nat /\ exists x, proj_row 3 3 y [2; 0; 1]%nat = Some x /\ x 0%nat = / 2 /\ x 1%nat = / 2 /\ x 2%nat = 0.
Proof.
  intros y. split.
  - split; [apply (Permutation_trans (perm_swap _ _ _)); apply perm_skip; apply perm_swap|].
    intros i j Hi Hj. destruct j as [|[|[|j]]]; [| | |lia]; destruct i as [|[|[|i]]]; try lia; unfold y; cbn; lra.
  - unfold proj_row. replace (bisectsearch 3 3 y [2; 0; 1]%nat) with (Some 1%nat).
    2: { unfold bisectsearch. replace (evalpL 3 y [2; 0; 1]%nat 0) with 1 by (unfold evalpL, tail_sum, y; cbn; lra).
      destruct (Rltb 1 0) eqn:E; [apply Rltb_true in E; lra|]. cbn [bisect Nat.ltb Nat.leb Nat.sub].
      change (Nat.div (0 + 2) 2) with 1%nat. replace (evalpL 3 y [2; 0; 1]%nat 1) with (-1) by (unfold evalpL, tail_sum, y; cbn; lra).
      destruct (Rltb 0 (-1)) eqn:E2; [apply Rltb_true in E2; lra|]. reflexivity. }
    eexists. split; [reflexivity|]. replace ((tail_sum (fun i => y (nth i [2; 0; 1]%nat 0%nat)) 1 3 - 1) / INR (3 - 1)) with (/ 2) by (unfold tail_sum, y; cbn; lra).
    unfold y; cbn. repeat split; [rewrite Rmax_right by lra; lra|rewrite Rmax_right by lra; lra|rewrite Rmax_left by lra; lra].
Qed.

(** ** C43: objective, gradient and step *)
Lemma msq M i (a : R) : (mval M i * a) * (mval M i * a) = if nth i M false then a * a else 0.
Proof. unfold mval. destruct (nth i M false); ring. Qed.
(** The function evaluated by the solver is the documented objective. *)
Theorem C43_objective n d L M y tau x : smooth_eval n d L M (masked_logits M y) tau x = class_cost n d L M y tau x.
Proof.
  unfold smooth_eval, class_cost. f_equal.
  - f_equal. rewrite rsum_swap. reflexivity.
  - apply rsum_ext. intros i Hi. destruct (nth i M false) eqn:E.
    + apply rsum_ext. intros c Hc. unfold mval, masked_logits. rewrite E. ring.
    + apply rsum_0. intros c Hc. unfold mval. rewrite E. ring.
Qed.
Lemma quad_expand n L x h : symmetric n L -> quad n L (fun i => x i + h i) = quad n L x + 2 * dot n (mulv n L x) h + quad n L h.
Proof.
  intros HS. unfold quad. rewrite (dot_ext n _ (fun i => x i + h i) _ (fun i => mulv n L x i + mulv n L h i)); [|intros i Hi; reflexivity|intros i Hi; apply mulv_plus].
  rewrite dot_plus_r, !dot_plus_l. rewrite (dot_mulv_sym n L x h HS). rewrite (dot_comm n h (mulv n L x)). ring.
Qed.
Lemma cost_expand n d L M y tau x h : symmetric n L ->
  class_cost n d L M y tau (fun i c => x i c + h i c) = class_cost n d L M y tau x + frob n d (smooth_grad n L M (masked_logits M y) tau x) h +
    (tau * (\sum_(c < d) quad n L (fun i => h i c)) + \sum_(i < n) (if nth i M false then \sum_(c < d) (h i c * h i c) else 0)).
Proof.
  intros HS. unfold class_cost.
  rewrite (rsum_ext d _ (fun c => (quad n L (fun i => x i c) + 2 * dot n (mulv n L (fun i => x i c)) (fun i => h i c)) + quad n L (fun i => h i c)))
    by (intros c Hc; apply (quad_expand n L (fun i => x i c) (fun i => h i c) HS)).
  rewrite rsum_plus, rsum_plus, rsum_scal_l.
  assert (E1 : frob n d (smooth_grad n L M (masked_logits M y) tau x) h =
    \sum_(i < n) (if nth i M false then \sum_(c < d) (2 * (x i c - (if Nat.eqb c (nth i y 0%nat) then 1 else 0)) * h i c) else 0) +
    tau * (2 * (\sum_(c < d) dot n (mulv n L (fun i => x i c)) (fun i => h i c)))).
  { unfold frob, dot. rewrite (rsum_swap d n). rewrite <- !rsum_scal_l, <- rsum_plus. apply rsum_ext. intros i Hi.
    rewrite <- !rsum_scal_l. unfold smooth_grad, mval, masked_logits. destruct (nth i M false).
    - rewrite <- rsum_plus. apply rsum_ext. intros c Hc. ring.
    - rewrite Rplus_0_l. apply rsum_ext. intros c Hc. ring. }
  rewrite E1.
  assert (E2 : \sum_(i < n) (if nth i M false then \sum_(c < d) ((x i c + h i c - (if Nat.eqb c (nth i y 0%nat) then 1 else 0)) * (x i c + h i c - (if Nat.eqb c (nth i y 0%nat) then 1 else 0))) else 0) =
    \sum_(i < n) (if nth i M false then \sum_(c < d) ((x i c - (if Nat.eqb c (nth i y 0%nat) then 1 else 0)) * (x i c - (if Nat.eqb c (nth i y 0%nat) then 1 else 0))) else 0) +
    \sum_(i < n) (if nth i M false then \sum_(c < d) (2 * (x i c - (if Nat.eqb c (nth i y 0%nat) then 1 else 0)) * h i c) else 0) +
    \sum_(i < n) (if nth i M false then \sum_(c < d) (h i c * h i c) else 0)).
  { rewrite <- !rsum_plus. apply rsum_ext. intros i Hi. destruct (nth i M false); [|ring]. rewrite <- !rsum_plus. apply rsum_ext. intros c Hc. ring. }
  rewrite E2. change (\sum_(i < d) quad n L (fun j => h j i)) with (\sum_(c < d) quad n L (fun i => h i c)). ring.
Qed.
Lemma quad_scal n L t h : quad n L (fun i => t * h i) = t * t * quad n L h.
Proof.
  unfold quad. rewrite (dot_ext n _ (fun i => t * h i) _ (fun i => t * mulv n L h i)); [|intros i Hi; reflexivity|intros i Hi; apply mulv_scal].
  rewrite dot_scal_l, dot_scal_r. ring.
Qed.
(** The matrix given to the solver as gradient is the gradient: along every direction h it is the derivative of the objective. *)
Theorem C43_gradient G d M y tau x h : built G -> nonneg_weights G -> g_lap_type G = Combinatorial ->
  let n := g_n_vertices G in
  derivable_pt_lim (fun t => class_cost n d (gL G) M y tau (fun i c => x i c + t * h i c)) 0
    (frob n d (smooth_grad n (gL G) M (masked_logits M y) tau x) h).
Proof.
  intros Hb Hp Hl n. pose proof (graph_is_laplacian G Hb Hp Hl) as (HS & _). fold n in HS.
  set (g := frob n d (smooth_grad n (gL G) M (masked_logits M y) tau x) h).
  set (q := tau * (\sum_(c < d) quad n (gL G) (fun i => h i c)) + \sum_(i < n) (if nth i M false then \sum_(c < d) (h i c * h i c) else 0)).
  assert (E : forall t, class_cost n d (gL G) M y tau (fun i c => x i c + t * h i c) = class_cost n d (gL G) M y tau x + t * g + t * t * q).
  { intros t. rewrite (cost_expand n d (gL G) M y tau x (fun i c => t * h i c) HS). f_equal; [f_equal|].
    - unfold g, frob. rewrite <- rsum_scal_l. apply rsum_ext. intros i Hi. rewrite <- rsum_scal_l. apply rsum_ext. intros c Hc. ring.
    - unfold q. rewrite (rsum_ext d _ (fun c => t * t * quad n (gL G) (fun i => h i c))) by (intros c Hc; apply (quad_scal n (gL G) t (fun i => h i c))).
      rewrite rsum_scal_l. rewrite Rmult_plus_distr_l. f_equal; [ring|]. rewrite <- rsum_scal_l. apply rsum_ext. intros i Hi.
      destruct (nth i M false); [|ring]. rewrite <- rsum_scal_l. apply rsum_ext. intros c Hc. ring. }
  intros eps Heps. assert (Hq : 0 < Rabs q + 1) by (pose proof (Rabs_pos q); lra).
  assert (Hdel : 0 < eps / (Rabs q + 1)) by (apply Rdiv_lt_0_compat; lra). exists (mkposreal _ Hdel). cbn [pos]. intros t Ht Hlt.
  rewrite !E. replace ((class_cost n d (gL G) M y tau x + (0 + t) * g + (0 + t) * (0 + t) * q - (class_cost n d (gL G) M y tau x + 0 * g + 0 * 0 * q)) / t - g) with (t * q) by (field; exact Ht).
  rewrite Rabs_mult. apply Rle_lt_trans with (Rabs t * (Rabs q + 1)); [apply Rmult_le_compat_l; [apply Rabs_pos|lra]|].
  apply (Rmult_lt_reg_r (/ (Rabs q + 1))); [apply Rinv_0_lt_compat; exact Hq|]. rewrite Rmult_assoc, Rinv_r by lra. rewrite Rmult_1_r. exact Hlt.
Qed.

(** One step of the solver: project, row by row, the point reached by a step against the gradient. *)
Definition fb_next (n d : nat) (L : mat) (M : list bool) (y : list nat) (tau step : R) (x x' : mat) : Prop :=
  forall i, (i < n)%nat -> exists idx r, let p := fun c => x i c - step * smooth_grad n L M (masked_logits M y) tau x i c in
    sorts d p idx /\ proj_row d d p idx = Some r /\ forall c, (c < d)%nat -> x' i c = r c.
Definition on_simplex (n d : nat) (x : mat) : Prop := forall i, (i < n)%nat -> simplex d (x i).
(** lmax is at least the largest eigenvalue *)
Definition bounds_lap (n : nat) (L : mat) (lmax : R) : Prop := forall v, quad n L v <= lmax * normsq n v.

Lemma mdist2_exp n d a b : mdist2 n d a b = frob n d (fun i c => a i c - b i c) (fun i c => a i c - b i c).
Proof. reflexivity. Qed.
Lemma rest_bounds n d L M tau lmax h : 0 <= tau -> psd n L -> bounds_lap n L lmax ->
  0 <= tau * (\sum_(c < d) quad n L (fun i => h i c)) + (\sum_(i < n) (if nth i M false then \sum_(c < d) (h i c * h i c) else 0)) <= (1 + tau * lmax) * frob n d h h.
Proof.
  intros Ht HP HB. split.
  - apply Rplus_le_le_0_compat.
    + apply Rmult_le_pos; [exact Ht|]. apply rsum_nonneg. intros c Hc. apply HP.
    + apply rsum_nonneg. intros i Hi. destruct (nth i M false); [|lra]. apply rsum_nonneg. intros c Hc. apply Rle_0_sqr.
  - rewrite Rmult_plus_distr_r, Rmult_1_l. rewrite Rplus_comm. apply Rplus_le_compat.
    + unfold frob. apply rsum_le. intros i Hi. destruct (nth i M false); [lra|]. apply rsum_nonneg. intros c Hc. apply Rle_0_sqr.
    + rewrite Rmult_assoc. apply Rmult_le_compat_l; [exact Ht|]. unfold frob. rewrite rsum_swap, <- rsum_scal_l. apply rsum_le. intros c Hc. apply HB.
Qed.
Lemma fb_key n d L M y tau lmax x x' z : symmetric n L -> psd n L -> (0 < d)%nat -> 0 < tau -> 0 <= lmax -> bounds_lap n L lmax ->
  fb_next n d L M y tau (fb_step tau lmax) x x' -> on_simplex n d z ->
  on_simplex n d x' /\
  2 * fb_step tau lmax * (class_cost n d L M y tau x' - class_cost n d L M y tau z) <= mdist2 n d x z - mdist2 n d x' z.
Proof.
  intros HS HP Hd Ht Hl HB HF Hz. set (s := fb_step tau lmax) in *. set (g := smooth_grad n L M (masked_logits M y) tau x) in *.
  assert (Htl : 0 <= tau * lmax) by (apply Rmult_le_pos; lra).
  assert (Hs : 0 < s) by (unfold s, fb_step; apply Rdiv_lt_0_compat; lra).
  assert (Hs1 : 2 * s * (1 + tau * lmax) = 1) by (unfold s, fb_step; replace 0.5 with (1 / 2) by lra; field; lra).
  assert (Hrow : forall i, (i < n)%nat -> simplex d (x' i) /\
     2 * s * (\sum_(c < d) (g i c * (x' i c - z i c))) + dist2 d (x i) (x' i) <= dist2 d (x i) (z i) - dist2 d (x' i) (z i)).
  { intros i Hi. destruct (HF i Hi) as (idx & r & HSo & Er & Hx). cbv zeta in *.
    destruct (C42_projection_is_the_closest_point d _ idx Hd HSo) as (r' & Er' & Hsx & Hcl). fold g in Er, Er', Hcl. rewrite Er in Er'. injection Er' as <-.
    assert (Ed : forall u, dist2 d (x' i) u = dist2 d r u /\ dist2 d u (x' i) = dist2 d u r).
    { intros u. split; apply rsum_ext; intros c Hc; rewrite Hx by exact Hc; reflexivity. }
    split.
    - destruct Hsx as (H0 & H1). split; [intros c Hc; rewrite Hx by exact Hc; apply H0; exact Hc|]. rewrite <- H1. apply rsum_ext. exact Hx.
    - specialize (Hcl (z i) (Hz i Hi)). rewrite <- (proj1 (Ed (z i))) in Hcl. rewrite <- (proj2 (Ed _)) in Hcl.
      rewrite <- rsum_scal_l. apply Rplus_le_reg_r with (dist2 d (x' i) (z i)). 
      assert (E : \sum_(c < d) (2 * s * (g i c * (x' i c - z i c))) + dist2 d (x i) (x' i) =
                  dist2 d (fun c => x i c - s * g i c) (x' i) + dist2 d (x i) (z i) - dist2 d (fun c => x i c - s * g i c) (z i)).
      { unfold dist2. rewrite <- !rsum_plus, <- rsum_minus. apply rsum_ext. intros c Hc. ring. }
      rewrite E. lra. }
  split; [intros i Hi; apply (Hrow i Hi)|].
  assert (Hsum : 2 * s * frob n d g (fun i c => x' i c - z i c) + mdist2 n d x x' <= mdist2 n d x z - mdist2 n d x' z).
  { unfold frob, mdist2. rewrite <- rsum_scal_l, <- rsum_plus, <- rsum_minus. apply rsum_le. intros i Hi. apply (Hrow i Hi). }
  assert (Ex : forall w, class_cost n d L M y tau w = class_cost n d L M y tau (fun i c => x i c + (w i c - x i c))).
  { intros w. unfold class_cost. f_equal; [f_equal; apply rsum_ext; intros c Hc; unfold quad; apply dot_ext; [intros i Hi; ring|intros i Hi; apply mulv_ext; [intros ? ?; reflexivity|intros j Hj; ring]]|].
    apply rsum_ext. intros i Hi. destruct (nth i M false); [|reflexivity]. apply rsum_ext. intros c Hc. ring. }
  pose proof (Ex x') as Ex1. pose proof (Ex z) as Ez1. rewrite cost_expand in Ex1, Ez1 by exact HS. fold g in Ex1, Ez1.
  pose proof (proj2 (rest_bounds n d L M tau lmax (fun i c => x' i c - x i c) ltac:(lra) HP HB)) as R1.
  pose proof (proj1 (rest_bounds n d L M tau lmax (fun i c => z i c - x i c) ltac:(lra) HP HB)) as R2.
  assert (Ed : frob n d (fun i c => x' i c - x i c) (fun i c => x' i c - x i c) = mdist2 n d x x').
  { apply rsum_ext. intros i Hi. apply rsum_ext. intros c Hc. ring. }
  rewrite Ed in R1.
  assert (Eg : frob n d g (fun i c => x' i c - z i c) = frob n d g (fun i c => x' i c - x i c) - frob n d g (fun i c => z i c - x i c)).
  { unfold frob. rewrite <- rsum_minus. apply rsum_ext. intros i Hi. rewrite <- rsum_minus. apply rsum_ext. intros c Hc. ring. }
  rewrite Eg in Hsum.
  set (q1 := tau * (\sum_(c < d) quad n L (fun i => x' i c - x i c)) + (\sum_(i < n) (if nth i M false then \sum_(c < d) ((x' i c - x i c) * (x' i c - x i c)) else 0))) in *.
  set (q2 := tau * (\sum_(c < d) quad n L (fun i => z i c - x i c)) + (\sum_(i < n) (if nth i M false then \sum_(c < d) ((z i c - x i c) * (z i c - x i c)) else 0))) in *.
  rewrite Ex1, Ez1. apply Rle_trans with (2 * s * (frob n d g (fun i c => x' i c - x i c) - frob n d g (fun i c => z i c - x i c)) + 2 * s * (1 + tau * lmax) * mdist2 n d x x'); [|rewrite Hs1; lra].
  assert (0 <= 2 * s * q2) by (apply Rmult_le_pos; lra). assert (2 * s * q1 <= 2 * s * ((1 + tau * lmax) * mdist2 n d x x')) by (apply Rmult_le_compat_l; lra). lra.
Qed.

(** Wherever the solver starts, one step lands on the simplex, and a step from the simplex decreases the objective by at least
    ||x' - x||^2 / (2 step). *)
Theorem C43_step_decreases G d M y tau lmax x x' : built G -> nonneg_weights G -> g_lap_type G = Combinatorial ->
  let n := g_n_vertices G in
  (0 < d)%nat -> 0 < tau -> 0 <= lmax -> bounds_lap n (gL G) lmax ->
  fb_next n d (gL G) M y tau (fb_step tau lmax) x x' ->
  on_simplex n d x' /\
  (on_simplex n d x -> class_cost n d (gL G) M y tau x' + mdist2 n d x' x / (2 * fb_step tau lmax) <= class_cost n d (gL G) M y tau x).
Proof.
  intros Hb Hp Hl n Hd Ht Hm HB HF. pose proof (graph_is_laplacian G Hb Hp Hl) as HL. fold n in HL. pose proof (proj1 HL) as HS. pose proof (lap_psd _ _ HL) as HP.
  assert (Htl : 0 <= tau * lmax) by (apply Rmult_le_pos; lra).
  assert (Hs : 0 < fb_step tau lmax) by (unfold fb_step; apply Rdiv_lt_0_compat; lra).
  split.
  - set (z := fun (i c : nat) => if Nat.eqb c 0 then 1 else 0).
    assert (Hz : on_simplex n d z). { intros i Hi. split; [intros c Hc; unfold z; destruct (Nat.eqb c 0); lra|]. unfold z. rewrite (rsum_single d _ 0%nat Hd); [reflexivity|]. intros c Hc Hne. destruct (Nat.eqb_spec c 0); [contradiction|reflexivity]. }
    exact (proj1 (fb_key n d (gL G) M y tau lmax x x' z HS HP Hd Ht Hm HB HF Hz)).
  - intros Hx. pose proof (proj2 (fb_key n d (gL G) M y tau lmax x x' x HS HP Hd Ht Hm HB HF Hx)) as K.
    assert (E0 : mdist2 n d x x = 0). { unfold mdist2, dist2. apply rsum_0. intros i Hi. apply rsum_0. intros c Hc. ring. }
    rewrite E0 in K. set (s := fb_step tau lmax) in *. apply Rplus_le_reg_r with (- class_cost n d (gL G) M y tau x).
    apply (Rmult_le_reg_l (2 * s)); [lra|]. 
    replace (2 * s * (class_cost n d (gL G) M y tau x' + mdist2 n d x' x / (2 * s) + - class_cost n d (gL G) M y tau x)) with (2 * s * (class_cost n d (gL G) M y tau x' - class_cost n d (gL G) M y tau x) + mdist2 n d x' x) by (field; lra).
    lra.
Qed.
(** A point the solver does not move is a global minimiser over the simplex. *)
Theorem C43_fixed_points_are_minimisers G d M y tau lmax x : built G -> nonneg_weights G -> g_lap_type G = Combinatorial ->
  let n := g_n_vertices G in
  (0 < d)%nat -> 0 < tau -> 0 <= lmax -> bounds_lap n (gL G) lmax ->
  fb_next n d (gL G) M y tau (fb_step tau lmax) x x ->
  on_simplex n d x /\ forall z, on_simplex n d z -> class_cost n d (gL G) M y tau x <= class_cost n d (gL G) M y tau z.
Proof.
  intros Hb Hp Hl n Hd Ht Hm HB HF. pose proof (graph_is_laplacian G Hb Hp Hl) as HL. fold n in HL. pose proof (proj1 HL) as HS. pose proof (lap_psd _ _ HL) as HP.
  split; [exact (proj1 (C43_step_decreases G d M y tau lmax x x Hb Hp Hl Hd Ht Hm HB HF))|].
  intros z Hz. pose proof (proj2 (fb_key n d (gL G) M y tau lmax x x z HS HP Hd Ht Hm HB HF Hz)) as K.
  assert (Htl : 0 <= tau * lmax) by (apply Rmult_le_pos; lra).
  assert (Hs : 0 < fb_step tau lmax) by (unfold fb_step; apply Rdiv_lt_0_compat; lra).
  apply Rplus_le_reg_r with (- class_cost n d (gL G) M y tau z). apply (Rmult_le_reg_l (2 * fb_step tau lmax)); [lra|]. lra.
Qed.
(** Convergence: after k steps from anywhere, the objective is within ||x_0 - z||^2 / (2 step k) of its value at any z of the simplex. *)
Theorem C43_convergence_rate G d M y tau lmax (x : nat -> mat) : built G -> nonneg_weights G -> g_lap_type G = Combinatorial ->
  let n := g_n_vertices G in
  (0 < d)%nat -> 0 < tau -> 0 <= lmax -> bounds_lap n (gL G) lmax ->
  (forall k, fb_next n d (gL G) M y tau (fb_step tau lmax) (x k) (x (S k))) ->
  forall k z, on_simplex n d z ->
  class_cost n d (gL G) M y tau (x (S k)) <= class_cost n d (gL G) M y tau z + mdist2 n d (x 0%nat) z / (2 * fb_step tau lmax * INR (S k)).
Proof.
  intros Hb Hp Hl n Hd Ht Hm HB HF k z Hz. pose proof (graph_is_laplacian G Hb Hp Hl) as HL. fold n in HL. pose proof (proj1 HL) as HS. pose proof (lap_psd _ _ HL) as HP.
  assert (Htl : 0 <= tau * lmax) by (apply Rmult_le_pos; lra).
  assert (Hs : 0 < fb_step tau lmax) by (unfold fb_step; apply Rdiv_lt_0_compat; lra).
  set (s := fb_step tau lmax) in *. set (F := class_cost n d (gL G) M y tau) in *.
  assert (Hdec : forall j, F (x (S (S j))) <= F (x (S j))).
  { intros j. destruct (C43_step_decreases G d M y tau lmax (x j) (x (S j)) Hb Hp Hl Hd Ht Hm HB (HF j)) as (Hx & _).
    destruct (C43_step_decreases G d M y tau lmax _ _ Hb Hp Hl Hd Ht Hm HB (HF (S j))) as (_ & K). specialize (K Hx). fold n in K. fold F in K.
    assert (0 <= mdist2 n d (x (S (S j))) (x (S j)) / (2 * fb_step tau lmax)).
    { unfold Rdiv. apply Rmult_le_pos; [|left; apply Rinv_0_lt_compat; fold s; lra]. apply rsum_nonneg. intros i Hi. apply rsum_nonneg. intros c Hc. apply Rle_0_sqr. }
    lra. }
  assert (Htele : forall j, 2 * s * (INR (S j) * (F (x (S j)) - F z)) <= mdist2 n d (x 0%nat) z - mdist2 n d (x (S j)) z).
  { induction j as [|j IH].
    - cbn [INR]. rewrite Rmult_1_l. exact (proj2 (fb_key n d (gL G) M y tau lmax _ _ z HS HP Hd Ht Hm HB (HF 0%nat) Hz)).
    - pose proof (proj2 (fb_key n d (gL G) M y tau lmax _ _ z HS HP Hd Ht Hm HB (HF (S j)) Hz)) as K. fold s in K. fold F in K.
      rewrite (S_INR (S j)). pose proof (Hdec j) as D. assert (0 <= INR (S j)) by apply pos_INR.
      assert (INR (S j) * (F (x (S (S j))) - F z) <= INR (S j) * (F (x (S j)) - F z)) by (apply Rmult_le_compat_l; lra).
      assert (2 * s * (INR (S j) * (F (x (S (S j))) - F z)) <= 2 * s * (INR (S j) * (F (x (S j)) - F z))) by (apply Rmult_le_compat_l; lra). lra. }
  specialize (Htele k). assert (0 <= mdist2 n d (x (S k)) z). { apply rsum_nonneg. intros i Hi. apply rsum_nonneg. intros c Hc. apply Rle_0_sqr. }
  assert (Hk : 0 < INR (S k)) by (apply lt_0_INR; lia). assert (Hsk : 0 < 2 * s * INR (S k)) by (apply Rmult_lt_0_compat; lra).
  apply Rplus_le_reg_r with (- F z). apply (Rmult_le_reg_l (2 * s * INR (S k))); [exact Hsk|].
  replace (2 * s * INR (S k) * (F z + mdist2 n d (x 0%nat) z / (2 * s * INR (S k)) + - F z)) with (mdist2 n d (x 0%nat) z) by (field; lra). lra.
Qed.
(** ** The accelerated solver *)
Lemma cost_convex n d L M y tau a x z : symmetric n L -> psd n L -> 0 <= tau -> 0 <= a <= 1 ->
  class_cost n d L M y tau (fun i c => (1 - a) * x i c + a * z i c) <= (1 - a) * class_cost n d L M y tau x + a * class_cost n d L M y tau z.
Proof.
  intros HS HP Ht Ha. set (w := fun i c => (1 - a) * x i c + a * z i c). set (g := smooth_grad n L M (masked_logits M y) tau w).
  assert (Ex : forall v, class_cost n d L M y tau v = class_cost n d L M y tau (fun i c => w i c + (v i c - w i c))).
  { intros v. unfold class_cost. f_equal; [f_equal; apply rsum_ext; intros c Hc; unfold quad; apply dot_ext; [intros i Hi; ring|intros i Hi; apply mulv_ext; [intros ? ?; reflexivity|intros j Hj; ring]]|].
    apply rsum_ext. intros i Hi. destruct (nth i M false); [|reflexivity]. apply rsum_ext. intros c Hc. ring. }
  assert (B : forall v, class_cost n d L M y tau w + frob n d g (fun i c => v i c - w i c) <= class_cost n d L M y tau v).
  { intros v. rewrite (Ex v), cost_expand by exact HS. fold g.
    assert (0 <= tau * (\sum_(c < d) quad n L (fun i => v i c - w i c)) + (\sum_(i < n) (if nth i M false then \sum_(c < d) ((v i c - w i c) * (v i c - w i c)) else 0))); [|lra].
    apply Rplus_le_le_0_compat; [apply Rmult_le_pos; [exact Ht|]; apply rsum_nonneg; intros c Hc; apply HP|].
    apply rsum_nonneg. intros i Hi. destruct (nth i M false); [|lra]. apply rsum_nonneg. intros c Hc. apply Rle_0_sqr. }
  assert (Z : (1 - a) * frob n d g (fun i c => x i c - w i c) + a * frob n d g (fun i c => z i c - w i c) = 0).
  { unfold frob. rewrite <- !rsum_scal_l, <- rsum_plus. apply rsum_0. intros i Hi. rewrite <- !rsum_scal_l, <- rsum_plus. apply rsum_0. intros c Hc. unfold w. ring. }
  pose proof (Rmult_le_compat_l (1 - a) _ _ ltac:(lra) (B x)). pose proof (Rmult_le_compat_l a _ _ ltac:(lra) (B z)). lra.
Qed.
(** The accelerated forward-backward iteration (FISTA, the default of pyunlocbox's solver): the step is taken from the extrapolated point v. *)
Fixpoint momentum (k : nat) : R := match k with O => 1 | S k' => (1 + sqrt (1 + 4 * momentum k' ^ 2)) / 2 end.
Definition fista_run (n d : nat) (L : mat) (M : list bool) (y : list nat) (tau step : R) (x v : nat -> mat) : Prop :=
  v 0%nat = x 0%nat /\
  (forall k, fb_next n d L M y tau step (v k) (x (S k))) /\
  (forall k i c, v (S k) i c = x (S k) i c + (momentum k - 1) / momentum (S k) * (x (S k) i c - x k i c)).
Lemma momentum_spec k : 1 <= momentum k /\ INR (k + 2) / 2 <= momentum k /\ momentum (S k) ^ 2 - momentum (S k) = momentum k ^ 2.
Proof.
  assert (E : forall k, momentum (S k) ^ 2 - momentum (S k) = momentum k ^ 2).
  { intros j. cbn [momentum]. assert (H : 0 <= 1 + 4 * momentum j ^ 2) by (pose proof (pow2_ge_0 (momentum j)); lra). pose proof (sqrt_sqrt _ H) as Q. set (r := sqrt _) in *. replace (((1 + r) / 2) ^ 2 - (1 + r) / 2) with ((r * r - 1) / 4) by field. rewrite Q. field. }
  assert (A : forall k, 1 <= momentum k /\ INR (k + 2) / 2 <= momentum k).
  { induction k0 as [|j (I1 & I2)]; [cbn; lra|]. assert (G : momentum j + 1 / 2 <= momentum (S j)).
    { cbn [momentum]. assert (H : 0 <= 1 + 4 * momentum j ^ 2) by (pose proof (pow2_ge_0 (momentum j)); lra). assert (2 * momentum j <= sqrt (1 + 4 * momentum j ^ 2)); [|lra].
      rewrite <- (sqrt_Rsqr (2 * momentum j)) by lra. apply sqrt_le_1; [apply Rle_0_sqr|exact H|unfold Rsqr; lra]. }
    replace (S j + 2)%nat with (S (j + 2)) by lia. rewrite S_INR. lra. }
  split; [apply A|]. split; [apply A|apply E].
Qed.
Lemma combination_on_simplex n d a x z : 0 <= a <= 1 -> on_simplex n d x -> on_simplex n d z -> on_simplex n d (fun i c => (1 - a) * x i c + a * z i c).
Proof.
  intros Ha Hx Hz i Hi. destruct (Hx i Hi) as (X0 & X1). destruct (Hz i Hi) as (Z0 & Z1). split.
  - intros c Hc. pose proof (X0 c Hc). pose proof (Z0 c Hc). apply Rplus_le_le_0_compat; apply Rmult_le_pos; lra.
  - rewrite rsum_plus, !rsum_scal_l. unfold vec in *. transitivity ((1 - a) * 1 + a * 1); [f_equal; f_equal; assumption|ring].
Qed.
(** With acceleration every iterate after the first is on the simplex and the objective approaches its minimum at rate 1/k^2. *)
Theorem C43_accelerated_rate G d M y tau lmax (x v : nat -> mat) : built G -> nonneg_weights G -> g_lap_type G = Combinatorial ->
  let n := g_n_vertices G in
  (0 < d)%nat -> 0 < tau -> 0 <= lmax -> bounds_lap n (gL G) lmax ->
  fista_run n d (gL G) M y tau (fb_step tau lmax) x v ->
  forall k, on_simplex n d (x (S k)) /\ forall z, on_simplex n d z ->
  class_cost n d (gL G) M y tau (x (S k)) <= class_cost n d (gL G) M y tau z + 2 * mdist2 n d (x 0%nat) z / (fb_step tau lmax * INR (k + 2) ^ 2).
Proof.
  intros Hb Hp Hl n Hd Ht Hm HB (H0 & HF & HV). pose proof (graph_is_laplacian G Hb Hp Hl) as HL. fold n in HL. pose proof (proj1 HL) as HS. pose proof (lap_psd _ _ HL) as HP.
  assert (Htl : 0 <= tau * lmax) by (apply Rmult_le_pos; lra). assert (Hs : 0 < fb_step tau lmax) by (unfold fb_step; apply Rdiv_lt_0_compat; lra).
  assert (HX : forall k, on_simplex n d (x (S k))) by (intros k; exact (proj1 (C43_step_decreases G d M y tau lmax (v k) (x (S k)) Hb Hp Hl Hd Ht Hm HB (HF k)))).
  intros k. split; [apply HX|]. intros z Hz. set (s := fb_step tau lmax) in *. set (F := class_cost n d (gL G) M y tau) in *.
  set (u := fun j i c => momentum j * x (S j) i c - (momentum j - 1) * x j i c - z i c).
  assert (P : forall j, 2 * s * (momentum j ^ 2 * (F (x (S j)) - F z)) + frob n d (u j) (u j) <= mdist2 n d (x 0%nat) z).
  { induction j as [|j IH].
    - pose proof (proj2 (fb_key n d (gL G) M y tau lmax _ _ z HS HP Hd Ht Hm HB (HF 0%nat) Hz)) as K. fold s in K. fold F in K. rewrite H0 in K.
      assert (E : frob n d (u 0%nat) (u 0%nat) = mdist2 n d (x 1%nat) z) by (apply rsum_ext; intros i Hi; apply rsum_ext; intros c Hc; unfold u; cbn [momentum]; ring).
      rewrite E. cbn [momentum]. lra.
    - destruct (momentum_spec (S j)) as (T1 & _ & _). destruct (momentum_spec j) as (_ & _ & T2). set (t := momentum (S j)) in *. set (r := momentum j) in *.
      assert (Ha : 0 <= / t <= 1) by (split; [left; apply Rinv_0_lt_compat; lra|rewrite <- Rinv_1; apply Rinv_le_contravar; lra]).
      set (w := fun i c => (1 - / t) * x (S j) i c + / t * z i c).
      pose proof (proj2 (fb_key n d (gL G) M y tau lmax _ _ w HS HP Hd Ht Hm HB (HF (S j)) (combination_on_simplex n d (/ t) _ _ Ha (HX j) Hz))) as K. fold s in K. fold F in K.
      pose proof (cost_convex n d (gL G) M y tau (/ t) (x (S j)) z HS HP ltac:(lra) Ha) as C. fold F in C. fold w in C.
      assert (E1 : t ^ 2 * mdist2 n d (v (S j)) w = frob n d (u j) (u j)).
      { unfold mdist2, dist2, frob. rewrite <- rsum_scal_l. apply rsum_ext. intros i Hi. rewrite <- rsum_scal_l. apply rsum_ext. intros c Hc. rewrite HV. unfold u, w. fold t r. field. lra. }
      assert (E2 : t ^ 2 * mdist2 n d (x (S (S j))) w = frob n d (u (S j)) (u (S j))).
      { unfold mdist2, dist2, frob. rewrite <- rsum_scal_l. apply rsum_ext. intros i Hi. rewrite <- rsum_scal_l. apply rsum_ext. intros c Hc. unfold u, w. fold t. field. lra. }
      assert (K2 : t ^ 2 * (2 * s * (F (x (S (S j))) - F w)) <= frob n d (u j) (u j) - frob n d (u (S j)) (u (S j))) by (rewrite <- E1, <- E2, <- Rmult_minus_distr_l; apply Rmult_le_compat_l; [apply pow2_ge_0|exact K]).
      assert (C2 : t ^ 2 * (2 * s * F w) <= 2 * s * (r ^ 2 * F (x (S j)) + t * F z)).
      { apply Rle_trans with (t ^ 2 * (2 * s * ((1 - / t) * F (x (S j)) + / t * F z))); [apply Rmult_le_compat_l; [apply pow2_ge_0|]; apply Rmult_le_compat_l; [lra|exact C]|].
        right. rewrite <- T2. field. lra. }
      assert (E3 : 2 * s * (t ^ 2 * (F (x (S (S j))) - F z)) = t ^ 2 * (2 * s * (F (x (S (S j))) - F w)) + t ^ 2 * (2 * s * F w) - 2 * s * (t ^ 2 * F z)) by ring.
      assert (E4 : 2 * s * (t ^ 2 * F z) = 2 * s * (r ^ 2 * F z) + 2 * s * (t * F z)) by (rewrite <- T2; ring).
      rewrite E3, E4. assert (E5 : 2 * s * (r ^ 2 * F (x (S j)) + t * F z) = 2 * s * (r ^ 2 * (F (x (S j)) - F z)) + 2 * s * (r ^ 2 * F z) + 2 * s * (t * F z)) by ring. rewrite E5 in C2. lra. }
  specialize (P k). destruct (momentum_spec k) as (T1 & T2 & _). set (t := momentum k) in *. assert (U : 0 <= frob n d (u k) (u k)) by (apply rsum_nonneg; intros i Hi; apply rsum_nonneg; intros c Hc; apply Rle_0_sqr).
  set (D := mdist2 n d (x 0%nat) z) in *. assert (HD : 0 <= D) by (apply rsum_nonneg; intros i Hi; apply rsum_nonneg; intros c Hc; apply Rle_0_sqr).
  assert (Hk : 0 < INR (k + 2)) by (apply lt_0_INR; lia). set (m := INR (k + 2)) in *. set (e := F (x (S k)) - F z) in *.
  assert (Q : 2 * s * (t ^ 2 * e) <= D) by lra. assert (Hm2 : 0 < s * m ^ 2) by (apply Rmult_lt_0_compat; [exact Hs|apply pow_lt; exact Hk]).
  assert (Hgoal : e <= 2 * D / (s * m ^ 2)); [|unfold e in Hgoal; lra].
  apply (Rmult_le_reg_r (s * m ^ 2)); [exact Hm2|]. replace (2 * D / (s * m ^ 2) * (s * m ^ 2)) with (2 * D) by (field; split; lra).
  destruct (Rle_or_lt e 0) as [He|He].
  - assert (e * (s * m ^ 2) <= 0); [|lra]. replace 0 with (0 * (s * m ^ 2)) by ring. apply Rmult_le_compat_r; lra.
  - assert (m ^ 2 <= 4 * t ^ 2). { replace (4 * t ^ 2) with ((2 * t) ^ 2) by ring. apply pow_incr. lra. }
    apply Rle_trans with (e * (s * (4 * t ^ 2))); [apply Rmult_le_compat_l; [lra|]; apply Rmult_le_compat_l; lra|]. replace (e * (s * (4 * t ^ 2))) with (2 * (2 * s * (t ^ 2 * e))) by ring. lra.
Qed.
(** The checks before the solver is called. *)
Theorem C43_rejections avail y M tau lmax :
  (avail = false -> simplex_problem avail y M tau lmax = Raise ImportError) /\
  (avail = true -> tau <= 0 -> simplex_problem avail y M tau lmax = Raise ValueError) /\
  (avail = true -> 0 < tau -> y <> [] -> List.length y = List.length M ->
   exists d Y, simplex_problem avail y M tau lmax = Ok (d, Y, fb_step tau lmax) /\ (0 < d)%nat /\
     forall i, (i < List.length y)%nat -> (nth i M false = true -> (nth i y 0 < d)%nat) /\
       forall c, Y i c = if nth i M false then (if Nat.eqb c (nth i y 0%nat) then 1 else 0) else 0).
Proof.
  split; [intros ->; reflexivity|]. split.
  - intros -> Ht. unfold simplex_problem. cbn [negb]. rewrite (proj2 (Rleb_true tau 0) Ht). reflexivity.
  - intros -> Ht Hy Hl. unfold simplex_problem. cbn [negb]. destruct (Rleb tau 0) eqn:E; [apply Rleb_true in E; lra|].
    rewrite Hl, Nat.eqb_refl. cbn [negb]. destruct y as [|a y]; [congruence|]. exists (S (list_max (mask_labels M (a :: y)))), (masked_logits M (a :: y)).
    split; [reflexivity|]. split; [lia|]. intros i Hi. split; [|reflexivity]. intros HM.
    assert (Hin : In (nth i (a :: y) 0%nat) (mask_labels M (a :: y))).
    { unfold mask_labels. apply in_map_iff. exists i. rewrite HM. split; [reflexivity|]. apply in_seq. lia. }
    assert (HF : Forall (fun k => (k <= list_max (mask_labels M (a :: y)))%nat) (mask_labels M (a :: y))) by (apply list_max_le; lia).
    rewrite Forall_forall in HF. specialize (HF _ Hin). lia.
Qed.
(** The hypotheses can be met: the graph of two joined vertices, lmax = 2, from every point. *)
Definition fb_fun (n d : nat) (L : mat) (M : list bool) (y : list nat) (tau step : R) (x : mat) : mat := fun i =>
  let p := fun c => x i c - step * smooth_grad n L M (masked_logits M y) tau x i c in
  match proj_row d d p (proj1_sig (sorts_sig d p)) with Some r => r | None => p end.
Lemma fb_fun_next n d L M y tau step x : (0 < d)%nat -> fb_next n d L M y tau step x (fb_fun n d L M y tau step x).
Proof.
  intros Hd i Hi. cbv zeta. set (p := fun c => x i c - step * smooth_grad n L M (masked_logits M y) tau x i c). pose proof (proj2_sig (sorts_sig d p)) as Hs. cbv beta in Hs.
  destruct (C42_projection_is_the_closest_point d p _ Hd Hs) as (r & Er & _). exists (proj1_sig (sorts_sig d p)), r. split; [exact Hs|]. split; [exact Er|].
  intros c _. unfold fb_fun. fold p. rewrite Er. reflexivity.
Qed.
(** Both solvers can run for ever from every point. *)
Lemma fb_runs n d L M y tau step x0 : (0 < d)%nat -> exists x : nat -> mat, x 0%nat = x0 /\ forall k, fb_next n d L M y tau step (x k) (x (S k)).
Proof.
  intros Hd. set (x := fix x k := match k with O => x0 | S k' => fb_fun n d L M y tau step (x k') end). exists x. split; [reflexivity|]. intros k. apply fb_fun_next. exact Hd.
Qed.
Lemma fista_runs n d L M y tau step x0 : (0 < d)%nat -> exists x v, x 0%nat = x0 /\ fista_run n d L M y tau step x v.
Proof.
  intros Hd. set (st := fix st k : mat * mat := match k with O => (x0, x0) | S k' => let x' := fb_fun n d L M y tau step (snd (st k')) in
    (x', fun i c => x' i c + (momentum k' - 1) / momentum (S k') * (x' i c - fst (st k') i c)) end).
  exists (fun k => fst (st k)), (fun k => snd (st k)). split; [reflexivity|]. split; [reflexivity|]. split; [|reflexivity]. intros k. apply fb_fun_next. exact Hd.
Qed.
Example C43_ex : exists G, built G /\ nonneg_weights G /\ g_lap_type G = Combinatorial /\ g_n_vertices G = 3%nat /\
  bounds_lap 3 (gL G) 3 /\
  (forall x0, exists x : nat -> mat, x 0%nat = x0 /\ forall k, fb_next 3 2 (gL G) [true; false; true] [0; 0; 1]%nat (1/10) (fb_step (1/10) 3) (x k) (x (S k))) /\
  forall x0, exists x v, x 0%nat = x0 /\ fista_run 3 2 (gL G) [true; false; true] [0; 0; 1]%nat (1/10) (fb_step (1/10) 3) x v.
Proof.
  destruct (p3_graph None) as (G & Hb & Hn & Ht & Hc & Hp & Hu & HC & HL). exists G. repeat (split; [assumption|]). split.
  - intros v. rewrite (quad_ext 3 _ _ v HL). unfold quad, normsq, dot, mulv. cbn. 
    pose proof (Rle_0_sqr (v 0%nat + v 1%nat + v 2%nat)). pose proof (Rle_0_sqr (v 0%nat - v 2%nat)). unfold Rsqr in *. nra.
  - split; intros x0; [apply fb_runs; lia|apply fista_runs; lia].
Qed.
