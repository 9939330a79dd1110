(** Properties C24-C27, C70: complement, inverse, localization and frames, shapes, bank algebra. *)
From Coq Require Import Reals Lra Lia List Arith Bool String ZArith.
From Coq Require Import List Sorted.
From Verif.Base Require Import RSum Prelude LinAlg.
From Verif.Spec Require Import Matrix NdArray FilterSpec.
From Verif.Model Require Import Sparse Graph Traverse Cache Filter.
From Verif.Proofs Require Import SpectralFacts FilterFacts ChebFacts.
From Verif.Props Require Import Caching Filtering.
Import ListNotations.
Open Scope R_scope.

(** ** C70: banks behave like lists of kernels *)

Lemma mapr_app {A B} (f : A -> res B) l1 l2 y1 y2 : mapr f l1 = Ok y1 -> mapr f l2 = Ok y2 -> mapr f (l1 ++ l2) = Ok (y1 ++ y2).
Proof.
  revert y1. induction l1 as [|a l IH]; intros y1 E1 E2; cbn in *.
  - injection E1 as <-. exact E2.
  - destruct (f a); cbn in *; [|discriminate]. destruct (mapr f l) eqn:El; cbn in *; [|discriminate]. injection E1 as <-.
    rewrite (IH _ eq_refl E2). reflexivity.
Qed.

Theorem C70_evaluate_sum_is_concatenation :
  forall ks1 ks2 x y1 y2, evaluate ks1 x = Ok y1 -> evaluate ks2 x = Ok y2 -> evaluate (ks1 ++ ks2) x = Ok (y1 ++ y2).
Proof. intros. unfold evaluate in *. apply mapr_app; assumption. Qed.

(** Indexing: g[i] for -len(g) <= i < len(g) is the bank with that kernel alone; other indices raise. *)
Theorem C70_getitem_index :
  forall ks (i : nat), (i < List.length ks)%nat ->
    (forall d, getitem ks (KInt (Z.of_nat i)) = Ok [nth i ks d]) /\
    (forall d, getitem ks (KInt (Z.of_nat i - Z.of_nat (List.length ks))) = Ok [nth i ks d]) /\
    (forall x y, evaluate ks x = Ok y -> forall d, evaluate [nth i ks d] x = Ok [nth i y []]).
Proof.
  intros ks i Hi.
  assert (E : forall d, nth_error ks i = Some (nth i ks d)) by (intros d; apply nth_error_nth'; exact Hi).
  split; [|split].
  - intros d. cbn [getitem]. unfold norm_index. destruct (Z.leb_spec 0 (Z.of_nat i)); [|lia].
    destruct (Z.ltb_spec (Z.of_nat i) (Z.of_nat (List.length ks))); [|lia]. cbn [andb bindr]. rewrite Nat2Z.id, (E d). reflexivity.
  - intros d. cbn [getitem]. unfold norm_index. destruct (Z.leb_spec 0 (Z.of_nat i - Z.of_nat (List.length ks))); [lia|]. cbn [andb].
    destruct (Z.leb_spec (- Z.of_nat (List.length ks)) (Z.of_nat i - Z.of_nat (List.length ks))); [|lia].
    destruct (Z.ltb_spec (Z.of_nat i - Z.of_nat (List.length ks)) 0); [|lia]. cbn [andb bindr].
    replace (Z.of_nat i - Z.of_nat (List.length ks) + Z.of_nat (List.length ks))%Z with (Z.of_nat i) by lia. rewrite Nat2Z.id, (E d). reflexivity.
  - intros x y Hy d. unfold evaluate in *. destruct (mapr_ok _ _ _ Hy) as (_ & H2). specialize (H2 i d [] Hi).
    cbn [mapr]. unfold kernel in *. rewrite H2. reflexivity.
Qed.

Theorem C70_getitem_out_of_range :
  forall ks i, (i < - Z.of_nat (List.length ks) \/ Z.of_nat (List.length ks) <= i)%Z -> getitem ks (KInt i) = Raise IndexError.
Proof.
  intros ks i H. cbn [getitem]. unfold norm_index.
  replace (Z.leb 0 i && Z.ltb i (Z.of_nat (List.length ks)))%bool with false
    by (symmetry; apply andb_false_iff; destruct (Z.leb_spec 0 i); destruct (Z.ltb_spec i (Z.of_nat (List.length ks))); auto; lia).
  replace (Z.leb (- Z.of_nat (List.length ks)) i && Z.ltb i 0)%bool with false
    by (symmetry; apply andb_false_iff; destruct (Z.leb_spec (- Z.of_nat (List.length ks)) i); destruct (Z.ltb_spec i 0); auto; lia).
  reflexivity.
Qed.

(** Slices with in-range bounds pick the kernels lo, ..., hi-1; splitting a bank anywhere and adding the
    parts gives it back. *)
Theorem C70_getitem_slice :
  forall ks (lo hi : nat), (lo <= hi <= List.length ks)%nat ->
    exists l, getitem ks (KSlice (Some (Z.of_nat lo)) (Some (Z.of_nat hi))) = Ok l /\ List.length l = (hi - lo)%nat /\
      forall i d, (i < hi - lo)%nat -> nth i l d = nth (lo + i) ks d.
Proof.
  intros ks lo hi H. cbn [getitem]. unfold slice_bound.
  destruct (Z.ltb_spec (Z.of_nat lo) 0); [lia|]. destruct (Z.ltb_spec (Z.of_nat hi) 0); [lia|].
  rewrite !Z.min_l by lia. rewrite !Nat2Z.id. eexists. split; [reflexivity|]. split.
  - rewrite firstn_length, skipn_length. lia.
  - intros i d Hi. rewrite <- (firstn_skipn lo ks) at 2. rewrite app_nth2 by (rewrite firstn_length; lia).
    rewrite firstn_length. replace (lo + i - Nat.min lo (List.length ks))%nat with i by lia.
    rewrite <- (firstn_skipn (hi - lo) (skipn lo ks)) at 2. rewrite app_nth1; [reflexivity|]. rewrite firstn_length, skipn_length. lia.
Qed.

(** Any slice g[a:b], bounds omitted, negative or out of range: kernel i is kept iff it is not before a and
    before b, a negative bound counting from the end, and the order is kept. *)
Definition not_before (n : nat) (z : Z) (i : nat) : Prop := (if Z.ltb z 0 then Z.of_nat n + z <= Z.of_nat i else z <= Z.of_nat i)%Z.
Definition sliced (n : nat) (a b : option Z) (i : nat) : Prop :=
  (i < n)%nat /\ match a with Some z => not_before n z i | None => True end /\ match b with Some z => ~ not_before n z i | None => True end.

Lemma slice_bound_spec n z i : (i < n)%nat -> (slice_bound n z <= i)%nat <-> not_before n z i.
Proof. intros H. unfold slice_bound, not_before. destruct (Z.ltb_spec z 0); lia. Qed.

Lemma window_nth {A} (d : A) m : forall lo (l : list A), (m <= List.length l - lo)%nat -> firstn m (skipn lo l) = map (fun i => nth i l d) (seq lo m).
Proof.
  induction m as [|m IH]; intros lo l H; [reflexivity|]. cbn [seq map].
  destruct (skipn lo l) as [|x r] eqn:E; [apply (f_equal (@List.length A)) in E; rewrite skipn_length in E; cbn in E; lia|].
  assert (El : l = firstn lo l ++ x :: r) by (rewrite <- E; symmetry; apply firstn_skipn).
  assert (Hl : List.length (firstn lo l) = lo) by (rewrite firstn_length; lia).
  cbn [firstn]. f_equal.
  - rewrite El, app_nth2 by lia. rewrite Hl, Nat.sub_diag. reflexivity.
  - rewrite <- (IH (S lo) l) by lia. f_equal. replace (S lo) with (lo + 1)%nat by lia.
    rewrite El, skipn_app, Hl. rewrite skipn_all2 by lia. replace (lo + 1 - lo)%nat with 1%nat by lia. reflexivity.
Qed.

Theorem C70_getitem_any_slice :
  forall ks a b, exists sel, (forall i, In i sel <-> sliced (List.length ks) a b i) /\ Sorted.StronglySorted lt sel /\
    forall d, getitem ks (KSlice a b) = Ok (map (fun i => nth i ks d) sel).
Proof.
  intros ks a b. remember (List.length ks) as n eqn:En.
  remember (match a with Some z => slice_bound n z | None => 0%nat end) as lo eqn:El.
  remember (match b with Some z => slice_bound n z | None => n end) as hi eqn:Eh.
  assert (Hhi : (hi <= n)%nat) by (subst hi; destruct b as [z|]; [|lia]; unfold slice_bound; destruct (Z.ltb_spec z 0); lia).
  exists (seq lo (hi - lo)). split; [|split].
  - intros i. rewrite in_seq. unfold sliced. split.
    + intros H. assert (Hi : (i < n)%nat) by lia. split; [exact Hi|]. split.
      * destruct a as [z|]; [|exact I]. apply slice_bound_spec; [exact Hi|lia].
      * destruct b as [z|]; [|exact I]. rewrite <- (slice_bound_spec n z i Hi). lia.
    + intros (Hi & Ha & Hb). assert ((lo <= i)%nat) by (subst lo; destruct a as [z|]; [apply slice_bound_spec; assumption|lia]).
      assert ((i < hi)%nat); [|lia]. subst hi. destruct b as [z|]; [|exact Hi]. rewrite <- (slice_bound_spec n z i Hi) in Hb. lia.
  - clear En El Eh Hhi. generalize (hi - lo)%nat. intros m. revert lo. induction m as [|m IH]; intros lo; cbn [seq]; constructor; [apply IH|].
    apply Forall_forall. intros x Hx. apply in_seq in Hx. lia.
  - intros d. cbn [getitem]. rewrite <- En, <- El, <- Eh. f_equal. apply window_nth. lia.
Qed.

(** The last two kernels but one of a bank of four: g[-3:-1]. *)
Example C70_negative_slice_example : forall k0 k1 k2 k3, getitem [k0; k1; k2; k3] (KSlice (Some (-3)%Z) (Some (-1)%Z)) = Ok [k1; k2].
Proof. reflexivity. Qed.

Theorem C70_split_and_add :
  forall ks (k : nat) a b, (k <= List.length ks)%nat ->
    getitem ks (KSlice None (Some (Z.of_nat k))) = Ok a -> getitem ks (KSlice (Some (Z.of_nat k)) None) = Ok b -> a ++ b = ks.
Proof.
  intros ks k a b Hk Ea Eb. cbn [getitem] in *. unfold slice_bound in *. destruct (Z.ltb_spec (Z.of_nat k) 0); [lia|].
  rewrite Z.min_l in * by lia. rewrite Nat2Z.id in *. injection Ea as <-. injection Eb as <-.
  rewrite Nat.sub_0_r. cbn [skipn]. rewrite (firstn_all2 (skipn k ks)) by (rewrite skipn_length; lia). apply firstn_skipn.
Qed.

Lemma response_app F ks1 ks2 m H1 H2 : response F ks1 m H1 -> response F ks2 m H2 ->
  response F (ks1 ++ ks2) m (fun f => if Nat.ltb f (List.length ks1) then H1 f else H2 (f - List.length ks1)%nat).
Proof.
  intros R1 R2. destruct m as [|o|?]; unfold response in *; [| |contradiction].
  - destruct R1 as (y1 & E1 & A1). destruct R2 as (y2 & E2 & A2). exists (y1 ++ y2).
    split; [apply C70_evaluate_sum_is_concatenation; assumption|]. rewrite app_length. intros i k Hi Hk.
    pose proof (proj1 (evaluate_len _ _ _ E1)) as L1. destruct (Nat.ltb_spec i (List.length ks1)) as [Hl|Hg].
    + rewrite app_nth1 by lia. apply A1; assumption.
    + rewrite app_nth2 by lia. rewrite L1. apply A2; [lia|exact Hk].
  - destruct R1 as (y1 & E1 & Ho & Hl & A1). destruct R2 as (y2 & E2 & _ & _ & A2). exists (y1 ++ y2).
    pose proof (proj1 (coeff_len F _ _ _ _ E1)) as L1. split.
    + unfold compute_cheby_coeff in *. destruct ks1 as [|k1 ks1]; [discriminate|]. destruct ks2 as [|k2 ks2]; [discriminate|].
      change ((k1 :: ks1) ++ k2 :: ks2) with (k1 :: (ks1 ++ k2 :: ks2)).
      exact (mapr_app _ (k1 :: ks1) (k2 :: ks2) _ _ E1 E2).
    + split; [exact Ho|]. split; [exact Hl|]. rewrite app_length. intros i k Hi Hk. destruct (Nat.ltb_spec i (List.length ks1)) as [Hlt|Hg].
      * rewrite app_nth1 by lia. apply A1; assumption.
      * rewrite app_nth2 by lia. rewrite L1. apply A2; [lia|exact Hk].
Qed.

(** Filtering a signal by g1 + g2 yields the responses of g1 followed by those of g2. *)
Theorem C70_filter_sum_is_concatenation :
  forall F ks1 ks2 m H1 H2 x o1 o2, spectral F -> response F ks1 m H1 -> response F ks2 m H2 ->
    gfilter F ks1 m (vec_arr (v_N F) x) = Ok o1 -> gfilter F ks2 m (vec_arr (v_N F) x) = Ok o2 ->
    exists o, gfilter F (ks1 ++ ks2) m (vec_arr (v_N F) x) = Ok o /\
      (forall f n, (f < List.length ks1)%nat -> (n < v_N F)%nat ->
         ans F (List.length ks1 + List.length ks2) o f n = ans F (List.length ks1) o1 f n) /\
      (forall f n, (f < List.length ks2)%nat -> (n < v_N F)%nat ->
         ans F (List.length ks1 + List.length ks2) o (List.length ks1 + f) n = ans F (List.length ks2) o2 f n).
Proof.
  intros F ks1 ks2 m H1 H2 x o1 o2 HF R1 R2 E1 E2.
  destruct (one_signal F (ks1 ++ ks2) m _ x HF (response_app F ks1 ks2 m H1 H2 R1 R2)) as (o & E & _ & Ho).
  rewrite app_length in Ho. exists o. split; [exact E|]. split; intros f n Hf Hn.
  - rewrite Ho by lia. destruct (Nat.ltb_spec f (List.length ks1)); [|lia]. symmetry. apply (ans_of _ _ _ _ _ _ HF R1 E1); assumption.
  - rewrite Ho by lia. destruct (Nat.ltb_spec (List.length ks1 + f) (List.length ks1)); [lia|].
    replace (List.length ks1 + f - List.length ks1)%nat with f by lia. symmetry. apply (ans_of _ _ _ _ _ _ HF R2 E2); assumption.
Qed.

Example C70_ex : exists y1 y2, evaluate (map pw [fun t => t; fun t => t * t]) [0; 1; 2] = Ok y1 /\
  evaluate (map pw [fun t => 1]) [0; 1; 2] = Ok y2 /\ y1 ++ y2 = [[0; 1; 2]; [0 * 0; 1 * 1; 2 * 2]; [1; 1; 1]].
Proof. eexists _, _. split; [apply evaluate_pw|]. split; [apply evaluate_pw|]. reflexivity. Qed.

(** ** C24: complement *)

Definition sq_at (gs : list (R -> R)) (x : R) : R := lsum (map (fun g => g x * g x) gs).

Lemma sumsq_pw gs x : sumsq (map (fun g => map g x) gs) (List.length x) = map (sq_at gs) x.
Proof.
  unfold sumsq. apply nth_ext with 0 0; [rewrite !map_length, seq_length; reflexivity|].
  intros j Hj. rewrite map_length, seq_length in Hj. rewrite nth_map_seq by exact Hj.
  rewrite (nth_indep (map (sq_at gs) x) 0 (sq_at gs 0)) by (rewrite map_length; exact Hj). rewrite map_nth.
  unfold sq_at. rewrite map_map. apply lsum_map_ext. intros g Hg.
  rewrite (nth_indep (map g x) 0 (g 0)) by (rewrite map_length; exact Hj). rewrite map_nth. reflexivity.
Qed.

(** complement(B) evaluates on a (non-empty) set of frequencies iff B is at least the bank's sum of squares
    there, and then the completed bank has sum of squares B at each of these frequencies. *)
Theorem C24_complement_completes_to_a_tight_frame :
  forall gs B x, x <> [] -> (forall t, In t x -> sq_at gs t <= B) ->
    exists y, evaluate (map pw gs ++ complement (map pw gs) (Some B)) x = Ok y /\ List.length y = S (List.length gs) /\
      forall j, (j < List.length x)%nat -> nth j (sumsq y (List.length x)) 0 = B.
Proof.
  intros gs B x Hx HB.
  assert (HC : evaluate (complement (map pw gs) (Some B)) x = Ok [map (fun t => sqrt (B - sq_at gs t)) x]).
  { unfold complement. unfold evaluate at 1. cbn [mapr]. rewrite evaluate_pw. cbn [bindr]. rewrite sumsq_pw.
    destruct (lmaxl (map (sq_at gs) x)) as [ym|] eqn:Em; [|destruct x; [congruence|discriminate]]. cbn [bindr].
    destruct (lmaxl_spec _ _ Em) as (Hin & _). apply in_map_iff in Hin. destruct Hin as (t & <- & Ht).
    destruct (Rltb_spec B (sq_at gs t)) as [Hlt|_]; [specialize (HB t Ht); lra|]. cbn [bindr]. rewrite !map_length, Nat.eqb_refl. cbn [bindr].
    rewrite map_map. reflexivity. }
  pose proof (C70_evaluate_sum_is_concatenation _ _ _ _ _ (evaluate_pw gs x) HC) as E.
  eexists. split; [exact E|]. split; [rewrite app_length, map_length; cbn; lia|]. intros j Hj.
  unfold sumsq. rewrite nth_map_seq by exact Hj. rewrite map_app, lsum_app.
  assert (E1 : lsum (map (fun row => nth j row 0 * nth j row 0) (map (fun g => map g x) gs)) = sq_at gs (nth j x 0)).
  { pose proof (f_equal (fun l => nth j l 0) (sumsq_pw gs x)) as Es. cbn beta in Es. unfold sumsq in Es. rewrite nth_map_seq in Es by exact Hj.
    rewrite Es. rewrite (nth_indep (map (sq_at gs) x) 0 (sq_at gs 0)) by (rewrite map_length; exact Hj). apply map_nth. }
  rewrite E1. cbn [map lsum fold_right].
  rewrite (nth_indep (map (fun t => sqrt (B - sq_at gs t)) x) 0 (sqrt (B - sq_at gs 0))) by (rewrite map_length; exact Hj).
  rewrite (map_nth (fun t => sqrt (B - sq_at gs t)) x 0 j). rewrite sqrt_sqrt by (specialize (HB (nth j x 0) (nth_In _ _ Hj)); lra). lra.
Qed.

Theorem C24_infeasible_bound_rejected :
  forall gs B x t, In t x -> B < sq_at gs t -> evaluate (complement (map pw gs) (Some B)) x = Raise ValueError.
Proof.
  intros gs B x t Ht HB. unfold complement. unfold evaluate at 1. cbn [mapr]. rewrite evaluate_pw. cbn [bindr]. rewrite sumsq_pw.
  destruct (lmaxl (map (sq_at gs) x)) as [ym|] eqn:Em; [|destruct x; [contradiction|discriminate]]. cbn [bindr].
  destruct (lmaxl_spec _ _ Em) as (_ & Hmx). specialize (Hmx _ (in_map (sq_at gs) _ _ Ht)).
  destruct (Rltb_spec B ym) as [_|Hge]; [reflexivity|lra].
Qed.

(** Without a bound: on each batch of frequencies the completed bank is tight on that batch ... *)
Theorem C24_default_bound_tight_on_each_batch :
  forall gs x, x <> [] -> exists y b, evaluate (map pw gs ++ complement (map pw gs) None) x = Ok y /\
      (exists t, In t x /\ b = sq_at gs t) /\ (forall t, In t x -> sq_at gs t <= b) /\
      forall j, (j < List.length x)%nat -> nth j (sumsq y (List.length x)) 0 = b.
Proof.
  intros gs x Hx. destruct (lmaxl (map (sq_at gs) x)) as [ym|] eqn:Em; [|destruct x; [congruence|discriminate]].
  destruct (lmaxl_spec _ _ Em) as (Hin & Hmx). apply in_map_iff in Hin. destruct Hin as (t0 & Et & Ht0).
  assert (HB : forall t, In t x -> sq_at gs t <= ym) by (intros t Ht; apply Hmx, in_map, Ht).
  destruct (C24_complement_completes_to_a_tight_frame gs ym x Hx HB) as (y & Ey & _ & Hy).
  exists y, ym. split; [|split; [eauto|split; [exact HB|exact Hy]]]. rewrite <- Ey.
  assert (EC : evaluate (complement (map pw gs) None) x = evaluate (complement (map pw gs) (Some ym)) x).
  { unfold complement. unfold evaluate at 1 3. cbn [mapr]. rewrite evaluate_pw. cbn [bindr]. rewrite sumsq_pw, Em. cbn [bindr].
    destruct (Rltb_spec ym ym); [lra|]. reflexivity. }
  clear Ey Hy. unfold evaluate in *. generalize (map pw gs) at 1 3. intros l.
  induction l as [|k l IH]; cbn; [exact EC|]. rewrite IH. reflexivity.
Qed.

(** ... but the kernel so obtained is not a function of the frequency: its value at a frequency depends on
    the other frequencies evaluated with it. *)
Theorem C24_default_bound_depends_on_the_batch_refuted :
  exists g x x' y y', evaluate (complement [pw g] None) x = Ok [y] /\ evaluate (complement [pw g] None) x' = Ok [y'] /\
    nth 0 x 0 = nth 0 x' 0 /\ nth 0 y 0 <> nth 0 y' 0.
Proof.
  exists (fun t => t), [0], [0; 1].
  assert (E : forall x m, lmaxl (map (sq_at [fun t => t]) x) = Ok m ->
    evaluate (complement [pw (fun t => t)] None) x = Ok [map (fun t => sqrt (m - sq_at [fun t => t] t)) x]).
  { intros x m Em. unfold complement. unfold evaluate at 1. cbn [mapr]. change [pw (fun t : R => t)] with (map pw [fun t => t]).
    rewrite evaluate_pw. cbn [bindr]. rewrite sumsq_pw, Em. cbn [bindr]. rewrite !map_length, Nat.eqb_refl, map_map. reflexivity. }
  exists [sqrt (0 - sq_at [fun t => t] 0)], (map (fun t => sqrt (1 - sq_at [fun t => t] t)) [0; 1]).
  split; [apply (E [0] 0)|split; [apply (E [0; 1] 1)|split; [reflexivity|]]].
  - cbn. unfold sq_at, lsum. cbn. f_equal. lra.
  - cbn. unfold sq_at, lsum. cbn. f_equal. unfold Rmax. destruct (Rle_dec _ _); lra.
  - cbn. unfold sq_at, lsum. cbn. replace (0 - (0 * 0 + 0)) with 0 by lra. replace (1 - (0 * 0 + 0)) with 1 by lra.
    rewrite sqrt_0, sqrt_1. lra.
Qed.

Example C24_ex : (forall t, In t [0; 1; 2] -> sq_at [fun t => t / 2; fun t => /2] t <= 2).
Proof. intros t Ht. unfold sq_at, lsum. cbn in *. destruct Ht as [<-|[<-|[<-|[]]]]; lra. Qed.

(** ** C25: inverse *)

Lemma evaluate_inverse ks x y : evaluate ks x = Ok y ->
  exists z, evaluate (map (inverse_kernel ks) (seq 0 (List.length ks))) x = Ok z /\
    forall i j, (i < List.length ks)%nat -> (j < List.length x)%nat ->
      nth j (nth i z []) 0 = if Reqb (nth j (sumsq y (List.length x)) 0) 0 then 0
                             else nth j (nth i y []) 0 / nth j (sumsq y (List.length x)) 0.
Proof.
  intros Hy. set (row := fun i => map (fun j => if Reqb (nth j (sumsq y (List.length x)) 0) 0 then 0
       else nth j (nth i y []) 0 / nth j (sumsq y (List.length x)) 0) (seq 0 (List.length x))).
  exists (map row (seq 0 (List.length ks))). split.
  - unfold evaluate at 1.
    assert (E : forall l, mapr (fun k => bindr (k x) (fun y0 => if Nat.eqb (List.length y0) (List.length x) then Ok y0 else Raise ValueError)) (map (inverse_kernel ks) l) = Ok (map row l)).
    { induction l as [|i l IH]; cbn [map mapr]; [reflexivity|]. unfold inverse_kernel at 1. rewrite Hy. cbn [bindr].
      rewrite map_length, seq_length, Nat.eqb_refl. cbn [bindr]. rewrite IH. reflexivity. }
    apply E.
  - intros i j Hi Hj. rewrite nth_map_seq by exact Hi. unfold row. rewrite nth_map_seq by exact Hj. reflexivity.
Qed.

Lemma resqueeze N v Nf out : N <> 1%nat -> shape out = drop1 [N; v; Nf] ->
  (Nf <> 1%nat -> exists sig, fbatch N Nf out v sig /\ forall j f i, (i < N)%nat -> (j < v)%nat -> (f < Nf)%nat -> sig j f i = rd [N; v; Nf] out [i; j; f]) /\
  (Nf = 1%nat -> exists sig, batch N 1 out v sig /\ forall j i, (i < N)%nat -> (j < v)%nat -> sig j i = rd [N; v; Nf] out [i; j; 0%nat]).
Proof.
  intros HN Hs. destruct out as [sh g]. cbn [shape] in Hs. subst sh. cbn [drop1 filter]. unfold drop1, rd, sqidx. cbn [filter aget].
  apply Nat.eqb_neq in HN. rewrite HN. cbn [negb]. split.
  - intros HNf. apply Nat.eqb_neq in HNf as HNf'. rewrite HNf'. cbn [negb]. destruct (Nat.eqb_spec v 1) as [->|Hv]; cbn [negb].
    + eexists. split; [apply fbatch2; exact HNf|]. intros j f i Hi Hj Hf. reflexivity.
    + eexists. split; [apply fbatch3; exact HNf|]. intros j f i Hi Hj Hf. reflexivity.
  - intros ->. cbn [Nat.eqb negb]. destruct (Nat.eqb_spec v 1) as [->|Hv]; cbn [negb].
    + eexists. split; [apply batch1|]. intros j i Hi Hj. reflexivity.
    + eexists. split; [apply batch2; left; exact Hv|]. intros j i Hi Hj. reflexivity.
Qed.

(** Filtering the analysis coefficients of any batch of signals by the inverse bank yields the projection
    of each signal on the eigenvectors where some filter is non-zero. *)
Theorem C25_inverse_projects_on_the_covered_spectrum :
  forall F ks ks' H s v sig, spectral F -> (v_N F <> 1)%nat -> response F ks Exact H -> inverse F ks = Ok ks' ->
    batch (v_N F) (List.length ks) s v sig ->
    exists out out', gfilter F ks Exact s = Ok out /\ gfilter F ks' Exact out = Ok out' /\
      shape out' = drop1 [v_N F; v; 1%nat] /\
      forall n j, (n < v_N F)%nat -> (j < v)%nat ->
        rd [v_N F; v; 1%nat] out' [n; j; 0%nat] =
        mult F (fun k => if Reqb (\sum_(f < List.length ks) (H f k * H f k)) 0 then 0 else 1) (sig j) n.
Proof.
  intros F ks ks' H s v sig HF HN Hr Hi Hs. pose proof Hr as (y & Hy & HH).
  unfold inverse in Hi. destruct (estimate_frame_bounds F ks None); cbn in Hi; [|discriminate]. injection Hi as <-.
  destruct (evaluate_inverse ks (v_e F) y Hy) as (z & Hz & HZ).
  set (ks' := map (inverse_kernel ks) (seq 0 (List.length ks))) in *.
  assert (Hlen : List.length ks' = List.length ks) by (unfold ks'; rewrite map_length, seq_length; reflexivity).
  set (q := fun k => \sum_(f < List.length ks) (H f k * H f k)).
  assert (Hq : forall k, (k < v_N F)%nat -> nth k (sumsq y (List.length (v_e F))) 0 = q k).
  { intros k Hk. rewrite (nth_sumsq ks _ y k Hy) by (rewrite (proj1 HF); exact Hk). apply rsum_ext. intros f Hf. rewrite HH by assumption. reflexivity. }
  set (H' := fun i k => if Reqb (q k) 0 then 0 else H i k / q k).
  assert (R' : response F ks' Exact H').
  { exists z. split; [exact Hz|]. rewrite Hlen. intros i k Hik Hk. rewrite HZ by (try rewrite (proj1 HF); assumption).
    rewrite Hq by exact Hk. unfold H'. rewrite HH by assumption. reflexivity. }
  destruct (C19_analysis_multiplies_the_spectrum F ks Exact H s v sig HF Hr Hs) as (out & Eo & So & Ho).
  destruct (resqueeze _ _ _ _ HN So) as (RS1 & RS2).
  assert (Hpt : forall j n, (n < v_N F)%nat -> \sum_(f < List.length ks) mult F (H' f) (mult F (H f) (sig j)) n =
     mult F (fun k => if Reqb (q k) 0 then 0 else 1) (sig j) n).
  { intros j n Hn. transitivity (\sum_(f < List.length ks) mult F (fun k => H' f k * H f k) (sig j) n).
    - apply rsum_ext. intros f Hf. apply (mult_mult F HF).
    - rewrite <- (mult_sum_h F (List.length ks) (fun f k => H' f k * H f k)). apply mult_ext; [|intros ? ?; reflexivity].
      intros k Hk. unfold H'. destruct (Reqb (q k) 0) eqn:Eq.
      + apply rsum_0. intros; ring.
      + apply Reqb_false in Eq. rewrite (rsum_ext _ _ (fun f => H f k * H f k / q k)) by (intros; field; exact Eq).
        rewrite rsum_div_r. fold (q k). field. exact Eq. }
  destruct (Nat.eq_dec (List.length ks) 1) as [E1|Hne].
  - destruct (RS2 E1) as (sg & Hb & Hsg). rewrite E1 in Hlen. rewrite <- Hlen in Hb.
    destruct (C19_analysis_multiplies_the_spectrum F ks' Exact H' out v sg HF R' Hb) as (out' & Eo' & So' & Ho').
    exists out, out'. split; [exact Eo|]. split; [exact Eo'|]. rewrite Hlen in *. split; [exact So'|].
    intros n j Hn Hj. rewrite Ho' by lia. fold q. rewrite <- Hpt by exact Hn. rewrite E1 in *. cbn [rsum]. rewrite Rplus_0_l.
    apply mult_ext; [intros ? ?; reflexivity|]. intros i Hi. rewrite Hsg, Ho by lia. reflexivity.
  - destruct (RS1 Hne) as (sg & Hb & Hsg). rewrite <- Hlen in Hb.
    destruct (C19_synthesis_sums_the_filtered_features F ks' Exact H' out v sg HF R' Hb) as (out' & Eo' & So' & Ho').
    exists out, out'. split; [exact Eo|]. split; [exact Eo'|]. rewrite Hlen in *. split; [exact So'|].
    intros n j Hn Hj. rewrite Ho' by lia. fold q. rewrite <- Hpt by exact Hn. apply rsum_ext. intros f Hf.
    apply mult_ext; [intros ? ?; reflexivity|]. intros i Hi. rewrite Hsg, Ho by lia. reflexivity.
Qed.

(** In particular the signals are reconstructed when at every eigenvalue some filter is non-zero. *)
Theorem C25_inverse_reconstructs :
  forall F ks ks' H s v sig, spectral F -> (v_N F <> 1)%nat -> response F ks Exact H -> inverse F ks = Ok ks' ->
    batch (v_N F) (List.length ks) s v sig ->
    (forall k, (k < v_N F)%nat -> exists f, (f < List.length ks)%nat /\ H f k <> 0) ->
    exists out out', gfilter F ks Exact s = Ok out /\ gfilter F ks' Exact out = Ok out' /\
      forall n j, (n < v_N F)%nat -> (j < v)%nat -> rd [v_N F; v; 1%nat] out' [n; j; 0%nat] = sig j n.
Proof.
  intros F ks ks' H s v sig HF HN Hr Hi Hs Hcov.
  destruct (C25_inverse_projects_on_the_covered_spectrum F ks ks' H s v sig HF HN Hr Hi Hs) as (out & out' & E & E' & _ & Ho).
  exists out, out'. split; [exact E|]. split; [exact E'|]. intros n j Hn Hj. rewrite Ho by assumption.
  rewrite <- (mult_1 F HF (sig j) n Hn). apply mult_ext; [|intros ? ?; reflexivity]. intros k Hk.
  destruct (Reqb _ 0) eqn:Eq; [|reflexivity]. exfalso. apply Reqb_true in Eq. destruct (Hcov k Hk) as (f & Hf & Hne).
  assert (0 < \sum_(f < List.length ks) (H f k * H f k)).
  { apply (rsum_pos _ _ f); [intros; apply Rle_0_sqr|exact Hf|]. apply Rsqr_pos_lt in Hne. exact Hne. }
  lra.
Qed.

(** Pointwise kernels always have an inverse bank. *)
Theorem C25_inverse_available : forall F gs, exists ks', inverse F (map pw gs) = Ok ks' /\ List.length ks' = List.length gs.
Proof.
  intros F gs. unfold inverse, estimate_frame_bounds. rewrite evaluate_pw. cbn [bindr]. rewrite sumsq_pw.
  assert (E : exists h t, linspace 0 (v_lmax F) 1000 = h :: t) by (unfold linspace; cbn [seq map]; eauto).
  destruct E as (h & t & ->). cbn [map lmin lmaxl bindr]. eexists. split; [reflexivity|]. rewrite map_length, seq_length, map_length. reflexivity.
Qed.

Example C25_ex : forall k, (k < 2)%nat -> exists f, (f < 2)%nat /\ nth f [fun t => t; fun t => 1 - t / 2] (fun _ => 0) (nth k [0; 2] 0) <> 0.
Proof.
  intros k Hk. destruct k as [|[|k]]; try lia; [exists 1%nat|exists 0%nat]; (split; [lia|]); cbn; lra.
Qed.

(** ** C26: localization and frames *)

Theorem C26_localize :
  forall F ks m H i, spectral F -> response F ks m H -> (i < v_N F)%nat ->
    exists out, localize F ks m (Z.of_nat i) = Ok out /\ localize F ks m (Z.of_nat i - Z.of_nat (v_N F)) = Ok out /\
      forall f n, (f < List.length ks)%nat -> (n < v_N F)%nat ->
        ans F (List.length ks) out f n = sqrt (INR (v_N F)) * mult F (H f) (fun j => if Nat.eqb j i then 1 else 0) n.
Proof.
  intros F ks m H i HF Hr Hi.
  destruct (one_signal F ks m H (fun j => if Nat.eqb j i then 1 else 0) HF Hr) as (out & E & S & Ho).
  assert (Hloc : forall z, norm_index (v_N F) z = Ok i -> localize F ks m z = Ok (Arr (shape out) (fun idx => sqrt (INR (v_N F)) * aget out idx))).
  { intros z Hz. unfold localize. rewrite Hz. cbn [bindr]. unfold delta. rewrite E. reflexivity. }
  eexists. split; [apply Hloc|split; [apply Hloc|]].
  - unfold norm_index. destruct (Z.leb_spec 0 (Z.of_nat i)); [|lia]. destruct (Z.ltb_spec (Z.of_nat i) (Z.of_nat (v_N F))); [|lia]. cbn [andb]. rewrite Nat2Z.id. reflexivity.
  - unfold norm_index. destruct (Z.leb_spec 0 (Z.of_nat i - Z.of_nat (v_N F))); [lia|]. cbn [andb].
    destruct (Z.leb_spec (- Z.of_nat (v_N F)) (Z.of_nat i - Z.of_nat (v_N F))); [|lia].
    destruct (Z.ltb_spec (Z.of_nat i - Z.of_nat (v_N F)) 0); [|lia]. cbn [andb].
    replace (Z.of_nat i - Z.of_nat (v_N F) + Z.of_nat (v_N F))%Z with (Z.of_nat i) by lia. rewrite Nat2Z.id. reflexivity.
  - intros f n Hf Hn. rewrite <- Ho by assumption. reflexivity.
Qed.

(** Atoms are symmetric: localize(i)[j] = localize(j)[i]. *)
Theorem C26_atoms_are_symmetric :
  forall F ks m H i j oi oj, spectral F -> response F ks m H -> (i < v_N F)%nat -> (j < v_N F)%nat ->
    localize F ks m (Z.of_nat i) = Ok oi -> localize F ks m (Z.of_nat j) = Ok oj ->
    forall f, (f < List.length ks)%nat -> ans F (List.length ks) oi f j = ans F (List.length ks) oj f i.
Proof.
  intros F ks m H i j oi oj HF Hr Hi Hj Ei Ej f Hf.
  destruct (C26_localize F ks m H i HF Hr Hi) as (o & E & _ & Ho). rewrite Ei in E. injection E as <-.
  destruct (C26_localize F ks m H j HF Hr Hj) as (o & E & _ & Ho'). rewrite Ej in E. injection E as <-.
  rewrite Ho, Ho' by assumption. f_equal. apply (mult_delta_sym F); assumption.
Qed.

Theorem C26_localize_out_of_range :
  forall F ks m i, (i < - Z.of_nat (v_N F) \/ Z.of_nat (v_N F) <= i)%Z -> localize F ks m i = Raise IndexError.
Proof.
  intros F ks m i H. unfold localize, norm_index.
  replace (Z.leb 0 i && Z.ltb i (Z.of_nat (v_N F)))%bool with false
    by (symmetry; apply andb_false_iff; destruct (Z.leb_spec 0 i); destruct (Z.ltb_spec i (Z.of_nat (v_N F))); auto; lia).
  replace (Z.leb (- Z.of_nat (v_N F)) i && Z.ltb i 0)%bool with false
    by (symmetry; apply andb_false_iff; destruct (Z.leb_spec (- Z.of_nat (v_N F)) i); destruct (Z.ltb_spec i 0); auto; lia).
  reflexivity.
Qed.

(** compute_frame, when the number of filters differs from the number of vertices (or there is one vertex):
    a matrix of Nf N rows and N columns such that frame @ x stacks the responses to x. *)
Theorem C26_compute_frame_is_the_analysis_operator :
  forall F ks m H, spectral F -> response F ks m H -> (0 < v_N F)%nat ->
    (v_N F <> List.length ks \/ v_N F = 1)%nat ->
    exists A, compute_frame F ks m = Ok A /\ shape A = [(List.length ks * v_N F)%nat; v_N F] /\
      forall x out f n, gfilter F ks m (vec_arr (v_N F) x) = Ok out -> (f < List.length ks)%nat -> (n < v_N F)%nat ->
        \sum_(j < v_N F) (aget A [(f * v_N F + n)%nat; j] * x j) = ans F (List.length ks) out f n.
Proof.
  intros F ks m H HF Hr HN0 HNf. set (N := v_N F) in *. set (Nf := List.length ks) in *.
  destruct (C19_analysis_multiplies_the_spectrum F ks m H (mat_arr N N idm) N (fun j i => idm i j) HF Hr (batch2 _ _ _ _ HNf)) as (o & E & S & Ho).
  fold N Nf in E, S, Ho. unfold compute_frame. fold N. rewrite E. cbn [bindr]. unfold reshape_cols.
  destruct (Nat.eqb_spec N 0) as [|_]; [lia|].
  assert (HP : prodl (shape (atrans o)) = (Nf * N * N)%nat).
  { cbn [atrans shape]. rewrite S, prodl_rev, prodl_drop1. cbn. lia. }
  rewrite HP. rewrite Nat.div_mul by lia. unfold reshape. rewrite HP. cbn [prodl]. rewrite Nat.mul_1_r, Nat.eqb_refl.
  eexists. split; [reflexivity|]. split; [reflexivity|]. intros x out f n Eo Hf Hn. cbn [aget].
  rewrite (ans_of _ _ _ _ _ _ HF Hr Eo) by assumption. rewrite (mult_as_matrix F) by exact Hn.
  apply rsum_ext. intros j Hj. f_equal. fold N in Hj.
  assert (Hidx : unravel (shape (atrans o)) (ravel [(Nf * N)%nat; N] [(f * N + n)%nat; j]) = rev (sqidx [N; N; Nf] [j; n; f])).
  { cbn [atrans shape]. rewrite S, <- drop1_rev. cbn [rev app].
    assert (Hin : inb [Nf; N; N] [f; n; j]) by (repeat constructor; assumption).
    replace (ravel [(Nf * N)%nat; N] [(f * N + n)%nat; j]) with (ravel [Nf; N; N] [f; n; j]) by (cbn; nia).
    rewrite <- (sq_unsq [Nf; N; N] (unravel (drop1 [Nf; N; N]) (ravel [Nf; N; N] [f; n; j]))).
    - rewrite unsq_unravel by (apply ravel_lt; exact Hin). rewrite unravel_ravel by exact Hin.
      cbn [sqidx]. destruct (Nat.eqb Nf 1); destruct (Nat.eqb N 1); reflexivity.
    - apply unravel_inb. rewrite prodl_drop1. apply ravel_lt. exact Hin. }
  rewrite Hidx. cbn [atrans aget]. rewrite rev_involutive. change (aget o (sqidx [N; N; Nf] [j; n; f])) with (rd [N; N; Nf] o [j; n; f]).
  rewrite Ho by assumption. rewrite (mult_ext F (H f) (H f) _ (fun l => if Nat.eqb l n then 1 else 0)).
  - apply (mult_delta_sym F); assumption.
  - intros ? ?; reflexivity.
  - intros i Hi. unfold idm. reflexivity.
Qed.

(** When the number of filters equals the number of vertices (two or more), compute_frame filters the identity
    as ONE signal with N features: it returns a 1 x N matrix instead of the (Nf N) x N frame. *)
Theorem C26_compute_frame_square_bank_refuted :
  forall F ks m H, spectral F -> response F ks m H -> (1 < v_N F)%nat -> v_N F = List.length ks ->
    exists A, compute_frame F ks m = Ok A /\ shape A = [1%nat; v_N F].
Proof.
  intros F ks m H HF Hr HN E. set (N := v_N F) in *.
  assert (Hne : List.length ks <> 1%nat) by lia.
  assert (Hb : fbatch N (List.length ks) (mat_arr N N idm) 1 (fun _ f i => idm i f)).
  { unfold mat_arr. rewrite E at 3. apply fbatch2. exact Hne. }
  destruct (C19_synthesis_sums_the_filtered_features F ks m H (mat_arr N N idm) 1 _ HF Hr Hb) as (o & Eo & So & _).
  fold N in Eo, So. unfold compute_frame. fold N. rewrite Eo. cbn [bindr]. unfold reshape_cols. destruct (Nat.eqb_spec N 0); [lia|].
  assert (HP : prodl (shape (atrans o)) = N) by (cbn [atrans shape]; rewrite So, prodl_rev, prodl_drop1; cbn; lia).
  rewrite HP, Nat.div_same by lia. unfold reshape. rewrite HP. cbn [prodl]. replace (1 * (N * 1))%nat with N by lia. rewrite Nat.eqb_refl.
  eexists. split; reflexivity.
Qed.

Example C26_square_bank_exists : exists H, response (k2_view 2) (map pw [fun t => t; fun t => 1]) Exact H.
Proof. eexists. apply response_pw. apply k2_spectral. Qed.

(** ** C27: which shapes are accepted, and what comes out *)

Theorem C27_rejected_shapes :
  forall F ks m s,
    (shape s = [] -> gfilter F ks m s = Raise IndexError) /\
    (forall d rest, shape s = d :: rest -> d <> v_N F -> gfilter F ks m s = Raise ValueError) /\
    (forall d v f, shape s = [d; v; f] -> f <> 1%nat -> f <> List.length ks -> gfilter F ks m s = Raise ValueError) /\
    ((3 < List.length (shape s))%nat -> gfilter F ks m s = Raise ValueError).
Proof.
  intros F ks m s. split; [|split; [|split]].
  - intros E. unfold gfilter, to_3d, check_arr. rewrite E. reflexivity.
  - intros d rest E Hd. unfold gfilter, to_3d, check_arr. rewrite E. apply Nat.eqb_neq in Hd. rewrite Hd. reflexivity.
  - intros d v f E H1 H2. unfold gfilter, to_3d, check_arr. rewrite E. destruct (Nat.eqb d (v_N F)); [|reflexivity]. cbn [bindr]. rewrite E.
    cbn [List.length last Nat.eqb orb]. apply Nat.eqb_neq in H1, H2. rewrite H1, H2. reflexivity.
  - intros Hl. unfold gfilter, to_3d, check_arr. destruct (shape s) as [|d rest] eqn:E; [cbn in Hl; lia|].
    destruct (Nat.eqb d (v_N F)); [|reflexivity]. cbn [bindr]. rewrite E. set (sh := d :: rest) in *.
    destruct (Nat.eqb_spec (List.length sh) 3) as [|_]; [lia|].
    match goal with |- context [if ?b then Ok (expand_last s) else Ok s] => destruct b end; cbn [bindr].
    + assert (E2 : List.length (shape (expand_last s)) = S (List.length sh)) by (cbn [expand_last shape]; rewrite E, app_length; cbn; lia).
      destruct (Nat.ltb_spec (List.length (shape (expand_last s))) 3) as [|_]; [lia|].
      destruct (Nat.ltb_spec 3 (List.length (shape (expand_last s)))) as [_|]; [reflexivity|lia].
    + rewrite E. destruct (Nat.ltb_spec (List.length sh) 3) as [|_]; [lia|]. rewrite E.
      destruct (Nat.ltb_spec 3 (List.length sh)) as [_|]; [reflexivity|lia].
Qed.

(** Every other shape is a batch of single-feature signals or a batch of Nf-feature signals (whose results
    C19 gives); nothing is left over. *)
Theorem C27_accepted_shapes :
  forall N Nf s rest, shape s = N :: rest -> (List.length rest <= 2)%nat ->
    (forall v f, rest = [v; f] -> f = 1%nat \/ f = Nf) ->
    (exists v sig, batch N Nf s v sig) \/ (exists v sig, fbatch N Nf s v sig).
Proof.
  intros N Nf [sh g] rest Hs Hl Hf. cbn in Hs. subst sh. destruct rest as [|v [|f [|? ?]]]; [| | |cbn in Hl; lia].
  - left. eexists _, _. apply batch1.
  - destruct (Nat.eq_dec v Nf) as [->|Hv].
    + destruct (Nat.eq_dec Nf 1) as [E|Hne]; [left; eexists _, _; apply batch2; auto|right; eexists _, _; apply fbatch2; exact Hne].
    + left. eexists _, _. apply batch2. auto.
  - destruct (Hf v f eq_refl) as [->| ->].
    + left. eexists _, _. apply batch3.
    + destruct (Nat.eq_dec Nf 1) as [->|Hne]; [left; eexists _, _; apply batch3|right; eexists _, _; apply fbatch3; exact Hne].
Qed.

(** The shape of the result: (N, n_signals, Nf) resp. (N, n_signals, 1), without the axes of length one. *)
Theorem C27_result_shapes :
  forall F ks m H s v, spectral F -> response F ks m H ->
    ((exists sig, batch (v_N F) (List.length ks) s v sig) ->
       exists out, gfilter F ks m s = Ok out /\ shape out = filter (fun d => negb (Nat.eqb d 1)) [v_N F; v; List.length ks]) /\
    ((exists sig, fbatch (v_N F) (List.length ks) s v sig) ->
       exists out, gfilter F ks m s = Ok out /\ shape out = filter (fun d => negb (Nat.eqb d 1)) [v_N F; v; 1%nat]).
Proof.
  intros F ks m H s v HF Hr. split; intros (sig & Hs).
  - destruct (C19_analysis_multiplies_the_spectrum F ks m H s v sig HF Hr Hs) as (o & E & S & _). eauto.
  - destruct (C19_synthesis_sums_the_filtered_features F ks m H s v sig HF Hr Hs) as (o & E & S & _). eauto.
Qed.

(** analyze rejects exactly the 3-D signals with several features; synthesize requires Nf features. *)
Theorem C27_analyze_synthesize :
  forall F ks m s,
    (forall d v f, shape s = [d; v; f] -> f <> 1%nat -> analyze F ks m s = Raise ValueError) /\
    ((forall d v f, shape s = [d; v; f] -> f = 1%nat) -> analyze F ks m s = gfilter F ks m s) /\
    (shape s <> [] -> last (shape s) 0%nat <> List.length ks -> synthesize F ks m s = Raise ValueError) /\
    (shape s <> [] -> last (shape s) 0%nat = List.length ks -> synthesize F ks m s = gfilter F ks m s).
Proof.
  intros F ks m s. split; [|split; [|split]].
  - intros d v f E Hf. unfold analyze. rewrite E. cbn [List.length last Nat.eqb andb]. apply Nat.eqb_neq in Hf. rewrite Hf. reflexivity.
  - intros H. unfold analyze. destruct (shape s) as [|d [|v [|f [|? ?]]]]; try reflexivity. cbn [List.length last Nat.eqb andb].
    rewrite (H d v f eq_refl). reflexivity.
  - intros H1 H2. unfold synthesize. destruct (shape s); [congruence|]. apply Nat.eqb_neq in H2. rewrite H2. reflexivity.
  - intros H1 H2. unfold synthesize. destruct (shape s); [congruence|]. apply Nat.eqb_eq in H2. rewrite H2. reflexivity.
Qed.

Example C27_ex : batch 2 3 (Arr [2%nat; 5%nat] (fun idx => INR (hd 0%nat idx))) 5 (fun j i => INR i) /\
  fbatch 2 3 (Arr [2%nat; 3%nat] (fun idx => INR (hd 0%nat idx))) 1 (fun j f i => INR i).
Proof. split; [apply (batch2 2 3 5); left; lia|apply fbatch2; lia]. Qed.
