(** Facts about filtering: every method acts as a spectral multiplier. *)
From Coq Require Import Reals Lra Lia List Arith Bool.
From Verif.Base Require Import RSum Prelude LinAlg.
From Verif.Spec Require Import Matrix NdArray FilterSpec.
From Verif.Model Require Import Sparse Graph Traverse Cache Filter.
From Verif.Proofs Require Import SpectralFacts.
Import ListNotations.
Open Scope R_scope.

Lemma mapr_ok {A B} (f : A -> res B) (l : list A) r :
  mapr f l = Ok r -> List.length r = List.length l /\
  forall i d d', (i < List.length l)%nat -> f (nth i l d) = Ok (nth i r d').
Proof.
  revert r. induction l as [|a l IH]; intros r E; cbn in E.
  - injection E as <-. split; [reflexivity|]. intros; cbn in *; lia.
  - destruct (f a) eqn:Ea; cbn in E; [|discriminate]. destruct (mapr f l) eqn:El; cbn in E; [|discriminate].
    injection E as <-. destruct (IH _ eq_refl) as (IH1 & IH2). split; [cbn; lia|].
    intros i d d' Hi. destruct i; cbn; [exact Ea|]. apply IH2. cbn in Hi. lia.
Qed.
Lemma mapr_total {A B} (f : A -> res B) (g : A -> B) (l : list A) :
  (forall a, In a l -> f a = Ok (g a)) -> mapr f l = Ok (map g l).
Proof.
  induction l as [|a l IH]; intros H; cbn; [reflexivity|].
  rewrite (H a) by (left; reflexivity). cbn. rewrite IH by (intros; apply H; right; assumption). reflexivity.
Qed.

Lemma evaluate_pw gs x : evaluate (map pw gs) x = Ok (map (fun g => map g x) gs).
Proof.
  unfold evaluate. induction gs as [|g gs IH]; cbn; [reflexivity|].
  rewrite map_length, Nat.eqb_refl. cbn. rewrite IH. reflexivity.
Qed.
Lemma evaluate_len ks x y : evaluate ks x = Ok y ->
  List.length y = List.length ks /\ forall i, (i < List.length ks)%nat -> List.length (nth i y []) = List.length x.
Proof.
  intros E. unfold evaluate in E. destruct (mapr_ok _ _ _ E) as (H1 & H2). split; [exact H1|].
  intros i Hi. specialize (H2 i (fun _ => Raise ValueError) [] Hi).
  match type of H2 with bindr ?t _ = _ => destruct t as [y0|] end; cbn in H2; [|discriminate].
  destruct (Nat.eqb (List.length y0) (List.length x)) eqn:El; [|discriminate].
  injection H2 as <-. apply Nat.eqb_eq. exact El.
Qed.

Section Mult.
  Variable F : view.
  Hypothesis HF : spectral F.
  Notation n := (v_N F).
  Notation e := (fun k => nth k (v_e F) 0).
  Let HE : eigh_ok n (v_L F) e (v_U F) := proj2 HF.

  Lemma mult_ext h h' x x' i : veq n h h' -> veq n x x' -> mult F h x i = mult F h' x' i.
  Proof.
    intros Hh Hx. unfold mult, fhat. apply rsum_ext. intros k Hk. rewrite Hh by exact Hk. f_equal. f_equal.
    apply rsum_ext. intros j Hj. rewrite Hx by exact Hj. reflexivity.
  Qed.
  Lemma fhat_lin a b x y k : fhat F (fun i => a * x i + b * y i) k = a * fhat F x k + b * fhat F y k.
  Proof.
    unfold fhat. rewrite <- !rsum_scal_l. rewrite <- rsum_plus. apply rsum_ext. intros; ring.
  Qed.
  Lemma mult_lin_x h a b x y i : mult F h (fun i => a * x i + b * y i) i = a * mult F h x i + b * mult F h y i.
  Proof.
    unfold mult. rewrite <- !rsum_scal_l. rewrite <- rsum_plus. apply rsum_ext. intros k Hk. rewrite fhat_lin. ring.
  Qed.
  Lemma mult_lin_h a b h h' x i : mult F (fun k => a * h k + b * h' k) x i = a * mult F h x i + b * mult F h' x i.
  Proof.
    unfold mult. rewrite <- !rsum_scal_l. rewrite <- rsum_plus. apply rsum_ext. intros k Hk. ring.
  Qed.
  Lemma mult_sum_h m (h : nat -> vec) x i : mult F (fun k => \sum_(l < m) h l k) x i = \sum_(l < m) mult F (h l) x i.
  Proof.
    unfold mult. rewrite rsum_swap. apply rsum_ext. intros k Hk. rewrite rsum_scal_l. f_equal.
    rewrite <- rsum_scal_r. reflexivity.
  Qed.
  Lemma mult_1 x i : (i < n)%nat -> mult F (fun _ => 1) x i = x i.
  Proof.
    intros Hi. rewrite <- (eigh_expand n (v_L F) e (v_U F) HE x i Hi). unfold mult, fhat, coef.
    apply rsum_ext. intros; ring.
  Qed.
  Lemma fhat_mult h x k : (k < n)%nat -> fhat F (mult F h x) k = h k * fhat F x k.
  Proof. intros Hk. exact (coef_synth n (v_L F) e (v_U F) HE (fun k => h k * fhat F x k) k Hk). Qed.
  Lemma mult_mult h h' x i : mult F h (mult F h' x) i = mult F (fun k => h k * h' k) x i.
  Proof.
    unfold mult at 1 3. apply rsum_ext. intros k Hk. rewrite fhat_mult by exact Hk. ring.
  Qed.
  Lemma fhat_dot x y : dot n (fhat F x) (fhat F y) = dot n x y.
  Proof. exact (coef_dot n (v_L F) e (v_U F) HE x y). Qed.
  Lemma mult_dot h x y : dot n (mult F h x) y = \sum_(k < n) (h k * fhat F x k * fhat F y k).
  Proof.
    rewrite <- fhat_dot. unfold dot. apply rsum_ext. intros k Hk. rewrite fhat_mult by exact Hk. ring.
  Qed.
  Lemma mult_adj h x y : dot n (mult F h x) y = dot n x (mult F h y).
  Proof. rewrite (dot_comm n x). rewrite !mult_dot. apply rsum_ext. intros; ring. Qed.
  Lemma mult_normsq h x : normsq n (mult F h x) = \sum_(k < n) (h k * h k * (fhat F x k * fhat F x k)).
  Proof. unfold normsq. rewrite mult_dot. apply rsum_ext. intros k Hk. rewrite fhat_mult by exact Hk. ring. Qed.
  Lemma fhat_normsq x : \sum_(k < n) (fhat F x k * fhat F x k) = normsq n x.
  Proof. exact (fhat_dot x x). Qed.
  Lemma mulv_mult h x i : (i < n)%nat -> mulv n (v_L F) (mult F h x) i = mult F (fun k => e k * h k) x i.
  Proof.
    intros Hi. rewrite (eigh_mulv n (v_L F) e (v_U F) HE _ i Hi). unfold mult at 2. apply rsum_ext. intros k Hk.
    pose proof (fhat_mult h x k Hk) as Ef. unfold fhat in Ef at 1. unfold coef. rewrite Ef. ring.
  Qed.
  Lemma mulv_is_mult x i : (i < n)%nat -> mulv n (v_L F) x i = mult F e x i.
  Proof.
    intros Hi. rewrite (eigh_mulv n (v_L F) e (v_U F) HE _ i Hi). reflexivity.
  Qed.
  Lemma mult_eigenpair (g : R -> R) lam x i : eigenpair n (v_L F) lam x -> (i < n)%nat ->
    mult F (fun k => g (nth k (v_e F) 0)) x i = g lam * x i.
  Proof.
    intros (_ & He) Hi. rewrite <- (mult_1 x i Hi). unfold mult. rewrite <- rsum_scal_l. apply rsum_ext. intros k Hk.
    assert (E : e k * fhat F x k = lam * fhat F x k).
    { pose proof (coef_mulv n (v_L F) e (v_U F) HE x k Hk) as E. unfold coef in E. cbn beta in E. unfold fhat. rewrite <- E.
      rewrite <- rsum_scal_l. apply rsum_ext. intros j Hj. rewrite He by exact Hj. ring. }
    destruct (Req_dec (fhat F x k) 0) as [Ez|Ez]; [rewrite Ez; ring|].
    assert (El : e k = lam) by (apply Rmult_eq_reg_r with (fhat F x k); assumption). cbn beta in El. rewrite El. ring.
  Qed.
  Lemma fhat_delta i k : (i < n)%nat -> fhat F (fun j => if Nat.eqb j i then 1 else 0) k = v_U F i k.
  Proof.
    intros Hi. unfold fhat. rewrite (rsum_single n _ i Hi).
    - rewrite Nat.eqb_refl. ring.
    - intros j Hj Hne. destruct (Nat.eqb_spec j i); [contradiction|ring].
  Qed.
  Lemma mult_delta_sym h i j : (i < n)%nat -> (j < n)%nat ->
    mult F h (fun l => if Nat.eqb l i then 1 else 0) j = mult F h (fun l => if Nat.eqb l j then 1 else 0) i.
  Proof.
    intros Hi Hj. unfold mult. apply rsum_ext. intros k Hk. rewrite !fhat_delta by assumption. ring.
  Qed.
  Lemma mult_as_matrix h x i : (i < n)%nat ->
    mult F h x i = \sum_(j < n) (mult F h (fun l => if Nat.eqb l j then 1 else 0) i * x j).
  Proof.
    intros Hi. unfold mult.
    rewrite (rsum_ext n (fun j => (\sum_(k < n) (v_U F i k * (h k * fhat F (fun l => if Nat.eqb l j then 1 else 0) k))) * x j)
                        (fun j => \sum_(k < n) (v_U F i k * (h k * (v_U F j k * x j))))).
    2:{ intros j Hj. rewrite <- rsum_scal_r. apply rsum_ext. intros k Hk. rewrite fhat_delta by exact Hj. ring. }
    rewrite rsum_swap. apply rsum_ext. intros k Hk. unfold fhat. rewrite rsum_scal_l. f_equal. rewrite rsum_scal_l. reflexivity.
  Qed.

  (** ** The exact method *)
  Lemma aget3 (g : list nat -> R) (sh : list nat) a b c : aget (Arr sh g) [a; b; c] = g [a; b; c].
  Proof. reflexivity. Qed.

  Ltac norm := repeat (progress (rewrite ?Nat.eqb_refl, ?(proj1 HF); cbn [ix nth bindr shape hd tl andb negb])).
  Lemma exact_analysis ks y s v : evaluate ks (v_e F) = Ok y -> shape s = [n; v; 1%nat] ->
    exists a, filter_exact3 F ks s = Ok a /\ shape a = [n; v; List.length ks] /\
      forall i j f, aget a [i; j; f] = mult F (fun k => nth k (nth f y []) 0) (fun l => aget s [l; j; 0%nat]) i.
  Proof.
    intros Hy Hs. destruct s as [sh g]. cbn in Hs. subst sh.
    unfold filter_exact3, gft, igft, check_arr. rewrite Hy. cbn [ix nth bindr Nat.eqb shape hd tl aget].
    norm.
    eexists. split; [reflexivity|]. split; [reflexivity|]. intros i j f. cbn.
    unfold mult, fhat. apply rsum_ext. intros k Hk. ring.
  Qed.

  Lemma exact_synthesis ks y s v : evaluate ks (v_e F) = Ok y -> List.length ks <> 1%nat ->
    shape s = [n; v; List.length ks] ->
    exists a, filter_exact3 F ks s = Ok a /\ shape a = [n; v; 1%nat] /\
      forall i j, aget a [i; j; 0%nat] =
        \sum_(f < List.length ks) mult F (fun k => nth k (nth f y []) 0) (fun l => aget s [l; j; f]) i.
  Proof.
    intros Hy Hn1 Hs. destruct s as [sh g]. cbn in Hs. subst sh.
    unfold filter_exact3, gft, igft, check_arr. rewrite Hy. cbn [ix nth bindr shape hd tl aget].
    apply Nat.eqb_neq in Hn1. rewrite !Hn1. norm.
    eexists. split; [reflexivity|]. split; [reflexivity|]. intros i j. cbn. unfold mult, fhat. rewrite rsum_swap.
    apply rsum_ext. intros k Hk. rewrite <- rsum_scal_l. apply rsum_ext. intros f Hf. ring.
  Qed.

  (** ** The Chebyshev method *)
  Notation z := (fun k => 2 * nth k (v_e F) 0 / v_lmax F - 1).

  Lemma chebT_SS k x : chebT (S (S k)) x = 2 * x * chebT (S k) x - chebT k x.
  Proof. reflexivity. Qed.

  Definition cheb_inv (c : list (list R)) (x : mat) (k : nat) (st : cheb_state) : Prop :=
    (forall i v, (i < n)%nat -> cs_old st i v = mult F (fun l => chebT (k - 1) (z l)) (fun j => x j v) i) /\
    (forall i v, (i < n)%nat -> cs_cur st i v = mult F (fun l => chebT k (z l)) (fun j => x j v) i) /\
    (forall i f v, (i < n)%nat -> cs_r st (i + n * f)%nat v =
       mult F (fun l => nth 0 (nth f c []) 0 / 2 + \sum_(q < k) (nth (S q) (nth f c []) 0 * chebT (S q) (z l)))
              (fun j => x j v) i).

  Lemma divmod i f : (i < n)%nat -> Nat.div (i + n * f) n = f /\ Nat.modulo (i + n * f) n = i.
  Proof.
    intros Hi. split.
    - rewrite Nat.mul_comm, Nat.div_add by lia. rewrite Nat.div_small by exact Hi. lia.
    - rewrite Nat.mul_comm, Nat.mod_add by lia. apply Nat.mod_small. exact Hi.
  Qed.

  Lemma cheb_init_inv c x : 0 < v_lmax F -> cheb_inv c x 1 (cheb_init F c x).
  Proof.
    intros Hl.
    assert (Hc : forall i v, (i < n)%nat -> shifted F x i v = mult F (fun l => chebT 1 (z l)) (fun j => x j v) i).
    { intros i v Hi. unfold shifted. rewrite (mulv_is_mult _ i Hi).
      rewrite <- (mult_1 (fun j => x j v) i Hi).
      rewrite (mult_ext (fun l => chebT 1 (z l)) (fun l => 2 / v_lmax F * nth l (v_e F) 0 + (-1) * 1) _ (fun j => x j v)).
      2:{ intros l Hlt. cbn. unfold Rdiv. ring. } 2:{ intros ? ?; reflexivity. }
      rewrite (mult_lin_h (2 / v_lmax F) (-1) (fun l => nth l (v_e F) 0) (fun _ => 1)). field. lra. }
    split; [|split].
    - intros i v Hi. cbn. rewrite mult_1 by exact Hi. reflexivity.
    - exact Hc.
    - intros i f v Hi. cbn [cheb_init cs_r]. destruct (divmod i f Hi) as (Ed & Em). rewrite Ed, Em, Hc by exact Hi.
      rewrite <- (mult_1 (fun j => x j v) i Hi) at 1.
      rewrite (mult_ext (fun l => _ + _) (fun l => nth 0 (nth f c []) 0 / 2 * 1 + nth 1 (nth f c []) 0 * chebT 1 (z l)) _ (fun j => x j v)).
      2:{ intros l Hlt. cbn [rsum]. ring. } 2:{ intros ? ?; reflexivity. }
      rewrite (mult_lin_h _ _ (fun _ => 1) (fun l => chebT 1 (z l))). unfold Rdiv. ring.
  Qed.

  Lemma cheb_step_inv c x k st : 0 < v_lmax F -> (1 <= k)%nat -> cheb_inv c x k st ->
    cheb_inv c x (S k) (cheb_step F c st (S k)).
  Proof.
    intros Hl Hk (Ho & Hc & Hr).
    assert (Hn : forall i v, (i < n)%nat -> cs_cur (cheb_step F c st (S k)) i v = mult F (fun l => chebT (S k) (z l)) (fun j => x j v) i).
    { intros i v Hi. cbn [cheb_step cs_cur]. rewrite Ho, Hc by exact Hi.
      rewrite (mulv_ext n (v_L F) (v_L F) _ (mult F (fun l => chebT k (z l)) (fun j => x j v)) i).
      2: reflexivity. 2: intros j Hj; apply Hc; exact Hj.
      rewrite (mulv_mult _ _ i Hi). destruct k as [|k]; [lia|]. replace (S k - 1)%nat with k by lia.
      rewrite (mult_ext (fun l => chebT (S (S k)) (z l))
        (fun l => 1 * (4 / v_lmax F * (nth l (v_e F) 0 * chebT (S k) (z l)) + (-2) * chebT (S k) (z l)) + (-1) * chebT k (z l)) _ (fun j => x j v)).
      2:{ intros l Hlt. rewrite chebT_SS. field. lra. } 2:{ intros ? ?; reflexivity. }
      rewrite (mult_lin_h 1 (-1) (fun l => 4 / v_lmax F * (nth l (v_e F) 0 * chebT (S k) (z l)) + (-2) * chebT (S k) (z l)) (fun l => chebT k (z l))).
      rewrite (mult_lin_h (4 / v_lmax F) (-2) (fun l => nth l (v_e F) 0 * chebT (S k) (z l)) (fun l => chebT (S k) (z l))).
      field. lra. }
    split; [|split].
    - intros i v Hi. cbn [cheb_step cs_old]. rewrite Hc by exact Hi. replace (S k - 1)%nat with k by lia. reflexivity.
    - exact Hn.
    - intros i f v Hi. specialize (Hn i v Hi). cbn [cheb_step cs_r cs_cur] in *. destruct (divmod i f Hi) as (Ed & Em). rewrite Ed, Em.
      rewrite Hr by exact Hi. rewrite Hn.
      rewrite (mult_ext (fun l => _ + \sum_(q < S k) _)
        (fun l => 1 * (nth 0 (nth f c []) 0 / 2 + \sum_(q < k) (nth (S q) (nth f c []) 0 * chebT (S q) (z l)))
                  + nth (S k) (nth f c []) 0 * chebT (S k) (z l)) _ (fun j => x j v)).
      2:{ intros l Hlt. cbn [rsum]. ring. } 2:{ intros ? ?; reflexivity. }
      rewrite (mult_lin_h 1 (nth (S k) (nth f c []) 0)
         (fun l => nth 0 (nth f c []) 0 / 2 + \sum_(q < k) (nth (S q) (nth f c []) 0 * chebT (S q) (z l))) (fun l => chebT (S k) (z l))). ring.
  Qed.

  Lemma cheb_loop_inv c x m k st : 0 < v_lmax F -> (1 <= k)%nat -> cheb_inv c x k st ->
    cheb_inv c x (k + m) (fold_left (cheb_step F c) (seq (S k) m) st).
  Proof.
    intros Hl. revert k st. induction m as [|m IH]; intros k st Hk Hi; cbn.
    - rewrite Nat.add_0_r. exact Hi.
    - replace (k + S m)%nat with (S k + m)%nat by lia. apply IH; [lia|]. apply cheb_step_inv; assumption.
  Qed.

  (** cheby_op: rows i + N f hold the f-th series applied to the signal. *)
  Lemma cheby_op_2d c s v M : 0 < v_lmax F -> (2 <= M)%nat -> c <> [] ->
    (forall l, In l c -> List.length l = M) -> shape s = [n; v] ->
    exists a, cheby_op F c s = Ok a /\ shape a = [(n * List.length c)%nat; v] /\
      forall i j f, (i < n)%nat -> (f < List.length c)%nat -> aget a [(i + n * f)%nat; j] =
        mult F (fun k => cheb_series (nth f c []) (z k)) (fun l => aget s [l; j]) i.
  Proof.
    intros Hl HM Hc Hlen Hs. destruct s as [sh g]. cbn in Hs. subst sh. unfold cheby_op.
    assert (EM : List.length (hd [] c) = M) by (destruct c; [congruence|apply Hlen; left; reflexivity]). rewrite EM.
    assert (Ef : forallb (fun l => Nat.eqb (List.length l) M) c = true).
    { apply forallb_forall. intros l Hin. apply Nat.eqb_eq. apply Hlen. exact Hin. }
    rewrite Ef. cbn [negb shape hd aget ix nth]. destruct (Nat.ltb_spec M 2) as [|_]; [lia|]. rewrite Nat.eqb_refl. cbn [negb].
    eexists. split; [reflexivity|]. split; [reflexivity|]. intros i j f Hi Hf. cbn [aget ix nth].
    pose proof (cheb_loop_inv c (fun i0 v0 => g [i0; v0]) (M - 2) 1 _ Hl (le_n 1) (cheb_init_inv c _ Hl)) as (_ & _ & Hr).
    cbn [seq]. rewrite Hr by exact Hi. apply mult_ext; [|intros ? ?; reflexivity]. intros l Hlt. unfold cheb_series.
    assert (El : List.length (nth f c []) = M) by (apply Hlen; apply nth_In; exact Hf).
    rewrite El. replace (1 + (M - 2))%nat with (M - 1)%nat by lia. reflexivity.
  Qed.
  Lemma cheby_op_1d c s M : 0 < v_lmax F -> (2 <= M)%nat -> c <> [] ->
    (forall l, In l c -> List.length l = M) -> shape s = [n] ->
    exists a, cheby_op F c s = Ok a /\ shape a = [(n * List.length c)%nat] /\
      forall i f, (i < n)%nat -> (f < List.length c)%nat -> aget a [(i + n * f)%nat] =
        mult F (fun k => cheb_series (nth f c []) (z k)) (fun l => aget s [l]) i.
  Proof.
    intros Hl HM Hc Hlen Hs. destruct s as [sh g]. cbn in Hs. subst sh. unfold cheby_op.
    assert (EM : List.length (hd [] c) = M) by (destruct c; [congruence|apply Hlen; left; reflexivity]). rewrite EM.
    assert (Ef : forallb (fun l => Nat.eqb (List.length l) M) c = true).
    { apply forallb_forall. intros l Hin. apply Nat.eqb_eq. apply Hlen. exact Hin. }
    rewrite Ef. cbn [negb shape hd aget ix nth]. destruct (Nat.ltb_spec M 2) as [|_]; [lia|]. rewrite Nat.eqb_refl. cbn [negb].
    eexists. split; [reflexivity|]. split; [reflexivity|]. intros i f Hi Hf. cbn [aget ix nth].
    pose proof (cheb_loop_inv c (fun i0 v0 => g [i0]) (M - 2) 1 _ Hl (le_n 1) (cheb_init_inv c _ Hl)) as (_ & _ & Hr).
    cbn [seq]. rewrite Hr by exact Hi. apply mult_ext; [|intros ? ?; reflexivity]. intros l Hlt. unfold cheb_series.
    assert (El : List.length (nth f c []) = M) by (apply Hlen; apply nth_In; exact Hf).
    rewrite El. replace (1 + (M - 2))%nat with (M - 1)%nat by lia. reflexivity.
  Qed.

  Lemma coeff_len ks o N c : compute_cheby_coeff (v_lmax F) ks o N = Ok c ->
    List.length c = List.length ks /\ ks <> [] /\ forall l, In l c -> List.length l = S o.
  Proof.
    intros E. unfold compute_cheby_coeff in E. destruct ks as [|k ks]; [discriminate|].
    destruct (mapr_ok _ _ _ E) as (H1 & H2). split; [exact H1|]. split; [discriminate|].
    intros l Hin. apply (In_nth _ _ []) in Hin. destruct Hin as (i & Hi & <-). rewrite H1 in Hi.
    specialize (H2 i k [] Hi). unfold cheby_coeff1 in H2.
    match type of H2 with bindr ?t _ = _ => destruct t; cbn [bindr] in H2; [|discriminate] end.
    match type of H2 with (if ?b then _ else _) = _ => destruct b; [discriminate|] end.
    apply (f_equal (fun r => match r with Ok l => List.length l | _ => 0%nat end)) in H2.
    rewrite map_length, seq_length in H2. symmetry; exact H2.
  Qed.

  Lemma cheb_analysis_ok ks o c s v : 0 < v_lmax F -> (1 <= o)%nat ->
    compute_cheby_coeff (v_lmax F) ks o None = Ok c -> shape s = [n; v; 1%nat] ->
    exists a, filter_cheb3 F ks o s = Ok a /\ shape a = [n; v; List.length ks] /\
      forall i j f, (i < n)%nat -> (f < List.length ks)%nat ->
        aget a [i; j; f] = mult F (fun k => cheb_series (nth f c []) (z k)) (fun l => aget s [l; j; 0%nat]) i.
  Proof.
    intros Hl Ho Hc Hs. destruct (coeff_len _ _ _ _ Hc) as (L1 & L2 & L3). destruct s as [sh g]. cbn in Hs. subst sh.
    unfold filter_cheb3. rewrite Hc. cbn [bindr shape ix nth Nat.eqb]. unfold cheb_analysis. cbn [shape ix nth aget].
    match goal with |- context [cheby_op F c ?s] => destruct (cheby_op_2d c s v (S o)) as (a & Ea & Sa & Ha); try assumption; try lia end.
    { destruct c; [destruct ks; [congruence|discriminate]|discriminate]. } { reflexivity. }
    rewrite Ea. cbn [bindr]. eexists. split; [reflexivity|]. split; [reflexivity|].
    intros i j f Hi Hf. cbn [aget ix nth]. rewrite Ha by (assumption || lia). reflexivity.
  Qed.

  Lemma cheb_synthesis_ok ks o c s v : 0 < v_lmax F -> (1 <= o)%nat ->
    compute_cheby_coeff (v_lmax F) ks o None = Ok c -> List.length ks <> 1%nat -> shape s = [n; v; List.length ks] ->
    exists a, filter_cheb3 F ks o s = Ok a /\ shape a = [n; v; 1%nat] /\
      forall i j, (i < n)%nat ->
        aget a [i; j; 0%nat] = \sum_(f < List.length ks) mult F (fun k => cheb_series (nth f c []) (z k)) (fun l => aget s [l; j; f]) i.
  Proof.
    intros Hl Ho Hc Hn1 Hs. destruct (coeff_len _ _ _ _ Hc) as (L1 & L2 & L3). destruct s as [sh g]. cbn in Hs. subst sh.
    unfold filter_cheb3. rewrite Hc. cbn [bindr shape ix nth]. apply Nat.eqb_neq in Hn1. rewrite Hn1.
    unfold cheb_synthesis. cbn [shape ix nth aget].
    match goal with |- context [fold_left ?f _ _] => set (body := f) end.
    assert (HI : forall m, (m <= List.length ks)%nat -> exists acc, fold_left body (seq 0 m) (Ok (fun _ _ => 0)) = Ok acc /\
      forall i j, (i < n)%nat -> acc i j = \sum_(f < m) mult F (fun k => cheb_series (nth f c []) (z k)) (fun l => g [l; j; f]) i).
    { induction m as [|m IH]; intros Hm.
      - exists (fun _ _ => 0). split; [reflexivity|]. intros; reflexivity.
      - destruct (IH ltac:(lia)) as (acc & Ea & Ha). rewrite seq_S, fold_left_app, Ea. cbn [fold_left Nat.add]. unfold body at 1. cbn [bindr].
        match goal with |- context [cheby_op F ?c ?s] => destruct (cheby_op_2d c s v (S o)) as (a & Eo & So & Hao);
          [exact Hl|lia|discriminate| |reflexivity|] end.
        { intros l [<-|[]]. apply L3. apply nth_In. lia. }
        rewrite Eo. cbn [bindr]. eexists. split; [reflexivity|]. intros i j Hi. cbn beta. rewrite Ha by exact Hi. cbn [rsum]. f_equal.
        specialize (Hao i j 0%nat Hi ltac:(cbn; lia)). rewrite Nat.mul_0_r, Nat.add_0_r in Hao. cbn [nth] in Hao. rewrite Hao.
        apply mult_ext; [intros ? ?; reflexivity|]. intros l Hlt. cbn [aget ix nth].
        destruct (divmod l m Hlt) as (Ed & Em). replace (m * n + l)%nat with (l + n * m)%nat by lia. rewrite Ed, Em. reflexivity. }
    destruct (HI (List.length ks) (le_n _)) as (acc & Ea & Ha). rewrite Ea. cbn [bindr].
    eexists. split; [reflexivity|]. split; [reflexivity|]. intros i j Hi. cbn [aget ix nth]. apply Ha. exact Hi.
  Qed.

  (** ** Both methods *)
  Lemma filter3_analysis ks m H s v : response F ks m H -> shape s = [n; v; 1%nat] ->
    exists a, filter3 F ks m s = Ok a /\ shape a = [n; v; List.length ks] /\
      forall i j f, (i < n)%nat -> (f < List.length ks)%nat ->
        aget a [i; j; f] = mult F (H f) (fun l => aget s [l; j; 0%nat]) i.
  Proof.
    intros Hr Hs. destruct m as [|o|?]; cbn in Hr; [| |contradiction].
    - destruct Hr as (y & Hy & HH). destruct (exact_analysis ks y s v Hy Hs) as (a & Ea & Sa & Ha).
      exists a. split; [exact Ea|]. split; [exact Sa|]. intros i j f Hi Hf. rewrite Ha. apply mult_ext; [|intros ? ?; reflexivity].
      intros k Hk. symmetry. apply HH; assumption.
    - destruct Hr as (c & Hc & Ho & Hl & HH). destruct (cheb_analysis_ok ks o c s v Hl Ho Hc Hs) as (a & Ea & Sa & Ha).
      exists a. split; [exact Ea|]. split; [exact Sa|]. intros i j f Hi Hf. rewrite Ha by assumption. apply mult_ext; [|intros ? ?; reflexivity].
      intros k Hk. symmetry. apply HH; assumption.
  Qed.
  Lemma filter3_synthesis ks m H s v : response F ks m H -> List.length ks <> 1%nat -> shape s = [n; v; List.length ks] ->
    exists a, filter3 F ks m s = Ok a /\ shape a = [n; v; 1%nat] /\
      forall i j, (i < n)%nat ->
        aget a [i; j; 0%nat] = \sum_(f < List.length ks) mult F (H f) (fun l => aget s [l; j; f]) i.
  Proof.
    intros Hr Hn Hs. destruct m as [|o|?]; cbn in Hr; [| |contradiction].
    - destruct Hr as (y & Hy & HH). destruct (exact_synthesis ks y s v Hy Hn Hs) as (a & Ea & Sa & Ha).
      exists a. split; [exact Ea|]. split; [exact Sa|]. intros i j Hi. rewrite Ha. apply rsum_ext. intros f Hf. apply mult_ext; [|intros ? ?; reflexivity].
      intros k Hk. symmetry. apply HH; assumption.
    - destruct Hr as (c & Hc & Ho & Hl & HH). destruct (cheb_synthesis_ok ks o c s v Hl Ho Hc Hn Hs) as (a & Ea & Sa & Ha).
      exists a. split; [exact Ea|]. split; [exact Sa|]. intros i j Hi. rewrite Ha by assumption. apply rsum_ext. intros f Hf. apply mult_ext; [|intros ? ?; reflexivity].
      intros k Hk. symmetry. apply HH; assumption.
  Qed.
End Mult.

(** ** Shapes *)
Lemma to_3d_batch N Nf s v sig : batch N Nf s v sig ->
  exists s3, to_3d N Nf s = Ok s3 /\ shape s3 = [N; v; 1%nat] /\ forall i j, (j < v)%nat -> aget s3 [i; j; 0%nat] = sig j i.
Proof.
  intros [g|v' g Hv|v' g]; unfold to_3d, check_arr; cbn [shape bindr List.length last Nat.eqb orb]; rewrite ?Nat.eqb_refl; cbn [bindr List.length last Nat.eqb orb shape].
  - eexists. split; [reflexivity|]. split; [reflexivity|]. intros i j Hj. cbn. reflexivity.
  - destruct (Nat.eqb_spec v' 1) as [->|Hv1]; cbn [orb negb].
    + cbn. eexists. split; [reflexivity|]. split; [reflexivity|]. intros i j Hj. cbn. replace j with 0%nat by lia. reflexivity.
    + destruct Hv as [Hv|]; [|lia]. apply Nat.eqb_neq in Hv. rewrite Hv. cbn.
      eexists. split; [reflexivity|]. split; [reflexivity|]. intros i j Hj. reflexivity.
  - cbn. eexists. split; [reflexivity|]. split; [reflexivity|]. intros i j Hj. reflexivity.
Qed.
Lemma to_3d_fbatch N Nf s v sig : fbatch N Nf s v sig ->
  exists s3, to_3d N Nf s = Ok s3 /\ shape s3 = [N; v; Nf] /\ Nf <> 1%nat /\ forall i j f, (j < v)%nat -> aget s3 [i; j; f] = sig j f i.
Proof.
  intros [g Hn|v' g Hn]; unfold to_3d, check_arr; cbn [shape bindr List.length last Nat.eqb orb]; rewrite ?Nat.eqb_refl; cbn [bindr List.length last Nat.eqb orb shape];
    rewrite ?Nat.eqb_refl, ?orb_true_r; cbn; eexists; (split; [reflexivity|]); (split; [reflexivity|]); (split; [exact Hn|]); intros; reflexivity.
Qed.
