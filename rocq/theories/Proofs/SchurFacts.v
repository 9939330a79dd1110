(** The Schur complement of a symmetric matrix and of a Laplacian. *)
From Coq Require Import Reals Lra Lia List Arith Bool String Permutation Classical_Prop.
From Coq Require Import List.
From Verif.Base Require Import RSum Prelude LinAlg Solve.
From Verif.Spec Require Import Matrix Reach LapSpec.
From Verif.Model Require Import Sparse Graph Reduction.
From Verif.Proofs Require Import MaxPrinciple.
Import ListNotations.
Open Scope R_scope.

Lemma setdiff_in n ind v : In v (setdiff n ind) <-> (v < n)%nat /\ ~ In v ind.
Proof.
  unfold setdiff. rewrite filter_In, in_seq, negb_true_iff. split; intros (H1 & H2); (split; [lia|]).
  - intros Hin. assert (existsb (Nat.eqb v) ind = true); [|congruence].
    apply existsb_exists. exists v. split; [exact Hin|apply Nat.eqb_refl].
  - destruct (existsb (Nat.eqb v) ind) eqn:E; [|reflexivity]. exfalso. apply H2.
    apply existsb_exists in E. destruct E as (w & Hw & Ew). apply Nat.eqb_eq in Ew. subst. exact Hw.
Qed.
Lemma setdiff_nodup n ind : NoDup (setdiff n ind).
Proof. apply NoDup_filter'. apply seq_NoDup. Qed.

Lemma rsum_list (l : list nat) f : \sum_(k < List.length l) f (nth k l 0%nat) = lsum (map f l).
Proof.
  induction l as [|a l IH]; [reflexivity|]. cbn [List.length]. rewrite rsum_S_first. cbn [nth map]. rewrite lsum_cons.
  f_equal. exact IH.
Qed.

Section Split.
  Variables (n : nat) (ind : list nat).
  Hypothesis Hnd : NoDup ind.
  Hypothesis Hin : forall v, In v ind -> (v < n)%nat.
  Let comp := setdiff n ind.
  Let m := List.length ind.
  Let q := List.length comp.

  Lemma split_perm : Permutation (seq 0 n) (ind ++ comp).
  Proof.
    apply NoDup_Permutation; [apply seq_NoDup| |].
    - apply NoDup_app_disj; [exact Hnd|apply setdiff_nodup|]. intros x Hx Hc. apply setdiff_in in Hc. tauto.
    - intros x. rewrite in_seq, in_app_iff. unfold comp. rewrite setdiff_in. split.
      + intros H. destruct (in_dec Nat.eq_dec x ind); [left; assumption|right; split; [lia|assumption]].
      + intros [H|H]; [specialize (Hin x H)|]; lia.
  Qed.
  Lemma split_sum f : rsum n f = \sum_(i < m) f (nth i ind 0%nat) + \sum_(k < q) f (nth k comp 0%nat).
  Proof.
    unfold m, q. rewrite !rsum_list, <- lsum_app, <- map_app, <- lsum_map_seq0.
    apply lsum_perm. apply Permutation_map. apply split_perm.
  Qed.
  Lemma ind_lt i : (i < m)%nat -> (nth i ind 0 < n)%nat.
  Proof. intros H. apply Hin. apply nth_In. exact H. Qed.
  Lemma comp_lt k : (k < q)%nat -> (nth k comp 0 < n)%nat /\ ~ In (nth k comp 0%nat) ind.
  Proof. intros H. apply setdiff_in. apply nth_In. exact H. Qed.
  Lemma comp_onto v : (v < n)%nat -> ~ In v ind -> exists k, (k < q)%nat /\ nth k comp 0%nat = v.
  Proof.
    intros Hv Hn. assert (H : In v comp) by (apply setdiff_in; split; assumption).
    destruct (In_nth comp v 0%nat H) as (k & Hk & E). exists k. split; assumption.
  Qed.
  Lemma ind_onto v : In v ind -> exists i, (i < m)%nat /\ nth i ind 0%nat = v.
  Proof. intros H. destruct (In_nth ind v 0%nat H) as (k & Hk & E). exists k. split; assumption. Qed.

  (** glue a vector on the kept and one on the eliminated vertices *)
  Definition glue (x z : vec) : vec := fun v =>
    if existsb (Nat.eqb v) ind
    then \sum_(i < m) (if Nat.eqb (nth i ind 0%nat) v then x i else 0)
    else \sum_(k < q) (if Nat.eqb (nth k comp 0%nat) v then z k else 0).
  Lemma glue_ind x z i : (i < m)%nat -> glue x z (nth i ind 0%nat) = x i.
  Proof.
    intros Hi. unfold glue. assert (E : existsb (Nat.eqb (nth i ind 0%nat)) ind = true).
    { apply existsb_exists. exists (nth i ind 0%nat). split; [apply nth_In; exact Hi|apply Nat.eqb_refl]. }
    rewrite E. rewrite (rsum_single m _ i Hi); [rewrite Nat.eqb_refl; reflexivity|].
    intros j Hj Hne. destruct (Nat.eqb_spec (nth j ind 0%nat) (nth i ind 0%nat)) as [E'|]; [|reflexivity].
    exfalso. apply Hne. apply (proj1 (NoDup_nth ind 0%nat) Hnd); assumption.
  Qed.
  Lemma glue_comp x z k : (k < q)%nat -> glue x z (nth k comp 0%nat) = z k.
  Proof.
    intros Hk. unfold glue. destruct (comp_lt k Hk) as (_ & Hn).
    destruct (existsb (Nat.eqb (nth k comp 0%nat)) ind) eqn:E.
    { exfalso. apply Hn. apply existsb_exists in E. destruct E as (w & Hw & Ew). apply Nat.eqb_eq in Ew. subst. exact Hw. }
    rewrite (rsum_single q _ k Hk); [rewrite Nat.eqb_refl; reflexivity|].
    intros j Hj Hne. destruct (Nat.eqb_spec (nth j comp 0%nat) (nth k comp 0%nat)) as [E'|]; [|reflexivity].
    exfalso. apply Hne. apply (proj1 (NoDup_nth comp 0%nat) (setdiff_nodup n ind)); assumption.
  Qed.

  Section Schur.
    Variables (L X : mat).
    Hypothesis Hs : symmetric n L.
    (** the contract of spsolve: L_comp X = L_out_in *)
    Hypothesis HX : meq q m (mulm q (ixm L comp comp) X) (ixm L comp ind).
    Let S := schur n L ind X.

    Lemma L_kc i k : (i < m)%nat -> (k < q)%nat -> ixm L ind comp i k = \sum_(l < q) (X l i * ixm L comp comp l k).
    Proof.
      intros Hi Hk. transitivity (ixm L comp ind k i).
      - unfold ixm. apply Hs; [apply ind_lt; exact Hi|apply comp_lt; exact Hk].
      - rewrite <- (HX k i Hk Hi). unfold mulm. apply rsum_ext. intros l Hl.
        rewrite Rmult_comm. f_equal. unfold ixm. apply Hs; apply comp_lt; assumption.
    Qed.
    Lemma schur_sym : symmetric m S.
    Proof.
      intros i j Hi Hj. unfold tr, S, schur. fold comp. fold q. f_equal.
      - unfold ixm. apply Hs; apply ind_lt; assumption.
      - rewrite (rsum_ext q _ (fun k => \sum_(l < q) (X l i * ixm L comp comp l k * X k j))).
        2:{ intros k Hk. rewrite (L_kc i k Hi Hk), <- rsum_scal_r. reflexivity. }
        rewrite (rsum_ext q (fun k => ixm L ind comp j k * X k i) (fun k => \sum_(l < q) (X l j * ixm L comp comp l k * X k i))).
        2:{ intros k Hk. rewrite (L_kc j k Hj Hk), <- rsum_scal_r. reflexivity. }
        rewrite rsum_swap. apply rsum_ext. intros a Ha. apply rsum_ext. intros b Hb.
        assert (E : ixm L comp comp a b = ixm L comp comp b a) by (unfold ixm; apply Hs; apply comp_lt; assumption).
        rewrite E. ring.
    Qed.
    Lemma mulv_split v a : mulv n L v a = \sum_(i < m) (L a (nth i ind 0%nat) * v (nth i ind 0%nat)) + \sum_(k < q) (L a (nth k comp 0%nat) * v (nth k comp 0%nat)).
    Proof. unfold mulv. apply (split_sum (fun j => L a j * v j)). Qed.

    (** the defining property: eliminating interior vertices *)
    Lemma schur_harmonic v i : (forall c, (c < n)%nat -> ~ In c ind -> mulv n L v c = 0) -> (i < m)%nat ->
      mulv m S (fun j => v (nth j ind 0%nat)) i = mulv n L v (nth i ind 0%nat).
    Proof.
      intros Hh Hi. rewrite mulv_split. unfold mulv, S, schur. fold comp. fold q.
      rewrite (rsum_ext m _ (fun j => ixm L ind ind i j * v (nth j ind 0%nat) - \sum_(k < q) (ixm L ind comp i k * X k j * v (nth j ind 0%nat)))).
      2:{ intros j Hj. rewrite Rmult_minus_distr_r, <- rsum_scal_r. reflexivity. }
      set (T := \sum_(l < q) (X l i * \sum_(j < m) (ixm L comp ind l j * v (nth j ind 0%nat)))).
      assert (E1 : \sum_(j < m) \sum_(k < q) (ixm L ind comp i k * X k j * v (nth j ind 0%nat)) = T).
      { rewrite rsum_swap.
        rewrite (rsum_ext q _ (fun k => \sum_(l < q) (X l i * (ixm L comp comp l k * \sum_(j < m) (X k j * v (nth j ind 0%nat)))))).
        2:{ intros k Hk. rewrite (rsum_ext m _ (fun j => ixm L ind comp i k * (X k j * v (nth j ind 0%nat)))) by (intros; ring).
            rewrite rsum_scal_l, (L_kc i k Hi Hk), <- rsum_scal_r. apply rsum_ext. intros l Hl. ring. }
        rewrite rsum_swap. unfold T. apply rsum_ext. intros l Hl. rewrite rsum_scal_l. f_equal.
        rewrite (rsum_ext q _ (fun k => \sum_(j < m) (ixm L comp comp l k * X k j * v (nth j ind 0%nat)))).
        2:{ intros k Hk. rewrite <- rsum_scal_l. apply rsum_ext. intros j Hj. ring. }
        rewrite rsum_swap. apply rsum_ext. intros j Hj. rewrite rsum_scal_r. f_equal. apply (HX l j Hl Hj). }
      assert (E2 : \sum_(k < q) (ixm L ind comp i k * v (nth k comp 0%nat)) = - T).
      { rewrite (rsum_ext q _ (fun k => \sum_(l < q) (X l i * (ixm L comp comp l k * v (nth k comp 0%nat))))).
        2:{ intros k Hk. rewrite (L_kc i k Hi Hk), <- rsum_scal_r. apply rsum_ext. intros l Hl. ring. }
        rewrite rsum_swap. unfold T. rewrite <- rsum_opp. apply rsum_ext. intros l Hl. rewrite rsum_scal_l.
        destruct (comp_lt l Hl) as (H1 & H2). specialize (Hh _ H1 H2). rewrite mulv_split in Hh. unfold ixm.
        match goal with |- _ * ?a = - (_ * ?b) => replace a with (- b) by lra end. ring. }
      rewrite rsum_minus. unfold ixm in E1, E2 |- *.
      match type of E1 with ?a = _ => match goal with |- _ - ?b = _ => change b with a end end. rewrite E1, E2. unfold Rminus. reflexivity.
    Qed.
    (** every signal on the kept vertices extends harmonically *)
    Definition extend (x : vec) : vec := glue x (fun k => - \sum_(j < m) (X k j * x j)).
    Lemma extend_ind x i : (i < m)%nat -> extend x (nth i ind 0%nat) = x i.
    Proof. apply glue_ind. Qed.
    Lemma extend_harmonic x c : (c < n)%nat -> ~ In c ind -> mulv n L (extend x) c = 0.
    Proof.
      intros Hc Hnc. destruct (comp_onto c Hc Hnc) as (l & Hl & <-). rewrite mulv_split.
      rewrite (rsum_ext m _ (fun j => ixm L comp ind l j * x j)).
      2:{ intros j Hj. rewrite extend_ind by exact Hj. reflexivity. }
      rewrite (rsum_ext q _ (fun k => - (ixm L comp comp l k * \sum_(j < m) (X k j * x j)))).
      2:{ intros k Hk. unfold extend. rewrite glue_comp by exact Hk. unfold ixm. ring. }
      rewrite rsum_opp.
      rewrite (rsum_ext q _ (fun k => \sum_(j < m) (ixm L comp comp l k * X k j * x j))).
      2:{ intros k Hk. rewrite <- rsum_scal_l. apply rsum_ext. intros j Hj. ring. }
      rewrite rsum_swap. rewrite (rsum_ext m (fun j => ixm L comp ind l j * x j) (fun j => \sum_(k < q) (ixm L comp comp l k * X k j * x j))).
      2:{ intros j Hj. rewrite <- (HX l j Hl Hj). unfold mulm. rewrite <- rsum_scal_r. reflexivity. }
      ring.
    Qed.
    Lemma schur_apply x i : (i < m)%nat -> mulv m S x i = mulv n L (extend x) (nth i ind 0%nat).
    Proof.
      intros Hi. rewrite <- (schur_harmonic (extend x) i); [|apply extend_harmonic|exact Hi].
      apply mulv_ext; [reflexivity|]. intros j Hj. symmetry. apply extend_ind. exact Hj.
    Qed.
    Lemma dot_split u w : dot n u w = \sum_(i < m) (u (nth i ind 0%nat) * w (nth i ind 0%nat)) + \sum_(k < q) (u (nth k comp 0%nat) * w (nth k comp 0%nat)).
    Proof. unfold dot. apply (split_sum (fun j => u j * w j)). Qed.
    Lemma schur_quad x : quad m S x = quad n L (extend x).
    Proof.
      unfold quad at 2. rewrite dot_split.
      rewrite (rsum_0 q); [|intros k Hk; destruct (comp_lt k Hk); rewrite extend_harmonic by assumption; ring].
      rewrite Rplus_0_r. unfold quad, dot. apply rsum_ext. intros i Hi. rewrite extend_ind, <- schur_apply by exact Hi. reflexivity.
    Qed.
    (** the reduced energy is the least energy of an extension *)
    Lemma schur_min x w : psd n L -> (forall i, (i < m)%nat -> w (nth i ind 0%nat) = x i) -> quad m S x <= quad n L w.
    Proof.
      intros Hp Hw. rewrite schur_quad. set (v := extend x). set (d := fun a => w a - v a).
      assert (E : quad n L w = quad n L v + 2 * dot n d (mulv n L v) + quad n L d).
      { unfold quad.
        rewrite (dot_ext n w (fun a => v a + d a) (mulv n L w) (fun a => mulv n L v a + mulv n L d a)).
        - rewrite dot_plus_l, !dot_plus_r. rewrite (dot_mulv_sym n L v d Hs). rewrite (dot_comm n (mulv n L v) d). ring.
        - intros a Ha. unfold d. ring.
        - intros a Ha. rewrite <- mulv_plus. apply mulv_ext; [reflexivity|]. intros b Hb. unfold d. ring. }
      assert (Z : dot n d (mulv n L v) = 0).
      { rewrite dot_split. rewrite !rsum_0; [ring| |].
        - intros k Hk. destruct (comp_lt k Hk). unfold v. rewrite extend_harmonic by assumption. ring.
        - intros i Hi. unfold d, v. rewrite extend_ind, Hw by exact Hi. ring. }
      rewrite E, Z. pose proof (Hp d). lra.
    Qed.
  End Schur.

  (** Laplacians *)
  Section Lap.
    Variables (L X : mat).
    Hypothesis HL : is_laplacian n L.
    Hypothesis HX : meq q m (mulm q (ixm L comp comp) X) (ixm L comp ind).
    Hypothesis Hreach : forall v, (v < n)%nat -> exists b, In b ind /\ reach (lap_edge n L) v b.
    Let S := schur n L ind X.
    Let isb (v : nat) : bool := existsb (Nat.eqb v) ind.
    Lemma isb_true v : isb v = true <-> In v ind.
    Proof.
      unfold isb. rewrite existsb_exists. split.
      - intros (w & Hw & E). apply Nat.eqb_eq in E. subst. exact Hw.
      - intros H. exists v. split; [exact H|apply Nat.eqb_refl].
    Qed.
    Lemma bdry v : (v < n)%nat -> exists b, (b < n)%nat /\ isb b = true /\ reach (lap_edge n L) v b.
    Proof. intros Hv. destruct (Hreach v Hv) as (b & Hb & R). exists b. split; [apply Hin, Hb|]. split; [apply isb_true, Hb|exact R]. Qed.
    Lemma not_isb v : isb v = false -> ~ In v ind.
    Proof. intros H Hi. apply isb_true in Hi. congruence. Qed.

    (** the interior system is uniquely solvable *)
    Lemma interior_kernel : trivial_kernel q (ixm L comp comp).
    Proof.
      intros z Hz k Hk. set (v := glue (fun _ => 0) z).
      assert (Hv : forall c, (c < n)%nat -> ~ In c ind -> mulv n L v c = 0).
      { intros c Hc Hnc. destruct (comp_onto c Hc Hnc) as (l & Hl & <-). rewrite mulv_split.
        rewrite rsum_0; [|intros i Hi; unfold v; rewrite glue_ind by exact Hi; ring].
        rewrite (rsum_ext q _ (fun j => ixm L comp comp l j * z j)); [|intros j Hj; unfold v; rewrite glue_comp by exact Hj; reflexivity].
        rewrite Rplus_0_l. apply (Hz l Hl). }
      destruct (comp_lt k Hk) as (Hkn & Hkc). assert (Hn : (0 < n)%nat) by lia.
      destruct (min_principle n L v isb HL Hn) as (b & Hb & HB & Hmin).
      { intros i Hi Hb. rewrite Hv; [lra|exact Hi|apply not_isb; exact Hb]. }
      { intros i Hi. apply bdry. exact Hi. }
      destruct (max_principle n L v isb HL Hn) as (b' & Hb' & HB' & Hmax).
      { intros i Hi Hc. rewrite Hv; [lra|exact Hi|apply not_isb; exact Hc]. }
      { intros i Hi. apply bdry. exact Hi. }
      apply isb_true in HB. apply isb_true in HB'. destruct (ind_onto b HB) as (i & Hi & Ei). destruct (ind_onto b' HB') as (i' & Hi' & Ei').
      specialize (Hmin _ Hkn). specialize (Hmax _ Hkn). unfold v in *. rewrite <- Ei, glue_ind in Hmin by exact Hi.
      rewrite <- Ei', glue_ind in Hmax by exact Hi'. rewrite glue_comp in Hmin, Hmax by exact Hk. lra.
    Qed.
    Lemma schur_rowsum i : (i < m)%nat -> \sum_(j < m) S i j = 0.
    Proof.
      intros Hi. pose proof (schur_harmonic L X (proj1 HL) HX (fun _ => 1) i) as H. fold S in H.
      assert (Z : forall c, (c < n)%nat -> mulv n L (fun _ => 1) c = 0).
      { intros c Hc. rewrite (lap_apply n L _ c HL Hc). apply rsum_0. intros j Hj. ring. }
      specialize (H (fun c Hc _ => Z c Hc) Hi). rewrite (Z _ (ind_lt i Hi)) in H. unfold mulv in H.
      rewrite <- H. apply rsum_ext. intros j Hj. ring.
    Qed.
    Lemma schur_offdiag i j : (i < m)%nat -> (j < m)%nat -> i <> j -> S i j <= 0.
    Proof.
      intros Hi Hj Hne. set (x := fun a => if Nat.eqb a j then 1 else 0).
      assert (E : S i j = mulv m S x i).
      { unfold mulv, x. rewrite (rsum_single m _ j Hj); [rewrite Nat.eqb_refl; ring|].
        intros a Ha Hn. destruct (Nat.eqb_spec a j); [contradiction|ring]. }
      rewrite E. unfold S. rewrite (schur_apply L X (proj1 HL) HX x i Hi). set (v := extend X x).
      assert (Hv : forall a, (a < n)%nat -> 0 <= v a).
      { intros a Ha. destruct (min_principle n L v isb HL ltac:(lia)) as (b & Hb & HB & Hmin).
        - intros c Hc Hb. unfold v. rewrite (extend_harmonic L X); [lra|exact HX|exact Hc|apply not_isb; exact Hb].
        - intros c Hc. apply bdry. exact Hc.
        - apply isb_true in HB. destruct (ind_onto b HB) as (k & Hk & Ek). specialize (Hmin a Ha).
          unfold v in Hmin at 1. rewrite <- Ek, extend_ind in Hmin by exact Hk. unfold x in Hmin. destruct (Nat.eqb k j); lra. }
      assert (V0 : v (nth i ind 0%nat) = 0).
      { unfold v. rewrite extend_ind by exact Hi. unfold x. destruct (Nat.eqb_spec i j); [contradiction|reflexivity]. }
      unfold mulv. apply Ropp_le_cancel. rewrite Ropp_0, <- rsum_opp. apply rsum_nonneg. intros b Hb.
      destruct (Nat.eq_dec (nth i ind 0%nat) b) as [<-|Hnb]; [rewrite V0; lra|].
      destruct HL as (_ & _ & Hn). specialize (Hn _ _ (ind_lt i Hi) Hb Hnb). specialize (Hv b Hb). nra.
    Qed.
    Lemma schur_laplacian : is_laplacian m S.
    Proof.
      split; [apply (schur_sym L X (proj1 HL) HX)|]. split; [apply schur_rowsum|apply schur_offdiag].
    Qed.
    Lemma schur_connected : lap_connected n L -> lap_connected m S.
    Proof.
      intros HC i0 j0 Hi0 Hj0. destruct (classic (reach (lap_edge m S) i0 j0)) as [|Hno]; [assumption|exfalso].
      destruct (fin_choice m (fun j r => (reach (lap_edge m S) i0 j /\ r = 1) \/ (~ reach (lap_edge m S) i0 j /\ r = 0)) 0) as (x & Hx).
      { intros j Hj. destruct (classic (reach (lap_edge m S) i0 j)); [exists 1; left|exists 0; right]; split; auto. }
      assert (K : forall i, (i < m)%nat -> mulv m S x i = 0).
      { intros i Hi. rewrite (lap_apply m S x i schur_laplacian Hi). apply rsum_0. intros j Hj.
        destruct (Nat.eq_dec i j) as [<-|Hne]; [ring|]. destruct (Req_dec (S i j) 0) as [E|E]; [rewrite E; ring|].
        assert (Hij : lap_edge m S i j) by (split; [exact Hi|]; split; [exact Hj|]; split; assumption).
        assert (Hji : lap_edge m S j i).
        { split; [exact Hj|]; split; [exact Hi|]; split; [auto|]. rewrite (proj1 schur_laplacian j i Hj Hi). exact E. }
        destruct (Hx i Hi) as [(R1 & ->)|(R1 & ->)], (Hx j Hj) as [(R2 & ->)|(R2 & ->)]; try ring; exfalso.
        - apply R2. eapply reach_step; eassumption.
        - apply R1. eapply reach_step; eassumption. }
      assert (KL : forall a, (a < n)%nat -> mulv n L (extend X x) a = 0).
      { intros a Ha. destruct (in_dec Nat.eq_dec a ind) as [Hain|Hnin].
        - destruct (ind_onto a Hain) as (i & Hi & <-). rewrite <- (schur_apply L X (proj1 HL) HX x i Hi). apply K. exact Hi.
        - apply (extend_harmonic L X); assumption. }
      pose proof (lap_kernel n L _ HL HC KL _ _ (ind_lt i0 Hi0) (ind_lt j0 Hj0)) as E. rewrite !extend_ind in E by assumption.
      destruct (Hx i0 Hi0) as [(_ & E1)|(Hn0 & _)]; [|apply Hn0; apply reach_refl].
      destruct (Hx j0 Hj0) as [(R & _)|(_ & E2)]; [contradiction|]. lra.
    Qed.
  End Lap.
End Split.
