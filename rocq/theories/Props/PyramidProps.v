(** C36 (interpolate) and C37 (the Kron pyramid). *)
From Coq Require Import Reals Lra Lia List Arith Bool String.
From Coq Require Import List.
From Verif.Base Require Import RSum Prelude LinAlg Solve.
From Verif.Spec Require Import Matrix NdArray GraphSpec Reach LapSpec FilterSpec.
From Verif.Model Require Import Sparse Graph Cache Filter Utils Reduction.
From Verif.Proofs Require Import SparseFacts InitFacts EdgeFacts LapFacts SubgraphFacts MaxPrinciple SchurFacts SpectralFacts FilterFacts.
From Verif.Props Require Import Core Laplacian Traversal Caching Filtering UtilsProps ReductionProps.
Import ListNotations.
Open Scope R_scope.

(** What _analysis returns on a batch of v signals filtered by one kernel: all responses below each other in one column. *)
Lemma analysis_batch F h m H s v sig : spectral F -> (1 < v_N F)%nat -> response F [h] m H -> batch (v_N F) 1 s v sig ->
  exists out, analysis F [h] m s = Ok out /\ shape out = [(v_N F * v)%nat; 1%nat] /\
    forall n j, (n < v_N F)%nat -> (j < v)%nat -> aget out [(n + v_N F * j)%nat; 0%nat] = mult F (H 0%nat) (sig j) n.
Proof.
  intros HF HN Hr Hs. destruct (C19_analysis_multiplies_the_spectrum F [h] m H s v sig HF Hr Hs) as (o & E & So & Ho).
  unfold analysis. rewrite E. cbn [bindr]. cbn [List.length] in *. destruct o as [sh g]. cbn [shape] in So.
  destruct (Nat.eqb_spec (v_N F) 1) as [|_]; [lia|].
  assert (M : forall n j, (n < v_N F)%nat -> Nat.modulo (n + v_N F * j) (v_N F) = n /\ Nat.div (n + v_N F * j) (v_N F) = j).
  { intros n j Hn. split.
    - rewrite Nat.mul_comm, Nat.mod_add by lia. apply Nat.mod_small. exact Hn.
    - rewrite Nat.mul_comm, Nat.div_add by lia. rewrite Nat.div_small by exact Hn. reflexivity. }
  assert (D1 : forall N, N <> 1%nat -> Nat.eqb N 1 = false) by (intros N HNe; apply Nat.eqb_neq; exact HNe).
  destruct (Nat.eq_dec v 1) as [->|Hv].
  - unfold drop1 in So. cbn [filter negb] in So. rewrite (D1 (v_N F)) in So by lia. cbn [Nat.eqb negb filter] in So. subst sh.
    unfold stack_f. cbn [shape expand_1]. rewrite Nat.mul_1_r. eexists. split; [reflexivity|]. split; [cbn; f_equal; lia|].
    intros n j Hn Hj. destruct (M n j Hn) as (M1 & M2). cbn [aget]. unfold ix. cbn [nth]. rewrite M1, M2. rewrite <- (Ho n j 0%nat Hn Hj ltac:(lia)).
    unfold rd. cbn [sqidx]. rewrite (D1 (v_N F)) by lia. cbn [Nat.eqb]. reflexivity.
  - unfold drop1 in So. cbn [filter negb] in So. rewrite (D1 (v_N F)), (D1 v) in So by lia. cbn [Nat.eqb negb filter] in So. subst sh.
    unfold stack_f. cbn [shape expand_1]. eexists. split; [reflexivity|]. split; [reflexivity|].
    intros n j Hn Hj. destruct (M n j Hn) as (M1 & M2). cbn [aget]. unfold ix. cbn [nth]. rewrite M1, M2. rewrite <- (Ho n j 0%nat Hn Hj ltac:(lia)).
    unfold rd. cbn [sqidx]. rewrite (D1 (v_N F)), (D1 v) by lia. cbn [Nat.eqb]. reflexivity.
Qed.

Lemma scatter_ind keep alpha i : NoDup keep -> (i < List.length keep)%nat -> scatter keep alpha (nth i keep 0%nat) = alpha i.
Proof.
  intros Hnd Hi. unfold scatter.
  assert (G : forall c s acc, (s + c <= List.length keep)%nat ->
    fold_left (fun acc j => if Nat.eqb (nth j keep 0%nat) (nth i keep 0%nat) then alpha j else acc) (seq s c) acc =
    if (Nat.leb s i && Nat.ltb i (s + c))%bool then alpha i else acc).
  { induction c as [|c IH]; intros s acc Hsc; cbn [seq fold_left].
    - destruct (Nat.leb_spec s i), (Nat.ltb_spec i (s + 0)); cbn; try reflexivity; lia.
    - rewrite IH by lia. destruct (Nat.eqb_spec (nth s keep 0%nat) (nth i keep 0%nat)) as [E|E].
      + assert (s = i) by (apply (proj1 (NoDup_nth keep 0%nat) Hnd); [lia|exact Hi|exact E]). subst s.
        destruct (Nat.leb_spec (S i) i), (Nat.leb_spec i i), (Nat.ltb_spec i (i + S c)); cbn; try lia; reflexivity.
      + assert (s <> i) by congruence.
        destruct (Nat.leb_spec (S s) i), (Nat.leb_spec s i), (Nat.ltb_spec i (S s + c)), (Nat.ltb_spec i (s + S c)); cbn; try lia; reflexivity. }
  rewrite G by lia. destruct (Nat.leb_spec 0 i), (Nat.ltb_spec i (0 + List.length keep)); cbn; try lia; reflexivity.
Qed.
Lemma scatter_out keep alpha v : ~ In v keep -> scatter keep alpha v = 0.
Proof.
  intros Hn. unfold scatter.
  assert (G : forall l acc, (forall j, In j l -> (j < List.length keep)%nat) ->
     fold_left (fun acc j => if Nat.eqb (nth j keep 0%nat) v then alpha j else acc) l acc = acc).
  { induction l as [|a l IH]; intros acc Hl; [reflexivity|]. cbn [fold_left].
    destruct (Nat.eqb_spec (nth a keep 0%nat) v) as [E|]; [|apply IH; intros j Hj; apply Hl; right; exact Hj].
    exfalso. apply Hn. rewrite <- E. apply nth_In. apply Hl. left. reflexivity. }
  apply G. intros j Hj. apply in_seq in Hj. lia.
Qed.
Lemma scatter_ext keep a b v : (forall i, (i < List.length keep)%nat -> a i = b i) -> scatter keep a v = scatter keep b v.
Proof.
  intros H. unfold scatter. assert (G : forall l acc, (forall j, In j l -> (j < List.length keep)%nat) ->
    fold_left (fun acc j => if Nat.eqb (nth j keep 0%nat) v then a j else acc) l acc = fold_left (fun acc j => if Nat.eqb (nth j keep 0%nat) v then b j else acc) l acc).
  { induction l as [|c l IH]; intros acc Hl; [reflexivity|]. cbn [fold_left]. rewrite H by (apply Hl; left; reflexivity).
    apply IH. intros j Hj. apply Hl. right. exact Hj. }
  apply G. intros j Hj. apply in_seq in Hj. lia.
Qed.

(** ** C36 *)
Lemma l_reg_sym n L eps : symmetric n L -> symmetric n (l_reg L eps).
Proof.
  intros H i j Hi Hj. unfold l_reg, tr. pose proof (H i j Hi Hj) as E. unfold tr in E. rewrite E. unfold idm. rewrite (Nat.eqb_sym j i). reflexivity.
Qed.
Lemma l_reg_mulv n L eps x i : (i < n)%nat -> mulv n (l_reg L eps) x i = mulv n L x i + eps * x i.
Proof.
  intros Hi. replace (eps * x i) with (eps * mulv n idm x i) by (rewrite mulv_id by exact Hi; reflexivity). unfold mulv, l_reg. rewrite <- rsum_scal_l, <- rsum_plus. apply rsum_ext. intros j Hj. ring.
Qed.
Lemma l_reg_quad n L eps x : quad n (l_reg L eps) x = quad n L x + eps * normsq n x.
Proof.
  unfold quad, normsq. rewrite <- dot_scal_r, <- dot_plus_r. apply dot_ext; [intros ? ?; reflexivity|]. intros i Hi. apply l_reg_mulv. exact Hi.
Qed.

Section Interp.
  Variables (F : view) (eps : R) (keep : list nat) (X : mat).
  Hypothesis HF : spectral F.
  Hypothesis Hs : symmetric (v_N F) (v_L F).
  Hypothesis Hp : psd (v_N F) (v_L F).
  Hypothesis He : 0 < eps.
  Hypothesis HS : selection (v_N F) keep.
  Hypothesis HX : spsolve_ok (v_N F) (l_reg (v_L F) eps) keep X.
  Let n := v_N F.
  Let k := List.length keep.
  Let A := l_reg (v_L F) eps.
  Let K := schur n A keep X.

  Lemma eig_nonneg l : (l < n)%nat -> 0 <= nth l (v_e F) 0.
  Proof.
    intros Hl. destruct HF as (_ & HE). specialize (Hp (fun i => v_U F i l)).
    assert (E : quad n (v_L F) (fun i => v_U F i l) = nth l (v_e F) 0).
    { unfold quad. rewrite (dot_ext n _ (fun i => v_U F i l) _ (fun i => nth l (v_e F) 0 * v_U F i l)).
      - rewrite dot_scal_r. pose proof (eigh_cols _ _ _ _ HE l l Hl Hl) as C. rewrite Nat.eqb_refl in C. unfold dot. unfold n. rewrite C. ring.
      - intros i Hi. reflexivity.
      - intros i Hi. apply (eigh_eig _ _ _ _ HE); assumption. }
    fold n in Hp. rewrite E in Hp. exact Hp.
  Qed.
  Lemma green_solves y i : (i < n)%nat -> mulv n A (mult F (fun l => 1 / (eps + nth l (v_e F) 0)) y) i = y i.
  Proof.
    intros Hi. unfold A. rewrite l_reg_mulv by exact Hi. fold n. rewrite (mulv_mult F HF) by exact Hi.
    transitivity (mult F (fun _ => 1) y i); [|apply (mult_1 F HF y i Hi)].
    transitivity (1 * mult F (fun l => nth l (v_e F) 0 * (1 / (eps + nth l (v_e F) 0))) y i + eps * mult F (fun l => 1 / (eps + nth l (v_e F) 0)) y i); [ring|].
    rewrite <- mult_lin_h. apply mult_ext; [|intros ? ?; reflexivity]. intros l Hl. pose proof (eig_nonneg l Hl). field. lra.
  Qed.
  Lemma A_sym : symmetric n A. Proof. apply l_reg_sym. exact Hs. Qed.
  Lemma A_psd : psd n A.
  Proof. intros x. unfold A. rewrite l_reg_quad. pose proof (Hp x). pose proof (normsq_nonneg n x). fold n in H. nra. Qed.
  Lemma A_def x : quad n A x <= 0 -> vzero n x.
  Proof.
    intros H. apply normsq_zero. unfold A in H. rewrite l_reg_quad in H. pose proof (Hp x) as H1. pose proof (normsq_nonneg n x). fold n in H1.
    destruct (Req_dec (normsq n x) 0); [assumption|]. assert (0 < eps * normsq n x) by (apply Rmult_lt_0_compat; lra). lra.
  Qed.
  Lemma K_inj x y : (forall i, (i < k)%nat -> mulv k K x i = mulv k K y i) -> forall i, (i < k)%nat -> x i = y i.
  Proof.
    intros H. set (d := fun i => x i - y i).
    assert (Hq : quad k K d = 0).
    { unfold quad, dot. apply rsum_0. intros i Hi. unfold d. rewrite mulv_minus, H by exact Hi. ring. }
    destruct HS as (Hnd & Hin). unfold K, k in Hq. rewrite (schur_quad n keep Hnd Hin A X A_sym HX) in Hq.
    pose proof (A_def _ (Req_le _ _ Hq)) as Z. intros i Hi. specialize (Z _ (ind_lt n keep Hin i Hi)).
    rewrite (extend_ind n keep Hnd X) in Z by exact Hi. unfold d in Z. lra.
  Qed.
  (** the interpolant of the values x on the kept vertices *)
  Lemma interp_values x v : (forall i, (i < n)%nat -> v i = mult F (fun l => 1 / (eps + nth l (v_e F) 0)) (scatter keep (mulv k K x)) i) ->
    (forall i, (i < k)%nat -> v (nth i keep 0%nat) = x i) /\
    (forall c, (c < n)%nat -> ~ In c keep -> mulv n (v_L F) v c + eps * v c = 0) /\
    (forall w, (forall i, (i < k)%nat -> w (nth i keep 0%nat) = x i) -> quad n A v <= quad n A w).
  Proof.
    intros Hv. destruct HS as (Hnd & Hin).
    assert (HA : forall a, (a < n)%nat -> mulv n A v a = scatter keep (mulv k K x) a).
    { intros a Ha. rewrite <- (green_solves (scatter keep (mulv k K x)) a Ha). apply mulv_ext; [intros ? ?; reflexivity|]. intros b Hb. apply Hv. exact Hb. }
    assert (Hh : forall c, (c < n)%nat -> ~ In c keep -> mulv n A v c = 0).
    { intros c Hc Hnc. rewrite HA by exact Hc. apply scatter_out. exact Hnc. }
    assert (E : forall i, (i < k)%nat -> v (nth i keep 0%nat) = x i).
    { apply K_inj. intros i Hi. unfold K, k. rewrite (schur_harmonic n keep Hnd Hin A X A_sym HX v i Hh Hi).
      rewrite HA by (apply ind_lt; assumption). rewrite scatter_ind by assumption. reflexivity. }
    split; [exact E|]. split; [intros c Hc Hnc; rewrite <- l_reg_mulv by exact Hc; apply Hh; assumption|]. intros w Hw. set (d := fun a => w a - v a).
    assert (Ew : quad n A w = quad n A v + 2 * dot n d (mulv n A v) + quad n A d).
    { unfold quad. rewrite (dot_ext n w (fun a => v a + d a) (mulv n A w) (fun a => mulv n A v a + mulv n A d a)).
      - rewrite dot_plus_l, !dot_plus_r. rewrite (dot_mulv_sym n A v d A_sym). rewrite (dot_comm n (mulv n A v) d). ring.
      - intros a Ha. unfold d. ring.
      - intros a Ha. rewrite <- mulv_plus. apply mulv_ext; [intros ? ?; reflexivity|]. intros b Hb. unfold d. ring. }
    assert (Z : dot n d (mulv n A v) = 0).
    { unfold dot. apply rsum_0. intros a Ha. destruct (in_dec Nat.eq_dec a keep) as [Hain|Hnin].
      - destruct (ind_onto keep a Hain) as (i & Hi & <-). unfold d. rewrite E, Hw by exact Hi. ring.
      - rewrite Hh by assumption. ring. }
    rewrite Ew, Z. pose proof (A_psd d). lra.
  Qed.
End Interp.

Lemma kron_matrix_sel n L keep X : selection n keep -> kron_matrix n L keep X = Ok (sym_fix (List.length keep) (schur n L keep X)).
Proof.
  intros (_ & Hin). unfold kron_matrix. assert (E : forallb (fun v => Nat.ltb v n) keep = true).
  { apply forallb_forall. intros v Hv. apply Nat.ltb_lt. apply Hin. exact Hv. } rewrite E. reflexivity.
Qed.
(** General form: the column returned by interpolate, for any method with a frequency response. *)
Lemma interpolate_batch F keep m eps X H f v sig : spectral F -> (1 < v_N F)%nat -> selection (v_N F) keep ->
  response F [green eps] m H ->
  (shape f = [List.length keep] /\ v = 1%nat /\ (forall i, sig 0%nat i = aget f [i])) \/
  (shape f = [List.length keep; v] /\ forall j i, sig j i = aget f [i; j]) ->
  let K := sym_fix (List.length keep) (schur (v_N F) (l_reg (v_L F) eps) keep X) in
  exists out, interpolate F true f keep m eps X = Ok out /\ shape out = [(v_N F * v)%nat; 1%nat] /\
    forall n j, (n < v_N F)%nat -> (j < v)%nat ->
      aget out [(n + v_N F * j)%nat; 0%nat] = mult F (H 0%nat) (scatter keep (mulv (List.length keep) K (sig j))) n.
Proof.
  intros HF HN HS Hr Hf K. unfold interpolate. cbn [negb]. rewrite (kron_matrix_sel _ _ _ _ HS). cbn [bindr]. fold K.
  destruct Hf as [(Sf & -> & Hg)|(Sf & Hg)]; rewrite Sf, Nat.eqb_refl; cbn [negb].
  - match goal with |- context [analysis F _ m (Arr _ ?g)] => set (g0 := g) end.
    destruct (analysis_batch F (green eps) m H (Arr [v_N F] g0) 1 _ HF HN Hr (batch1 _ _ _)) as (out & E & So & Ho).
    exists out. split; [exact E|]. split; [exact So|]. intros n j Hn Hj. rewrite Ho by assumption.
    apply mult_ext; [intros ? ?; reflexivity|]. intros i Hi. unfold g0, ix. cbn [nth]. apply scatter_ext. intros a Ha.
    unfold mulv. apply rsum_ext. intros b Hb. assert (j = 0)%nat by lia. subst j. rewrite Hg. reflexivity.
  - match goal with |- context [analysis F _ m (Arr _ ?g)] => set (g0 := g) end.
    destruct (analysis_batch F (green eps) m H (Arr [v_N F; v] g0) v _ HF HN Hr (batch2 _ 1 v _ ltac:(lia))) as (out & E & So & Ho).
    exists out. split; [exact E|]. split; [exact So|]. intros n j Hn Hj. rewrite Ho by assumption.
    apply mult_ext; [intros ? ?; reflexivity|]. intros i Hi. unfold g0, ix. cbn [nth]. apply scatter_ext. intros a Ha.
    unfold mulv. apply rsum_ext. intros b Hb. rewrite Hg. reflexivity.
Qed.

(** C36: with the exact method, interpolate returns a column that takes the given values on the kept vertices, is annihilated by L + eps I on the others, and has the least regularised
    energy x^T (L + eps I) x among all signals that do.  Several signals (columns of f) come out below each other in one column. *)
Theorem C36_interpolates F eps keep X f v sig : spectral F -> (1 < v_N F)%nat -> symmetric (v_N F) (v_L F) -> psd (v_N F) (v_L F) -> 0 < eps ->
  selection (v_N F) keep -> spsolve_ok (v_N F) (l_reg (v_L F) eps) keep X ->
  (shape f = [List.length keep] /\ v = 1%nat /\ (forall i, sig 0%nat i = aget f [i])) \/
  (shape f = [List.length keep; v] /\ forall j i, sig j i = aget f [i; j]) ->
  exists out, interpolate F true f keep Exact eps X = Ok out /\ shape out = [(v_N F * v)%nat; 1%nat] /\
    forall j, (j < v)%nat ->
      let x := fun n => aget out [(n + v_N F * j)%nat; 0%nat] in
      (forall i, (i < List.length keep)%nat -> x (nth i keep 0%nat) = sig j i) /\
      (forall c, (c < v_N F)%nat -> ~ In c keep -> mulv (v_N F) (v_L F) x c + eps * x c = 0) /\
      (forall w, (forall i, (i < List.length keep)%nat -> w (nth i keep 0%nat) = sig j i) ->
         quad (v_N F) (v_L F) x + eps * normsq (v_N F) x <= quad (v_N F) (v_L F) w + eps * normsq (v_N F) w).
Proof.
  intros HF HN Hs Hp He HS HX Hf.
  destruct (interpolate_batch F keep Exact eps X _ f v sig HF HN HS (response_pw F [fun x => 1 / (eps + x)] HF) Hf) as (out & E & So & Ho).
  exists out. split; [exact E|]. split; [exact So|]. intros j Hj x.
  destruct (interp_values F eps keep X HF Hs Hp He HS HX (sig j) x) as (H1 & H3 & H2).
  - intros i Hi. unfold x. rewrite Ho by assumption. apply mult_ext; [intros ? ?; reflexivity|]. intros a Ha. apply scatter_ext. intros b Hb.
    apply mulv_ext; [|intros ? ?; reflexivity]. intros c Hc. apply sym_fix_id; [|assumption|assumption].
    destruct HS as (Hnd & Hin). apply (schur_sym _ keep Hin); [apply l_reg_sym; exact Hs|exact HX].
  - split; [exact H1|]. split; [exact H3|]. intros w Hw. rewrite <- !l_reg_quad. apply H2. exact Hw.
Qed.
(** The solver's contract can be met for every selection of vertices. *)
Theorem C36_solvable n L eps keep : symmetric n L -> psd n L -> 0 < eps -> selection n keep -> exists X, spsolve_ok n (l_reg L eps) keep X.
Proof.
  intros Hs Hp He (Hnd & Hin).
  apply (solve_matrix (List.length (setdiff n keep)) (List.length keep) (ixm (l_reg L eps) (setdiff n keep) (setdiff n keep)) (ixm (l_reg L eps) (setdiff n keep) keep)).
  intros z Hz k Hk. set (v := glue n keep (fun _ => 0) z).
  assert (Z : quad n (l_reg L eps) v = 0).
  { unfold quad. rewrite (dot_split n keep Hnd Hin). rewrite !rsum_0; [ring| |].
    - intros l Hl. rewrite (mulv_split n keep Hnd Hin). rewrite rsum_0; [|intros i Hi; unfold v; rewrite glue_ind by assumption; ring].
      rewrite (rsum_ext _ _ (fun j => ixm (l_reg L eps) (setdiff n keep) (setdiff n keep) l j * z j)); [|intros j Hj; unfold v; rewrite glue_comp by assumption; reflexivity].
      specialize (Hz l Hl). unfold mulv in Hz. rewrite Hz. ring.
    - intros i Hi. unfold v. rewrite glue_ind by assumption. ring. }
  rewrite l_reg_quad in Z. pose proof (Hp v) as H1. pose proof (normsq_nonneg n v) as H2.
  assert (Hv : vzero n v). { apply normsq_zero. nra. }
  destruct (comp_lt n keep k Hk) as (Hkn & _). specialize (Hv _ Hkn). unfold v in Hv. rewrite glue_comp in Hv by assumption. exact Hv.
Qed.
(** The graph must have been through graph_multiresolution: without the attribute mr nothing is computed. *)
Theorem C36_needs_mr F f keep m eps X : interpolate F false f keep m eps X = Raise AttributeError.
Proof. reflexivity. Qed.

(** ** C37: the Kron pyramid *)
(** pred (N,1) with e (N,c): numpy repeats the single column *)
Lemma broadcast_col op a b N c : shape a = [N; c] -> shape b = [N; 1%nat] -> (1 <= c)%nat ->
  exists o, broadcast op a b = Ok o /\ shape o = [N; c] /\ forall n j, (n < N)%nat -> (j < c)%nat -> aget o [n; j] = op (aget a [n; j]) (aget b [n; 0%nat]).
Proof.
  intros Ha Hb Hc. unfold broadcast. rewrite Ha, Hb. cbn [rev app bshape_rev]. rewrite Nat.eqb_refl. destruct (Nat.eqb_spec c 1) as [->|Hc1].
  - eexists. split; [reflexivity|]. split; [reflexivity|]. intros n j Hn Hj. cbn [aget]. unfold bidx. cbn [rev app bidx_rev Nat.eqb].
    assert (j = 0)%nat by lia. subst. destruct (Nat.eqb_spec N 1); [|reflexivity]. assert (n = 0)%nat by lia. subst. reflexivity.
  - cbn [Nat.eqb]. eexists. split; [reflexivity|]. split; [reflexivity|]. intros n j Hn Hj. cbn [aget]. unfold bidx. cbn [rev app bidx_rev Nat.eqb].
    destruct (Nat.eqb_spec c 1); [lia|]. destruct (Nat.eqb_spec N 1); [|reflexivity]. assert (n = 0)%nat by lia. subst. reflexivity.
Qed.
Lemma broadcast_col' op a b N c : shape a = [N; c] -> shape b = [N; 1%nat] -> (1 <= c)%nat ->
  exists o, broadcast op b a = Ok o /\ shape o = [N; c] /\ forall n j, (n < N)%nat -> (j < c)%nat -> aget o [n; j] = op (aget b [n; 0%nat]) (aget a [n; j]).
Proof.
  intros Ha Hb Hc. unfold broadcast. rewrite Ha, Hb. cbn [rev app bshape_rev]. rewrite Nat.eqb_refl. destruct (Nat.eqb_spec 1 c) as [<-|Hc1].
  - eexists. split; [reflexivity|]. split; [reflexivity|]. intros n j Hn Hj. cbn [aget]. unfold bidx. cbn [rev app bidx_rev Nat.eqb].
    assert (j = 0)%nat by lia. subst. destruct (Nat.eqb_spec N 1); [|reflexivity]. assert (n = 0)%nat by lia. subst. reflexivity.
  - cbn [Nat.eqb]. eexists. split; [reflexivity|]. split; [reflexivity|]. intros n j Hn Hj. cbn [aget]. unfold bidx. cbn [rev app bidx_rev Nat.eqb].
    destruct (Nat.eqb_spec c 1); [lia|]. destruct (Nat.eqb_spec N 1); [|reflexivity]. assert (n = 0)%nat by lia. subst. reflexivity.
Qed.
Lemma inb2 a b idx : inb [a; b] idx -> exists i j, idx = [i; j] /\ (i < a)%nat /\ (j < b)%nat.
Proof.
  intros H. inversion H as [|i ? r ? Hi Hr]; subst. inversion Hr as [|j ? r' ? Hj Hr']; subst. inversion Hr'; subst. exists i, j. auto.
Qed.
Lemma aeq2 a b N c : shape a = [N; c] -> shape b = [N; c] -> (forall n j, (n < N)%nat -> (j < c)%nat -> aget a [n; j] = aget b [n; j]) -> aeq a b.
Proof.
  intros Ha Hb H. split; [congruence|]. intros idx Hi. rewrite Ha in Hi. destruct (inb2 _ _ _ Hi) as (i & j & -> & Hi' & Hj). apply H; assumption.
Qed.
Lemma aeq_refl a : aeq a a. Proof. split; reflexivity. Qed.

(** A level is usable: the spectral description is right, the graph went through graph_multiresolution, the kept
    vertices are distinct vertices, and the methods used have a frequency response (the exact one always). *)
Definition level_ok (ma mi : fmethod) (lk : plevel * kernel) : Prop :=
  let (l, h) := lk in
  spectral (pl_view l) /\ (1 < v_N (pl_view l))%nat /\ pl_mr l = true /\ selection (v_N (pl_view l)) (pl_idx l) /\
  (exists H, response (pl_view l) [h] ma H) /\ (exists H, response (pl_view l) [green 0.005] mi H).
(** The graph of each level has as many vertices as the previous level keeps. *)
Fixpoint chained (n : nat) (ls : list plevel) : Prop :=
  match ls with [] => True | l :: ls' => v_N (pl_view l) = n /\ chained (List.length (pl_idx l)) ls' end.

Lemma interpolate_col F keep m eps X f : spectral F -> (1 < v_N F)%nat -> selection (v_N F) keep -> (exists H, response F [green eps] m H) ->
  shape f = [List.length keep; 1%nat] ->
  exists out, interpolate F true f keep m eps X = Ok out /\ shape out = [v_N F; 1%nat] /\
    forall f', aeq f f' -> exists out', interpolate F true f' keep m eps X = Ok out' /\ aeq out' out.
Proof.
  intros HF HN HS (H & Hr) Sf.
  assert (G : forall g, shape g = [List.length keep; 1%nat] -> exists out, interpolate F true g keep m eps X = Ok out /\ shape out = [v_N F; 1%nat] /\
     forall n, (n < v_N F)%nat -> aget out [n; 0%nat] = mult F (H 0%nat) (scatter keep (mulv (List.length keep) (sym_fix (List.length keep) (schur (v_N F) (l_reg (v_L F) eps) keep X)) (fun i => aget g [i; 0%nat]))) n).
  { intros g Sg. destruct (interpolate_batch F keep m eps X H g 1 (fun j i => aget g [i; j]) HF HN HS Hr (or_intror (conj Sg (fun j i => eq_refl)))) as (o & E & So & Ho).
    exists o. split; [exact E|]. split; [rewrite So; f_equal; lia|]. intros n Hn. rewrite <- (Ho n 0%nat Hn ltac:(lia)). do 2 f_equal. lia. }
  destruct (G f Sf) as (out & E & So & Ho). exists out. split; [exact E|]. split; [exact So|]. intros f' (S' & V).
  destruct (G f' ltac:(congruence)) as (out' & E' & So' & Ho'). exists out'. split; [exact E'|]. apply (aeq2 _ _ _ _ So' So).
  intros n j Hn Hj. assert (j = 0)%nat by lia. subst j. rewrite Ho, Ho' by exact Hn. apply mult_ext; [intros ? ?; reflexivity|]. intros i Hi.
  apply scatter_ext. intros a Ha. apply mulv_ext; [intros ? ?; reflexivity|]. intros b Hb. symmetry. apply V. rewrite Sf. constructor; [exact Hb|constructor; [lia|constructor]].
Qed.
Lemma last_cons {A} (x : A) r d : last (x :: r) d = last r x.
Proof. revert x d. induction r as [|y r IH]; intros x d; [reflexivity|]. change (last (y :: r) d = last (y :: r) x). rewrite !IH. reflexivity. Qed.
Lemma syn_app m a b c : syn_loop m false (a ++ b)%list c = bindr (syn_loop m false a c) (fun r => bindr (syn_loop m false b (last r c)) (fun r2 => Ok (r ++ r2)%list)).
Proof.
  revert c. induction a as [|[l e] a IH]; intros c; cbn [app syn_loop bindr].
  - cbn [last]. destruct (syn_loop m false b c); reflexivity.
  - destruct (interpolate _ _ _ _ _ _ _) as [p|]; cbn [bindr]; [|reflexivity]. destruct e as [e|]; [|reflexivity].
    destruct (broadcast Rplus p e) as [c'|]; cbn [bindr]; [|reflexivity]. rewrite IH. destruct (syn_loop m false a c') as [r|]; cbn [bindr]; [|reflexivity].
    rewrite last_cons. destruct (syn_loop m false b (last r c')); reflexivity.
Qed.
Lemma last_hd_rev (r : list arr) c : last r c = hd c (rev (c :: r)).
Proof.
  cbn [rev]. destruct r as [|x r] using rev_ind; [reflexivity|]. rewrite last_last, rev_app_distr. reflexivity.
Qed.

Lemma pyr_loop_ok ma mi : forall lk ca n c, shape ca = [n; c] -> (1 <= c)%nat -> chained n (map fst lk) -> Forall (level_ok ma mi) lk ->
  exists cas es, pyr_loop ma mi lk ca = Ok (cas, es) /\ List.length cas = List.length lk /\ List.length es = List.length lk /\
    forall cap, aeq cap (last cas ca) -> exists r, syn_loop mi false (rev (combine (map fst lk) (map Some es))) cap = Ok r /\ Forall2 aeq (rev (cap :: r)) (ca :: cas).
Proof.
  induction lk as [|(l, h) lk IH]; intros ca n c Sca Hc Hch Hok.
  - exists [], []. repeat (split; [reflexivity|]). intros cap Hcap. exists []. split; [reflexivity|]. cbn in *. constructor; [assumption|constructor].
  - cbn [map fst chained] in Hch. destruct Hch as (Hn & Hch). inversion Hok as [|? ? Hl Hrest]; subst.
    destruct Hl as (HF & HN & Hmr & HS & (H1 & R1) & HG). set (F := pl_view l) in *. set (k := List.length (pl_idx l)) in *.
    destruct ca as [sh g]. cbn [shape] in Sca. subst sh.
    destruct (analysis_batch F h ma H1 (Arr [v_N F; c] g) c _ HF HN R1 (batch2 _ 1 c _ ltac:(lia))) as (sl & E1 & S1 & _).
    assert (E2 : exists ca', take_rows sl (pl_idx l) = Ok ca' /\ shape ca' = [k; 1%nat]).
    { unfold take_rows. rewrite S1. assert (Hin : forallb (fun v => Nat.ltb v (v_N F * c)) (pl_idx l) = true).
      { apply forallb_forall. intros v Hv. apply Nat.ltb_lt. destruct HS as (_ & Hin). specialize (Hin v Hv). nia. }
      rewrite Hin. eexists. split; reflexivity. }
    destruct E2 as (ca' & E2 & S2).
    destruct (interpolate_col F (pl_idx l) mi 0.005 (pl_X l) ca' HF HN HS HG S2) as (sp & E3 & S3 & V3).
    destruct (broadcast_col Rminus (Arr [v_N F; c] g) sp (v_N F) c eq_refl S3 Hc) as (e & E4 & S4 & V4).
    destruct (IH ca' k 1%nat S2 ltac:(lia) Hch Hrest) as (cas & es & E5 & L1 & L2 & HR).
    exists (ca' :: cas), (e :: es). split.
    { cbn [pyr_loop]. fold F. rewrite E1. cbn [bindr]. rewrite E2. cbn [bindr]. rewrite Hmr, E3. cbn [bindr]. rewrite E4. cbn [bindr]. rewrite E5. reflexivity. }
    split; [cbn; congruence|]. split; [cbn; congruence|]. intros cap Hcap.
    assert (Hcap' : aeq cap (last cas ca')).
    { rewrite last_cons in Hcap. exact Hcap. }
    destruct (HR cap Hcap') as (r & Er & F2). cbn [map fst combine rev]. rewrite syn_app, Er. cbn [bindr].
    assert (Hl : aeq ca' (last r cap)).
    { rewrite last_hd_rev. generalize (rev (cap :: r)) F2; intros q Q; inversion Q as [|x ? ? ? Hx Hy]; subst; cbn [hd]. destruct Hx as (Hs & Hv). split; [congruence|]. intros idx Hi. symmetry. apply Hv. rewrite Hs. exact Hi. }
    destruct (V3 _ Hl) as (sp' & E6 & (S6 & V6)). cbn [syn_loop]. fold F. rewrite Hmr, E6. cbn [bindr].
    destruct (broadcast_col' Rplus e sp' (v_N F) c S4 ltac:(congruence) Hc) as (rec & E7 & S7 & V7). rewrite E7. cbn [bindr].
    exists (r ++ [rec])%list. split; [reflexivity|]. rewrite rev_app_distr. cbn [rev app]. constructor; [|exact F2].
    apply (aeq2 rec (Arr [v_N F; c] g) (v_N F) c S7 eq_refl). intros n j Hn Hj. rewrite V7, V4 by assumption. rewrite V6; [cbn [aget]; ring|].
    rewrite S6, S3. constructor; [exact Hn|constructor; [lia|constructor]].
Qed.

Lemma map_nth_error_all (es : list arr) : map (fun i => nth_error es i) (seq 0 (List.length es)) = map Some es.
Proof.
  induction es as [|e es IH]; [reflexivity|]. cbn [List.length seq map nth_error]. f_equal. rewrite <- seq_shift, map_map. exact IH.
Qed.
Lemma map_fst_combine {A B} (a : list A) (b : list B) : List.length a = List.length b -> map fst (combine a b) = a.
Proof. revert b. induction a as [|x a IH]; intros [|y b] H; cbn in *; try congruence. f_equal. apply IH. lia. Qed.

(** C37: analysing a signal of shape (N, c) and synthesising from the coarsest approximation and the prediction errors, with the
    same interpolation order on both sides (or the exact method), returns the signal and every intermediate approximation.
    Nothing is assumed of the linear solver: the prediction cancels whatever it is. *)
Theorem C37_perfect_reconstruction n0 ls f c h hs m oa os : shape f = [n0; c] -> (1 <= c)%nat -> chained n0 ls ->
  h_expand h (List.length ls) = Ok hs ->
  m = MExact \/ oget oa 100 = oget os 30 ->
  Forall (level_ok (with_order m (oget oa 30)) (with_order m (oget oa 100))) (combine ls hs) ->
  exists ca pe, pyramid_analysis n0 ls f h m oa = Ok (ca, pe) /\ List.length ca = S (List.length ls) /\ List.length pe = List.length ls /\
    exists rec cs, pyramid_synthesis ls (last ca f) pe m os false = Ok (rec, cs) /\ aeq rec f /\ Forall2 aeq cs ca.
Proof.
  intros Sf Hc Hch Hh Hm Hok.
  assert (Lh : List.length hs = List.length ls).
  { unfold h_expand in Hh. destruct (h_list h) as [|h1 [|h2 l]]; cbn [List.length] in Hh.
    - destruct ls; [|discriminate]. injection Hh as <-. reflexivity.
    - injection Hh as <-. apply repeat_length.
    - destruct (Nat.eqb_spec (S (S (List.length l))) (List.length ls)); [|discriminate]. injection Hh as <-. exact e. }
  assert (Em : with_order m (oget os 30) = with_order m (oget oa 100)).
  { destruct Hm as [-> | ->]; reflexivity. }
  pose proof (map_fst_combine ls hs (eq_sym Lh)) as Hfst.
  destruct (pyr_loop_ok _ _ (combine ls hs) f n0 c Sf Hc ltac:(rewrite Hfst; exact Hch) Hok) as (cas & es & E & L1 & L2 & HR).
  assert (Lc : List.length (combine ls hs) = List.length ls) by (rewrite combine_length; lia). rewrite Lc in *.
  exists (f :: cas), es. split.
  { unfold pyramid_analysis. rewrite Sf, Nat.eqb_refl. cbn [negb]. rewrite Hh. cbn [bindr]. rewrite E. reflexivity. }
  split; [cbn; congruence|]. split; [exact L2|].
  replace (last (f :: cas) f) with (last cas f) by (destruct cas; reflexivity).
  destruct (HR (last cas f) (aeq_refl _)) as (r & Er & F2).
  unfold pyramid_synthesis. rewrite Em, <- L2, map_nth_error_all. rewrite Hfst in Er. rewrite Er. cbn [bindr].
  eexists _, _. split; [reflexivity|]. split; [|exact F2]. generalize (rev (last cas f :: r)) F2. intros q Q. inversion Q as [|x ? ? ? Hx Hr]; subst. exact Hx.
Qed.

(** What the levels hold, with the exact method: each approximation is the filtered previous one on the kept vertices, in a single column
    (of a signal with several columns only the first is kept), and each error is the previous approximation minus the signal that takes
    the new one's values on the kept vertices and is annihilated by L + 0.005 I on the others. *)
Definition level_exact (l : plevel) : Prop :=
  let F := pl_view l in
  spectral F /\ (1 < v_N F)%nat /\ pl_mr l = true /\ selection (v_N F) (pl_idx l) /\ symmetric (v_N F) (v_L F) /\ psd (v_N F) (v_L F) /\
  spsolve_ok (v_N F) (l_reg (v_L F) 0.005) (pl_idx l) (pl_X l).
Definition level_holds (l : plevel) (g : R -> R) (a b e : arr) : Prop :=
  let F := pl_view l in let keep := pl_idx l in
  shape b = [List.length keep; 1%nat] /\
  (forall r, (r < List.length keep)%nat -> aget b [r; 0%nat] = mult F (fun k => g (nth k (v_e F) 0)) (fun n => aget a [n; 0%nat]) (nth r keep 0%nat)) /\
  exists pred, (forall r, (r < List.length keep)%nat -> pred (nth r keep 0%nat) = aget b [r; 0%nat]) /\
    (forall v, (v < v_N F)%nat -> ~ In v keep -> mulv (v_N F) (v_L F) pred v + 0.005 * pred v = 0) /\
    shape e = shape a /\ forall n j, (n < v_N F)%nat -> (j < nth 1 (shape a) 0)%nat -> aget e [n; j] = aget a [n; j] - pred n.
Lemma pyr_loop_holds : forall ls gs ca n c, shape ca = [n; c] -> (1 <= c)%nat -> chained n ls -> Forall level_exact ls ->
  List.length gs = List.length ls ->
  exists cas es, pyr_loop Exact Exact (combine ls (map pw gs)) ca = Ok (cas, es) /\ List.length cas = List.length ls /\ List.length es = List.length ls /\
    forall i l g, nth_error ls i = Some l -> nth_error gs i = Some g ->
      exists a b e, nth_error (ca :: cas) i = Some a /\ nth_error (ca :: cas) (S i) = Some b /\ nth_error es i = Some e /\ level_holds l g a b e.
Proof.
  induction ls as [|l ls IH]; intros gs ca n c Sca Hc Hch Hok Hg.
  - exists [], []. repeat (split; [reflexivity|]). intros [|i] l g H; discriminate.
  - destruct gs as [|g gs]; [discriminate|]. cbn [chained] in Hch. destruct Hch as (Hn & Hch). inversion Hok as [|? ? Hl Hrest]; subst.
    destruct Hl as (HF & HN & Hmr & HS & Hsy & Hps & HX). set (F := pl_view l) in *. set (k := List.length (pl_idx l)) in *.
    destruct ca as [sh q]. cbn [shape] in Sca. subst sh.
    destruct (analysis_batch F (pw g) Exact _ (Arr [v_N F; c] q) c _ HF HN (response_pw F [g] HF) (batch2 _ 1 c _ ltac:(lia))) as (sl & E1 & S1 & V1).
    assert (E2 : exists ca', take_rows sl (pl_idx l) = Ok ca' /\ shape ca' = [k; 1%nat] /\ forall r, (r < k)%nat -> aget ca' [r; 0%nat] = aget sl [nth r (pl_idx l) 0%nat; 0%nat]).
    { unfold take_rows. rewrite S1. assert (Hin : forallb (fun v => Nat.ltb v (v_N F * c)) (pl_idx l) = true).
      { apply forallb_forall. intros v Hv. apply Nat.ltb_lt. destruct HS as (_ & Hin). specialize (Hin v Hv). nia. }
      rewrite Hin. eexists. split; [reflexivity|]. split; reflexivity. }
    destruct E2 as (ca' & E2 & S2 & V2).
    destruct (C36_interpolates F 0.005 (pl_idx l) (pl_X l) ca' 1 (fun j i => aget ca' [i; j]) HF HN Hsy Hps ltac:(lra) HS HX (or_intror (conj S2 (fun j i => eq_refl)))) as (sp & E3 & S3 & V3).
    destruct (V3 0%nat ltac:(lia)) as (P1 & P2 & _). cbv beta in P1, P2. rewrite Nat.mul_1_r in S3.
    destruct (broadcast_col Rminus (Arr [v_N F; c] q) sp (v_N F) c eq_refl S3 Hc) as (e & E4 & S4 & V4).
    destruct (IH gs ca' k 1%nat S2 ltac:(lia) Hch Hrest ltac:(cbn in Hg; lia)) as (cas & es & E5 & L1 & L2 & HR).
    exists (ca' :: cas), (e :: es). split.
    { cbn [map combine pyr_loop]. fold F. rewrite E1. cbn [bindr]. rewrite E2. cbn [bindr]. rewrite Hmr, E3. cbn [bindr]. rewrite E4. cbn [bindr]. rewrite E5. reflexivity. }
    split; [cbn; congruence|]. split; [cbn; congruence|]. intros i l' g' Hl' Hg'. destruct i as [|i].
    + cbn [nth_error] in Hl', Hg'. injection Hl' as <-. injection Hg' as <-. exists (Arr [v_N F; c] q), ca', e. split; [reflexivity|]. split; [reflexivity|]. split; [reflexivity|].
      unfold level_holds. fold F k. split; [exact S2|]. split.
      * intros r Hr. rewrite V2 by exact Hr. assert (Hk : (nth r (pl_idx l) 0%nat < v_N F)%nat) by (apply (proj2 HS), nth_In; exact Hr).
        pose proof (V1 (nth r (pl_idx l) 0%nat) 0%nat Hk ltac:(lia)) as V. rewrite Nat.mul_0_r, Nat.add_0_r in V. rewrite V. apply mult_ext; [intros ? ?; reflexivity|]. intros ? ?; reflexivity.
      * exists (fun v => aget sp [(v + v_N F * 0)%nat; 0%nat]). split; [exact P1|]. split; [exact P2|]. split; [exact S4|]. cbn [shape nth]. intros v j Hv Hj. rewrite Nat.mul_0_r, Nat.add_0_r. apply V4; assumption.
    + cbn [nth_error] in Hl', Hg'. destruct (HR i l' g' Hl' Hg') as (a & b & e' & A1 & A2 & A3 & A4). exists a, b, e'. auto.
Qed.
Theorem C37_what_each_level_holds n0 ls f c h gs oa : shape f = [n0; c] -> (1 <= c)%nat -> chained n0 ls -> h_expand h (List.length ls) = Ok (map pw gs) ->
  List.length gs = List.length ls -> Forall level_exact ls ->
  exists ca pe, pyramid_analysis n0 ls f h MExact oa = Ok (ca, pe) /\ nth_error ca 0 = Some f /\ List.length ca = S (List.length ls) /\ List.length pe = List.length ls /\
    forall i l g, nth_error ls i = Some l -> nth_error gs i = Some g ->
      exists a b e, nth_error ca i = Some a /\ nth_error ca (S i) = Some b /\ nth_error pe i = Some e /\ level_holds l g a b e.
Proof.
  intros Sf Hc Hch Hh Hg Hok. destruct (pyr_loop_holds ls gs f n0 c Sf Hc Hch Hok Hg) as (cas & es & E & L1 & L2 & HR). exists (f :: cas), es.
  split; [unfold pyramid_analysis; rewrite Sf, Nat.eqb_refl; cbn [negb]; rewrite Hh; cbn [bindr]; unfold with_order; rewrite E; reflexivity|]. split; [reflexivity|]. split; [cbn; congruence|]. split; [exact L2|exact HR].
Qed.

(** A one-dimensional signal, as the documentation uses, is not reconstructed: predictions are columns, and subtracting a column from a
    vector of length N yields an N x N array.  The "reconstruction" is the N x N array every row of which is the signal. *)
Theorem C37_one_dimensional_signal_refuted ls l f h hs m oa os : shape f = [v_N (pl_view l)] -> ls = [l] ->
  h_expand h 1 = Ok hs -> m = MExact \/ oget oa 100 = oget os 30 ->
  Forall (level_ok (with_order m (oget oa 30)) (with_order m (oget oa 100))) (combine ls hs) ->
  exists ca e, pyramid_analysis (v_N (pl_view l)) ls f h m oa = Ok ([f; ca], [e]) /\ shape e = [v_N (pl_view l); v_N (pl_view l)] /\
    exists rec cs, pyramid_synthesis ls ca [e] m os false = Ok (rec, cs) /\ shape rec = [v_N (pl_view l); v_N (pl_view l)] /\
      forall i j, (i < v_N (pl_view l))%nat -> (j < v_N (pl_view l))%nat -> aget rec [i; j] = aget f [j].
Proof.
  intros Sf -> Hh Hm Hok.
  assert (Em : with_order m (oget os 30) = with_order m (oget oa 100)).
  { destruct Hm as [-> | ->]; reflexivity. }
  assert (Eh : exists h1, hs = [h1]).
  { unfold h_expand in Hh. destruct (h_list h) as [|h1 [|h2 r]]; cbn in Hh; try discriminate. injection Hh as <-. eauto. }
  destruct Eh as (h1 & ->). cbn [combine] in Hok. inversion Hok as [|? ? Hl _]; subst.
  destruct Hl as (HF & HN & Hmr & HS & (H1 & R1) & HG). set (F := pl_view l) in *. set (k := List.length (pl_idx l)) in *.
  destruct f as [sh g]. cbn [shape] in Sf. subst sh.
  destruct (analysis_batch F h1 _ H1 (Arr [v_N F] g) 1 _ HF HN R1 (batch1 _ _ _)) as (sl & E1 & S1 & _).
  assert (E2 : exists ca', take_rows sl (pl_idx l) = Ok ca' /\ shape ca' = [k; 1%nat]).
  { unfold take_rows. rewrite S1. assert (Hin : forallb (fun v => Nat.ltb v (v_N F * 1)) (pl_idx l) = true).
    { apply forallb_forall. intros v Hv. apply Nat.ltb_lt. destruct HS as (_ & Hin). specialize (Hin v Hv). nia. }
    rewrite Hin. eexists. split; reflexivity. }
  destruct E2 as (ca' & E2 & S2).
  destruct (interpolate_col F (pl_idx l) (with_order m (oget oa 100)) 0.005 (pl_X l) ca' HF HN HS HG S2) as (sp & E3 & S3 & _).
  assert (E4 : exists e, broadcast Rminus (Arr [v_N F] g) sp = Ok e /\ shape e = [v_N F; v_N F] /\
     forall i j, (i < v_N F)%nat -> (j < v_N F)%nat -> aget e [i; j] = g [j] - aget sp [i; 0%nat]).
  { unfold broadcast. rewrite S3. cbn [shape rev app bshape_rev Nat.eqb]. destruct (Nat.eqb_spec (v_N F) 1); [lia|].
    eexists. split; [reflexivity|]. split; [reflexivity|]. intros i j Hi Hj. cbn [aget]. unfold bidx. cbn [rev app bidx_rev Nat.eqb].
    destruct (Nat.eqb_spec (v_N F) 1); [lia|]. reflexivity. }
  destruct E4 as (e & E4 & S4 & V4). exists ca', e. split.
  { unfold pyramid_analysis. cbn [shape]. rewrite Nat.eqb_refl. cbn [negb]. change (List.length [l]) with 1%nat. rewrite Hh. cbn [bindr combine pyr_loop].
    fold F. rewrite E1. cbn [bindr]. rewrite E2. cbn [bindr]. rewrite Hmr, E3. cbn [bindr]. rewrite E4. reflexivity. }
  split; [exact S4|].
  assert (E5 : exists rec, broadcast Rplus sp e = Ok rec /\ shape rec = [v_N F; v_N F] /\
     forall i j, (i < v_N F)%nat -> (j < v_N F)%nat -> aget rec [i; j] = aget sp [i; 0%nat] + aget e [i; j]).
  { apply broadcast_col'; [exact S4|exact S3|lia]. }
  destruct E5 as (rec & E5 & S5 & V5).
  unfold pyramid_synthesis. rewrite Em. cbn [List.length seq map nth_error combine rev app syn_loop]. fold F. rewrite Hmr, E3. cbn [bindr]. rewrite E5. cbn [bindr].
  eexists _, _. split; [reflexivity|]. cbn [rev app hd]. split; [exact S5|]. intros i j Hi Hj. rewrite V5, V4 by assumption. cbn [aget]. ring.
Qed.

(** least_squares=True never works once there is a level: the name h_filters is unbound. *)
Theorem C37_least_squares_refuted ls cap pe m os : ls <> [] -> List.length pe = List.length ls ->
  pyramid_synthesis ls cap pe m os true = Raise NameError.
Proof.
  intros Hne Hl. unfold pyramid_synthesis. rewrite <- Hl, map_nth_error_all.
  assert (Hr : exists l e r, rev (combine ls (map Some pe)) = (l, Some e) :: r).
  { destruct ls as [|x ls] using rev_ind; [congruence|]. destruct pe as [|y pe] using rev_ind; [rewrite app_length in Hl; cbn in Hl; lia|].
    rewrite !app_length in Hl. cbn in Hl. assert (List.length ls = List.length pe) as Hl' by lia.
    rewrite map_app. exists x, y. clear -Hl'. assert (G : forall (a : list plevel) (b : list arr), List.length a = List.length b -> combine (a ++ [x])%list (map Some b ++ map Some [y])%list = (combine a (map Some b) ++ [(x, Some y)])%list).
    { induction a as [|q a IH]; intros [|z b] H; cbn in *; try congruence. f_equal. apply IH. lia. }
    rewrite G by exact Hl'. rewrite rev_app_distr. cbn. eexists. reflexivity. }
  destruct Hr as (l & e & r & ->). reflexivity.
Qed.
(** The number of prediction errors is not checked (line 499 builds a ValueError without raising it): errors beyond the number of levels are
    ignored; when one is missing for the coarsest level, the call is an IndexError once the interpolation of that level has succeeded. *)
Theorem C37_extra_errors_ignored_refuted ls cap pe extra m os lsq : List.length pe = List.length ls ->
  pyramid_synthesis ls cap (pe ++ extra)%list m os lsq = pyramid_synthesis ls cap pe m os lsq.
Proof.
  intros Hl. unfold pyramid_synthesis. f_equal. f_equal. f_equal. f_equal. apply map_ext_in. intros i Hi. apply in_seq in Hi. apply nth_error_app1. lia.
Qed.
Theorem C37_missing_errors_rejected ls l cap pe m os lsq : (List.length pe <= List.length ls)%nat ->
  (forall r, pyramid_synthesis (ls ++ [l])%list cap pe m os lsq <> Ok r) /\
  (lsq = true -> pyramid_synthesis (ls ++ [l])%list cap pe m os lsq = Raise IndexError) /\
  (lsq = false -> forall s, interpolate (pl_view l) (pl_mr l) cap (pl_idx l) (with_order m (oget os 30)) 0.005 (pl_X l) = Ok s ->
     pyramid_synthesis (ls ++ [l])%list cap pe m os lsq = Raise IndexError).
Proof.
  intros Hl. unfold pyramid_synthesis. rewrite app_length. cbn [List.length]. rewrite Nat.add_1_r, seq_S, map_app. cbn [map Nat.add].
  assert (E : nth_error pe (List.length ls) = None) by (apply nth_error_None; exact Hl). rewrite E.
  assert (G : forall (a : list plevel) (b : list (option arr)), List.length b = List.length a -> combine (a ++ [l])%list (b ++ [None])%list = (combine a b ++ [(l, None)])%list).
  { induction a as [|q a IH]; intros [|z b] H; cbn in *; try congruence. f_equal. apply IH. lia. }
  rewrite G by (rewrite map_length, seq_length; reflexivity). rewrite rev_app_distr. cbn [rev app syn_loop]. split; [|split].
  - intros r. destruct lsq; cbn [bindr]; [discriminate|]. destruct (interpolate _ _ _ _ _ _ _); discriminate.
  - intros ->. reflexivity.
  - intros -> s ->. reflexivity.
Qed.
(** Arguments that cannot be meant are rejected. *)
Theorem C37_wrong_length_rejected n0 ls f h m oa d r : shape f = d :: r -> d <> n0 -> pyramid_analysis n0 ls f h m oa = Raise ValueError.
Proof. intros Sf Hd. unfold pyramid_analysis. rewrite Sf. destruct (Nat.eqb_spec d n0); [contradiction|reflexivity]. Qed.
Theorem C37_wrong_number_of_filters_rejected n0 ls f hs m oa r : shape f = n0 :: r -> List.length hs <> 1%nat -> List.length hs <> List.length ls ->
  pyramid_analysis n0 ls f (HList hs) m oa = Raise ValueError.
Proof.
  intros Sf H1 H2. unfold pyramid_analysis. rewrite Sf, Nat.eqb_refl. cbn [negb]. unfold h_expand, h_list.
  destruct hs as [|a [|b hs]]; cbn [List.length] in *; try lia.
  - destruct ls; cbn [List.length Nat.eqb] in *; [congruence|reflexivity].
  - destruct (Nat.eqb_spec (S (S (List.length hs))) (List.length ls)); [lia|reflexivity].
Qed.
