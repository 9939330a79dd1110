(** C110: what the smallest and the largest eigenvalue say about degrees, independent sets, colourings, separators and
    the edges between two sets of vertices. *)
From Coq Require Import Reals Lra Lia List Arith Bool String ZArith Classical.
From Verif.Base Require Import RSum Prelude LinAlg Spectral.
From Verif.Spec Require Import Matrix NdArray GraphSpec FilterSpec Reach CacheSpec LapSpec CutSpec GenSpec SetSpec.
From Verif.Model Require Import Sparse Graph Bounds Cache Filter Kernels Generators.
From Verif.Proofs Require Import SparseFacts InitFacts EdgeFacts LapFacts MaxPrinciple SpectralFacts.
From Verif.Props Require Import Core Laplacian Traversal Caching UtilsProps SpectrumProps GenProps SpectraProps CutProps.
Import ListNotations.
Open Scope R_scope.
Open Scope list_scope.

Lemma comb_entry G : built G -> g_lap_type G = Combinatorial -> let n := g_n_vertices G in
  (forall i j, (i < n)%nat -> (j < n)%nat -> i <> j -> gL G i j = - mean_wt G i j) /\ (forall i, (i < n)%nat -> gL G i i = strength G i).
Proof.
  intros Hb Ht n. destruct (C09_combinatorial_structure G Hb Ht) as (S1 & R1 & O1 & _). fold n in S1, R1, O1.
  assert (O : forall i j, (i < n)%nat -> (j < n)%nat -> i <> j -> gL G i j = - mean_wt G i j) by (intros i j Hi Hj Ne; rewrite O1 by assumption; unfold mean_wt; field).
  split; [exact O|]. intros i Hi. pose proof (R1 i Hi) as E.
  rewrite (rsum_ext n _ (fun j => (if Nat.eqb j i then gL G i i else 0) - (if Nat.eqb j i then 0 else mean_wt G i j))) in E.
  - rewrite rsum_minus in E. rewrite (rsum_single n _ i Hi) in E by (intros j Hj Ne; destruct (Nat.eqb_spec j i); [contradiction|reflexivity]).
    rewrite Nat.eqb_refl in E. unfold strength. fold n. lra.
  - intros j Hj. destruct (Nat.eqb_spec j i) as [->|Ne]; [ring|]. rewrite O by auto. ring.
Qed.
Lemma mulv_strength G x i : built G -> g_lap_type G = Combinatorial -> let n := g_n_vertices G in (i < n)%nat ->
  mulv n (gL G) x i = strength G i * x i - \sum_(j < n) (if Nat.eqb j i then 0 else mean_wt G i j * x j).
Proof.
  intros Hb Ht n Hi. destruct (comb_entry G Hb Ht) as (O & D). fold n in O, D. unfold mulv.
  rewrite (rsum_ext n _ (fun j => (if Nat.eqb j i then strength G i * x i else 0) - (if Nat.eqb j i then 0 else mean_wt G i j * x j))).
  - rewrite rsum_minus. rewrite (rsum_single n _ i Hi) by (intros j Hj Ne; destruct (Nat.eqb_spec j i); [contradiction|reflexivity]). rewrite Nat.eqb_refl. reflexivity.
  - intros j Hj. destruct (Nat.eqb_spec j i) as [->|Ne]; [rewrite D by exact Hi; ring|rewrite O by auto; ring].
Qed.
Lemma mean_wt_sym G i j : mean_wt G i j = mean_wt G j i.
Proof. unfold mean_wt. lra. Qed.
Lemma mean_wt_nonneg G i j : nonneg_weights G -> (i < g_n_vertices G)%nat -> (j < g_n_vertices G)%nat -> 0 <= mean_wt G i j.
Proof. intros Hp Hi Hj. unfold mean_wt. pose proof (Hp i j Hi Hj). pose proof (Hp j i Hj Hi). lra. Qed.

(** ** The bottom and the top of the spectrum on signals of mean zero *)
Section Ends.
  Variables (G : graph) (e : vec) (U : mat).
  Hypothesis Hb : built G.
  Hypothesis Hp : nonneg_weights G.
  Hypothesis Ht : g_lap_type G = Combinatorial.
  Let n := g_n_vertices G.
  Hypothesis HU : eigh_ok n (gL G) e U.
  Hypothesis Hn : (1 < n)%nat.

  Lemma sorted_eigs k : (1 <= k < n)%nat -> 0 <= e 1%nat <= e k.
  Proof using Hb Hp HU Hn. intros Hk. split; [apply (exact_nonneg G e U Hb Hp HU); exact Hn|apply (eigh_sort _ _ _ _ HU); lia]. Qed.
  Lemma coef_constant x : 0 < e 1%nat -> rsum n x = 0 -> coef n U x 0%nat = 0.
  Proof using Hb Hp Ht HU Hn.
    intros P Hx. set (one := fun _ : nat => 1). destruct (C09_combinatorial_structure G Hb Ht) as (_ & R1 & _). fold n in R1.
    assert (Z : forall k, (1 <= k < n)%nat -> coef n U one k = 0).
    { intros k Hk. pose proof (coef_mulv n (gL G) e U HU one k ltac:(lia)) as E.
      assert (C0 : coef n U (mulv n (gL G) one) k = 0).
      { unfold coef. apply rsum_0. intros i Hi. unfold mulv, one. rewrite (rsum_ext n _ (fun j => gL G i j)) by (intros; ring). rewrite R1 by exact Hi. ring. }
      rewrite C0 in E. pose proof (sorted_eigs k Hk). destruct (Rmult_integral _ _ (eq_sym E)); [lra|assumption]. }
    assert (N1 : normsq n one = INR n) by (unfold normsq, dot, one; rewrite (rsum_const n (1 * 1)) by reflexivity; ring).
    assert (Q : normsq n one = coef n U one 0%nat * coef n U one 0%nat).
    { rewrite <- (coef_normsq n (gL G) e U HU one). unfold normsq, dot. rewrite (rsum_single n _ 0%nat) by (lia || (intros k Hk Ne; rewrite Z by lia; ring)). reflexivity. }
    assert (D : dot n one x = coef n U one 0%nat * coef n U x 0%nat).
    { rewrite <- (coef_dot n (gL G) e U HU one x). unfold dot. rewrite (rsum_single n _ 0%nat) by (lia || (intros k Hk Ne; rewrite Z by lia; ring)). reflexivity. }
    assert (D0 : dot n one x = 0) by (rewrite <- Hx; unfold dot, one; apply rsum_ext; intros; ring).
    rewrite D0 in D. destruct (Rmult_integral _ _ (eq_sym D)) as [Z0|Z0]; [|exact Z0].
    rewrite Q, Z0 in N1. pose proof (lt_0_INR n ltac:(lia)). lra.
  Qed.
  Lemma at_least x : rsum n x = 0 -> e 1%nat * normsq n x <= quad n (gL G) x.
  Proof using Hb Hp Ht HU Hn.
    intros Hx. destruct (Rlt_dec 0 (e 1%nat)) as [P|P].
    - rewrite (eigh_quad n (gL G) e U HU x), <- (coef_normsq n (gL G) e U HU x). unfold normsq, dot. rewrite <- rsum_scal_l. apply rsum_le. intros k Hk.
      destruct (Nat.eq_dec k 0) as [->|Nk]; [rewrite (coef_constant x P Hx); lra|]. apply Rmult_le_compat_r; [apply Rle_0_sqr|]. apply sorted_eigs. lia.
    - pose proof (sorted_eigs 1 ltac:(lia)). replace (e 1%nat) with 0 by lra. rewrite Rmult_0_l. apply lap_psd. apply graph_is_laplacian; assumption.
  Qed.
  Lemma at_most x : quad n (gL G) x <= e (n - 1)%nat * normsq n x.
  Proof using HU Hn. apply (eigh_quad_le n (gL G) e U HU). intros k Hk. apply (eigh_sort _ _ _ _ HU); lia. Qed.
End Ends.

Lemma unit_quad G i j : built G -> g_lap_type G = Combinatorial -> let n := g_n_vertices G in (i < n)%nat -> (j < n)%nat -> i <> j ->
  quad n (gL G) (fun a => unitv i a - unitv j a) = strength G i + strength G j + 2 * mean_wt G i j /\
  normsq n (fun a => unitv i a - unitv j a) = 2 /\ rsum n (fun a => unitv i a - unitv j a) = 0.
Proof.
  intros Hb Ht n Hi Hj Ne. destruct (comb_entry G Hb Ht) as (O & D). fold n in O, D.
  assert (P : forall f : vec, \sum_(a < n) ((unitv i a - unitv j a) * f a) = f i - f j).
  { intros f. rewrite (rsum_ext n _ (fun a => unitv i a * f a - unitv j a * f a)) by (intros; ring). rewrite rsum_minus.
    rewrite (rsum_single n _ i Hi) by (intros a Ha N; unfold unitv; destruct (Nat.eqb_spec a i); [contradiction|ring]).
    rewrite (rsum_single n _ j Hj) by (intros a Ha N; unfold unitv; destruct (Nat.eqb_spec a j); [contradiction|ring]).
    unfold unitv. rewrite !Nat.eqb_refl. ring. }
  split; [|split].
  - unfold quad, dot. rewrite P. assert (M : forall a, mulv n (gL G) (fun b => unitv i b - unitv j b) a = gL G a i - gL G a j).
    { intros a. unfold mulv. rewrite (rsum_ext n _ (fun b => (unitv i b - unitv j b) * gL G a b)) by (intros; ring). apply P. }
    rewrite !M, !D by assumption. rewrite !O by auto. rewrite (mean_wt_sym G j i). ring.
  - unfold normsq, dot. rewrite P. unfold unitv. rewrite !Nat.eqb_refl. destruct (Nat.eqb_spec i j); [contradiction|]. destruct (Nat.eqb_spec j i); [subst; contradiction|]. ring.
  - rewrite (rsum_ext n _ (fun a => (unitv i a - unitv j a) * 1)) by (intros; ring). rewrite P. ring.
Qed.
Lemma cut_single G i : (i < g_n_vertices G)%nat -> cut (g_n_vertices G) (wt G) (fun a => Nat.eqb a i) = strength G i.
Proof.
  intros Hi. set (n := g_n_vertices G) in *. unfold cut.
  rewrite (rsum_ext n _ (fun a => (if Nat.eqb a i then \sum_(b < n) (if Nat.eqb b i then 0 else wt G i b) else 0) + (if Nat.eqb a i then 0 else wt G a i))).
  - rewrite rsum_plus. rewrite (rsum_single n _ i Hi) by (intros a Ha N; destruct (Nat.eqb_spec a i); [contradiction|reflexivity]). rewrite Nat.eqb_refl.
    unfold strength. fold n. rewrite <- rsum_plus, <- rsum_scal_l. apply rsum_ext. intros b Hb. unfold mean_wt. destruct (Nat.eqb b i); [ring|field].
  - intros a Ha. destruct (Nat.eqb_spec a i) as [->|Na].
    + rewrite Rplus_0_r. apply rsum_ext. intros b Hb. destruct (Nat.eqb b i); reflexivity.
    + rewrite (rsum_single n _ i Hi); [rewrite Nat.eqb_refl; cbn; ring|]. intros b Hb N. destruct (Nat.eqb_spec b i); [contradiction|reflexivity].
Qed.

(** The smallest nonzero eigenvalue is at most n/(n-1) times the smallest degree, the largest at least n/(n-1) times the largest. *)
Theorem C110_degrees : forall G e U i, built G -> nonneg_weights G -> g_lap_type G = Combinatorial ->
  let n := g_n_vertices G in (1 < n)%nat -> exact_eig n (gL G) n e U -> (i < n)%nat ->
  nth 1 e 0 * (INR n - 1) <= INR n * strength G i <= nth (n - 1) e 0 * (INR n - 1).
Proof.
  intros G e U i Hb Hp Ht n Hn HE Hi. pose proof (C103_cuts_against_eigenvalues G e U (fun a => Nat.eqb a i) Hb Hp Ht Hn HE) as H. cbv zeta in H. fold n in H.
  assert (C1 : INR (ncount n (fun a => Nat.eqb a i)) = 1).
  { rewrite ncount_INR. rewrite (rsum_single n _ i Hi); [rewrite Nat.eqb_refl; reflexivity|]. intros a Ha N. destruct (Nat.eqb_spec a i); [contradiction|reflexivity]. }
  rewrite C1 in H. pose proof (cut_single G i Hi) as CS. fold n in CS. rewrite CS in H. pose proof (lt_0_INR n ltac:(lia)) as P.
  destruct H as (H1 & H2). apply (Rmult_le_compat_r (INR n)) in H1; [|lra]. apply (Rmult_le_compat_r (INR n)) in H2; [|lra].
  replace (nth 1 e 0 * (1 * (INR n - 1) / INR n) * INR n) with (nth 1 e 0 * (INR n - 1)) in H1 by (field; lra).
  replace (nth (n - 1) e 0 * (1 * (INR n - 1) / INR n) * INR n) with (nth (n - 1) e 0 * (INR n - 1)) in H2 by (field; lra). lra.
Qed.
(** Two vertices: half the sum of their degrees plus the weight between them lies between the two eigenvalues. *)
Theorem C110_pairs_of_vertices : forall G e U i j, built G -> nonneg_weights G -> g_lap_type G = Combinatorial ->
  let n := g_n_vertices G in exact_eig n (gL G) n e U -> (i < n)%nat -> (j < n)%nat -> i <> j ->
  nth 1 e 0 <= (strength G i + strength G j) / 2 + mean_wt G i j <= nth (n - 1) e 0.
Proof.
  intros G e U i j Hb Hp Ht n (Hl & Hm & e' & U' & HU & He & HUU) Hi Hj Ne. assert (Hn : (1 < n)%nat) by lia. rewrite !He by lia.
  destruct (unit_quad G i j Hb Ht Hi Hj Ne) as (Q & N & M). fold n in Q, N, M.
  pose proof (at_least G e' U' Hb Hp Ht HU Hn _ M) as A1. pose proof (at_most G e' U' HU Hn (fun a => unitv i a - unitv j a)) as A2. fold n in A1, A2. rewrite Q, N in A1, A2. lra.
Qed.

(** ** Independent sets and colourings *)
Lemma cut_independent G S : built G -> independent G S -> cut (g_n_vertices G) (wt G) S = \sum_(i < g_n_vertices G) (if S i then strength G i else 0).
Proof.
  intros Hb HI. set (n := g_n_vertices G) in *. unfold cut.
  rewrite (sum2_ext n n _ (fun i j => (if S i then if Nat.eqb j i then 0 else wt G i j else 0) + (if S j then if Nat.eqb i j then 0 else wt G i j else 0))).
  - rewrite sum2_plus, (rsum_swap n n (fun i j => if S j then if Nat.eqb i j then 0 else wt G i j else 0)).
    rewrite <- sum2_plus. rewrite <- rsum_scal_l. apply rsum_ext. intros i Hi. unfold strength. fold n. rewrite <- rsum_scal_l.
    destruct (S i); [|apply rsum_0; intros j Hj; ring]. apply rsum_ext. intros j Hj. unfold mean_wt. destruct (Nat.eqb j i); [ring|field].
  - intros i j Hi Hj. rewrite (Nat.eqb_sym i j). destruct (Nat.eqb_spec j i) as [->|Ne]; [destruct (S i); cbn [Bool.eqb]; ring|].
    destruct (S i) eqn:Si, (S j) eqn:Sj; cbn [Bool.eqb]; try ring. rewrite (HI i j Hi Hj ltac:(auto) Si Sj). ring.
Qed.
(** Hoffman's bound: an independent set whose vertices have degree at least D has at most n (1 - D / e[-1]) vertices. *)
Theorem C110_independent_sets : forall G e U S D, built G -> nonneg_weights G -> g_lap_type G = Combinatorial ->
  let n := g_n_vertices G in (1 < n)%nat -> exact_eig n (gL G) n e U -> independent G S ->
  (forall i, (i < n)%nat -> S i = true -> D <= strength G i) -> (0 < ncount n S)%nat ->
  INR (ncount n S) * nth (n - 1) e 0 <= INR n * (nth (n - 1) e 0 - D).
Proof.
  intros G e U S D Hb Hp Ht n Hn HE HI HD HS. pose proof (C103_cuts_against_eigenvalues G e U S Hb Hp Ht Hn HE) as H. cbv zeta in H. fold n in H. destruct H as (_ & H).
  pose proof (cut_independent G S Hb HI) as C. fold n in C. rewrite C in H. set (a := INR (ncount n S)) in *. set (lam := nth (n - 1) e 0) in *.
  assert (L : D * a <= \sum_(i < n) (if S i then strength G i else 0)).
  { unfold a. rewrite ncount_INR, <- rsum_scal_l. apply rsum_le. intros i Hi. destruct (S i) eqn:Si; [rewrite Rmult_1_r; apply HD; assumption|lra]. }
  assert (Pa : 0 < a) by (apply lt_0_INR; exact HS). pose proof (lt_0_INR n ltac:(lia)) as P.
  assert (X : D * a * INR n <= lam * (a * (INR n - a))).
  { replace (lam * (a * (INR n - a))) with (lam * (a * (INR n - a) / INR n) * INR n) by (field; lra). apply Rmult_le_compat_r; lra. }
  apply (Rmult_le_reg_l a); [exact Pa|]. lra.
Qed.
(** Hoffman's bound: k colours suffice only if k (e[-1] - D) >= e[-1], D being the smallest degree. *)
Theorem C110_colourings : forall G e U k col D, built G -> nonneg_weights G -> g_lap_type G = Combinatorial ->
  let n := g_n_vertices G in (1 < n)%nat -> exact_eig n (gL G) n e U -> proper_colouring G k col ->
  (forall i, (i < n)%nat -> D <= strength G i) -> nth (n - 1) e 0 <= INR k * (nth (n - 1) e 0 - D).
Proof.
  intros G e U k col D Hb Hp Ht n Hn HE (HC1 & HC2) HD. fold n in HC1, HC2. set (lam := nth (n - 1) e 0).
  pose proof (lt_0_INR n ltac:(lia)) as P. pose proof (C110_degrees G e U 0%nat Hb Hp Ht Hn HE ltac:(lia)) as (_ & H0). fold n lam in H0.
  assert (Sn : 0 <= strength G 0%nat).
  { unfold strength. apply rsum_nonneg. intros j Hj. destruct (Nat.eqb j 0); [lra|apply mean_wt_nonneg; [exact Hp|fold n; lia|exact Hj]]. }
  pose proof (HD 0%nat ltac:(lia)) as D0.
  assert (N1 : 1 < INR n) by (change 1 with (INR 1); apply lt_INR; exact Hn).
  assert (LD : 0 <= lam - D).
  { assert (0 <= lam).
      { pose proof (Rmult_le_pos (INR n) (strength G 0%nat) ltac:(lra) Sn). apply (Rmult_le_reg_r (INR n - 1)); [lra|]. rewrite Rmult_0_l. lra. }
    assert (strength G 0%nat <= lam); [|lra]. apply (Rmult_le_reg_l (INR n)); [exact P|]. apply (Rle_trans _ _ _ H0). rewrite (Rmult_comm (INR n)). apply Rmult_le_compat_l; lra. }
  assert (Cl : forall c, INR (ncount n (fun i => Nat.eqb (col i) c)) * lam <= INR n * (lam - D)).
  { intros c. destruct (Nat.eq_dec (ncount n (fun i => Nat.eqb (col i) c)) 0) as [Z|Z]; [rewrite Z; cbn [INR]; rewrite Rmult_0_l; apply Rmult_le_pos; lra|].
    apply (C110_independent_sets G e U (fun i => Nat.eqb (col i) c) D Hb Hp Ht Hn HE); [| |apply Nat.neq_0_lt_0; exact Z].
    - intros i j Hi Hj Ne Si Sj. apply Nat.eqb_eq in Si. apply Nat.eqb_eq in Sj. destruct (Req_dec (wt G i j) 0) as [E|E]; [exact E|]. exfalso. apply (HC2 i j Hi Hj Ne E). congruence.
    - intros i Hi _. apply HD. exact Hi. }
  assert (T : \sum_(c < k) INR (ncount n (fun i => Nat.eqb (col i) c)) = INR n).
  { rewrite (rsum_ext k _ (fun c => \sum_(i < n) (if Nat.eqb (col i) c then 1 else 0))) by (intros c Hc; apply ncount_INR). rewrite rsum_swap.
    rewrite (rsum_ext n _ (fun _ => 1)); [rewrite (rsum_const n 1) by reflexivity; ring|]. intros i Hi. rewrite (rsum_single k _ (col i) (HC1 i Hi)); [rewrite Nat.eqb_refl; reflexivity|].
    intros c Hc N. destruct (Nat.eqb_spec (col i) c); [congruence|reflexivity]. }
  apply (Rmult_le_reg_l (INR n)); [exact P|]. rewrite <- T at 1. rewrite <- rsum_scal_r.
  apply (Rle_trans _ (\sum_(c < k) (INR n * (lam - D)))); [apply rsum_le; intros c Hc; apply Cl|]. rewrite (rsum_const k (INR n * (lam - D))) by reflexivity. right. ring.
Qed.

(** ** Separators *)
(** If removing the vertices outside A and B separates A from B, some vertex of A or B has weight at least e[1] towards the removed vertices. *)
Theorem C110_separators : forall G m e U A B D, built G -> nonneg_weights G -> g_lap_type G = Combinatorial ->
  let n := g_n_vertices G in (1 < m)%nat -> exact_eig n (gL G) m e U -> separated G A B -> (0 < ncount n A)%nat -> (0 < ncount n B)%nat ->
  (forall i, (i < n)%nat -> A i = true \/ B i = true -> weight_to G i (fun j => negb (A j || B j)) <= D) ->
  nth 1 e 0 <= D.
Proof.
  intros G m e U A B D Hb Hp Ht n Hm1 (Hl & Hm & e' & U' & HU & He & HUU) HS HA HB HD. assert (Hn : (1 < n)%nat) by lia. rewrite He by lia.
  set (a := INR (ncount n A)). set (b := INR (ncount n B)). assert (Pa : 0 < a) by (apply lt_0_INR; exact HA). assert (Pb : 0 < b) by (apply lt_0_INR; exact HB).
  pose (C := fun j => (A j || B j)%bool). pose (x := fun i => if A i then b else if B i then - a else 0).
  assert (Dj : forall i, (i < n)%nat -> A i = true -> B i = false).
  { intros i Hi Ai. destruct (B i) eqn:Bi; [|reflexivity]. destruct (HS i i Hi Hi Ai Bi) as (N & _). contradiction. }
  assert (Sx : rsum n x = 0).
  { rewrite (rsum_ext n _ (fun i => b * (if A i then 1 else 0) - a * (if B i then 1 else 0))).
    - rewrite rsum_minus, !rsum_scal_l, <- !ncount_INR. fold a b. ring.
    - intros i Hi. unfold x. destruct (A i) eqn:Ai; [rewrite (Dj i Hi Ai); ring|destruct (B i); ring]. }
  pose proof (at_least G e' U' Hb Hp Ht HU Hn x Sx) as L1. fold n in L1.
  assert (Nx : 0 < normsq n x).
  { unfold normsq, dot. assert (E : \sum_(i < n) (x i * x i) = b * b * a + a * a * b); [|rewrite E; pose proof (Rmult_lt_0_compat _ _ (Rmult_lt_0_compat _ _ Pa Pa) Pb); pose proof (Rmult_lt_0_compat _ _ (Rmult_lt_0_compat _ _ Pb Pb) Pa); lra].
    rewrite (rsum_ext n _ (fun i => b * b * (if A i then 1 else 0) + a * a * (if B i then 1 else 0))).
    - rewrite rsum_plus, !rsum_scal_l, <- !ncount_INR. fold a b. ring.
    - intros i Hi. unfold x. destruct (A i) eqn:Ai; [rewrite (Dj i Hi Ai); ring|destruct (B i); ring]. }
  assert (Q : quad n (gL G) x = \sum_(i < n) (if C i then x i * x i * weight_to G i (fun j => negb (C j)) else 0)).
  { rewrite (lap_energy n (gL G) x (graph_is_laplacian G Hb Hp Ht)). destruct (comb_entry G Hb Ht) as (O & _). fold n in O.
    rewrite (sum2_ext n n _ (fun i j => (if C i then x i * x i * (if negb (C j) then if Nat.eqb j i then 0 else mean_wt G i j else 0) else 0) +
                                        (if C j then x j * x j * (if negb (C i) then if Nat.eqb i j then 0 else mean_wt G j i else 0) else 0))).
    - rewrite sum2_plus, (rsum_swap n n (fun i j => if C j then x j * x j * (if negb (C i) then if Nat.eqb i j then 0 else mean_wt G j i else 0) else 0)).
      rewrite <- sum2_plus. rewrite <- rsum_scal_l. apply rsum_ext. intros i Hi. unfold weight_to. fold n. destruct (C i).
      + rewrite <- !rsum_scal_l. apply rsum_ext. intros j Hj. field.
      + rewrite rsum_0 by (intros; ring). ring.
    - intros i j Hi Hj. rewrite (Nat.eqb_sym i j). destruct (Nat.eqb_spec j i) as [->|Ne].
      { destruct (C i); cbn [negb]; ring. }
      rewrite O, (mean_wt_sym G j i) by auto. unfold C, x. destruct (A i) eqn:Ai, (A j) eqn:Aj; cbn [orb negb]; try ring.
      + destruct (B j) eqn:Bj; cbn [negb]; [|ring]. destruct (HS i j Hi Hj Ai Bj) as (_ & W1 & W2). unfold mean_wt. rewrite W1, W2. field.
      + destruct (B i) eqn:Bi; cbn [negb]; [|ring]. destruct (HS j i Hj Hi Aj Bi) as (_ & W1 & W2). unfold mean_wt. rewrite W1, W2. field.
      + destruct (B i), (B j); cbn [negb]; ring. }
  assert (L2 : quad n (gL G) x <= D * normsq n x).
  { rewrite Q. unfold normsq, dot. rewrite <- rsum_scal_l. apply rsum_le. intros i Hi. destruct (C i) eqn:Ci.
    - rewrite (Rmult_comm D). apply Rmult_le_compat_l; [apply Rle_0_sqr|]. apply HD; [exact Hi|]. unfold C in Ci. apply orb_prop in Ci. exact Ci.
    - unfold x. unfold C in Ci. apply orb_false_elim in Ci. destruct Ci as (-> & ->). right. ring. }
  apply (Rmult_le_reg_r (normsq n x)); [exact Nx|]. lra.
Qed.
(** Fiedler: if no weight exceeds one, e[1] is at most the number of vertices to remove to disconnect the graph. *)
Theorem C110_vertex_connectivity : forall G m e U A B, built G -> nonneg_weights G -> g_lap_type G = Combinatorial ->
  let n := g_n_vertices G in (1 < m)%nat -> exact_eig n (gL G) m e U ->
  (forall i j, (i < n)%nat -> (j < n)%nat -> i <> j -> wt G i j <= 1) ->
  separated G A B -> (0 < ncount n A)%nat -> (0 < ncount n B)%nat -> nth 1 e 0 <= INR (ncount n (fun j => negb (A j || B j))).
Proof.
  intros G m e U A B Hb Hp Ht n Hm1 HE HW HS HA HB. apply (C110_separators G m e U A B _ Hb Hp Ht Hm1 HE HS HA HB).
  intros i Hi _. unfold weight_to. fold n in Hi |- *. rewrite ncount_INR. apply rsum_le. intros j Hj. destruct (negb (A j || B j)); [|lra].
  destruct (Nat.eqb_spec j i); [lra|]. unfold mean_wt. pose proof (HW i j Hi Hj ltac:(auto)). pose proof (HW j i Hj Hi ltac:(auto)). lra.
Qed.

(** ** Mixing *)
(** On a graph whose vertices all have degree d, the weight between two sets differs from what their sizes suggest, d |S| |T| / n, by at
    most mu sqrt(|S| (1 - |S|/n) |T| (1 - |T|/n)), where mu bounds |d - e[k]| for k >= 1. *)
Theorem C110_mixing : forall G e U S T d mu, built G -> nonneg_weights G -> g_lap_type G = Combinatorial ->
  let n := g_n_vertices G in (1 < n)%nat -> exact_eig n (gL G) n e U -> (forall i, (i < n)%nat -> strength G i = d) ->
  (forall k, (1 <= k < n)%nat -> Rabs (d - nth k e 0) <= mu) ->
  let s := INR (ncount n S) in let t := INR (ncount n T) in
  Rabs (between G S T - d * (s * t / INR n)) <= mu * sqrt (s * (1 - s / INR n) * (t * (1 - t / INR n))).
Proof.
  intros G e U S T d mu Hb Hp Ht n Hn (Hl & Hm & e' & U' & HU & He & HUU) Hd Hmu s t.
  pose proof (lt_0_INR n ltac:(lia)) as P. destruct (C09_combinatorial_structure G Hb Ht) as (_ & R1 & _). fold n in R1.
  pose (x := fun i => (if S i then 1 else 0) - s / INR n). pose (y := fun i => (if T i then 1 else 0) - t / INR n).
  assert (Zx : rsum n x = 0).
  { unfold x. rewrite rsum_minus, <- ncount_INR. fold s. rewrite (rsum_const n (s / INR n)) by reflexivity. field. lra. }
  assert (Zy : rsum n y = 0).
  { unfold y. rewrite rsum_minus, <- ncount_INR. fold t. rewrite (rsum_const n (t / INR n)) by reflexivity. field. lra. }
  assert (Nx : normsq n x = s * (1 - s / INR n)).
  { unfold normsq, dot. rewrite (rsum_ext n _ (fun i => (1 - 2 * (s / INR n)) * (if S i then 1 else 0) + s / INR n * (s / INR n))) by (intros i Hi; unfold x; destruct (S i); ring).
    rewrite rsum_plus, rsum_scal_l, <- ncount_INR. fold s. rewrite (rsum_const n (s / INR n * (s / INR n))) by reflexivity. field. lra. }
  assert (Ny : normsq n y = t * (1 - t / INR n)).
  { unfold normsq, dot. rewrite (rsum_ext n _ (fun i => (1 - 2 * (t / INR n)) * (if T i then 1 else 0) + t / INR n * (t / INR n))) by (intros i Hi; unfold y; destruct (T i); ring).
    rewrite rsum_plus, rsum_scal_l, <- ncount_INR. fold t. rewrite (rsum_const n (t / INR n * (t / INR n))) by reflexivity. field. lra. }
  assert (Ly : forall i, (i < n)%nat -> mulv n (gL G) y i = d * (if T i then 1 else 0) - weight_to G i T).
  { intros i Hi. assert (E : mulv n (gL G) y i = mulv n (gL G) (fun j => if T j then 1 else 0) i).
    { unfold mulv, y. rewrite (rsum_ext n _ (fun j => gL G i j * (if T j then 1 else 0) - t / INR n * gL G i j)) by (intros; ring). rewrite rsum_minus, rsum_scal_l, R1 by exact Hi. ring. }
    rewrite E, (mulv_strength G _ i Hb Ht Hi), (Hd i Hi). fold n. f_equal. unfold weight_to. apply rsum_ext. intros j Hj. destruct (T j), (Nat.eqb j i); ring. }
  assert (Wt : \sum_(i < n) weight_to G i T = d * t).
  { assert (E : \sum_(i < n) mulv n (gL G) y i = 0).
    { unfold mulv. rewrite rsum_swap. apply rsum_0. intros j Hj. rewrite (rsum_ext n _ (fun i => y j * gL G j i)); [rewrite rsum_scal_l, R1 by exact Hj; ring|].
      intros i Hi. destruct (C09_combinatorial_structure G Hb Ht) as (S1 & _). pose proof (S1 i j Hi Hj) as E. unfold tr in E. rewrite <- E. ring. }
    rewrite (rsum_ext n _ (fun i => d * (if T i then 1 else 0) - weight_to G i T)) in E by exact Ly. rewrite rsum_minus, rsum_scal_l, <- ncount_INR in E. fold t in E. lra. }
  assert (Main : between G S T - d * (s * t / INR n) = d * dot n x y - dot n x (mulv n (gL G) y)).
  { unfold between. fold n. unfold dot. rewrite <- rsum_scal_l, <- rsum_minus.
    rewrite (rsum_ext n (fun i => d * (x i * y i) - x i * mulv n (gL G) y i) (fun i => (if S i then weight_to G i T else 0) - s / INR n * weight_to G i T - d * (t / INR n) * x i)).
    - rewrite !rsum_minus, !rsum_scal_l, Zx, Wt. field. lra.
    - intros i Hi. rewrite (Ly i Hi). unfold x, y. destruct (S i), (T i); ring. }
  rewrite Main, <- Nx, <- Ny.
  assert (Sp : d * dot n x y - dot n x (mulv n (gL G) y) = \sum_(k < n) ((d - e' k) * (coef n U' x k * coef n U' y k))).
  { rewrite <- (coef_dot n (gL G) e' U' HU x y), <- (coef_dot n (gL G) e' U' HU x (mulv n (gL G) y)). unfold dot. rewrite <- rsum_scal_l, <- rsum_minus. apply rsum_ext.
    intros k Hk. rewrite (coef_mulv n (gL G) e' U' HU y k Hk). ring. }
  assert (B : forall k, (k < n)%nat -> Rabs ((d - e' k) * (coef n U' x k * coef n U' y k)) <= mu * Rabs (coef n U' x k * coef n U' y k)).
  { intros k Hk. rewrite Rabs_mult. destruct (Nat.eq_dec k 0) as [->|Nk].
    - destruct (Rlt_dec 0 (e' 1%nat)) as [Q|Q].
      + pose proof (coef_constant G e' U' Hb Hp Ht HU Hn x Q Zx) as C0. fold n in C0. rewrite C0, Rmult_0_l, Rabs_R0. lra.
      + apply Rmult_le_compat_r; [apply Rabs_pos|]. pose proof (sorted_eigs G e' U' Hb Hp HU Hn 1 ltac:(lia)) as (Q1 & _).
        rewrite (first_eigenvalue_zero G e' U' Hb Hp ltac:(fold n; lia) HU). specialize (Hmu 1%nat ltac:(lia)). rewrite He in Hmu by lia. replace (e' 1%nat) with 0 in Hmu by lra. exact Hmu.
    - apply Rmult_le_compat_r; [apply Rabs_pos|]. specialize (Hmu k ltac:(lia)). rewrite He in Hmu by lia. exact Hmu. }
  assert (Mp : 0 <= mu) by (apply (Rle_trans _ _ _ (Rabs_pos _) (Hmu 1%nat ltac:(lia)))).
  rewrite Sp. apply (Rle_trans _ (\sum_(k < n) (mu * Rabs (coef n U' x k * coef n U' y k)))).
  - apply (Rle_trans _ (\sum_(k < n) Rabs ((d - e' k) * (coef n U' x k * coef n U' y k)))); [apply rsum_abs|apply rsum_le; exact B].
  - rewrite rsum_scal_l. apply Rmult_le_compat_l; [exact Mp|].
    rewrite <- (coef_normsq n (gL G) e' U' HU x), <- (coef_normsq n (gL G) e' U' HU y). unfold normsq, dot.
    apply Rsqr_incr_0_var; [|apply sqrt_pos]. rewrite Rsqr_sqrt.
    + rewrite (rsum_ext n (fun k => Rabs _) (fun k => Rabs (coef n U' x k) * Rabs (coef n U' y k))) by (intros; apply Rabs_mult).
      pose proof (rsum_cauchy_schwarz n (fun k => Rabs (coef n U' x k)) (fun k => Rabs (coef n U' y k))) as CS. unfold Rsqr.
      assert (A : forall z, Rabs z * Rabs z = z * z) by (intros z; rewrite <- Rabs_mult; apply Rabs_pos_eq, Rle_0_sqr).
      rewrite (rsum_ext n (fun k => coef n U' x k * coef n U' x k) (fun k => Rabs (coef n U' x k) * Rabs (coef n U' x k))) by (intros; symmetry; apply A).
      rewrite (rsum_ext n (fun k => coef n U' y k * coef n U' y k) (fun k => Rabs (coef n U' y k) * Rabs (coef n U' y k))) by (intros; symmetry; apply A).
      cbn in CS. lra.
    + apply Rmult_le_pos; apply rsum_nonneg; intros; apply Rle_0_sqr.
Qed.

(** On the star of 4 vertices (eigenvalues 0, 1, 1, 4) the bounds on the degree of the centre, on independent sets (the three leaves) and on
    separators (the centre) are attained. *)
Example C110_ex : exists G e U, Star 4 false Combinatorial = Ok G /\ built G /\ nonneg_weights G /\ g_lap_type G = Combinatorial /\ g_n_vertices G = 4%nat /\
  exact_eig 4 (gL G) 4 e U /\ nth 1 e 0 = 1 /\ nth 3 e 0 = 4 /\
  strength G 0 = 3 /\ INR 4 * strength G 0 = nth 3 e 0 * (INR 4 - 1) /\
  independent G (fun i => negb (Nat.eqb i 0)) /\ (forall i, (0 < i < 4)%nat -> strength G i = 1) /\
  INR (ncount 4 (fun i => negb (Nat.eqb i 0))) * nth 3 e 0 = INR 4 * (nth 3 e 0 - 1) /\
  proper_colouring G 2 (fun i => if Nat.eqb i 0 then 0%nat else 1%nat) /\
  separated G (fun i => Nat.eqb i 1) (fun i => Nat.ltb 1 i) /\ nth 1 e 0 = INR (ncount 4 (fun j => negb (Nat.eqb j 1 || Nat.ltb 1 j))).
Proof.
  destruct (C94_four) as (G & _ & e & U & _ & _ & EG & _ & (HS1 & HS2) & _ & He & _). cbn [v_N v_L v_e v_U] in HS1, HS2.
  destruct (C48_star 4 Combinatorial ltac:(lia) (or_introl eq_refl)) as (G' & EG' & HU & Hu & HC & _). rewrite EG in EG'. injection EG' as <-. pose proof HU as (Hb & Hn & Hw).
  destruct (star_lap 4 G ltac:(lia) EG) as (_ & Hp & _ & Ht & _). rewrite Hn in HS1, HS2.
  assert (HE : exact_eig 4 (gL G) 4 e U) by (apply list_exact; [lia|exact HS1|exact HS2]).
  assert (W : forall i j, (i < 4)%nat -> (j < 4)%nat -> wt G i j = if Bool.eqb (Nat.eqb i 0) (Nat.eqb j 0) then 0 else 1).
  { intros i j Hi Hj. destruct (Nat.eqb_spec i 0), (Nat.eqb_spec j 0); cbn [Bool.eqb]; apply (Hw i j Hi Hj); lia. }
  assert (M : forall i j, (i < 4)%nat -> (j < 4)%nat -> mean_wt G i j = if Bool.eqb (Nat.eqb i 0) (Nat.eqb j 0) then 0 else 1).
  { intros i j Hi Hj. unfold mean_wt. rewrite !W by assumption. destruct (Nat.eqb i 0), (Nat.eqb j 0); cbn [Bool.eqb]; field. }
  assert (S0 : strength G 0 = 3) by (unfold strength; rewrite Hn; unfold rsum; rewrite !M by lia; cbn; ring).
  assert (E1 : nth 1 e 0 = 1) by (rewrite (He 1%nat) by lia; reflexivity). assert (E3 : nth 3 e 0 = 4) by (rewrite (He 3%nat) by lia; reflexivity).
  exists G, e, U. split; [exact EG|]. split; [exact Hb|]. split; [exact Hp|]. split; [exact Ht|]. split; [exact Hn|]. split; [exact HE|]. split; [exact E1|]. split; [exact E3|].
  split; [exact S0|]. split; [rewrite S0, E3; cbn [INR]; ring|]. split; [|split; [|split; [|split; [|split]]]].
  - intros i j Hi Hj Ne Si Sj. rewrite Hn in Hi, Hj. rewrite W by assumption. destruct (Nat.eqb i 0), (Nat.eqb j 0); cbn in *; congruence.
  - intros i Hi. unfold strength. rewrite Hn. unfold rsum. rewrite !M by lia. destruct i as [|[|[|[|i]]]]; try lia; cbn; ring.
  - rewrite E3. cbn. lra.
  - split.
    + intros i Hi. destruct (Nat.eqb i 0); lia.
    + intros i j Hi Hj Ne N. rewrite Hn in Hi, Hj. rewrite W in N by assumption. destruct (Nat.eqb i 0), (Nat.eqb j 0); cbn in *; congruence.
  - intros i j Hi Hj Ai Bj. rewrite Hn in Hi, Hj. apply Nat.eqb_eq in Ai. apply Nat.ltb_lt in Bj. subst i. split; [lia|].
    rewrite !W by lia. destruct j; [lia|]. cbn. split; reflexivity.
  - rewrite E1. cbn. lra.
Qed.
(** On the full graph of 4 vertices every e[k] with k >= 1 is 4 = d + 1: the bound of C110_mixing with mu = 1 is attained by a vertex and itself. *)
Example C110_mixing_ex : exists G e U, FullConnected 4 Combinatorial = Ok G /\ built G /\ nonneg_weights G /\ g_lap_type G = Combinatorial /\ g_n_vertices G = 4%nat /\
  exact_eig 4 (gL G) 4 e U /\ (forall i, (i < 4)%nat -> strength G i = 3) /\ (forall k, (1 <= k < 4)%nat -> Rabs (3 - nth k e 0) <= 1) /\
  let S := fun i => Nat.eqb i 0 in Rabs (between G S S - 3 * (1 * 1 / INR 4)) = 3 / 4 /\ 1 * sqrt (1 * (1 - 1 / INR 4) * (1 * (1 - 1 / INR 4))) = 3 / 4.
Proof.
  destruct (C94_four) as (_ & G & _ & _ & e & U & _ & EG & _ & (HS1 & HS2) & _ & He). cbn [v_N v_L v_e v_U] in HS1, HS2.
  destruct (full_lap 4 G (fun _ => 0) 0 EG ltac:(lia)) as (Hb & Hp & HC & Ht & Hn & _). rewrite Hn in HS1, HS2.
  assert (HE : exact_eig 4 (gL G) 4 e U) by (apply list_exact; [lia|exact HS1|exact HS2]).
  destruct (C48_full 4 Combinatorial (or_introl eq_refl)) as (G' & EG' & (_ & _ & Hw) & _). rewrite EG in EG'. injection EG' as <-.
  assert (M : forall i j, (i < 4)%nat -> (j < 4)%nat -> i <> j -> mean_wt G i j = 1).
  { intros i j Hi Hj Ne. unfold mean_wt. rewrite (proj1 (Hw i j Hi Hj)), (proj1 (Hw j i Hj Hi)) by auto. field. }
  assert (St : forall i, (i < 4)%nat -> strength G i = 3).
  { intros i Hi. unfold strength. rewrite Hn. unfold rsum. destruct i as [|[|[|[|i]]]]; try lia; cbn [Nat.eqb]; rewrite !M by lia; ring. }
  exists G, e, U. split; [exact EG|]. split; [exact Hb|]. split; [exact Hp|]. split; [exact Ht|]. split; [exact Hn|]. split; [exact HE|]. split; [exact St|]. split; [|split].
  - intros k Hk. rewrite He by lia. destruct k as [|[|[|[|k]]]]; try lia; cbn [nth]; replace (3 - 4) with (-(1)) by ring; rewrite Rabs_Ropp, Rabs_R1; lra.
  - assert (B : between G (fun i => Nat.eqb i 0) (fun i => Nat.eqb i 0) = 0).
    { unfold between, weight_to. rewrite Hn. unfold rsum. cbn [Nat.eqb]. ring. }
    rewrite B. cbn [INR]. rewrite Rabs_left by lra. field.
  - replace (1 * (1 - 1 / INR 4) * (1 * (1 - 1 / INR 4))) with ((3 / 4) * (3 / 4)) by (cbn [INR]; field). rewrite sqrt_square by lra. ring.
Qed.
