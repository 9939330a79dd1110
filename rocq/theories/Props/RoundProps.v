(** C92: what rounding changes and what it cannot change. *)
From Coq Require Import Reals Lra Lia ZArith List Arith Bool String Permutation.
From Flocq Require Import Core Plus_error Relative.
From Coq Require Import List.
From Verif.Base Require Import RSum Prelude LinAlg Spectral.
From Verif.Spec Require Import Matrix GraphSpec Reach LapSpec CacheSpec Rounding.
From Verif.Model Require Import Sparse Graph Bounds Cache Utils Rounded.
From Verif.Proofs Require Import SparseFacts InitFacts EdgeFacts LapFacts BoundFacts SpectralFacts.
From Verif.Props Require Import Core Laplacian Traversal Caching MonotoneProps TightProps.
Import ListNotations.
Open Scope R_scope.
Open Scope list_scope.

(** ** Double precision is a rounding *)
Definition b64_exp := FLT_exp (-1074) 53.
Definition b64_format : R -> Prop := generic_format radix2 b64_exp.
Definition b64_round : R -> R := round radix2 b64_exp ZnearestE.
Lemma b64_valid : Valid_exp b64_exp.
Proof. apply FLT_exp_valid; reflexivity. Qed.
Lemma b64_rounding : rounding b64_format b64_round (/ 2 ^ 53).
Proof.
  pose proof b64_valid as V. assert (HP : Prec_gt_0 53) by exact eq_refl. constructor.
  - apply generic_format_0.
  - intros x. apply generic_format_opp.
  - intros x. apply generic_format_round; [exact V|apply valid_rnd_N].
  - intros x Hx. apply round_generic; [apply valid_rnd_N|exact Hx].
  - intros x y Hxy. apply round_le; [exact V|apply valid_rnd_N|exact Hxy].
  - left. apply Rinv_0_lt_compat, pow_lt. lra.
  - intros x y Hx Hy. destruct (FLT_plus_error_N_ex radix2 (-1074) 53 (fun z => negb (Z.even z)) x y Hx Hy) as (eps & He & E).
    assert (E' : b64_round (x + y) = (x + y) * (1 + eps)) by exact E. rewrite E'.
    replace ((x + y) * (1 + eps) - (x + y)) with (eps * (x + y)) by ring. rewrite Rabs_mult. apply Rmult_le_compat_r; [apply Rabs_pos|].
    eapply Rle_trans; [exact He|]. pose proof (u_ro_pos radix2 53) as P. 
    assert (U : u_ro radix2 53 = / 2 ^ 53). { unfold u_ro. rewrite bpow_powerRZ. change (IZR radix2) with 2. cbn [Z.add Z.opp Z.pos_sub powerRZ]. change (Pos.to_nat _) with 52%nat. simpl. lra. }
    rewrite U in *. apply (Rmult_le_reg_r (1 + / 2 ^ 53)); [lra|]. unfold Rdiv. rewrite Rmult_assoc, Rinv_l by lra. pose proof (Rmult_le_pos _ _ P P). lra.
Qed.

(** ** Sums *)
Section Sums.
Variables (F : R -> Prop) (rnd : R -> R) (u : R).
Hypothesis Hr : rounding F rnd u.
Lemma r_sum_in t f : (forall k, In k (leaves t) -> F (f k)) -> F (r_sum rnd t f).
Proof. intros H. destruct t as [k|a b]; [apply H; left; reflexivity|apply (r_in _ _ _ Hr)]. Qed.
Lemma r_sum_err t f : (forall k, In k (leaves t) -> F (f k)) ->
  Rabs (r_sum rnd t f - lsum (map f (leaves t))) <= ((1 + u) ^ (List.length (leaves t) - 1) - 1) * lsum (map (fun k => Rabs (f k)) (leaves t)).
Proof.
  intros H. pose proof (r_unit _ _ _ Hr) as U.
  assert (Pw : forall m, 1 <= (1 + u) ^ m) by (intros m; apply pow_R1_Rle; lra).
  assert (Mo : forall a b, (a <= b)%nat -> (1 + u) ^ a <= (1 + u) ^ b) by (intros a b L; apply Rle_pow; [lra|exact L]).
  assert (Pos : forall t', 0 <= lsum (map (fun k => Rabs (f k)) (leaves t'))) by (intros t'; apply lsum_map_nonneg; intros; apply Rabs_pos).
  assert (Le : forall t', Rabs (lsum (map f (leaves t'))) <= lsum (map (fun k => Rabs (f k)) (leaves t'))).
  { intros t'. induction (leaves t') as [|x l IH]; [cbn; rewrite Rabs_R0; lra|]. cbn [map lsum fold_right]. cbn. eapply Rle_trans; [apply Rabs_triang|]. apply Rplus_le_compat_l. exact IH. }
  assert (Ln : forall t', (1 <= List.length (leaves t'))%nat). { induction t' as [k|a IHa b IHb]; cbn [leaves]; [cbn; lia|rewrite app_length; lia]. }
  induction t as [k|a IHa b IHb].
  - cbn. replace (f k - (f k + 0)) with 0 by ring. rewrite Rabs_R0. ring_simplify. lra.
  - cbn [r_sum leaves]. rewrite !map_app, !lsum_app, app_length.
    assert (Ha : forall k, In k (leaves a) -> F (f k)) by (intros; apply H; cbn [leaves]; apply in_or_app; auto).
    assert (Hb : forall k, In k (leaves b) -> F (f k)) by (intros; apply H; cbn [leaves]; apply in_or_app; auto).
    specialize (IHa Ha). specialize (IHb Hb). pose proof (r_plus _ _ _ Hr _ _ (r_sum_in a f Ha) (r_sum_in b f Hb)) as E.
    pose proof (Pos a) as Pa. pose proof (Pos b) as Pb. pose proof (Le a) as La. pose proof (Le b) as Lb. pose proof (Ln a) as Na. pose proof (Ln b) as Nb.
    set (xa := r_sum rnd a f) in *. set (xb := r_sum rnd b f) in *. set (A := lsum (map f (leaves a))) in *. set (B := lsum (map f (leaves b))) in *.
    set (SA := lsum (map (fun k => Rabs (f k)) (leaves a))) in *. set (SB := lsum (map (fun k => Rabs (f k)) (leaves b))) in *.
    set (h := (List.length (leaves a) + List.length (leaves b) - 1)%nat).
    assert (Eh : (1 + u) ^ h = (1 + u) * (1 + u) ^ (h - 1)). { replace h with (S (h - 1)) at 1 by (unfold h; lia). reflexivity. }
    set (g := (1 + u) ^ (h - 1)) in *. assert (G1 : 1 <= g) by apply Pw.
    assert (Ga : (1 + u) ^ (List.length (leaves a) - 1) <= g) by (apply Mo; unfold h; lia).
    assert (Gb : (1 + u) ^ (List.length (leaves b) - 1) <= g) by (apply Mo; unfold h; lia).
    assert (Ia : Rabs (xa - A) <= (g - 1) * SA) by (eapply Rle_trans; [exact IHa|apply Rmult_le_compat_r; [exact Pa|lra]]).
    assert (Ib : Rabs (xb - B) <= (g - 1) * SB) by (eapply Rle_trans; [exact IHb|apply Rmult_le_compat_r; [exact Pb|lra]]).
    assert (Dab : Rabs (xa + xb - (A + B)) <= (g - 1) * (SA + SB)).
    { replace (xa + xb - (A + B)) with ((xa - A) + (xb - B)) by ring. eapply Rle_trans; [apply Rabs_triang|]. lra. }
    assert (Sab : Rabs (xa + xb) <= g * (SA + SB)).
    { replace (xa + xb) with ((xa + xb - (A + B)) + (A + B)) by ring. eapply Rle_trans; [apply Rabs_triang|]. pose proof (Rabs_triang A B). lra. }
    replace (rnd (xa + xb) - (A + B)) with ((rnd (xa + xb) - (xa + xb)) + (xa + xb - (A + B))) by ring.
    eapply Rle_trans; [apply Rabs_triang|]. rewrite Eh.
    assert (E2 : u * Rabs (xa + xb) <= u * (g * (SA + SB))) by (apply Rmult_le_compat_l; assumption).
    replace (((1 + u) * g - 1) * (SA + SB)) with (u * (g * (SA + SB)) + (g - 1) * (SA + SB)) by ring. lra.
Qed.
Lemma r_sum_ge t f : (forall k, In k (leaves t) -> F (f k)) -> (forall k, In k (leaves t) -> 0 <= f k) -> forall k, In k (leaves t) -> f k <= r_sum rnd t f.
Proof.
  induction t as [k|a IHa b IHb]; intros HF H0 j Hj; [destruct Hj as [<-|[]]; cbn; lra|]. cbn [r_sum leaves] in *.
  assert (HFa : forall k, In k (leaves a) -> F (f k)) by (intros; apply HF, in_or_app; auto). assert (HFb : forall k, In k (leaves b) -> F (f k)) by (intros; apply HF, in_or_app; auto).
  assert (H0a : forall k, In k (leaves a) -> 0 <= f k) by (intros; apply H0, in_or_app; auto). assert (H0b : forall k, In k (leaves b) -> 0 <= f k) by (intros; apply H0, in_or_app; auto).
  specialize (IHa HFa H0a). specialize (IHb HFb H0b).
  assert (Pos : forall t', exists k, In k (leaves t')). { induction t' as [k|c (k & Hk) d _]; [exists k; left; reflexivity|exists k; cbn; apply in_or_app; auto]. }
  assert (Pa : 0 <= r_sum rnd a f) by (destruct (Pos a) as (k & Hk); specialize (IHa k Hk); specialize (H0a k Hk); lra).
  assert (Pb : 0 <= r_sum rnd b f) by (destruct (Pos b) as (k & Hk); specialize (IHb k Hk); specialize (H0b k Hk); lra).
  apply in_app_or in Hj. destruct Hj as [Hj|Hj].
  - eapply Rle_trans; [apply IHa; exact Hj|]. rewrite <- (r_id _ _ _ Hr (r_sum rnd a f) (r_sum_in a f HFa)) at 1. apply (r_mono _ _ _ Hr). lra.
  - eapply Rle_trans; [apply IHb; exact Hj|]. rewrite <- (r_id _ _ _ Hr (r_sum rnd b f) (r_sum_in b f HFb)) at 1. apply (r_mono _ _ _ Hr). lra.
Qed.
End Sums.

(** ** Symmetry is exact *)
(** Every symmetrization gives an exactly symmetric matrix, so that graphs built from it are undirected. *)
Theorem C92_symmetrize_is_exactly_symmetric : forall F rnd u W method M, rounding F rnd u -> (forall i j, F (m_get W i j)) ->
  r_symmetrize rnd W method = Ok M -> forall i j, M i j = M j i.
Proof.
  intros F rnd u W method M Hr HF H. unfold r_symmetrize in H. destruct (negb _); [discriminate|].
  assert (Av : forall V i j, r_average rnd V i j = r_average rnd V j i) by (intros V i j; unfold r_average; rewrite (Rplus_comm (V j i)); reflexivity).
  assert (Mx : forall sp V, (forall i j, F (V i j)) -> forall i j, r_maximum rnd sp V i j = r_maximum rnd sp V j i).
  { intros sp V HV i j. unfold r_maximum. destruct sp; [|apply Rmax_comm].
    pose proof (r_id _ _ _ Hr _ (HV i j)) as E1. pose proof (r_id _ _ _ Hr _ (HV j i)) as E2. pose proof (r_id _ _ _ Hr _ (r_zero _ _ _ Hr)) as E0.
    destruct (Rltb_spec (V i j) (V j i)) as [L|L]; destruct (Rltb_spec (V j i) (V i j)) as [L'|L']; try lra;
      rewrite ?Rminus_eq_0, ?Rminus_0_r, ?E0, ?E1, ?E2, ?Rplus_0_l, ?Rplus_0_r, ?E1, ?E2; lra. }
  assert (Ft : forall i j, F (tril (m_get W) i j)) by (intros i j; unfold tril; destruct (Nat.leb j i); [apply HF|apply (r_zero _ _ _ Hr)]).
  assert (Fu : forall i j, F (triu (m_get W) i j)) by (intros i j; unfold triu; destruct (Nat.leb i j); [apply HF|apply (r_zero _ _ _ Hr)]).
  repeat match type of H with (if ?b then _ else _) = _ => destruct b end; injection H as <- || discriminate H; intros i j; try apply Av; apply Mx; assumption.
Qed.

(** So is the combinatorial Laplacian of any graph, directed or not, in whatever order the sums are computed. *)
Theorem C92_laplacian_is_exactly_symmetric : forall rnd tin tout G i j, built G -> (i < g_n_vertices G)%nat -> (j < g_n_vertices G)%nat ->
  r_lap_comb rnd tin tout (gW G) i j = r_lap_comb rnd tin tout (gW G) j i.
Proof.
  intros rnd tin tout G i j Hb Hi Hj. rewrite (tp_n G Hb) in Hi, Hj. unfold r_lap_comb. rewrite (Nat.eqb_sym j i). destruct (Nat.eqb_spec i j) as [->|Hne]; [reflexivity|].
  destruct (is_directed (gW G)) eqn:E; [unfold r_average; rewrite (Rplus_comm (get (gW G) j i)); reflexivity|].
  rewrite (proj1 (is_directed_false (gW G)) E i j) by assumption. reflexivity.
Qed.

(** ** How far the rounded Laplacian is from the exact one *)
Definition sums_all (n : nat) (t : nat -> sumtree) : Prop := forall i, (i < n)%nat -> Permutation (leaves (t i)) (seq 0 n).

Section Undirected.
Variables (F : R -> Prop) (rnd : R -> R) (u : R) (tin tout : nat -> sumtree) (G : graph).
Hypothesis Hr : rounding F rnd u.
Hypothesis Hb : built G.
Hypothesis Hp : nonneg_weights G.
Hypothesis Hu : undirected G.
Hypothesis Ht : g_lap_type G = Combinatorial.
Hypothesis HF : forall i j, (i < g_n_vertices G)%nat -> (j < g_n_vertices G)%nat -> F (wt G i j).
Hypothesis Hs : sums_all (g_n_vertices G) tin.
Let n := g_n_vertices G.
Let Lh := r_lap_comb rnd tin tout (gW G).
Lemma und_dir : is_directed (gW G) = false.
Proof. destruct (is_directed (gW G)) eqn:E; [|reflexivity]. exfalso. apply (C03_is_directed_iff_not_symmetric G Hb) in E. contradiction. Qed.
Lemma r_dw_err i : (i < n)%nat -> F (r_dw rnd tin tout (gW G) i) /\ Rabs (r_dw rnd tin tout (gW G) i - dw (gW G) i) <= ((1 + u) ^ (n - 1) - 1) * dw (gW G) i.
Proof.
  intros Hi. unfold r_dw. rewrite und_dir. pose proof (Hs i Hi) as P. fold n in P.
  assert (HFl : forall k, In k (leaves (tin i)) -> F (get (gW G) k i)).
  { intros k Hk. apply HF; [|exact Hi]. eapply Permutation_in in Hk; [|exact P]. apply in_seq in Hk. fold n. lia. }
  split; [apply (r_sum_in F rnd u Hr); exact HFl|].
  pose proof (r_sum_err F rnd u Hr (tin i) (fun k => get (gW G) k i) HFl) as E.
  rewrite (Permutation_length P), seq_length in E. rewrite (lsum_perm _ _ (Permutation_map _ P)) in E. rewrite (lsum_perm _ _ (Permutation_map (fun k => Rabs (get (gW G) k i)) P)) in E. rewrite !lsum_map_seq0 in E.
  assert (D : dw (gW G) i = \sum_(k < n) get (gW G) k i).
  { destruct (C08_weighted_degree G i Hb Hi) as (_ & D). rewrite (D Hu). apply rsum_ext. intros k Hk. unfold wt. apply Hu; assumption. }
  rewrite (rsum_ext n (fun k => Rabs (get (gW G) k i)) (fun k => get (gW G) k i)) in E by (intros k Hk; apply Rabs_pos_eq, Hp; assumption).
  change (fun k : nat => get (gW G) k i) with (fun k : nat => get (gW G) k i) in E. rewrite D. exact E.
Qed.
Lemma dw_ge_loop i : (i < n)%nat -> 0 <= wt G i i <= dw (gW G) i.
Proof.
  intros Hi. split; [apply Hp; assumption|]. destruct (C08_weighted_degree G i Hb Hi) as (_ & D). rewrite (D Hu).
  apply (rsum_ge_term n (fun j => wt G i j)); [|exact Hi]. intros j Hj. apply Hp; assumption.
Qed.
Lemma Lh_off i j : (i < n)%nat -> (j < n)%nat -> i <> j -> Lh i j = - wt G i j.
Proof.
  intros Hi Hj Hne. unfold Lh, r_lap_comb. rewrite und_dir. destruct (Nat.eqb_spec i j); [contradiction|]. unfold wt. rewrite Rminus_0_l. apply (r_id _ _ _ Hr), (r_opp _ _ _ Hr), HF; assumption.
Qed.
Lemma Lh_diag i : (i < n)%nat -> Rabs (Lh i i - gL G i i) <= ((1 + u) ^ n - 1) * dw (gW G) i.
Proof.
  intros Hi. destruct (r_dw_err i Hi) as (Fd & E). pose proof (dw_ge_loop i Hi) as (W0 & W1). pose proof (r_unit _ _ _ Hr) as U.
  unfold Lh, r_lap_comb. rewrite und_dir, Nat.eqb_refl. rewrite (built_comb G Hb Ht), lap_comb_diag by (try apply (tp_good G Hb); rewrite <- (tp_n G Hb); exact Hi).
  change (get (gW G) i i) with (wt G i i). set (x := r_dw rnd tin tout (gW G) i) in *. set (d := dw (gW G) i) in *. set (w := wt G i i) in *.
  pose proof (r_plus _ _ _ Hr x (- w) Fd (r_opp _ _ _ Hr _ (HF i i Hi Hi))) as Q. fold (x - w) in Q. change (x + - w) with (x - w) in Q.
  assert (Eg : (1 + u) ^ n = (1 + u) * (1 + u) ^ (n - 1)). { replace n with (S (n - 1)) at 1 by lia. reflexivity. }
  set (g := (1 + u) ^ (n - 1)) in *. assert (G1 : 1 <= g) by (apply pow_R1_Rle; lra).
  assert (A : Rabs (x - w) <= g * d).
  { replace (x - w) with ((x - d) + (d - w)) by ring. eapply Rle_trans; [apply Rabs_triang|]. rewrite (Rabs_pos_eq (d - w)) by lra. lra. }
  replace (rnd (x - w) - (d - w)) with ((rnd (x - w) - (x - w)) + (x - d)) by ring. eapply Rle_trans; [apply Rabs_triang|]. rewrite Eg.
  assert (u * Rabs (x - w) <= u * (g * d)) by (apply Rmult_le_compat_l; assumption).
  replace (((1 + u) * g - 1) * d) with (u * (g * d) + (g - 1) * d) by ring. lra.
Qed.
Lemma Lh_quad x : Rabs (quad n Lh x - quad n (gL G) x) <= ((1 + u) ^ n - 1) * \sum_(i < n) (dw (gW G) i * (x i * x i)).
Proof.
  assert (E : quad n Lh x - quad n (gL G) x = \sum_(i < n) ((Lh i i - gL G i i) * (x i * x i))).
  { unfold quad, dot, mulv. rewrite <- rsum_minus. apply rsum_ext. intros i Hi. rewrite <- Rmult_minus_distr_l, <- rsum_minus.
    rewrite (rsum_single n (fun j => Lh i j * x j - gL G i j * x j) i Hi); [ring|].
    intros j Hj Hne. rewrite Lh_off by auto. rewrite (built_comb G Hb Ht), lap_comb_entry by (try apply (tp_good G Hb); try (rewrite <- (tp_n G Hb)); auto).
    change (get (gW G) j i) with (wt G j i). rewrite (Hu j i Hj Hi). unfold wt. field. }
  rewrite E. rewrite <- rsum_scal_l. eapply Rle_trans; [apply rsum_abs|]. apply rsum_le; intros i Hi.
  rewrite Rabs_mult, (Rabs_pos_eq (x i * x i)) by apply Rle_0_sqr.
  replace (((1 + u) ^ n - 1) * (dw (gW G) i * (x i * x i))) with (((1 + u) ^ n - 1) * dw (gW G) i * (x i * x i)) by ring. apply Rmult_le_compat_r; [apply Rle_0_sqr|apply Lh_diag; exact Hi].
Qed.
Lemma Lh_diag_nonneg i : (i < n)%nat -> 0 <= Lh i i.
Proof.
  intros Hi. unfold Lh, r_lap_comb. rewrite und_dir, Nat.eqb_refl. rewrite <- (r_id _ _ _ Hr 0 (r_zero _ _ _ Hr)). apply (r_mono _ _ _ Hr).
  unfold r_dw. rewrite und_dir. pose proof (Hs i Hi) as P. fold n in P.
  assert (Hl : forall k, In k (leaves (tin i)) -> (k < n)%nat) by (intros k Hk; eapply Permutation_in in Hk; [|exact P]; apply in_seq in Hk; lia).
  pose proof (r_sum_ge F rnd u Hr (tin i) (fun j => get (gW G) j i)) as Q. cbv beta in Q. specialize (Q ltac:(intros k Hk; apply HF; [apply Hl; exact Hk|exact Hi])).
  specialize (Q ltac:(intros k Hk; apply Hp; [apply Hl; exact Hk|exact Hi]) i). cut (get (gW G) i i <= r_sum rnd (tin i) (fun j => get (gW G) j i)); [lra|]. apply Q.
  apply (Permutation_in _ (Permutation_sym P)), in_seq. lia.
Qed.
End Undirected.

Lemma eigh_shift n A e U c : eigh_ok n A e U -> eigh_ok n (fun i j => A i j + (if Nat.eqb i j then c else 0)) (fun k => e k + c) U.
Proof.
  intros H. constructor; [apply (eigh_cols _ _ _ _ H)|apply (eigh_rows _ _ _ _ H)| |].
  - intros i k Hi Hk. pose proof (eigh_eig _ _ _ _ H i k Hi Hk) as E. unfold mulv in *. rewrite (rsum_ext n _ (fun j => A i j * U j k + (if Nat.eqb i j then c * U j k else 0))) by (intros j Hj; destruct (Nat.eqb i j); ring).
    rewrite rsum_plus, E. rewrite (rsum_single n (fun j => if Nat.eqb i j then c * U j k else 0) i Hi); [rewrite Nat.eqb_refl; ring|]. intros j Hj Hne. destruct (Nat.eqb_spec i j); [congruence|reflexivity].
  - intros k l Hkl Hl. pose proof (eigh_sort _ _ _ _ H k l Hkl Hl). lra.
Qed.
Lemma quad_shift n A c x : quad n (fun i j => A i j + (if Nat.eqb i j then c else 0)) x = quad n A x + c * normsq n x.
Proof.
  unfold quad, normsq, dot, mulv. rewrite <- rsum_scal_l, <- rsum_plus. apply rsum_ext. intros i Hi.
  rewrite (rsum_ext n _ (fun j => A i j * x j + (if Nat.eqb i j then c * x j else 0))) by (intros j Hj; destruct (Nat.eqb i j); ring).
  rewrite rsum_plus, (rsum_single n (fun j => if Nat.eqb i j then c * x j else 0) i Hi); [rewrite Nat.eqb_refl; ring|]. intros j Hj Hne. destruct (Nat.eqb_spec i j); [congruence|reflexivity].
Qed.
(** Matrices whose quadratic forms are within c of each other have eigenvalues within c of each other. *)
Lemma eigh_close n A B e U f V c : eigh_ok n A e U -> eigh_ok n B f V -> (forall x, Rabs (quad n A x - quad n B x) <= c * normsq n x) ->
  forall k, (k < n)%nat -> Rabs (e k - f k) <= c.
Proof.
  intros HA HB HQ k Hk.
  pose proof (eigh_weyl n A _ e U _ V 0 (fun _ _ => 0) k HA (eigh_shift n B f V c HB)) as H1.
  pose proof (eigh_weyl n B _ f V _ U 0 (fun _ _ => 0) k HB (eigh_shift n A e U c HA)) as H2. rewrite Nat.add_0_r in H1, H2.
  assert (Q1 : e k <= f k + c). { apply H1; [|exact Hk]. intros x _. rewrite quad_shift. specialize (HQ x). pose proof (Rle_abs (quad n A x - quad n B x)). lra. }
  assert (Q2 : f k <= e k + c). { apply H2; [|exact Hk]. intros x _. rewrite quad_shift. specialize (HQ x). pose proof (Rle_abs (- (quad n A x - quad n B x))) as P. rewrite Rabs_Ropp in P. lra. }
  apply Rabs_le. lra.
Qed.

(** The Laplacian of an undirected graph: every entry off the diagonal is exact, the diagonal is off by at most the rounding of the
    additions, and so are the quadratic form, the row sums and every eigenvalue. *)
Theorem C92_laplacian_error : forall F rnd u tin tout G, rounding F rnd u -> built G -> nonneg_weights G -> undirected G -> g_lap_type G = Combinatorial ->
  (forall i j, (i < g_n_vertices G)%nat -> (j < g_n_vertices G)%nat -> F (wt G i j)) -> sums_all (g_n_vertices G) tin ->
  let n := g_n_vertices G in let L := gL G in let L' := r_lap_comb rnd tin tout (gW G) in let d := dw (gW G) in
  (forall i j, (i < n)%nat -> (j < n)%nat -> i <> j -> L' i j = L i j) /\
  (forall i, (i < n)%nat -> Rabs (L' i i - L i i) <= ((1 + u) ^ n - 1) * d i) /\
  (forall i, (i < n)%nat -> Rabs (\sum_(j < n) L' i j) <= ((1 + u) ^ n - 1) * d i) /\
  (forall x, Rabs (quad n L' x - quad n L x) <= ((1 + u) ^ n - 1) * \sum_(i < n) (d i * (x i * x i))) /\
  (forall e U e' U' M, eigh_ok n L e U -> eigh_ok n L' e' U' -> (forall i, (i < n)%nat -> d i <= M) ->
     forall k, (k < n)%nat -> Rabs (e' k - e k) <= ((1 + u) ^ n - 1) * M).
Proof.
  intros F rnd u tin tout G Hr Hb Hp Hu Ht HF Hs n L L' d.
  assert (Off : forall i j, (i < n)%nat -> (j < n)%nat -> i <> j -> L' i j = L i j).
  { intros i j Hi Hj Hne. unfold L'. rewrite (Lh_off F rnd u tin tout G Hr Hb Hu HF i j Hi Hj Hne). unfold L. rewrite (built_comb G Hb Ht), lap_comb_entry by (try apply (tp_good G Hb); try (rewrite <- (tp_n G Hb)); auto).
    change (get (gW G) j i) with (wt G j i). rewrite (Hu j i Hj Hi). unfold wt. field. }
  pose proof (Lh_diag F rnd u tin tout G Hr Hb Hp Hu Ht HF Hs) as Di. pose proof (Lh_quad F rnd u tin tout G Hr Hb Hp Hu Ht HF Hs) as Qu. fold n L L' d in Di. fold n L L' in Qu.
  assert (G1 : 0 <= (1 + u) ^ n - 1). { pose proof (r_unit _ _ _ Hr). pose proof (pow_R1_Rle (1 + u) n). lra. }
  split; [exact Off|]. split; [exact Di|]. split; [|split; [exact Qu|]].
  - intros i Hi. assert (Z : \sum_(j < n) L i j = 0). { unfold L, n. rewrite (tp_n G Hb), (built_comb G Hb Ht). apply lap_comb_row_sum; [apply (tp_good G Hb)|rewrite <- (tp_n G Hb); exact Hi]. }
    replace (\sum_(j < n) L' i j) with (L' i i - L i i); [apply Di; exact Hi|].
    assert (E : \sum_(j < n) L' i j - \sum_(j < n) L i j = L' i i - L i i).
    { rewrite <- rsum_minus. rewrite (rsum_single n (fun j => L' i j - L i j) i Hi); [reflexivity|]. intros j Hj Hne. rewrite Off by auto. ring. }
    rewrite Z in E. lra.
  - intros e U e' U' M He He' HM. apply (eigh_close n L' L e' U' e U); [exact He'|exact He|]. intros x. eapply Rle_trans; [apply Qu|].
    rewrite Rmult_assoc. apply Rmult_le_compat_l; [exact G1|]. unfold normsq, dot. rewrite <- rsum_scal_l. apply rsum_le; intros i Hi. apply Rmult_le_compat_r; [apply Rle_0_sqr|apply HM; exact Hi].
Qed.

(** ** The checks of compute_fourier_basis *)
Lemma sum_unit n (f : nat -> R) i : (i < n)%nat -> \sum_(k < n) (f k * unitv i k) = f i.
Proof. intros Hi. rewrite (rsum_single n (fun k => f k * unitv i k) i Hi); unfold unitv; [rewrite Nat.eqb_refl; ring|]. intros k Hk Hne. destruct (Nat.eqb_spec k i); [contradiction|ring]. Qed.
Lemma quad_two n A i j a b : (i < n)%nat -> (j < n)%nat ->
  quad n A (fun k => a * unitv i k + b * unitv j k) = a * (a * A i i + b * A i j) + b * (a * A j i + b * A j j).
Proof.
  intros Hi Hj. assert (M : forall k, mulv n A (fun k => a * unitv i k + b * unitv j k) k = a * A k i + b * A k j).
  { intros k. unfold mulv. rewrite (rsum_ext n _ (fun l => (a * A k l) * unitv i l + (b * A k l) * unitv j l)) by (intros; ring). rewrite rsum_plus.
    rewrite (sum_unit n (fun l => a * A k l) i Hi), (sum_unit n (fun l => b * A k l) j Hj). reflexivity. }
  unfold quad, dot. rewrite (rsum_ext n _ (fun k => (a * (a * A k i + b * A k j)) * unitv i k + (b * (a * A k i + b * A k j)) * unitv j k)) by (intros k Hk; rewrite M; ring).
  rewrite rsum_plus. rewrite (sum_unit n (fun k => a * (a * A k i + b * A k j)) i Hi), (sum_unit n (fun k => b * (a * A k i + b * A k j)) j Hj). ring.
Qed.
Lemma normsq_two n i j a b : (i < n)%nat -> (j < n)%nat -> i <> j -> normsq n (fun k => a * unitv i k + b * unitv j k) = a * a + b * b.
Proof.
  intros Hi Hj Hne. unfold normsq, dot. rewrite (rsum_ext n _ (fun k => (a * (a * unitv i k + b * unitv j k)) * unitv i k + (b * (a * unitv i k + b * unitv j k)) * unitv j k)) by (intros; ring).
  rewrite rsum_plus, (sum_unit n (fun k => a * (a * unitv i k + b * unitv j k)) i Hi), (sum_unit n (fun k => b * (a * unitv i k + b * unitv j k)) j Hj).
  unfold unitv. rewrite !Nat.eqb_refl. destruct (Nat.eqb_spec i j); [contradiction|]. destruct (Nat.eqb_spec j i); [congruence|]. ring.
Qed.
(** The eigensolver is given the rounded Laplacian and its answer is exact for a matrix that is at most [delta] away from it (0 for
    an exact one; LAPACK is backward stable).  The two assertions then hold as long as the rounding errors stay below 1e-5, which
    for double precision is so for n max(dw) up to 4e10.  (The upper bound of the second assertion is not rounded.) *)
Theorem C92_fourier_basis_accepted : forall F rnd u tin tout G M delta A e U, rounding F rnd u -> built G -> nonneg_weights G -> undirected G -> g_lap_type G = Combinatorial ->
  (forall i j, (i < g_n_vertices G)%nat -> (j < g_n_vertices G)%nat -> F (wt G i j)) -> sums_all (g_n_vertices G) tin -> (0 < g_n_vertices G)%nat ->
  let n := g_n_vertices G in
  (forall i, (i < n)%nat -> dw (gW G) i <= M) -> ((1 + u) ^ n - 1) * M + delta < / 10 ^ 5 ->
  delta = 0 \/ (exists i j, (i < n)%nat /\ (j < n)%nat /\ i <> j /\ delta <= wt G i j) ->
  (forall x, Rabs (quad n A x - quad n (r_lap_comb rnd tin tout (gW G)) x) <= delta * normsq n x) ->
  eigh_ok n A (fun k => nth k e 0) U -> List.length e = n ->
  exists s, compute_fourier_basis None (EigOk e U) (cache_init G) = (s, Ok tt) /\ c_basis s = Some (0 :: tl e, U).
Proof.
  intros F rnd u tin tout G M delta A e U Hr Hb Hp Hu Ht HF Hs Hn n HM Hsm Hdel HA He Hlen.
  set (L' := r_lap_comb rnd tin tout (gW G)) in *.
  destruct (spectral_theorem n (gL G)) as (e0 & U0 & He0). { unfold n. rewrite (tp_n G Hb), (built_comb G Hb Ht). apply lap_comb_sym, (tp_good G Hb). }
  assert (G1 : 0 <= (1 + u) ^ n - 1). { pose proof (r_unit _ _ _ Hr). pose proof (pow_R1_Rle (1 + u) n). lra. }
  assert (Cl : forall k, (k < n)%nat -> Rabs (nth k e 0 - e0 k) < / 10 ^ 5).
  { intros k Hk. eapply Rle_lt_trans; [|exact Hsm]. apply (eigh_close n A (gL G) (fun k => nth k e 0) U e0 U0); [exact He|exact He0| |exact Hk].
    intros x. pose proof (HA x) as H1. pose proof (Lh_quad F rnd u tin tout G Hr Hb Hp Hu Ht HF Hs x) as H2. fold n L' in H2.
    assert (H3 : ((1 + u) ^ n - 1) * (\sum_(i < n) (dw (gW G) i * (x i * x i))) <= ((1 + u) ^ n - 1) * M * normsq n x).
    { rewrite Rmult_assoc. apply Rmult_le_compat_l; [exact G1|]. unfold normsq, dot. rewrite <- rsum_scal_l. apply rsum_le; intros i Hi. apply Rmult_le_compat_r; [apply Rle_0_sqr|apply HM; exact Hi]. }
    replace (quad n A x - quad n (gL G) x) with ((quad n A x - quad n L' x) + (quad n L' x - quad n (gL G) x)) by ring. eapply Rle_trans; [apply Rabs_triang|]. lra. }
  assert (Z0 : e0 0%nat = 0) by (apply (first_eigenvalue_zero G e0 U0 Hb Hp Hn); exact He0).
  assert (Top : 0 <= nth (n - 1) e 0).
  { assert (B : forall x, quad n A x <= nth (n - 1) e 0 * normsq n x) by (intros x; apply (eigh_quad_le n A _ U He); intros k Hk; apply (eigh_sort _ _ _ _ He k (n - 1)%nat); lia).
    pose proof (Lh_diag_nonneg F rnd u tin tout G Hr Hb Hp Hu HF Hs) as Dg. fold n L' in Dg. destruct Hdel as [E0|(i & j & Hi & Hj & Hne & Hd)].
    - rewrite E0 in HA. set (x := unitv 0). assert (Ex : normsq n x = 1) by (unfold normsq, dot, x; rewrite (sum_unit n (unitv 0) 0 Hn); reflexivity).
      specialize (B x). specialize (HA x). rewrite Rmult_0_l in HA. assert (Q : quad n A x = quad n L' x). { pose proof (Rabs_pos (quad n A x - quad n L' x)) as P. assert (R0 : Rabs (quad n A x - quad n L' x) = 0) by lra. destruct (Req_dec (quad n A x - quad n L' x) 0) as [E|E]; [lra|]. exfalso. apply (Rabs_no_R0 _ E R0). }
      assert (Qx : quad n L' x = L' 0%nat 0%nat). { replace (quad n L' x) with (quad n L' (fun k => 1 * unitv 0 k + 0 * unitv 0 k)); [rewrite quad_two by exact Hn; ring|]. unfold quad, dot, mulv. apply rsum_ext. intros k Hk. f_equal; [unfold x; ring|]. apply rsum_ext. intros l Hl. unfold x. ring. }
      specialize (Dg 0%nat Hn). rewrite Ex in B. lra.
    - set (x := fun k => 1 * unitv i k + -1 * unitv j k). specialize (B x). specialize (HA x). unfold x in B, HA. rewrite normsq_two in B, HA by assumption. fold x in B, HA.
      assert (Qx : quad n L' x = L' i i + L' j j + 2 * wt G i j).
      { unfold x. rewrite quad_two by assumption. unfold L'. rewrite (Lh_off F rnd u tin tout G Hr Hb Hu HF i j Hi Hj Hne), (Lh_off F rnd u tin tout G Hr Hb Hu HF j i Hj Hi) by auto. rewrite (Hu j i Hj Hi). ring. }
      pose proof (Dg i Hi). pose proof (Dg j Hj). pose proof (Rle_abs (- (quad n A x - quad n L' x))) as P. rewrite Rabs_Ropp in P. lra. }
  destruct e as [|a es]; [cbn in Hlen; lia|]. pose proof (Cl 0%nat Hn) as C0. cbn [nth] in C0. rewrite Z0, Rminus_0_r in C0. apply Rabs_def2 in C0. destruct C0 as (C1 & C2).
  unfold compute_fourier_basis. cbn [c_basis cache_init c_N]. 
  replace (Rltb (- / 10 ^ 5) a && Rltb a (/ 10 ^ 5))%bool with true by (symmetry; apply andb_true_intro; split; apply Rltb_true; assumption).
  destruct (C14_upper_bound_is_upper_bound G Hb Hp Hn) as (r & Er & Hrr). change (upper_bound (c_W (cache_init G)) (c_lap (cache_init G))) with (upper_bound (gW G) (g_lap_type G)). rewrite Er.
  assert (Hlast : last (0 :: es) 0 = if Nat.eqb n 1 then 0 else nth (n - 1) (a :: es) 0).
  { rewrite last_nth. cbn [List.length] in *. destruct (Nat.eqb_spec n 1) as [E|E]; [replace (S (List.length es) - 1)%nat with 0%nat by lia; reflexivity|]. rewrite Hlen. destruct (n - 1)%nat eqn:E2; [lia|reflexivity]. }
  assert (Hl0 : 0 <= last (0 :: es) 0) by (rewrite Hlast; destruct (Nat.eqb n 1); [lra|exact Top]).
  assert (E2 : fle (last (0 :: es) 0) (xadd (Fin r) (Fin (/ 10 ^ 5))) = true).
  { cbn [xadd fle]. apply Rleb_true. pose proof (Hrr _ _ (eigh_eigenpair n (gL G) e0 U0 He0 (n - 1)%nat ltac:(lia))) as R1. pose proof (Hrr _ _ (eigh_eigenpair n (gL G) e0 U0 He0 0%nat Hn)) as R0. rewrite Z0 in R0.
    assert (0 < / 10 ^ 5) by (apply Rinv_0_lt_compat; lra). rewrite Hlast. destruct (Nat.eqb n 1); [lra|].
    pose proof (Cl (n - 1)%nat ltac:(lia)) as C. apply Rabs_def2 in C. lra. }
  rewrite E2.
  assert (E3 : forallb (fun x => Rleb x (last (0 :: es) 0)) (0 :: es) = true).
  { apply forallb_forall. intros x Hx. apply Rleb_true. destruct Hx as [<-|Hx]; [exact Hl0|]. rewrite Hlast. destruct (In_nth _ _ 0 Hx) as (i & Hi & <-). cbn [List.length] in Hlen.
    destruct (Nat.eqb_spec n 1) as [E|E]; [lia|]. change (nth i es 0) with (nth (S i) (a :: es) 0). apply (eigh_sort _ _ _ _ He (S i) (n - 1)%nat); lia. }
  rewrite E3. fold n. rewrite Nat.eqb_refl. eexists. split; reflexivity.
Qed.

Lemma pow_small u n : 0 <= u -> 2 * INR n * u <= 1 -> (1 + u) ^ n - 1 <= 2 * INR n * u.
Proof.
  intros Hu. induction n as [|n IH]; intros H; [cbn; lra|]. rewrite S_INR in *. cbn [pow]. pose proof (pos_INR n) as P. pose proof (Rmult_le_pos _ _ P Hu) as Q.
  specialize (IH ltac:(lra)). set (p := (1 + u) ^ n) in *. assert (H1 : (1 + u) * p <= (1 + u) * (1 + 2 * INR n * u)) by (apply Rmult_le_compat_l; lra).
  assert (H2 : u * (2 * INR n * u) <= u * 1) by (apply Rmult_le_compat_l; lra). lra.
Qed.
(** Double precision. *)
Theorem C92_double_precision_accepted : forall tin tout G M delta A e U, built G -> nonneg_weights G -> undirected G -> g_lap_type G = Combinatorial ->
  (forall i j, (i < g_n_vertices G)%nat -> (j < g_n_vertices G)%nat -> b64_format (wt G i j)) -> sums_all (g_n_vertices G) tin -> (0 < g_n_vertices G)%nat ->
  let n := g_n_vertices G in
  (forall i, (i < n)%nat -> dw (gW G) i <= M) -> INR n <= 2 ^ 52 -> INR n * M <= 4 * 10 ^ 10 -> delta <= / 10 ^ 6 ->
  delta = 0 \/ (exists i j, (i < n)%nat /\ (j < n)%nat /\ i <> j /\ delta <= wt G i j) ->
  (forall x, Rabs (quad n A x - quad n (r_lap_comb b64_round tin tout (gW G)) x) <= delta * normsq n x) ->
  eigh_ok n A (fun k => nth k e 0) U -> List.length e = n ->
  exists s, compute_fourier_basis None (EigOk e U) (cache_init G) = (s, Ok tt) /\ c_basis s = Some (0 :: tl e, U).
Proof.
  intros tin tout G M delta A e U Hb Hp Hu Ht HF Hs Hn n HM H52 HnM Hd Hdel HA He Hl.
  apply (C92_fourier_basis_accepted b64_format b64_round (/ 2 ^ 53) tin tout G M delta A e U b64_rounding Hb Hp Hu Ht HF Hs Hn HM); auto.
  fold n. set (u := / 2 ^ 53). assert (Hu0 : 0 < u) by (apply Rinv_0_lt_compat, pow_lt; lra).
  assert (E53 : 2 ^ 53 * u = 1) by (unfold u; apply Rinv_r, pow_nonzero; lra). assert (E52 : 2 * 2 ^ 52 = 2 ^ 53) by (cbn; ring).
  assert (Hs1 : 2 * INR n * u <= 1). { apply Rle_trans with (2 * 2 ^ 52 * u); [|rewrite E52, E53; lra]. apply Rmult_le_compat_r; [lra|]. lra. }
  pose proof (pow_small u n ltac:(lra) Hs1) as P.
  assert (M0 : 0 <= M). { apply Rle_trans with (dw (gW G) 0); [|apply HM; exact Hn]. apply (dw_nonneg (gW G) (tp_good G Hb)); [exact (tp_nonneg G Hb Hp)|rewrite <- (tp_n G Hb); exact Hn]. }
  assert (Q : ((1 + u) ^ n - 1) * M <= 2 * u * (4 * 10 ^ 10)).
  { apply Rle_trans with (2 * INR n * u * M); [apply Rmult_le_compat_r; assumption|]. replace (2 * INR n * u * M) with (2 * u * (INR n * M)) by ring. apply Rmult_le_compat_l; lra. }
  assert (U9 : u * (9 * 10 ^ 15) < 1). { rewrite <- E53, (Rmult_comm u). apply Rmult_lt_compat_r; [exact Hu0|]. cbn. lra. }
  assert (U8 : 2 * u * (4 * 10 ^ 10) < 8 / (9 * 10 ^ 5)). { replace (2 * u * (4 * 10 ^ 10)) with (u * (9 * 10 ^ 15) * (8 / (9 * 10 ^ 5))) by field. rewrite <- (Rmult_1_l (8 / (9 * 10 ^ 5))) at 2. apply Rmult_lt_compat_r; [apply Rdiv_lt_0_compat; lra|exact U9]. }
  eapply Rle_lt_trans; [apply Rplus_le_compat; [exact Q|exact Hd]|]. eapply Rlt_trans; [apply Rplus_lt_compat_r; exact U8|]. lra.
Qed.

(** ** Integer weights *)
Lemma lsum_nat (f : nat -> R) l : (forall k, In k l -> exists m : nat, f k = INR m) -> exists m : nat, lsum (map f l) = INR m.
Proof.
  induction l as [|x l IH]; intros H; [exists 0%nat; reflexivity|]. destruct IH as (m & E); [intros; apply H; right; assumption|]. destruct (H x ltac:(left; reflexivity)) as (p & Ep).
  exists (p + m)%nat. cbn [map lsum fold_right]. cbn. rewrite plus_INR, Ep. f_equal. exact E.
Qed.
Lemma r_sum_exact F rnd u K t f : rounding F rnd u -> (forall k : Z, (Z.abs k <= K)%Z -> F (IZR k / 2)) ->
  (forall k, In k (leaves t) -> exists m : nat, f k = INR m) -> 2 * lsum (map f (leaves t)) <= IZR K -> r_sum rnd t f = lsum (map f (leaves t)).
Proof.
  intros Hr HK. induction t as [k|a IHa b IHb]; intros Hf Hs; [cbn; ring|]. cbn [r_sum leaves] in *. rewrite map_app, lsum_app in *.
  assert (Hfa : forall k, In k (leaves a) -> exists m : nat, f k = INR m) by (intros; apply Hf, in_or_app; auto).
  assert (Hfb : forall k, In k (leaves b) -> exists m : nat, f k = INR m) by (intros; apply Hf, in_or_app; auto).
  destruct (lsum_nat f (leaves a) Hfa) as (p & Ep). destruct (lsum_nat f (leaves b) Hfb) as (q & Eq). pose proof (pos_INR p). pose proof (pos_INR q).
  rewrite (IHa Hfa ltac:(lra)), (IHb Hfb ltac:(lra)). rewrite Ep, Eq in *. apply (r_id _ _ _ Hr).
  replace (INR p + INR q) with (IZR (2 * Z.of_nat (p + q)) / 2) by (rewrite mult_IZR, <- INR_IZR_INZ, plus_INR; field). apply HK.
  apply le_IZR. rewrite Z.abs_eq by lia. rewrite mult_IZR, <- INR_IZR_INZ, plus_INR. exact Hs.
Qed.
(** Integer weights: nothing is rounded, as long as the sums are small enough (below 2^51 in double precision). *)
Theorem C92_integer_weights_are_exact : forall F rnd u K tin tout G, rounding F rnd u -> (forall k : Z, (Z.abs k <= K)%Z -> F (IZR k / 2)) ->
  built G -> g_lap_type G = Combinatorial -> (forall i j, (i < g_n_vertices G)%nat -> (j < g_n_vertices G)%nat -> exists m : nat, wt G i j = INR m) ->
  sums_all (g_n_vertices G) tin -> sums_all (g_n_vertices G) tout ->
  let n := g_n_vertices G in
  (forall i, (i < n)%nat -> 2 * (\sum_(j < n) wt G j i + \sum_(j < n) wt G i j) <= IZR K) ->
  forall i j, (i < n)%nat -> (j < n)%nat -> r_dw rnd tin tout (gW G) i = dw (gW G) i /\ r_lap_comb rnd tin tout (gW G) i j = gL G i j.
Proof.
  intros F rnd u K tin tout G Hr HK Hb Ht Hint Hi Ho n Hsm.
  assert (Hnat : forall i, (i < n)%nat -> (exists p : nat, \sum_(j < n) wt G j i = INR p) /\ (exists q : nat, \sum_(j < n) wt G i j = INR q)).
  { intros i Hi'. split; rewrite <- lsum_map_seq0; apply lsum_nat; intros k Hk; apply in_seq in Hk; apply Hint; fold n; lia. }
  assert (Hex : forall z : Z, (Z.abs z <= K)%Z -> rnd (IZR z / 2) = IZR z / 2) by (intros z Hz; apply (r_id _ _ _ Hr), HK; exact Hz).
  assert (Sin : forall i, (i < n)%nat -> r_sum rnd (tin i) (fun j => get (gW G) j i) = \sum_(j < n) wt G j i).
  { intros i Hi'. pose proof (Hi i Hi') as P. fold n in P. destruct (Hnat i Hi') as ((p & Ep) & q & Eq). specialize (Hsm i Hi'). pose proof (pos_INR q).
    assert (E : lsum (map (fun j => get (gW G) j i) (leaves (tin i))) = \sum_(j < n) wt G j i) by (rewrite (lsum_perm _ _ (Permutation_map _ P)), lsum_map_seq0; reflexivity).
    rewrite (r_sum_exact F rnd u K _ _ Hr HK); [exact E| |rewrite E; lra].
    intros k Hk. apply Hint; [|exact Hi']. eapply Permutation_in in Hk; [|exact P]. apply in_seq in Hk. fold n. lia. }
  assert (Sout : forall i, (i < n)%nat -> r_sum rnd (tout i) (fun j => get (gW G) i j) = \sum_(j < n) wt G i j).
  { intros i Hi'. pose proof (Ho i Hi') as P. fold n in P. destruct (Hnat i Hi') as ((p & Ep) & q & Eq). specialize (Hsm i Hi'). pose proof (pos_INR p).
    assert (E : lsum (map (fun j => get (gW G) i j) (leaves (tout i))) = \sum_(j < n) wt G i j) by (rewrite (lsum_perm _ _ (Permutation_map _ P)), lsum_map_seq0; reflexivity).
    rewrite (r_sum_exact F rnd u K _ _ Hr HK); [exact E| |rewrite E; lra].
    intros k Hk. apply Hint; [exact Hi'|]. eapply Permutation_in in Hk; [|exact P]. apply in_seq in Hk. fold n. lia. }
  assert (Int : forall z, (0 <= 2 * z <= K)%Z -> rnd (IZR z) = IZR z).
  { intros z Hz. replace (IZR z) with (IZR (2 * z) / 2) by (rewrite mult_IZR; field). apply Hex. lia. }
  assert (Dw : forall i, (i < n)%nat -> r_dw rnd tin tout (gW G) i = dw (gW G) i).
  { intros i Hi'. unfold r_dw. rewrite (dw_avg (gW G) i (tp_good G Hb)) by (rewrite <- (tp_n G Hb); exact Hi'). rewrite <- (tp_n G Hb). fold n.
    destruct (Hnat i Hi') as ((p & Ep) & q & Eq). specialize (Hsm i Hi'). rewrite Ep, Eq in Hsm. rewrite !INR_IZR_INZ, <- plus_IZR, <- mult_IZR in Hsm. apply le_IZR in Hsm.
    destruct (is_directed (gW G)) eqn:E.
    - rewrite (Sin i Hi'), (Sout i Hi'). change (\sum_(j < n) get (gW G) j i) with (\sum_(j < n) wt G j i). change (\sum_(j < n) get (gW G) i j) with (\sum_(j < n) wt G i j). rewrite Ep, Eq.
      rewrite !INR_IZR_INZ, <- plus_IZR. rewrite Int by lia. apply Hex. lia.
    - rewrite (Sin i Hi'). change (\sum_(j < n) get (gW G) j i) with (\sum_(j < n) wt G j i).
      rewrite (rsum_ext n (fun j => get (gW G) i j) (fun j => wt G j i)); [field|]. intros k Hk. unfold wt. apply (proj1 (is_directed_false (gW G)) E); rewrite <- (tp_n G Hb); assumption. }
  intros i j Hi' Hj. split; [apply Dw; exact Hi'|]. unfold r_lap_comb. rewrite (Dw i Hi'), (built_comb G Hb Ht). unfold lap_comb.
  assert (Wij : exists z : Z, (0 <= z)%Z /\ wt G i j + wt G j i = IZR z /\ IZR z <= \sum_(k < n) wt G k i + \sum_(k < n) wt G i k /\ (2 * z <= K)%Z).
  { destruct (Hint i j Hi' Hj) as (p & Ep). destruct (Hint j i Hj Hi') as (q & Eq). exists (Z.of_nat (p + q)). split; [lia|]. assert (E : wt G i j + wt G j i = IZR (Z.of_nat (p + q))) by (rewrite Ep, Eq, <- INR_IZR_INZ, plus_INR; reflexivity). split; [exact E|].
    assert (NN : forall a b, (a < n)%nat -> (b < n)%nat -> 0 <= wt G a b) by (intros a b Ha Hb'; destruct (Hint a b Ha Hb') as (m & ->); apply pos_INR).
    assert (L1 : wt G j i <= \sum_(k < n) wt G k i) by (apply (rsum_ge_term n (fun k => wt G k i)); [intros; apply NN; assumption|exact Hj]).
    assert (L2 : wt G i j <= \sum_(k < n) wt G i k) by (apply (rsum_ge_term n (fun k => wt G i k)); [intros; apply NN; assumption|exact Hj]).
    split; [rewrite <- E; lra|]. specialize (Hsm i Hi'). apply le_IZR. rewrite mult_IZR, <- E. lra. }
  destruct Wij as (z & Hz0 & Ez & Hzd & HzK).
  assert (Wl : (if is_directed (gW G) then r_average rnd (get (gW G)) i j else get (gW G) i j) = wlap (gW G) i j).
  { unfold wlap. destruct (is_directed (gW G)) eqn:E; [|reflexivity]. unfold r_average. change (get (gW G) i j + get (gW G) j i) with (wt G i j + wt G j i). rewrite Ez. rewrite Int by lia. apply Hex. lia. }
  rewrite Wl. rewrite wlap_avg by (rewrite <- (tp_n G Hb); assumption). change (get (gW G) i j + get (gW G) j i) with (wt G i j + wt G j i). rewrite Ez.
  destruct (Nat.eqb_spec i j) as [->|Hne].
  - rewrite (dw_avg (gW G) j (tp_good G Hb)) by (rewrite <- (tp_n G Hb); exact Hj). rewrite <- (tp_n G Hb). fold n.
    change (\sum_(k < n) get (gW G) k j) with (\sum_(k < n) wt G k j). change (\sum_(k < n) get (gW G) j k) with (\sum_(k < n) wt G j k).
    destruct (Hnat j Hj) as ((p & Ep) & q & Eq). specialize (Hsm j Hj). rewrite Ep, Eq in Hsm, Hzd |- *. rewrite !INR_IZR_INZ in Hsm, Hzd |- *. rewrite <- plus_IZR in Hsm, Hzd |- *. rewrite <- mult_IZR in Hsm. apply le_IZR in Hsm, Hzd.
    replace (IZR (Z.of_nat p + Z.of_nat q) / 2 - IZR z / 2) with (IZR (Z.of_nat p + Z.of_nat q - z) / 2) by (rewrite minus_IZR; field). apply Hex. lia.
  - replace (0 - IZR z / 2) with (IZR (- z) / 2) by (rewrite opp_IZR; field). apply Hex. lia.
Qed.
Lemma b64_half k : (Z.abs k <= 2 ^ 53 - 1)%Z -> b64_format (IZR k / 2).
Proof.
  intros Hk. apply generic_format_FLT. exists (Float radix2 k (-1)); cbn [Fnum Fexp].
  - reflexivity.
  - change (Z.abs k < 9007199254740992)%Z. change (Z.abs k <= 9007199254740991)%Z in Hk. lia.
  - discriminate.
Qed.

(** ** Where it goes wrong *)
Definition big : R := IZR 18014398509481984.   (* 2^54 *)
Lemma b64_big : b64_format big.
Proof.
  apply generic_format_FLT. exists (Float radix2 1 54); cbn [Fnum Fexp]; [|reflexivity|discriminate]. unfold F2R, big. cbn [Fnum Fexp bpow]. rewrite Rmult_1_l. f_equal.
Qed.
Lemma b64_one : b64_format 1.
Proof. replace 1 with (IZR 2 / 2) by field. apply b64_half. discriminate. Qed.
Lemma b64_lost : b64_round (big + 1) = big.
Proof.
  unfold b64_round, round, scaled_mantissa, cexp.
  assert (Em : mag radix2 (big + 1) = 55%Z :> Z).
  { apply mag_unique_pos. change (bpow radix2 (55 - 1)) with (IZR 18014398509481984). change (bpow radix2 55) with (IZR 36028797018963968). unfold big. lra. }
  rewrite Em. change (b64_exp 55) with 2%Z. change (bpow radix2 (- (2))) with (/ 4).
  assert (Ez : ZnearestE ((big + 1) * / 4) = 4503599627370496%Z).
  { apply Znearest_imp. replace ((big + 1) * / 4 - IZR 4503599627370496) with (/ 4) by (unfold big; lra). rewrite Rabs_pos_eq; lra. }
  rewrite Ez. unfold F2R, big. cbn [Fnum Fexp]. change (bpow radix2 2) with 4. lra.
Qed.
(** Path 0 - 1 - 2 with the weights 2^54 and 1. *)
Definition big_path : list R := [0; big; 0;  big; 0; 1;  0; 1; 0].
Definition in_order : nat -> sumtree := fun _ => Node (Node (Leaf 0) (Leaf 1)) (Leaf 2).
Lemma in_order_ok : sums_all 3 in_order.
Proof. intros i Hi. apply Permutation_refl. Qed.
(** A connected graph whose weights are very different in size: in double precision the weighted degree 2^54 + 1 becomes 2^54, the
    smallest eigenvalue of the Laplacian -0.36, and the first call of compute_fourier_basis fails; the basis is kept all the
    same, so that the second call succeeds and G.e starts with a negative number. *)
Theorem C92_mixed_weights_refuted : exists G, built G /\ nonneg_weights G /\ undirected G /\ g_lap_type G = Combinatorial /\ g_n_vertices G = 3%nat /\
  (forall i j, (i < 3)%nat -> (j < 3)%nat -> b64_format (wt G i j)) /\ sums_all 3 in_order /\ (forall v, (v < 3)%nat -> reach (has_arc G) 0 v) /\
  forall e U, eigh_ok 3 (r_lap_comb b64_round in_order in_order (gW G)) (fun k => nth k e 0) U -> List.length e = 3%nat ->
    nth 0 e 0 <= -0.36 /\
    exists s, compute_fourier_basis None (EigOk e U) (cache_init G) = (s, Raise AssertionError) /\
      (forall o, compute_fourier_basis None o s = (s, Ok tt)) /\ c_basis s = Some (e, U).
Proof.
  destruct (finite_entry_built 3 big_path Combinatorial None eq_refl (or_introl eq_refl)) as (G & _ & Hb & Hn & Ht & _ & Hw). exists G.
  assert (B0 : 0 < big) by (unfold big; lra).
  assert (Hp : nonneg_weights G).
  { intros i j Hi Hj. rewrite Hn in Hi, Hj. rewrite Hw by assumption. do 3 (destruct i as [|i]; [do 3 (destruct j as [|j]; [cbn; lra|]); lia|]). lia. }
  assert (Hu : undirected G).
  { intros i j Hi Hj. rewrite Hn in Hi, Hj. rewrite !Hw by assumption. do 3 (destruct i as [|i]; [do 3 (destruct j as [|j]; [reflexivity|]); lia|]). lia. }
  assert (HF : forall i j, (i < 3)%nat -> (j < 3)%nat -> b64_format (wt G i j)).
  { intros i j Hi Hj. rewrite Hw by assumption. pose proof (r_zero _ _ _ b64_rounding). pose proof b64_one. pose proof b64_big. do 3 (destruct i as [|i]; [do 3 (destruct j as [|j]; [cbn; assumption|]); lia|]). lia. }
  split; [exact Hb|]. split; [exact Hp|]. split; [exact Hu|]. split; [exact Ht|]. split; [exact Hn|]. split; [exact HF|]. split; [apply in_order_ok|]. split.
  { assert (A1 : has_arc G 0 1) by (unfold has_arc; rewrite Hn, Hw by lia; cbn; repeat split; try lia; lra). assert (A2 : has_arc G 1 2) by (unfold has_arc; rewrite Hn, Hw by lia; cbn; repeat split; try lia; lra).
    intros v Hv. destruct v as [|[|[|v]]]; [constructor|econstructor; [constructor|exact A1]|econstructor; [econstructor; [constructor|exact A1]|exact A2]|lia]. }
  intros e U He Hl. set (L' := r_lap_comb b64_round in_order in_order (gW G)) in *.
  assert (Hdir : is_directed (gW G) = false) by (apply und_dir; assumption).
  assert (Id : forall i j, (i < 3)%nat -> (j < 3)%nat -> b64_round (wt G i j) = wt G i j) by (intros; apply (r_id _ _ _ b64_rounding); apply HF; assumption).
  assert (I0 : b64_round 0 = 0) by (apply (r_id _ _ _ b64_rounding), (r_zero _ _ _ b64_rounding)).
  assert (I1 : b64_round 1 = 1) by (apply (r_id _ _ _ b64_rounding), b64_one). assert (Ib : b64_round big = big) by (apply (r_id _ _ _ b64_rounding), b64_big).
  assert (Off : forall i j, (i < 3)%nat -> (j < 3)%nat -> i <> j -> L' i j = - wt G i j).
  { intros i j Hi Hj Hne. apply (Lh_off b64_format b64_round (/ 2 ^ 53) in_order in_order G b64_rounding Hb Hu); rewrite ?Hn; assumption. }
  assert (Dg : L' 0%nat 0%nat = big /\ L' 1%nat 1%nat = big /\ L' 2%nat 2%nat = 1).
  { unfold L', r_lap_comb, r_dw. rewrite Hdir. cbn [Nat.eqb in_order r_sum]. change (get (gW G)) with (wt G). rewrite !Hw by lia. cbn [nth big_path Nat.mul Nat.add].
    rewrite ?Rplus_0_l, ?Rplus_0_r, ?Rminus_0_r, ?I0, ?Ib, ?I1, ?Rplus_0_l, ?Rplus_0_r, ?Rminus_0_r, ?I0, ?Ib, ?I1, ?b64_lost, ?Rminus_0_r, ?Ib. auto. }
  destruct Dg as (D0 & D1 & D2).
  assert (Q : nth 0 e 0 <= -0.36).
  { set (x := fun i => nth i [10; 10; 7] 0). pose proof (eigh_quad_ge 3 L' _ U He x (nth 0 e 0)) as H. specialize (H ltac:(intros k Hk; apply (eigh_sort _ _ _ _ He 0%nat k); lia)).
    unfold normsq, quad, dot, mulv in H. cbn [rsum] in H. rewrite D0, D1, D2, !Off in H by lia. rewrite !Hw in H by lia. unfold x in H. cbn [nth big_path Nat.mul Nat.add] in H. lra. }
  split; [exact Q|]. destruct e as [|a es]; [discriminate|]. cbn [nth] in Q. unfold compute_fourier_basis at 1. cbn [c_basis cache_init c_N].
  assert (E : Rltb (- / 10 ^ 5) a = false). { apply not_true_is_false. intros T. apply Rltb_true in T. assert (/ 10 ^ 5 < 0.1) by lra. lra. }
  rewrite E. cbn [andb]. eexists. split; [reflexivity|]. split; [|reflexivity].
  intros o. unfold compute_fourier_basis. cbn [c_basis set_basis c_N cache_init]. rewrite Hn, Hl. reflexivity.
Qed.
(** There are such answers. *)
Example C92_mixed_ex : exists G e U, g_n_vertices G = 3%nat /\ List.length e = 3%nat /\ eigh_ok 3 (r_lap_comb b64_round in_order in_order (gW G)) (fun k => nth k e 0) U.
Proof.
  destruct C92_mixed_weights_refuted as (G & Hb & _ & Hu & _ & Hn & _). exists G.
  destruct (spectral_theorem 3 (r_lap_comb b64_round in_order in_order (gW G))) as (e & U & H). { intros i j Hi Hj. unfold tr. symmetry. apply C92_laplacian_is_exactly_symmetric; rewrite ?Hn; assumption. }
  exists [e 0%nat; e 1%nat; e 2%nat], U. split; [exact Hn|]. split; [reflexivity|]. destruct H as [Hc Hr Hei Hs].
  assert (E : forall k, (k < 3)%nat -> nth k [e 0%nat; e 1%nat; e 2%nat] 0 = e k) by (intros k Hk; do 3 (destruct k as [|k]; [reflexivity|]); lia).
  constructor; [exact Hc|exact Hr| |].
  - intros i k Hi Hk. rewrite Hei, E by assumption. reflexivity.
  - intros k l Hkl Hl'. rewrite !E by lia. apply Hs; assumption.
Qed.

(** estimate_lmax compares the answer of the eigensolver with the bound up to 1e-12, whatever the scale of the weights: for
    however accurate a solver (relative error eps) there is a graph on which an answer that is a hair too large fails. *)
Theorem C92_lanczos_absolute_tolerance_refuted : forall eps, 0 < eps ->
  exists G lam r, built G /\ nonneg_weights G /\ undirected G /\ g_lap_type G = Combinatorial /\
    (exists x, eigenpair (g_n_vertices G) (gL G) lam x) /\ (forall mu x, eigenpair (g_n_vertices G) (gL G) mu x -> mu <= lam) /\
    Rabs (r - lam) <= eps * lam /\ snd (estimate_lmax "lanczos" (LanOk r) (cache_init G)) = Raise AssertionError.
Proof.
  intros eps He. set (w := / eps). assert (Pw : 0 < w) by (apply Rinv_0_lt_compat; exact He).
  destruct (finite_entry_built 2 [0; w; w; 0] Combinatorial None eq_refl (or_introl eq_refl)) as (G & _ & Hb & Hn & Ht & _ & Hw).
  assert (Hp : nonneg_weights G).
  { intros i j Hi Hj. rewrite Hn in Hi, Hj. rewrite Hw by assumption. do 2 (destruct i as [|i]; [do 2 (destruct j as [|j]; [cbn; lra|]); lia|]). lia. }
  assert (Hu : undirected G).
  { intros i j Hi Hj. rewrite Hn in Hi, Hj. rewrite !Hw by assumption. do 2 (destruct i as [|i]; [do 2 (destruct j as [|j]; [reflexivity|]); lia|]). lia. }
  assert (T : tight G (INR (g_n_vertices G) * w)).
  { apply C91_full_graph; auto; [lia|lra| |].
    - intros i j Hi Hj Hne. rewrite Hn in Hi, Hj. rewrite Hw by assumption. destruct i as [|[|i]]; destruct j as [|[|j]]; try lia; reflexivity.
    - intros i Hi. rewrite Hn in Hi. rewrite Hw by assumption. destruct i as [|[|i]]; [cbn; lra|cbn; lra|lia]. }
  rewrite Hn in T. replace (INR 2 * w) with (2 * w) in T by (cbn; ring). destruct T as (Eu & x & Hx).
  exists G, (2 * w), (2 * w + 2). split; [exact Hb|]. split; [exact Hp|]. split; [exact Hu|]. split; [exact Ht|]. split; [exists x; exact Hx|]. split; [|split].
  - intros mu y Hy. destruct (C14_upper_bound_is_upper_bound G Hb Hp ltac:(lia)) as (b & Eb & Hbd). rewrite Eu in Eb. injection Eb as <-. apply (Hbd mu y Hy).
  - replace (2 * w + 2 - 2 * w) with 2 by ring. rewrite Rabs_pos_eq by lra. replace (eps * (2 * w)) with (2 * (eps * w)) by ring. unfold w. rewrite Rinv_r by lra. lra.
  - unfold estimate_lmax. cbn [c_method cache_init]. cbn [String.eqb Ascii.eqb Bool.eqb]. change (upper_bound (c_W (cache_init G)) (c_lap (cache_init G))) with (upper_bound (gW G) (g_lap_type G)). rewrite Eu. cbn [xadd fle].
    assert (E : Rleb (2 * w + 2) (2 * w + / 10 ^ 12) = false). { apply not_true_is_false. intros Q. apply Rleb_true in Q. assert (/ 10 ^ 12 < 1) by (rewrite <- Rinv_1; apply Rinv_lt_contravar; lra). lra. }
    rewrite E. reflexivity.
Qed.

(** The path 0 - 1 - 2 with unit weights meets every hypothesis above: nothing is rounded, and any exact answer of the eigensolver
    is accepted. *)
Example C92_unit_path_ex : exists G, built G /\ nonneg_weights G /\ undirected G /\ g_lap_type G = Combinatorial /\ g_n_vertices G = 3%nat /\
  (forall i j, (i < 3)%nat -> (j < 3)%nat -> r_lap_comb b64_round in_order in_order (gW G) i j = gL G i j) /\
  (exists e U, eigh_ok 3 (r_lap_comb b64_round in_order in_order (gW G)) (fun k => nth k e 0) U /\ List.length e = 3%nat /\
    exists s, compute_fourier_basis None (EigOk e U) (cache_init G) = (s, Ok tt) /\ c_basis s = Some (0 :: tl e, U)).
Proof.
  destruct (finite_entry_built 3 [0; 1; 0;  1; 0; 1;  0; 1; 0] Combinatorial None eq_refl (or_introl eq_refl)) as (G & _ & Hb & Hn & Ht & _ & Hw). exists G.
  assert (Hp : nonneg_weights G).
  { intros i j Hi Hj. rewrite Hn in Hi, Hj. rewrite Hw by assumption. do 3 (destruct i as [|i]; [do 3 (destruct j as [|j]; [cbn; lra|]); lia|]). lia. }
  assert (Hu : undirected G).
  { intros i j Hi Hj. rewrite Hn in Hi, Hj. rewrite !Hw by assumption. do 3 (destruct i as [|i]; [do 3 (destruct j as [|j]; [reflexivity|]); lia|]). lia. }
  assert (HF : forall i j, (i < 3)%nat -> (j < 3)%nat -> b64_format (wt G i j)).
  { intros i j Hi Hj. rewrite Hw by assumption. pose proof (r_zero _ _ _ b64_rounding). pose proof b64_one. do 3 (destruct i as [|i]; [do 3 (destruct j as [|j]; [cbn; assumption|]); lia|]). lia. }
  assert (Hi : forall i j, (i < 3)%nat -> (j < 3)%nat -> exists m : nat, wt G i j = INR m).
  { intros i j Hi Hj. rewrite Hw by assumption. do 3 (destruct i as [|i]; [do 3 (destruct j as [|j]; [cbn; first [exists 0%nat; reflexivity|exists 1%nat; reflexivity]|]); lia|]). lia. }
  split; [exact Hb|]. split; [exact Hp|]. split; [exact Hu|]. split; [exact Ht|]. split; [exact Hn|]. split.
  - intros i j Hi' Hj'. apply (C92_integer_weights_are_exact b64_format b64_round (/ 2 ^ 53) (2 ^ 53 - 1) in_order in_order G b64_rounding (fun k => b64_half k) Hb Ht); rewrite ?Hn; auto using in_order_ok.
    intros k Hk. cbn [rsum]. rewrite !Hw by lia. change (2 ^ 53 - 1)%Z with 9007199254740991%Z. do 3 (destruct k as [|k]; [cbn; lra|]). lia.
  - destruct (spectral_theorem 3 (r_lap_comb b64_round in_order in_order (gW G))) as (e & U & H). { intros i j Hi' Hj'. unfold tr. symmetry. apply C92_laplacian_is_exactly_symmetric; rewrite ?Hn; assumption. }
    assert (E : forall k, (k < 3)%nat -> nth k [e 0%nat; e 1%nat; e 2%nat] 0 = e k) by (intros k Hk; do 3 (destruct k as [|k]; [reflexivity|]); lia).
    assert (H' : eigh_ok 3 (r_lap_comb b64_round in_order in_order (gW G)) (fun k => nth k [e 0%nat; e 1%nat; e 2%nat] 0) U).
    { destruct H as [Hc Hr Hei Hs]. constructor; [exact Hc|exact Hr| |].
      - intros i k Hi' Hk. rewrite Hei, E by assumption. reflexivity.
      - intros k l Hkl Hl'. rewrite !E by lia. apply Hs; assumption. }
    exists [e 0%nat; e 1%nat; e 2%nat], U. split; [exact H'|]. split; [reflexivity|].
    apply (C92_double_precision_accepted in_order in_order G 2 0 (r_lap_comb b64_round in_order in_order (gW G))); rewrite ?Hn; auto using in_order_ok; try lia.
    + intros i Hi'. rewrite (dw_avg (gW G) i (tp_good G Hb)) by (rewrite <- (tp_n G Hb), Hn; exact Hi'). rewrite <- (tp_n G Hb), Hn. change (get (gW G)) with (wt G). cbn [rsum]. rewrite !Hw by lia. do 3 (destruct i as [|i]; [cbn; lra|]). lia.
    + cbn; lra.
    + cbn; lra.
    + left. apply Rinv_0_lt_compat. lra.
    + intros x. rewrite Rminus_eq_0, Rabs_R0. lra.
Qed.
