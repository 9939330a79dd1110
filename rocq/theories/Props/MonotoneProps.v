(** Property C88: how the spectrum and the resistances move with the weights. *)
From Coq Require Import Reals Lra Lia List Arith Bool.
From Coq Require Import List.
From Verif.Base Require Import RSum Prelude LinAlg Solve Spectral.
From Verif.Spec Require Import Matrix NdArray GraphSpec FilterSpec Reach LapSpec.
From Verif.Model Require Import Sparse Graph Traverse Cache Filter Kernels Utils.
From Verif.Proofs Require Import InitFacts SpectralFacts SpectrumFacts FilterFacts MaxPrinciple.
From Verif.Props Require Import Core Laplacian Traversal Caching Filtering Banks KernelProps UtilsProps SpectrumProps HeatProps.
Import ListNotations.
Open Scope R_scope.

(** Weyl: if quad A <= quad B on the vectors that satisfy m linear conditions, then e_k <= f_(k+m). *)
Lemma eigh_weyl n A B e U f W m (C : nat -> vec) k : eigh_ok n A e U -> eigh_ok n B f W ->
  (forall x, (forall l, (l < m)%nat -> dot n (C l) x = 0) -> quad n A x <= quad n B x) -> (k + m < n)%nat -> e k <= f (k + m)%nat.
Proof.
  intros HU HW HQ Hk.
  destruct (few_conditions n (n - 1) (fun l i => if Nat.ltb l k then U i l else if Nat.ltb l (k + m) then C (l - k)%nat i else W i (S l)) ltac:(lia)) as (x & Hx & Ho).
  assert (HoU : forall l, (l < k)%nat -> coef n U x l = 0).
  { intros l Hl. specialize (Ho l ltac:(lia)). cbn beta in Ho. unfold dot in Ho. destruct (Nat.ltb_spec l k); [exact Ho|lia]. }
  assert (HoC : forall l, (l < m)%nat -> dot n (C l) x = 0).
  { intros l Hl. specialize (Ho (k + l)%nat ltac:(lia)). cbn beta in Ho. destruct (Nat.ltb_spec (k + l) k); [lia|]. destruct (Nat.ltb_spec (k + l) (k + m)); [|lia].
    replace (k + l - k)%nat with l in Ho by lia. exact Ho. }
  assert (HoW : forall l, (k + m < l < n)%nat -> coef n W x l = 0).
  { intros l Hl. specialize (Ho (l - 1)%nat ltac:(lia)). cbn beta in Ho. unfold dot in Ho. destruct (Nat.ltb_spec (l - 1) k); [lia|].
    destruct (Nat.ltb_spec (l - 1) (k + m)); [lia|]. replace (S (l - 1)) with l in Ho by lia. exact Ho. }
  pose proof (normsq_pos n x Hx) as Hp.
  assert (H1 : e k * normsq n x <= quad n A x).
  { rewrite (eigh_quad n A e U HU x), <- (coef_normsq n A e U HU x). unfold normsq, dot. rewrite <- rsum_scal_l. apply rsum_le. intros l Hl.
    destruct (lt_dec l k) as [Hlk|Hlk]; [rewrite (HoU l Hlk); lra|].
    apply Rmult_le_compat_r; [apply Rle_0_sqr|]. apply (eigh_sort n A e U HU); lia. }
  assert (H2 : quad n B x <= f (k + m)%nat * normsq n x).
  { rewrite (eigh_quad n B f W HW x), <- (coef_normsq n B f W HW x). unfold normsq, dot. rewrite <- rsum_scal_l. apply rsum_le. intros l Hl.
    destruct (lt_dec (k + m) l) as [Hlk|Hlk]; [rewrite (HoW l ltac:(lia)); lra|].
    apply Rmult_le_compat_r; [apply Rle_0_sqr|]. apply (eigh_sort n B f W HW); lia. }
  pose proof (HQ x HoC). apply (Rmult_le_reg_r (normsq n x)); [exact Hp|]. lra.
Qed.

(** The difference of two combinatorial Laplacians is the Laplacian of the difference of the weights. *)
Lemma quad_minus n A B x : quad n (fun i j => B i j - A i j) x = quad n B x - quad n A x.
Proof.
  unfold quad, dot. rewrite <- rsum_minus. apply rsum_ext. intros i Hi. unfold mulv.
  rewrite (rsum_ext n _ (fun j => B i j * x j - A i j * x j)) by (intros; ring). rewrite rsum_minus. ring.
Qed.
Lemma diff_laplacian G G' : built G -> built G' -> g_lap_type G = Combinatorial -> g_lap_type G' = Combinatorial -> g_n_vertices G' = g_n_vertices G ->
  (forall i j, (i < g_n_vertices G)%nat -> (j < g_n_vertices G)%nat -> i <> j -> wt G i j <= wt G' i j) ->
  is_laplacian (g_n_vertices G) (fun i j => gL G' i j - gL G i j).
Proof.
  intros Hb Hb' Ht Ht' HN Hw. destruct (C09_combinatorial_structure G Hb Ht) as (S1 & R1 & O1 & _). destruct (C09_combinatorial_structure G' Hb' Ht') as (S2 & R2 & O2 & _).
  rewrite HN in *. split; [|split].
  - intros i j Hi Hj. unfold tr. rewrite (S1 i j Hi Hj), (S2 i j Hi Hj). reflexivity.
  - intros i Hi. rewrite rsum_minus, R1, R2 by exact Hi. ring.
  - intros i j Hi Hj Hne. rewrite O1, O2 by assumption. pose proof (Hw i j Hi Hj Hne). pose proof (Hw j i Hj Hi ltac:(auto)). lra.
Qed.

(** Increasing weights, or adding edges, cannot decrease any eigenvalue of the combinatorial Laplacian. *)
Theorem C88_eigenvalues_increase_with_the_weights :
  forall G G' lmax lmax' e U e' U', built G -> built G' -> g_lap_type G = Combinatorial -> g_lap_type G' = Combinatorial ->
    g_n_vertices G' = g_n_vertices G ->
    (forall i j, (i < g_n_vertices G)%nat -> (j < g_n_vertices G)%nat -> i <> j -> wt G i j <= wt G' i j) ->
    spectral (mkview (g_n_vertices G) (gL G) lmax e U) -> spectral (mkview (g_n_vertices G') (gL G') lmax' e' U') ->
    forall k, (k < g_n_vertices G)%nat -> nth k e 0 <= nth k e' 0.
Proof.
  intros G G' lmax lmax' e U e' U' Hb Hb' Ht Ht' HN Hw (_ & HU) (_ & HU') k Hk. cbn [v_N v_L v_e v_U] in *. rewrite HN in HU'.
  pose proof (eigh_weyl _ _ _ _ _ _ _ 0 (fun _ _ => 0) k HU HU') as H. rewrite Nat.add_0_r in H. apply H; [|exact Hk].
  intros x _. pose proof (lap_psd _ _ (diff_laplacian G G' Hb Hb' Ht Ht' HN Hw) x) as P. rewrite quad_minus in P. lra.
Qed.

(** Adding (or strengthening) a single edge moves every eigenvalue up, but not past the next one. *)
Theorem C88_one_edge_interlaces :
  forall G G' a b lmax lmax' e U e' U', built G -> built G' -> g_lap_type G = Combinatorial -> g_lap_type G' = Combinatorial ->
    g_n_vertices G' = g_n_vertices G ->
    (forall i j, (i < g_n_vertices G)%nat -> (j < g_n_vertices G)%nat -> i <> j -> wt G i j <= wt G' i j) ->
    (a < g_n_vertices G)%nat -> (b < g_n_vertices G)%nat ->
    (forall i j, (i < g_n_vertices G)%nat -> (j < g_n_vertices G)%nat -> i <> j -> ~ (i = a /\ j = b) -> ~ (i = b /\ j = a) -> wt G' i j = wt G i j) ->
    spectral (mkview (g_n_vertices G) (gL G) lmax e U) -> spectral (mkview (g_n_vertices G') (gL G') lmax' e' U') ->
    (forall k, (k < g_n_vertices G)%nat -> nth k e 0 <= nth k e' 0) /\
    (forall k, (S k < g_n_vertices G)%nat -> nth k e' 0 <= nth (S k) e 0).
Proof.
  intros G G' a b lmax lmax' e U e' U' Hb Hb' Ht Ht' HN Hw Ha Hb1 Hsame HF HF'.
  split; [exact (C88_eigenvalues_increase_with_the_weights G G' lmax lmax' e U e' U' Hb Hb' Ht Ht' HN Hw HF HF')|].
  intros k Hk. destruct HF as (_ & HU). destruct HF' as (_ & HU'). cbn [v_N v_L v_e v_U] in *. rewrite HN in HU'.
  pose proof (eigh_weyl _ _ _ _ _ _ _ 1 (fun _ i => unitv a i - unitv b i) k HU' HU) as H. rewrite Nat.add_1_r in H. apply H; [|exact Hk].
  intros x Hx. specialize (Hx 0%nat ltac:(lia)).
  assert (Eab : x a = x b).
  { unfold dot, unitv in Hx. rewrite (rsum_ext _ _ (fun i => (if Nat.eqb i a then x i else 0) - (if Nat.eqb i b then x i else 0))) in Hx
      by (intros i Hi; destruct (Nat.eqb i a), (Nat.eqb i b); ring).
    rewrite rsum_minus in Hx. rewrite (rsum_single _ (fun i => if Nat.eqb i a then x i else 0) a Ha) in Hx by (intros j Hj Hne; destruct (Nat.eqb_spec j a); [congruence|reflexivity]).
    rewrite (rsum_single _ (fun i => if Nat.eqb i b then x i else 0) b Hb1) in Hx by (intros j Hj Hne; destruct (Nat.eqb_spec j b); [congruence|reflexivity]).
    rewrite !Nat.eqb_refl in Hx. lra. }
  pose proof (lap_energy _ _ x (diff_laplacian G G' Hb Hb' Ht Ht' HN Hw)) as P. rewrite quad_minus in P.
  rewrite (rsum_0 _ (fun i => \sum_(j < g_n_vertices G) _)) in P; [lra|]. intros i Hi. apply rsum_0. intros j Hj.
  destruct (Nat.eq_dec i j) as [<-|Hne]; [replace (x i - x i) with 0 by ring; ring|].
  destruct (C09_combinatorial_structure G Hb Ht) as (_ & _ & O1 & _). destruct (C09_combinatorial_structure G' Hb' Ht') as (_ & _ & O2 & _). rewrite HN in *.
  destruct (Nat.eq_dec i a) as [->|Hia]; [destruct (Nat.eq_dec j b) as [->|Hjb]; [rewrite Eab; ring|]|].
  - rewrite O1, O2 by assumption. destruct (Nat.eq_dec a b) as [Eq|Nab].
    + subst b. rewrite (Hsame a j), (Hsame j a) by (auto; intros (? & ?); congruence). lra.
    + rewrite (Hsame a j), (Hsame j a) by (auto; intros (? & ?); congruence). lra.
  - destruct (Nat.eq_dec j a) as [->|Hja]; [destruct (Nat.eq_dec i b) as [->|Hib]; [rewrite Eab; ring|]|].
    + rewrite O1, O2 by assumption. rewrite (Hsame i a), (Hsame a i) by (auto; intros (? & ?); congruence). lra.
    + rewrite O1, O2 by assumption. rewrite (Hsame i j), (Hsame j i) by (auto; intros (? & ?); congruence). lra.
Qed.

(** Rayleigh's monotonicity law: increasing weights, or adding edges, cannot increase a resistance distance. *)
Theorem C88_resistance_decreases_with_the_weights :
  forall G G' o o' Rd Rd', built G -> built G' -> nonneg_weights G -> g_lap_type G = Combinatorial -> g_lap_type G' = Combinatorial -> connected G ->
    g_n_vertices G' = g_n_vertices G ->
    (forall i j, (i < g_n_vertices G)%nat -> (j < g_n_vertices G)%nat -> wt G i j <= wt G' i j) ->
    inv_contract (g_n_vertices G) (gL G) o -> resistance_distance G o = Ok Rd ->
    inv_contract (g_n_vertices G') (gL G') o' -> resistance_distance G' o' = Ok Rd' ->
    forall i j, (i < g_n_vertices G)%nat -> (j < g_n_vertices G)%nat -> Rd' i j <= Rd i j.
Proof.
  intros G G' o o' Rd Rd' Hb Hb' Hp Ht Ht' HC HN Hw Ho HR Ho' HR' i j Hi Hj.
  assert (Hp' : nonneg_weights G') by (intros a b Ha Hb1; rewrite HN in *; specialize (Hp a b Ha Hb1); specialize (Hw a b Ha Hb1); lra).
  assert (HC' : connected G').
  { intros u v Hu Hv. rewrite HN in *. specialize (HC u v Hu Hv). clear Hv. induction HC as [|u v w R1 IH Hs]; [apply reach_refl|].
    eapply reach_step; [apply IH; exact Hu|]. destruct Hs as (H1 & H2 & H3). rewrite <- HN in H1, H2. split; [exact H1|]. split; [exact H2|]. rewrite HN in H1, H2.
    specialize (Hp v w H1 H2). specialize (Hw v w H1 H2). unfold wt in *. lra. }
  destruct (C34_potential_difference G o Rd i j Hb Hp Ht HC Ho HR Hi Hj) as ((v & Hv) & D).
  destruct (C34_potential_difference G' o' Rd' i j Hb' Hp' Ht' HC' Ho' HR' ltac:(lia) ltac:(lia)) as ((v' & Hv') & D').
  rewrite (D v Hv), (D' v' Hv'). rewrite HN in Hv'. set (n := g_n_vertices G) in *.
  assert (S : forall w : vec, dot n w (fun a => unitv i a - unitv j a) = w i - w j).
  { intros w. unfold dot, unitv. rewrite (rsum_ext _ _ (fun a => (if Nat.eqb a i then w a else 0) - (if Nat.eqb a j then w a else 0)))
      by (intros a Ha; destruct (Nat.eqb a i), (Nat.eqb a j); ring).
    rewrite rsum_minus. rewrite (rsum_single _ (fun a => if Nat.eqb a i then w a else 0) i Hi) by (intros a Ha Hne; destruct (Nat.eqb_spec a i); [congruence|reflexivity]).
    rewrite (rsum_single _ (fun a => if Nat.eqb a j then w a else 0) j Hj) by (intros a Ha Hne; destruct (Nat.eqb_spec a j); [congruence|reflexivity]).
    rewrite !Nat.eqb_refl. reflexivity. }
  pose proof (graph_is_laplacian G Hb Hp Ht) as HL. fold n in HL.
  assert (Q1 : quad n (gL G) v = v i - v j) by (rewrite <- S; unfold quad; apply dot_ext; [intros a Ha; reflexivity|exact Hv]).
  assert (Q2 : quad n (gL G') v' = v' i - v' j) by (rewrite <- S; unfold quad; apply dot_ext; [intros a Ha; reflexivity|exact Hv']).
  assert (Q3 : dot n v' (mulv n (gL G) v) = v' i - v' j) by (rewrite <- S; apply dot_ext; [intros a Ha; reflexivity|exact Hv]).
  pose proof (lap_psd _ _ HL (fun a => v a - v' a)) as P1.
  pose proof (lap_psd _ _ (diff_laplacian G G' Hb Hb' Ht Ht' HN (fun a b Ha Hb1 _ => Hw a b Ha Hb1)) v') as P2. rewrite quad_minus in P2. fold n in P2.
  assert (E : quad n (gL G) (fun a => v a - v' a) = quad n (gL G) v - 2 * dot n v' (mulv n (gL G) v) + quad n (gL G) v').
  { destruct HL as (Hs & _). pose proof (dot_mulv_sym n (gL G) v v' Hs) as Sy.
    assert (Em : forall a, mulv n (gL G) (fun a => v a - v' a) a = mulv n (gL G) v a - mulv n (gL G) v' a)
      by (intros a; unfold mulv; rewrite <- rsum_minus; apply rsum_ext; intros; ring).
    transitivity (dot n v (mulv n (gL G) v) - dot n v' (mulv n (gL G) v) - dot n v (mulv n (gL G) v') + dot n v' (mulv n (gL G) v')).
    - unfold quad, dot. rewrite <- !rsum_minus, <- rsum_plus. apply rsum_ext. intros a Ha. rewrite Em. ring.
    - unfold quad. rewrite (dot_comm n v') in *. lra. }
  lra.
Qed.

(** ** Units of the weights *)

Definition scaled (c : R) (G G' : graph) : Prop :=
  g_n_vertices G' = g_n_vertices G /\ g_lap_type G' = g_lap_type G /\
  forall i j, (i < g_n_vertices G)%nat -> (j < g_n_vertices G)%nat -> wt G' i j = c * wt G i j.

Lemma scaled_dw c G G' i : built G -> built G' -> scaled c G G' -> (i < g_n_vertices G)%nat -> dw (gW G') i = c * dw (gW G) i.
Proof.
  intros Hb Hb' (HN & _ & Hw) Hi. rewrite (proj1 (C08_weighted_degree G i Hb Hi)). rewrite (proj1 (C08_weighted_degree G' i Hb' ltac:(lia))). rewrite HN.
  rewrite (rsum_ext _ (fun j => wt G' j i) (fun j => c * wt G j i)) by (intros j Hj; apply Hw; assumption).
  rewrite (rsum_ext _ (fun j => wt G' i j) (fun j => c * wt G i j)) by (intros j Hj; apply Hw; assumption). rewrite !rsum_scal_l. change (fun j => wt G i j) with (wt G i). field.
Qed.

(** Multiplying all the weights by c > 0 multiplies the combinatorial Laplacian by c, and leaves the normalized one unchanged. *)
Theorem C88_scaling_the_weights :
  forall c G G', built G -> built G' -> nonneg_weights G -> 0 < c -> scaled c G G' ->
    forall i j, (i < g_n_vertices G)%nat -> (j < g_n_vertices G)%nat ->
      (g_lap_type G = Combinatorial -> gL G' i j = c * gL G i j) /\ (g_lap_type G = Normalized -> gL G' i j = gL G i j).
Proof.
  intros c G G' Hb Hb' Hp Hc Hs i j Hi Hj. pose proof Hs as (HN & HT & Hw).
  pose proof (scaled_dw c G G' i Hb Hb' Hs Hi) as Di. pose proof (scaled_dw c G G' j Hb Hb' Hs Hj) as Dj. split; intros E.
  - destruct (C09_combinatorial_structure G Hb E) as (_ & _ & O1 & D1). destruct (C09_combinatorial_structure G' Hb' (eq_trans HT E)) as (_ & _ & O2 & D2). rewrite HN in *.
    destruct (Nat.eq_dec i j) as [<-|Hne]; [rewrite D1, D2, Di, Hw by assumption; ring|]. rewrite O1, O2, !Hw by assumption. field.
  - assert (Hp' : nonneg_weights G') by (intros a b Ha Hb1; rewrite HN in *; rewrite Hw by assumption; apply Rmult_le_pos; [lra|apply Hp; assumption]).
    destruct (C11_normalized_entries G Hb E Hp) as (Sy & Hd & Ho & Hz). destruct (C11_normalized_entries G' Hb' (eq_trans HT E) Hp') as (Sy' & Hd' & Ho' & Hz').
    rewrite HN in *.
    assert (Z : forall a, (a < g_n_vertices G)%nat -> 0 <= dw (gW G) a).
    { intros a Ha. rewrite (proj1 (C08_weighted_degree G a Hb Ha)). apply Rmult_le_pos; [|lra]. apply Rplus_le_le_0_compat; apply rsum_nonneg; intros b Hb1; apply Hp; assumption. }
    destruct (Req_dec (dw (gW G) i) 0) as [Zi|Nzi]; [rewrite Hz, Hz' by (try assumption; rewrite ?Di, Zi; ring); reflexivity|].
    destruct (Req_dec (dw (gW G) j) 0) as [Zj|Nzj].
    { rewrite (Sy i j Hi Hj), (Sy' i j Hi Hj). unfold tr. rewrite Hz, Hz' by (try assumption; rewrite ?Dj, Zj; ring). reflexivity. }
    assert (Ni : c * dw (gW G) i <> 0) by (apply Rmult_integral_contrapositive_currified; lra).
    assert (Nj : c * dw (gW G) j <> 0) by (apply Rmult_integral_contrapositive_currified; lra).
    destruct (Nat.eq_dec i j) as [<-|Hij].
    + rewrite Hd by assumption. rewrite Hd' by (try assumption; rewrite Di; assumption). rewrite Di, Hw by assumption. field. split; lra.
    + rewrite Ho by assumption. rewrite Ho' by first [assumption|rewrite Di; assumption|rewrite Dj; assumption].
      rewrite Di, Dj, !Hw by assumption. rewrite !sqrt_mult by (try lra; apply Z; assumption).
      assert (Sc : sqrt c * sqrt c = c) by (apply sqrt_sqrt; lra).
      pose proof (Z i Hi). pose proof (Z j Hj). assert (0 < sqrt (dw (gW G) i)) by (apply sqrt_lt_R0; lra). assert (0 < sqrt (dw (gW G) j)) by (apply sqrt_lt_R0; lra).
      replace (sqrt c * sqrt (dw (gW G) i) * (sqrt c * sqrt (dw (gW G) j))) with (c * (sqrt (dw (gW G) i) * sqrt (dw (gW G) j))) by (rewrite <- Sc at 1; ring).
      field. repeat split; lra.
Qed.

(** Kernels that only depend on x / lmax, like those of Heat, do not see the unit of the weights: the eigenvalues and lmax are
    multiplied by c, and the filtered signals are the same. *)
Theorem C88_filtering_does_not_depend_on_the_unit :
  forall c G G' lmax e U e' U' (gs : list (R -> R -> R)) x, built G -> built G' -> nonneg_weights G -> g_lap_type G = Combinatorial -> 0 < c -> 0 < lmax -> scaled c G G' ->
    (forall g t, In g gs -> g (c * lmax) (c * t) = g lmax t) ->
    let F := mkview (g_n_vertices G) (gL G) lmax e U in let F' := mkview (g_n_vertices G) (gL G') (c * lmax) e' U' in
    spectral F -> spectral F' ->
    e' = map (Rmult c) e /\
    exists out out', gfilter F (map (fun g => pw (g lmax)) gs) Exact (vec_arr (g_n_vertices G) x) = Ok out /\
      gfilter F' (map (fun g => pw (g (c * lmax))) gs) Exact (vec_arr (g_n_vertices G) x) = Ok out' /\
      forall f n, (f < List.length gs)%nat -> (n < g_n_vertices G)%nat -> ans F' (List.length gs) out' f n = ans F (List.length gs) out f n.
Proof.
  intros c G G' lmax e U e' U' gs x Hb Hb' Hp Ht Hc Hl Hs Hg F F' HF HF'.
  set (F2 := mkview (g_n_vertices G) (gL G') (c * lmax) (map (Rmult c) e) U).
  assert (NM : forall k, (k < g_n_vertices G)%nat -> nth k (map (Rmult c) e) 0 = c * nth k e 0).
  { intros k Hk. rewrite (nth_indep _ 0 (c * 0)) by (rewrite map_length; destruct HF as (Hlen & _); cbn in Hlen; lia). apply map_nth. }
  assert (HF2 : spectral F2).
  { destruct HF as (Hlen & [A1 A2 A3 A4]). split; [cbn [v_e v_N F2] in *; rewrite map_length; exact Hlen|]. cbn [v_N v_L v_e v_U F2 F] in *. split; [exact A1|exact A2| |].
    - intros i k Hi Hk. rewrite NM by exact Hk. specialize (A3 i k Hi Hk). cbn beta in A3. rewrite Rmult_assoc, <- A3. unfold mulv. rewrite <- rsum_scal_l. apply rsum_ext. intros j Hj.
      rewrite (proj1 (C88_scaling_the_weights c G G' Hb Hb' Hp Hc Hs i j Hi Hj) Ht). ring.
    - intros k l Hkl Hl'. rewrite !NM by lia. apply Rmult_le_compat_l; [lra|]. apply A4; assumption. }
  pose proof (C82_eigenvalues_are_unique F2 F' HF2 HF' eq_refl (fun i j _ _ => eq_refl)) as Ee. cbn [v_e F2 F'] in Ee. split; [exact Ee|].
  assert (M : forall a, map (fun g => pw (g a)) gs = map pw (map (fun g => g a) gs)) by (intros a; rewrite map_map; reflexivity).
  rewrite !M.
  destruct (one_signal F _ _ _ x HF (response_pw F (map (fun g => g lmax) gs) HF)) as (out & E & _ & Ho).
  destruct (one_signal F' _ _ _ x HF' (response_pw F' (map (fun g => g (c * lmax)) gs) HF')) as (out' & E' & _ & Ho').
  rewrite !map_length in *. exists out, out'. split; [exact E|]. split; [exact E'|]. intros f n Hf Hn. rewrite (Ho f n Hn Hf), (Ho' f n Hn Hf).
  assert (N1 : forall a k, nth f (map (fun g => g a) gs) (fun _ => 0) k = nth f gs (fun _ _ => 0) a k).
  { intros a k. pose proof (map_nth (fun g : R -> R -> R => g a) gs (fun _ _ => 0) f) as Q. cbn beta in Q. rewrite Q. reflexivity. }
  rewrite (mult_unique F2 F' _ x n HF2 HF' eq_refl (fun i j _ _ => eq_refl)); [| |exact Hn].
  - unfold mult. cbn [v_N v_U F2 F]. apply rsum_ext. intros k Hk. rewrite !N1. cbn [v_e F']. rewrite Ee, (NM k Hk).
    rewrite (Hg (nth f gs (fun _ _ => 0)) (nth k e 0)) by (apply nth_In; exact Hf). reflexivity.
  - intros k l Hk Hl' Ekl. cbn [v_e F' F2] in *. rewrite Ee, Ekl. reflexivity.
Qed.
Corollary C88_heat_does_not_depend_on_the_unit :
  forall c G G' lmax e U e' U' scale x, built G -> built G' -> nonneg_weights G -> g_lap_type G = Combinatorial -> 0 < c -> 0 < lmax -> scaled c G G' ->
    let F := mkview (g_n_vertices G) (gL G) lmax e U in let F' := mkview (g_n_vertices G) (gL G') (c * lmax) e' U' in
    spectral F -> spectral F' ->
    exists out out', gfilter F (Heat F scale false) Exact (vec_arr (g_n_vertices G) x) = Ok out /\
      gfilter F' (Heat F' scale false) Exact (vec_arr (g_n_vertices G) x) = Ok out' /\
      forall f n, (f < List.length (pvals scale))%nat -> (n < g_n_vertices G)%nat ->
        ans F' (List.length (pvals scale)) out' f n = ans F (List.length (pvals scale)) out f n.
Proof.
  intros c G G' lmax e U e' U' scale x Hb Hb' Hp Ht Hc Hl Hs F F' HF HF'.
  destruct (C88_filtering_does_not_depend_on_the_unit c G G' lmax e U e' U' (map (fun s l u => heat_fun l s u / 1) (pvals scale)) x Hb Hb' Hp Ht Hc Hl Hs) as (_ & out & out' & E & E' & Ho).
  - intros g t Hin. apply in_map_iff in Hin. destruct Hin as (s & <- & _). unfold heat_fun. replace (- s * (c * t) / (c * lmax)) with (- s * t / lmax) by (field; lra). reflexivity.
  - exact HF.
  - exact HF'.
  - rewrite map_length in Ho. exists out, out'. rewrite map_map in E, E'. split; [exact E|]. split; [exact E'|]. exact Ho.
Qed.

(** A graph of two vertices joined by an edge of weight 1, and the same edge with weight 2. *)
Example C88_ex : exists G G', built G /\ built G' /\ nonneg_weights G /\ g_lap_type G = Combinatorial /\ g_lap_type G' = Combinatorial /\ connected G /\
  g_n_vertices G' = g_n_vertices G /\ (forall i j, (i < g_n_vertices G)%nat -> (j < g_n_vertices G)%nat -> wt G i j <= wt G' i j) /\
  scaled 2 G G' /\ (exists o, inv_contract (g_n_vertices G) (gL G) o) /\ (exists o, inv_contract (g_n_vertices G') (gL G') o).
Proof.
  destruct (finite_entry_built 2 [0; 1; 1; 0] Combinatorial None eq_refl (or_introl eq_refl)) as (G & _ & Hb & Hn & Ht & _ & Hw).
  destruct (finite_entry_built 2 [0; 2; 2; 0] Combinatorial None eq_refl (or_introl eq_refl)) as (G' & _ & Hb' & Hn' & Ht' & _ & Hw').
  destruct (k2_lap G Hb Hn Hw) as (Hp & _ & L00 & L11 & L01 & L10).
  exists G, G'. split; [exact Hb|]. split; [exact Hb'|]. split; [exact Hp|]. split; [exact Ht|]. split; [exact Ht'|]. split; [apply (k2_connected G Hb Hn Hw)|].
  split; [lia|]. rewrite Hn.
  assert (E : forall i j, (i < 2)%nat -> (j < 2)%nat -> wt G' i j = 2 * wt G i j).
  { intros i j Hi Hj. rewrite Hw, Hw' by assumption. destruct i as [|[|i]]; try lia; destruct j as [|[|j]]; try lia; cbn; lra. }
  split; [intros i j Hi Hj; rewrite (E i j Hi Hj); assert (0 <= wt G i j) by (apply Hp; lia); lra|].
  split; [split; [lia|]; split; [congruence|]; rewrite Hn; exact E|]. rewrite Hn'.
  assert (P2 : forall w L, w <> 0 -> L 0%nat 0%nat = w -> L 1%nat 1%nat = w -> L 0%nat 1%nat = - w -> L 1%nat 0%nat = - w -> exists o, inv_contract 2 L o).
  { intros w L Hw0 A B C D. exists (InvSingular (fun i j => if Nat.eqb i j then / (4 * w) else - / (4 * w))). cbn [inv_contract]. unfold pinv, meq, symmetric, meq, tr, mulm.
    repeat split; intros i j Hi Hj; (destruct i as [|[|i]]; [| |lia]); (destruct j as [|[|j]]; [| |lia]); cbn [rsum Nat.eqb]; rewrite ?A, ?B, ?C, ?D; field; exact Hw0. }
  split; [apply (P2 1); lra|].
  destruct (C09_combinatorial_structure G' Hb' Ht') as (_ & R & O & _). rewrite Hn' in R, O.
  pose proof (O 0%nat 1%nat ltac:(lia) ltac:(lia) ltac:(lia)) as O01. pose proof (O 1%nat 0%nat ltac:(lia) ltac:(lia) ltac:(lia)) as O10.
  pose proof (R 0%nat ltac:(lia)) as R0. pose proof (R 1%nat ltac:(lia)) as R1. cbn [rsum] in R0, R1. rewrite !Hw' in O01, O10 by lia. cbn [nth Nat.mul Nat.add] in O01, O10.
  apply (P2 2); lra.
Qed.

(** ** The contract of the pseudo-inverse can always be met *)

Section Functions.
  Variables (n : nat) (A : mat) (e : vec) (U : mat).
  Hypothesis HU : eigh_ok n A e U.
  Let fm (h : vec) : mat := fun i j => \sum_(k < n) (U i k * h k * U j k).
  Lemma fm_mul h h' i j : (i < n)%nat -> (j < n)%nat -> mulm n (fm h) (fm h') i j = fm (fun k => h k * h' k) i j.
  Proof.
    intros Hi Hj. unfold mulm, fm. rewrite (rsum_ext n _ (fun l => \sum_(k < n) \sum_(m < n) (U i k * h k * (U l k * U l m) * (h' m * U j m)))).
    2:{ intros l Hl. rewrite <- rsum_scal_r. apply rsum_ext. intros k Hk. rewrite <- rsum_scal_l. apply rsum_ext. intros m Hm. ring. }
    rewrite rsum_swap. apply rsum_ext. intros k Hk. rewrite rsum_swap.
    rewrite (rsum_ext n _ (fun m => if Nat.eqb k m then U i k * h k * (h' m * U j m) else 0)).
    - rewrite (rsum_single n _ k Hk); [rewrite Nat.eqb_refl; ring|]. intros m Hm Hne. destruct (Nat.eqb_spec k m); [congruence|reflexivity].
    - intros m Hm. pose proof (eigh_cols _ _ _ _ HU k m Hk Hm) as O. unfold dot in O.
      rewrite (rsum_ext n _ (fun l => U i k * h k * (h' m * U j m) * (U l k * U l m))) by (intros; ring). rewrite rsum_scal_l, O. unfold idm. destruct (Nat.eqb k m); ring.
  Qed.
  Lemma fm_A i j : (i < n)%nat -> (j < n)%nat -> A i j = fm e i j.
  Proof. intros Hi Hj. rewrite (eigh_entry n A e U HU i j Hi Hj). unfold fm. apply rsum_ext. intros; ring. Qed.
  Lemma fm_sym h i j : fm h i j = fm h j i.
  Proof. unfold fm. apply rsum_ext. intros; ring. Qed.
  Lemma fm_ext h h' i j : (forall k, (k < n)%nat -> h k = h' k) -> fm h i j = fm h' i j.
  Proof. intros H. unfold fm. apply rsum_ext. intros k Hk. rewrite (H k Hk). reflexivity. Qed.
  Lemma pinv_of : pinv n A (fm (fun k => if Req_EM_T (e k) 0 then 0 else / e k)).
  Proof.
    set (h := fun k => if Req_EM_T (e k) 0 then 0 else / e k).
    assert (MA : forall B i j, (i < n)%nat -> mulm n A B i j = mulm n (fm e) B i j) by (intros B i j Hi; unfold mulm; apply rsum_ext; intros k Hk; rewrite fm_A by assumption; reflexivity).
    assert (MB : forall B B' C i j, (i < n)%nat -> (j < n)%nat -> (forall k, (k < n)%nat -> B k j = B' k j) -> mulm n C B i j = mulm n C B' i j)
      by (intros B B' C i j Hi Hj H; unfold mulm; apply rsum_ext; intros k Hk; rewrite H by exact Hk; reflexivity).
    assert (E1 : forall i j, (i < n)%nat -> (j < n)%nat -> mulm n (fm h) A i j = fm (fun k => h k * e k) i j).
    { intros i j Hi Hj. rewrite (MB A (fm e)) by (try assumption; intros k Hk; apply fm_A; assumption). apply fm_mul; assumption. }
    assert (E2 : forall i j, (i < n)%nat -> (j < n)%nat -> mulm n A (fm h) i j = fm (fun k => e k * h k) i j) by (intros i j Hi Hj; rewrite MA by exact Hi; apply fm_mul; assumption).
    assert (H0 : forall k, h k * e k = if Req_EM_T (e k) 0 then 0 else 1) by (intros k; unfold h; destruct (Req_EM_T (e k) 0); [ring|field; assumption]).
    split; [|split; [|split]].
    - intros i j Hi Hj. rewrite (MB _ (fm (fun k => h k * e k))) by (try assumption; intros k Hk; apply E1; assumption). rewrite MA, fm_mul, fm_A by assumption.
      apply fm_ext. intros k Hk. rewrite H0. destruct (Req_EM_T (e k) 0) as [->|]; ring.
    - intros i j Hi Hj. rewrite (MB _ (fm (fun k => e k * h k))) by (try assumption; intros k Hk; apply E2; assumption). rewrite fm_mul by assumption.
      apply fm_ext. intros k Hk. rewrite (Rmult_comm (e k)), H0. unfold h. destruct (Req_EM_T (e k) 0); ring.
    - intros i j Hi Hj. unfold tr. rewrite !E2 by assumption. apply fm_sym.
    - intros i j Hi Hj. unfold tr. rewrite !E1 by assumption. apply fm_sym.
  Qed.
End Functions.

(** Every Laplacian has a pseudo-inverse: resistance_distance can always be answered. *)
Theorem C34_a_pseudo_inverse_exists : forall G, built G -> exists P, inv_contract (g_n_vertices G) (gL G) (InvSingular P).
Proof.
  intros G Hb. destruct (spectral_theorem _ _ (built_symmetric G Hb)) as (e & U & HU). eexists. cbn [inv_contract]. exact (pinv_of _ _ _ _ HU).
Qed.
