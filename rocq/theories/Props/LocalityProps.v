(** Property C85: filters are local. *)
From Coq Require Import Reals Lra Lia Arith Bool String ZArith Classical List.
From Verif.Base Require Import RSum Prelude LinAlg Spectral.
From Verif.Spec Require Import Matrix GraphSpec NdArray FilterSpec Reach HopSpec.
From Verif.Model Require Import Sparse Graph Traverse Cache Filter Operators.
From Verif.Proofs Require Import SparseFacts InitFacts EdgeFacts LapFacts SpectralFacts SpectrumFacts FilterFacts ChebFacts.
From Verif.Props Require Import Core Laplacian Caching Filtering Banks SpectrumProps.
Import ListNotations.
Open Scope R_scope.

(** The Laplacian, of either type, only couples vertices joined by an edge. *)
Lemma lap_linked G i j : built G -> (i < g_n_vertices G)%nat -> (j < g_n_vertices G)%nat -> i <> j -> ~ linked G i j -> gL G i j = 0.
Proof.
  intros Hb Hi Hj Hne Hl. destruct (built_good G Hb) as (Hg & Hn & _ & HL).
  assert (Z1 : get (gW G) i j = 0) by (destruct (Req_dec (wt G i j) 0) as [E|E]; [exact E|exfalso; apply Hl; repeat split; auto]).
  assert (Z2 : get (gW G) j i = 0) by (destruct (Req_dec (wt G j i) 0) as [E|E]; [exact E|exfalso; apply Hl; repeat split; auto]).
  assert (Hv : valid_lap (g_lap_type G)) by (apply (laplacian_ok (gW G)); eauto).
  assert (Zw : wlap (gW G) i j = 0) by (unfold wlap; rewrite Z1, Z2; destruct (is_directed (gW G)); lra).
  destruct Hv as [E|E]; [rewrite (built_comb G Hb E); unfold lap_comb|rewrite (built_norm G Hb E); unfold lap_norm, idm];
    destruct (Nat.eqb_spec i j); try lia; cbn [andb]; rewrite Zw; ring.
Qed.

Lemma lap_local G y n : built G -> (n < g_n_vertices G)%nat ->
  (forall i, (i < g_n_vertices G)%nat -> i = n \/ linked G n i -> y i = 0) -> mulv (g_n_vertices G) (gL G) y n = 0.
Proof.
  intros Hb Hn Hy. unfold mulv. apply rsum_0. intros j Hj.
  destruct (Nat.eq_dec j n) as [->|Hne]; [rewrite (Hy n Hn (or_introl eq_refl)); ring|].
  destruct (Req_dec (gL G n j) 0) as [->|HL]; [ring|]. rewrite (Hy j Hj); [ring|]. right.
  destruct (Req_dec (wt G n j) 0) as [E1|E1]; [|repeat split; auto].
  destruct (Req_dec (wt G j n) 0) as [E2|E2]; [|repeat split; auto].
  exfalso. apply HL. apply lap_linked; auto. intros (_ & _ & [H|H]); contradiction.
Qed.

Section Local.
  Variables (G : graph) (lmax : R) (e : list R) (U : mat).
  Hypothesis Hb : built G.
  Let F := mkview (g_n_vertices G) (gL G) lmax e U.
  Hypothesis HF : spectral F.
  Local Notation N := (g_n_vertices G).
  Let t (k : nat) : R := 2 * nth k e 0 / lmax - 1.
  Hypothesis Hl : 0 < lmax.

  Lemma mult_shift h d n : (n < N)%nat -> mult F (fun k => t k * h k) d n = 2 / lmax * mulv N (gL G) (mult F h d) n - mult F h d n.
  Proof.
    intros Hn. pose proof (mulv_mult F HF h d n Hn) as E. cbn [v_N v_L v_e F] in E. rewrite E.
    transitivity (2 / lmax * mult F (fun k => nth k e 0 * h k) d n + -1 * mult F h d n); [|ring].
    rewrite <- mult_lin_h. apply mult_ext; [|intros i Hi; reflexivity]. intros k Hk. unfold t. field. lra.
  Qed.

  Lemma cheb_local k : forall d n, (n < N)%nat -> (forall i, (i < N)%nat -> within (linked G) k n i -> d i = 0) -> mult F (fun l => chebT k (t l)) d n = 0.
  Proof.
    assert (H2 : forall k, (forall d n, (n < N)%nat -> (forall i, (i < N)%nat -> within (linked G) k n i -> d i = 0) -> mult F (fun l => chebT k (t l)) d n = 0) /\
                           (forall d n, (n < N)%nat -> (forall i, (i < N)%nat -> within (linked G) (S k) n i -> d i = 0) -> mult F (fun l => chebT (S k) (t l)) d n = 0)).
    2:{ apply H2. }
    clear k. intros k. induction k as [|k (IH0 & IH1)].
    - assert (B : forall d n, (n < N)%nat -> (forall i, (i < N)%nat -> within (linked G) 0 n i -> d i = 0) -> mult F (fun l => chebT 0 (t l)) d n = 0).
      { intros d n Hn Hd. cbn [chebT]. rewrite (mult_1 F HF d n Hn). apply Hd; [exact Hn|apply within_here]. }
      split; [exact B|]. intros d n Hn Hd.
      rewrite (mult_ext F _ (fun k => t k * chebT 0 (t k)) d d n); [|intros k Hk; cbn [chebT]; ring|intros i Hi; reflexivity].
      rewrite (mult_shift _ d n Hn), B; [|exact Hn|intros i Hi Hw; apply Hd; [exact Hi|apply (within_mono _ _ _ _ Hw); lia]].
      rewrite lap_local; [ring|exact Hb|exact Hn|]. intros i Hi [->|Hli].
      + apply B; [exact Hn|]. intros j Hj Hw. apply Hd; [exact Hj|apply (within_mono _ _ _ _ Hw); lia].
      + apply B; [exact Hi|]. intros j Hj Hw. apply Hd; [exact Hj|]. eapply within_step; eassumption.
    - split; [exact IH1|]. intros d n Hn Hd.
      rewrite (mult_ext F _ (fun l => 2 * (t l * chebT (S k) (t l)) + -1 * chebT k (t l)) d d n); [|intros l Hl'; rewrite chebT_SS; ring|intros i Hi; reflexivity].
      rewrite mult_lin_h, (mult_shift _ d n Hn).
      rewrite IH0; [|exact Hn|intros i Hi Hw; apply Hd; [exact Hi|apply (within_mono _ _ _ _ Hw); lia]].
      rewrite IH1; [|exact Hn|intros i Hi Hw; apply Hd; [exact Hi|apply (within_mono _ _ _ _ Hw); lia]].
      rewrite lap_local; [ring|exact Hb|exact Hn|]. intros i Hi [->|Hli].
      + apply IH1; [exact Hn|]. intros j Hj Hw. apply Hd; [exact Hj|apply (within_mono _ _ _ _ Hw); lia].
      + apply IH1; [exact Hi|]. intros j Hj Hw. apply Hd; [exact Hj|]. eapply within_step; eassumption.
  Qed.

  Lemma series_local c o x x' n : List.length c = S o -> (n < N)%nat -> (forall i, (i < N)%nat -> within (linked G) o n i -> x i = x' i) ->
    mult F (fun k => cheb_series c (t k)) x n = mult F (fun k => cheb_series c (t k)) x' n.
  Proof.
    intros Hc Hn Hx. apply Rminus_diag_uniq.
    transitivity (mult F (fun k => cheb_series c (t k)) (fun i => 1 * x i + -1 * x' i) n); [rewrite mult_lin_x; ring|].
    assert (Hd : forall k, (k <= o)%nat -> mult F (fun l => chebT k (t l)) (fun i => 1 * x i + -1 * x' i) n = 0).
    { intros k Hk. apply cheb_local; [exact Hn|]. intros i Hi Hw. rewrite (Hx i Hi); [ring|]. apply (within_mono _ _ _ _ Hw). exact Hk. }
    rewrite (mult_ext F _ (fun k => nth 0 c 0 / 2 * chebT 0 (t k) + 1 * (\sum_(j < o) (nth (S j) c 0 * chebT (S j) (t k)))) _ (fun i => 1 * x i + -1 * x' i) n);
      [|intros k Hk; unfold cheb_series; rewrite Hc; replace (S o - 1)%nat with o by lia; cbn [chebT]; ring|intros i Hi; reflexivity].
    rewrite mult_lin_h, mult_sum_h, (Hd 0%nat) by lia. rewrite rsum_0; [ring|]. intros j Hj.
    rewrite (mult_ext F _ (fun k => nth (S j) c 0 * chebT (S j) (t k) + 0 * 0) _ (fun i => 1 * x i + -1 * x' i) n); [|intros k Hk; ring|intros i Hi; reflexivity].
    rewrite mult_lin_h, (Hd (S j)) by lia. ring.
  Qed.
End Local.

(** The Chebyshev method never reads the Fourier basis. *)
Lemma cheb_no_basis n L lmax e U e' U' ks o s : gfilter (mkview n L lmax e U) ks (Chebyshev o) s = gfilter (mkview n L lmax e' U') ks (Chebyshev o) s.
Proof. reflexivity. Qed.

Lemma cheb_response F ks o c : (1 <= o)%nat -> 0 < v_lmax F -> compute_cheby_coeff (v_lmax F) ks o None = Ok c ->
  response F ks (Chebyshev o) (fun f k => cheb_series (nth f c []) (2 * nth k (v_e F) 0 / v_lmax F - 1)).
Proof. intros Ho Hl Hc. exists c. split; [exact Hc|]. split; [exact Ho|]. split; [exact Hl|]. intros; reflexivity. Qed.

(** Analysis by polynomials of order o: what comes out at vertex n only depends on the values of the signal at the vertices that
    are at most o hops away from n.  No Fourier basis is involved. *)
Theorem C85_chebyshev_analysis_is_local :
  forall G lmax e U ks o c s s' v sig sig' n, built G -> 0 < lmax -> (1 <= o)%nat -> compute_cheby_coeff lmax ks o None = Ok c ->
    let F := mkview (g_n_vertices G) (gL G) lmax e U in
    batch (g_n_vertices G) (List.length ks) s v sig -> batch (g_n_vertices G) (List.length ks) s' v sig' -> (n < g_n_vertices G)%nat ->
    (forall j i, (j < v)%nat -> (i < g_n_vertices G)%nat -> within (linked G) o n i -> sig j i = sig' j i) ->
    exists out out', gfilter F ks (Chebyshev o) s = Ok out /\ gfilter F ks (Chebyshev o) s' = Ok out' /\
      forall j f, (j < v)%nat -> (f < List.length ks)%nat ->
        rd [g_n_vertices G; v; List.length ks] out [n; j; f] = rd [g_n_vertices G; v; List.length ks] out' [n; j; f].
Proof.
  intros G lmax e U ks o c s s' v sig sig' n Hb Hl Ho Hc F Hs Hs' Hn Hag.
  destruct (C82_every_graph_has_a_fourier_basis G lmax Hb) as (e' & U' & HF'). set (F' := mkview (g_n_vertices G) (gL G) lmax e' U') in *.
  pose proof (cheb_response F' ks o c Ho Hl Hc) as Hr.
  destruct (C19_analysis_multiplies_the_spectrum F' ks _ _ s v sig HF' Hr Hs) as (out & E & _ & Hout).
  destruct (C19_analysis_multiplies_the_spectrum F' ks _ _ s' v sig' HF' Hr Hs') as (out' & E' & _ & Hout').
  exists out, out'. split; [exact E|]. split; [exact E'|]. intros j f Hj Hf. change (v_N F') with (g_n_vertices G) in *.
  rewrite Hout, Hout' by assumption. destruct (coeff_len F' ks o None c Hc) as (Hlen & Hrow).
  apply (series_local G lmax e' U' Hb HF' Hl _ o); [|exact Hn|intros i Hi Hw; apply Hag; assumption].
  apply Hrow. apply nth_In. rewrite Hlen. exact Hf.
Qed.

(** The same for synthesis. *)
Theorem C85_chebyshev_synthesis_is_local :
  forall G lmax e U ks o c s s' v sig sig' n, built G -> 0 < lmax -> (1 <= o)%nat -> compute_cheby_coeff lmax ks o None = Ok c ->
    let F := mkview (g_n_vertices G) (gL G) lmax e U in
    fbatch (g_n_vertices G) (List.length ks) s v sig -> fbatch (g_n_vertices G) (List.length ks) s' v sig' -> (n < g_n_vertices G)%nat ->
    (forall j f i, (j < v)%nat -> (f < List.length ks)%nat -> (i < g_n_vertices G)%nat -> within (linked G) o n i -> sig j f i = sig' j f i) ->
    exists out out', gfilter F ks (Chebyshev o) s = Ok out /\ gfilter F ks (Chebyshev o) s' = Ok out' /\
      forall j, (j < v)%nat -> rd [g_n_vertices G; v; 1%nat] out [n; j; 0%nat] = rd [g_n_vertices G; v; 1%nat] out' [n; j; 0%nat].
Proof.
  intros G lmax e U ks o c s s' v sig sig' n Hb Hl Ho Hc F Hs Hs' Hn Hag.
  destruct (C82_every_graph_has_a_fourier_basis G lmax Hb) as (e' & U' & HF'). set (F' := mkview (g_n_vertices G) (gL G) lmax e' U') in *.
  pose proof (cheb_response F' ks o c Ho Hl Hc) as Hr.
  destruct (C19_synthesis_sums_the_filtered_features F' ks _ _ s v sig HF' Hr Hs) as (out & E & _ & Hout).
  destruct (C19_synthesis_sums_the_filtered_features F' ks _ _ s' v sig' HF' Hr Hs') as (out' & E' & _ & Hout').
  exists out, out'. split; [exact E|]. split; [exact E'|]. intros j Hj. change (v_N F') with (g_n_vertices G) in *.
  rewrite Hout, Hout' by assumption. apply rsum_ext. intros f Hf. destruct (coeff_len F' ks o None c Hc) as (Hlen & Hrow).
  apply (series_local G lmax e' U' Hb HF' Hl _ o); [|exact Hn|intros i Hi Hw; apply Hag; assumption].
  apply Hrow. apply nth_In. rewrite Hlen. exact Hf.
Qed.

(** What g @ s and g.toarray() do when nothing else is asked for: the order 30 Chebyshev method, that never reads the Fourier basis,
    so that the answer at vertex n only depends on the values at the vertices at most 30 hops away from n. *)
Theorem C85_matmul_is_local :
  forall G lmax e U g c s s' v sig sig' n, built G -> 0 < lmax -> b_graph g = mkview (g_n_vertices G) (gL G) lmax e U ->
    compute_cheby_coeff lmax (b_kernels g) 30 None = Ok c ->
    batch (g_n_vertices G) (n_filters g) s v sig -> batch (g_n_vertices G) (n_filters g) s' v sig' -> (n < g_n_vertices G)%nat ->
    (forall j i, (j < v)%nat -> (i < g_n_vertices G)%nat -> within (linked G) 30 n i -> sig j i = sig' j i) ->
    exists out out', matmul g s = Ok out /\ matmul g s' = Ok out' /\
      forall j f, (j < v)%nat -> (f < n_filters g)%nat ->
        rd [g_n_vertices G; v; n_filters g] out [n; j; f] = rd [g_n_vertices G; v; n_filters g] out' [n; j; f].
Proof.
  intros G lmax e U g c s s' v sig sig' n Hb Hl EF Hc Hs Hs' Hn Hag. unfold matmul, filter_of, n_filters in *. rewrite EF.
  apply (C85_chebyshev_analysis_is_local G lmax e U (b_kernels g) 30 c s s' v sig sig' n Hb Hl ltac:(lia) Hc Hs Hs' Hn Hag).
Qed.

Theorem C85_operators_never_read_the_basis :
  forall g g' s, b_kernels g = b_kernels g' -> v_N (b_graph g) = v_N (b_graph g') -> v_L (b_graph g) = v_L (b_graph g') ->
    v_lmax (b_graph g) = v_lmax (b_graph g') ->
    matmul g s = matmul g' s /\ toarray g = toarray g'.
Proof.
  intros [G k ks] [G' k' ks'] s. cbn. intros <-. destruct G, G'. cbn. intros -> -> ->. split; reflexivity.
Qed.

(** An atom localized at i vanishes at every vertex more than o hops away. *)
Theorem C85_atoms_have_bounded_support :
  forall G lmax e U ks o c i, built G -> 0 < lmax -> (1 <= o)%nat -> compute_cheby_coeff lmax ks o None = Ok c -> (i < g_n_vertices G)%nat ->
    let F := mkview (g_n_vertices G) (gL G) lmax e U in
    exists a, localize F ks (Chebyshev o) (Z.of_nat i) = Ok a /\
      forall n f, (n < g_n_vertices G)%nat -> (f < List.length ks)%nat -> ~ within (linked G) o n i -> ans F (List.length ks) a f n = 0.
Proof.
  intros G lmax e U ks o c i Hb Hl Ho Hc Hi F.
  destruct (C82_every_graph_has_a_fourier_basis G lmax Hb) as (e' & U' & HF'). set (F' := mkview (g_n_vertices G) (gL G) lmax e' U') in *.
  pose proof (cheb_response F' ks o c Ho Hl Hc) as Hr.
  destruct (C26_localize F' ks _ _ i HF' Hr Hi) as (a & E & _ & Ha). exists a. split; [exact E|]. intros n f Hn Hf Hw.
  change (ans F (List.length ks) a f n) with (ans F' (List.length ks) a f n). rewrite Ha by assumption.
  destruct (coeff_len F' ks o None c Hc) as (Hlen & Hrow). cbn beta.
  change (fun k => cheb_series (nth f c []) (2 * nth k (v_e F') 0 / v_lmax F' - 1)) with (fun k => cheb_series (nth f c []) (2 * nth k e' 0 / lmax - 1)).
  rewrite (series_local G lmax e' U' Hb HF' Hl _ o _ (fun _ => 0)); [|apply Hrow; apply nth_In; rewrite Hlen; exact Hf|exact Hn|].
  - unfold mult, fhat. rewrite rsum_0; [ring|]. intros k Hk. rewrite (rsum_0 _ (fun i => v_U F' i k * 0)); [ring|]. intros; ring.
  - intros m Hm Hwm. destruct (Nat.eqb_spec m i) as [->|_]; [contradiction|reflexivity].
Qed.

(** ** Components do not mix *)

(** A matrix that commutes with A commutes with every function of A. *)
Lemma commuting n A e U (h : vec) B : eigh_ok n A e U ->
  (forall k l, (k < n)%nat -> (l < n)%nat -> e k = e l -> h k = h l) ->
  (forall x i, (i < n)%nat -> mulv n A (mulv n B x) i = mulv n B (mulv n A x) i) ->
  forall x i, (i < n)%nat ->
    mulv n B (fun i => \sum_(k < n) (U i k * (h k * coef n U x k))) i = \sum_(k < n) (U i k * (h k * coef n U (mulv n B x) k)).
Proof.
  intros HU Hh HB x i Hi.
  set (M := fun l k => coef n U (mulv n B (fun j => U j k)) l).
  assert (HM : forall l k, (l < n)%nat -> (k < n)%nat -> h l * M l k = M l k * h k).
  { intros l k Hll Hk. destruct (Req_dec (e l) (e k)) as [E|Hne]; [rewrite (Hh l k Hll Hk E); ring|].
    assert (E : e l * M l k = e k * M l k).
    { unfold M at 1. rewrite <- (coef_mulv n A e U HU _ l Hll). unfold M. unfold coef. rewrite <- rsum_scal_l. apply rsum_ext. intros j Hj.
      rewrite (HB _ j Hj). unfold mulv at 1. rewrite (rsum_ext n _ (fun a => e k * (B j a * U a k))).
      - rewrite rsum_scal_l. unfold mulv. ring.
      - intros a Ha. rewrite (eigh_eig n A e U HU a k Ha Hk). ring. }
    assert (Z : (e l - e k) * M l k = 0) by lra. apply Rmult_integral in Z. destruct Z as [Z|Z]; [lra|]. rewrite Z. ring. }
  assert (EB : forall c a, (a < n)%nat -> mulv n B (fun i => \sum_(k < n) (U i k * c k)) a = \sum_(l < n) (U a l * \sum_(k < n) (M l k * c k))).
  { intros c a Ha. unfold mulv at 1. rewrite (rsum_ext n _ (fun j => \sum_(k < n) (B a j * U j k * c k))).
    2:{ intros j Hj. rewrite <- rsum_scal_l. apply rsum_ext. intros k Hk. ring. }
    rewrite rsum_swap. rewrite (rsum_ext n _ (fun k => c k * mulv n B (fun j => U j k) a)).
    2:{ intros k Hk. unfold mulv. rewrite <- rsum_scal_l. apply rsum_ext. intros j Hj. ring. }
    rewrite (rsum_ext n _ (fun k => \sum_(l < n) (U a l * (M l k * c k)))).
    2:{ intros k Hk. rewrite <- (eigh_expand n A e U HU (mulv n B (fun j => U j k)) a Ha). fold (M). rewrite <- rsum_scal_l. apply rsum_ext. intros l Hll. unfold M. ring. }
    rewrite rsum_swap. apply rsum_ext. intros l Hll. rewrite <- rsum_scal_l. reflexivity. }
  rewrite EB by exact Hi. apply rsum_ext. intros l Hll. f_equal.
  assert (EC : coef n U (mulv n B x) l = \sum_(k < n) (M l k * coef n U x k)).
  { rewrite (rsum_ext n (fun k => M l k * coef n U x k) (fun k => \sum_(a < n) (M l k * (U a k * x a)))) by (intros k Hk; unfold coef; rewrite rsum_scal_l; reflexivity).
    unfold coef. rewrite (rsum_ext n _ (fun j => U j l * mulv n B (fun i => \sum_(k < n) (U i k * coef n U x k)) j)).
    - rewrite (rsum_ext n _ (fun j => U j l * \sum_(m < n) (U j m * \sum_(k < n) (M m k * coef n U x k)))) by (intros j Hj; rewrite EB by exact Hj; reflexivity).
      change (coef n U (fun j => \sum_(m < n) (U j m * \sum_(k < n) (M m k * coef n U x k))) l = \sum_(k < n) \sum_(a < n) (M l k * (U a k * x a))).
      rewrite (coef_synth n A e U HU (fun m => \sum_(k < n) (M m k * coef n U x k)) l Hll). apply rsum_ext. intros k Hk. unfold coef. rewrite rsum_scal_l. reflexivity.
    - intros j Hj. f_equal. apply mulv_ext; [intros; reflexivity|]. intros a Ha. symmetry. apply (eigh_expand n A e U HU x a Ha). }
  rewrite EC, <- rsum_scal_l. apply rsum_ext. intros k Hk. rewrite <- !Rmult_assoc, (HM l k Hll Hk). ring.
Qed.

Lemma indicator (P : nat -> Prop) n : exists p : vec, forall i, (i < n)%nat -> (P i /\ p i = 1) \/ (~ P i /\ p i = 0).
Proof.
  induction n as [|n (p & IH)]; [exists (fun _ => 0); intros; lia|].
  destruct (classic (P n)) as [H|H]; [exists (fun i => if Nat.eqb i n then 1 else p i)|exists (fun i => if Nat.eqb i n then 0 else p i)];
    intros i Hi; destruct (Nat.eqb_spec i n) as [->|Hne]; auto; apply IH; lia.
Qed.

Lemma mult_component G lmax e U h x x' n : built G -> let F := mkview (g_n_vertices G) (gL G) lmax e U in spectral F ->
  (forall k l, (k < g_n_vertices G)%nat -> (l < g_n_vertices G)%nat -> nth k e 0 = nth l e 0 -> h k = h l) -> (n < g_n_vertices G)%nat ->
  (forall i, (i < g_n_vertices G)%nat -> reach (linked G) n i -> x i = x' i) -> mult F h x n = mult F h x' n.
Proof.
  intros Hb F (Hlen & HU) Hh Hn Hx. cbn [v_N v_L v_e v_U F] in *. set (N := g_n_vertices G) in *.
  destruct (indicator (reach (linked G) n) N) as (p & Hp).
  set (B := fun i j => if Nat.eqb i j then p i else 0).
  assert (EB : forall y i, (i < N)%nat -> mulv N B y i = p i * y i).
  { intros y i Hi. unfold mulv, B. rewrite (rsum_single N (fun j => (if Nat.eqb i j then p i else 0) * y j) i Hi).
    - rewrite Nat.eqb_refl. reflexivity.
    - intros j Hj Hne. destruct (Nat.eqb_spec i j); [congruence|ring]. }
  assert (HC : forall y i, (i < N)%nat -> mulv N (gL G) (mulv N B y) i = mulv N B (mulv N (gL G) y) i).
  { intros y i Hi. rewrite (EB (mulv N (gL G) y) i Hi). unfold mulv at 1 3. rewrite <- rsum_scal_l. apply rsum_ext. intros j Hj. rewrite (EB y j Hj).
    destruct (Nat.eq_dec i j) as [<-|Hne]; [ring|]. destruct (Req_dec (gL G i j) 0) as [->|HL]; [ring|].
    assert (Hlk : linked G i j).
    { destruct (Req_dec (wt G i j) 0) as [E1|E1]; [|repeat split; auto]. destruct (Req_dec (wt G j i) 0) as [E2|E2]; [|repeat split; auto].
      exfalso. apply HL. apply lap_linked; auto. intros (_ & _ & [Q|Q]); contradiction. }
    assert (Hlk' : linked G j i) by (destruct Hlk as (A1 & A2 & [A3|A3]); repeat split; auto).
    assert (p i = p j); [|rewrite H; ring].
    destruct (Hp i Hi) as [(R1 & ->)|(R1 & ->)]; destruct (Hp j Hj) as [(R2 & ->)|(R2 & ->)]; try reflexivity; exfalso.
    - apply R2. eapply reach_step; eassumption.
    - apply R1. eapply reach_step; eassumption. }
  assert (Hpn : p n = 1) by (destruct (Hp n Hn) as [(_ & E)|(Q & _)]; [exact E|exfalso; apply Q; apply reach_refl]).
  assert (K : forall y, mult F h y n = \sum_(k < N) (U n k * (h k * coef N U (mulv N B y) k))).
  { intros y. rewrite <- (commuting N (gL G) _ U h B HU Hh HC y n Hn). rewrite EB by exact Hn. rewrite Hpn, Rmult_1_l. reflexivity. }
  rewrite !K. apply rsum_ext. intros k Hk. f_equal. f_equal. unfold coef. apply rsum_ext. intros i Hi. f_equal. rewrite !EB by exact Hi.
  destruct (Hp i Hi) as [(R1 & ->)|(_ & ->)]; [rewrite (Hx i Hi R1); reflexivity|ring].
Qed.

(** With either method, the response at a vertex only depends on the signal over the connected component of that vertex. *)
Theorem C85_components_do_not_mix :
  forall G lmax e U ks m s s' v sig sig' n, built G -> let F := mkview (g_n_vertices G) (gL G) lmax e U in spectral F ->
    (m = Exact -> exists gs, ks = map pw gs) -> (exists H, response F ks m H) ->
    batch (g_n_vertices G) (List.length ks) s v sig -> batch (g_n_vertices G) (List.length ks) s' v sig' -> (n < g_n_vertices G)%nat ->
    (forall j i, (j < v)%nat -> (i < g_n_vertices G)%nat -> reach (linked G) n i -> sig j i = sig' j i) ->
    exists out out', gfilter F ks m s = Ok out /\ gfilter F ks m s' = Ok out' /\
      forall j f, (j < v)%nat -> (f < List.length ks)%nat ->
        rd [g_n_vertices G; v; List.length ks] out [n; j; f] = rd [g_n_vertices G; v; List.length ks] out' [n; j; f].
Proof.
  intros G lmax e U ks m s s' v sig sig' n Hb F HF Hpw Hr Hs Hs' Hn Hag.
  destruct (gains F F ks m HF HF eq_refl (fun i j _ _ => eq_refl) eq_refl Hpw Hr) as (H & R & _ & Hinv).
  destruct (C19_analysis_multiplies_the_spectrum F ks m H s v sig HF R Hs) as (out & E & _ & Ho).
  destruct (C19_analysis_multiplies_the_spectrum F ks m H s' v sig' HF R Hs') as (out' & E' & _ & Ho').
  exists out, out'. split; [exact E|]. split; [exact E'|]. intros j f Hj Hf. change (v_N F) with (g_n_vertices G) in *.
  rewrite Ho, Ho' by assumption. apply mult_component; try assumption.
  - intros k l. apply Hinv.
  - intros i Hi Hre. apply Hag; assumption.
Qed.

(** The bound of C85 is attained: with the kernel t -> t^2 and order 2, a path of three vertices carries the impulse at one end to the
    other end (two hops away), and order 1 does not. *)
Example C85_ex : exists G lmax c s, built G /\ 0 < lmax /\ compute_cheby_coeff lmax [pw (peval [0; 0; 1])] 2 None = Ok c /\
  within (linked G) 2 0 2 /\ ~ within (linked G) 1 0 2 /\ batch (g_n_vertices G) 1 s 1 (fun _ i => if Nat.eqb i 2 then 1 else 0) /\
  forall e U out, spectral (mkview (g_n_vertices G) (gL G) lmax e U) ->
    gfilter (mkview (g_n_vertices G) (gL G) lmax e U) [pw (peval [0; 0; 1])] (Chebyshev 2) s = Ok out -> rd [3; 1; 1]%nat out [0; 0; 0]%nat = 1.
Proof.
  destruct (finite_entry_built 3 [0; 1; 0; 1; 0; 1; 0; 1; 0] Combinatorial None eq_refl (or_introl eq_refl)) as (G & _ & Hb & Hn & Ht & Hc & Hw).
  assert (L : forall i j, (i < 3)%nat -> (j < 3)%nat -> linked G i j <-> (i = S j \/ j = S i)).
  { intros i j Hi Hj. unfold linked. rewrite Hn, !Hw by assumption. destruct i as [|[|[|i]]]; try lia; destruct j as [|[|[|j]]]; try lia; cbn;
      (split; [intros (_ & _ & [Q|Q]); first [lia|exfalso; lra] | intros [Q|Q]; try lia; repeat split; try lia; left; lra]). }
  destruct (cheby_coeff1_poly 4 [0; 0; 1] 2 ltac:(lra) ltac:(cbn; lia)) as (c & Ec & _ & _).
  exists G, 4, [c], (vec_arr 3 (fun i => if Nat.eqb i 2 then 1 else 0)). rewrite Hn.
  split; [exact Hb|]. split; [lra|]. split; [cbn [compute_cheby_coeff mapr]; rewrite Ec; reflexivity|]. split; [|split; [|split]].
  - eapply within_step; [apply (L 0 1)%nat; lia|]. eapply within_step; [apply (L 1 2)%nat; lia|]. apply within_here.
  - intros Hw2. inversion Hw2 as [|k u v w He Hrest]; subst. pose proof He as (_ & Hv & _). rewrite Hn in Hv. apply L in He; [|lia|exact Hv].
    assert (v = 1%nat) by lia. subst v. inversion Hrest.
  - apply (batch1 3 1).
  - intros e U out HF E. rewrite <- Hn in HF, E.
    pose proof (response_poly (mkview (g_n_vertices G) (gL G) 4 e U) [[0; 0; 1]] 2 ltac:(cbn; lra) ltac:(lia) ltac:(discriminate)) as R.
    specialize (R ltac:(intros p [<-|[]]; cbn; lia)). cbn [map] in R.
    pose proof (ans_of _ _ _ _ _ _ HF R E 0%nat 0%nat ltac:(cbn; lia) ltac:(cbn; lia)) as A. cbn [List.length v_N] in A. unfold ans in A. cbn [v_N] in A.
    transitivity (rd [g_n_vertices G; 1; 1]%nat out [0; 0; 0]%nat); [rewrite Hn; reflexivity|]. refine (eq_trans A _).
    set (F := mkview (g_n_vertices G) (gL G) 4 e U) in *. set (x := fun i => if Nat.eqb i 2 then 1 else 0).
    assert (E2 : mult F (fun k => peval [0; 0; 1] (nth k e 0)) x 0%nat = mulv (v_N F) (v_L F) (mulv (v_N F) (v_L F) x) 0%nat).
    { rewrite (mult_ext F _ (fun k => nth k e 0 * (nth k e 0 * 1)) x x 0%nat); [|intros k Hk; cbn; ring|intros i Hi; reflexivity].
      refine (eq_trans (eq_sym (mulv_mult F HF (fun k => nth k e 0 * 1) x 0%nat ltac:(cbn; lia))) _). apply mulv_ext; [intros; reflexivity|]. intros j Hj.
      refine (eq_trans (eq_sym (mulv_mult F HF (fun k => 1) x j Hj)) _). apply mulv_ext; [intros; reflexivity|]. intros l Hl. apply mult_1; [exact HF|exact Hl]. }
    refine (eq_trans E2 _). cbn [v_N v_L F].
    destruct (C09_combinatorial_structure G Hb Ht) as (_ & _ & Hoff & Hdiag). rewrite Hn in *.
    unfold mulv. cbn [rsum]. rewrite !(Hoff 0%nat 1%nat), !(Hoff 0%nat 2%nat), !(Hoff 1%nat 2%nat), !(Hoff 1%nat 0%nat), !(Hoff 2%nat 0%nat), !(Hoff 2%nat 1%nat) by lia.
    rewrite !Hw by lia. unfold x. cbn [nth Nat.eqb Nat.add Nat.mul]. lra.
Qed.
