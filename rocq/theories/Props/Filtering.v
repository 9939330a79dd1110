(** Properties C17-C22: graph Fourier transform, exact and Chebyshev filtering, frame bounds. *)
From Coq Require Import Reals Lra Lia List Arith Bool String.
From Coq Require Import List.
From Verif.Base Require Import RSum Prelude LinAlg.
From Verif.Spec Require Import Matrix GraphSpec CacheSpec NdArray FilterSpec.
From Verif.Model Require Import Sparse Graph Difference Bounds Traverse Cache Filter.
From Verif.Proofs Require Import SubgraphFacts InitFacts SpectralFacts CacheFacts FilterFacts ChebFacts.
From Verif.Props Require Import Core Laplacian Caching.
Import ListNotations.
Open Scope R_scope.

(** ** The hypothesis [spectral] is what the cache machinery delivers *)

Lemma eigh_ok_ext n A e U e' U' : (forall i, (i < n)%nat -> e i = e' i) ->
  (forall i k, (i < n)%nat -> (k < n)%nat -> U i k = U' i k) -> eigh_ok n A e' U' -> eigh_ok n A e U.
Proof.
  intros He HU [H1 H2 H3 H4]. constructor.
  - intros k l Hk Hl. rewrite <- (H1 k l Hk Hl). apply rsum_ext. intros i Hi. rewrite !HU by assumption. reflexivity.
  - intros k l Hk Hl. rewrite <- (H2 k l Hk Hl). apply rsum_ext. intros i Hi. unfold tr. rewrite !HU by assumption. reflexivity.
  - intros i k Hi Hk. rewrite He, HU by assumption. rewrite <- (H3 i k Hi Hk). apply mulv_ext; [reflexivity|].
    intros j Hj. apply HU; assumption.
  - intros k l Hkl Hl. rewrite !He by lia. apply H4; assumption.
Qed.

Lemma exact_eig_spectral n L e U l : exact_eig n L n e U -> spectral (mkview n L l e U).
Proof.
  intros (Hlen & _ & e' & U' & Hok & He & HU). split; [exact Hlen|]. cbn. apply eigh_ok_ext with e' U'; assumption.
Qed.

(** After any history, asking for the Fourier basis succeeds and what is then stored diagonalises
    the current Laplacian (whatever lmax estimate is stored). *)
Theorem C17_basis_diagonalises_the_laplacian :
  forall G cs s e U, built G -> nonneg_weights G -> (0 < g_n_vertices G)%nat -> known_types cs ->
    history exact_eig ritz (cache_init G) cs s ->
    legal exact_eig ritz s (OpBasis None (EigOk e U)) ->
    exists s' e' U', compute_fourier_basis None (EigOk e U) s = (s', Ok tt) /\ c_basis s' = Some (e', U') /\
      forall lmax, spectral (mkview (g_n_vertices G) (c_L s) lmax e' U').
Proof.
  intros G cs s e U Hb Hp Hn Hk Hh Hl.
  destruct (C16_basis_computation_never_fails G cs s None e U Hb Hp Hn Hk Hh Hl) as (s' & e' & U' & E & Eb & Ex & _).
  exists s', e', U'. split; [exact E|]. split; [exact Eb|]. intros lmax. apply exact_eig_spectral.
  destruct (C16_requested_eigenvectors_available exact_eig s None (EigOk e U) s' exact_sized Hl E) as (e2 & U2 & E2 & Hle).
  rewrite Eb in E2. injection E2 as <- <-. destruct (exact_sized _ _ _ _ _ Ex) as (_ & Hle2).
  destruct (current_graph G cs _ _ s exact_sized Hb Hk Hh) as (_ & _ & _ & _ & _ & _ & _ & IN). rewrite IN in Hle.
  replace (g_n_vertices G) with (List.length e') by lia. replace (g_n_vertices G) with (List.length e') in Ex by lia. exact Ex.
Qed.

(** A concrete spectral view: the graph with two vertices joined by an edge. *)
Definition k2_view (lmax : R) : view := mkview 2 (fun i j => if Nat.eqb i j then 1 else -1) lmax [0; 2] k2U.
Example k2_spectral lmax : spectral (k2_view lmax).
Proof. apply exact_eig_spectral. apply k2_exact; reflexivity. Qed.
Example k2_view_is_a_graph : exists G, built G /\ g_n_vertices G = 2%nat /\ nonneg_weights G /\
  (forall i j, (i < 2)%nat -> (j < 2)%nat -> gL G i j = v_L (k2_view 2) i j).
Proof.
  destruct (finite_entry_built 2 [0; 1; 1; 0] Combinatorial None eq_refl (or_introl eq_refl)) as (G & _ & Hb & Hn & Ht & _ & Hw).
  destruct (k2_lap G Hb Hn Hw) as (Hp & Hu & L00 & L11 & L01 & L10).
  exists G. repeat (split; [assumption|]). intros i j Hi Hj. destruct i as [|[|i]]; try lia; destruct j as [|[|j]]; try lia; cbn; assumption.
Qed.

(** ** C17: the graph Fourier transform, for signals of any shape (N, ...) *)

Lemma check_ok N s rest : shape s = N :: rest -> check_arr N s = Ok s.
Proof. intros E. unfold check_arr. rewrite E, Nat.eqb_refl. reflexivity. Qed.

Lemma gft_ok F s rest : spectral F -> shape s = v_N F :: rest ->
  exists t, gft F s = Ok t /\ shape t = shape s /\ forall k r, aget t (k :: r) = fhat F (col s r) k.
Proof.
  intros HF Hs. unfold gft. rewrite (check_ok _ _ _ Hs). cbn [bindr]. eexists. split; [reflexivity|].
  split; [cbn; rewrite (proj1 HF), Hs; reflexivity|]. intros k r. reflexivity.
Qed.
Lemma igft_ok F s rest : spectral F -> shape s = v_N F :: rest ->
  exists t, igft F s = Ok t /\ shape t = shape s /\ forall i r, aget t (i :: r) = \sum_(k < v_N F) (v_U F i k * aget s (k :: r)).
Proof.
  intros HF Hs. unfold igft. rewrite (check_ok _ _ _ Hs). cbn [bindr]. rewrite Hs, (proj1 HF). cbn [hd]. rewrite Nat.eqb_refl. cbn [negb].
  eexists. split; [reflexivity|]. split; [cbn; reflexivity|]. intros k r. reflexivity.
Qed.

Theorem C17_synthesis_of_analysis :
  forall F s rest, spectral F -> shape s = v_N F :: rest ->
    exists t s', gft F s = Ok t /\ shape t = shape s /\ igft F t = Ok s' /\ aeq s' s.
Proof.
  intros F s rest HF Hs. destruct (gft_ok F s rest HF Hs) as (t & E & Sh & Ht).
  destruct (igft_ok F t rest HF ltac:(congruence)) as (s' & E' & Sh' & Hs').
  exists t, s'. split; [exact E|]. split; [exact Sh|]. split; [exact E'|]. split; [congruence|].
  intros idx Hin. rewrite Sh', Sh, Hs in Hin. inversion Hin as [|i d r rs Hi Hr]; subst. rewrite Hs'.
  erewrite rsum_ext; [|intros k Hk; rewrite Ht; reflexivity].
  exact (eigh_expand _ _ _ _ (proj2 HF) (col s r) i Hi).
Qed.

Theorem C17_analysis_of_synthesis :
  forall F t rest, spectral F -> shape t = v_N F :: rest ->
    exists s t', igft F t = Ok s /\ shape s = shape t /\ gft F s = Ok t' /\ aeq t' t.
Proof.
  intros F t rest HF Hs. destruct (igft_ok F t rest HF Hs) as (s & E & Sh & Ht).
  destruct (gft_ok F s rest HF ltac:(congruence)) as (t' & E' & Sh' & Hs').
  exists s, t'. split; [exact E|]. split; [exact Sh|]. split; [exact E'|]. split; [congruence|].
  intros idx Hin. rewrite Sh', Sh, Hs in Hin. inversion Hin as [|i d r rs Hi Hr]; subst. rewrite Hs'. unfold fhat, col.
  erewrite rsum_ext; [|intros k Hk; rewrite Ht; reflexivity].
  exact (coef_synth _ _ _ _ (proj2 HF) (fun k => aget t (k :: r)) i Hi).
Qed.

Theorem C17_parseval :
  forall F s1 s2 t1 t2 rest r1 r2, spectral F -> shape s1 = v_N F :: rest -> shape s2 = v_N F :: rest ->
    gft F s1 = Ok t1 -> gft F s2 = Ok t2 ->
    dot (v_N F) (col t1 r1) (col t2 r2) = dot (v_N F) (col s1 r1) (col s2 r2).
Proof.
  intros F s1 s2 t1 t2 rest r1 r2 HF H1 H2 E1 E2.
  destruct (gft_ok F s1 rest HF H1) as (t & E & _ & Ht). rewrite E1 in E. injection E as <-.
  destruct (gft_ok F s2 rest HF H2) as (t & E & _ & Ht'). rewrite E2 in E. injection E as <-.
  rewrite <- (fhat_dot F HF (col s1 r1) (col s2 r2)). apply dot_ext; intros k Hk; [apply Ht|apply Ht'].
Qed.

Theorem C17_linear :
  forall F a b s1 s2 s3 t1 t2 t3 rest, spectral F ->
    shape s1 = v_N F :: rest -> shape s2 = v_N F :: rest -> shape s3 = v_N F :: rest ->
    (forall idx, aget s3 idx = a * aget s1 idx + b * aget s2 idx) ->
    (gft F s1 = Ok t1 -> gft F s2 = Ok t2 -> gft F s3 = Ok t3 ->
       forall k r, aget t3 (k :: r) = a * aget t1 (k :: r) + b * aget t2 (k :: r)) /\
    (igft F s1 = Ok t1 -> igft F s2 = Ok t2 -> igft F s3 = Ok t3 ->
       forall k r, aget t3 (k :: r) = a * aget t1 (k :: r) + b * aget t2 (k :: r)).
Proof.
  intros F a b s1 s2 s3 t1 t2 t3 rest HF H1 H2 H3 Hlin. split; intros E1 E2 E3 k r.
  - destruct (gft_ok F s1 rest HF H1) as (t & E & _ & Ht1). rewrite E1 in E. injection E as <-.
    destruct (gft_ok F s2 rest HF H2) as (t & E & _ & Ht2). rewrite E2 in E. injection E as <-.
    destruct (gft_ok F s3 rest HF H3) as (t & E & _ & Ht3). rewrite E3 in E. injection E as <-.
    rewrite Ht1, Ht2, Ht3, <- fhat_lin. unfold fhat, col. apply rsum_ext. intros i Hi. rewrite Hlin. reflexivity.
  - destruct (igft_ok F s1 rest HF H1) as (t & E & _ & Ht1). rewrite E1 in E. injection E as <-.
    destruct (igft_ok F s2 rest HF H2) as (t & E & _ & Ht2). rewrite E2 in E. injection E as <-.
    destruct (igft_ok F s3 rest HF H3) as (t & E & _ & Ht3). rewrite E3 in E. injection E as <-.
    rewrite Ht1, Ht2, Ht3, <- !rsum_scal_l, <- rsum_plus. apply rsum_ext. intros i Hi. rewrite Hlin. ring.
Qed.

(** gft(L s) = e * gft(s) *)
Theorem C17_laplacian_becomes_multiplication :
  forall F s s' t t' rest, spectral F -> shape s = v_N F :: rest -> shape s' = v_N F :: rest ->
    (forall r i, (i < v_N F)%nat -> aget s' (i :: r) = mulv (v_N F) (v_L F) (col s r) i) ->
    gft F s = Ok t -> gft F s' = Ok t' ->
    forall k r, (k < v_N F)%nat -> aget t' (k :: r) = nth k (v_e F) 0 * aget t (k :: r).
Proof.
  intros F s s' t t' rest HF H1 H2 HL E1 E2 k r Hk.
  destruct (gft_ok F s rest HF H1) as (t0 & E & _ & Ht1). rewrite E1 in E. injection E as <-.
  destruct (gft_ok F s' rest HF H2) as (t0 & E & _ & Ht2). rewrite E2 in E. injection E as <-.
  rewrite Ht1, Ht2. transitivity (coef (v_N F) (v_U F) (mulv (v_N F) (v_L F) (col s r)) k);
    [|exact (coef_mulv _ _ _ _ (proj2 HF) (col s r) k Hk)]. unfold fhat, coef, col. apply rsum_ext.
  intros i Hi. rewrite HL by exact Hi. reflexivity.
Qed.

(** The Dirichlet energy is the energy of the transform weighted by the eigenvalues. *)
Theorem C17_dirichlet_energy_in_the_spectral_domain :
  forall G lmax e U x t, built G -> spectral (mkview (g_n_vertices G) (gL G) lmax e U) ->
    List.length x = g_n_vertices G ->
    gft (mkview (g_n_vertices G) (gL G) lmax e U) (vec_arr (g_n_vertices G) (fun i => nth i x 0)) = Ok t ->
    dirichlet_energy G x = Ok (\sum_(k < g_n_vertices G) (nth k e 0 * (aget t [k] * aget t [k]))).
Proof.
  intros G lmax e U x t Hb HF Hl E. set (F := mkview (g_n_vertices G) (gL G) lmax e U) in *.
  destruct (gft_ok F (vec_arr (g_n_vertices G) (fun i => nth i x 0)) [] HF eq_refl) as (t0 & E0 & _ & Ht). rewrite E in E0. injection E0 as <-.
  unfold dirichlet_energy, check_signal. rewrite Hl, Nat.eqb_refl. cbn [bindr]. f_equal.
  transitivity (quad (g_n_vertices G) (gL G) (fun i => nth i x 0)); [reflexivity|].
  rewrite (eigh_quad _ _ _ _ (proj2 HF)). apply rsum_ext. intros k Hk. rewrite !Ht. reflexivity.
Qed.

(** With a partial basis (fewer eigenvectors than vertices) the transform cannot be inverted. *)
Theorem C17_partial_basis_cannot_be_inverted :
  forall F s rest, (List.length (v_e F) < v_N F)%nat -> shape s = v_N F :: rest ->
    exists t, gft F s = Ok t /\ shape t = List.length (v_e F) :: rest /\ igft F t = Raise ValueError.
Proof.
  intros F s rest Hlt Hs. unfold gft. rewrite (check_ok _ _ _ Hs). cbn [bindr]. eexists. split; [reflexivity|].
  split; [cbn; rewrite Hs; reflexivity|]. unfold igft, check_arr. cbn [shape].
  destruct (Nat.eqb_spec (List.length (v_e F)) (v_N F)) as [E|_]; [lia|]. reflexivity.
Qed.

Theorem C17_wrong_length_rejected :
  forall F s d rest, shape s = d :: rest -> d <> v_N F -> gft F s = Raise ValueError /\ igft F s = Raise ValueError.
Proof.
  intros F s d rest Hs Hd. unfold gft, igft, check_arr. rewrite Hs. apply Nat.eqb_neq in Hd. rewrite Hd. auto.
Qed.

Example C17_ex : exists t, gft (k2_view 2) (vec_arr 2 (fun i => INR i)) = Ok t /\ aget t [1%nat] <> 0.
Proof.
  eexists. split; [reflexivity|]. cbn. assert (0 < / sqrt 2) by (apply Rinv_0_lt_compat, sqrt_lt_R0; lra). lra.
Qed.

(** ** C18: coherence *)

Lemma fold_max_ge l a : a <= fold_left Rmax l a /\ (forall x, In x l -> x <= fold_left Rmax l a).
Proof.
  revert a. induction l as [|b l IH]; intros a; cbn; [split; [lra|tauto]|].
  destruct (IH (Rmax a b)) as (H1 & H2). pose proof (Rmax_l a b). pose proof (Rmax_r a b). split; [lra|].
  intros x [<-|Hin]; [lra|apply H2; exact Hin].
Qed.
Lemma fold_max_in l a : fold_left Rmax l a = a \/ In (fold_left Rmax l a) l.
Proof.
  revert a. induction l as [|b l IH]; intros a; cbn; [auto|]. destruct (IH (Rmax a b)) as [E|E]; [|auto].
  rewrite E. unfold Rmax. destruct (Rle_dec a b); auto.
Qed.
Lemma maxabs_spec n m U : (forall i j, (i < n)%nat -> (j < m)%nat -> Rabs (U i j) <= maxabs n m U) /\
  (maxabs n m U = 0 \/ exists i j, (i < n)%nat /\ (j < m)%nat /\ maxabs n m U = Rabs (U i j)).
Proof.
  unfold maxabs. set (l := flat_map _ _).
  assert (Hin : forall x, In x l <-> exists i j, (i < n)%nat /\ (j < m)%nat /\ x = Rabs (U i j)).
  { intros x. unfold l. rewrite in_flat_map. split.
    - intros (i & Hi & Hx). apply in_map_iff in Hx. destruct Hx as (j & <- & Hj). apply in_seq in Hi, Hj. exists i, j. repeat split; lia.
    - intros (i & j & Hi & Hj & ->). exists i. split; [apply in_seq; lia|]. apply in_map_iff. exists j. split; [reflexivity|apply in_seq; lia]. }
  split.
  - intros i j Hi Hj. apply fold_max_ge. apply Hin. eauto.
  - destruct (fold_max_in l 0) as [E|E]; [auto|]. right. apply Hin. exact E.
Qed.

(** Whenever a coherence is available after a history with known types, it lies in [1/sqrt N, 1]. *)
Theorem C18_coherence_range :
  forall G cs s c, built G -> (0 < g_n_vertices G)%nat -> known_types cs ->
    history exact_eig ritz (cache_init G) cs s -> c_coh s = Some c ->
    / sqrt (INR (g_n_vertices G)) <= c <= 1.
Proof.
  intros G cs s c Hb Hn Hk Hh Hc.
  destruct (C16_caches_are_coherent _ _ G cs s exact_sized Hb Hk Hh) as (_ & HB & HC & _).
  destruct (HC c Hc) as (e & U & Eb & Hlen & ->). destruct (HB e U Eb) as (k & e0 & Hex & _ & Hk'). rewrite Hlen in Hk'. subst k.
  apply (exact_eig_spectral _ _ _ _ 0) in Hex. destruct Hex as (_ & Hok). cbn in Hok.
  set (n := g_n_vertices G) in *. destruct (maxabs_spec n n U) as (Hub & Hat).
  assert (HnR : 0 < INR n) by (apply lt_0_INR; exact Hn). assert (Hsq : 0 < sqrt (INR n)) by (apply sqrt_lt_R0; exact HnR).
  set (M := maxabs n n U) in *.
  assert (HM0 : 0 <= M) by (pose proof (Hub 0%nat 0%nat Hn Hn); pose proof (Rabs_pos (U 0%nat 0%nat)); lra).
  assert (Hsum : 1 <= INR n * (M * M)).
  { pose proof (eigh_cols _ _ _ _ Hok 0%nat 0%nat Hn Hn) as E. cbn [Nat.eqb] in E. rewrite <- E. rewrite <- rsum_const.
    apply rsum_le. intros i Hi. pose proof (Hub i 0%nat Hi Hn) as Hu. pose proof (Rabs_pos (U i 0%nat)).
    rewrite <- (Rabs_pos_eq (U i 0%nat * U i 0%nat)) by nra. rewrite Rabs_mult. nra. }
  split.
  - apply Rmult_le_reg_r with (sqrt (INR n)); [exact Hsq|]. rewrite Rinv_l by lra.
    apply Rsqr_incr_0; unfold Rsqr; [|lra|nra].
    replace (M * sqrt (INR n) * (M * sqrt (INR n))) with ((sqrt (INR n) * sqrt (INR n)) * (M * M)) by ring.
    rewrite sqrt_sqrt by lra. lra.
  - destruct Hat as [E|(i & j & Hi & Hj & E)]; [lra|]. rewrite E.
    pose proof (eigh_cols _ _ _ _ Hok j j Hj Hj) as Ec. rewrite Nat.eqb_refl in Ec.
    assert (Ht : U i j * U i j <= 1).
    { rewrite <- Ec. apply (rsum_ge_term n (fun i => U i j * U i j) i); [|exact Hi]. intros; nra. }
    apply Rabs_le. nra.
Qed.

(** The number G.coherence returns, whatever was called before: the largest absolute entry of the basis of the current Laplacian,
    attained by some entry, and in [1/sqrt N, 1]. *)
Theorem C18_coherence_read :
  forall G cs s o s' c, built G -> (0 < g_n_vertices G)%nat -> known_types cs -> history exact_eig ritz (cache_init G) cs s ->
    legal exact_eig ritz s (OpCoherence o) -> read_coherence o s = (s', Ok (Some c)) ->
    let n := g_n_vertices G in
    / sqrt (INR n) <= c <= 1 /\
    exists e U, c_basis s' = Some (e, U) /\ (exists e', eigh_ok n (c_L s) e' U) /\
      (forall i k, (i < n)%nat -> (k < n)%nat -> Rabs (U i k) <= c) /\ exists i k, (i < n)%nat /\ (k < n)%nat /\ c = Rabs (U i k).
Proof.
  intros G cs s o s' c Hb Hn Hk Hh Hl Hr n.
  destruct (proj2 (C16_values_read exact_eig ritz G cs s o exact_sized Hb Hk Hh Hl) s' c Hr) as (_ & e0 & e & U & Hex & _ & Eb & Ec).
  assert (Hh' : history exact_eig ritz (cache_init G) (cs ++ [OpCoherence o]) s').
  { clear - Hh Hl Hr. induction Hh as [s0|s0 c0 s1 cs s2 Hl0 Hs0 Hh IH]; cbn [app].
    - eapply history_cons; [exact Hl| |apply history_nil]. cbn [step]. rewrite Hr. reflexivity.
    - eapply history_cons; [exact Hl0|exact Hs0|]. apply IH; assumption. }
  assert (Hk' : known_types (cs ++ [OpCoherence o])) by (intros t Ht; apply in_app_or in Ht; destruct Ht as [Ht|[Ht|[]]]; [apply Hk; exact Ht|discriminate]).
  assert (Hc : c_coh s' = Some c).
  { unfold read_coherence in Hr. destruct (c_coh s) as [d|] eqn:Ed; [injection Hr as <- ->; exact Ed|].
    destruct (compute_fourier_basis None o s) as [s1 [u|x]]; [|discriminate]. injection Hr as -> Hr. exact Hr. }
  pose proof (C18_coherence_range G _ s' c Hb Hn Hk' Hh' Hc) as Hrange. split; [exact Hrange|].
  exists e, U. split; [exact Eb|]. apply (exact_eig_spectral _ _ _ _ 0) in Hex. destruct Hex as (_ & Hok). cbn in Hok. split; [eauto|].
  destruct (maxabs_spec n n U) as (Hub & Hat). fold n in Ec. rewrite <- Ec in *. split; [exact Hub|].
  destruct Hat as [E|Hat]; [exfalso|exact Hat]. assert (0 < / sqrt (INR n)) by (apply Rinv_0_lt_compat, sqrt_lt_R0, lt_0_INR; exact Hn). fold n in Hrange. lra.
Qed.

Example C18_ex : exists G cs s c, built G /\ (0 < g_n_vertices G)%nat /\ known_types cs /\
  history exact_eig ritz (cache_init G) cs s /\ c_coh s = Some c.
Proof.
  destruct (finite_entry_built 2 [0; 1; 1; 0] Combinatorial None eq_refl (or_introl eq_refl)) as (G & _ & Hb & Hn & Ht & _ & Hw).
  destruct (k2_lap G Hb Hn Hw) as (Hp & Hu & L00 & L11 & L01 & L10).
  assert (Hl : legal exact_eig ritz (cache_init G) (OpBasis None (EigOk [0; 2] k2U))).
  { cbn. rewrite Hn. apply k2_exact; assumption. }
  assert (Hn0 : (0 < g_n_vertices G)%nat) by lia.
  assert (Hk0 : known_types []) by (intros t []).
  destruct (C16_basis_computation_never_fails G [] (cache_init G) None [0; 2] k2U Hb Hp Hn0 Hk0 (history_nil _ _ _) Hl) as (s' & e' & U' & E & Eb & _ & _).
  assert (Hc : exists c, c_coh s' = Some c).
  { unfold compute_fourier_basis in E. cbn [c_basis cache_init] in E. cbn [c_N cache_init] in E. rewrite Nat.eqb_refl in E.
    destruct (_ && _)%bool; [|discriminate]. destruct (upper_bound _ _); [|discriminate]. destruct (fle _ _); [|discriminate].
    destruct (forallb _ _); [|discriminate]. injection E as <-. cbn. eauto. }
  destruct Hc as (c & Hc). exists G, [OpBasis None (EigOk [0; 2] k2U)], s', c.
  split; [exact Hb|]. split; [lia|]. split; [intros t [Hin|[]]; discriminate|]. split; [|exact Hc].
  eapply history_cons; [exact Hl| |apply history_nil]. cbn [step]. rewrite E. reflexivity.
Qed.

(** ** C19: filtering is multiplication in the spectral domain *)

(** For every accepted shape of single-feature signals and both methods: the response of filter f to
    signal j is U diag(gain of f) U^T applied to signal j. *)
Theorem C19_analysis_multiplies_the_spectrum :
  forall F ks m H s v sig, spectral F -> response F ks m H -> batch (v_N F) (List.length ks) s v sig ->
    exists out, gfilter F ks m s = Ok out /\ shape out = drop1 [v_N F; v; List.length ks] /\
      forall n j f, (n < v_N F)%nat -> (j < v)%nat -> (f < List.length ks)%nat ->
        rd [v_N F; v; List.length ks] out [n; j; f] = mult F (H f) (sig j) n.
Proof.
  intros F ks m H s v sig HF Hr Hs. destruct (to_3d_batch _ _ _ _ _ Hs) as (s3 & E3 & S3 & H3).
  destruct (filter3_analysis F HF ks m H s3 v Hr S3) as (a & Ea & Sa & Ha).
  unfold gfilter. rewrite E3. cbn [bindr]. rewrite Ea. cbn [bindr]. exists (squeeze a). split; [reflexivity|].
  split; [cbn; rewrite Sa; reflexivity|]. intros n j f Hn Hj Hf. rewrite <- Sa. rewrite rd_squeeze.
  - rewrite Ha by assumption. apply mult_ext; [intros ? ?; reflexivity|]. intros ? ?. apply H3. exact Hj.
  - rewrite Sa. repeat constructor; assumption.
Qed.

(** For multi-feature signals the responses of the features are summed. *)
Theorem C19_synthesis_sums_the_filtered_features :
  forall F ks m H s v sig, spectral F -> response F ks m H -> fbatch (v_N F) (List.length ks) s v sig ->
    exists out, gfilter F ks m s = Ok out /\ shape out = drop1 [v_N F; v; 1%nat] /\
      forall n j, (n < v_N F)%nat -> (j < v)%nat ->
        rd [v_N F; v; 1%nat] out [n; j; 0%nat] = \sum_(f < List.length ks) mult F (H f) (sig j f) n.
Proof.
  intros F ks m H s v sig HF Hr Hs. destruct (to_3d_fbatch _ _ _ _ _ Hs) as (s3 & E3 & S3 & Hn1 & H3).
  destruct (filter3_synthesis F HF ks m H s3 v Hr Hn1 S3) as (a & Ea & Sa & Ha).
  unfold gfilter. rewrite E3. cbn [bindr]. rewrite Ea. cbn [bindr]. exists (squeeze a). split; [reflexivity|].
  split; [cbn; rewrite Sa; reflexivity|]. intros n j Hn Hj. rewrite <- Sa. rewrite rd_squeeze.
  - rewrite Ha by assumption. apply rsum_ext. intros f Hf. apply mult_ext; [intros ? ?; reflexivity|]. intros ? ?. apply H3. exact Hj.
  - rewrite Sa. repeat constructor; try assumption.
Qed.

(** The exact method on kernels that are functions of the frequency: the gain is the kernel's value. *)
Lemma response_pw F gs : spectral F -> response F (map pw gs) Exact (fun i k => nth i gs (fun _ => 0) (nth k (v_e F) 0)).
Proof.
  intros (Hlen & _). cbn. eexists. split; [apply evaluate_pw|]. rewrite map_length. intros i k Hi Hk.
  rewrite (nth_indep (map (fun g => map g (v_e F)) gs) [] (map (fun _ => 0) (v_e F))) by (rewrite map_length; exact Hi).
  rewrite (map_nth (fun g => map g (v_e F)) gs (fun _ => 0)).
  rewrite (nth_indep (map (nth i gs (fun _ => 0)) (v_e F)) 0 (nth i gs (fun _ => 0) 0)) by (rewrite map_length, Hlen; exact Hk). rewrite map_nth. reflexivity.
Qed.

Lemma one_signal F ks m H x : spectral F -> response F ks m H ->
  exists out, gfilter F ks m (vec_arr (v_N F) x) = Ok out /\ shape out = drop1 [v_N F; 1%nat; List.length ks] /\
    forall f n, (n < v_N F)%nat -> (f < List.length ks)%nat -> ans F (List.length ks) out f n = mult F (H f) x n.
Proof.
  intros HF Hr.
  destruct (C19_analysis_multiplies_the_spectrum F ks m H (vec_arr (v_N F) x) 1 (fun _ i => x i) HF Hr (batch1 _ _ _)) as (out & E & S & Ho).
  exists out. split; [exact E|]. split; [exact S|]. intros f n Hn Hf. unfold ans. rewrite Ho by (assumption || lia). reflexivity.
Qed.
Lemma ans_of F ks m H x out : spectral F -> response F ks m H -> gfilter F ks m (vec_arr (v_N F) x) = Ok out ->
  forall f n, (n < v_N F)%nat -> (f < List.length ks)%nat -> ans F (List.length ks) out f n = mult F (H f) x n.
Proof. intros HF Hr E. destruct (one_signal F ks m H x HF Hr) as (o & E' & _ & Ho). rewrite E in E'. injection E' as <-. exact Ho. Qed.

(** Filtering a single signal always succeeds with a full basis and pointwise kernels. *)
Theorem C19_linear :
  forall F ks m H a b x y ox oy oz, spectral F -> response F ks m H ->
    gfilter F ks m (vec_arr (v_N F) x) = Ok ox -> gfilter F ks m (vec_arr (v_N F) y) = Ok oy ->
    gfilter F ks m (vec_arr (v_N F) (fun i => a * x i + b * y i)) = Ok oz ->
    forall f n, (f < List.length ks)%nat -> (n < v_N F)%nat ->
      ans F (List.length ks) oz f n = a * ans F (List.length ks) ox f n + b * ans F (List.length ks) oy f n.
Proof.
  intros F ks m H a b x y ox oy oz HF Hr E1 E2 E3 f n Hf Hn.
  rewrite (ans_of _ _ _ _ _ _ HF Hr E1), (ans_of _ _ _ _ _ _ HF Hr E2), (ans_of _ _ _ _ _ _ HF Hr E3) by assumption. apply mult_lin_x.
Qed.

(** Filters commute with the Laplacian: filter(L x) = L filter(x). *)
Theorem C19_commutes_with_the_laplacian :
  forall F ks m H x ox oy, spectral F -> response F ks m H ->
    gfilter F ks m (vec_arr (v_N F) x) = Ok ox ->
    gfilter F ks m (vec_arr (v_N F) (mulv (v_N F) (v_L F) x)) = Ok oy ->
    forall f n, (f < List.length ks)%nat -> (n < v_N F)%nat ->
      ans F (List.length ks) oy f n = mulv (v_N F) (v_L F) (ans F (List.length ks) ox f) n.
Proof.
  intros F ks m H x ox oy HF Hr E1 E2 f n Hf Hn. rewrite (ans_of _ _ _ _ _ _ HF Hr E2) by assumption.
  rewrite (mulv_ext (v_N F) (v_L F) (v_L F) _ (mult F (H f) x) n); [|reflexivity|].
  2:{ intros j Hj. apply (ans_of _ _ _ _ _ _ HF Hr E1); assumption. }
  rewrite (mulv_mult F HF) by exact Hn.
  rewrite (mult_ext F (H f) (H f) _ (mult F (fun k => nth k (v_e F) 0) x)).
  - rewrite (mult_mult F HF). apply mult_ext; [intros ? ?; ring|intros ? ?; reflexivity].
  - intros ? ?; reflexivity.
  - intros j Hj. apply (mulv_is_mult F HF); exact Hj.
Qed.

(** An eigenvector of L is scaled by the kernel's value at its eigenvalue. *)
Theorem C19_eigenvectors_are_scaled_by_the_kernel :
  forall F gs lam x, spectral F -> eigenpair (v_N F) (v_L F) lam x ->
    exists out, gfilter F (map pw gs) Exact (vec_arr (v_N F) x) = Ok out /\
      forall f n, (f < List.length gs)%nat -> (n < v_N F)%nat ->
        ans F (List.length gs) out f n = nth f gs (fun _ => 0) lam * x n.
Proof.
  intros F gs lam x HF He. destruct (one_signal F (map pw gs) Exact _ x HF (response_pw F gs HF)) as (out & E & _ & Ho).
  exists out. split; [exact E|]. intros f n Hf Hn. rewrite map_length in Ho. rewrite Ho by assumption.
  apply (mult_eigenpair F HF); assumption.
Qed.

(** Filtering by g and then by h is filtering by the product kernel (graphs with two or more vertices:
    on a single vertex the squeezed 0-d result is not accepted as a signal). *)
Theorem C19_composition :
  forall F g h x, spectral F -> (1 < v_N F)%nat ->
    exists o1 o2 o3, gfilter F [pw g] Exact (vec_arr (v_N F) x) = Ok o1 /\ gfilter F [pw h] Exact o1 = Ok o2 /\
      gfilter F [pw (fun t => h t * g t)] Exact (vec_arr (v_N F) x) = Ok o3 /\ aeq o2 o3.
Proof.
  intros F g h x HF HN.
  destruct (one_signal F [pw g] Exact _ x HF (response_pw F [g] HF)) as (o1 & E1 & S1 & H1).
  destruct (one_signal F [pw (fun t => h t * g t)] Exact _ x HF (response_pw F [fun t => h t * g t] HF)) as (o3 & E3 & S3 & H3).
  assert (D : drop1 [v_N F; 1%nat; 1%nat] = [v_N F]).
  { cbn. destruct (Nat.eqb_spec (v_N F) 1); [lia|reflexivity]. }
  cbn [List.length] in *. rewrite D in S1, S3. destruct o1 as [sh1 a1]. cbn in S1. subst sh1.
  destruct (C19_analysis_multiplies_the_spectrum F [pw h] Exact _ (Arr [v_N F] a1) 1 (fun _ i => a1 [i]) HF (response_pw F [h] HF) (batch1 _ _ _)) as (o2 & E2 & S2 & H2).
  cbn [List.length] in *. rewrite D in S2.
  exists (Arr [v_N F] a1), o2, o3. repeat (split; [assumption|]). split; [congruence|].
  intros idx Hin. rewrite S2 in Hin. inversion Hin as [|n d r rs Hn Hr]; subst. inversion Hr; subst.
  assert (RD : forall o, rd [v_N F; 1%nat; 1%nat] o [n; 0%nat; 0%nat] = aget o [n]).
  { intros o. unfold rd. cbn. destruct (Nat.eqb_spec (v_N F) 1); [lia|reflexivity]. }
  rewrite <- !RD. change (rd [v_N F; 1%nat; 1%nat] o3 [n; 0%nat; 0%nat]) with (ans F 1 o3 0%nat n).
  rewrite H2, H3 by lia. cbn [nth].
  rewrite (mult_ext F _ (fun k => h (nth k (v_e F) 0)) _ (mult F (fun k => g (nth k (v_e F) 0)) x)).
  - rewrite (mult_mult F HF). reflexivity.
  - intros ? ?; reflexivity.
  - intros i Hi. specialize (H1 0%nat i Hi ltac:(lia)). cbn [nth] in H1. rewrite <- H1. unfold ans. unfold rd. cbn. destruct (Nat.eqb_spec (v_N F) 1); [lia|reflexivity].
Qed.

(** The energy of a response lies between the extreme squared gains times the signal's energy. *)
Theorem C19_energy :
  forall F ks m H x out f lo hi, spectral F -> response F ks m H -> (f < List.length ks)%nat ->
    gfilter F ks m (vec_arr (v_N F) x) = Ok out ->
    (forall k, (k < v_N F)%nat -> lo <= H f k * H f k <= hi) ->
    lo * normsq (v_N F) x <= normsq (v_N F) (ans F (List.length ks) out f) <= hi * normsq (v_N F) x.
Proof.
  intros F ks m H x out f lo hi HF Hr Hf E Hb.
  replace (normsq (v_N F) (ans F (List.length ks) out f)) with (normsq (v_N F) (mult F (H f) x)).
  2:{ apply dot_ext; intros n Hn; symmetry; apply (ans_of _ _ _ _ _ _ HF Hr E); assumption. }
  rewrite (mult_normsq F HF), <- (fhat_normsq F HF), <- !rsum_scal_l. split; apply rsum_le; intros k Hk; specialize (Hb k Hk);
    pose proof (Rle_0_sqr (fhat F x k)) as Hq; unfold Rsqr in Hq; nra.
Qed.

(** The exact method needs the full basis. *)
Theorem C19_partial_basis_rejected :
  forall F ks y s v sig, (List.length (v_e F) < v_N F)%nat -> evaluate ks (v_e F) = Ok y ->
    batch (v_N F) (List.length ks) s v sig -> gfilter F ks Exact s = Raise AssertionError.
Proof.
  intros F ks y s v sig Hlt Hy Hs. destruct (to_3d_batch _ _ _ _ _ Hs) as (s3 & E3 & S3 & H3).
  unfold gfilter. rewrite E3. cbn [bindr filter3]. unfold filter_exact3. rewrite Hy. cbn [bindr].
  destruct (Nat.eqb_spec (List.length (v_e F)) (v_N F)) as [E|_]; [lia|]. reflexivity.
Qed.

Theorem C19_unknown_method_rejected :
  forall F ks name s v sig, batch (v_N F) (List.length ks) s v sig -> gfilter F ks (OtherMethod name) s = Raise ValueError.
Proof.
  intros F ks name s v sig Hs. destruct (to_3d_batch _ _ _ _ _ Hs) as (s3 & E3 & _). unfold gfilter. rewrite E3. reflexivity.
Qed.

Example C19_ex : spectral (k2_view 2) /\ eigenpair 2 (v_L (k2_view 2)) 2 (fun i => if Nat.eqb i 0 then 1 else -1) /\
  response (k2_view 2) (map pw [fun t => exp (- t); fun t => t]) Exact (fun i k => nth i [fun t => exp (- t); fun t => t] (fun _ => 0) (nth k [0; 2] 0)).
Proof.
  split; [apply k2_spectral|]. split; [split|].
  - intros Hz. specialize (Hz 0%nat ltac:(lia)). cbn in Hz. lra.
  - intros i Hi. unfold mulv. destruct i as [|[|i]]; try lia; cbn; lra.
  - exact (response_pw (k2_view 2) _ (k2_spectral 2)).
Qed.

(** ** C20: Chebyshev *)

(** cheby_op on a 1-D signal, any number of scales and any order >= 1: block f of the result is
    c_f0/2 s + sum_k c_fk T_k(2 L/lmax - 1) s, i.e. it multiplies the spectrum by the series. *)
Theorem C20_cheby_op_evaluates_the_series :
  forall F c M x, spectral F -> 0 < v_lmax F -> (2 <= M)%nat -> c <> [] -> (forall l, In l c -> List.length l = M) ->
    exists a, cheby_op F c (vec_arr (v_N F) x) = Ok a /\ shape a = [(v_N F * List.length c)%nat] /\
      forall i f, (i < v_N F)%nat -> (f < List.length c)%nat ->
        aget a [(i + v_N F * f)%nat] = mult F (fun k => cheb_series (nth f c []) (2 * nth k (v_e F) 0 / v_lmax F - 1)) x i.
Proof. intros F c M x HF Hl HM Hc Hlen. exact (cheby_op_1d F HF c (vec_arr (v_N F) x) M Hl HM Hc Hlen eq_refl). Qed.

Theorem C20_cheby_op_2d :
  forall F c M v x, spectral F -> 0 < v_lmax F -> (2 <= M)%nat -> c <> [] -> (forall l, In l c -> List.length l = M) ->
    exists a, cheby_op F c (mat_arr (v_N F) v x) = Ok a /\ shape a = [(v_N F * List.length c)%nat; v] /\
      forall i j f, (i < v_N F)%nat -> (f < List.length c)%nat ->
        aget a [(i + v_N F * f)%nat; j] =
        mult F (fun k => cheb_series (nth f c []) (2 * nth k (v_e F) 0 / v_lmax F - 1)) (fun l => x l j) i.
Proof. intros F c M v x HF Hl HM Hc Hlen. exact (cheby_op_2d F HF c (mat_arr (v_N F) v x) v M Hl HM Hc Hlen eq_refl). Qed.

(** The recurrence defines the Chebyshev polynomials: T_k(cos t) = cos(k t). *)
Theorem C20_series_is_a_cosine_series :
  forall c t, cheb_series c (cos t) = nth 0 c 0 / 2 + \sum_(k < List.length c - 1) (nth (S k) c 0 * cos (INR (S k) * t)).
Proof. intros c t. unfold cheb_series. f_equal. apply rsum_ext. intros k Hk. rewrite chebT_cos. reflexivity. Qed.

Lemma response_poly F ps o : 0 < v_lmax F -> (1 <= o)%nat -> ps <> [] -> (forall p, In p ps -> (List.length p <= S o)%nat) ->
  response F (map (fun p => pw (peval p)) ps) (Chebyshev o) (fun i k => peval (nth i ps []) (nth k (v_e F) 0)).
Proof.
  intros Hl Ho Hne Hd. cbn.
  assert (HC : exists c, mapr (fun k => cheby_coeff1 (v_lmax F) k o None) (map (fun p => pw (peval p)) ps) = Ok c /\
    forall i, (i < List.length ps)%nat -> forall x, cheb_series (nth i c []) (2 * x / v_lmax F - 1) = peval (nth i ps []) x).
  { clear Hne. induction ps as [|p ps IH].
    - exists []. split; [reflexivity|]. intros; cbn in *; lia.
    - destruct IH as (c & Ec & Hc); [intros; apply Hd; right; assumption|].
      destruct (cheby_coeff1_poly (v_lmax F) p o Hl (Hd p (or_introl eq_refl))) as (c0 & E0 & _ & H0).
      exists (c0 :: c). cbn [map mapr]. rewrite E0. cbn [bindr]. rewrite Ec. split; [reflexivity|].
      intros i Hi x. destruct i; cbn; [apply H0|apply Hc; cbn in Hi; lia]. }
  destruct HC as (c & Ec & Hc). exists c. split; [destruct ps; [congruence|exact Ec]|]. split; [exact Ho|]. split; [exact Hl|].
  intros i k Hi Hk. rewrite map_length in Hi. symmetry. apply Hc. exact Hi.
Qed.

(** For polynomial kernels of degree at most the order, the Chebyshev method is exact. *)
Theorem C20_exact_on_polynomials :
  forall F ps o s v sig, spectral F -> 0 < v_lmax F -> (1 <= o)%nat -> ps <> [] ->
    (forall p, In p ps -> (List.length p <= S o)%nat) ->
    batch (v_N F) (List.length ps) s v sig ->
    exists o1 o2, gfilter F (map (fun p => pw (peval p)) ps) (Chebyshev o) s = Ok o1 /\
      gfilter F (map (fun p => pw (peval p)) ps) Exact s = Ok o2 /\ aeq o1 o2.
Proof.
  intros F ps o s v sig HF Hl Ho Hne Hd Hs.
  pose proof (response_poly F ps o Hl Ho Hne Hd) as R1.
  pose proof (response_pw F (map peval ps) HF) as R2. rewrite map_map in R2.
  set (ks := map (fun p => pw (peval p)) ps) in *. assert (Hlen : List.length ks = List.length ps) by apply map_length.
  rewrite <- Hlen in Hs.
  destruct (C19_analysis_multiplies_the_spectrum F ks _ _ s v sig HF R1 Hs) as (o1 & E1 & S1 & H1).
  destruct (C19_analysis_multiplies_the_spectrum F ks _ _ s v sig HF R2 Hs) as (o2 & E2 & S2 & H2).
  exists o1, o2. split; [exact E1|]. split; [exact E2|]. split; [congruence|]. intros idx Hin. rewrite S1 in Hin.
  assert (Hrd : forall o', aget o' idx = rd [v_N F; v; List.length ks] o' (unsqidx [v_N F; v; List.length ks] idx)).
  { intros o'. unfold rd. rewrite sq_unsq by exact Hin. reflexivity. }
  assert (Hu : inb [v_N F; v; List.length ks] (unsqidx [v_N F; v; List.length ks] idx)) by (apply unsq_inb; exact Hin).
  rewrite !Hrd. clear Hrd. revert Hu. generalize (unsqidx [v_N F; v; List.length ks] idx). intros u Hu. inversion Hu as [|n ? r ? Hn Hr Eu]; subst. inversion Hr as [|j ? r' ? Hj Hr' Er]; subst.
  inversion Hr' as [|f ? r'' ? Hf Hr'' Er']; subst. inversion Hr''; subst. rewrite H1, H2 by assumption.
  apply mult_ext; [|intros ? ?; reflexivity]. intros k Hk. rewrite Hlen in Hf.
  rewrite (nth_indep (map peval ps) (fun _ => 0) (peval [])) by (rewrite map_length; exact Hf). rewrite map_nth. reflexivity.
Qed.

(** In general the error of the Chebyshev method is bounded by the error of the series on the spectrum. *)
Theorem C20_error_bound :
  forall F ks o H g x oc oe f d, spectral F -> response F ks (Chebyshev o) H -> response F ks Exact g ->
    (f < List.length ks)%nat ->
    gfilter F ks (Chebyshev o) (vec_arr (v_N F) x) = Ok oc -> gfilter F ks Exact (vec_arr (v_N F) x) = Ok oe ->
    (forall k, (k < v_N F)%nat -> Rabs (H f k - g f k) <= d) ->
    normsq (v_N F) (fun n => ans F (List.length ks) oc f n - ans F (List.length ks) oe f n) <= d * d * normsq (v_N F) x.
Proof.
  intros F ks o H g x oc oe f d HF R1 R2 Hf E1 E2 Hd.
  replace (normsq _ _) with (normsq (v_N F) (mult F (fun k => 1 * H f k + (-1) * g f k) x)).
  2:{ apply dot_ext; intros n Hn; rewrite (ans_of _ _ _ _ _ _ HF R1 E1), (ans_of _ _ _ _ _ _ HF R2 E2), mult_lin_h by assumption; ring. }
  rewrite (mult_normsq F HF), <- (fhat_normsq F HF), <- rsum_scal_l. apply rsum_le. intros k Hk.
  specialize (Hd k Hk). replace (1 * H f k + -1 * g f k) with (H f k - g f k) by ring. set (q := H f k - g f k) in *.
  assert (q * q <= d * d).
  { pose proof (Rabs_pos q). replace (q * q) with (Rabs q * Rabs q); [nra|]. rewrite <- Rabs_mult. apply Rabs_pos_eq. nra. }
  pose proof (Rle_0_sqr (fhat F x k)) as Hq; unfold Rsqr in Hq. nra.
Qed.

(** Order 0 is rejected. *)
Theorem C20_order_zero_rejected :
  forall F gs s v sig, (0 < List.length gs)%nat -> batch (v_N F) (List.length gs) s v sig ->
    gfilter F (map pw gs) (Chebyshev 0) s = Raise TypeError.
Proof.
  intros F gs s v sig Hg Hs. rewrite <- (map_length pw gs) in Hs. destruct (to_3d_batch _ _ _ _ _ Hs) as (s3 & E3 & S3 & H3).
  unfold gfilter. rewrite E3. cbn [bindr filter3]. unfold filter_cheb3.
  destruct (compute_cheby_coeff (v_lmax F) (map pw gs) 0 None) as [c|x] eqn:Ec.
  - destruct (coeff_len F _ _ _ _ Ec) as (L1 & L2 & L3). cbn [bindr]. rewrite S3. cbn [ix nth Nat.eqb]. unfold cheb_analysis, cheby_op.
    destruct c as [|c0 c]; [rewrite map_length in L1; cbn in L1; lia|].
    assert (El : List.length c0 = 1%nat) by (apply L3; left; reflexivity). cbn [hd]. rewrite El.
    assert (Ef : forallb (fun l => Nat.eqb (List.length l) 1) (c0 :: c) = true).
    { apply forallb_forall. intros l Hin. apply Nat.eqb_eq. apply L3. exact Hin. }
    rewrite Ef. reflexivity.
  - exfalso. unfold compute_cheby_coeff in Ec. destruct gs as [|g gs]; [cbn in Hg; lia|]. cbn [map] in Ec.
    rewrite (mapr_total _ (fun k => match cheby_coeff1 (v_lmax F) k 0 None with Ok c => c | Raise _ => [] end)) in Ec; [discriminate|].
    intros k Hin. change (pw g :: map pw gs) with (map pw (g :: gs)) in Hin. apply in_map_iff in Hin. destruct Hin as (g0 & <- & _).
    unfold cheby_coeff1, pw. cbn [bindr]. unfold cheby_nodes. rewrite !map_length, seq_length, Nat.eqb_refl. reflexivity.
Qed.

Example C20_ex : exists H, response (k2_view 2) [pw (peval [1; 2; 3])] (Chebyshev 2) H /\ H 0%nat 1%nat = 17.
Proof.
  eexists. split.
  - apply (response_poly (k2_view 2) [[1; 2; 3]] 2); [cbn; lra|lia|discriminate|]. intros p [<-|[]]. cbn. lia.
  - cbn. lra.
Qed.

(** ** C21: synthesis is the adjoint of analysis, both methods *)
Theorem C21_adjoint :
  forall F ks m H x c ox oc, spectral F -> response F ks m H ->
    gfilter F ks m (vec_arr (v_N F) x) = Ok ox ->
    gfilter F ks m (mat_arr (v_N F) (List.length ks) c) = Ok oc ->
    \sum_(f < List.length ks) dot (v_N F) (ans F (List.length ks) ox f) (fun n => c n f) =
    dot (v_N F) x (fun n => rd [v_N F; 1%nat; 1%nat] oc [n; 0%nat; 0%nat]).
Proof.
  intros F ks m H x c ox oc HF Hr E1 E2.
  assert (Hoc : forall n, (n < v_N F)%nat -> rd [v_N F; 1%nat; 1%nat] oc [n; 0%nat; 0%nat] = \sum_(f < List.length ks) mult F (H f) (fun i => c i f) n).
  { destruct (Nat.eq_dec (List.length ks) 1) as [E|Hne].
    - destruct (C19_analysis_multiplies_the_spectrum F ks m H (mat_arr (v_N F) (List.length ks) c) (List.length ks) (fun j i => c i j) HF Hr (batch2 _ _ _ _ (or_intror E))) as (o & Eo & So & Ho).
      rewrite E2 in Eo. injection Eo as <-. rewrite E in *. intros n Hn. rewrite Ho by lia. cbn [rsum]. ring.
    - destruct (C19_synthesis_sums_the_filtered_features F ks m H (mat_arr (v_N F) (List.length ks) c) 1 (fun _ f i => c i f) HF Hr (fbatch2 _ _ _ Hne)) as (o & Eo & So & Ho).
      rewrite E2 in Eo. injection Eo as <-. intros n Hn. rewrite Ho by lia. reflexivity. }
  rewrite (dot_ext (v_N F) x x _ (fun n => \sum_(f < List.length ks) mult F (H f) (fun i => c i f) n)); [|intros ? ?; reflexivity|exact Hoc].
  transitivity (\sum_(f < List.length ks) dot (v_N F) x (mult F (H f) (fun i => c i f))).
  - apply rsum_ext. intros f Hf. rewrite <- (mult_adj F HF). apply dot_ext; [|intros ? ?; reflexivity].
    intros n Hn. apply (ans_of _ _ _ _ _ _ HF Hr E1); assumption.
  - unfold dot. rewrite rsum_swap. apply rsum_ext. intros n Hn. rewrite rsum_scal_l. reflexivity.
Qed.

(** ** C22: frame bounds *)

Lemma fold_min_le l a : fold_left Rmin l a <= a /\ (forall x, In x l -> fold_left Rmin l a <= x).
Proof.
  revert a. induction l as [|b l IH]; intros a; cbn; [split; [lra|tauto]|].
  destruct (IH (Rmin a b)) as (H1 & H2). pose proof (Rmin_l a b). pose proof (Rmin_r a b). split; [lra|].
  intros x [<-|Hin]; [lra|apply H2; exact Hin].
Qed.
Lemma fold_min_in l a : fold_left Rmin l a = a \/ In (fold_left Rmin l a) l.
Proof.
  revert a. induction l as [|b l IH]; intros a; cbn; [auto|]. destruct (IH (Rmin a b)) as [E|E]; [|auto].
  rewrite E. unfold Rmin. destruct (Rle_dec a b); auto.
Qed.
Lemma lmin_spec l a : lmin l = Ok a -> In a l /\ forall x, In x l -> a <= x.
Proof.
  destruct l as [|b l]; cbn; [discriminate|]. intros E. injection E as <-. split.
  - destruct (fold_min_in l b) as [->|H]; auto.
  - intros x [<-|Hin]; [apply (proj1 (fold_min_le l b))|apply (proj2 (fold_min_le l b)); exact Hin].
Qed.
Lemma lmaxl_spec l a : lmaxl l = Ok a -> In a l /\ forall x, In x l -> x <= a.
Proof.
  destruct l as [|b l]; cbn; [discriminate|]. intros E. injection E as <-. split.
  - destruct (fold_max_in l b) as [->|H]; auto.
  - intros x [<-|Hin]; [apply (proj1 (fold_max_ge l b))|apply (proj2 (fold_max_ge l b)); exact Hin].
Qed.
Lemma nth_sumsq ks x y j : evaluate ks x = Ok y -> (j < List.length x)%nat ->
  nth j (sumsq y (List.length x)) 0 = \sum_(f < List.length ks) (nth j (nth f y []) 0 * nth j (nth f y []) 0).
Proof.
  intros E Hj. unfold sumsq. rewrite nth_map_seq by exact Hj. rewrite <- (proj1 (evaluate_len _ _ _ E)).
  symmetry. exact (rsum_nth_map y [] (fun row => nth j row 0 * nth j row 0)).
Qed.

(** With the bounds evaluated at the graph's eigenvalues: A |x|^2 <= sum_f |response_f|^2 <= B |x|^2,
    and both bounds are attained by non-zero signals. *)
Theorem C22_frame_bounds :
  forall F ks H A B, spectral F -> response F ks Exact H -> estimate_frame_bounds F ks (Some (v_e F)) = Ok (A, B) ->
    (forall x out, gfilter F ks Exact (vec_arr (v_N F) x) = Ok out ->
       A * normsq (v_N F) x <= \sum_(f < List.length ks) normsq (v_N F) (ans F (List.length ks) out f) <= B * normsq (v_N F) x) /\
    (exists x out, ~ vzero (v_N F) x /\ gfilter F ks Exact (vec_arr (v_N F) x) = Ok out /\
       \sum_(f < List.length ks) normsq (v_N F) (ans F (List.length ks) out f) = A * normsq (v_N F) x) /\
    (exists x out, ~ vzero (v_N F) x /\ gfilter F ks Exact (vec_arr (v_N F) x) = Ok out /\
       \sum_(f < List.length ks) normsq (v_N F) (ans F (List.length ks) out f) = B * normsq (v_N F) x).
Proof.
  intros F ks H A B HF Hr E. pose proof Hr as (y & Hy & HH). unfold estimate_frame_bounds in E. rewrite Hy in E. cbn [bindr] in E.
  destruct (lmin (sumsq y (List.length (v_e F)))) as [a|] eqn:Ea; [|discriminate]. cbn [bindr] in E.
  destruct (lmaxl (sumsq y (List.length (v_e F)))) as [b|] eqn:Eb; [|discriminate]. cbn [bindr] in E. injection E as -> ->.
  destruct (lmin_spec _ _ Ea) as (Ain & Amin). destruct (lmaxl_spec _ _ Eb) as (Bin & Bmax).
  assert (Hlen : List.length (sumsq y (List.length (v_e F))) = v_N F) by (unfold sumsq; rewrite map_length, seq_length; apply HF).
  set (q := fun k => \sum_(f < List.length ks) (H f k * H f k)).
  assert (Hq : forall k, (k < v_N F)%nat -> nth k (sumsq y (List.length (v_e F))) 0 = q k).
  { intros k Hk. rewrite (nth_sumsq ks _ y k Hy) by (rewrite (proj1 HF); exact Hk). apply rsum_ext. intros f Hf. rewrite HH by assumption. reflexivity. }
  assert (Hqb : forall k, (k < v_N F)%nat -> A <= q k <= B).
  { intros k Hk. rewrite <- Hq by exact Hk. split; [apply Amin|apply Bmax]; apply nth_In; lia. }
  assert (Hsum : forall x out, gfilter F ks Exact (vec_arr (v_N F) x) = Ok out ->
     \sum_(f < List.length ks) normsq (v_N F) (ans F (List.length ks) out f) = \sum_(k < v_N F) (q k * (fhat F x k * fhat F x k))).
  { intros x out Eo. transitivity (\sum_(f < List.length ks) normsq (v_N F) (mult F (H f) x)).
    - apply rsum_ext. intros f Hf. apply dot_ext; intros n Hn; apply (ans_of _ _ _ _ _ _ HF Hr Eo); assumption.
    - rewrite (rsum_ext _ _ (fun f => \sum_(k < v_N F) (H f k * H f k * (fhat F x k * fhat F x k)))) by (intros; apply (mult_normsq F HF)).
      rewrite rsum_swap. apply rsum_ext. intros k Hk. unfold q. rewrite rsum_scal_r. reflexivity. }
  assert (Hatt : forall c, In c (sumsq y (List.length (v_e F))) -> exists x out, ~ vzero (v_N F) x /\ gfilter F ks Exact (vec_arr (v_N F) x) = Ok out /\
       \sum_(f < List.length ks) normsq (v_N F) (ans F (List.length ks) out f) = c * normsq (v_N F) x).
  { intros c Hin. apply (In_nth _ _ 0) in Hin. destruct Hin as (k & Hk & <-). rewrite Hlen in Hk. rewrite Hq by exact Hk.
    set (x := fun i => v_U F i k). destruct (one_signal F ks Exact H x HF Hr) as (out & Eo & _). exists x, out.
    split; [exact (proj1 (eigh_eigenpair _ _ _ _ (proj2 HF) k Hk))|]. split; [exact Eo|]. rewrite (Hsum x out Eo).
    assert (Hf : forall l, (l < v_N F)%nat -> fhat F x l = if Nat.eqb l k then 1 else 0).
    { intros l Hl. unfold fhat, x. apply (eigh_cols _ _ _ _ (proj2 HF)); assumption. }
    assert (En : normsq (v_N F) x = 1).
    { unfold normsq, dot, x. rewrite (eigh_cols _ _ _ _ (proj2 HF) k k Hk Hk), Nat.eqb_refl. reflexivity. }
    rewrite En. rewrite (rsum_single (v_N F) _ k Hk).
    - rewrite Hf by exact Hk. rewrite Nat.eqb_refl. ring.
    - intros l Hl Hne. rewrite Hf by exact Hl. destruct (Nat.eqb_spec l k); [contradiction|ring]. }
  split; [|split; apply Hatt; assumption].
  intros x out Eo. rewrite (Hsum x out Eo), <- (fhat_normsq F HF), <- !rsum_scal_l.
  split; apply rsum_le; intros k Hk; specialize (Hqb k Hk); pose proof (Rle_0_sqr (fhat F x k)) as Hs; unfold Rsqr in Hs; nra.
Qed.

Example C22_ex : estimate_frame_bounds (k2_view 2) (map pw [fun t => 1; fun t => t]) (Some [0; 2]) = Ok (1, 5).
Proof.
  cbn. unfold lsum. cbn. f_equal. f_equal; [unfold Rmin|unfold Rmax]; destruct (Rle_dec _ _); lra.
Qed.
