(** Properties C15, C16 (and the history part of C03, C05): caches over arbitrary call histories. *)
From Coq Require Import Reals Lra Lia List Arith Bool String.
From Verif.Base Require Import RSum Prelude LinAlg.
From Verif.Spec Require Import Matrix GraphSpec CacheSpec.
From Verif.Model Require Import Sparse Graph Difference Bounds Traverse Cache.
From Verif.Spec Require Reach.
From Verif.Proofs Require Import SparseFacts InitFacts EdgeFacts LapFacts TraverseFacts SubgraphFacts CacheFacts SpectralFacts.
From Verif.Props Require Import Core Laplacian Traversal.
Import ListNotations.
Open Scope R_scope.

(** The exact-arithmetic contract of the eigensolvers: the first k pairs of an orthogonal
    eigendecomposition in ascending order. *)
Definition exact_eig (n : nat) (L : mat) (k : nat) (e : list R) (U : mat) : Prop :=
  List.length e = k /\ (1 <= k <= n)%nat /\
  exists e' U', eigh_ok n L e' U' /\
    (forall i, (i < k)%nat -> nth i e 0 = e' i) /\
    (forall r i, (r < n)%nat -> (i < k)%nat -> U r i = U' r i).
(** Lanczos answers a Ritz value: a Rayleigh quotient of L. *)
Definition ritz (n : nat) (L : mat) (r : R) : Prop :=
  exists e U x, eigh_ok n L e U /\ normsq n x = 1 /\ r = quad n L x.

Definition sized (Eig : nat -> mat -> nat -> list R -> mat -> Prop) : Prop :=
  forall n L k e U, Eig n L k e U -> List.length e = k /\ (k <= n)%nat.

Lemma exact_sized : sized exact_eig.
Proof. intros n L k e U (H1 & H2 & _). split; [exact H1|lia]. Qed.

(** ** C16 *)

(** After any history with known Laplacian types, for any solver: L is the Laplacian of lap_type;
    the cached basis, coherence and differential operator belong to that L and type. *)
Theorem C16_caches_are_coherent :
  forall Eig Lan G cs s, sized Eig -> built G -> known_types cs -> history Eig Lan (cache_init G) cs s ->
    laplacian (gW G) (c_lap s) = Ok (c_L s) /\
    (forall e U, c_basis s = Some (e, U) ->
       exists k e0, Eig (g_n_vertices G) (c_L s) k e0 U /\ stored_eigs e0 e /\ List.length e = k) /\
    (forall c, c_coh s = Some c -> exists e U, c_basis s = Some (e, U) /\ List.length e = g_n_vertices G /\
       c = maxabs (g_n_vertices G) (g_n_vertices G) U) /\
    (forall D, c_D s = Some D -> diff_op (gW G) (c_lap s) = Ok D).
Proof.
  intros Eig Lan G cs s Hs Hb Hk Hh. destruct (inv_reach Eig Lan Hs G cs s Hb Hk Hh) as [IW IN IL IB IC ID IM _ _].
  auto.
Qed.

(** A successful request for k eigenvectors leaves at least k available. *)
Theorem C16_requested_eigenvectors_available :
  forall Eig s k o s', sized Eig -> eig_legal Eig s (match k with None => c_N s | Some k => k end) o ->
    compute_fourier_basis k o s = (s', Ok tt) ->
    exists e U, c_basis s' = Some (e, U) /\
      (match k with None => c_N s | Some k => k end <= List.length e)%nat.
Proof.
  intros Eig s k o s' Hsz Hl. unfold compute_fourier_basis. set (kk := match k with None => c_N s | Some k => k end) in *.
  destruct (c_basis s) as [[e U]|] eqn:Eb.
  - destruct (Nat.leb_spec kk (List.length e)) as [Hle|Hgt].
    + intros E. injection E as <-. exists e, U. auto.
    + destruct o as [e1 U1|x]; [|discriminate]. cbn in Hl. destruct (Hsz _ _ _ _ _ Hl) as (Hlen & _).
      destruct e1 as [|a es]; [discriminate|]. destruct (_ && _)%bool; [|discriminate].
      destruct (upper_bound _ _); [|discriminate]. destruct (fle _ _); [|discriminate].
      destruct (forallb _ _); [|discriminate]. destruct (Nat.eqb kk (c_N s)); intros E; injection E as <-;
      exists (0 :: es), U1; cbn in *; split; auto; lia.
  - destruct o as [e1 U1|x]; [|discriminate]. cbn in Hl. destruct (Hsz _ _ _ _ _ Hl) as (Hlen & _).
    destruct e1 as [|a es]; [discriminate|]. destruct (_ && _)%bool; [|discriminate].
    destruct (upper_bound _ _); [|discriminate]. destruct (fle _ _); [|discriminate].
    destruct (forallb _ _); [|discriminate]. destruct (Nat.eqb kk (c_N s)); intros E; injection E as <-;
    exists (0 :: es), U1; cbn in *; split; auto; lia.
Qed.

(** The same graph with another Laplacian type is also the result of a constructor call. *)
Lemma built_with_lap G t : built G -> valid_lap t ->
  exists G', built G' /\ gW G' = gW G /\ g_n_vertices G' = g_n_vertices G /\ g_lap_type G' = t.
Proof.
  intros Hb Ht. induction Hb as [inp lap co G Hwf H|G s name G' HG IH H].
  - destruct (proj1 (init_accepts inp lap co Hwf)) as (_ & Hacc); [eauto|].
    destruct (proj2 (init_accepts inp t co Hwf)) as (G2 & H2); [auto|].
    exists G2. split; [eapply built_init; eauto|].
    destruct (init_inv inp lap co G Hwf H) as (n & L & Hs & _ & _ & ->).
    destruct (init_inv inp t co G2 Hwf H2) as (n2 & L2 & Hs2 & _ & _ & ->). cbn.
    split; [reflexivity|]. split; [|reflexivity]. rewrite Hs in Hs2. congruence.
  - destruct IH as (G2 & A & B & C & D). exists G2. unfold set_signal, check_signal in H.
    destruct (Nat.eqb _ _); [|discriminate]. injection H as <-. cbn. auto.
Qed.

(** The smallest Laplacian eigenvalue is 0 for non-negative weights. *)
Lemma first_eigenvalue_zero G e U : built G -> nonneg_weights G -> (0 < g_n_vertices G)%nat ->
  eigh_ok (g_n_vertices G) (gL G) e U -> e 0%nat = 0.
Proof.
  intros Hb Hp Hn0 He. apply Rle_antisym.
  - assert (Hz : exists x, ~ vzero (g_n_vertices G) x /\ forall i, (i < g_n_vertices G)%nat -> mulv (g_n_vertices G) (gL G) x i = 0).
    { destruct (built_valid_lap G Hb) as [Ht|Ht].
      - exists (fun _ => 1). split; [intros H; specialize (H 0%nat Hn0); cbn in H; lra|].
        intros i Hi. unfold mulv. destruct (C09_combinatorial_structure G Hb Ht) as (_ & Hr & _).
        rewrite (rsum_ext _ _ (fun j => gL G i j)) by (intros; ring). exact (Hr i Hi).
      - destruct (vzero_dec (g_n_vertices G) (fun i => sqrt (dw (gW G) i))) as [Hz|(i & Hi & Hnz)].
        + exists (fun _ => 1). split; [intros H; specialize (H 0%nat Hn0); cbn in H; lra|].
          intros i Hi. apply rsum_0. intros j Hj.
          destruct (C11_normalized_entries G Hb Ht Hp) as (_ & _ & _ & H0). rewrite H0; auto; [ring|].
          apply sqrt_eq_0; [|apply Hz, Hi].
          destruct (built_good G Hb) as (Hg & Hn & _ & _). apply dw_nonneg; auto; [apply nonneg_W; assumption|lia].
        + exists (fun i => sqrt (dw (gW G) i)). split; [intros Hz; apply Hnz, Hz, Hi|].
          intros i0 Hi0. apply (C11_sqrt_degree_in_kernel G i0 Hb Ht Hp Hi0). }
    destruct Hz as (x & Hnz & Hk).
    apply (eigh_first_le _ _ _ _ He x 0 Hn0). split; [exact Hnz|]. intros i Hi. rewrite (Hk i Hi). ring.
  - pose proof (eigh_eigenpair _ _ _ _ He 0 Hn0) as Hep.
    apply (eigenvalue_ge_quad _ (gL G) (e 0%nat) _ 0 Hep). rewrite Rmult_0_l.
    destruct (built_valid_lap G Hb) as [Ht|Ht]; [apply (C09_psd G Hb Ht Hp)|apply (C11_psd G Hb Ht Hp)].
Qed.

(** What holds of any Laplacian met in a history of a graph with non-negative weights. *)
Lemma current_graph G cs Eig Lan s : sized Eig -> built G -> known_types cs -> history Eig Lan (cache_init G) cs s ->
  exists G', built G' /\ gW G' = gW G /\ g_n_vertices G' = g_n_vertices G /\ g_lap_type G' = c_lap s /\ gL G' = c_L s /\
    c_W s = gW G /\ c_N s = g_n_vertices G.
Proof.
  intros Hsz Hb Hk Hh. destruct (inv_reach Eig Lan Hsz G cs s Hb Hk Hh) as [IW IN IL _ _ _ _ _ _].
  destruct (built_with_lap G (c_lap s) Hb) as (G' & Hb' & HW & HN & Ht).
  { apply (laplacian_ok (gW G)). eauto. }
  exists G'. repeat (split; [assumption|]). split; [|auto].
  destruct (built_good G' Hb') as (_ & _ & _ & HL). rewrite HW, Ht, IL in HL. congruence.
Qed.

Lemma last_nth (l : list R) : last l 0 = nth (List.length l - 1) l 0.
Proof.
  induction l as [|x l IH]; [reflexivity|]. destruct l as [|y l]; [reflexivity|].
  change (last (x :: y :: l) 0) with (last (y :: l) 0). rewrite IH. cbn [List.length].
  replace (S (S (List.length l)) - 1)%nat with (S (S (List.length l) - 1)) by lia. reflexivity.
Qed.

(** For non-negative weights and exact solvers no assertion of compute_fourier_basis ever fails, in
    any history, and the cached basis is a true (partial) eigendecomposition of the current L. *)
Theorem C16_basis_computation_never_fails :
  forall G cs s k e U, built G -> nonneg_weights G -> (0 < g_n_vertices G)%nat -> known_types cs ->
    history exact_eig ritz (cache_init G) cs s ->
    legal exact_eig ritz s (OpBasis k (EigOk e U)) ->
    exists s' e' U', compute_fourier_basis k (EigOk e U) s = (s', Ok tt) /\
      c_basis s' = Some (e', U') /\ exact_eig (g_n_vertices G) (c_L s) (List.length e') e' U' /\ nth 0 e' 0 = 0.
Proof.
  intros G cs s k e U Hb Hp Hn0 Hk Hh Hl.
  destruct (current_graph G cs _ _ s exact_sized Hb Hk Hh) as (G' & Hb' & HW & HN & Ht & HL & IW & IN).
  assert (Hp' : nonneg_weights G').
  { unfold nonneg_weights, wt. rewrite HW, HN. exact Hp. }
  pose proof (inv_reach exact_eig ritz exact_sized G cs s Hb Hk Hh) as I.
  assert (Hex : forall k0 e0 U0, exact_eig (g_n_vertices G) (c_L s) k0 e0 U0 -> nth 0 e0 0 = 0).
  { intros k0 e0 U0 (Hlen & Hk0 & e' & U' & He & Hi & _). rewrite (Hi 0%nat ltac:(lia)).
    apply (first_eigenvalue_zero G' e' U' Hb' Hp'); rewrite ?HN, ?HL; auto. }
  unfold compute_fourier_basis. cbn in Hl. rewrite IN in *. set (kk := match k with None => g_n_vertices G | Some k => k end) in *.
  destruct (match c_basis s with Some (e, _) => Nat.leb kk (List.length e) | None => false end) eqn:Ee.
  - destruct (c_basis s) as [[e1 U1]|] eqn:Eb; [|discriminate].
    destruct (inv_basis _ _ _ _ _ I e1 U1 Eb) as (k0 & e0 & H1 & H2 & H3).
    pose proof (Hex _ _ _ H1) as Hz.
    assert (E : e1 = e0). { destruct H2 as [->|(x & l & -> & ->)]; [reflexivity|]. cbn in Hz. congruence. }
    subst e1. exists s, e0, U1. rewrite H3. auto.
  - pose proof (Hex _ _ _ Hl) as Hz. pose proof Hl as (Hlen & Hkk & e' & U' & He & Hi & HU).
    destruct e as [|e0 es]; [cbn in Hlen; lia|]. cbn in Hz. subst e0.
    assert (E1 : (Rltb (- / 10 ^ 5) 0 && Rltb 0 (/ 10 ^ 5))%bool = true).
    { apply andb_true_intro. split; apply Rltb_true; [|apply Rinv_0_lt_compat; lra].
      apply Ropp_lt_gt_0_contravar, Rinv_0_lt_compat. lra. }
    rewrite E1.
    destruct (C14_upper_bound_is_upper_bound G' Hb' Hp' ltac:(rewrite HN; exact Hn0)) as (r & Er & Hr).
    rewrite HW, Ht in Er. rewrite IW, Er.
    assert (Hlast : last (0 :: es) 0 = e' (kk - 1)%nat).
    { rewrite last_nth, Hlen. apply Hi. lia. }
    assert (E2 : fle (last (0 :: es) 0) (xadd (Fin r) (Fin (/ 10 ^ 5))) = true).
    { cbn [xadd fle]. apply Rleb_true. rewrite Hlast.
      assert (0 < / 10 ^ 5) by (apply Rinv_0_lt_compat; lra).
      enough (e' (kk - 1)%nat <= r) by lra. rewrite HN, HL in Hr. apply (Hr _ (fun i => U' i (kk - 1)%nat)).
      apply (eigh_eigenpair _ _ _ _ He). lia. }
    rewrite E2.
    assert (E3 : forallb (fun x => Rleb x (last (0 :: es) 0)) (0 :: es) = true).
    { apply forallb_forall. intros x Hx. apply Rleb_true. rewrite Hlast.
      apply (In_nth _ _ 0) in Hx. destruct Hx as (i & Hi2 & <-). rewrite Hi by lia. apply (eigh_sort _ _ _ _ He); lia. }
    rewrite E3.
    assert (El : List.length (0 :: es) = kk) by exact Hlen.
    destruct (Nat.eqb kk (g_n_vertices G)); eexists; exists (0 :: es), U; (split; [reflexivity|]);
      (split; [reflexivity|]); rewrite El; auto.
Qed.

(** The differential operator is available after any history (non-negative weights not needed). *)
Theorem C16_D_available :
  forall Eig Lan G cs s, sized Eig -> built G -> known_types cs -> history Eig Lan (cache_init G) cs s ->
    exists D, snd (read_D s) = Ok (Some D) /\ diff_op (gW G) (c_lap s) = Ok D.
Proof.
  intros Eig Lan G cs s Hs Hb Hk Hh. destruct (inv_reach Eig Lan Hs G cs s Hb Hk Hh) as [IW IN IL IB IC ID IM _ _].
  unfold read_D. destruct (c_D s) as [D|]; [exists D; split; [reflexivity|apply ID; reflexivity]|].
  unfold compute_D. rewrite IW.
  assert (HD : exists D, diff_op (gW G) (c_lap s) = Ok D).
  { destruct (built_good G Hb) as (Hg & _). destruct (edge_list_ok (gW G) Hg) as (l & El & _).
    unfold diff_op. rewrite El. cbn [bindr].
    destruct (c_lap s); [eauto|eauto|]. cbn in IL. discriminate. }
  destruct HD as (D & ED). rewrite ED. exists D. auto.
Qed.

(** Whatever the history, the basis G.U, G.e return was computed for the current Laplacian, and the coherence G.coherence returns
    is that of a full basis computed for the current Laplacian. *)
Lemma basis_keeps_L k o s : c_L (fst (compute_fourier_basis k o s)) = c_L s /\ c_lap (fst (compute_fourier_basis k o s)) = c_lap s.
Proof.
  unfold compute_fourier_basis. set (kk := match k with None => c_N s | Some k => k end).
  destruct (match c_basis s with Some (e, _) => Nat.leb kk (List.length e) | None => false end); [auto|].
  destruct o as [e1 U1|x]; [|auto]. destruct e1 as [|a es]; [auto|]. destruct (_ && _)%bool; [|auto].
  destruct (upper_bound _ _); [|auto]. destruct (fle _ _); [|auto]. destruct (forallb _ _); [|auto]. destruct (Nat.eqb kk (c_N s)); auto.
Qed.
Theorem C16_values_read :
  forall Eig Lan G cs s o, sized Eig -> built G -> known_types cs -> history Eig Lan (cache_init G) cs s ->
    legal Eig Lan s (OpReadBasis o) ->
    (forall s' e U, read_basis o s = (s', Ok (Some (e, U))) ->
       c_L s' = c_L s /\ exists k e0, Eig (g_n_vertices G) (c_L s) k e0 U /\ stored_eigs e0 e /\ List.length e = k) /\
    (forall s' c, read_coherence o s = (s', Ok (Some c)) ->
       c_L s' = c_L s /\ exists e0 e U, Eig (g_n_vertices G) (c_L s) (g_n_vertices G) e0 U /\ stored_eigs e0 e /\ c_basis s' = Some (e, U) /\
         c = maxabs (g_n_vertices G) (g_n_vertices G) U).
Proof.
  intros Eig Lan G cs s o Hs Hb Hk Hh Hl. pose proof (inv_reach Eig Lan Hs G cs s Hb Hk Hh) as I.
  pose proof (inv_basis_step Eig Lan Hs (gW G) (g_n_vertices G) s None o I Hl) as I2.
  destruct (basis_keeps_L None o s) as (K1 & _).
  assert (C : forall t, inv Eig Lan (gW G) (g_n_vertices G) t -> c_L t = c_L s ->
     (forall e U, c_basis t = Some (e, U) -> exists k e0, Eig (g_n_vertices G) (c_L s) k e0 U /\ stored_eigs e0 e /\ List.length e = k) /\
     (forall c, c_coh t = Some c -> exists e0 e U, Eig (g_n_vertices G) (c_L s) (g_n_vertices G) e0 U /\ stored_eigs e0 e /\ c_basis t = Some (e, U) /\ c = maxabs (g_n_vertices G) (g_n_vertices G) U)).
  { intros t It Et. assert (B : forall e U, c_basis t = Some (e, U) -> exists k e0, Eig (g_n_vertices G) (c_L s) k e0 U /\ stored_eigs e0 e /\ List.length e = k).
    { intros e U E. destruct (inv_basis _ _ _ _ _ It e U E) as (k & e0 & H1 & H2 & H3). rewrite Et in H1. eauto. }
    split; [exact B|]. intros c Ec. destruct (inv_coh _ _ _ _ _ It c Ec) as (e & U & E & Hlen & Hc).
    destruct (B e U E) as (k & e0 & H1 & H2 & H3). rewrite Hlen in H3. subst k. exists e0, e, U. auto. }
  split.
  - intros s' e U Hr. unfold read_basis in Hr. destruct (c_basis s) as [b|] eqn:Eb.
    + injection Hr as <- ->. split; [reflexivity|]. apply (proj1 (C s I eq_refl)). exact Eb.
    + destruct (compute_fourier_basis None o s) as [s1 [u|x]]; [|discriminate]. injection Hr as <- Er. cbn [fst] in *.
      split; [exact K1|]. apply (proj1 (C s1 I2 K1)). exact Er.
  - intros s' c Hr. unfold read_coherence in Hr. destruct (c_coh s) as [b|] eqn:Eb.
    + injection Hr as <- ->. split; [reflexivity|]. apply (proj2 (C s I eq_refl)). exact Eb.
    + destruct (compute_fourier_basis None o s) as [s1 [u|x]]; [|discriminate]. injection Hr as <- Er. cbn [fst] in *.
      split; [exact K1|]. apply (proj2 (C s1 I2 K1)). exact Er.
Qed.

(** Finding: compute_laplacian with an unknown type raises but leaves lap_type changed, so L is no
    longer the Laplacian of lap_type. *)
Theorem C16_unknown_type_leaves_inconsistent_state_refuted :
  exists G t s, built G /\ compute_laplacian t (cache_init G) = (s, Raise ValueError) /\
    c_lap s = t /\ t <> g_lap_type G /\ laplacian (gW G) (c_lap s) <> Ok (c_L s).
Proof.
  destruct (ex_graph Combinatorial (or_introl eq_refl)) as (G & Hb & Hn & Ht & _).
  exists G, (OtherLap "foo"), (fst (compute_laplacian (OtherLap "foo") (cache_init G))).
  split; [exact Hb|]. unfold compute_laplacian. cbn. rewrite Ht. cbn.
  repeat split; discriminate.
Qed.

(** Finding: a compute_fourier_basis that failed an assertion is remembered as done: the same call
    then returns silently, with the uncorrected basis. *)
Theorem C16_failed_basis_is_remembered_refuted :
  exists s o s' o', compute_fourier_basis None o s = (s', Raise AssertionError) /\
    compute_fourier_basis None o' s' = (s', Ok tt) /\ c_coh s' = None /\
    snd (read_coherence o' s') = Ok None.
Proof.
  destruct (ex_graph Combinatorial (or_introl eq_refl)) as (G & Hb & Hn & Ht & _).
  set (o := EigOk [-1; 0; 1] (fun _ _ => 0)).
  exists (cache_init G), o, (set_basis (cache_init G) (Some ([-1; 0; 1], fun _ _ => 0))), o.
  assert (E : Rltb (- / 10 ^ 5) (-1) = false).
  { apply Rltb_false. apply Ropp_le_cancel. rewrite Ropp_involutive. 
    replace (- -1) with (/ 1) by lra. apply Rinv_le_contravar; lra. }
  assert (E2 : compute_fourier_basis None o (set_basis (cache_init G) (Some ([-1; 0; 1], fun _ _ => 0))) =
     (set_basis (cache_init G) (Some ([-1; 0; 1], fun _ _ => 0)), Ok tt)).
  { unfold compute_fourier_basis. cbn [c_basis set_basis c_N cache_init]. rewrite Hn. reflexivity. }
  split; [|split; [exact E2|split; [reflexivity|]]].
  - unfold compute_fourier_basis, o. cbn [c_basis cache_init c_N]. rewrite E. reflexivity.
  - unfold read_coherence. cbn [c_coh set_basis cache_init]. rewrite E2. reflexivity.
Qed.

(** ** C15 *)

(** Whatever the history, the number G.lmax returns was computed for the current Laplacian. *)
Theorem C15_lmax_is_never_stale :
  forall Eig Lan G cs s o s' v, sized Eig -> built G -> known_types cs -> history Eig Lan (cache_init G) cs s ->
    legal Eig Lan s (OpLmax o) -> read_lmax o s = (s', Ok (Some v)) ->
    lmax_for Eig Lan (gW G) (c_lap s') (g_n_vertices G) (c_L s') v /\ c_lap s' = c_lap s /\ c_L s' = c_L s.
Proof.
  intros Eig Lan G cs s o s' v Hs Hb Hk Hh Hl Hr.
  pose proof (inv_reach Eig Lan Hs G cs s Hb Hk Hh) as I.
  pose proof (inv_estimate Eig Lan (gW G) (g_n_vertices G) s "lanczos" o I Hl) as I2.
  assert (Hlap : c_lap s' = c_lap s /\ c_L s' = c_L s).
  { revert Hr. unfold read_lmax, estimate_lmax. destruct (c_lmax s); [intros E; injection E as <- <-; auto|].
    destruct (match c_method s with Some m' => String.eqb "lanczos" m' | None => false end); [intros E; injection E as <- _; auto|].
    cbn [String.eqb Ascii.eqb Bool.eqb]. destruct o; [|discriminate|discriminate].
    destruct (upper_bound _ _); [|discriminate]. destruct (fle _ _); [|discriminate].
    intros E. injection E as <- _. auto. }
  split; [|exact Hlap]. unfold read_lmax in Hr. destruct (c_lmax s) as [w|] eqn:Ew.
  - injection Hr as <- <-. apply (inv_lmax _ _ _ _ _ I). exact Ew.
  - destruct (estimate_lmax "lanczos" o s) as [s1 [u|x]]; [|discriminate]. injection Hr as -> Hv.
    apply (inv_lmax _ _ _ _ _ I2). exact Hv.
Qed.

(** With exact solvers and non-negative weights: the Lanczos assertion never fails, and the bound
    of method 'bounds' as well as the value left by a full basis dominate every eigenvalue. *)
Theorem C15_lanczos_assertion_never_fails :
  forall G cs s r, built G -> nonneg_weights G -> (0 < g_n_vertices G)%nat -> known_types cs ->
    history exact_eig ritz (cache_init G) cs s -> ritz (g_n_vertices G) (c_L s) r ->
    exists s', estimate_lmax "lanczos" (LanOk r) s = (s', Ok tt).
Proof.
  intros G cs s r Hb Hp Hn0 Hk Hh (e & U & x & He & Hx & ->).
  destruct (current_graph G cs _ _ s exact_sized Hb Hk Hh) as (G' & Hb' & HW & HN & Ht & HL & IW & IN).
  assert (Hp' : nonneg_weights G').
  { unfold nonneg_weights, wt. rewrite HW, HN. exact Hp. }
  unfold estimate_lmax. destruct (match c_method s with Some m' => String.eqb "lanczos" m' | None => false end); [eauto|].
  cbn [String.eqb Ascii.eqb Bool.eqb].
  destruct (C14_upper_bound_is_upper_bound G' Hb' Hp' ltac:(rewrite HN; exact Hn0)) as (b & Er & Hr).
  rewrite HW, Ht in Er. rewrite IW, Er. cbn [xadd fle].
  replace (Rleb (quad (g_n_vertices G) (c_L s) x) (b + / 10 ^ 12)) with true; [eauto|].
  symmetry. apply Rleb_true. rewrite HN, HL in Hr.
  assert (0 < / 10 ^ 12) by (apply Rinv_0_lt_compat; lra).
  assert (quad (g_n_vertices G) (c_L s) x <= b * normsq (g_n_vertices G) x).
  { apply (eigh_quad_le _ _ _ _ He). intros k Hkk. apply (Hr _ (fun i => U i k)). apply (eigh_eigenpair _ _ _ _ He k Hkk). }
  rewrite Hx in H0. lra.
Qed.

(** Histories in which every call succeeds and the Laplacian type is never changed. *)
Inductive calm : cache -> list op -> cache -> Prop :=
| calm_nil s : calm s [] s
| calm_cons s c s' cs s'' r :
    (forall t, c = OpLaplacian t -> t = c_lap s) -> step s c = (s', Ok r) -> calm s' cs s'' -> calm s (c :: cs) s''.

(** In those, reading G.lmax never returns None. *)
Theorem C15_lmax_available_without_type_change :
  forall G cs s o, calm (cache_init G) cs s ->
    snd (read_lmax o s) <> Ok None.
Proof.
  intros G cs s o Hc.
  assert (H : c_lmax s = None -> c_method s = None).
  { assert (H0 : c_lmax (cache_init G) = None -> c_method (cache_init G) = None) by reflexivity.
    revert H0 Hc. generalize (cache_init G) as s0. intros s0 H0 Hc.
    induction Hc as [s0|s0 c s1 cs s2 r Ht Hs Hc IH]; [exact H0|]. apply IH. clear IH Hc.
    assert (HE : forall m oo s' u, estimate_lmax m oo s0 = (s', Ok u) -> c_lmax s' = None -> c_method s' = None).
    { intros m oo s' u. unfold estimate_lmax.
      destruct (match c_method s0 with Some m' => String.eqb m m' | None => false end); [intros E; injection E as <- _; exact H0|].
      destruct (String.eqb m "lanczos").
      - destruct oo; try discriminate. destruct (upper_bound _ _); [|discriminate]. destruct (fle _ _); [|discriminate].
        intros E; injection E as <- _. discriminate.
      - destruct (String.eqb m "bounds"); [|discriminate]. destruct (upper_bound _ _); [|discriminate].
        intros E; injection E as <- _. discriminate. }
    assert (HB : forall kk oo s' u, compute_fourier_basis kk oo s0 = (s', Ok u) -> c_lmax s' = None -> c_method s' = None).
    { intros kk oo s' u. unfold compute_fourier_basis.
      destruct (match c_basis s0 with Some (e, _) => Nat.leb _ _ | None => false end); [intros E; injection E as <- _; exact H0|].
      destruct oo as [e U|x]; [|discriminate]. destruct e as [|e0 es]; [discriminate|].
      destruct (_ && _)%bool; [|discriminate]. destruct (upper_bound _ _); [|discriminate].
      destruct (fle _ _); [|discriminate]. destruct (forallb _ _); [|discriminate].
      destruct (Nat.eqb _ _); intros E; injection E as <- _; [discriminate|exact H0]. }
    destruct c as [t|m oo|oo|k oo|oo|oo| | | |p p']; cbn [step] in Hs; unfold lift in Hs.
    - unfold compute_laplacian in Hs. specialize (Ht t eq_refl). subst t.
      rewrite (proj2 (lap_eqb_true (c_lap s0) (c_lap s0)) eq_refl) in Hs.
      destruct (laplacian (c_W s0) (c_lap s0)); cbn in Hs; [|discriminate]. injection Hs as <- _. exact H0.
    - destruct (estimate_lmax m oo s0) as [s' [u|x]] eqn:E; cbn in Hs; [|discriminate]. injection Hs as <- _.
      apply (HE _ _ _ _ E).
    - unfold read_lmax in Hs. destruct (c_lmax s0) as [v|] eqn:Ev.
      + cbn in Hs. injection Hs as <- _. congruence.
      + destruct (estimate_lmax "lanczos" oo s0) as [s' [u|x]] eqn:E; cbn in Hs; [|discriminate]. injection Hs as <- _.
        apply (HE _ _ _ _ E).
    - destruct (compute_fourier_basis k oo s0) as [s' [u|x]] eqn:E; cbn in Hs; [|discriminate]. injection Hs as <- _.
      apply (HB _ _ _ _ E).
    - unfold read_basis in Hs. destruct (c_basis s0) eqn:Eb; [cbn in Hs; injection Hs as <- _; exact H0|].
      destruct (compute_fourier_basis None oo s0) as [s' [u|x]] eqn:E; cbn in Hs; [|discriminate]. injection Hs as <- _.
      apply (HB _ _ _ _ E).
    - unfold read_coherence in Hs. destruct (c_coh s0) eqn:Eb; [cbn in Hs; injection Hs as <- _; exact H0|].
      destruct (compute_fourier_basis None oo s0) as [s' [u|x]] eqn:E; cbn in Hs; [|discriminate]. injection Hs as <- _.
      apply (HB _ _ _ _ E).
    - unfold compute_D in Hs. destruct (diff_op _ _); cbn in Hs; [|discriminate]. injection Hs as <- _. exact H0.
    - unfold read_D, compute_D in Hs. destruct (c_D s0); [cbn in Hs; injection Hs as <- _; exact H0|].
      destruct (diff_op _ _); cbn in Hs; [|discriminate]. injection Hs as <- _. exact H0.
    - unfold read_directed in Hs. destruct (c_dir s0); cbn in Hs; injection Hs as <- _; exact H0.
    - unfold read_connected in Hs. destruct (c_conn s0); [injection Hs as <- _; exact H0|].
      destruct (is_connected p p' (c_W s0)) as [[b|x]|]; [|discriminate|]; injection Hs as <- _; exact H0. }
  unfold read_lmax. destruct (c_lmax s) as [v|] eqn:Ev; [discriminate|]. unfold estimate_lmax. rewrite (H eq_refl).
  cbn [String.eqb Ascii.eqb Bool.eqb]. destruct o; cbn; try discriminate.
  destruct (upper_bound _ _); cbn; [|discriminate]. destruct (fle _ _); cbn; discriminate.
Qed.

(** Finding: after a change of Laplacian type, G.lmax is None. Every call below succeeds. *)
Theorem C15_lmax_after_type_change_refuted :
  exists G s1 s2 s3, built G /\
    estimate_lmax "bounds" (LanFail ValueError) (cache_init G) = (s1, Ok tt) /\
    read_lmax (LanFail ValueError) s1 <> (s1, Ok None) /\
    compute_laplacian Normalized s1 = (s2, Ok tt) /\
    estimate_lmax "bounds" (LanFail ValueError) s2 = (s3, Ok tt) /\
    c_lmax s3 = None.
Proof.
  destruct (ex_graph Combinatorial (or_introl eq_refl)) as (G & Hb & Hn & Ht & Hw).
  destruct (C14_upper_bound_is_upper_bound G Hb (ex_nonneg G Hn Hw) ltac:(lia)) as (b & Eb & _).
  exists G. eexists; eexists; eexists. split; [exact Hb|].
  split; [unfold estimate_lmax; cbn [cache_init c_method String.eqb Ascii.eqb Bool.eqb c_W c_lap]; rewrite Eb; reflexivity|].
  split; [cbn; discriminate|].
  split; [unfold compute_laplacian; cbn; rewrite Ht; reflexivity|].
  split; reflexivity.
Qed.

(** ... and reading it with the default method, which had been used before the change. *)
Theorem C15_lmax_read_none_refuted :
  exists G r s1 s2 v, built G /\
    read_lmax (LanOk r) (cache_init G) = (s1, Ok (Some v)) /\
    compute_laplacian Normalized s1 = (s2, Ok tt) /\
    forall o, read_lmax o s2 = (s2, Ok None).
Proof.
  destruct (ex_graph Combinatorial (or_introl eq_refl)) as (G & Hb & Hn & Ht & Hw).
  destruct (C14_upper_bound_is_upper_bound G Hb (ex_nonneg G Hn Hw) ltac:(lia)) as (b & Eb & _).
  exists G, b. eexists; eexists; eexists. split; [exact Hb|].
  assert (E : fle b (xadd (Fin b) (Fin (/ 10 ^ 12))) = true).
  { cbn. apply Rleb_true. assert (0 < / 10 ^ 12) by (apply Rinv_0_lt_compat; lra). lra. }
  split.
  { unfold read_lmax, estimate_lmax. cbn [cache_init c_lmax c_method String.eqb Ascii.eqb Bool.eqb c_W c_lap].
    rewrite Eb, E. reflexivity. }
  split; [unfold compute_laplacian; cbn; rewrite Ht; reflexivity|].
  intros o. reflexivity.
Qed.

(** Finding: a failed estimation is remembered as done. *)
Theorem C15_failed_estimate_is_remembered_refuted :
  exists G s1, built G /\
    estimate_lmax "lanczos" LanNoConvergence (cache_init G) = (s1, Raise ValueError) /\
    forall o, estimate_lmax "lanczos" o s1 = (s1, Ok tt) /\ read_lmax o s1 = (s1, Ok None).
Proof.
  destruct (ex_graph Combinatorial (or_introl eq_refl)) as (G & Hb & _).
  exists G. eexists. split; [exact Hb|]. split; [reflexivity|]. intros o. split; reflexivity.
Qed.

(** ** History parts of C03 and C05 *)

Theorem C03_is_directed_history_independent :
  forall Eig Lan G cs s, sized Eig -> built G -> known_types cs -> history Eig Lan (cache_init G) cs s ->
    exists b, snd (read_directed s) = Ok b /\ (b = true <-> ~ undirected G).
Proof.
  intros Eig Lan G cs s Hs Hb Hk Hh. destruct (inv_reach Eig Lan Hs G cs s Hb Hk Hh) as [IW _ _ _ _ _ _ IDir _].
  exists (is_directed (gW G)). split; [|apply (C03_is_directed_iff_not_symmetric G Hb)].
  unfold read_directed. destruct (c_dir s) as [b|]; cbn; [rewrite (IDir b eq_refl); reflexivity|rewrite IW; reflexivity].
Qed.

Theorem C05_is_connected_history_independent :
  forall Eig Lan G cs s p p', sized Eig -> built G -> (0 < g_n_vertices G)%nat -> known_types cs ->
    history Eig Lan (cache_init G) cs s -> pop_ok p -> pop_ok p' ->
    exists b, snd (read_connected p p' s) = Some (Ok b) /\
      (b = true <-> forall u v, (u < g_n_vertices G)%nat -> (v < g_n_vertices G)%nat -> Reach.reach (has_arc G) u v).
Proof.
  intros Eig Lan G cs s p p' Hs Hb Hn0 Hk Hh Hp Hp'.
  destruct (inv_reach Eig Lan Hs G cs s Hb Hk Hh) as [IW _ _ _ _ _ _ _ IC].
  destruct (C05_is_connected_decides_connectivity G p p' Hb Hp Hp' Hn0) as (b & E & H).
  exists b. split; [|exact H]. unfold read_connected. destruct (c_conn s) as [b'|].
  - cbn. rewrite <- E. symmetry. apply IC; auto.
  - rewrite IW, E. reflexivity.
Qed.

(** ** A concrete history: the graph with one edge, its exact eigendecomposition, and calls that
    fill every cache and change the Laplacian type. *)
Definition k2U : mat := fun i k => if (Nat.eqb i 1 && Nat.eqb k 1)%bool then - / sqrt 2 else / sqrt 2.
Definition k2e : vec := fun k => if Nat.eqb k 0 then 0 else 2.

Lemma k2_eigh L : L 0%nat 0%nat = 1 -> L 1%nat 1%nat = 1 -> L 0%nat 1%nat = -1 -> L 1%nat 0%nat = -1 -> eigh_ok 2 L k2e k2U.
Proof.
  intros H00 H11 H01 H10.
  assert (Hs : / sqrt 2 * / sqrt 2 = / 2).
  { rewrite <- Rinv_mult. rewrite sqrt_sqrt by lra. reflexivity. }
  constructor.
  - intros k l Hk Hl. destruct k as [|[|k]]; try lia; destruct l as [|[|l]]; try lia; cbn; nra.
  - intros k l Hk Hl. unfold tr. destruct k as [|[|k]]; try lia; destruct l as [|[|l]]; try lia; cbn; nra.
  - intros i k Hi Hk. unfold mulv. cbn [rsum]. destruct i as [|[|i]]; try lia; destruct k as [|[|k]]; try lia; cbn;
    rewrite ?H00, ?H11, ?H01, ?H10; ring.
  - intros k l Hkl Hl. destruct k as [|[|k]]; try lia; destruct l as [|[|l]]; try lia; cbn; lra.
Qed.

Lemma k2_lap G : built G -> g_n_vertices G = 2%nat ->
  (forall i j, (i < 2)%nat -> (j < 2)%nat -> wt G i j = nth (i * 2 + j) [0; 1; 1; 0] 0) ->
  nonneg_weights G /\ undirected G /\ gL G 0%nat 0%nat = 1 /\ gL G 1%nat 1%nat = 1 /\ gL G 0%nat 1%nat = -1 /\ gL G 1%nat 0%nat = -1.
Proof.
  intros Hb Hn Hw.
  assert (Hp : nonneg_weights G).
  { intros i j Hi Hj. rewrite Hn in Hi, Hj. rewrite Hw by assumption.
    destruct i as [|[|i]]; try lia; destruct j as [|[|j]]; try lia; cbn; lra. }
  assert (Hu : undirected G).
  { intros i j Hi Hj. rewrite Hn in Hi, Hj. rewrite !Hw by assumption.
    destruct i as [|[|i]]; try lia; destruct j as [|[|j]]; try lia; cbn; lra. }
  split; [exact Hp|]. split; [exact Hu|].
  destruct (built_valid_lap G Hb) as [Hlt|Hlt].
  - destruct (C09_combinatorial_structure G Hb Hlt) as (_ & Hr & Ho & _). rewrite Hn in *.
    assert (E01 : gL G 0%nat 1%nat = -1) by (rewrite Ho by lia; rewrite !Hw by lia; cbn; lra).
    assert (E10 : gL G 1%nat 0%nat = -1) by (rewrite Ho by lia; rewrite !Hw by lia; cbn; lra).
    pose proof (Hr 0%nat ltac:(lia)) as R0. pose proof (Hr 1%nat ltac:(lia)) as R1. cbn [rsum] in R0, R1.
    repeat split; lra.
  - destruct (C11_normalized_entries G Hb Hlt Hp) as (_ & Hd & Ho & _). rewrite Hn in *.
    assert (Ed : forall i, (i < 2)%nat -> dw (gW G) i = 1).
    { intros i Hi. rewrite (proj2 (C08_weighted_degree G i Hb ltac:(lia)) Hu). rewrite Hn. cbn [rsum].
      destruct i as [|[|i]]; try lia; rewrite !Hw by lia; cbn; lra. }
    rewrite !Hd, !Ho by (try lia; rewrite Ed by lia; lra). rewrite !Ed, !Hw by lia. rewrite sqrt_1. cbn. repeat split; lra.
Qed.

Lemma k2_exact L : L 0%nat 0%nat = 1 -> L 1%nat 1%nat = 1 -> L 0%nat 1%nat = -1 -> L 1%nat 0%nat = -1 ->
  exact_eig 2 L 2 [0; 2] k2U.
Proof.
  intros H1 H2 H3 H4. split; [reflexivity|]. split; [lia|]. exists k2e, k2U. split; [apply k2_eigh; assumption|].
  split; [|auto]. intros i Hi. destruct i as [|[|i]]; try lia; reflexivity.
Qed.

Example C16_ex : exists G cs s, built G /\ nonneg_weights G /\ (0 < g_n_vertices G)%nat /\ known_types cs /\
  history exact_eig ritz (cache_init G) cs s /\ c_lap s = Normalized /\ List.length cs = 5%nat /\
  legal exact_eig ritz s (OpBasis None (EigOk [0; 2] k2U)).
Proof.
  destruct (finite_entry_built 2 [0; 1; 1; 0] Combinatorial None eq_refl (or_introl eq_refl)) as (G & _ & Hb & Hn & Ht & _ & Hw).
  destruct (k2_lap G Hb Hn Hw) as (Hp & Hu & L00 & L11 & L01 & L10).
  set (cs := [OpBasis None (EigOk [0; 2] k2U); OpReadD; OpDirected; OpLaplacian Normalized; OpEstimate "bounds" LanNoConvergence]).
  assert (Hk : known_types cs).
  { intros t Hin. cbn in Hin. destruct Hin as [E|[E|[E|[E|[E|[]]]]]]; try discriminate. injection E as <-. auto. }
  assert (Hleg1 : legal exact_eig ritz (cache_init G) (OpBasis None (EigOk [0; 2] k2U))).
  { cbn. rewrite Hn. apply k2_exact; assumption. }
  assert (Hh : exists s, history exact_eig ritz (cache_init G) cs s /\ c_lap s = Normalized).
  { eexists. split.
    - unfold cs. eapply history_cons; [exact Hleg1|reflexivity|].
      eapply history_cons; [exact I|reflexivity|].
      eapply history_cons; [exact I|reflexivity|].
      eapply history_cons; [exact I|reflexivity|].
      eapply history_cons; [exact I|reflexivity|]. apply history_nil.
    - cbn [step]. unfold lift, estimate_lmax. cbn [fst snd]. unfold compute_laplacian.
      set (s0 := fst (read_directed _)). clearbody s0. cbn [laplacian fst].
      match goal with |- context [c_method ?x] => set (s1 := x); assert (E : c_lap s1 = Normalized) by reflexivity; clearbody s1 end.
      destruct (match c_method s1 with Some m' => String.eqb "bounds" m' | None => false end); [exact E|].
      cbn [String.eqb Ascii.eqb Bool.eqb]. destruct (upper_bound _ _); exact E. }
  destruct Hh as (s & Hh & Hl). exists G, cs, s. repeat (split; [assumption||lia|]). split; [reflexivity|].
  destruct (current_graph G cs _ _ s exact_sized Hb Hk Hh) as (G' & Hb' & HW & HN & Ht' & HL & IW & IN).
  cbn. rewrite IN, Hn, <- HL.
  destruct (k2_lap G' Hb') as (_ & _ & M00 & M11 & M01 & M10).
  { rewrite HN. exact Hn. }
  { intros i j Hi Hj. rewrite <- Hw by assumption. unfold wt. rewrite HW. reflexivity. }
  apply k2_exact; assumption.
Qed.
