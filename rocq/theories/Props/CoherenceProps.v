(** C99: what the coherence of the Fourier basis says about signals, atoms and the graph. *)
From Coq Require Import Reals Lra Lia List Arith Bool ZArith Permutation.
From Coq Require Import List.
From Verif.Base Require Import RSum Prelude LinAlg Spectral.
From Verif.Spec Require Import Matrix NdArray GraphSpec Card Reach LapSpec FilterSpec CacheSpec StabSpec GenSpec CohSpec.
From Verif.Model Require Import Sparse Graph Bounds Traverse Cache Filter Kernels Generators.
From Verif.Proofs Require Import SparseFacts InitFacts EdgeFacts LapFacts SpectralFacts FilterFacts.
From Verif.Props Require Import Core Laplacian Traversal Caching Filtering Banks UtilsProps SpectrumProps GenProps TransformProps SpectraProps StabilityProps.
Import ListNotations.
Open Scope R_scope.
Open Scope list_scope.

(** At some point of the life of the graph object, with an exact eigensolver, G.coherence returned c and left it in state s'. *)
Definition coherence_returned (G : graph) (c : R) (s' : cache) : Prop :=
  exists cs s o, known_types cs /\ history exact_eig ritz (cache_init G) cs s /\ legal exact_eig ritz s (OpCoherence o) /\ read_coherence o s = (s', Ok (Some c)).

(** What is returned is the coherence of the basis that is then stored (and used by the transforms and filters). *)
Theorem C99_coherence_of_the_stored_basis : forall G c s', built G -> nonneg_weights G -> (0 < g_n_vertices G)%nat -> coherence_returned G c s' ->
  exists e U, c_basis s' = Some (e, U) /\ laplacian (gW G) (c_lap s') = Ok (c_L s') /\
    forall lmax, let F := mkview (g_n_vertices G) (c_L s') lmax e U in spectral F /\ coherence_is F c.
Proof.
  intros G c s' Hb Hp Hn (cs & s & o & Hk & Hh & Hl & Hr).
  destruct (C18_coherence_read G cs s o s' c Hb Hn Hk Hh Hl Hr) as (_ & e & U & Eb & _ & Hub & Hat).
  destruct (proj2 (C16_values_read exact_eig ritz G cs s o exact_sized Hb Hk Hh Hl) s' c Hr) as (EL & e0 & e1 & U1 & Hex & Hst & Eb1 & _).
  rewrite Eb in Eb1. injection Eb1 as <- <-.
  assert (Hh' : history exact_eig ritz (cache_init G) (cs ++ [OpCoherence o]) s').
  { clear - Hh Hl Hr. induction Hh as [s0|s0 c0 s1 cs s2 Hl0 Hs0 Hh IH]; cbn [app].
    - eapply history_cons; [exact Hl| |apply history_nil]. cbn [step]. rewrite Hr. reflexivity.
    - eapply history_cons; [exact Hl0|exact Hs0|]. apply IH; assumption. }
  assert (Hk' : known_types (cs ++ [OpCoherence o])) by (intros t Ht; apply in_app_or in Ht; destruct Ht as [Ht|[Ht|[]]]; [apply Hk; exact Ht|discriminate]).
  destruct (current_graph G _ _ _ s' exact_sized Hb Hk' Hh') as (G' & Hb' & HW & HN & Ht & HL & _).
  assert (E : e = e0).
  { destruct Hst as [->|(x & l & -> & ->)]; [reflexivity|]. f_equal. pose proof (exact_eig_spectral _ _ _ _ 0 Hex) as (_ & HU). cbn [v_N v_L v_e v_U] in HU.
    assert (HU' : eigh_ok (g_n_vertices G') (gL G') (fun k => nth k (x :: l) 0) U) by (rewrite HN, HL, EL; exact HU).
    assert (Hp' : nonneg_weights G') by (intros i j Hi Hj; rewrite HN in *; unfold wt; rewrite HW; apply Hp; assumption).
    symmetry. exact (first_eigenvalue_zero G' _ U Hb' Hp' ltac:(rewrite HN; exact Hn) HU'). }
  exists e, U. split; [exact Eb|]. split.
  - destruct (C16_caches_are_coherent exact_eig ritz G _ s' exact_sized Hb Hk' Hh') as (A & _). exact A.
  - intros lmax F. split.
    + unfold F. rewrite EL, E. apply exact_eig_spectral. exact Hex.
    + split; [exact Hub|exact Hat].
Qed.

(** ** Signals *)
Lemma coh_nonneg F c : coherence_is F c -> 0 <= c.
Proof. intros (_ & i & k & _ & _ & ->). apply Rabs_pos. Qed.
(** The transform of a signal is at most the coherence times its absolute sum, and conversely. *)
Theorem C99_transform_bounds : forall F c x t, spectral F -> coherence_is F c -> gft F (vec_arr (v_N F) x) = Ok t ->
  (forall k, (k < v_N F)%nat -> Rabs (aget t [k]) <= c * \sum_(i < v_N F) Rabs (x i)) /\
  (forall i, (i < v_N F)%nat -> Rabs (x i) <= c * \sum_(k < v_N F) Rabs (aget t [k])).
Proof.
  intros F c x t HF Hc Et. destruct (gft_ok F (vec_arr (v_N F) x) [] HF eq_refl) as (t' & E & _ & Ht). rewrite Et in E. injection E as <-.
  assert (Hk : forall k, aget t [k] = fhat F x k) by (intros k; apply Ht). pose proof (proj1 Hc) as Hu. split.
  - intros k Lk. rewrite Hk. unfold fhat. eapply Rle_trans; [apply rsum_abs|]. rewrite <- rsum_scal_l. apply rsum_le. intros i Hi.
    rewrite Rabs_mult. apply Rmult_le_compat_r; [apply Rabs_pos|]. apply Hu; assumption.
  - intros i Li. rewrite <- (eigh_expand _ _ _ _ (proj2 HF) x i Li) at 1. eapply Rle_trans; [apply rsum_abs|]. rewrite <- rsum_scal_l. apply rsum_le. intros k Lk.
    rewrite Rabs_mult, Hk. apply Rmult_le_compat_r; [apply Rabs_pos|]. apply Hu; assumption.
Qed.

Lemma support_sum n (x : vec) m : nonzeros n x m -> INR m = \sum_(i < n) (if Req_EM_T (x i) 0 then 0 else 1).
Proof.
  intros (l & Hl & Hin & <-). rewrite <- (Permutation_length (l := filter (fun i => if Req_EM_T (x i) 0 then false else true) (seq 0 n))).
  - clear. induction n as [|n IH]; [reflexivity|]. rewrite seq_S, filter_app, app_length, plus_INR, IH. cbn [rsum filter Nat.add]. f_equal. destruct (Req_EM_T (x n) 0); reflexivity.
  - apply NoDup_Permutation; [apply NoDup_filter, seq_NoDup|exact Hl|]. intros i. rewrite filter_In, in_seq, Hin. destruct (Req_EM_T (x i) 0) as [E|E]; [rewrite E|]; intuition (lra || lia || discriminate).
Qed.
(** The uncertainty principle: a signal that is not zero and its transform cannot both be sparse. *)
Theorem C99_uncertainty_principle : forall F c x t a b, spectral F -> coherence_is F c -> gft F (vec_arr (v_N F) x) = Ok t ->
  (exists i, (i < v_N F)%nat /\ x i <> 0) -> nonzeros (v_N F) x a -> nonzeros (v_N F) (fun k => aget t [k]) b ->
  1 <= INR a * INR b * (c * c).
Proof.
  intros F c x t a b HF Hc Et (i0 & Hi0 & Nx) Ha Hb. destruct (C99_transform_bounds F c x t HF Hc Et) as (Hk & _).
  destruct (gft_ok F (vec_arr (v_N F) x) [] HF eq_refl) as (t' & E & _ & Ht). rewrite Et in E. injection E as <-.
  assert (Hf : forall k, aget t [k] = fhat F x k) by (intros k; apply Ht).
  set (n := v_N F) in *. set (S1 := \sum_(i < n) Rabs (x i)) in *.
  pose proof (support_sum n x a Ha) as Ia. pose proof (support_sum n _ b Hb) as Ib. pose proof (coh_nonneg F c Hc) as C0.
  assert (P : 0 < normsq n x).
  { apply Rlt_le_trans with (x i0 * x i0); [|apply (rsum_ge_term n (fun i => x i * x i) i0); [intros; nra|exact Hi0]].
    destruct (Rdichotomy _ _ Nx); nra. }
  assert (A : S1 * S1 <= INR a * normsq n x).
  { pose proof (rsum_cauchy_schwarz n (fun i => if Req_EM_T (x i) 0 then 0 else 1) (fun i => Rabs (x i))) as CS. cbv beta in CS, Ib.
    replace (\sum_(i < n) ((if Req_EM_T (x i) 0 then 0 else 1) * Rabs (x i))) with S1 in CS.
    2:{ apply rsum_ext. intros i Hi. destruct (Req_EM_T (x i) 0) as [E|E]; [rewrite E, Rabs_R0|]; ring. }
    replace (\sum_(i < n) ((if Req_EM_T (x i) 0 then 0 else 1) * (if Req_EM_T (x i) 0 then 0 else 1))) with (INR a) in CS.
    2:{ rewrite Ia. apply rsum_ext. intros i Hi. destruct (Req_EM_T (x i) 0); ring. }
    eapply Rle_trans; [exact CS|]. right. f_equal. apply rsum_ext. intros i Hi. rewrite <- Rabs_mult. apply Rabs_pos_eq. nra. }
  assert (B : normsq n x <= INR b * (c * S1 * (c * S1))).
  { rewrite <- (fhat_normsq F HF). fold n. rewrite Ib, <- rsum_scal_r. apply rsum_le. intros k Lk. rewrite <- Hf. specialize (Hk k Lk).
    destruct (Req_EM_T (aget t [k]) 0) as [E|E]; [rewrite E; lra|]. rewrite Rmult_1_l.
    replace (aget t [k] * aget t [k]) with (Rabs (aget t [k]) * Rabs (aget t [k])) by (rewrite <- Rabs_mult; apply Rabs_pos_eq; nra).
    pose proof (Rabs_pos (aget t [k])). apply Rmult_le_compat; assumption. }
  assert (D : normsq n x <= INR a * INR b * (c * c) * normsq n x).
  { eapply Rle_trans; [exact B|]. replace (INR b * (c * S1 * (c * S1))) with (INR b * (c * c) * (S1 * S1)) by ring.
    replace (INR a * INR b * (c * c) * normsq n x) with (INR b * (c * c) * (INR a * normsq n x)) by ring.
    apply Rmult_le_compat_l; [apply Rmult_le_pos; [apply pos_INR|nra]|exact A]. }
  apply Rmult_le_reg_r with (normsq n x); [exact P|]. lra.
Qed.

(** ** Atoms *)
(** The atoms of a filter have at most sqrt(N) times the coherence times the norm of the kernel as norm, and their entries are at most
    sqrt(N) times the square of the coherence times the absolute sum of the kernel (the kernel being sampled at the eigenvalues). *)
Theorem C99_atoms : forall F ks m H c i out f, spectral F -> response F ks m H -> coherence_is F c -> (i < v_N F)%nat -> (f < List.length ks)%nat ->
  localize F ks m (Z.of_nat i) = Ok out ->
  norm2 (v_N F) (ans F (List.length ks) out f) <= sqrt (INR (v_N F)) * c * norm2 (v_N F) (H f) /\
  forall n, (n < v_N F)%nat -> Rabs (ans F (List.length ks) out f n) <= sqrt (INR (v_N F)) * (c * c) * \sum_(k < v_N F) Rabs (H f k).
Proof.
  intros F ks m H c i out f HF Hr Hc Hi Hf El. destruct (C26_localize F ks m H i HF Hr Hi) as (o & E & _ & Ho). rewrite El in E. injection E as <-.
  pose proof (proj1 Hc) as Hu. pose proof (coh_nonneg F c Hc) as C0. set (N := v_N F) in *. pose proof (sqrt_pos (INR N)) as Q.
  assert (Fd : forall k, (k < N)%nat -> fhat F (fun j => if Nat.eqb j i then 1 else 0) k = v_U F i k) by (intros k Hk; apply fhat_delta; assumption).
  split.
  - rewrite (norm2_ext N _ (fun n => sqrt (INR N) * mult F (H f) (fun j => if Nat.eqb j i then 1 else 0) n)) by (intros n Hn; apply Ho; assumption).
    rewrite norm2_scal, Rabs_pos_eq by exact Q. rewrite Rmult_assoc. apply Rmult_le_compat_l; [exact Q|].
    apply norm2_le; [apply Rmult_le_pos; [exact C0|apply norm2_nonneg]|]. unfold N. rewrite (mult_normsq F HF). fold N.
    replace (c * norm2 N (H f) * (c * norm2 N (H f))) with (c * c * (norm2 N (H f) * norm2 N (H f))) by ring. rewrite norm2_sq. unfold normsq, dot. rewrite <- rsum_scal_l.
    apply rsum_le. intros k Hk. rewrite (Fd k Hk). specialize (Hu i k Hi Hk). pose proof (Rabs_pos (v_U F i k)).
    assert (v_U F i k * v_U F i k <= c * c). { replace (v_U F i k * v_U F i k) with (Rabs (v_U F i k) * Rabs (v_U F i k)) by (rewrite <- Rabs_mult; apply Rabs_pos_eq; nra). apply Rmult_le_compat; assumption. }
    pose proof (Rle_0_sqr (H f k)) as Hs. unfold Rsqr in Hs. nra.
  - intros n Hn. rewrite Ho by assumption. rewrite Rabs_mult, (Rabs_pos_eq _ Q), Rmult_assoc. apply Rmult_le_compat_l; [exact Q|].
    unfold mult. fold N. eapply Rle_trans; [apply rsum_abs|]. rewrite <- rsum_scal_l. apply rsum_le. intros k Hk. rewrite (Fd k Hk), !Rabs_mult.
    replace (Rabs (v_U F n k) * (Rabs (H f k) * Rabs (v_U F i k))) with (Rabs (v_U F n k) * Rabs (v_U F i k) * Rabs (H f k)) by ring.
    apply Rmult_le_compat_r; [apply Rabs_pos|]. apply Rmult_le_compat; try apply Rabs_pos; apply Hu; assumption.
Qed.

(** ** Graphs *)
Lemma rsum_pick n (f : nat -> R) i : (i < n)%nat -> rsum n f = f i + \sum_(l < n) (if Nat.eqb l i then 0 else f l).
Proof.
  induction n as [|n IH]; intros Hi; [lia|]. cbn [rsum]. destruct (Nat.eqb_spec n i) as [->|Hne].
  - rewrite (rsum_ext i (fun l => if Nat.eqb l i then 0 else f l) f) by (intros l Hl; destruct (Nat.eqb_spec l i); [lia|reflexivity]). change (rsum i (fun l => f l)) with (rsum i f). ring.
  - rewrite IH by lia. ring.
Qed.
(** Coherence 1 means that some vertex has no edge to another one. *)
Theorem C99_coherence_one_means_an_isolated_vertex : forall G lmax e U, built G -> nonneg_weights G -> g_lap_type G = Combinatorial ->
  let n := g_n_vertices G in let F := mkview n (gL G) lmax e U in spectral F -> coherence_is F 1 ->
  exists i, (i < n)%nat /\ forall j, (j < n)%nat -> j <> i -> wt G i j = 0 /\ wt G j i = 0.
Proof.
  intros G lmax e U Hb Hp Ht n F (_ & HU) (_ & i & k & Hi & Hk & E1). cbn [v_N v_L v_e v_U F] in *. exists i. split; [exact Hi|]. intros j Hj Hne.
  assert (Uz : forall l, (l < n)%nat -> l <> i -> U l k = 0).
  { intros l Hl Hli. pose proof (eigh_cols _ _ _ _ HU k k Hk Hk) as E. rewrite Nat.eqb_refl in E. rewrite (rsum_pick n _ i Hi) in E.
    assert (Ei : U i k * U i k = 1). { rewrite <- (Rabs_pos_eq (U i k * U i k)) by nra. rewrite Rabs_mult, <- E1. ring. }
    rewrite Ei in E. assert (Z : \sum_(l < n) (if Nat.eqb l i then 0 else U l k * U l k) = 0) by lra.
    pose proof (rsum_zero_all n (fun l => if Nat.eqb l i then 0 else U l k * U l k)) as Q.
    assert (Q' : (if Nat.eqb l i then 0 else U l k * U l k) = 0) by (apply Q; [intros a Ha; destruct (Nat.eqb a i); nra|exact Z|exact Hl]).
    destruct (Nat.eqb_spec l i); [contradiction|]. nra. }
  pose proof (eigh_eig _ _ _ _ HU j k Hj Hk) as E. unfold mulv in E. rewrite (rsum_single n _ i Hi) in E by (intros l Hl Hli; rewrite (Uz l Hl Hli); ring).
  rewrite (Uz j Hj Hne), Rmult_0_r in E. assert (Nz : U i k <> 0) by (intros Z; rewrite Z, Rabs_R0 in E1; lra).
  assert (Lz : gL G j i = 0) by (apply Rmult_integral in E; tauto).
  destruct (C09_combinatorial_structure G Hb Ht) as (_ & _ & Ho & _). rewrite (Ho j i Hj Hi Hne) in Lz. pose proof (Hp i j Hi Hj). pose proof (Hp j i Hj Hi). lra.
Qed.
Lemma constant_column G e U : built G -> nonneg_weights G -> g_lap_type G = Combinatorial -> connected G -> (0 < g_n_vertices G)%nat ->
  eigh_ok (g_n_vertices G) (gL G) e U -> forall i, (i < g_n_vertices G)%nat -> U i 0%nat * U i 0%nat = / INR (g_n_vertices G).
Proof.
  intros Hb Hp Ht HC Hn HU i Hi. set (n := g_n_vertices G) in *. pose proof (first_eigenvalue_zero G e U Hb Hp Hn HU) as E0.
  assert (Hc : forall i j, (i < n)%nat -> (j < n)%nat -> U i 0%nat = U j 0%nat).
  { apply (proj1 (C72_kernel G (fun i => U i 0%nat) Hb Hp Ht HC)). intros a Ha. fold n in Ha |- *. rewrite (eigh_eig n (gL G) e U HU a 0%nat Ha Hn), E0. ring. }
  pose proof (eigh_cols n (gL G) e U HU 0%nat 0%nat Hn Hn) as E. cbn [Nat.eqb] in E.
  rewrite (rsum_ext n _ (fun _ => U i 0%nat * U i 0%nat)), rsum_const in E by (intros a Ha; rewrite (Hc a i Ha Hi); reflexivity).
  assert (INR n <> 0) by (apply not_0_INR; lia). apply Rmult_eq_reg_l with (INR n); [|assumption]. rewrite E, Rinv_r by assumption. reflexivity.
Qed.
(** On a connected graph it is at most sqrt(1 - 1/N); *)
Theorem C99_connected_graphs : forall G lmax e U c, built G -> nonneg_weights G -> g_lap_type G = Combinatorial -> connected G ->
  let n := g_n_vertices G in let F := mkview n (gL G) lmax e U in (2 <= n)%nat -> spectral F -> coherence_is F c -> c <= sqrt (1 - / INR n).
Proof.
  intros G lmax e U c Hb Hp Ht HC n F Hn (_ & HU) (_ & i & k & Hi & Hk & ->). cbn [v_N v_L v_e v_U F] in *.
  pose proof (constant_column G _ U Hb Hp Ht HC ltac:(fold n; lia) HU i Hi) as E0. fold n in E0.
  assert (HnR : 2 <= INR n) by (change 2 with (INR 2); apply le_INR; exact Hn).
  assert (Hinv : / INR n <= / 2) by (apply Rinv_le_contravar; lra). assert (0 < / INR n) by (apply Rinv_0_lt_compat; lra).
  assert (B : U i k * U i k <= 1 - / INR n).
  { destruct (Nat.eq_dec k 0) as [->|Hne]; [rewrite E0; lra|].
    pose proof (eigh_rows _ _ _ _ HU i i Hi Hi) as E. rewrite Nat.eqb_refl in E.
    assert (U i 0%nat * U i 0%nat + U i k * U i k <= \sum_(l < n) (U i l * U i l)); [|unfold tr in E; rewrite E in H0; lra].
    rewrite (rsum_pick n _ 0%nat ltac:(lia)). apply Rplus_le_compat_l.
    pose proof (rsum_ge_term n (fun l => if Nat.eqb l 0 then 0 else U i l * U i l) k) as Q. cbv beta in Q. destruct (Nat.eqb_spec k 0); [contradiction|].
    apply Q; [intros a Ha; destruct (Nat.eqb a 0); nra|exact Hk]. }
  rewrite <- (sqrt_Rsqr_abs (U i k)). apply sqrt_le_1_alt. exact B.
Qed.
(** the star attains that bound, whatever basis the eigensolver chooses. *)
Theorem C99_star : forall N G lmax e U c, (2 <= N)%nat -> Star N false Combinatorial = Ok G ->
  let F := mkview (g_n_vertices G) (gL G) lmax e U in spectral F -> coherence_is F c -> c = sqrt (1 - / INR N).
Proof.
  intros N G lmax e U c HN EG F HF Hc. destruct (star_lap N G HN EG) as (Hb & Hp & HC & Ht & Hn & L0 & Li).
  destruct (C94_star N G lmax e U HN EG HF) as (_ & _ & _ & EN & _).
  apply Rle_antisym.
  { rewrite <- Hn. apply (C99_connected_graphs G lmax e U c Hb Hp Ht HC); [rewrite Hn; exact HN|exact HF|exact Hc]. }
  destruct Hc as (Hub & _). destruct HF as (_ & HU). cbn [v_N v_L v_e v_U F] in *. rewrite Hn in *.
  set (k := (N - 1)%nat) in *. assert (Hk : (k < N)%nat) by (unfold k; lia). assert (HNR : 1 < INR N) by (apply lt_1_INR; lia).
  assert (Hl : forall i, (1 <= i < N)%nat -> U i k = - U 0%nat k / (INR N - 1)).
  { intros i Hi. pose proof (eigh_eig _ _ _ _ HU i k ltac:(lia) Hk) as E. rewrite (Li (fun j => U j k) i Hi), EN in E.
    apply Rmult_eq_reg_r with (INR N - 1); [|lra]. unfold Rdiv. rewrite Rmult_assoc, Rinv_l by lra. lra. }
  pose proof (eigh_cols _ _ _ _ HU k k Hk Hk) as E. rewrite Nat.eqb_refl in E. rewrite (rsum_pick N _ 0%nat ltac:(lia)) in E.
  set (x := U 0%nat k) in *.
  rewrite (rsum_ext N _ (fun l => (if Nat.eqb l 0 then 0 else 1) * (x * x / ((INR N - 1) * (INR N - 1))))) in E.
  2:{ intros l Hl'. destruct (Nat.eqb_spec l 0); [ring|]. rewrite Hl by lia. field. lra. }
  rewrite rsum_scal_r in E. assert (Ec : \sum_(l < N) (if Nat.eqb l 0 then 0 else 1) = INR N - 1).
  { destruct N as [|M]; [lia|]. rewrite rsum_S_first. cbn [Nat.eqb]. rewrite rsum_const, S_INR. ring. }
  rewrite Ec in E. assert (Ex : x * x = 1 - / INR N).
  { assert (E2 : x * x * INR N = INR N - 1).
    { transitivity ((x * x + (INR N - 1) * (x * x / ((INR N - 1) * (INR N - 1)))) * (INR N - 1)); [field; lra|]. rewrite E. ring. }
    apply Rmult_eq_reg_r with (INR N); [|lra]. rewrite E2. field. lra. }
  rewrite <- Ex. change (x * x) with (Rsqr x). rewrite sqrt_Rsqr_abs. apply Hub; [lia|exact Hk].
Qed.
(** On a path it is about sqrt(2/N). *)
Theorem C99_path : forall N G lmax e U c, (2 <= N)%nat -> Path N false Combinatorial = Ok G ->
  let F := mkview (g_n_vertices G) (gL G) lmax e U in spectral F -> coherence_is F c ->
  sqrt (2 / INR N) * cos (PI / (2 * INR N)) <= c <= sqrt (2 / INR N).
Proof.
  intros N G lmax e U c HN EG F HF Hc. destruct (C83_path_gft_is_the_dct N G lmax e U ltac:(lia) EG HF) as (Hn & _ & HU).
  destruct Hc as (Hub & i & k & Hi & Hk & Ec). cbn [v_N v_L v_e v_U F] in *. rewrite Hn in *.
  assert (HNR : 0 < INR N) by (apply lt_0_INR; lia). pose proof (sqrt_pos (2 / INR N)) as Q. split.
  - destruct (HU 1%nat ltac:(lia)) as (s & Hs & H1 & _). specialize (Hub 0%nat 1%nat ltac:(lia) ltac:(lia)). rewrite (H1 0%nat ltac:(lia)) in Hub.
    eapply Rle_trans; [|exact Hub]. rewrite Rabs_mult. replace (Rabs s) with 1 by (destruct Hs as [ -> | -> ]; [rewrite Rabs_R1|rewrite Rabs_left by lra; ring_simplify]; reflexivity).
    rewrite Rmult_1_l. unfold dct2. cbn [Nat.eqb INR]. replace (PI * 1 * (0 + / 2) / INR N) with (PI / (2 * INR N)) by (field; lra). apply Rle_abs.
  - rewrite Ec. destruct (HU k Hk) as (s & Hs & H1 & _). rewrite (H1 i Hi), Rabs_mult. replace (Rabs s) with 1 by (destruct Hs as [ -> | -> ]; [rewrite Rabs_R1|rewrite Rabs_left by lra; ring_simplify]; reflexivity).
    rewrite Rmult_1_l. unfold dct2. rewrite Rabs_mult. assert (B : Rabs (cos (PI * INR k * (INR i + / 2) / INR N)) <= 1) by (apply Rabs_le, COS_bound).
    assert (P : Rabs (if Nat.eqb k 0 then sqrt (1 / INR N) else sqrt (2 / INR N)) <= sqrt (2 / INR N)).
    { destruct (Nat.eqb k 0); rewrite Rabs_pos_eq by apply sqrt_pos; [|lra]. apply sqrt_le_1_alt. apply Rmult_le_compat_r; [left; apply Rinv_0_lt_compat; exact HNR|lra]. }
    pose proof (Rabs_pos (if Nat.eqb k 0 then sqrt (1 / INR N) else sqrt (2 / INR N))). pose proof (Rabs_pos (cos (PI * INR k * (INR i + / 2) / INR N))). nra.
Qed.

(** ** What the number depends on *)
(** Every exact answer of the eigensolver can be the one whose coherence is returned. *)
Lemma coherence_of_answer G e U : built G -> nonneg_weights G -> (0 < g_n_vertices G)%nat ->
  exact_eig (g_n_vertices G) (gL G) (g_n_vertices G) e U -> exists s', coherence_returned G (maxabs (g_n_vertices G) (g_n_vertices G) U) s'.
Proof.
  intros Hb Hp Hn He.
  assert (Hl : legal exact_eig ritz (cache_init G) (OpCoherence (EigOk e U))) by (cbn; exact He).
  assert (Hl' : legal exact_eig ritz (cache_init G) (OpBasis None (EigOk e U))) by (cbn; exact He).
  assert (Hk : known_types []) by (intros t []).
  destruct (C16_basis_computation_never_fails G [] (cache_init G) None e U Hb Hp Hn Hk (history_nil _ _ _) Hl') as (s' & e' & U' & E & _).
  exists s', [], (cache_init G), (EigOk e U). split; [exact Hk|]. split; [apply history_nil|]. split; [exact Hl|].
  unfold read_coherence. cbn [c_coh cache_init]. rewrite E. f_equal. f_equal.
  unfold compute_fourier_basis in E. cbn [c_basis cache_init] in E. cbn [c_N cache_init] in E. rewrite Nat.eqb_refl in E.
  destruct e as [|x es]; [discriminate|]. destruct (_ && _)%bool; [|discriminate]. destruct (upper_bound _ _); [|discriminate]. destruct (fle _ _); [|discriminate].
  destruct (forallb _ _); [|discriminate]. injection E as <-. reflexivity.
Qed.
(** G.coherence returns a number on every graph with a vertex and weights that are not negative. *)
Theorem C99_there_is_a_coherence : forall G, built G -> nonneg_weights G -> (0 < g_n_vertices G)%nat -> exists c s', coherence_returned G c s'.
Proof.
  intros G Hb Hp Hn. destruct (C82_every_graph_has_a_fourier_basis G 0 Hb) as (e & U & Hl & HU). cbn [v_N v_L v_e v_U] in *.
  eexists. apply (coherence_of_answer G e U Hb Hp Hn).
  split; [exact Hl|]. split; [lia|]. eexists. exists U. split; [exact HU|]. split; auto.
Qed.
(** FINDING. The documentation says that a disconnected vertex makes the coherence 1. On two vertices without edges the eigensolver may as well
    return a basis whose coherence is 1/sqrt(2): the number is a property of the solver's answer, not of the graph. *)
Theorem C99_coherence_depends_on_the_solver_refuted :
  exists G s1 s2, built G /\ nonneg_weights G /\ undirected G /\ (forall i j, (i < g_n_vertices G)%nat -> (j < g_n_vertices G)%nat -> wt G i j = 0) /\
    coherence_returned G 1 s1 /\ coherence_returned G (/ sqrt 2) s2 /\ / sqrt 2 < 1.
Proof.
  destruct (finite_entry_built 2 [0; 0; 0; 0] Combinatorial None eq_refl (or_introl eq_refl)) as (G & _ & Hb & Hn & Ht & _ & Hw).
  assert (Hw0 : forall i j, (i < 2)%nat -> (j < 2)%nat -> wt G i j = 0).
  { intros i j Hi Hj. rewrite Hw by assumption. destruct i as [|[|i]]; [| |lia]; (destruct j as [|[|j]]; [| |lia]); reflexivity. }
  assert (Hp : nonneg_weights G) by (intros i j Hi Hj; rewrite Hn in *; rewrite Hw0 by assumption; lra).
  destruct (C09_combinatorial_structure G Hb Ht) as (_ & Hr & Ho & _). rewrite Hn in *.
  assert (L0 : forall i j, (i < 2)%nat -> (j < 2)%nat -> gL G i j = 0).
  { assert (Hoff : forall i j, (i < 2)%nat -> (j < 2)%nat -> i <> j -> gL G i j = 0) by (intros i j Hi Hj Hij; rewrite Ho, !Hw0 by assumption; lra).
    intros i j Hi Hj. destruct (Nat.eq_dec i j) as [<-|Hij]; [|apply Hoff; assumption]. specialize (Hr i Hi). rewrite (rsum_single 2 _ i Hi) in Hr; [exact Hr|].
    intros l Hl Hli. apply Hoff; auto. }
  assert (Hsq : sqrt 2 * sqrt 2 = 2) by (apply sqrt_sqrt; lra). assert (Hs : 0 < sqrt 2) by (apply sqrt_lt_R0; lra).
  assert (Hi2 : / sqrt 2 * / sqrt 2 = / 2) by (rewrite <- Rinv_mult, Hsq; reflexivity). assert (Hi0 : 0 < / sqrt 2) by (apply Rinv_0_lt_compat; exact Hs).
  assert (Any : forall U : mat, (forall k l, (k < 2)%nat -> (l < 2)%nat -> \sum_(i < 2) (U i k * U i l) = if Nat.eqb k l then 1 else 0) ->
    (forall k l, (k < 2)%nat -> (l < 2)%nat -> \sum_(i < 2) (U k i * U l i) = if Nat.eqb k l then 1 else 0) -> exact_eig 2 (gL G) 2 [0; 0] U).
  { intros U H1 H2. split; [reflexivity|]. split; [lia|]. exists (fun _ => 0), U. split; [|split; [intros [|[|i]] ?; [reflexivity|reflexivity|lia]|auto]].
    split; [exact H1|exact H2| |intros; lra]. intros i k Hi Hk. unfold mulv. rewrite (rsum_ext 2 _ (fun _ => 0)), rsum_const by (intros j Hj; rewrite L0 by assumption; ring). ring. }
  pose proof (coherence_of_answer G [0; 0] (fun i k => if Nat.eqb i k then 1 else 0) Hb Hp ltac:(rewrite Hn; lia)) as (s1 & R1).
  { rewrite Hn. apply Any; intros k l Hk Hl; (destruct k as [|[|k]]; [| |lia]); (destruct l as [|[|l]]; [| |lia]); cbn; lra. }
  pose proof (coherence_of_answer G [0; 0] k2U Hb Hp ltac:(rewrite Hn; lia)) as (s2 & R2).
  { rewrite Hn. apply Any; intros k l Hk Hl; (destruct k as [|[|k]]; [| |lia]); (destruct l as [|[|l]]; [| |lia]); cbn; lra. }
  rewrite Hn in R1, R2. exists G, s1, s2. split; [exact Hb|]. split; [exact Hp|].
  split; [intros i j Hi Hj; rewrite Hn in *; rewrite !Hw0 by assumption; reflexivity|]. split; [intros i j Hi Hj; rewrite Hn in *; auto|].
  assert (M1 : maxabs 2 2 (fun i k => if Nat.eqb i k then 1 else 0) = 1).
  { destruct (maxabs_spec 2 2 (fun i k => if Nat.eqb i k then 1 else 0)) as (Hu & Ha). pose proof (Hu 0%nat 0%nat ltac:(lia) ltac:(lia)) as H0. cbn [Nat.eqb] in H0. rewrite Rabs_R1 in H0.
    destruct Ha as [Ha|(i & j & _ & _ & Ha)]; [lra|]. destruct (Nat.eqb i j); [rewrite Rabs_R1 in Ha; exact Ha|rewrite Rabs_R0 in Ha; lra]. }
  assert (M2 : maxabs 2 2 k2U = / sqrt 2).
  { assert (A : forall i j, Rabs (k2U i j) = / sqrt 2) by (intros i j; unfold k2U; destruct (_ && _)%bool; [rewrite Rabs_Ropp|]; apply Rabs_pos_eq; lra).
    destruct (maxabs_spec 2 2 k2U) as (Hu & Ha). pose proof (Hu 0%nat 0%nat ltac:(lia) ltac:(lia)) as H0. rewrite A in H0.
    destruct Ha as [Ha|(i & j & _ & _ & Ha)]; [lra|]. rewrite A in Ha. exact Ha. }
  rewrite M1 in R1. rewrite M2 in R2. split; [exact R1|]. split; [exact R2|]. nra.
Qed.

Lemma has_coherence F : spectral F -> (0 < v_N F)%nat -> exists c, coherence_is F c.
Proof.
  intros (_ & HU) Hn. destruct (maxabs_spec (v_N F) (v_N F) (v_U F)) as (Hu & Ha). exists (maxabs (v_N F) (v_N F) (v_U F)). split; [exact Hu|].
  destruct Ha as [Ha|Ha]; [exfalso|exact Ha]. pose proof (eigh_cols _ _ _ _ HU 0%nat 0%nat Hn Hn) as E. cbn [Nat.eqb] in E.
  rewrite (rsum_ext _ _ (fun _ => 0)), rsum_const in E; [lra|]. intros i Hi. specialize (Hu i 0%nat Hi Hn). rewrite Ha in Hu. pose proof (Rabs_pos (v_U F i 0%nat)).
  assert (v_U F i 0%nat = 0); [|nra]. destruct (Req_dec (v_U F i 0%nat) 0) as [Z|Z]; [exact Z|]. apply Rabs_pos_lt in Z. lra.
Qed.
Lemma has_nonzeros n x : exists m, nonzeros n x m.
Proof.
  eexists. exists (filter (fun i => if Req_EM_T (x i) 0 then false else true) (seq 0 n)). split; [apply NoDup_filter, seq_NoDup|]. split; [|reflexivity].
  intros i. rewrite filter_In, in_seq. destruct (Req_EM_T (x i) 0); intuition (lia || discriminate || contradiction).
Qed.
(** The hypotheses are met: a star of any size exists and has a basis, a coherence, transforms and atoms. *)
Example C99_ex : forall N, (2 <= N)%nat -> exists G e U c t a b out, Star N false Combinatorial = Ok G /\ let F := mkview (g_n_vertices G) (gL G) (INR N) e U in
  let x := fun i : nat => if Nat.eqb i 0 then 1 else 0 in
  built G /\ nonneg_weights G /\ connected G /\ g_lap_type G = Combinatorial /\
  spectral F /\ coherence_is F c /\ gft F (vec_arr (v_N F) x) = Ok t /\ (exists i, (i < v_N F)%nat /\ x i <> 0) /\ nonzeros (v_N F) x a /\ nonzeros (v_N F) (fun k => aget t [k]) b /\
  localize F [pw (fun t => exp (- t))] Exact (Z.of_nat 0) = Ok out.
Proof.
  intros N HN. destruct (C48_star N Combinatorial ltac:(lia) (or_introl eq_refl)) as (G & EG & _).
  destruct (star_lap N G HN EG) as (Hb & Hp & HC & Ht & Hn & _).
  destruct (C82_every_graph_has_a_fourier_basis G (INR N) Hb) as (e & U & HF). set (F := mkview _ _ _ e U) in HF.
  assert (HvN : v_N F = N) by exact Hn. assert (H0 : (0 < v_N F)%nat) by lia.
  destruct (has_coherence F HF H0) as (c & Hc). set (x := fun i : nat => if Nat.eqb i 0 then 1 else 0).
  destruct (gft_ok F (vec_arr (v_N F) x) [] HF eq_refl) as (t & Et & _).
  destruct (has_nonzeros (v_N F) x) as (a & Ha). destruct (has_nonzeros (v_N F) (fun k => aget t [k])) as (b & Hbb).
  destruct (C26_localize F [pw (fun t => exp (- t))] Exact _ 0%nat HF (response_pw F [fun t => exp (- t)] HF) H0) as (out & Eo & _).
  exists G, e, U, c, t, a, b, out. split; [exact EG|]. fold F. cbv zeta. fold x. repeat (split; [assumption|]). split; [exists 0%nat; split; [exact H0|unfold x; cbn; lra]|]. split; [exact Ha|]. split; assumption.
Qed.
