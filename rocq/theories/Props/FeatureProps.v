(** C62: the features of pygsp/features.py. *)
From Coq Require Import Reals Lra Lia List Arith Bool.
From Coq Require Import List.
From Verif.Base Require Import RSum Prelude LinAlg.
From Verif.Spec Require Import Matrix NdArray GraphSpec FilterSpec.
From Verif.Model Require Import Sparse Graph Traverse Cache Filter Features.
From Verif.Proofs Require Import SparseFacts InitFacts LapFacts SpectralFacts FilterFacts ChebFacts.
From Verif.Props Require Import Core Laplacian Traversal Caching Filtering Banks UtilsProps ReductionProps ChebInterp.
Import ListNotations.
Open Scope R_scope.

Lemma mapr_const {A B} (r : res B) (l : list A) : mapr (fun _ => r) l = match r with Ok b => Ok (map (fun _ => b) l) | Raise e => match l with [] => Ok [] | _ => Raise e end end.
Proof.
  induction l as [|a l IH]; [destruct r; reflexivity|]. cbn [mapr map]. rewrite IH. destruct r; [reflexivity|reflexivity].
Qed.
(** Entries of the frame: row f N + n, column j is (g_f(L))_{nj}. *)
Lemma frame_entries F ks m H : spectral F -> response F ks m H -> (0 < v_N F)%nat -> (v_N F <> List.length ks \/ v_N F = 1)%nat ->
  exists A, compute_frame F ks m = Ok A /\ shape A = [(List.length ks * v_N F)%nat; v_N F] /\
    forall f n j, (f < List.length ks)%nat -> (n < v_N F)%nat -> (j < v_N F)%nat ->
      aget A [(f * v_N F + n)%nat; j] = \sum_(k < v_N F) (v_U F n k * H f k * v_U F j k).
Proof.
  intros HF Hr HN Hne. destruct (C26_compute_frame_is_the_analysis_operator F ks m H HF Hr HN Hne) as (A & E & S & HA).
  exists A. split; [exact E|]. split; [exact S|]. intros f n j Hf Hn Hj. set (x := fun l => if Nat.eqb l j then 1 else 0).
  destruct (one_signal F ks m H x HF Hr) as (out & Eo & _ & Ho). specialize (HA x out f n Eo Hf Hn).
  rewrite (Ho f n) in HA by assumption. unfold x in HA. 
  rewrite (rsum_single _ _ j Hj) in HA; [|intros i Hi Hne'; cbv beta; destruct (Nat.eqb_spec i j); [contradiction|ring]].
  rewrite Nat.eqb_refl, Rmult_1_r in HA. rewrite HA. unfold mult. apply rsum_ext. intros k Hk. rewrite fhat_delta by assumption. ring.
Qed.
Lemma row_energy F (h : vec) n : spectral F -> (n < v_N F)%nat ->
  \sum_(j < v_N F) ((\sum_(k < v_N F) (v_U F n k * h k * v_U F j k)) * (\sum_(k < v_N F) (v_U F n k * h k * v_U F j k))) =
  \sum_(k < v_N F) (v_U F n k * v_U F n k * (h k * h k)).
Proof.
  intros HF Hn. set (d := fun l => if Nat.eqb l n then 1 else 0).
  transitivity (normsq (v_N F) (mult F h d)).
  - unfold normsq, dot. apply rsum_ext. intros j Hj.
    assert (E : mult F h d j = \sum_(k < v_N F) (v_U F n k * h k * v_U F j k)).
    { unfold mult. apply rsum_ext. intros k Hk. unfold d. rewrite fhat_delta by assumption. ring. }
    rewrite E. reflexivity.
  - rewrite (mult_normsq F HF). apply rsum_ext. intros k Hk. unfold d. rewrite fhat_delta by assumption. ring.
Qed.
Lemma col_energy F : spectral F -> forall k, (k < v_N F)%nat -> \sum_(n < v_N F) (v_U F n k * v_U F n k) = 1.
Proof.
  intros HF k Hk. pose proof (eigh_cols _ _ _ _ (proj2 HF) k k Hk Hk) as Q. rewrite Nat.eqb_refl in Q. exact Q.
Qed.

(** compute_norm_tig of a single kernel: entry i is the norm of row i of g(L), where g stands for its Chebyshev interpolant of
    degree 30 (the gain H on eigenvector k), and the squares sum to the energy of g over the spectrum. *)
Theorem C62_norm_tig F k H kw : spectral F -> (0 < v_N F)%nat -> response F [k] (Chebyshev 30) H ->
  exists t, compute_norm_tig F [k] kw = Ok (One t) /\ shape t = [v_N F] /\
    (forall i, (i < v_N F)%nat -> 0 <= aget t [i] /\ aget t [i] * aget t [i] = \sum_(l < v_N F) (v_U F i l * v_U F i l * (H 0%nat l * H 0%nat l))) /\
    \sum_(i < v_N F) (aget t [i] * aget t [i]) = \sum_(l < v_N F) (H 0%nat l * H 0%nat l).
Proof.
  intros HF HN Hr. assert (Hne : (v_N F <> List.length [k] \/ v_N F = 1)%nat) by (cbn; lia).
  destruct (frame_entries F [k] _ H HF Hr HN Hne) as (A & E & S & HA). cbn [List.length] in S. rewrite Nat.mul_1_l in S.
  unfold compute_norm_tig, handle. cbn [List.length Nat.leb]. rewrite E. cbn [bindr]. unfold row_norms. rewrite S.
  eexists. split; [reflexivity|]. split; [reflexivity|].
  assert (Hv : forall i, (i < v_N F)%nat -> \sum_(j < v_N F) (aget A [i; j] * aget A [i; j]) = \sum_(l < v_N F) (v_U F i l * v_U F i l * (H 0%nat l * H 0%nat l))).
  { intros i Hi. rewrite <- (row_energy F (H 0%nat) i HF Hi). apply rsum_ext. intros j Hj.
    pose proof (HA 0%nat i j ltac:(cbn; lia) Hi Hj) as Q. cbn [Nat.mul Nat.add] in Q. rewrite Q. reflexivity. }
  assert (Hs : forall i, (i < v_N F)%nat -> forall s, s = sqrt (\sum_(j < v_N F) (aget A [i; j] * aget A [i; j])) -> s * s = \sum_(l < v_N F) (v_U F i l * v_U F i l * (H 0%nat l * H 0%nat l))).
  { intros i Hi s ->. rewrite sqrt_sqrt; [apply Hv; exact Hi|]. apply rsum_nonneg. intros j Hj. apply Rle_0_sqr. }
  split.
  - intros i Hi. split; [apply sqrt_pos|]. apply (Hs i Hi). reflexivity.
  - transitivity (\sum_(i < v_N F) \sum_(l < v_N F) (v_U F i l * v_U F i l * (H 0%nat l * H 0%nat l))).
    + apply rsum_ext. intros i Hi. apply (Hs i Hi). reflexivity.
    + rewrite rsum_swap. apply rsum_ext. intros l Hl. rewrite rsum_scal_r, (col_energy F HF l Hl). ring.
Qed.
(** compute_spectrogram: column m holds the squared norms for the kernel shifted to the m-th of M equispaced frequencies. *)
Theorem C62_spectrogram F atom M kw : spectral F -> (0 < v_N F)%nat -> 0 < v_lmax F ->
  exists S H, compute_spectrogram F atom M kw = Ok S /\ shape S = [v_N F; M] /\
    (forall m, (m < M)%nat -> response F [pw (fun x =>
        match atom with Some a => a | None => fun t => exp (- INR M * (t / v_lmax F) ^ 2) end (x - INR m * (v_lmax F / INR (M - 1))))] (Chebyshev 30) (fun _ => H m)) /\
    (forall i m, (i < v_N F)%nat -> (m < M)%nat -> aget S [i; m] = \sum_(l < v_N F) (v_U F i l * v_U F i l * (H m l * H m l))) /\
    (forall m, (m < M)%nat -> \sum_(i < v_N F) aget S [i; m] = \sum_(l < v_N F) (H m l * H m l)).
Proof.
  intros HF HN Hl. set (at' := match atom with Some a => a | None => fun t => exp (- INR M * (t / v_lmax F) ^ 2) end).
  set (kn := fun m => fun x => at' (x - INR m * (v_lmax F / INR (M - 1)))).
  assert (Hres : forall m, exists h, response F [pw (kn m)] (Chebyshev 30) (fun _ => h)).
  { intros m. destruct (response_cheb F [kn m] 30 Hl ltac:(lia) ltac:(discriminate)) as (H & HH). cbn [map] in HH. exists (H 0%nat).
    destruct HH as (c & E & H1 & H2 & H3). exists c. split; [exact E|]. split; [exact H1|]. split; [exact H2|]. intros i k Hi Hk. cbn in Hi. assert (i = 0)%nat by lia. subst i. apply H3; [cbn; lia|exact Hk]. }
  assert (Hc : exists H : nat -> vec, forall m, (m < M)%nat -> response F [pw (kn m)] (Chebyshev 30) (fun _ => H m)).
  { clear - Hres. induction M as [|M' _] eqn:EM in |- *; [exists (fun _ _ => 0); intros; lia|]. clear EM.
    assert (Hall : forall p, exists H : nat -> vec, forall m, (m < p)%nat -> response F [pw (kn m)] (Chebyshev 30) (fun _ => H m)).
    { induction p as [|p (H & HH)]; [exists (fun _ _ => 0); intros; lia|]. destruct (Hres p) as (h & Hh).
      exists (fun m => if Nat.eqb m p then h else H m). intros m Hm. destruct (Nat.eqb_spec m p) as [->|Hne]; [exact Hh|]. apply HH. lia. }
    apply Hall. }
  destruct Hc as (H & HH).
  assert (Hcol : forall m, (m < M)%nat -> exists v, spectrogram_column F at' M m kw = Ok v /\ forall i, (i < v_N F)%nat -> v i = \sum_(l < v_N F) (v_U F i l * v_U F i l * (H m l * H m l))).
  { intros m Hm. unfold spectrogram_column.
    assert (Es : nth m (linspace 0 (v_lmax F) M) 0 = INR m * (v_lmax F / INR (M - 1))).
    { unfold linspace. rewrite nth_map_seq by exact Hm. rewrite Rminus_0_r. ring. }
    cbv zeta. rewrite Es. change (fun x => at' (x - INR m * (v_lmax F / INR (M - 1)))) with (kn m).
    destruct (C62_norm_tig F (pw (kn m)) _ kw HF HN (HH m Hm)) as (t & Et & St & Ht & _). rewrite Et. cbn [bindr].
    eexists. split; [reflexivity|]. intros i Hi. destruct (Ht i Hi) as (_ & <-). unfold rd, squeeze. rewrite St. cbn [drop1 sqidx aget].
    cbn [pow]. rewrite Rmult_1_r. cbn [unsqidx]. destruct (Nat.eqb_spec (v_N F) 1) as [E1|E1]; [assert (i = 0)%nat by lia; subst i; reflexivity|reflexivity]. }
  assert (Hcols : forall p, (p <= M)%nat -> exists cols, mapr (fun m => spectrogram_column F at' M m kw) (seq 0 p) = Ok cols /\ List.length cols = p /\
     forall m i, (m < p)%nat -> (i < v_N F)%nat -> nth m cols (fun _ => 0) i = \sum_(l < v_N F) (v_U F i l * v_U F i l * (H m l * H m l))).
  { assert (Happ : forall (f : nat -> res vec) l1 l2, mapr f (l1 ++ l2)%list = bindr (mapr f l1) (fun a => bindr (mapr f l2) (fun b => Ok (a ++ b)%list))).
    { intros f l1 l2. induction l1 as [|a l1 IH]; cbn [mapr app bindr]; [destruct (mapr f l2); reflexivity|]. rewrite IH.
      destruct (f a); cbn [bindr]; [|reflexivity]. destruct (mapr f l1); cbn [bindr]; [|reflexivity]. destruct (mapr f l2); reflexivity. }
    induction p as [|p IH]; intros Hp; [exists []; split; [reflexivity|]; split; [reflexivity|]; intros; lia|].
    destruct IH as (cols & E & Lc & Hv); [lia|]. destruct (Hcol p ltac:(lia)) as (v & Ev & Hvv).
    exists (cols ++ [v])%list. rewrite seq_S, Happ, E. cbn [bindr mapr Nat.add]. rewrite Ev. cbn [bindr]. split; [reflexivity|].
    split; [rewrite app_length; cbn; lia|]. intros m i Hm Hi. destruct (Nat.eq_dec m p) as [->|Hne].
    - rewrite app_nth2 by lia. rewrite Lc, Nat.sub_diag. cbn. apply Hvv. exact Hi.
    - rewrite app_nth1 by lia. apply Hv; lia. }
  destruct (Hcols M (le_n M)) as (cols & E & Lc & Hv).
  exists (Arr [v_N F; M] (fun idx => nth (ix idx 1) cols (fun _ => 0) (ix idx 0))), H. split.
  { unfold compute_spectrogram. replace (match atom with Some a => a | None => default_atom M (v_lmax F) end) with at' by (unfold at', default_atom; destruct atom; reflexivity).
    rewrite E. reflexivity. }
  split; [reflexivity|]. split; [exact HH|].
  assert (Hent : forall i m, (i < v_N F)%nat -> (m < M)%nat -> aget (Arr [v_N F; M] (fun idx => nth (ix idx 1) cols (fun _ => 0) (ix idx 0))) [i; m] = \sum_(l < v_N F) (v_U F i l * v_U F i l * (H m l * H m l))).
  { intros i m Hi Hm. cbn [aget]. unfold ix. cbn [nth]. apply Hv; assumption. }
  split; [exact Hent|]. intros m Hm. rewrite (rsum_ext _ _ (fun i => \sum_(l < v_N F) (v_U F i l * v_U F i l * (H m l * H m l)))) by (intros i Hi; apply Hent; assumption).
  rewrite rsum_swap. apply rsum_ext. intros l Hl'. rewrite rsum_scal_r, (col_energy F HF l Hl'). ring.
Qed.
(** A bank with several filters: the answer is one copy of the WHOLE frame per filter (all equal), not one matrix per filter. *)
Theorem C62_bank_repeats_the_frame_refuted F ks H kw : spectral F -> (0 < v_N F)%nat -> (1 < List.length ks)%nat -> (v_N F <> List.length ks \/ v_N F = 1)%nat ->
  response F ks (Chebyshev 30) H ->
  exists A, compute_tig F ks kw = Ok (Each (map (fun _ => A) (seq 0 (List.length ks)))) /\ shape A = [(List.length ks * v_N F)%nat; v_N F] /\
    forall f n j, (f < List.length ks)%nat -> (n < v_N F)%nat -> (j < v_N F)%nat -> aget A [(f * v_N F + n)%nat; j] = \sum_(k < v_N F) (v_U F n k * H f k * v_U F j k).
Proof.
  intros HF HN Hk Hne Hr. destruct (frame_entries F ks _ H HF Hr HN Hne) as (A & E & S & HA). exists A. split; [|split; assumption].
  unfold compute_tig, handle. destruct (Nat.leb_spec (List.length ks) 1); [lia|]. rewrite mapr_const, E. reflexivity.
Qed.
(** The keyword arguments are dropped: asking for the exact method still gives the Chebyshev approximation, which can be entirely different. *)
Theorem C62_keywords_ignored_refuted :
  exists k A B, let F := k2_view 2 in spectral F /\
    compute_tig F [k] Exact = Ok (One A) /\ compute_frame F [k] Exact = Ok B /\ aget A [0%nat; 0%nat] = 0 /\ aget B [0%nat; 0%nat] = / 2.
Proof.
  set (g := fun x => if Reqb x 0 then 1 else 0). exists (pw g). cbv zeta. set (F := k2_view 2). pose proof (k2_spectral 2) as HF. fold F in HF.
  pose proof (response_pw F [g] HF) as Hr1. cbn [map] in Hr1.
  assert (Hr2 : response F [pw g] (Chebyshev 30) (fun _ _ => 0)).
  { assert (Ec : compute_cheby_coeff (v_lmax F) [pw g] 30 None = Ok [map (fun _ => 0) (seq 0 31)]).
    { unfold compute_cheby_coeff. cbn [mapr]. unfold cheby_coeff1, pw. cbn [bindr]. unfold cheby_nodes. rewrite !map_length, seq_length. cbn [Nat.eqb negb bindr].
      f_equal. f_equal. apply map_ext. intros o. rewrite rsum_0; [ring|]. intros j Hj. rewrite map_map, nth_map_seq by exact Hj. cbn [Nat.add]. unfold g.
      set (th := PI * (INR j + / 2) / INR 31). assert (Hth : 0 <= th <= PI /\ th < PI).
      { pose proof PI_RGT_0. assert (0 <= INR j) by apply pos_INR. assert (INR j <= 30) by (replace 30 with (INR 30) by (cbn; lra); apply le_INR; lia).
        assert (H31 : INR 31 = 31) by (cbn; lra). unfold th. rewrite H31.
        replace (PI * (INR j + / 2) / 31) with (PI * ((INR j + / 2) / 31)) by (field). split; [split|]; nra. }
      destruct (Reqb (v_lmax F / 2 * cos th + v_lmax F / 2) 0) eqn:Er; [|ring]. apply Reqb_true in Er. exfalso. cbn [v_lmax F k2_view] in Er.
      pose proof (cos_decreasing_1 th PI ltac:(lra) ltac:(lra) ltac:(lra) ltac:(lra) ltac:(lra)) as Hcos. rewrite cos_PI in Hcos. lra. }
    exists [map (fun _ => 0) (seq 0 31)]. split; [exact Ec|]. split; [lia|]. split; [cbn; lra|]. intros i k Hi Hk. cbn in Hi. assert (i = 0)%nat by lia. subst i. cbn [nth].
    unfold cheb_series. rewrite rsum_0; [cbn; lra|]. intros j Hj. rewrite map_length, seq_length in Hj. rewrite nth_map_seq by lia. ring. }
  assert (HN : (0 < v_N F)%nat) by (cbn; lia). assert (Hne : (v_N F <> List.length [pw g] \/ v_N F = 1)%nat) by (cbn; lia).
  destruct (frame_entries F [pw g] _ _ HF Hr2 HN Hne) as (A & EA & _ & HA). destruct (frame_entries F [pw g] _ _ HF Hr1 HN Hne) as (B & EB & _ & HB).
  exists A, B. split; [exact HF|]. split; [unfold compute_tig, handle; cbn [List.length Nat.leb]; rewrite EA; reflexivity|]. split; [exact EB|].
  pose proof (HA 0%nat 0%nat 0%nat ltac:(cbn; lia) HN HN) as QA. pose proof (HB 0%nat 0%nat 0%nat ltac:(cbn; lia) HN HN) as QB. cbn [Nat.mul Nat.add] in QA, QB. split.
  - rewrite QA. apply rsum_0. intros; ring.
  - rewrite QB. cbn [v_N F k2_view rsum v_e nth]. unfold g. destruct (Reqb 0 0) eqn:E0; [|exfalso; assert (Reqb 0 0 = true) by (apply Reqb_true; reflexivity); congruence].
    destruct (Reqb 2 0) eqn:E2; [apply Reqb_true in E2; lra|]. cbn [v_U F k2_view k2U]. unfold k2U. cbn. 
    assert (S2 : / sqrt 2 * / sqrt 2 = / 2) by (rewrite <- Rinv_mult, sqrt_sqrt by lra; reflexivity). nra.
Qed.

(** ** compute_avg_adj_deg *)
(** number of vertices with property p *)
Lemma existsb_seq (p : nat -> bool) n : existsb p (seq 0 n) = true <-> exists k, (k < n)%nat /\ p k = true.
Proof.
  rewrite existsb_exists. split; intros (k & H); exists k; [|rewrite in_seq]; rewrite ?in_seq in H; intuition lia.
Qed.
(** What it computes: the number of vertices reachable in exactly two steps, over one plus the number of neighbours. *)
Theorem C62_avg_adj_deg G : built G -> forall i, (i < g_n_vertices G)%nat -> forall (two one : nat -> bool),
  (forall j, two j = true <-> exists k, (k < g_n_vertices G)%nat /\ 0 < wt G i k /\ 0 < wt G k j) -> (forall j, one j = true <-> 0 < wt G i j) ->
  avg_adj_deg G i * (INR (ncount (g_n_vertices G) one) + 1) = INR (ncount (g_n_vertices G) two).
Proof.
  intros Hb i Hi two one H2 H1. unfold avg_adj_deg.
  rewrite (ncount_ext _ (fun j => adjb (gW G) i j) one). 2: { intros j Hj. apply eq_true_iff_eq. rewrite H1. unfold adjb. rewrite Rltb_true. reflexivity. }
  rewrite (ncount_ext _ _ two).
  - field. pose proof (pos_INR (ncount (g_n_vertices G) one)). lra.
  - intros j Hj. apply eq_true_iff_eq. rewrite existsb_seq, H2. split; intros (k & Hk & H); exists k; (split; [exact Hk|]).
    + apply andb_true_iff in H. unfold adjb in H. rewrite !Rltb_true in H. exact H.
    + apply andb_true_iff. unfold adjb. rewrite !Rltb_true. exact H.
Qed.
(** It is not the average of the degrees of the vertex and its neighbours: at the centre of a path of three vertices that average is 4/3. *)
Theorem C62_avg_adj_deg_refuted : exists G, built G /\ g_n_vertices G = 3%nat /\ undirected G /\ nonneg_weights G /\
  avg_adj_deg G 1 = 1 / 3 /\
  (let deg i := INR (ncount 3 (fun j => adjb (gW G) i j)) in (deg 1%nat + deg 0%nat + deg 2%nat) / 3 = 4 / 3).
Proof.
  destruct (finite_entry_built 3 [0; 1; 0; 1; 0; 1; 0; 1; 0] Combinatorial None eq_refl (or_introl eq_refl)) as (G & _ & Hb & Hn & Ht & Hc & Hw).
  exists G. split; [exact Hb|]. split; [exact Hn|].
  split. { intros i j Hi Hj. rewrite Hn in Hi, Hj. rewrite !Hw by assumption. destruct i as [|[|[|i]]]; try lia; destruct j as [|[|[|j]]]; try lia; reflexivity. }
  split. { intros i j Hi Hj. rewrite Hn in Hi, Hj. rewrite Hw by assumption. destruct i as [|[|[|i]]]; try lia; destruct j as [|[|[|j]]]; try lia; cbn; lra. }
  assert (HA : forall i j, (i < 3)%nat -> (j < 3)%nat -> adjb (gW G) i j = orb (Nat.eqb i (S j)) (Nat.eqb j (S i))).
  { intros i j Hi Hj. unfold adjb. change (get (gW G) i j) with (wt G i j). rewrite Hw by assumption.
    destruct i as [|[|[|i]]]; try lia; destruct j as [|[|[|j]]]; try lia; cbn [nth Nat.mul Nat.add Nat.eqb orb];
    match goal with |- Rltb 0 ?v = ?b => destruct (Rltb 0 v) eqn:E; [|destruct (Rlt_dec 0 v) as [L|L]; [apply Rltb_true in L; congruence|]] end;
    try reflexivity; try (apply Rltb_true in E; cbn in E; lra); cbn in L; lra. }
  assert (HC : forall i, (i < 3)%nat -> ncount 3 (fun j => adjb (gW G) i j) = ncount 3 (fun j => orb (Nat.eqb i (S j)) (Nat.eqb j (S i)))).
  { intros i Hi. apply ncount_ext. intros j Hj. apply HA; assumption. }
  split.
  - unfold avg_adj_deg. rewrite Hn. rewrite (HC 1%nat) by lia.
    rewrite (ncount_ext 3 _ (fun j => Nat.eqb j 1)).
    + cbn. lra.
    + intros j Hj. cbn [seq existsb]. rewrite !HA by lia. destruct j as [|[|[|j]]]; try lia; reflexivity.
  - cbv beta zeta. rewrite (HC 0%nat), (HC 1%nat), (HC 2%nat) by lia. cbn. lra.
Qed.

(** The hypotheses can be met: the graph with one edge, and one or three kernels. *)
Example C62_ex : spectral (k2_view 2) /\ (exists H, response (k2_view 2) [pw exp] (Chebyshev 30) H) /\
  exists H, response (k2_view 2) (map pw [exp; cos; fun t => t]) (Chebyshev 30) H.
Proof.
  split; [apply k2_spectral|]. split.
  - apply (response_cheb (k2_view 2) [exp] 30); [cbn; lra|lia|discriminate].
  - apply (response_cheb (k2_view 2) [exp; cos; fun t => t] 30); [cbn; lra|lia|discriminate].
Qed.
