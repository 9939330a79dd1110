(** Property C94: the spectra of the full graph and of the star, of regular graphs under both Laplacians, and of bipartite graphs. *)
From Coq Require Import Reals Lra Lia Arith Bool String ZArith Sorted Permutation List.
From Verif.Base Require Import RSum Prelude LinAlg Solve Spectral.
From Verif.Spec Require Import Matrix GraphSpec NdArray FilterSpec Card Reach LapSpec GenSpec.
From Verif.Model Require Import Sparse Graph Bounds Traverse Cache Filter Utils Generators Ring.
From Verif.Proofs Require Import SparseFacts InitFacts EdgeFacts LapFacts MaxPrinciple SpectralFacts SpectrumFacts FilterFacts ChebFacts GenFacts.
From Verif.Props Require Import Core Laplacian Traversal Caching Filtering UtilsProps GenProps GridProps RingProps SpectrumProps TransformProps TightProps.
Import ListNotations.
Open Scope R_scope.

(** ** Helpers *)
(** Exact filtering of a signal of an eigenspace (the signal may be zero) multiplies it by the kernel. *)
Lemma mult_eigenspace F (g : R -> R) lam x i : spectral F -> (forall j, (j < v_N F)%nat -> mulv (v_N F) (v_L F) x j = lam * x j) -> (i < v_N F)%nat ->
  mult F (fun k => g (nth k (v_e F) 0)) x i = g lam * x i.
Proof.
  intros HF He Hi. destruct (vzero_dec (v_N F) x) as [Hz|(a & Ha & Na)].
  - rewrite (Hz i Hi), Rmult_0_r. unfold mult. apply rsum_0. intros k Hk. unfold fhat. rewrite (rsum_0 (v_N F)); [ring|].
    intros j Hj. rewrite (Hz j Hj). ring.
  - apply (mult_eigenpair F HF); [split; [intros Hz; apply Na, Hz, Ha|exact He]|exact Hi].
Qed.
Lemma unit_nonneg G n E : unit_graph G n E -> (forall i j, {E i j} + {~ E i j}) -> nonneg_weights G.
Proof.
  intros (Hb & Hn & Hw) dec i j Hi Hj. rewrite Hn in *. destruct (Hw i j Hi Hj) as (H1 & H0). destruct (dec i j) as [H|H]; [rewrite (H1 H)|rewrite (H0 H)]; lra.
Qed.
Lemma column_nonzero n A e U k : eigh_ok n A e U -> (k < n)%nat -> exists i, (i < n)%nat /\ U i k <> 0.
Proof.
  intros HU Hk. destruct (vzero_dec n (fun i => U i k)) as [Hz|Hz].
  - exfalso. pose proof (eigh_cols n A e U HU k k Hk Hk) as E. rewrite Nat.eqb_refl in E.
    rewrite (rsum_0 n) in E; [lra|]. intros i Hi. rewrite (Hz i Hi). ring.
  - exact Hz.
Qed.
(** On a connected graph only the first eigenvalue is zero. *)
Lemma zero_simple G e U k : built G -> nonneg_weights G -> g_lap_type G = Combinatorial -> connected G ->
  eigh_ok (g_n_vertices G) (gL G) e U -> (k < g_n_vertices G)%nat -> e k = 0 -> k = 0%nat.
Proof.
  intros Hb Hp Ht HC HU Hk Ek. destruct (Nat.eq_dec k 0) as [->|Hne]; [reflexivity|exfalso].
  set (n := g_n_vertices G) in *. pose proof (first_eigenvalue_zero G e U Hb Hp ltac:(fold n; lia) HU) as E0.
  assert (Hc : forall l, (l < n)%nat -> e l = 0 -> forall i j, (i < n)%nat -> (j < n)%nat -> U i l = U j l).
  { intros l Hl El. apply (proj1 (C72_kernel G (fun i => U i l) Hb Hp Ht HC)). intros i Hi. fold n in Hi |- *.
    rewrite (eigh_eig n (gL G) e U HU i l Hi Hl), El. ring. }
  assert (H00 : (0 < n)%nat) by lia.
  pose proof (eigh_cols n (gL G) e U HU 0%nat k H00 Hk) as E. destruct (Nat.eqb_spec 0 k) as [Ek0|_]; [lia|].
  rewrite (rsum_ext n _ (fun _ => U 0%nat 0%nat * U 0%nat k)) in E.
  2:{ intros i Hi. rewrite (Hc 0%nat H00 E0 i 0%nat Hi H00), (Hc k Hk Ek i 0%nat Hi H00). reflexivity. }
  rewrite rsum_const in E. assert (0 < INR n) by (apply lt_0_INR; exact H00).
  destruct (column_nonzero n (gL G) e U 0 HU H00) as (i & Hi & Ni). destruct (column_nonzero n (gL G) e U k HU Hk) as (j & Hj & Nj).
  rewrite (Hc 0%nat H00 E0 i 0%nat Hi H00) in Ni. rewrite (Hc k Hk Ek j 0%nat Hj H00) in Nj.
  apply Rmult_integral in E. destruct E as [E|E]; [lra|]. apply Rmult_integral in E. tauto.
Qed.

(** ** The full graph *)
Lemma full_lap N G x i : FullConnected N Combinatorial = Ok G -> (i < N)%nat ->
  built G /\ nonneg_weights G /\ connected G /\ g_lap_type G = Combinatorial /\ g_n_vertices G = N /\
  mulv N (gL G) x i = INR N * x i - \sum_(j < N) x j.
Proof.
  intros EG Hi. destruct (C48_full N Combinatorial (or_introl eq_refl)) as (G' & EG' & HU & Hu & _ & Hp & HC & _).
  rewrite EG in EG'. injection EG' as <-. pose proof HU as (Hb & Hn & Hw).
  assert (Ht : g_lap_type G = Combinatorial) by (unfold FullConnected in EG; apply init_laptype in EG; exact EG).
  repeat (split; [assumption|]). rewrite (lap_unit G N _ x i HU Hu Hp Ht Hi).
  rewrite (rsum_ext N _ (fun j => x i - x j)).
  - rewrite rsum_minus, rsum_const. reflexivity.
  - intros j Hj. destruct (Nat.eq_dec i j) as [<-|Hne]; [ring|]. rewrite (proj1 (Hw i j Hi Hj) Hne). ring.
Qed.

(** FullConnected(N): whatever the eigensolver, the eigenvalues are 0 and then N for ever, and exact filtering by a kernel g multiplies
    the mean of the signal by g(0) and its deviation from the mean by g(N). *)
Theorem C94_full_graph :
  forall N G lmax e U, (1 <= N)%nat -> FullConnected N Combinatorial = Ok G -> spectral (mkview (g_n_vertices G) (gL G) lmax e U) ->
    g_n_vertices G = N /\ nth 0 e 0 = 0 /\ (forall k, (1 <= k < N)%nat -> nth k e 0 = INR N) /\
    forall g x, exists out, gfilter (mkview (g_n_vertices G) (gL G) lmax e U) [pw g] Exact (vec_arr N x) = Ok out /\
      forall i, (i < N)%nat -> let mean := (\sum_(j < N) x j) / INR N in
        ans (mkview (g_n_vertices G) (gL G) lmax e U) 1 out 0 i = g 0 * mean + g (INR N) * (x i - mean).
Proof.
  intros N G lmax e U HN EG HF. destruct (full_lap N G (fun _ => 0) 0 EG ltac:(lia)) as (Hb & Hp & HC & Ht & Hn & _).
  pose proof HF as (Hlen & HU). cbn [v_N v_L v_e v_U] in Hlen, HU.
  assert (HNR : 0 < INR N) by (apply lt_0_INR; lia).
  split; [exact Hn|]. split; [apply (first_eigenvalue_zero G (fun k => nth k e 0) U Hb Hp ltac:(lia) HU)|]. split.
  - intros k Hk. assert (HUn := HU). rewrite Hn in HUn. destruct (Req_dec (nth k e 0) 0) as [E0|E0].
    + exfalso. apply (zero_simple G _ U k Hb Hp Ht HC HU) in E0; lia.
    + destruct (column_nonzero N (gL G) _ U k HUn ltac:(lia)) as (i & Hi & Ni).
      assert (E : forall i, (i < N)%nat -> nth k e 0 * U i k = INR N * U i k - \sum_(j < N) U j k).
      { intros j Hj. rewrite <- (eigh_eig N (gL G) _ U HUn j k Hj ltac:(lia)). apply (full_lap N G (fun j => U j k) j EG Hj). }
      assert (S0 : \sum_(j < N) U j k = 0).
      { assert (Q : nth k e 0 * (\sum_(j < N) U j k) = 0).
        { rewrite <- rsum_scal_l. rewrite (rsum_ext N _ (fun i => INR N * U i k - \sum_(j < N) U j k)) by exact E.
          rewrite rsum_minus, rsum_const, rsum_scal_l. ring. }
        apply Rmult_integral in Q. tauto. }
      specialize (E i Hi). rewrite S0, Rminus_0_r in E. apply Rmult_eq_reg_r in E; assumption.
  - intros g x. destruct (one_signal _ [pw g] Exact _ x HF (response_pw _ [g] HF)) as (out & Eo & _ & Ho). cbn [v_N] in Eo, Ho. rewrite Hn in Eo at 2.
    exists out. split; [exact Eo|]. intros i Hi mean. rewrite Ho by (cbn; lia). cbn [nth].
    rewrite (mult_ext _ _ (fun k => g (nth k (v_e (mkview (g_n_vertices G) (gL G) lmax e U)) 0)) x (fun j => 1 * (fun _ => mean) j + 1 * (fun j => x j - mean) j)).
    + rewrite mult_lin_x. rewrite (mult_eigenspace _ g 0 (fun _ => mean) i HF); [| |cbn [v_N]; lia].
      2:{ cbn [v_N v_L]. rewrite Hn. intros j Hj. rewrite (proj2 (proj2 (proj2 (proj2 (proj2 (full_lap N G (fun _ => mean) j EG Hj)))))). rewrite rsum_const. ring. }
      rewrite (mult_eigenspace _ g (INR N) (fun j => x j - mean) i HF).
      * ring.
      * cbn [v_N v_L]. rewrite Hn. intros j Hj. rewrite (proj2 (proj2 (proj2 (proj2 (proj2 (full_lap N G (fun j => x j - mean) j EG Hj)))))).
        rewrite rsum_minus, rsum_const. assert (SE : (\sum_(j < N) x j) = INR N * mean) by (unfold mean; set (S := \sum_(j < N) x j); field; lra).
        change (rsum N x = INR N * mean) in SE. rewrite SE. ring.
      * cbn [v_N]. lia.
    + intros k Hk. reflexivity.
    + intros j Hj. ring.
Qed.

(** ** The star *)
Lemma star_lap N G : (2 <= N)%nat -> Star N false Combinatorial = Ok G ->
  built G /\ nonneg_weights G /\ connected G /\ g_lap_type G = Combinatorial /\ g_n_vertices G = N /\
  (forall x, mulv N (gL G) x 0%nat = INR N * x 0%nat - \sum_(j < N) x j) /\
  (forall x i, (1 <= i < N)%nat -> mulv N (gL G) x i = x i - x 0%nat).
Proof.
  intros HN EG. destruct (C48_star N Combinatorial ltac:(lia) (or_introl eq_refl)) as (G' & EG' & HU & Hu & HC & _).
  rewrite EG in EG'. injection EG' as <-. pose proof HU as (Hb & Hn & Hw).
  assert (Hp : nonneg_weights G) by (apply (unit_nonneg G N _ HU); intros i j; destruct (Nat.eq_dec i 0), (Nat.eq_dec j 0); (left; lia) || (right; lia)).
  assert (Ht : g_lap_type G = Combinatorial).
  { unfold Star in EG. destruct (Nat.eqb_spec N 0); [lia|]. unfold Comet in EG. destruct (Nat.ltb N (S (N - 1))); [discriminate|]. apply init_laptype in EG. exact EG. }
  repeat (split; [assumption|]). split.
  - intros x. rewrite (lap_unit G N _ x 0 HU Hu Hp Ht ltac:(lia)). rewrite (rsum_ext N _ (fun j => x 0%nat - x j)).
    + rewrite rsum_minus, rsum_const. reflexivity.
    + intros j Hj. destruct (Nat.eq_dec j 0) as [->|Hne]; [ring|]. rewrite (proj1 (Hw 0%nat j ltac:(lia) Hj)) by lia. ring.
  - intros x i Hi. rewrite (lap_unit G N _ x i HU Hu Hp Ht ltac:(lia)). rewrite (rsum_single N _ 0%nat ltac:(lia)).
    + rewrite (proj1 (Hw i 0%nat ltac:(lia) ltac:(lia))) by lia. ring.
    + intros j Hj Hne. rewrite (proj2 (Hw i j ltac:(lia) Hj)) by lia. ring.
Qed.

(** Star(N), vertex 0 being the centre: whatever the eigensolver, the eigenvalues are 0, then 1 (N - 2 times), then N; exact filtering
    by g multiplies the mean of the signal by g(0), the difference between the leaves and their own mean by g(1), and what remains
    (the difference between the centre and the leaves) by g(N). *)
Theorem C94_star :
  forall N G lmax e U, (2 <= N)%nat -> Star N false Combinatorial = Ok G -> spectral (mkview (g_n_vertices G) (gL G) lmax e U) ->
    g_n_vertices G = N /\ nth 0 e 0 = 0 /\ (forall k, (1 <= k < N - 1)%nat -> nth k e 0 = 1) /\ nth (N - 1) e 0 = INR N /\
    forall g x, exists out, gfilter (mkview (g_n_vertices G) (gL G) lmax e U) [pw g] Exact (vec_arr N x) = Ok out /\
      let F := mkview (g_n_vertices G) (gL G) lmax e U in
      let mean := (\sum_(j < N) x j) / INR N in
      let leaves := (\sum_(j < N) (if Nat.eqb j 0 then 0 else x j)) / INR (N - 1) in
      ans F 1 out 0 0%nat = g 0 * mean + g (INR N) * (x 0%nat - mean) /\
      forall i, (1 <= i < N)%nat -> ans F 1 out 0 i = g 0 * mean + g 1 * (x i - leaves) + g (INR N) * (leaves - mean).
Proof.
  intros N G lmax e U HN EG HF. destruct (star_lap N G HN EG) as (Hb & Hp & HC & Ht & Hn & L0 & Li).
  pose proof HF as (Hlen & HU). cbn [v_N v_L v_e v_U] in Hlen, HU. pose proof HU as HUn. rewrite Hn in HUn, Hlen.
  assert (HNR : 1 < INR N) by (apply lt_1_INR; lia).
  assert (E0 : nth 0 e 0 = 0) by (apply (first_eigenvalue_zero G (fun k => nth k e 0) U Hb Hp ltac:(lia) HU)).
  assert (E1 : forall k, (1 <= k < N)%nat -> nth k e 0 = 1 \/ nth k e 0 = INR N).
  { intros k Hk. assert (Nz : nth k e 0 <> 0) by (intros E; apply (zero_simple G _ U k Hb Hp Ht HC HU) in E; lia).
    destruct (Req_dec (nth k e 0) 1) as [Q|Q]; [left; exact Q|right].
    assert (Lx : forall i, (i < N)%nat -> mulv N (gL G) (fun j => U j k) i = nth k e 0 * U i k) by (intros i Hi; apply (eigh_eig N (gL G) _ U HUn i k Hi); lia).
    set (lam := nth k e 0) in *. set (s := \sum_(j < N) U j k) in *.
    assert (A0 : lam * U 0%nat k = INR N * U 0%nat k - s) by (rewrite <- Lx by lia; rewrite L0; reflexivity).
    assert (Ai : forall i, (1 <= i < N)%nat -> (1 - lam) * U i k = U 0%nat k) by (intros i Hi; pose proof (Lx i ltac:(lia)) as E; rewrite Li in E by exact Hi; cbn beta in E; lra).
    assert (S0 : s = 0).
    { assert (T : (1 - lam) * s = (1 - lam) * U 0%nat k + (INR N - 1) * U 0%nat k).
      { unfold s. rewrite <- rsum_scal_l. destruct N as [|M]; [lia|]. rewrite (rsum_S_first M (fun j => (1 - lam) * U j k)).
        rewrite (rsum_ext M _ (fun _ => U 0%nat k)) by (intros i Hi; apply Ai; lia). rewrite rsum_const, S_INR. ring. }
      assert (lam * s = 0) as Z by lra. apply Rmult_integral in Z. tauto. }
    destruct (Req_dec (U 0%nat k) 0) as [Z|Z].
    - exfalso. destruct (column_nonzero N (gL G) _ U k HUn ltac:(lia)) as (i & Hi & Ni). destruct (Nat.eq_dec i 0) as [->|Hne]; [contradiction|].
      pose proof (Ai i ltac:(lia)) as E. rewrite Z in E. apply Rmult_integral in E. destruct E as [E|E]; [lra|contradiction].
    - rewrite S0, Rminus_0_r in A0. apply Rmult_eq_reg_r in A0; assumption. }
  assert (Tr : \sum_(k < N) nth k e 0 = 2 * (INR N - 1)).
  { rewrite (eigh_trace N (gL G) _ U HUn).
    assert (D : forall i, (i < N)%nat -> gL G i i = mulv N (gL G) (fun j => if Nat.eqb j i then 1 else 0) i).
    { intros i Hi. unfold mulv, dot. rewrite (rsum_single N _ i Hi); [rewrite Nat.eqb_refl; ring|]. intros j Hj Hne. destruct (Nat.eqb_spec j i); [contradiction|ring]. }
    destruct N as [|M]; [lia|]. rewrite (rsum_S_first M). rewrite (rsum_ext M _ (fun _ => 1)).
    - rewrite rsum_const. rewrite (D 0%nat) by lia. rewrite L0. rewrite (rsum_single (S M) _ 0%nat ltac:(lia)).
      + cbn [Nat.eqb]. rewrite S_INR. ring.
      + intros j Hj Hne. destruct (Nat.eqb_spec j 0); [contradiction|reflexivity].
    - intros i Hi. rewrite D by lia. rewrite Li by lia. rewrite Nat.eqb_refl. cbn [Nat.eqb]. ring. }
  assert (Last : nth (N - 1) e 0 = INR N).
  { destruct (E1 (N - 1)%nat ltac:(lia)) as [Q|Q]; [exfalso|exact Q].
    assert (B : \sum_(k < N) nth k e 0 <= INR N - 1).
    { destruct N as [|M]; [lia|]. rewrite (rsum_S_first M), E0, Rplus_0_l. replace (INR (S M) - 1) with (\sum_(k < M) 1) by (rewrite rsum_const, S_INR; ring).
      apply rsum_le. intros k Hk. rewrite <- Q. apply (eigh_sort (S M) (gL G) _ U HUn); lia. }
    lra. }
  split; [exact Hn|]. split; [exact E0|]. split.
  { intros k Hk. destruct (E1 k ltac:(lia)) as [Q|Q]; [exact Q|exfalso].
    assert (B : 2 * (INR N - 1) < \sum_(k < N) nth k e 0); [|lra].
    assert (G1 : forall l, (1 <= l < N)%nat -> 1 <= nth l e 0) by (intros l Hl; destruct (E1 l Hl) as [R1|R1]; rewrite R1; lra).
    replace (rsum N (fun k => nth k e 0)) with (rsum (k + (1 + S (N - k - 2))) (fun k => nth k e 0)) by (f_equal; lia).
    rewrite rsum_split, rsum_split. cbn [rsum]. rewrite Nat.add_0_r, Q. replace (k + (1 + (N - k - 2)))%nat with (N - 1)%nat by lia. rewrite Last.
    assert (INR k - 1 <= \sum_(i < k) nth i e 0).
    { destruct k as [|m]; [lia|]. rewrite (rsum_S_first m), E0, Rplus_0_l. replace (INR (S m) - 1) with (\sum_(i < m) 1) by (rewrite rsum_const, S_INR; ring).
      apply rsum_le. intros i Hi. apply G1. lia. }
    assert (H0 : INR (N - k - 2) <= \sum_(i < N - k - 2) nth (k + (1 + i)) e 0).
    { replace (INR (N - k - 2)) with (\sum_(i < N - k - 2) 1) by (rewrite rsum_const; ring). apply rsum_le. intros i Hi. apply G1. lia. }
    rewrite !minus_INR in H0 by lia. cbn [INR] in H0. lra. }
  split; [exact Last|].
  intros g x. destruct (one_signal _ [pw g] Exact _ x HF (response_pw _ [g] HF)) as (out & Eo & _ & Ho). cbn [v_N] in Eo, Ho. rewrite Hn in Eo at 2.
  exists out. split; [exact Eo|]. intros F mean leaves.
  assert (SM : (\sum_(j < N) x j) = INR N * mean) by (unfold mean; set (S := \sum_(j < N) x j); field; lra).
  assert (HN1 : INR (N - 1) = INR N - 1) by (rewrite minus_INR by lia; reflexivity).
  assert (SL : (\sum_(j < N) (if Nat.eqb j 0 then 0 else x j)) = (INR N - 1) * leaves) by (unfold leaves; rewrite HN1; set (S := \sum_(j < N) _); field; lra).
  assert (SS : INR N * mean = x 0%nat + (INR N - 1) * leaves).
  { rewrite <- SM, <- SL. destruct N as [|M]; [lia|]. rewrite (rsum_S_first M (fun j => x j)), (rsum_S_first M (fun j => if Nat.eqb j 0 then 0 else x j)). cbn [Nat.eqb]. ring. }
  set (y := fun j => if Nat.eqb j 0 then 0 else x j - leaves). set (z := fun j => if Nat.eqb j 0 then x 0%nat - mean else leaves - mean).
  assert (Sum0 : (\sum_(j < N) y j) = 0).
  { destruct N as [|M]; [lia|]. rewrite (rsum_S_first M). rewrite (rsum_S_first M) in SL. cbn [Nat.eqb] in SL. unfold y. cbn [Nat.eqb].
    rewrite rsum_minus, rsum_const. change (fun i => x (S i)) with (fun i => x (S i)) in SL. rewrite S_INR in SL. lra. }
  assert (SumZ : (\sum_(j < N) z j) = 0).
  { destruct N as [|M]; [lia|]. rewrite (rsum_S_first M). unfold z. cbn [Nat.eqb]. rewrite rsum_const. rewrite S_INR in SS. lra. }
  assert (Fil : forall i, (i < N)%nat -> ans F 1 out 0 i = g 0 * mean + g 1 * y i + g (INR N) * z i).
  { intros i Hi. unfold F. rewrite Ho by (cbn; lia). cbn [nth].
    rewrite (mult_ext _ _ (fun k => g (nth k (v_e (mkview (g_n_vertices G) (gL G) lmax e U)) 0)) x (fun j => 1 * (fun _ => mean) j + 1 * (fun j => 1 * y j + 1 * z j) j)).
    - rewrite !mult_lin_x.
      rewrite (mult_eigenspace _ g 0 (fun _ => mean) i HF); [| |cbn [v_N]; lia].
      2:{ cbn [v_N v_L]. rewrite Hn. intros j Hj. destruct (Nat.eq_dec j 0) as [->|Hne]; [rewrite L0, rsum_const; ring|rewrite Li by lia; ring]. }
      rewrite (mult_eigenspace _ g 1 y i HF); [| |cbn [v_N]; lia].
      2:{ cbn [v_N v_L]. rewrite Hn. intros j Hj. destruct (Nat.eq_dec j 0) as [->|Hne].
          - rewrite L0. change (rsum N y) with (\sum_(j < N) y j). rewrite Sum0. unfold y. cbn [Nat.eqb]. ring.
          - rewrite Li by lia. unfold y at 2. cbn [Nat.eqb]. ring. }
      rewrite (mult_eigenspace _ g (INR N) z i HF); [| |cbn [v_N]; lia].
      2:{ cbn [v_N v_L]. rewrite Hn. intros j Hj. destruct (Nat.eq_dec j 0) as [->|Hne].
          - rewrite L0. change (rsum N z) with (\sum_(j < N) z j). rewrite SumZ. ring.
          - rewrite Li by lia. unfold z. cbn [Nat.eqb]. destruct (Nat.eqb_spec j 0); [contradiction|]. lra. }
      ring.
    - intros k Hk. reflexivity.
    - intros j Hj. unfold y, z. destruct (Nat.eqb_spec j 0) as [->|]; ring. }
  split.
  - rewrite Fil by lia. unfold y, z. cbn [Nat.eqb]. ring.
  - intros i Hi. rewrite Fil by lia. unfold y, z. destruct (Nat.eqb_spec i 0); [lia|]. ring.
Qed.

(** ** Regular graphs *)
Lemma regular_lap G G' d : built G -> built G' -> g_lap_type G = Combinatorial -> g_lap_type G' = Normalized ->
  nonneg_weights G -> g_n_vertices G' = g_n_vertices G ->
  (forall i j, (i < g_n_vertices G)%nat -> (j < g_n_vertices G)%nat -> wt G' i j = wt G i j) ->
  0 < d -> (forall i, (i < g_n_vertices G)%nat -> dw (gW G) i = d) ->
  forall i j, (i < g_n_vertices G)%nat -> (j < g_n_vertices G)%nat -> gL G' i j = gL G i j / d.
Proof.
  intros Hb Hb' Ht Ht' Hp Hn Hw Hd Hdw i j Hi Hj.
  assert (Hp' : nonneg_weights G') by (intros a b Ha Hb''; rewrite Hn in *; rewrite Hw by assumption; apply Hp; assumption).
  assert (Hdw' : forall a, (a < g_n_vertices G)%nat -> dw (gW G') a = d).
  { intros a Ha. rewrite <- (Hdw a Ha).
    pose proof (proj1 (C08_weighted_degree G a Hb Ha)) as E1. assert (Ha' : (a < g_n_vertices G')%nat) by (rewrite Hn; exact Ha).
    pose proof (proj1 (C08_weighted_degree G' a Hb' Ha')) as E2. rewrite E1, E2, Hn. f_equal. f_equal; apply rsum_ext; intros b Hb''; apply Hw; assumption. }
  destruct (C09_combinatorial_structure G Hb Ht) as (_ & _ & Ho & Hdi).
  destruct (built_good G' Hb') as (Hg' & Hnr' & _). pose proof (nonneg_W G' Hb' Hp') as HpW'.
  rewrite (built_norm G' Hb' Ht'). assert (Hi' : (i < nrow (gW G'))%nat) by lia. assert (Hj' : (j < nrow (gW G'))%nat) by lia.
  rewrite (lap_norm_scaled _ Hg' HpW' i j Hi' Hj').
  assert (EL : lap_comb (gW G') i j = gL G i j).
  { destruct (Nat.eq_dec i j) as [<-|Hne].
    - rewrite (lap_comb_diag _ Hg' i Hi'), Hdw' by exact Hi. rewrite (Hdi i Hi), (Hdw i Hi). rewrite <- (Hw i i Hi Hi). reflexivity.
    - rewrite (lap_comb_entry _ Hg' i j Hi' Hj' Hne). rewrite (Ho i j Hi Hj Hne). pose proof (Hw i j Hi Hj) as E1. pose proof (Hw j i Hj Hi) as E2. unfold wt in *. rewrite E1, E2. field. }
  rewrite EL. unfold dinvsqrt. rewrite !Hdw' by assumption. rewrite (proj2 (Reqb_false _ _)) by lra.
  assert (Hs : 0 < sqrt d) by (apply sqrt_lt_R0; exact Hd). rewrite <- (sqrt_sqrt d) at 3 by lra. field. lra.
Qed.

(** A regular graph (all weighted degrees equal to d > 0) under the two Laplacians: the normalized Laplacian is the combinatorial one
    divided by d, so whatever the eigensolvers the eigenvalues are divided by d, a Fourier basis for one is a Fourier basis for the
    other, and exact filtering with kernel g on the normalized one is exact filtering with g(t / d) on the combinatorial one. *)
Theorem C94_regular_graph :
  forall G G' d lmax e U lmax' e' U', built G -> built G' -> g_lap_type G = Combinatorial -> g_lap_type G' = Normalized ->
    nonneg_weights G -> g_n_vertices G' = g_n_vertices G ->
    (forall i j, (i < g_n_vertices G)%nat -> (j < g_n_vertices G)%nat -> wt G' i j = wt G i j) ->
    0 < d -> (forall i, (i < g_n_vertices G)%nat -> dw (gW G) i = d) ->
    let F := mkview (g_n_vertices G) (gL G) lmax e U in let F' := mkview (g_n_vertices G') (gL G') lmax' e' U' in
    spectral F -> spectral F' ->
    (forall i j, (i < g_n_vertices G)%nat -> (j < g_n_vertices G)%nat -> gL G' i j = gL G i j / d) /\
    (forall k, (k < g_n_vertices G)%nat -> nth k e' 0 = nth k e 0 / d) /\
    spectral (mkview (g_n_vertices G') (gL G') lmax' (map (fun t => t / d) e) U) /\
    forall g x, exists out out', gfilter F [pw (fun t => g (t / d))] Exact (vec_arr (g_n_vertices G) x) = Ok out /\
      gfilter F' [pw g] Exact (vec_arr (g_n_vertices G) x) = Ok out' /\
      forall i, (i < g_n_vertices G)%nat -> ans F' 1 out' 0 i = ans F 1 out 0 i.
Proof.
  intros G G' d lmax e U lmax' e' U' Hb Hb' Ht Ht' Hp Hn Hw Hd Hdw F F' HF HF'.
  pose proof (regular_lap G G' d Hb Hb' Ht Ht' Hp Hn Hw Hd Hdw) as HL. set (n := g_n_vertices G) in *.
  pose proof HF as (Hlen & HU). pose proof HF' as (Hlen' & HU'). unfold F in Hlen, HU. unfold F' in Hlen', HU'. cbn [v_N v_L v_e v_U] in Hlen, HU, Hlen', HU'. fold n in Hlen, HU.
  rewrite Hn in Hlen', HU'.
  assert (HV : eigh_ok n (gL G') (fun k => nth k (map (fun t => t / d) e) 0) U).
  { split; [exact (eigh_cols _ _ _ _ HU)|exact (eigh_rows _ _ _ _ HU)| |].
    - intros i k Hi Hk. rewrite (nth_indep _ 0 (0 / d)) by (rewrite map_length; lia). rewrite (map_nth (fun t => t / d)).
      pose proof (eigh_eig _ _ _ _ HU i k Hi Hk) as E. cbn beta in E.
      replace (nth k e 0 / d * U i k) with (nth k e 0 * U i k / d) by (field; lra). rewrite <- E.
      unfold mulv, dot. unfold Rdiv. rewrite <- rsum_scal_r. apply rsum_ext. intros j Hj. rewrite (HL i j Hi Hj). field. lra.
    - intros k l Hkl Hl. rewrite !(nth_indep _ 0 (0 / d)) by (rewrite map_length; lia). rewrite !(map_nth (fun t => t / d)).
      apply Rmult_le_compat_r; [left; apply Rinv_0_lt_compat; exact Hd|]. apply (eigh_sort _ _ _ _ HU); assumption. }
  assert (He : forall k, (k < n)%nat -> nth k e' 0 = nth k e 0 / d).
  { intros k Hk. pose proof (eigh_unique n (gL G') _ U' _ U k HU' HV Hk) as E. cbn beta in E. rewrite E.
    rewrite (nth_indep _ 0 (0 / d)) by (rewrite map_length; lia). rewrite (map_nth (fun t => t / d)). reflexivity. }
  split; [exact HL|]. split; [exact He|]. split.
  { split; cbn [v_N v_L v_e v_U]; [rewrite map_length; lia|rewrite Hn; exact HV]. }
  intros g x. destruct (one_signal F [pw (fun t => g (t / d))] Exact _ x HF (response_pw F [fun t => g (t / d)] HF)) as (out & Eo & _ & Ho).
  destruct (one_signal F' [pw g] Exact _ x HF' (response_pw F' [g] HF')) as (out' & Eo' & _ & Ho').
  exists out, out'. split; [exact Eo|]. split; [unfold F' in Eo' at 2; cbn [v_N] in Eo'; rewrite Hn in Eo' at 1; exact Eo'|].
  intros i Hi. specialize (Ho 0%nat i). specialize (Ho' 0%nat i). cbn [List.length nth] in Ho, Ho'. unfold F' in Ho' at 1. cbn [v_N] in Ho'. rewrite Hn in Ho'.
  rewrite Ho, Ho' by (unfold F; cbn [v_N]; fold n; lia || lia).
  unfold mult, fhat. unfold F, F'. cbn [v_N v_e v_U]. rewrite Hn. fold n.
  assert (HU'' : eigh_ok n (gL G') (fun k => nth k e 0 / d) U).
  { apply (eigh_ok_ext n (gL G') _ U (fun k => nth k (map (fun t => t / d) e) 0) U); [|reflexivity|exact HV].
    intros k Hk. rewrite (nth_indep (map _ e) 0 (0 / d)) by (rewrite map_length; lia). rewrite (map_nth (fun t => t / d)). reflexivity. }
  assert (HU3 : eigh_ok n (gL G') (fun k => nth k e 0 / d) U').
  { apply (eigh_ok_ext n (gL G') _ U' (fun k => nth k e' 0) U'); [|reflexivity|exact HU']. intros k Hk. symmetry. apply He. exact Hk. }
  rewrite (rsum_ext n (fun k => U' i k * (g (nth k e' 0) * _)) (fun k => U' i k * (g (nth k e 0 / d) * (\sum_(j < n) (U' j k * x j))))) by (intros k Hk; rewrite (He k Hk); reflexivity).
  apply (eigh_function n (gL G') (fun k => nth k e 0 / d) U' U (fun k => g (nth k e 0 / d)) HU3 HU''); [|exact Hi].
  intros k l Hk Hl E. cbn beta in E. rewrite E. reflexivity.
Qed.

Lemma undirected_degree G i : built G -> undirected G -> (i < g_n_vertices G)%nat -> dw (gW G) i = \sum_(j < g_n_vertices G) wt G i j.
Proof.
  intros Hb Hu Hi. rewrite (proj1 (C08_weighted_degree G i Hb Hi)).
  rewrite (rsum_ext _ (fun j => wt G j i) (fun j => wt G i j)) by (intros j Hj; apply Hu; assumption). field.
Qed.
Lemma ring_degree N k lap G i : (3 <= N)%nat -> (2 * k < N)%nat -> valid_lap lap -> Ring N k lap = Ok G -> (i < N)%nat -> dw (gW G) i = 2 * INR k.
Proof.
  intros HN Hk Hl EG Hi. destruct (C45_ring N k lap HN Hk Hl) as (G' & EG' & (Hb & Hn & Hw) & Hu & _).
  rewrite EG in EG'. assert (G' = G) by congruence. subst G'. rewrite (undirected_degree G i Hb Hu) by lia. rewrite Hn.
  transitivity (\sum_(d < k) (1 + 1)).
  - rewrite <- (circ_sum N k i (fun _ => 1) HN Hk Hi). apply rsum_ext. intros j Hj.
    destruct (Nat.leb_spec 1 (circ N i j)) as [H1|H1]; [destruct (Nat.leb_spec (circ N i j) k) as [H2|H2]|]; cbn [andb].
    + apply (Hw i j Hi Hj). lia.
    + apply (Hw i j Hi Hj). lia.
    + apply (Hw i j Hi Hj). lia.
  - rewrite rsum_const. ring.
Qed.
Lemma full_degree N lap G i : valid_lap lap -> FullConnected N lap = Ok G -> (i < N)%nat -> dw (gW G) i = INR N - 1.
Proof.
  intros Hl EG Hi. destruct (C48_full N lap Hl) as (G' & EG' & (Hb & Hn & Hw) & Hu & _).
  rewrite EG in EG'. assert (G' = G) by congruence. subst G'. rewrite (undirected_degree G i Hb Hu) by lia. rewrite Hn.
  rewrite (rsum_ext N _ (fun j => 1 - (if Nat.eqb j i then 1 else 0))).
  - rewrite rsum_minus, rsum_const. rewrite (rsum_single N _ i Hi); [rewrite Nat.eqb_refl; ring|]. intros j Hj Hne. destruct (Nat.eqb_spec j i); [contradiction|reflexivity].
  - intros j Hj. destruct (Nat.eqb_spec j i) as [->|Hne].
    + rewrite (proj2 (Hw i i Hi Hi)) by tauto. ring.
    + rewrite (proj1 (Hw i j Hi Hj)) by lia. ring.
Qed.
Lemma ring_laptype N k lap G : Ring N k lap = Ok G -> g_lap_type G = lap.
Proof. unfold Ring. intros EG. destruct (Nat.ltb N 3); [discriminate|]. destruct (Nat.ltb N (2 * k)); [discriminate|]. apply init_laptype in EG. exact EG. Qed.
Lemma unit_same G G' N E : unit_graph G N E -> unit_graph G' N E -> (forall i j, {E i j} + {~ E i j}) ->
  forall i j, (i < N)%nat -> (j < N)%nat -> wt G' i j = wt G i j.
Proof.
  intros (_ & _ & Hw) (_ & _ & Hw') dec i j Hi Hj. destruct (Hw i j Hi Hj) as (A & B). destruct (Hw' i j Hi Hj) as (A' & B').
  destruct (dec i j) as [H|H]; [rewrite A, A' by exact H|rewrite B, B' by exact H]; reflexivity.
Qed.

(** With the normalized Laplacian, whatever the eigensolver: the eigenvalues of FullConnected(N) are 0 and then N / (N - 1); those of
    Ring(N) are 1 - cos (2 pi m / N) for m = 0, 1, 1, 2, 2, ...; those of Ring(N, k) are the numbers
    (1 / 2k) sum_d (2 - 2 cos (2 pi m d / N)), sorted. *)
Theorem C94_normalized_full_graph :
  forall N G lmax e U, (2 <= N)%nat -> FullConnected N Normalized = Ok G -> spectral (mkview (g_n_vertices G) (gL G) lmax e U) ->
    nth 0 e 0 = 0 /\ forall k, (1 <= k < N)%nat -> nth k e 0 = INR N / (INR N - 1).
Proof.
  intros N G' lmax' e' U' HN EG' HF'.
  destruct (C48_full N Normalized (or_intror eq_refl)) as (G1 & E1 & HU' & Hu' & _ & Hp' & _). rewrite EG' in E1. assert (G1 = G') by congruence. subst G1. clear E1.
  destruct (C48_full N Combinatorial (or_introl eq_refl)) as (G & EG & HU & Hu & _ & Hp & _). pose proof HU as (Hb & Hn & _). pose proof HU' as (Hb' & Hn' & _).
  destruct (eigh_list _ _ (built_symmetric G Hb)) as (e & U & Hl & HE).
  assert (HF : spectral (mkview (g_n_vertices G) (gL G) 0 e U)) by (split; assumption).
  destruct (C94_full_graph N G 0 e U ltac:(lia) EG HF) as (_ & Z0 & Zk & _).
  assert (HNR : 1 < INR N) by (apply lt_1_INR; lia).
  destruct (C94_regular_graph G G' (INR N - 1) 0 e U lmax' e' U' Hb Hb') as (_ & He & _).
  - unfold FullConnected in EG. apply init_laptype in EG. exact EG.
  - unfold FullConnected in EG'. apply init_laptype in EG'. exact EG'.
  - exact Hp.
  - lia.
  - rewrite Hn. apply (unit_same G G' N _ HU HU'). intros i j. destruct (Nat.eq_dec i j); [right; tauto|left; assumption].
  - lra.
  - rewrite Hn. intros i Hi. apply (full_degree N Combinatorial G i (or_introl eq_refl) EG Hi).
  - exact HF.
  - exact HF'.
  - rewrite Hn in He. split; [rewrite He by lia; rewrite Z0; field; lra|]. intros k Hk. rewrite He by lia. rewrite Zk by lia. reflexivity.
Qed.
Theorem C94_normalized_ring :
  forall N k G lmax e U, (3 <= N)%nat -> (1 <= k)%nat -> (2 * k < N)%nat -> Ring N k Normalized = Ok G -> spectral (mkview (g_n_vertices G) (gL G) lmax e U) ->
    (forall j, (j < N)%nat -> nth j e 0 = nth j (rsort (map (fun j => ring_freq N k (Nat.div2 (S j))) (seq 0 N))) 0 / (2 * INR k)) /\
    (k = 1%nat -> forall j, (j < N)%nat -> nth j e 0 = 1 - cos (2 * PI * INR (Nat.div2 (S j)) / INR N)).
Proof.
  intros N k G' lmax' e' U' HN Hk1 Hk EG' HF'.
  destruct (C45_ring N k Normalized HN Hk (or_intror eq_refl)) as (G1 & E1 & HU' & Hu' & _ & Hp' & _). rewrite EG' in E1. assert (G1 = G') by congruence. subst G1. clear E1.
  destruct (C45_ring N k Combinatorial HN Hk (or_introl eq_refl)) as (G & EG & HU & Hu & _ & Hp & _). pose proof HU as (Hb & Hn & _). pose proof HU' as (Hb' & Hn' & _).
  destruct (eigh_list _ _ (built_symmetric G Hb)) as (e & U & Hl & HE).
  assert (HF : spectral (mkview (g_n_vertices G) (gL G) 0 e U)) by (split; assumption).
  assert (HkR : 1 <= INR k) by (apply (le_INR 1); exact Hk1).
  destruct (C94_regular_graph G G' (2 * INR k) 0 e U lmax' e' U' Hb Hb') as (_ & He & _).
  - apply (ring_laptype N k). exact EG.
  - apply (ring_laptype N k). exact EG'.
  - exact Hp.
  - lia.
  - rewrite Hn. apply (unit_same G G' N _ HU HU'). intros i j. destruct (le_dec 1 (circ N i j)), (le_dec (circ N i j) k); (left; lia) || (right; lia).
  - lra.
  - rewrite Hn. intros i Hi. apply (ring_degree N k Combinatorial G i HN Hk (or_introl eq_refl) EG Hi).
  - exact HF.
  - exact HF'.
  - rewrite Hn in He. destruct (C83_ring_laplacian_is_diagonalized_by_the_dft N k G HN Hk EG) as (_ & _ & Es). specialize (Es 0 e U HF). split.
    + intros j Hj. rewrite He by exact Hj. rewrite Es at 1. reflexivity.
    + intros -> j Hj. rewrite He by exact Hj. destruct (C83_ring_gft_is_the_dft N G 0 e U HN EG HF) as (Er & _). rewrite Er by exact Hj. cbn [INR]. field.
Qed.

(** ** Bipartite graphs *)
(** The spectrum of the normalized Laplacian of a bipartite graph without isolated vertices is symmetric about 1, and switching the
    sign of an eigenvector on one of the sides gives an eigenvector for 2 - lambda. *)
Theorem C94_bipartite_spectrum :
  forall G side lmax e U, built G -> nonneg_weights G -> g_lap_type G = Normalized -> two_sided G side ->
    (forall i, (i < g_n_vertices G)%nat -> dw (gW G) i <> 0) -> spectral (mkview (g_n_vertices G) (gL G) lmax e U) ->
    let n := g_n_vertices G in
    (forall k, (k < n)%nat -> nth (n - 1 - k) e 0 = 2 - nth k e 0) /\
    forall lam x, (forall i, (i < n)%nat -> mulv n (gL G) x i = lam * x i) ->
      forall i, (i < n)%nat -> mulv n (gL G) (fun j => if side j then x j else - x j) i = (2 - lam) * (if side i then x i else - x i).
Proof.
  intros G side lmax e U Hb Hp Ht Hs Hd (Hlen & HU) n. cbn [v_N v_L v_e v_U] in Hlen, HU. fold n in Hlen, HU, Hd.
  destruct (C11_normalized_entries G Hb Ht Hp) as (_ & Hdi & Ho & _). fold n in Hdi, Ho. set (s := fun i => if side i then 1 else -1).
  assert (Hw0 : forall i j, (i < n)%nat -> (j < n)%nat -> side i = side j -> wt G i j = 0).
  { intros i j Hi Hj E. destruct (Req_dec (wt G i j) 0) as [Z|Z]; [exact Z|]. exfalso. apply (Hs i j); [repeat split; assumption|exact E]. }
  assert (HL : forall i j, (i < n)%nat -> (j < n)%nat -> s i * gL G i j * s j = (if Nat.eqb j i then 2 else 0) - gL G i j).
  { intros i j Hi Hj. destruct (Nat.eqb_spec j i) as [->|Hne].
    - rewrite (Hdi i Hi (Hd i Hi)). rewrite (Hw0 i i Hi Hi eq_refl). unfold s. destruct (side i); field; apply Hd; exact Hi.
    - destruct (bool_dec (side i) (side j)) as [E|E].
      + rewrite (Ho i j Hi Hj ltac:(lia) (Hd i Hi) (Hd j Hj)). rewrite (Hw0 i j Hi Hj E), (Hw0 j i Hj Hi (eq_sym E)). unfold Rdiv. ring.
      + unfold s. destruct (side i), (side j); try (exfalso; apply E; reflexivity); ring. }
  assert (Hm : forall x lam, (forall i, (i < n)%nat -> mulv n (gL G) x i = lam * x i) -> forall i, (i < n)%nat -> mulv n (gL G) (fun j => s j * x j) i = (2 - lam) * (s i * x i)).
  { intros x lam Hx i Hi. assert (Es : s i * s i = 1) by (unfold s; destruct (side i); ring).
    assert (E : s i * mulv n (gL G) (fun j => s j * x j) i = 2 * x i - lam * x i).
    { rewrite <- (Hx i Hi). unfold mulv, dot. rewrite <- rsum_scal_l.
      rewrite (rsum_ext n _ (fun j => (if Nat.eqb j i then 2 else 0) * x j - gL G i j * x j)).
      - rewrite rsum_minus. f_equal. rewrite (rsum_single n _ i Hi); [rewrite Nat.eqb_refl; reflexivity|]. intros j Hj Hne. destruct (Nat.eqb_spec j i); [contradiction|ring].
      - intros j Hj. rewrite <- Rmult_minus_distr_r, <- (HL i j Hi Hj). ring. }
    replace (mulv n (gL G) (fun j => s j * x j) i) with (s i * s i * mulv n (gL G) (fun j => s j * x j) i) by (rewrite Es; ring).
    rewrite Rmult_assoc, E. ring. }
  split.
  - assert (HV : eigh_ok n (gL G) (fun k => 2 - nth (n - 1 - k) e 0) (fun i k => s i * U i (n - 1 - k)%nat)).
    { assert (Hc : orthonormal_cols n n (fun i k => s i * U i (n - 1 - k)%nat)).
      { intros k l Hk Hl. rewrite (rsum_ext n _ (fun i => U i (n - 1 - k)%nat * U i (n - 1 - l)%nat)).
        - rewrite (eigh_cols _ _ _ _ HU (n - 1 - k)%nat (n - 1 - l)%nat ltac:(lia) ltac:(lia)). destruct (Nat.eqb_spec k l), (Nat.eqb_spec (n - 1 - k) (n - 1 - l)); try lia; reflexivity.
        - intros i Hi. unfold s. destruct (side i); ring. }
      split; [exact Hc|apply cols_rows; exact Hc| |].
      - intros i k Hi Hk. apply (Hm (fun j => U j (n - 1 - k)%nat)); [|exact Hi]. intros j Hj. apply (eigh_eig _ _ _ _ HU); lia.
      - intros k l Hkl Hl. pose proof (eigh_sort _ _ _ _ HU (n - 1 - l)%nat (n - 1 - k)%nat ltac:(lia) ltac:(lia)) as Q. cbn beta in Q. lra. }
    intros k Hk. pose proof (eigh_unique n (gL G) _ U _ _ (n - 1 - k)%nat HU HV ltac:(lia)) as E. cbn beta in E. rewrite E.
    replace (n - 1 - (n - 1 - k))%nat with k by lia. reflexivity.
  - intros lam x Hx i Hi. pose proof (Hm x lam Hx i Hi) as E.
    rewrite (mulv_ext n (gL G) (gL G) _ (fun j => s j * x j) i); [rewrite E; unfold s; destruct (side i); ring|reflexivity|].
    intros j Hj. unfold s. destruct (side j); ring.
Qed.

(** ** The hypotheses can be met *)
(** The constructors succeed, an exact eigendecomposition exists for each graph, rings are regular, and the star is bipartite without
    isolated vertices. *)
Example C94_ex : forall N, (3 <= N)%nat -> exists F St R R' S' eF UF eS US eR UR eR' UR' eS' US',
  FullConnected N Combinatorial = Ok F /\ Star N false Combinatorial = Ok St /\ Ring N 1 Combinatorial = Ok R /\ Ring N 1 Normalized = Ok R' /\ Star N false Normalized = Ok S' /\
  spectral (mkview (g_n_vertices F) (gL F) 0 eF UF) /\ spectral (mkview (g_n_vertices St) (gL St) 0 eS US) /\
  spectral (mkview (g_n_vertices R) (gL R) 0 eR UR) /\ spectral (mkview (g_n_vertices R') (gL R') 0 eR' UR') /\ spectral (mkview (g_n_vertices S') (gL S') 0 eS' US') /\
  (forall i, (i < g_n_vertices R)%nat -> dw (gW R) i = 2) /\
  nonneg_weights S' /\ two_sided S' (fun i => Nat.eqb i 0) /\ (forall i, (i < g_n_vertices S')%nat -> dw (gW S') i <> 0).
Proof.
  intros N HN.
  destruct (C48_full N Combinatorial (or_introl eq_refl)) as (F & EF & (HbF & _) & _).
  destruct (C48_star N Combinatorial ltac:(lia) (or_introl eq_refl)) as (St & ES & (HbS & _) & _).
  destruct (C45_ring N 1 Combinatorial HN ltac:(lia) (or_introl eq_refl)) as (R & ER & (HbR & HnR & _) & _).
  destruct (C45_ring N 1 Normalized HN ltac:(lia) (or_intror eq_refl)) as (R' & ER' & (HbR' & _) & _).
  destruct (C48_star N Normalized ltac:(lia) (or_intror eq_refl)) as (S' & ES' & HUS & HuS & _). pose proof HUS as (HbS' & HnS & HwS).
  destruct (eigh_list _ _ (built_symmetric F HbF)) as (eF & UF & F1 & F2). destruct (eigh_list _ _ (built_symmetric St HbS)) as (eS & US & S1 & S2).
  destruct (eigh_list _ _ (built_symmetric R HbR)) as (eR & UR & R1 & R2). destruct (eigh_list _ _ (built_symmetric R' HbR')) as (eR' & UR' & R1' & R2').
  destruct (eigh_list _ _ (built_symmetric S' HbS')) as (eS' & US' & S1' & S2').
  exists F, St, R, R', S', eF, UF, eS, US, eR, UR, eR', UR', eS', US'. repeat (split; [assumption|]).
  do 5 (split; [split; assumption|]).
  split. { rewrite HnR. intros i Hi. rewrite (ring_degree N 1 Combinatorial R i HN ltac:(lia) (or_introl eq_refl) ER Hi). cbn [INR]. ring. }
  assert (dec : forall i j : nat, {(i = 0 /\ j <> 0 \/ j = 0 /\ i <> 0)%nat} + {~ (i = 0 /\ j <> 0 \/ j = 0 /\ i <> 0)%nat}).
  { intros i j; destruct (Nat.eq_dec i 0), (Nat.eq_dec j 0); (left; lia) || (right; lia). }
  split; [apply (unit_nonneg S' N _ HUS dec)|]. split.
  - intros u v (Hu & Hv & Hw). rewrite HnS in Hu, Hv. destruct (dec u v) as [D|D]; [|exfalso; apply Hw, (HwS u v Hu Hv), D].
    destruct (Nat.eqb_spec u 0), (Nat.eqb_spec v 0); lia || discriminate.
  - rewrite HnS. intros i Hi. rewrite (undirected_degree S' i HbS' HuS) by lia. rewrite HnS. apply Rgt_not_eq.
    set (j := if Nat.eqb i 0 then 1%nat else 0%nat). assert (Hj : (j < N)%nat) by (unfold j; destruct (Nat.eqb i 0); lia).
    apply Rlt_le_trans with (wt S' i j).
    + rewrite (proj1 (HwS i j Hi Hj)); [lra|]. unfold j. destruct (Nat.eqb_spec i 0); lia.
    + apply (rsum_ge_term N (fun j => wt S' i j)); [|exact Hj]. intros l Hl. apply (unit_nonneg S' N _ HUS dec); lia.
Qed.
(** Concretely, any eigensolver returns 0, 1, 1, 4 for the star of 4 vertices and 0, 4, 4, 4 for the full graph. *)
Example C94_four : exists S F eS US eF UF, Star 4 false Combinatorial = Ok S /\ FullConnected 4 Combinatorial = Ok F /\
  spectral (mkview (g_n_vertices S) (gL S) 0 eS US) /\ spectral (mkview (g_n_vertices F) (gL F) 0 eF UF) /\
  (forall k, (k < 4)%nat -> nth k eS 0 = nth k [0; 1; 1; 4] 0) /\ (forall k, (k < 4)%nat -> nth k eF 0 = nth k [0; 4; 4; 4] 0).
Proof.
  destruct (C94_ex 4 ltac:(lia)) as (F & St & _ & _ & _ & eF & UF & eS & US & _ & _ & _ & _ & _ & _ & EF & ES & _ & _ & _ & HF & HS & _).
  exists St, F, eS, US, eF, UF. repeat (split; [assumption|]).
  destruct (C94_star 4 St 0 eS US ltac:(lia) ES HS) as (_ & A0 & A1 & A3 & _). destruct (C94_full_graph 4 F 0 eF UF ltac:(lia) EF HF) as (_ & B0 & B1 & _). split.
  - intros [|[|[|[|k]]]] Hk; cbn [nth]; [exact A0|apply A1; lia|apply A1; lia| |lia]. cbn [Nat.sub] in A3. rewrite A3. cbn; ring.
  - intros [|[|[|[|k]]]] Hk; cbn [nth]; [exact B0| | | |lia]; rewrite B1 by lia; cbn; ring.
Qed.
