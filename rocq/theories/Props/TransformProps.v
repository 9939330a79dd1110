(** Property C83: the graph Fourier transforms of the regular graphs are the classical ones, as their docstrings say
    (path.py:13-15 DCT-II, ring.py:13-16 DFT, grid2d.py:12-13 and torus.py:9-10 Kronecker products). *)
From Coq Require Import Reals Lra Lia Arith Bool String ZArith Sorted Permutation List.
From Verif.Base Require Import RSum Prelude LinAlg Solve Spectral.
From Verif.Spec Require Import Matrix GraphSpec NdArray FilterSpec Card Reach LapSpec GenSpec.
From Verif.Model Require Import Sparse Graph Traverse Cache Filter Utils Generators Ring.
From Verif.Proofs Require Import SparseFacts InitFacts EdgeFacts LapFacts MaxPrinciple SpectralFacts SpectrumFacts FilterFacts ChebFacts GenFacts.
From Verif.Props Require Import Core Laplacian Traversal Filtering UtilsProps GenProps GridProps RingProps SpectrumProps.
Import ListNotations.
Open Scope R_scope.

(** ** Eigenbases in any order *)

(** n orthonormal eigenvectors of A (columns of U) with eigenvalues v, in any order. *)
Definition eigenbasis (n : nat) (A : mat) (v : vec) (U : mat) : Prop :=
  orthonormal_cols n n U /\ forall i k, (i < n)%nat -> (k < n)%nat -> mulv n A (fun j => U j k) i = v k * U i k.

Lemma eigh_eigenbasis n A e U : eigh_ok n A e U -> eigenbasis n A e U.
Proof. intros [H1 H2 H3 H4]. split; assumption. Qed.

Lemma eigenbasis_sort n A v U : eigenbasis n A v U ->
  exists f, (forall k, (k < n)%nat -> (f k < n)%nat) /\ (forall k l, (k < n)%nat -> (l < n)%nat -> f k = f l -> k = l) /\
    (forall k, (k < n)%nat -> nth k (rsort (map v (seq 0 n))) 0 = v (f k)) /\
    eigh_ok n A (fun k => nth k (rsort (map v (seq 0 n))) 0) (fun i k => U i (f k)).
Proof.
  intros (Hc & He). set (l := map v (seq 0 n)). assert (Hl : List.length l = n) by (unfold l; rewrite map_length, seq_length; reflexivity).
  assert (HP : Permutation l (rsort l)) by (symmetry; apply rsort_perm).
  destruct (proj1 (Permutation_nth l (rsort l) 0) HP) as (Hlen & f & Hf & Hinj & Hnth). rewrite Hl in *.
  assert (E : forall k, (k < n)%nat -> nth k (rsort l) 0 = v (f k)).
  { intros k Hk. rewrite (Hnth k Hk). apply nth_map_seq. apply Hf. exact Hk. }
  exists f. split; [exact Hf|]. split; [intros k k' Hk Hk' Ek; apply (Hinj k k' Hk Hk' Ek)|]. split; [exact E|].
  assert (Hc' : orthonormal_cols n n (fun i k => U i (f k))).
  { intros k k' Hk Hk'. rewrite (Hc (f k) (f k') (Hf k Hk) (Hf k' Hk')). destruct (Nat.eqb_spec (f k) (f k')) as [Ek|Nk]; destruct (Nat.eqb_spec k k') as [Ek'|Nk']; try reflexivity.
    - exfalso. apply Nk'. apply (Hinj k k' Hk Hk' Ek).
    - exfalso. apply Nk. rewrite Ek'. reflexivity. }
  split; [exact Hc'|apply cols_rows; exact Hc'| |].
  - intros i k Hi Hk. rewrite (E k Hk). apply He; [exact Hi|apply Hf; exact Hk].
  - intros k k' Hkk Hk'. apply sorted_nth; [apply rsort_sorted|exact Hkk|]. rewrite Hlen. exact Hk'.
Qed.

(** The sorted eigenvalues of any eigensolver are the sorted list of the eigenvalues of any eigenbasis. *)
Lemma eigenbasis_values n A v U e W : eigenbasis n A v U -> eigh_ok n A e W -> forall k, (k < n)%nat -> e k = nth k (rsort (map v (seq 0 n))) 0.
Proof. intros HU HW k Hk. destruct (eigenbasis_sort n A v U HU) as (f & _ & _ & _ & H). apply (eigh_unique n A e W _ _ k HW H Hk). Qed.

(** An eigenvector of a simple eigenvalue is determined up to its sign. *)
Lemma simple_column n A e U W k : eigh_ok n A e U -> eigh_ok n A e W -> (k < n)%nat ->
  (forall l, (l < n)%nat -> l <> k -> e l <> e k) ->
  exists s, (s = 1 \/ s = -1) /\ forall i, (i < n)%nat -> U i k = s * W i k.
Proof.
  intros HU HW Hk Hs.
  assert (Hz : forall l, (l < n)%nat -> l <> k -> coef n W (fun i => U i k) l = 0).
  { intros l Hl Hne. pose proof (coef_mulv n A e W HW (fun i => U i k) l Hl) as E.
    assert (E2 : coef n W (mulv n A (fun i => U i k)) l = e k * coef n W (fun i => U i k) l).
    { unfold coef. rewrite <- rsum_scal_l. apply rsum_ext. intros i Hi. rewrite (eigh_eig n A e U HU i k Hi Hk). ring. }
    rewrite E2 in E. specialize (Hs l Hl Hne). assert ((e k - e l) * coef n W (fun i => U i k) l = 0) as Z by lra.
    apply Rmult_integral in Z. destruct Z as [Z|Z]; [lra|exact Z]. }
  assert (Hone : coef n W (fun i => U i k) k * coef n W (fun i => U i k) k = 1).
  { pose proof (coef_normsq n A e W HW (fun i => U i k)) as E. unfold normsq, dot in E.
    rewrite (rsum_single n (fun i => coef n W (fun j => U j k) i * coef n W (fun j => U j k) i) k Hk) in E.
    - rewrite E. pose proof (eigh_cols n A e U HU k k Hk Hk) as E1. rewrite Nat.eqb_refl in E1. exact E1.
    - intros l Hl Hne. rewrite (Hz l Hl Hne). ring. }
  set (s := coef n W (fun i => U i k) k) in *. exists s. split.
  - assert ((s - 1) * (s + 1) = 0) as Z by lra. apply Rmult_integral in Z. destruct Z; [left|right]; lra.
  - intros i Hi. rewrite <- (eigh_expand n A e W HW (fun i => U i k) i Hi). rewrite (rsum_single n _ k Hk).
    + unfold s. ring.
    + intros l Hl Hne. rewrite (Hz l Hl Hne). ring.
Qed.

(** ** The Laplacian of an undirected graph applied to a signal *)
Lemma lap_unit G n E x i : unit_graph G n E -> undirected G -> nonneg_weights G -> g_lap_type G = Combinatorial -> (i < n)%nat ->
  mulv n (gL G) x i = \sum_(j < n) (wt G i j * (x i - x j)).
Proof.
  intros (Hb & Hn & _) Hu Hp Ht Hi. pose proof (graph_is_laplacian G Hb Hp Ht) as HL. rewrite Hn in HL.
  rewrite (lap_apply n (gL G) x i HL Hi). apply rsum_ext. intros j Hj.
  destruct (Nat.eq_dec i j) as [<-|Hne]; [ring|].
  destruct (C09_combinatorial_structure G Hb Ht) as (_ & _ & Ho & _). rewrite Hn in Ho. rewrite Ho by assumption.
  rewrite (Hu j i) by (rewrite Hn; assumption). field.
Qed.

Lemma init_laptype inp lap coords G : graph_init inp lap coords = Ok G -> g_lap_type G = lap.
Proof.
  unfold graph_init. repeat match goal with |- context [if ?b then _ else _] => destruct b end; try discriminate.
  match goal with |- context [laplacian ?W lap] => destruct (laplacian W lap) end; cbn; [|discriminate]. intros H. injection H as <-. reflexivity.
Qed.

(** ** Path: the type-II discrete cosine transform *)

(** Entry i of the k-th vector of the orthonormal DCT-II, and its frequency. *)
Definition dct2 (N : nat) (i k : nat) : R :=
  (if Nat.eqb k 0 then sqrt (1 / INR N) else sqrt (2 / INR N)) * cos (PI * INR k * (INR i + /2) / INR N).
Definition path_freq (N k : nat) : R := 2 - 2 * cos (PI * INR k / INR N).

Lemma dct2_orthonormal N : orthonormal_cols N N (dct2 N).
Proof.
  intros k l Hk Hl. assert (HN : 0 < INR N) by (apply lt_0_INR; lia). unfold dct2.
  set (a := fun k => if Nat.eqb k 0 then sqrt (1 / INR N) else sqrt (2 / INR N)).
  rewrite (rsum_ext N _ (fun i => a k * a l * (cos (PI * INR k * (INR i + /2) / INR N) * cos (PI * INR l * (INR i + /2) / INR N)))) by (intros; unfold a; ring).
  rewrite rsum_scal_l, (cos_orth N k l Hk Hl). destruct (Nat.eqb_spec k l) as [<-|Hne]; [|ring].
  assert (0 < 1 / INR N) by (apply Rdiv_lt_0_compat; lra). assert (0 < 2 / INR N) by (apply Rdiv_lt_0_compat; lra).
  unfold a. destruct (Nat.eqb_spec k 0); rewrite sqrt_sqrt by lra; field; lra.
Qed.

(** Sum over the neighbours on a path. *)
Lemma path_sum N i f : (i < N)%nat ->
  \sum_(j < N) (if (Nat.eqb j (S i) || Nat.eqb i (S j))%bool then f j else 0) =
  (if Nat.eqb i 0 then 0 else f (i - 1)%nat) + (if Nat.eqb (S i) N then 0 else f (S i)).
Proof.
  intros Hi.
  rewrite (rsum_ext N _ (fun j => (if Nat.eqb i (S j) then f j else 0) + (if Nat.eqb j (S i) then f j else 0))).
  2:{ intros j Hj. destruct (Nat.eqb_spec j (S i)); destruct (Nat.eqb_spec i (S j)); cbn; try lia; ring. }
  rewrite rsum_plus. f_equal.
  - destruct (Nat.eqb_spec i 0) as [->|Hne].
    + apply rsum_0. intros j Hj. reflexivity.
    + rewrite (rsum_single N _ (i - 1)%nat); [|lia|].
      * destruct (Nat.eqb_spec i (S (i - 1))); [reflexivity|lia].
      * intros j Hj Hne'. destruct (Nat.eqb_spec i (S j)); [lia|reflexivity].
  - destruct (Nat.eqb_spec (S i) N) as [E|Hne].
    + apply rsum_0. intros j Hj. destruct (Nat.eqb_spec j (S i)); [lia|reflexivity].
    + rewrite (rsum_single N _ (S i)); [|lia|].
      * rewrite Nat.eqb_refl. reflexivity.
      * intros j Hj Hne'. destruct (Nat.eqb_spec j (S i)); [lia|reflexivity].
Qed.

Lemma path_lap N G x i : Path N false Combinatorial = Ok G -> (i < N)%nat ->
  g_n_vertices G = N /\
  mulv N (gL G) x i = (if Nat.eqb i 0 then 0 else x i - x (i - 1)%nat) + (if Nat.eqb (S i) N then 0 else x i - x (S i)).
Proof.
  intros EG Hi. destruct (C44_path N Combinatorial ltac:(lia) (or_introl eq_refl)) as (G' & EG' & HU & Hu & _ & Hp & _ & _ & Ht & _).
  rewrite EG in EG'. assert (G' = G) by congruence. subst G'. pose proof HU as (Hb & Hn & Hw). split; [exact Hn|].
  rewrite (lap_unit G N _ x i HU Hu Hp Ht Hi). rewrite <- (path_sum N i (fun j => x i - x j) Hi). apply rsum_ext. intros j Hj.
  destruct (Nat.eqb_spec j (S i)) as [E1|N1]; cbn [orb].
  - rewrite (proj1 (Hw i j Hi Hj)) by auto. ring.
  - destruct (Nat.eqb_spec i (S j)) as [E2|N2]; [rewrite (proj1 (Hw i j Hi Hj)) by auto; ring|].
    rewrite (proj2 (Hw i j Hi Hj)) by tauto. ring.
Qed.

Lemma cos_refl0 t : cos (t * (0 + /2)) = cos (t * (-1 + /2)).
Proof. replace (t * (-1 + /2)) with (- (t * (0 + /2))) by field. rewrite cos_neg. reflexivity. Qed.

Lemma path_eigen N G : Path N false Combinatorial = Ok G -> eigenbasis N (gL G) (path_freq N) (dct2 N).
Proof.
  intros EG. split; [apply dct2_orthonormal|]. intros i k Hi Hk.
  assert (HN : 0 < INR N) by (apply lt_0_INR; lia).
  destruct (path_lap N G (fun j => dct2 N j k) i EG Hi) as (_ & ->).
  set (th := PI * INR k / INR N). unfold path_freq. fold th.
  set (a := if Nat.eqb k 0 then sqrt (1 / INR N) else sqrt (2 / INR N)).
  assert (D : forall j, dct2 N j k = a * cos (th * (INR j + /2))).
  { intros j. unfold dct2. fold a. f_equal. f_equal. unfold th. field. lra. }
  (* the even extension satisfies the recurrence everywhere *)
  assert (Rc : 2 * cos (th * (INR i + /2)) - cos (th * (INR i - 1 + /2)) - cos (th * (INR i + 1 + /2)) = (2 - 2 * cos th) * cos (th * (INR i + /2))).
  { replace (th * (INR i - 1 + / 2)) with (th * (INR i + /2) - th) by ring. replace (th * (INR i + 1 + / 2)) with (th * (INR i + /2) + th) by ring.
    rewrite cos_minus, cos_plus. ring. }
  assert (L0 : (if Nat.eqb i 0 then 0 else dct2 N i k - dct2 N (i - 1) k) = a * (cos (th * (INR i + /2)) - cos (th * (INR i - 1 + /2)))).
  { destruct (Nat.eqb_spec i 0) as [->|Hne].
    - cbn [INR]. rewrite (cos_refl0 th). replace (0 - 1 + /2) with (-1 + /2) by ring. ring.
    - rewrite !D, minus_INR by lia. cbn [INR]. ring. }
  assert (L1 : (if Nat.eqb (S i) N then 0 else dct2 N i k - dct2 N (S i) k) = a * (cos (th * (INR i + /2)) - cos (th * (INR i + 1 + /2)))).
  { destruct (Nat.eqb_spec (S i) N) as [E|Hne].
    - assert (Ei : INR N = INR i + 1) by (rewrite <- E; apply S_INR).
      assert (E1 : th * (INR i + 1 + /2) = - (th * (INR i + /2)) + 2 * INR k * PI).
      { unfold th. rewrite Ei. field. rewrite Ei in HN. lra. }
      rewrite E1, cos_period, cos_neg. ring.
    - rewrite !D, S_INR. ring. }
  rewrite L0, L1, D. rewrite <- Rmult_plus_distr_l. replace ((2 - 2 * cos th) * (a * cos (th * (INR i + /2)))) with (a * ((2 - 2 * cos th) * cos (th * (INR i + /2)))) by ring.
  rewrite <- Rc. ring.
Qed.

Lemma path_freq_lt N k l : (k < l)%nat -> (l < N)%nat -> path_freq N k < path_freq N l.
Proof.
  intros Hkl Hl. assert (HN : 0 < INR N) by (apply lt_0_INR; lia). pose proof PI_RGT_0 as HPI.
  assert (B : forall m, (m < N)%nat -> 0 <= PI * INR m / INR N <= PI).
  { intros m Hm. assert (0 <= INR m) by apply pos_INR. assert (INR m <= INR N) by (apply le_INR; lia). split.
    - apply Rmult_le_pos; [nra|]. left. apply Rinv_0_lt_compat. exact HN.
    - apply Rmult_le_reg_r with (INR N); [exact HN|]. replace (PI * INR m / INR N * INR N) with (PI * INR m) by (field; lra). nra. }
  unfold path_freq. assert (cos (PI * INR l / INR N) < cos (PI * INR k / INR N)); [|lra].
  apply cos_decreasing_1; try apply B; try lia.
  unfold Rdiv. apply Rmult_lt_compat_r; [apply Rinv_0_lt_compat; exact HN|]. apply Rmult_lt_compat_l; [exact HPI|]. apply lt_INR. exact Hkl.
Qed.
Lemma path_eigh N G : Path N false Combinatorial = Ok G -> eigh_ok N (gL G) (path_freq N) (dct2 N).
Proof.
  intros EG. destruct (path_eigen N G EG) as (H1 & H2). split; [exact H1|apply cols_rows; exact H1|exact H2|].
  intros k l Hkl Hl. destruct (Nat.eq_dec k l) as [->|Hne]; [lra|]. left. apply path_freq_lt; lia.
Qed.

(** Whatever the eigensolver: the eigenvalues of Path(N) are 2 - 2 cos(pi k / N), all different, every column of U is plus or
    minus the DCT-II vector, so the GFT of any signal is its orthonormal DCT-II up to the signs of the coefficients. *)
Theorem C83_path_gft_is_the_dct :
  forall N G lmax e U, (1 <= N)%nat -> Path N false Combinatorial = Ok G -> spectral (mkview (g_n_vertices G) (gL G) lmax e U) ->
    g_n_vertices G = N /\
    (forall k, (k < N)%nat -> nth k e 0 = 2 - 2 * cos (PI * INR k / INR N)) /\
    (forall k, (k < N)%nat -> exists s, (s = 1 \/ s = -1) /\
       (forall i, (i < N)%nat -> U i k = s * dct2 N i k) /\
       forall x t, gft (mkview (g_n_vertices G) (gL G) lmax e U) (vec_arr N x) = Ok t ->
         aget t [k] = s * \sum_(i < N) (dct2 N i k * x i)).
Proof.
  intros N G lmax e U HN EG (Hlen & HU). cbn [v_N v_L v_e v_U] in *. destruct (path_lap N G (fun _ => 0) 0 EG ltac:(lia)) as (Hn & _).
  rewrite Hn in *. split; [reflexivity|]. pose proof (path_eigh N G EG) as HD.
  assert (He : forall k, (k < N)%nat -> nth k e 0 = path_freq N k) by (intros k Hk; apply (eigh_unique N (gL G) (fun k => nth k e 0) U _ _ k HU HD Hk)).
  split; [exact He|]. intros k Hk.
  assert (HU' : eigh_ok N (gL G) (path_freq N) U).
  { apply (eigh_ok_ext N (gL G) _ U (fun k => nth k e 0) U); [|reflexivity|exact HU]. intros i Hi. symmetry. apply He. exact Hi. }
  destruct (simple_column N (gL G) (path_freq N) U (dct2 N) k HU' HD Hk) as (s & Hs & Hc).
  { intros l Hl Hne. destruct (lt_dec l k) as [H|H]; [pose proof (path_freq_lt N l k H Hk)|pose proof (path_freq_lt N k l ltac:(lia) Hl)]; lra. }
  exists s. split; [exact Hs|]. split; [exact Hc|]. intros x t Et. unfold gft in Et. cbn in Et. rewrite Nat.eqb_refl in Et. cbn in Et.
  injection Et as <-. cbn. rewrite <- rsum_scal_l. apply rsum_ext. intros i Hi. rewrite (Hc i Hi). ring.
Qed.


(** ** Ring: the discrete Fourier transform *)

(** Functions of the eigenvalues weigh the transform of a signal in a way that does not depend on the eigenbasis. *)
Lemma eigh_energy n A e U W (h : vec) : eigh_ok n A e U -> eigh_ok n A e W ->
  (forall k l, (k < n)%nat -> (l < n)%nat -> e k = e l -> h k = h l) ->
  forall x, \sum_(k < n) (h k * (coef n U x k * coef n U x k)) = \sum_(k < n) (h k * (coef n W x k * coef n W x k)).
Proof.
  intros HU HW Hh x.
  assert (E : forall V, \sum_(k < n) (h k * (coef n V x k * coef n V x k)) = \sum_(i < n) (x i * \sum_(k < n) (V i k * (h k * coef n V x k)))).
  { intros V. rewrite (rsum_ext n (fun i => x i * _) (fun i => \sum_(k < n) (x i * (V i k * (h k * coef n V x k))))) by (intros; symmetry; apply rsum_scal_l).
    rewrite rsum_swap. apply rsum_ext. intros k Hk.
    rewrite (rsum_ext n _ (fun i => (h k * coef n V x k) * (V i k * x i))) by (intros; ring). rewrite rsum_scal_l. unfold coef. ring. }
  rewrite !E. apply rsum_ext. intros i Hi. f_equal. apply (eigh_function n A e U W h HU HW Hh x i Hi).
Qed.

(** Sums of cosines and sines over a period. *)
Lemma period_sum N (z : Z) : (0 < N)%nat -> z <> 0%Z -> (- Z.of_nat N < z < Z.of_nat N)%Z ->
  \sum_(i < N) cos (2 * PI * IZR z / INR N * INR i) = 0 /\ \sum_(i < N) sin (2 * PI * IZR z / INR N * INR i) = 0.
Proof.
  intros HN Hz Hb. assert (HN' : 0 < INR N) by (apply lt_0_INR; lia). pose proof PI_RGT_0 as HPI.
  set (t := 2 * PI * IZR z / INR N).
  assert (Hs : sin (t / 2) <> 0).
  { assert (P : forall y, (0 < y < Z.of_nat N)%Z -> 0 < sin (PI * IZR y / INR N)).
    { intros y Hy. assert (0 < IZR y) by (apply (IZR_lt 0); lia). assert (IZR y < INR N) by (rewrite INR_IZR_INZ; apply IZR_lt; lia).
      apply sin_gt_0.
      - apply Rdiv_lt_0_compat; [nra|lra].
      - apply Rmult_lt_reg_r with (INR N); [lra|]. replace (PI * IZR y / INR N * INR N) with (PI * IZR y) by (field; lra). nra. }
    replace (t / 2) with (PI * IZR z / INR N) by (unfold t; field; lra).
    destruct (Z_lt_le_dec 0 z) as [H|H].
    - specialize (P z ltac:(lia)). lra.
    - specialize (P (- z)%Z ltac:(lia)). rewrite opp_IZR in P. replace (PI * - IZR z / INR N) with (- (PI * IZR z / INR N)) in P by (field; lra). rewrite sin_neg in P. lra. }
  assert (Tc : forall n, 2 * sin (t / 2) * (\sum_(i < n) cos (t * INR i)) = sin (t * INR n - t / 2) + sin (t / 2)).
  { induction n as [|n IH].
    - cbn [rsum INR]. replace (t * 0 - t / 2) with (- (t / 2)) by ring. rewrite sin_neg. ring.
    - cbn [rsum]. rewrite Rmult_plus_distr_l, IH, S_INR. replace (t * (INR n + 1) - t / 2) with (t * INR n + t / 2) by field.
      rewrite sin_plus, sin_minus. ring. }
  assert (Ts : forall n, 2 * sin (t / 2) * (\sum_(i < n) sin (t * INR i)) = cos (t / 2) - cos (t * INR n - t / 2)).
  { induction n as [|n IH].
    - cbn [rsum INR]. replace (t * 0 - t / 2) with (- (t / 2)) by ring. rewrite cos_neg. ring.
    - cbn [rsum]. rewrite Rmult_plus_distr_l, IH, S_INR. replace (t * (INR n + 1) - t / 2) with (t * INR n + t / 2) by field.
      rewrite cos_plus, cos_minus. ring. }
  assert (EN : t * INR N = 2 * IZR z * PI) by (unfold t; field; lra).
  assert (P1 : sin (t * INR N - t / 2) = - sin (t / 2)).
  { rewrite EN, sin_minus. assert (Z0 : sin (IZR z * PI) = 0) by (apply sin_eq_0_1; exists z; reflexivity).
    replace (2 * IZR z * PI) with (2 * (IZR z * PI)) by ring. rewrite sin_2a, cos_2a_sin, Z0. ring. }
  assert (P2 : cos (t * INR N - t / 2) = cos (t / 2)).
  { rewrite EN, cos_minus. assert (Z0 : sin (IZR z * PI) = 0) by (apply sin_eq_0_1; exists z; reflexivity).
    replace (2 * IZR z * PI) with (2 * (IZR z * PI)) by ring. rewrite sin_2a, cos_2a_sin, Z0. ring. }
  specialize (Tc N). specialize (Ts N). rewrite P1 in Tc. rewrite P2 in Ts.
  split; apply (Rmult_eq_reg_l (2 * sin (t / 2))); lra.
Qed.

(** The angle between consecutive samples of frequency m. *)
Definition dft_angle (N m : nat) : R := 2 * PI * INR m / INR N.
(** The discrete Fourier transform of x at frequency m is dft_re - i dft_im. *)
Definition dft_re (N : nat) (x : vec) (m : nat) : R := \sum_(i < N) (x i * cos (dft_angle N m * INR i)).
Definition dft_im (N : nat) (x : vec) (m : nat) : R := \sum_(i < N) (x i * sin (dft_angle N m * INR i)).

(** The real orthonormal Fourier basis: 1, then cosine and sine of every frequency 1, 2, ... up to N/2. *)
Definition half (k : nat) : nat := Nat.div2 (S k).
Definition rdft (N : nat) (i k : nat) : R :=
  (if (Nat.eqb k 0 || Nat.eqb (2 * half k) N)%bool then sqrt (1 / INR N) else sqrt (2 / INR N)) *
  (if (Nat.eqb k 0 || Nat.odd k)%bool then cos (dft_angle N (half k) * INR i) else sin (dft_angle N (half k) * INR i)).

Lemma half_cases k : k = 0%nat \/ (exists m, (1 <= m)%nat /\ k = (2 * m - 1)%nat /\ half k = m /\ Nat.odd k = true) \/
  (exists m, (1 <= m)%nat /\ k = (2 * m)%nat /\ half k = m /\ Nat.odd k = false).
Proof.
  destruct k as [|k]; [left; reflexivity|right]. unfold half.
  destruct (Nat.Even_or_Odd k) as [(m & ->)|(m & ->)].
  - left. exists (S m). split; [lia|]. split; [lia|]. split.
    + replace (S (S (2 * m))) with (2 * S m)%nat by lia. apply Nat.div2_double.
    + apply Nat.odd_spec. exists m. lia.
  - right. exists (S m). split; [lia|]. split; [lia|]. split.
    + replace (S (S (2 * m + 1))) with (S (2 * S m)) by lia. apply Nat.div2_succ_double.
    + rewrite <- Nat.negb_even. apply negb_false_iff. apply Nat.even_spec. exists (S m). lia.
Qed.

Lemma dft_products N m l : (0 < N)%nat -> (2 * m <= N)%nat -> (2 * l <= N)%nat ->
  \sum_(i < N) (cos (dft_angle N m * INR i) * cos (dft_angle N l * INR i)) =
    (if Nat.eqb m l then (if (Nat.eqb m 0 || Nat.eqb (2 * m) N)%bool then INR N else INR N / 2) else 0) /\
  \sum_(i < N) (sin (dft_angle N m * INR i) * sin (dft_angle N l * INR i)) =
    (if Nat.eqb m l then (if (Nat.eqb m 0 || Nat.eqb (2 * m) N)%bool then 0 else INR N / 2) else 0) /\
  \sum_(i < N) (cos (dft_angle N m * INR i) * sin (dft_angle N l * INR i)) = 0.
Proof.
  intros HN Hm Hl. assert (HN' : 0 < INR N) by (apply lt_0_INR; lia).
  set (D := \sum_(i < N) cos (2 * PI * IZR (Z.of_nat m - Z.of_nat l) / INR N * INR i)).
  set (S' := \sum_(i < N) cos (2 * PI * IZR (Z.of_nat m + Z.of_nat l) / INR N * INR i)).
  set (D1 := \sum_(i < N) sin (2 * PI * IZR (Z.of_nat m - Z.of_nat l) / INR N * INR i)).
  set (S1 := \sum_(i < N) sin (2 * PI * IZR (Z.of_nat m + Z.of_nat l) / INR N * INR i)).
  assert (AD : forall i : nat, 2 * PI * IZR (Z.of_nat m - Z.of_nat l) / INR N * INR i = dft_angle N m * INR i - dft_angle N l * INR i).
  { intros i. rewrite minus_IZR, <- !INR_IZR_INZ. unfold dft_angle. field. lra. }
  assert (AS : forall i : nat, 2 * PI * IZR (Z.of_nat m + Z.of_nat l) / INR N * INR i = dft_angle N m * INR i + dft_angle N l * INR i).
  { intros i. rewrite plus_IZR, <- !INR_IZR_INZ. unfold dft_angle. field. lra. }
  assert (E1 : \sum_(i < N) (cos (dft_angle N m * INR i) * cos (dft_angle N l * INR i)) = (D + S') / 2).
  { unfold D, S'. rewrite <- rsum_plus. unfold Rdiv at 1. rewrite <- rsum_scal_r. apply rsum_ext. intros i _. rewrite AD, AS, cos_minus, cos_plus. field. }
  assert (E2 : \sum_(i < N) (sin (dft_angle N m * INR i) * sin (dft_angle N l * INR i)) = (D - S') / 2).
  { unfold D, S'. rewrite <- rsum_minus. unfold Rdiv at 1. rewrite <- rsum_scal_r. apply rsum_ext. intros i _. rewrite AD, AS, cos_minus, cos_plus. field. }
  assert (E3 : \sum_(i < N) (cos (dft_angle N m * INR i) * sin (dft_angle N l * INR i)) = (S1 - D1) / 2).
  { unfold D1, S1. rewrite <- rsum_minus. unfold Rdiv at 1. rewrite <- rsum_scal_r. apply rsum_ext. intros i _. rewrite AD, AS, sin_minus, sin_plus. field. }
  assert (HD : D = (if Nat.eqb m l then INR N else 0) /\ D1 = 0).
  { destruct (Nat.eqb_spec m l) as [<-|Hne].
    - unfold D, D1. rewrite Z.sub_diag. split.
      + rewrite (rsum_ext N _ (fun _ => 1)); [rewrite rsum_const; ring|]. intros i _. replace (2 * PI * 0 / INR N * INR i) with 0 by (field; lra). apply cos_0.
      + apply rsum_0. intros i _. replace (2 * PI * 0 / INR N * INR i) with 0 by (field; lra). apply sin_0.
    - apply period_sum; lia. }
  assert (HS : S' = (if (Nat.eqb m l && (Nat.eqb m 0 || Nat.eqb (2 * m) N))%bool then INR N else 0) /\ S1 = 0).
  { destruct (Nat.eq_dec (m + l) 0) as [Z0|Nz].
    - assert (m = 0%nat) by lia. assert (l = 0%nat) by lia. subst m l. cbn [Nat.eqb andb orb]. unfold S', S1. change (Z.of_nat 0 + Z.of_nat 0)%Z with 0%Z. split.
      + rewrite (rsum_ext N _ (fun _ => 1)); [rewrite rsum_const; ring|]. intros i _. replace (2 * PI * 0 / INR N * INR i) with 0 by (field; lra). apply cos_0.
      + apply rsum_0. intros i _. replace (2 * PI * 0 / INR N * INR i) with 0 by (field; lra). apply sin_0.
    - destruct (Nat.eq_dec (m + l) N) as [EN|Nn].
      + assert (El : l = m) by lia. subst l. rewrite Nat.eqb_refl. replace (Nat.eqb (2 * m) N) with true by (symmetry; apply Nat.eqb_eq; lia). rewrite orb_true_r. cbn [andb].
        assert (A : forall i : nat, 2 * PI * IZR (Z.of_nat m + Z.of_nat m) / INR N * INR i = 0 + 2 * INR i * PI).
        { intros i. rewrite plus_IZR, <- !INR_IZR_INZ, <- plus_INR, EN. field. lra. }
        unfold S', S1. split.
        * rewrite (rsum_ext N _ (fun _ => 1)); [rewrite rsum_const; ring|]. intros i _. rewrite A, cos_period. apply cos_0.
        * apply rsum_0. intros i _. rewrite A, sin_period. apply sin_0.
      + replace (Nat.eqb m l && (Nat.eqb m 0 || Nat.eqb (2 * m) N))%bool with false.
        * apply period_sum; lia.
        * symmetry. destruct (Nat.eqb_spec m l); [|reflexivity]. destruct (Nat.eqb_spec m 0); [lia|]. destruct (Nat.eqb_spec (2 * m) N); [lia|]. reflexivity. }
  rewrite E1, E2, E3. destruct HD as (-> & ->), HS as (-> & ->).
  destruct (Nat.eqb m l); cbn [andb]; [|repeat split; field]. destruct (Nat.eqb m 0 || Nat.eqb (2 * m) N)%bool; repeat split; field.
Qed.

Lemma rdft_orthonormal N : (1 <= N)%nat -> orthonormal_cols N N (rdft N).
Proof.
  intros HN k l Hk Hl. assert (HN' : 0 < INR N) by (apply lt_0_INR; lia).
  set (a := fun k => if (Nat.eqb k 0 || Nat.eqb (2 * half k) N)%bool then sqrt (1 / INR N) else sqrt (2 / INR N)).
  set (c := fun k i => if (Nat.eqb k 0 || Nat.odd k)%bool then cos (dft_angle N (half k) * INR i) else sin (dft_angle N (half k) * INR i)).
  rewrite (rsum_ext N _ (fun i => a k * a l * (c k i * c l i))) by (intros; unfold rdft, a, c; ring). rewrite rsum_scal_l.
  assert (Q1 : sqrt (1 / INR N) * sqrt (1 / INR N) = 1 / INR N) by (apply sqrt_sqrt; left; apply Rdiv_lt_0_compat; lra).
  assert (Q2 : sqrt (2 / INR N) * sqrt (2 / INR N) = 2 / INR N) by (apply sqrt_sqrt; left; apply Rdiv_lt_0_compat; lra).
  assert (Hh : forall k, (k < N)%nat -> (2 * half k <= N)%nat).
  { intros k' Hk'. destruct (half_cases k') as [->|[(m & ? & -> & -> & _)|(m & ? & -> & -> & _)]]; [cbn; lia|lia|lia]. }
  destruct (dft_products N (half k) (half l) ltac:(lia) (Hh k Hk) (Hh l Hl)) as (CC & SS & CS).
  destruct (dft_products N (half l) (half k) ltac:(lia) (Hh l Hl) (Hh k Hk)) as (_ & _ & CS').
  assert (SC : \sum_(i < N) (sin (dft_angle N (half k) * INR i) * cos (dft_angle N (half l) * INR i)) = 0).
  { refine (eq_trans _ CS'). apply rsum_ext. intros; ring. }
  destruct (half_cases k) as [Ek|[(m & Hm & Ek & Eh & Eo)|(m & Hm & Ek & Eh & Eo)]];
  destruct (half_cases l) as [El|[(m' & Hm' & El & Eh' & Eo')|(m' & Hm' & El & Eh' & Eo')]].
  - rewrite Ek, El in *. unfold c, a. cbn [Nat.eqb orb]. rewrite CC. cbn [half Nat.div2 Nat.eqb orb]. rewrite Q1. field. lra.
  - replace (Nat.eqb k l) with false by (symmetry; apply Nat.eqb_neq; lia). unfold c, a. rewrite Ek in *. rewrite Eo'. replace (Nat.eqb l 0) with false by (symmetry; apply Nat.eqb_neq; lia). cbn [Nat.eqb orb]. rewrite CC, Eh'. cbn [half Nat.div2].
    destruct (Nat.eqb_spec 0 m'); [lia|]. ring.
  - replace (Nat.eqb k l) with false by (symmetry; apply Nat.eqb_neq; lia). unfold c, a. rewrite Ek in *. rewrite Eo'. replace (Nat.eqb l 0) with false by (symmetry; apply Nat.eqb_neq; lia). cbn [Nat.eqb orb]. rewrite CS. ring.
  - replace (Nat.eqb k l) with false by (symmetry; apply Nat.eqb_neq; lia). unfold c, a. rewrite El in *. rewrite Eo. replace (Nat.eqb k 0) with false by (symmetry; apply Nat.eqb_neq; lia). cbn [Nat.eqb orb]. rewrite CC, Eh. cbn [half Nat.div2].
    destruct (Nat.eqb_spec m 0); [lia|]. ring.
  - unfold c, a. rewrite Eo, Eo'. replace (Nat.eqb k 0) with false by (symmetry; apply Nat.eqb_neq; lia). replace (Nat.eqb l 0) with false by (symmetry; apply Nat.eqb_neq; lia). cbn [orb].
    rewrite CC, Eh, Eh'. destruct (Nat.eqb_spec m m') as [<-|Hne].
    + assert (k = l) by lia. replace (Nat.eqb k l) with true by (symmetry; apply Nat.eqb_eq; lia). destruct (Nat.eqb_spec m 0); [lia|]. cbn [orb].
      destruct (Nat.eqb (2 * m) N); [rewrite Q1|rewrite Q2]; field; lra.
    + replace (Nat.eqb k l) with false by (symmetry; apply Nat.eqb_neq; lia). ring.
  - unfold c, a. rewrite Eo, Eo'. replace (Nat.eqb k 0) with false by (symmetry; apply Nat.eqb_neq; lia). replace (Nat.eqb l 0) with false by (symmetry; apply Nat.eqb_neq; lia). cbn [orb].
    rewrite CS. replace (Nat.eqb k l) with false by (symmetry; apply Nat.eqb_neq; lia). ring.
  - replace (Nat.eqb k l) with false by (symmetry; apply Nat.eqb_neq; lia). unfold c, a. rewrite El in *. rewrite Eo. replace (Nat.eqb k 0) with false by (symmetry; apply Nat.eqb_neq; lia). cbn [Nat.eqb orb]. rewrite SC. ring.
  - unfold c, a. rewrite Eo, Eo'. replace (Nat.eqb k 0) with false by (symmetry; apply Nat.eqb_neq; lia). replace (Nat.eqb l 0) with false by (symmetry; apply Nat.eqb_neq; lia). cbn [orb].
    rewrite SC. replace (Nat.eqb k l) with false by (symmetry; apply Nat.eqb_neq; lia). ring.
  - unfold c, a. rewrite Eo, Eo'. replace (Nat.eqb k 0) with false by (symmetry; apply Nat.eqb_neq; lia). replace (Nat.eqb l 0) with false by (symmetry; apply Nat.eqb_neq; lia). cbn [orb].
    rewrite SS, Eh, Eh'. destruct (Nat.eqb_spec m m') as [<-|Hne].
    + replace (Nat.eqb k l) with true by (symmetry; apply Nat.eqb_eq; lia). destruct (Nat.eqb_spec m 0); [lia|]. cbn [orb].
      destruct (Nat.eqb_spec (2 * m) N); [lia|]. rewrite Q2. field. lra.
    + replace (Nat.eqb k l) with false by (symmetry; apply Nat.eqb_neq; lia). ring.
Qed.

(** Sum over the neighbours on a ring. *)
Lemma circ_one N i d f : (3 <= N)%nat -> (i < N)%nat -> (1 <= d)%nat -> (2 * d < N)%nat ->
  \sum_(j < N) (if Nat.eqb (circ N i j) d then f j else 0) = f (Nat.modulo (i + d) N) + f (Nat.modulo (i + (N - d)) N).
Proof.
  intros HN Hi Hd H2. rewrite !wrap by lia.
  set (a := if Nat.ltb (i + d) N then (i + d)%nat else (i + d - N)%nat). set (b := if Nat.ltb (i + (N - d)) N then (i + (N - d))%nat else (i + (N - d) - N)%nat).
  assert (Ha : (a < N)%nat) by (unfold a; destruct (Nat.ltb_spec (i + d) N); lia).
  assert (Hb : (b < N)%nat) by (unfold b; destruct (Nat.ltb_spec (i + (N - d)) N); lia).
  assert (Hab : a <> b) by (unfold a, b; destruct (Nat.ltb_spec (i + d) N), (Nat.ltb_spec (i + (N - d)) N); lia).
  assert (Hc : forall j, (j < N)%nat -> (circ N i j = d <-> j = a \/ j = b)).
  { intros j Hj. unfold circ, a, b. destruct (Nat.ltb_spec (i + d) N), (Nat.ltb_spec (i + (N - d)) N); lia. }
  rewrite (rsum_ext N _ (fun j => (if Nat.eqb j a then f j else 0) + (if Nat.eqb j b then f j else 0))).
  2:{ intros j Hj. specialize (Hc j Hj). destruct (Nat.eqb_spec (circ N i j) d) as [E|E]; destruct (Nat.eqb_spec j a), (Nat.eqb_spec j b); try (exfalso; tauto || lia); ring. }
  rewrite rsum_plus. f_equal.
  - rewrite (rsum_single N _ a Ha); [rewrite Nat.eqb_refl; reflexivity|]. intros j Hj Hne. destruct (Nat.eqb_spec j a); [lia|reflexivity].
  - rewrite (rsum_single N _ b Hb); [rewrite Nat.eqb_refl; reflexivity|]. intros j Hj Hne. destruct (Nat.eqb_spec j b); [lia|reflexivity].
Qed.
Lemma circ_sum N k i f : (3 <= N)%nat -> (2 * k < N)%nat -> (i < N)%nat ->
  \sum_(j < N) (if (Nat.leb 1 (circ N i j) && Nat.leb (circ N i j) k)%bool then f j else 0) =
  \sum_(d < k) (f (Nat.modulo (i + S d) N) + f (Nat.modulo (i + (N - S d)) N)).
Proof.
  intros HN. induction k as [|k IH]; intros Hk Hi.
  - cbn [rsum]. apply rsum_0. intros j Hj. destruct (Nat.leb_spec 1 (circ N i j)), (Nat.leb_spec (circ N i j) 0); cbn; try reflexivity. lia.
  - cbn [rsum]. rewrite <- IH by lia. rewrite <- (circ_one N i (S k) f) by lia. rewrite <- rsum_plus. apply rsum_ext. intros j Hj.
    destruct (Nat.leb_spec 1 (circ N i j)), (Nat.leb_spec (circ N i j) (S k)), (Nat.leb_spec (circ N i j) k), (Nat.eqb_spec (circ N i j) (S k)); cbn [andb]; try lia; ring.
Qed.

Lemma ring_lap N k G x i : (3 <= N)%nat -> (2 * k < N)%nat -> Ring N k Combinatorial = Ok G -> (i < N)%nat ->
  mulv N (gL G) x i = \sum_(d < k) ((x i - x (Nat.modulo (i + S d) N)) + (x i - x (Nat.modulo (i + (N - S d)) N))).
Proof.
  intros HN Hk EG Hi. destruct (C45_ring N k Combinatorial HN Hk (or_introl eq_refl)) as (G' & EG' & HU & Hu & _ & Hp & _).
  rewrite EG in EG'. assert (G' = G) by congruence. subst G'. pose proof HU as (Hb & Hn & Hw).
  assert (Ht : g_lap_type G = Combinatorial) by (unfold Ring in EG; destruct (Nat.ltb N 3); [discriminate|]; destruct (Nat.ltb N (2 * k)); [discriminate|]; apply init_laptype in EG; exact EG).
  rewrite (lap_unit G N _ x i HU Hu Hp Ht Hi). rewrite <- (circ_sum N k i (fun j => x i - x j) HN Hk Hi). apply rsum_ext. intros j Hj.
  destruct (Nat.leb_spec 1 (circ N i j)) as [H1|H1]; [destruct (Nat.leb_spec (circ N i j) k) as [H2|H2]|]; cbn [andb].
  - rewrite (proj1 (Hw i j Hi Hj)) by lia. ring.
  - rewrite (proj2 (Hw i j Hi Hj)) by lia. ring.
  - rewrite (proj2 (Hw i j Hi Hj)) by lia. ring.
Qed.

(** The eigenvalue of frequency m on the ring where every vertex has k neighbours on each side. *)
Definition ring_freq (N k m : nat) : R := \sum_(d < k) (2 - 2 * cos (dft_angle N m * INR (S d))).

Lemma dft_mod N m a : (0 < N)%nat ->
  cos (dft_angle N m * INR (Nat.modulo a N)) = cos (dft_angle N m * INR a) /\ sin (dft_angle N m * INR (Nat.modulo a N)) = sin (dft_angle N m * INR a).
Proof.
  intros HN. assert (HN' : 0 < INR N) by (apply lt_0_INR; lia).
  assert (E : dft_angle N m * INR a = dft_angle N m * INR (Nat.modulo a N) + 2 * INR (m * (a / N)) * PI).
  { rewrite (Nat.div_mod a N) at 1 by lia. rewrite plus_INR, !mult_INR. unfold dft_angle. field. lra. }
  rewrite E, cos_period, sin_period. split; reflexivity.
Qed.
Lemma dft_back N m i d : (d < N)%nat ->
  cos (dft_angle N m * INR (i + (N - d))) = cos (dft_angle N m * INR i - dft_angle N m * INR d) /\
  sin (dft_angle N m * INR (i + (N - d))) = sin (dft_angle N m * INR i - dft_angle N m * INR d).
Proof.
  intros Hd. assert (HN' : 0 < INR N) by (apply lt_0_INR; lia).
  assert (E : dft_angle N m * INR (i + (N - d)) = dft_angle N m * INR i - dft_angle N m * INR d + 2 * INR m * PI).
  { rewrite plus_INR, minus_INR by lia. unfold dft_angle. field. lra. }
  rewrite E, cos_period, sin_period. split; reflexivity.
Qed.

(** Cosine and sine of every frequency are eigenvectors of the Laplacian of any ring. *)
Lemma ring_waves N k G m i : (3 <= N)%nat -> (2 * k < N)%nat -> Ring N k Combinatorial = Ok G -> (i < N)%nat ->
  mulv N (gL G) (fun j => cos (dft_angle N m * INR j)) i = ring_freq N k m * cos (dft_angle N m * INR i) /\
  mulv N (gL G) (fun j => sin (dft_angle N m * INR j)) i = ring_freq N k m * sin (dft_angle N m * INR i).
Proof.
  intros HN Hk EG Hi. rewrite !(ring_lap N k G _ i HN Hk EG Hi). unfold ring_freq. rewrite <- !rsum_scal_r. split; apply rsum_ext; intros d Hd.
  - rewrite (proj1 (dft_mod N m (i + S d) ltac:(lia))), (proj1 (dft_mod N m (i + (N - S d)) ltac:(lia))), (proj1 (dft_back N m i (S d) ltac:(lia))).
    rewrite plus_INR, Rmult_plus_distr_l, cos_plus, cos_minus. ring.
  - rewrite (proj2 (dft_mod N m (i + S d) ltac:(lia))), (proj2 (dft_mod N m (i + (N - S d)) ltac:(lia))), (proj2 (dft_back N m i (S d) ltac:(lia))).
    rewrite plus_INR, Rmult_plus_distr_l, sin_plus, sin_minus. ring.
Qed.

Lemma mulv_scal n A c x i : mulv n A (fun j => c * x j) i = c * mulv n A x i.
Proof. unfold mulv. rewrite <- rsum_scal_l. apply rsum_ext. intros. ring. Qed.

Lemma ring_eigen N k G : (3 <= N)%nat -> (2 * k < N)%nat -> Ring N k Combinatorial = Ok G -> eigenbasis N (gL G) (fun j => ring_freq N k (half j)) (rdft N).
Proof.
  intros HN Hk EG. split; [apply rdft_orthonormal; lia|]. intros i j Hi Hj. unfold rdft.
  destruct (ring_waves N k G (half j) i HN Hk EG Hi) as (E1 & E2).
  destruct (Nat.eqb j 0 || Nat.odd j)%bool; rewrite mulv_scal, ?E1, ?E2; ring.
Qed.

Lemma ring1_freq N m : ring_freq N 1 m = 2 - 2 * cos (2 * PI * INR m / INR N).
Proof. unfold ring_freq. cbn [rsum]. unfold dft_angle. cbn [INR]. rewrite Rmult_1_r. ring. Qed.
Lemma half_mono j l : (j <= l)%nat -> (half j <= half l)%nat.
Proof. intros H. destruct (half_cases j) as [->|[(m & ? & -> & -> & _)|(m & ? & -> & -> & _)]], (half_cases l) as [->|[(m' & ? & -> & -> & _)|(m' & ? & -> & -> & _)]]; cbn; lia. Qed.
Lemma half_le N j : (j < N)%nat -> (2 * half j <= N)%nat.
Proof. intros H. destruct (half_cases j) as [->|[(m & ? & -> & -> & _)|(m & ? & -> & -> & _)]]; cbn; lia. Qed.
Lemma ring1_lt N m l : (m < l)%nat -> (2 * l <= N)%nat -> ring_freq N 1 m < ring_freq N 1 l.
Proof.
  intros Hml Hl. rewrite !ring1_freq. assert (HN : 0 < INR N) by (apply lt_0_INR; lia). pose proof PI_RGT_0 as HPI.
  assert (B : forall a, (2 * a <= N)%nat -> 0 <= 2 * PI * INR a / INR N <= PI).
  { intros a Ha. assert (0 <= INR a) by apply pos_INR. assert (2 * INR a <= INR N). { apply le_INR in Ha. rewrite mult_INR in Ha. exact Ha. } split.
    - apply Rmult_le_pos; [nra|]. left. apply Rinv_0_lt_compat. exact HN.
    - apply Rmult_le_reg_r with (INR N); [exact HN|]. replace (2 * PI * INR a / INR N * INR N) with (2 * PI * INR a) by (field; lra). nra. }
  assert (cos (2 * PI * INR l / INR N) < cos (2 * PI * INR m / INR N)); [|lra].
  apply cos_decreasing_1; try apply B; try lia.
  unfold Rdiv. apply Rmult_lt_compat_r; [apply Rinv_0_lt_compat; exact HN|]. apply Rmult_lt_compat_l; [lra|]. apply lt_INR. exact Hml.
Qed.
Lemma ring1_inj N j l : (j < N)%nat -> (l < N)%nat -> ring_freq N 1 (half j) = ring_freq N 1 (half l) -> half j = half l.
Proof.
  intros Hj Hl E. pose proof (half_le N j Hj). pose proof (half_le N l Hl). destruct (lt_eq_lt_dec (half j) (half l)) as [[H1|H1]|H1]; [|exact H1|].
  - pose proof (ring1_lt N (half j) (half l) H1). lra || (specialize (H2 ltac:(lia)); lra).
  - pose proof (ring1_lt N (half l) (half j) H1 ltac:(lia)). lra.
Qed.
Lemma ring1_eigh N G : (3 <= N)%nat -> Ring N 1 Combinatorial = Ok G -> eigh_ok N (gL G) (fun j => ring_freq N 1 (half j)) (rdft N).
Proof.
  intros HN EG. destruct (ring_eigen N 1 G HN ltac:(lia) EG) as (H1 & H2). split; [exact H1|apply cols_rows; exact H1|exact H2|].
  intros j l Hjl Hl. pose proof (half_mono j l Hjl). destruct (Nat.eq_dec (half j) (half l)) as [->|Hne]; [lra|]. left. apply ring1_lt; [lia|]. apply half_le. exact Hl.
Qed.

Lemma half_sum N m (f : nat -> R) : (1 <= N)%nat ->
  (m = 0%nat -> \sum_(j < N) ((if Nat.eqb (half j) m then 1 else 0) * f j) = f 0%nat) /\
  ((1 <= m)%nat -> (2 * m < N)%nat -> \sum_(j < N) ((if Nat.eqb (half j) m then 1 else 0) * f j) = f (2 * m - 1)%nat + f (2 * m)%nat) /\
  ((2 * m)%nat = N -> \sum_(j < N) ((if Nat.eqb (half j) m then 1 else 0) * f j) = f (N - 1)%nat).
Proof.
  intros HN. repeat split.
  - intros ->. rewrite (rsum_single N _ 0%nat); [cbn; ring|lia|]. intros j Hj Hne.
    destruct (half_cases j) as [->|[(a & ? & -> & -> & _)|(a & ? & -> & -> & _)]]; [lia| |]; (destruct (Nat.eqb_spec a 0); [lia|ring]).
  - intros H1 H2.
    rewrite (rsum_ext N _ (fun j => (if Nat.eqb j (2 * m - 1) then f j else 0) + (if Nat.eqb j (2 * m) then f j else 0))).
    + rewrite rsum_plus. f_equal.
      * rewrite (rsum_single N _ (2 * m - 1)%nat); [rewrite Nat.eqb_refl; reflexivity|lia|]. intros j Hj Hne. destruct (Nat.eqb_spec j (2 * m - 1)); [lia|reflexivity].
      * rewrite (rsum_single N _ (2 * m)%nat); [rewrite Nat.eqb_refl; reflexivity|lia|]. intros j Hj Hne. destruct (Nat.eqb_spec j (2 * m)); [lia|reflexivity].
    + intros j Hj. assert (Hh : half j = m <-> (j = 2 * m - 1 \/ j = 2 * m)%nat).
      { destruct (half_cases j) as [->|[(a & ? & -> & -> & _)|(a & ? & -> & -> & _)]]; cbn [half Nat.div2]; lia. }
      destruct (Nat.eqb_spec (half j) m), (Nat.eqb_spec j (2 * m - 1)), (Nat.eqb_spec j (2 * m)); try lia; try tauto; ring.
  - intros H2. rewrite (rsum_single N _ (N - 1)%nat); [|lia|].
    + assert (Hh : half (N - 1) = m). { destruct (half_cases (N - 1)) as [E|[(a & ? & E & -> & _)|(a & ? & E & -> & _)]]; lia. }
      rewrite Hh, Nat.eqb_refl. ring.
    + intros j Hj Hne. destruct (half_cases j) as [->|[(a & ? & -> & -> & _)|(a & ? & -> & -> & _)]].
      * cbn [half Nat.div2]. destruct (Nat.eqb_spec 0 m); [lia|ring].
      * destruct (Nat.eqb_spec a m); [lia|ring].
      * destruct (Nat.eqb_spec a m); [lia|ring].
Qed.

(** The DFT diagonalizes the Laplacian of every ring (its Laplacian is circulant): the DFT of L x is the DFT of x times
    sum_d (2 - 2 cos(2 pi m d / N)), and the eigenvalues an eigensolver returns are these numbers, sorted. *)
Theorem C83_ring_laplacian_is_diagonalized_by_the_dft :
  forall N k G, (3 <= N)%nat -> (2 * k < N)%nat -> Ring N k Combinatorial = Ok G ->
    g_n_vertices G = N /\
    (forall x m, dft_re N (mulv N (gL G) x) m = ring_freq N k m * dft_re N x m /\ dft_im N (mulv N (gL G) x) m = ring_freq N k m * dft_im N x m) /\
    (forall lmax e U, spectral (mkview (g_n_vertices G) (gL G) lmax e U) -> e = rsort (map (fun j => ring_freq N k (half j)) (seq 0 N))).
Proof.
  intros N k G HN Hk EG. destruct (C45_ring N k Combinatorial HN Hk (or_introl eq_refl)) as (G' & EG' & HU & Hu & _ & Hp & _).
  rewrite EG in EG'. assert (G' = G) by congruence. subst G'. pose proof HU as (Hb & Hn & _). split; [exact Hn|]. split.
  - intros x m. unfold dft_re, dft_im.
    assert (Hs : symmetric N (gL G)). { pose proof (built_symmetric G Hb) as Hs. rewrite Hn in Hs. exact Hs. }
    split.
    + pose proof (dot_mulv_sym N (gL G) (fun i => cos (dft_angle N m * INR i)) x Hs) as E. unfold dot in E.
      rewrite (rsum_ext N _ (fun i => cos (dft_angle N m * INR i) * mulv N (gL G) x i)) by (intros; ring). rewrite E, <- rsum_scal_l. apply rsum_ext. intros i Hi.
      rewrite (proj1 (ring_waves N k G m i HN Hk EG Hi)). ring.
    + pose proof (dot_mulv_sym N (gL G) (fun i => sin (dft_angle N m * INR i)) x Hs) as E. unfold dot in E.
      rewrite (rsum_ext N _ (fun i => sin (dft_angle N m * INR i) * mulv N (gL G) x i)) by (intros; ring). rewrite E, <- rsum_scal_l. apply rsum_ext. intros i Hi.
      rewrite (proj2 (ring_waves N k G m i HN Hk EG Hi)). ring.
  - intros lmax e U (Hlen & HV). cbn [v_N v_L v_e v_U] in *. rewrite Hn in *.
    assert (Hr : List.length (rsort (map (fun j => ring_freq N k (half j)) (seq 0 N))) = N) by (rewrite (Permutation_length (rsort_perm _)), map_length, seq_length; reflexivity).
    apply (nth_ext _ _ 0 0); [congruence|]. intros j Hj. rewrite Hlen in Hj.
    apply (eigenbasis_values N (gL G) (fun j => ring_freq N k (half j)) (rdft N) (fun j => nth j e 0) U (ring_eigen N k G HN Hk EG) HV j Hj).
Qed.

(** On the plain ring the frequencies come in the order 0, 1, 1, 2, 2, ... and the squared GFT coefficients of a frequency add
    up to the (normalized) squared modulus of the DFT there, whatever basis of the double eigenspaces the eigensolver picked. *)
Theorem C83_ring_gft_is_the_dft :
  forall N G lmax e U, (3 <= N)%nat -> Ring N 1 Combinatorial = Ok G -> spectral (mkview (g_n_vertices G) (gL G) lmax e U) ->
    (forall j, (j < N)%nat -> nth j e 0 = 2 - 2 * cos (2 * PI * INR (Nat.div2 (S j)) / INR N)) /\
    forall x t, gft (mkview (g_n_vertices G) (gL G) lmax e U) (vec_arr N x) = Ok t ->
      (aget t [0%nat])² = ((dft_re N x 0)² + (dft_im N x 0)²) / INR N /\
      (forall m, (1 <= m)%nat -> (2 * m < N)%nat ->
         (aget t [2 * m - 1]%nat)² + (aget t [2 * m]%nat)² = 2 * ((dft_re N x m)² + (dft_im N x m)²) / INR N) /\
      (forall m, (2 * m)%nat = N -> (aget t [N - 1]%nat)² = ((dft_re N x m)² + (dft_im N x m)²) / INR N).
Proof.
  intros N G lmax e U HN EG (Hlen & HV). cbn [v_N v_L v_e v_U] in *.
  destruct (C45_ring N 1 Combinatorial HN ltac:(lia) (or_introl eq_refl)) as (G' & EG' & HU & _).
  rewrite EG in EG'. assert (G' = G) by congruence. subst G'. pose proof HU as (Hb & Hn & _). rewrite Hn in *.
  assert (HN' : 0 < INR N) by (apply lt_0_INR; lia).
  pose proof (ring1_eigh N G HN EG) as HD.
  assert (He : forall j, (j < N)%nat -> nth j e 0 = ring_freq N 1 (half j)) by (intros j Hj; apply (eigh_unique N (gL G) (fun k => nth k e 0) U _ _ j HV HD Hj)).
  split; [intros j Hj; rewrite (He j Hj); apply ring1_freq|].
  assert (HV' : eigh_ok N (gL G) (fun j => ring_freq N 1 (half j)) U).
  { apply (eigh_ok_ext N (gL G) _ U (fun k => nth k e 0) U); [|reflexivity|exact HV]. intros i Hi. symmetry. apply He. exact Hi. }
  intros x t Et. unfold gft in Et. cbn in Et. rewrite Nat.eqb_refl in Et. cbn in Et. injection Et as <-.
  assert (Ht : forall k, aget (vec_arr N (fun k => \sum_(i < N) (U i k * x i))) [k] = coef N U x k) by reflexivity.
  assert (HE : forall m, \sum_(j < N) ((if Nat.eqb (half j) m then 1 else 0) * (coef N U x j * coef N U x j)) =
                         \sum_(j < N) ((if Nat.eqb (half j) m then 1 else 0) * (coef N (rdft N) x j * coef N (rdft N) x j))).
  { intros m. apply (eigh_energy N (gL G) _ U (rdft N) (fun j => if Nat.eqb (half j) m then 1 else 0) HV' HD). intros k l Hk Hl E. rewrite (ring1_inj N k l Hk Hl E). reflexivity. }
  assert (Q1 : sqrt (1 / INR N) * sqrt (1 / INR N) = 1 / INR N) by (apply sqrt_sqrt; left; apply Rdiv_lt_0_compat; lra).
  assert (Q2 : sqrt (2 / INR N) * sqrt (2 / INR N) = 2 / INR N) by (apply sqrt_sqrt; left; apply Rdiv_lt_0_compat; lra).
  assert (Hre : forall k a, (forall i, rdft N i k = a * cos (dft_angle N (half k) * INR i)) -> coef N (rdft N) x k = a * dft_re N x (half k)).
  { intros k a Ha. unfold coef, dft_re. rewrite <- rsum_scal_l. apply rsum_ext. intros i _. rewrite Ha. ring. }
  assert (Him : forall k a, (forall i, rdft N i k = a * sin (dft_angle N (half k) * INR i)) -> coef N (rdft N) x k = a * dft_im N x (half k)).
  { intros k a Ha. unfold coef, dft_im. rewrite <- rsum_scal_l. apply rsum_ext. intros i _. rewrite Ha. ring. }
  cbn [aget hd tl]. fold (coef N U x). unfold Rsqr. split; [|split].
  - pose proof (HE 0%nat) as E. rewrite !(proj1 (half_sum N 0 _ ltac:(lia)) eq_refl) in E. refine (eq_trans E _).
    rewrite (Hre 0%nat (sqrt (1 / INR N))) by (intros; reflexivity). cbn [half Nat.div2].
    assert (Z : dft_im N x 0 = 0). { apply rsum_0. intros i _. unfold dft_angle. cbn [INR]. replace (2 * PI * 0 / INR N * INR i) with 0 by (field; lra). rewrite sin_0. ring. }
    rewrite Z. replace (sqrt (1 / INR N) * dft_re N x 0 * (sqrt (1 / INR N) * dft_re N x 0)) with (sqrt (1 / INR N) * sqrt (1 / INR N) * (dft_re N x 0 * dft_re N x 0)) by ring.
    rewrite Q1. field. lra.
  - intros m H1 H2. pose proof (HE m) as E. rewrite !(proj1 (proj2 (half_sum N m _ ltac:(lia))) H1 H2) in E. refine (eq_trans E _).
    assert (A1 : half (2 * m - 1) = m) by (destruct (half_cases (2 * m - 1)) as [E'|[(a & ? & E' & -> & _)|(a & ? & E' & -> & _)]]; lia).
    assert (A2 : half (2 * m) = m) by (destruct (half_cases (2 * m)) as [E'|[(a & ? & E' & -> & _)|(a & ? & E' & -> & _)]]; lia).
    assert (O1 : Nat.odd (2 * m - 1) = true) by (apply Nat.odd_spec; exists (m - 1)%nat; lia).
    assert (O2 : Nat.odd (2 * m) = false) by (rewrite <- Nat.negb_even; apply negb_false_iff; apply Nat.even_spec; exists m; lia).
    rewrite (Hre (2 * m - 1)%nat (sqrt (2 / INR N))).
    2:{ intros i. unfold rdft. rewrite O1, A1. destruct (Nat.eqb_spec (2 * m - 1) 0); [lia|]. destruct (Nat.eqb_spec (2 * m) N); [lia|]. reflexivity. }
    rewrite (Him (2 * m)%nat (sqrt (2 / INR N))).
    2:{ intros i. unfold rdft. rewrite O2, A2. destruct (Nat.eqb_spec (2 * m) 0); [lia|]. destruct (Nat.eqb_spec (2 * m) N); [lia|]. reflexivity. }
    rewrite A1, A2. replace (sqrt (2 / INR N) * dft_re N x m * (sqrt (2 / INR N) * dft_re N x m) + sqrt (2 / INR N) * dft_im N x m * (sqrt (2 / INR N) * dft_im N x m))
      with (sqrt (2 / INR N) * sqrt (2 / INR N) * (dft_re N x m * dft_re N x m + dft_im N x m * dft_im N x m)) by ring. rewrite Q2. field. lra.
  - intros m H2. pose proof (HE m) as E. rewrite !(proj2 (proj2 (half_sum N m _ ltac:(lia))) H2) in E. refine (eq_trans E _).
    assert (A1 : half (N - 1) = m) by (destruct (half_cases (N - 1)) as [E'|[(a & ? & E' & -> & _)|(a & ? & E' & -> & _)]]; lia).
    assert (O1 : Nat.odd (N - 1) = true) by (apply Nat.odd_spec; exists (m - 1)%nat; lia).
    rewrite (Hre (N - 1)%nat (sqrt (1 / INR N))).
    2:{ intros i. unfold rdft. rewrite O1, A1, H2, Nat.eqb_refl, !orb_true_r. reflexivity. }
    assert (Z : dft_im N x m = 0).
    { apply rsum_0. intros i _. unfold dft_angle. replace (2 * PI * INR m / INR N * INR i) with (INR i * PI).
      - rewrite sin_kPI. ring.
      - rewrite <- H2, mult_INR. cbn [INR]. field. apply not_0_INR. lia. }
    rewrite A1, Z. replace (sqrt (1 / INR N) * dft_re N x m * (sqrt (1 / INR N) * dft_re N x m)) with (sqrt (1 / INR N) * sqrt (1 / INR N) * (dft_re N x m * dft_re N x m)) by ring.
    rewrite Q1. field. lra.
Qed.

(** ** Grid2d and Torus: Kronecker products *)

Lemma rsum_grid m w f : (\sum_(i < m * w) f i) = \sum_(r < m) \sum_(c < w) f (w * r + c)%nat.
Proof.
  induction m as [|m IH]; [reflexivity|]. cbn [rsum]. rewrite <- IH. replace (S m * w)%nat with (m * w + w)%nat by lia. rewrite rsum_split. f_equal.
  apply rsum_ext. intros c _. f_equal. lia.
Qed.
Lemma rsum_prod m w f g : (\sum_(r < m) \sum_(c < w) (f r * g c)) = (\sum_(r < m) f r) * (\sum_(c < w) g c).
Proof. rewrite <- rsum_scal_r. apply rsum_ext. intros r _. apply rsum_scal_l. Qed.

(** The Kronecker product of two matrices, on vertices (or columns) numbered row by row, w per row, and the sums of two families
    of numbers in that order. *)
Definition kron (w : nat) (U1 U2 : mat) : mat := fun i k => U1 (rowof w i) (rowof w k) * U2 (colof w i) (colof w k).
Definition kron_sum (w : nat) (e1 e2 : vec) : vec := fun k => e1 (rowof w k) + e2 (colof w k).

(** Two eigenbases of one symmetric matrix weigh a signal alike. *)
Lemma eigenbasis_energy n A v U v' W (h : R -> R) : symmetric n A -> eigenbasis n A v U -> eigenbasis n A v' W ->
  forall x, \sum_(k < n) (h (v k) * (coef n U x k * coef n U x k)) = \sum_(k < n) (h (v' k) * (coef n W x k * coef n W x k)).
Proof.
  intros Hs (HU & EU) (HW & EW) x.
  set (M := fun k l => \sum_(j < n) (U j k * W j l)).
  assert (HM : forall k l, (k < n)%nat -> (l < n)%nat -> h (v k) * M k l = M k l * h (v' l)).
  { intros k l Hk Hl. destruct (Req_dec (v k) (v' l)) as [E|Hne]; [rewrite E; ring|].
    assert (Z : M k l = 0); [|rewrite Z; ring].
    pose proof (dot_mulv_sym n A (fun j => W j l) (fun j => U j k) Hs) as E. unfold dot in E.
    rewrite (rsum_ext n _ (fun j => v k * (U j k * W j l))) in E by (intros j Hj; rewrite (EU j k Hj Hk); ring).
    rewrite (rsum_ext n (fun i => mulv n A (fun j => W j l) i * U i k) (fun j => v' l * (U j k * W j l))) in E by (intros j Hj; rewrite (EW j l Hj Hl); ring).
    rewrite !rsum_scal_l in E. fold (M k l) in E. assert ((v k - v' l) * M k l = 0) as Z by lra. apply Rmult_integral in Z. destruct Z; [lra|assumption]. }
  assert (C : forall V V', orthonormal_cols n n V' -> forall k, (k < n)%nat -> coef n V x k = \sum_(l < n) ((\sum_(j < n) (V j k * V' j l)) * coef n V' x l)).
  { intros V V' HV' k Hk. pose proof (cols_rows n V' HV') as HR. unfold coef.
    symmetry. rewrite (rsum_ext n (fun l => _ * _) (fun l => \sum_(j < n) \sum_(i < n) (V j k * x i * (V' j l * V' i l)))).
    2:{ intros l _. rewrite <- rsum_scal_r. apply rsum_ext. intros j _. rewrite <- rsum_scal_l. apply rsum_ext. intros; ring. }
    rewrite rsum_swap. apply rsum_ext. intros j Hj. rewrite rsum_swap.
    rewrite (rsum_ext n _ (fun i => if Nat.eqb j i then V j k * x i else 0)).
    2:{ intros i Hi. rewrite rsum_scal_l. pose proof (HR j i Hj Hi) as E. unfold tr in E. rewrite E. destruct (Nat.eqb j i); ring. }
    rewrite (rsum_single n _ j Hj); [rewrite Nat.eqb_refl; reflexivity|]. intros i Hi Hne. destruct (Nat.eqb_spec j i); [lia|reflexivity]. }
  rewrite (rsum_ext n (fun k => h (v k) * _) (fun k => \sum_(l < n) (coef n U x k * (M k l * h (v' l)) * coef n W x l))).
  2:{ intros k Hk. rewrite (C U W HW k Hk) at 2. fold (M k). rewrite <- !rsum_scal_l. apply rsum_ext. intros l Hl. rewrite <- (HM k l Hk Hl). fold (M k l). ring. }
  rewrite rsum_swap. apply rsum_ext. intros l Hl.
  rewrite (rsum_ext n _ (fun k => h (v' l) * coef n W x l * (M k l * coef n U x k))) by (intros; ring). rewrite rsum_scal_l.
  rewrite (C W U HU l Hl) at 3. rewrite Rmult_assoc. f_equal. f_equal. apply rsum_ext. intros k Hk. f_equal. apply rsum_ext. intros; ring.
Qed.

Lemma lap_wt G x i : built G -> undirected G -> nonneg_weights G -> g_lap_type G = Combinatorial -> (i < g_n_vertices G)%nat ->
  mulv (g_n_vertices G) (gL G) x i = \sum_(j < g_n_vertices G) (wt G i j * (x i - x j)).
Proof.
  intros Hb Hu Hp Ht Hi. pose proof (graph_is_laplacian G Hb Hp Ht) as HL.
  rewrite (lap_apply _ (gL G) x i HL Hi). apply rsum_ext. intros j Hj.
  destruct (Nat.eq_dec i j) as [<-|Hne]; [ring|].
  destruct (C09_combinatorial_structure G Hb Ht) as (_ & _ & Ho & _). rewrite Ho by assumption.
  rewrite (Hu j i) by assumption. field.
Qed.

(** What the theorems below need of a graph. *)
Definition plain (G : graph) : Prop := built G /\ undirected G /\ nonneg_weights G /\ g_lap_type G = Combinatorial.

(** G is the Cartesian product of G1 (rows) and G2 (columns). *)
Definition product_of (G G1 G2 : graph) : Prop :=
  let m := g_n_vertices G1 in let w := g_n_vertices G2 in
  g_n_vertices G = (m * w)%nat /\
  forall r c r' c', (r < m)%nat -> (c < w)%nat -> (r' < m)%nat -> (c' < w)%nat ->
    wt G (w * r + c) (w * r' + c') = (if Nat.eqb r r' then wt G2 c c' else 0) + (if Nat.eqb c c' then wt G1 r r' else 0).

Lemma product_basis G G1 G2 v1 U1 v2 U2 : plain G -> plain G1 -> plain G2 -> product_of G G1 G2 ->
  eigenbasis (g_n_vertices G1) (gL G1) v1 U1 -> eigenbasis (g_n_vertices G2) (gL G2) v2 U2 ->
  eigenbasis (g_n_vertices G) (gL G) (kron_sum (g_n_vertices G2) v1 v2) (kron (g_n_vertices G2) U1 U2).
Proof.
  intros (Hb & Hu & Hp & Ht) (Hb1 & Hu1 & Hp1 & Ht1) (Hb2 & Hu2 & Hp2 & Ht2) (Hn & Hw) (O1 & E1) (O2 & E2).
  pose proof (fun x i => lap_wt G x i Hb Hu Hp Ht) as L. pose proof (fun x i => lap_wt G1 x i Hb1 Hu1 Hp1 Ht1) as L1. pose proof (fun x i => lap_wt G2 x i Hb2 Hu2 Hp2 Ht2) as L2.
  rewrite Hn in *. set (m := g_n_vertices G1) in *. set (w := g_n_vertices G2) in *. clearbody m w.
  assert (P : forall i, (i < m * w)%nat -> exists r c, (r < m)%nat /\ (c < w)%nat /\ i = (w * r + c)%nat).
  { intros i Hi. assert (0 < w)%nat by nia. destruct (pos_of w i ltac:(lia)) as (E' & Hc'). exists (rowof w i), (colof w i). split; [apply row_lt; lia|]. split; [exact Hc'|exact E']. }
  split.
  - intros k l Hk Hl. destruct (P k Hk) as (a & b & Ha & Hb' & ->), (P l Hl) as (a' & b' & Ha' & Hb'' & ->). rewrite rsum_grid. unfold kron.
    rewrite (sum2_ext m w _ (fun r c => (U1 r a * U1 r a') * (U2 c b * U2 c b'))).
    2:{ intros r c Hr Hc. rewrite !row_pos, !col_pos by assumption. ring. }
    rewrite rsum_prod, (O1 a a' Ha Ha'), (O2 b b' Hb' Hb'').
    destruct (Nat.eqb_spec a a') as [<-|Na]; [destruct (Nat.eqb_spec b b') as [<-|Nb]|].
    + rewrite Nat.eqb_refl. ring.
    + destruct (Nat.eqb_spec (w * a + b) (w * a + b')); [lia|ring].
    + destruct (Nat.eqb_spec (w * a + b) (w * a' + b')) as [E|E]; [|ring]. apply pos_inj in E; try assumption. destruct E; contradiction.
  - intros i k Hi Hk. destruct (P k Hk) as (a & b & Ha & Hb' & ->), (P i Hi) as (r & c & Hr & Hc & ->). rewrite L by exact Hi. rewrite rsum_grid.
    unfold kron, kron_sum. rewrite !row_pos, !col_pos by assumption.
    rewrite (sum2_ext m w _ (fun r' c' => (if Nat.eqb r r' then wt G2 c c' * (U2 c b - U2 c' b) * U1 r a else 0) + (if Nat.eqb c c' then wt G1 r r' * (U1 r a - U1 r' a) * U2 c b else 0))).
    2:{ intros r' c' Hr' Hc'. rewrite Hw by assumption. rewrite !row_pos, !col_pos by assumption. destruct (Nat.eqb_spec r r') as [<-|], (Nat.eqb_spec c c') as [<-|]; ring. }
    rewrite sum2_plus. 
    rewrite (rsum_single m _ r Hr).
    2:{ intros r' Hr' Hne. apply rsum_0. intros c' _. destruct (Nat.eqb_spec r r'); [lia|reflexivity]. }
    rewrite (rsum_ext m (fun r' => \sum_(c' < w) (if Nat.eqb c c' then _ else 0)) (fun r' => wt G1 r r' * (U1 r a - U1 r' a) * U2 c b)).
    2:{ intros r' Hr'. rewrite (rsum_single w _ c Hc); [rewrite Nat.eqb_refl; reflexivity|]. intros c' Hc' Hne. destruct (Nat.eqb_spec c c'); [lia|reflexivity]. }
    rewrite Nat.eqb_refl. rewrite !rsum_scal_r. rewrite <- (L1 (fun r' => U1 r' a) r Hr), <- (L2 (fun c' => U2 c' b) c Hc). rewrite E1, E2 by assumption. ring.
Qed.

(** The spectrum and the transform of a product. *)
Lemma product_transform G G1 G2 lmax e U lmax1 e1 U1 lmax2 e2 U2 : plain G -> plain G1 -> plain G2 -> product_of G G1 G2 ->
  spectral (mkview (g_n_vertices G) (gL G) lmax e U) ->
  spectral (mkview (g_n_vertices G1) (gL G1) lmax1 e1 U1) -> spectral (mkview (g_n_vertices G2) (gL G2) lmax2 e2 U2) ->
  let w := g_n_vertices G2 in
  e = rsort (flat_map (fun a => map (fun b => a + b) e2) e1) /\
  (forall a b i, (a < g_n_vertices G1)%nat -> (b < w)%nat -> (i < g_n_vertices G)%nat ->
     mulv (g_n_vertices G) (gL G) (fun j => kron w U1 U2 j (w * a + b)%nat) i = (nth a e1 0 + nth b e2 0) * kron w U1 U2 i (w * a + b)%nat) /\
  forall x t, gft (mkview (g_n_vertices G) (gL G) lmax e U) (vec_arr (g_n_vertices G) x) = Ok t -> forall h : R -> R,
    \sum_(k < g_n_vertices G) (h (nth k e 0) * (aget t [k])²) =
    \sum_(a < g_n_vertices G1) \sum_(b < w) (h (nth a e1 0 + nth b e2 0) *
      (\sum_(r < g_n_vertices G1) \sum_(c < w) (U1 r a * U2 c b * x (w * r + c)%nat))²).
Proof.
  intros HG HG1 HG2 HP (Hlen & HV) (Hlen1 & HV1) (Hlen2 & HV2) w. cbn [v_N v_L v_e v_U] in *.
  pose proof (product_basis G G1 G2 _ _ _ _ HG HG1 HG2 HP (eigh_eigenbasis _ _ _ _ HV1) (eigh_eigenbasis _ _ _ _ HV2)) as HB. pose proof HB as (HO & HE). destruct HP as (Hn & Hw).
  fold w in HB, HO, HE, Hn, Hlen2, HV2. pose proof (built_symmetric G (proj1 HG)) as Hs. rewrite Hn in *. set (m := g_n_vertices G1) in *. clearbody m w.
  split; [|split].
  - assert (EL : flat_map (fun a => map (fun b => a + b) e2) e1 = map (kron_sum w (fun k => nth k e1 0) (fun k => nth k e2 0)) (seq 0 (m * w))).
    { clear - Hlen1 Hlen2. revert m Hlen1. induction e1 as [|a l1 IH] using rev_ind; intros m Hlen1; [cbn in Hlen1; subst m; reflexivity|].
      rewrite app_length in Hlen1. cbn [List.length] in Hlen1. assert (Em : m = S (List.length l1)) by lia. rewrite Em. clear Em Hlen1 m.
      replace (S (List.length l1) * w)%nat with (List.length l1 * w + w)%nat by lia. rewrite seq_app, map_app, flat_map_app. cbn [flat_map]. rewrite app_nil_r. f_equal.
      - rewrite (IH (List.length l1) eq_refl). apply map_ext_in. intros k Hk. apply in_seq in Hk. unfold kron_sum. f_equal. rewrite app_nth1; [reflexivity|].
        apply row_lt; nia.
      - cbn [Nat.add]. apply (nth_ext _ _ 0 0); rewrite !map_length, ?seq_length; [exact Hlen2|]. intros j Hj. rewrite Hlen2 in Hj.
        rewrite (nth_indep _ 0 (a + 0)) by (rewrite map_length; lia). rewrite (map_nth (fun b => a + b)).
        rewrite (nth_indep (map _ (seq (List.length l1 * w) w)) 0 (kron_sum w (fun k => nth k (l1 ++ [a]) 0) (fun k => nth k e2 0) 0%nat)) by (rewrite map_length, seq_length; lia).
        rewrite map_nth, seq_nth by lia. unfold kron_sum. replace (List.length l1 * w + j)%nat with (w * List.length l1 + j)%nat by lia. rewrite row_pos, col_pos by exact Hj.
        rewrite nth_middle. reflexivity. }
    assert (Hr : List.length (rsort (flat_map (fun a => map (fun b => a + b) e2) e1)) = (m * w)%nat) by (rewrite (Permutation_length (rsort_perm _)), EL, map_length, seq_length; reflexivity).
    apply (nth_ext _ _ 0 0); [congruence|]. intros j Hj. rewrite Hlen in Hj. rewrite EL.
    apply (eigenbasis_values (m * w) (gL G) _ _ (fun j => nth j e 0) U HB HV j Hj).
  - intros a b i Ha Hb Hi. rewrite (HE i (w * a + b)%nat Hi) by (apply pos_lt; assumption). unfold kron_sum. rewrite row_pos, col_pos by exact Hb. reflexivity.
  - intros x t Et h. unfold gft in Et. cbn in Et. rewrite Nat.eqb_refl in Et. cbn in Et. injection Et as <-. unfold Rsqr. cbn [aget hd tl].
    pose proof (eigenbasis_energy (m * w) (gL G) _ U _ _ h Hs (eigh_eigenbasis _ _ _ _ HV) HB x) as EE. refine (eq_trans EE _). rewrite rsum_grid.
    apply sum2_ext. intros a b Ha Hb. unfold kron_sum. rewrite row_pos, col_pos by exact Hb. f_equal.
    assert (EC : coef (m * w) (kron w U1 U2) x (w * a + b)%nat = \sum_(r < m) \sum_(c < w) (U1 r a * U2 c b * x (w * r + c)%nat)).
    { unfold coef. rewrite rsum_grid. apply sum2_ext. intros r c Hr Hc. unfold kron. rewrite !row_pos, !col_pos by assumption. reflexivity. }
    rewrite EC. reflexivity.
Qed.

Lemma path_plain N G : (1 <= N)%nat -> Path N false Combinatorial = Ok G ->
  plain G /\ g_n_vertices G = N /\ forall i j, (i < N)%nat -> (j < N)%nat -> wt G i j = if Nat.eqb (ndist i j) 1 then 1 else 0.
Proof.
  intros HN EG. destruct (C44_path N Combinatorial HN (or_introl eq_refl)) as (G' & EG' & HU & Hu & _ & Hp & _ & _ & Ht & _).
  rewrite EG in EG'. assert (G' = G) by congruence. subst G'. pose proof HU as (Hb & Hn & Hw). split; [repeat split; assumption|]. split; [exact Hn|].
  intros i j Hi Hj. destruct (Hw i j Hi Hj) as (H1 & H2). destruct (Nat.eqb_spec (ndist i j) 1) as [E|E]; unfold ndist in E; [apply H1|apply H2]; lia.
Qed.
Lemma ring_plain N G : (3 <= N)%nat -> Ring N 1 Combinatorial = Ok G ->
  plain G /\ g_n_vertices G = N /\ forall i j, (i < N)%nat -> (j < N)%nat -> wt G i j = if Nat.eqb (circ N i j) 1 then 1 else 0.
Proof.
  intros HN EG. destruct (C45_ring N 1 Combinatorial HN ltac:(lia) (or_introl eq_refl)) as (G' & EG' & HU & Hu & _ & Hp & _).
  rewrite EG in EG'. assert (G' = G) by congruence. subst G'. pose proof HU as (Hb & Hn & Hw).
  assert (Ht : g_lap_type G = Combinatorial) by (unfold Ring in EG; destruct (Nat.ltb N 3); [discriminate|]; destruct (Nat.ltb N (2 * 1)); [discriminate|]; apply init_laptype in EG; exact EG).
  split; [repeat split; assumption|]. split; [exact Hn|].
  intros i j Hi Hj. destruct (Hw i j Hi Hj) as (H1 & H2). destruct (Nat.eqb_spec (circ N i j) 1) as [E|E]; [apply H1|apply H2]; lia.
Qed.

Lemma grid_product N1 N2 G P1 P2 : (1 <= N1)%nat -> (2 <= N2)%nat -> Grid2d N1 (Some N2) 0 Combinatorial = Ok G ->
  Path N1 false Combinatorial = Ok P1 -> Path N2 false Combinatorial = Ok P2 -> plain G /\ product_of G P1 P2.
Proof.
  intros H1 H2 EG EP1 EP2. destruct (path_plain N1 P1 H1 EP1) as (_ & M1 & W1). destruct (path_plain N2 P2 ltac:(lia) EP2) as (_ & M2 & W2).
  destruct (C46_grid N1 N2 0 Combinatorial H1 H2 (or_introl eq_refl)) as (G' & EG' & Hb & Hn & Hw & Hu & _ & Hp & _).
  rewrite EG in EG'. assert (G' = G) by congruence. subst G'.
  assert (Ht : g_lap_type G = Combinatorial).
  { unfold Grid2d in EG. destruct (_ || _ || _)%bool; [discriminate|]. destruct (symmetrize _ _); cbn [bindr] in EG; [|discriminate]. apply init_laptype in EG. exact EG. }
  split; [repeat split; assumption|]. unfold product_of. rewrite M1, M2. split; [exact Hn|]. intros r c r' c' Hr Hc Hr' Hc'.
  destruct (Hw (N2 * r + c)%nat (N2 * r' + c')%nat (pos_lt _ _ _ _ Hr Hc) (pos_lt _ _ _ _ Hr' Hc')) as (A1 & A2 & A3).
  unfold straight, oblique in A1, A2, A3. rewrite !row_pos, !col_pos in A1, A2, A3 by assumption. rewrite W1, W2 by assumption.
  assert (Z : Rmax 0 0 = 0) by (apply Rmax_left; lra). rewrite Z in A2.
  assert (D0 : forall a b, ndist a b = 0%nat <-> a = b) by (intros; unfold ndist; lia).
  destruct (Nat.eqb_spec r r') as [Er|Er]; destruct (Nat.eqb_spec c c') as [Ec|Ec]; pose proof (D0 r r') as Dr; pose proof (D0 c c') as Dc.
  - destruct (Nat.eqb_spec (ndist r r') 1); [lia|]. destruct (Nat.eqb_spec (ndist c c') 1); [lia|]. rewrite A3 by lia. ring.
  - destruct (Nat.eqb_spec (ndist c c') 1); [rewrite A1 by lia|rewrite A3 by lia]; ring.
  - destruct (Nat.eqb_spec (ndist r r') 1); [rewrite A1 by lia|rewrite A3 by lia]; ring.
  - destruct (Nat.eq_dec (ndist r r') 1); [destruct (Nat.eq_dec (ndist c c') 1)|]; [rewrite A2 by lia|rewrite A3 by lia|rewrite A3 by lia]; ring.
Qed.
Lemma torus_product w m G R1 R2 : (3 <= w)%nat -> (3 <= m)%nat -> Torus w (Some m) Combinatorial = Ok G ->
  Ring m 1 Combinatorial = Ok R1 -> Ring w 1 Combinatorial = Ok R2 -> plain G /\ product_of G R1 R2.
Proof.
  intros H1 H2 EG EP1 EP2. destruct (ring_plain m R1 H2 EP1) as (_ & M1 & W1). destruct (ring_plain w R2 H1 EP2) as (_ & M2 & W2).
  destruct (C47_torus w m Combinatorial H1 H2 (or_introl eq_refl)) as (G' & EG' & HU & Hu & _ & Hp & _).
  rewrite EG in EG'. assert (G' = G) by congruence. subst G'. pose proof HU as (Hb & Hn & Hw).
  assert (Ht : g_lap_type G = Combinatorial) by (unfold Torus in EG; destruct (_ || _)%bool; [discriminate|]; apply init_laptype in EG; exact EG).
  split; [repeat split; assumption|]. unfold product_of. rewrite M1, M2. split; [exact Hn|]. intros r c r' c' Hr Hc Hr' Hc'.
  destruct (Hw (w * r + c)%nat (w * r' + c')%nat (pos_lt _ _ _ _ Hr Hc) (pos_lt _ _ _ _ Hr' Hc')) as (A1 & A2).
  unfold torus_adj in A1, A2. rewrite !row_pos, !col_pos in A1, A2 by assumption. rewrite W1, W2 by assumption.
  assert (D0 : forall n a b, a = b -> circ n a b = 0%nat) by (intros n a b ->; unfold circ; lia).
  destruct (Nat.eqb_spec r r') as [Er|Er]; destruct (Nat.eqb_spec c c') as [Ec|Ec].
  - pose proof (D0 m r r' Er). pose proof (D0 w c c' Ec). destruct (Nat.eqb_spec (circ w c c') 1); [lia|]. destruct (Nat.eqb_spec (circ m r r') 1); [lia|]. rewrite A2 by lia. ring.
  - destruct (Nat.eqb_spec (circ w c c') 1); [rewrite A1 by lia|rewrite A2 by lia]; ring.
  - destruct (Nat.eqb_spec (circ m r r') 1); [rewrite A1 by lia|rewrite A2 by lia]; ring.
  - rewrite A2 by lia. ring.
Qed.

(** Whatever the eigensolvers computed for the grid and for the two paths: the eigenvalues of the grid are the sorted sums of an
    eigenvalue of Path(N1) and one of Path(N2), every Kronecker product of two columns is an eigenvector, and the energy of the
    GFT of a signal over any set of eigenvalues is that of the Kronecker product of the two path GFTs. *)
Theorem C83_grid_gft_is_a_kronecker_product :
  forall N1 N2 G P1 P2 lmax e U lmax1 e1 U1 lmax2 e2 U2, (1 <= N1)%nat -> (2 <= N2)%nat ->
    Grid2d N1 (Some N2) 0 Combinatorial = Ok G -> Path N1 false Combinatorial = Ok P1 -> Path N2 false Combinatorial = Ok P2 ->
    spectral (mkview (g_n_vertices G) (gL G) lmax e U) ->
    spectral (mkview (g_n_vertices P1) (gL P1) lmax1 e1 U1) -> spectral (mkview (g_n_vertices P2) (gL P2) lmax2 e2 U2) ->
    e = rsort (flat_map (fun a => map (fun b => a + b) e2) e1) /\
    (forall a b i, (a < N1)%nat -> (b < N2)%nat -> (i < N1 * N2)%nat ->
       mulv (N1 * N2) (gL G) (fun j => U1 (rowof N2 j) a * U2 (colof N2 j) b) i = (nth a e1 0 + nth b e2 0) * (U1 (rowof N2 i) a * U2 (colof N2 i) b)) /\
    forall x t, gft (mkview (g_n_vertices G) (gL G) lmax e U) (vec_arr (N1 * N2) x) = Ok t -> forall h : R -> R,
      \sum_(k < N1 * N2) (h (nth k e 0) * (aget t [k])²) =
      \sum_(a < N1) \sum_(b < N2) (h (nth a e1 0 + nth b e2 0) * (\sum_(r < N1) \sum_(c < N2) (U1 r a * U2 c b * x (N2 * r + c)%nat))²).
Proof.
  intros N1 N2 G P1 P2 lmax e U lmax1 e1 U1 lmax2 e2 U2 H1 H2 EG EP1 EP2 HV HV1 HV2.
  destruct (grid_product N1 N2 G P1 P2 H1 H2 EG EP1 EP2) as (HG & HP). destruct (path_plain N1 P1 H1 EP1) as (HG1 & M1 & _). destruct (path_plain N2 P2 ltac:(lia) EP2) as (HG2 & M2 & _).
  pose proof (proj1 HP) as Hn. destruct (product_transform G P1 P2 lmax e U lmax1 e1 U1 lmax2 e2 U2 HG HG1 HG2 HP HV HV1 HV2) as (A & B & C).
  cbv beta zeta in Hn. rewrite Hn, M1, M2 in *. split; [exact A|]. split.
  - intros a b i Ha Hb Hi. specialize (B a b i Ha Hb Hi). unfold kron in B. rewrite row_pos, col_pos in B by exact Hb. exact B.
  - exact C.
Qed.
Theorem C83_torus_gft_is_a_kronecker_product :
  forall w m G R1 R2 lmax e U lmax1 e1 U1 lmax2 e2 U2, (3 <= w)%nat -> (3 <= m)%nat ->
    Torus w (Some m) Combinatorial = Ok G -> Ring m 1 Combinatorial = Ok R1 -> Ring w 1 Combinatorial = Ok R2 ->
    spectral (mkview (g_n_vertices G) (gL G) lmax e U) ->
    spectral (mkview (g_n_vertices R1) (gL R1) lmax1 e1 U1) -> spectral (mkview (g_n_vertices R2) (gL R2) lmax2 e2 U2) ->
    e = rsort (flat_map (fun a => map (fun b => a + b) e2) e1) /\
    (forall a b i, (a < m)%nat -> (b < w)%nat -> (i < m * w)%nat ->
       mulv (m * w) (gL G) (fun j => U1 (rowof w j) a * U2 (colof w j) b) i = (nth a e1 0 + nth b e2 0) * (U1 (rowof w i) a * U2 (colof w i) b)) /\
    forall x t, gft (mkview (g_n_vertices G) (gL G) lmax e U) (vec_arr (m * w) x) = Ok t -> forall h : R -> R,
      \sum_(k < m * w) (h (nth k e 0) * (aget t [k])²) =
      \sum_(a < m) \sum_(b < w) (h (nth a e1 0 + nth b e2 0) * (\sum_(r < m) \sum_(c < w) (U1 r a * U2 c b * x (w * r + c)%nat))²).
Proof.
  intros w m G P1 P2 lmax e U lmax1 e1 U1 lmax2 e2 U2 H1 H2 EG EP1 EP2 HV HV1 HV2.
  destruct (torus_product w m G P1 P2 H1 H2 EG EP1 EP2) as (HG & HP). destruct (ring_plain m P1 H2 EP1) as (HG1 & M1 & _). destruct (ring_plain w P2 H1 EP2) as (HG2 & M2 & _).
  pose proof (proj1 HP) as Hn. destruct (product_transform G P1 P2 lmax e U lmax1 e1 U1 lmax2 e2 U2 HG HG1 HG2 HP HV HV1 HV2) as (A & B & C).
  cbv beta zeta in Hn. rewrite Hn, M1, M2 in *. split; [exact A|]. split.
  - intros a b i Ha Hb Hi. specialize (B a b i Ha Hb Hi). unfold kron in B. rewrite row_pos, col_pos in B by exact Hb. exact B.
  - exact C.
Qed.

(** All the hypotheses can be met: the constructors succeed and every built graph has an exact eigendecomposition. *)
Example C83_ex : forall N, (3 <= N)%nat -> exists P R G T lP eP UP lR eR UR lG eG UG lT eT UT,
  Path N false Combinatorial = Ok P /\ Ring N 1 Combinatorial = Ok R /\ Grid2d N (Some N) 0 Combinatorial = Ok G /\ Torus N (Some N) Combinatorial = Ok T /\
  spectral (mkview (g_n_vertices P) (gL P) lP eP UP) /\ spectral (mkview (g_n_vertices R) (gL R) lR eR UR) /\
  spectral (mkview (g_n_vertices G) (gL G) lG eG UG) /\ spectral (mkview (g_n_vertices T) (gL T) lT eT UT).
Proof.
  intros N HN.
  destruct (C44_path N Combinatorial ltac:(lia) (or_introl eq_refl)) as (P & EP & (HbP & _) & _).
  destruct (C45_ring N 1 Combinatorial HN ltac:(lia) (or_introl eq_refl)) as (R & ER & (HbR & _) & _).
  destruct (C46_grid N N 0 Combinatorial ltac:(lia) ltac:(lia) (or_introl eq_refl)) as (G & EG & HbG & _).
  destruct (C47_torus N N Combinatorial HN HN (or_introl eq_refl)) as (T & ET & (HbT & _) & _).
  destruct (eigh_list _ _ (built_symmetric P HbP)) as (eP & UP & P1 & P2). destruct (eigh_list _ _ (built_symmetric R HbR)) as (eR & UR & R1 & R2).
  destruct (eigh_list _ _ (built_symmetric G HbG)) as (eG & UG & G1 & G2). destruct (eigh_list _ _ (built_symmetric T HbT)) as (eT & UT & T1 & T2).
  exists P, R, G, T, 0, eP, UP, 0, eR, UR, 0, eG, UG, 0, eT, UT. repeat split; cbn [v_N v_L v_e v_U]; try assumption; try apply P2; try apply R2; try apply G2; try apply T2.
Qed.

(** Concretely: any eigensolver returns 0, 2, 2, 4 for the ring of 4 vertices, and the two middle coefficients of the signal
    (1, 0, 0, 0) have squares adding up to 1/2. *)
Example C83_ring4 : forall G lmax e U t, Ring 4 1 Combinatorial = Ok G -> spectral (mkview (g_n_vertices G) (gL G) lmax e U) ->
  gft (mkview (g_n_vertices G) (gL G) lmax e U) (vec_arr 4 (fun i => if Nat.eqb i 0 then 1 else 0)) = Ok t ->
  (forall j, (j < 4)%nat -> nth j e 0 = nth j [0; 2; 2; 4] 0) /\ (aget t [1%nat])² + (aget t [2%nat])² = 1 / 2.
Proof.
  intros G lmax e U t EG HV Et. destruct (C83_ring_gft_is_the_dft 4 G lmax e U ltac:(lia) EG HV) as (He & Hg). split.
  - intros j Hj. rewrite (He j Hj). destruct j as [|[|[|[|j]]]]; [| | | |lia]; cbn [Nat.div2 INR nth].
    + replace (2 * PI * 0 / (1 + 1 + 1 + 1)) with 0 by field. rewrite cos_0. ring.
    + replace (2 * PI * 1 / (1 + 1 + 1 + 1)) with (PI / 2) by field. rewrite cos_PI2. ring.
    + replace (2 * PI * 1 / (1 + 1 + 1 + 1)) with (PI / 2) by field. rewrite cos_PI2. ring.
    + replace (2 * PI * (1 + 1) / (1 + 1 + 1 + 1)) with PI by field. rewrite cos_PI. ring.
  - destruct (Hg _ t Et) as (_ & H & _). specialize (H 1%nat ltac:(lia) ltac:(lia)). cbn [Nat.mul Nat.sub Nat.add] in H. rewrite H.
    unfold dft_re, dft_im. cbn [rsum Nat.eqb INR]. rewrite Rmult_0_r, cos_0, sin_0. unfold Rsqr. field.
Qed.
