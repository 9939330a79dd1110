(** C101: filters, transforms and energies respect the symmetries of the graph; on rings and tori filtering is a circular
    convolution, on complete graphs it mixes a signal with its mean, and heat on grids and tori is separable. *)
From Coq Require Import Reals Lra Lia List Arith Bool String ZArith FinFun Permutation.
From Coq Require Import List.
From Verif.Base Require Import RSum Prelude LinAlg Solve.
From Verif.Spec Require Import Matrix GraphSpec Card Reach GenSpec NdArray FilterSpec LapSpec LearnSpec SymSpec.
From Verif.Model Require Import Sparse Graph Utils Generators Filter Kernels Learning.
From Verif.Proofs Require Import SparseFacts InitFacts SpectralFacts SpectrumFacts FilterFacts MaxPrinciple.
From Verif.Props Require Import Core Laplacian Filtering Banks SpectrumProps GenProps GridProps TransformProps HeatProps LearningProps.
Import ListNotations.
Open Scope R_scope.

(** ** Symmetries in general *)
Lemma symmetry_renamed G p : symmetry G p -> exists q, renamed G G p q.
Proof.
  intros (Hb & Hi & Hw). set (n := g_n_vertices G) in *.
  assert (Hs : bSurjective n p).
  { apply (bInjective_bSurjective (n := n) (f := p)); [exact Hb|]. intros i j Hi' Hj E. apply Hi; assumption. }
  destruct (fin_choice n (fun j i => (i < n)%nat /\ p i = j) 0%nat) as (q & Hq).
  { intros j Hj. destruct (Hs j Hj) as (i & H1 & H2). exists i. split; assumption. }
  exists q. unfold renamed. fold n. split; [reflexivity|]. split; [reflexivity|]. split.
  - intros i Hii. split; [apply Hb; exact Hii|]. destruct (Hq (p i) (Hb i Hii)) as (H1 & H2). apply Hi; assumption.
  - split; [|exact Hw]. intros i Hii. apply Hq. exact Hii.
Qed.

(** Anything that is the same for equal eigenvalues commutes with the symmetries. *)
Lemma mult_moved G lmax e U p (h : vec) x y : built G -> nonneg_weights G -> symmetry G p ->
  let F := mkview (g_n_vertices G) (gL G) lmax e U in spectral F ->
  (forall k l, (k < g_n_vertices G)%nat -> (l < g_n_vertices G)%nat -> nth k e 0 = nth l e 0 -> h k = h l) ->
  moved (g_n_vertices G) p x y -> moved (g_n_vertices G) p (mult F h x) (mult F h y).
Proof.
  intros Hb Hp Hs F HF Hh Hm i Hi. set (n := g_n_vertices G) in *.
  destruct (symmetry_renamed G p Hs) as (q & Hr). pose proof (renamed_L G G p q Hb Hb Hp Hr) as HL. fold n in HL.
  destruct Hr as (_ & _ & Hpq & Hqp & _). fold n in Hpq, Hqp. assert (Hrel : relabel n p q) by (split; assumption).
  set (F1 := mkview n (gL G) lmax e (fun i k => U (q i) k)).
  assert (HF1 : spectral F1).
  { destruct HF as (Hlen & HU). split; [exact Hlen|]. apply (relabel_eigh n p q (gL G)); assumption. }
  destruct (Hpq i Hi) as (Hpi & Hqi).
  rewrite <- (mult_unique F F1 h y (p i) HF HF1 eq_refl (fun i j _ _ => eq_refl) Hh Hpi).
  unfold mult, fhat. cbn [F1 F v_N v_U]. rewrite Hqi. apply rsum_ext. intros k Hk. do 2 f_equal.
  rewrite <- (relabel_sum n p q (fun j => U (q j) k * y j) Hrel). apply rsum_ext. intros j Hj. rewrite (proj2 (Hpq j Hj)), (Hm j Hj). reflexivity.
Qed.

(** Moving a signal along a symmetry and filtering it gives the filtered signal, moved: for every bank, by either method. *)
Theorem C101_filters_respect_symmetries :
  forall G lmax e U p x y ks m, built G -> nonneg_weights G -> symmetry G p ->
    let F := mkview (g_n_vertices G) (gL G) lmax e U in spectral F ->
    (m = Exact -> exists gs, ks = map pw gs) -> (exists H, response F ks m H) -> moved (g_n_vertices G) p x y ->
    exists out out', gfilter F ks m (vec_arr (g_n_vertices G) x) = Ok out /\ gfilter F ks m (vec_arr (g_n_vertices G) y) = Ok out' /\
      shape out' = shape out /\
      forall f, (f < List.length ks)%nat -> moved (g_n_vertices G) p (ans F (List.length ks) out f) (ans F (List.length ks) out' f).
Proof.
  intros G lmax e U p x y ks m Hb Hp Hs F HF Hpw HR Hm.
  destruct (gains F F ks m HF HF eq_refl (fun i j _ _ => eq_refl) eq_refl Hpw HR) as (H & RH & _ & Hinv).
  destruct (one_signal F ks m H x HF RH) as (out & E & Sh & Ho). destruct (one_signal F ks m H y HF RH) as (out' & E' & Sh' & Ho').
  exists out, out'. split; [exact E|]. split; [exact E'|]. split; [congruence|]. intros f Hf i Hi.
  rewrite Ho by assumption. rewrite Ho'; [|apply (proj1 Hs); exact Hi|exact Hf].
  apply (mult_moved G lmax e U p (H f) x y Hb Hp Hs HF); try assumption. intros k l. apply Hinv.
Qed.

(** A signal that a symmetry leaves as it is, is filtered into signals that it leaves as they are. *)
Theorem C101_symmetric_signals_stay_symmetric :
  forall G lmax e U p x ks m, built G -> nonneg_weights G -> symmetry G p ->
    let F := mkview (g_n_vertices G) (gL G) lmax e U in spectral F ->
    (m = Exact -> exists gs, ks = map pw gs) -> (exists H, response F ks m H) -> moved (g_n_vertices G) p x x ->
    exists out, gfilter F ks m (vec_arr (g_n_vertices G) x) = Ok out /\
      forall f, (f < List.length ks)%nat -> moved (g_n_vertices G) p (ans F (List.length ks) out f) (ans F (List.length ks) out f).
Proof.
  intros G lmax e U p x ks m Hb Hp Hs F HF Hpw HR Hm.
  destruct (C101_filters_respect_symmetries G lmax e U p x x ks m Hb Hp Hs HF Hpw HR Hm) as (out & out' & E & E' & _ & H).
  fold F in E, E', H. rewrite E in E'. injection E' as <-. exists out. split; [exact E|exact H].
Qed.

(** A kernel localized at p i is the kernel localized at i, moved. *)
Theorem C101_localized_kernels_move :
  forall G lmax e U p ks m i, built G -> nonneg_weights G -> symmetry G p ->
    let F := mkview (g_n_vertices G) (gL G) lmax e U in spectral F ->
    (m = Exact -> exists gs, ks = map pw gs) -> (exists H, response F ks m H) -> (i < g_n_vertices G)%nat ->
    exists out out', localize F ks m (Z.of_nat i) = Ok out /\ localize F ks m (Z.of_nat (p i)) = Ok out' /\
      forall f, (f < List.length ks)%nat -> moved (g_n_vertices G) p (ans F (List.length ks) out f) (ans F (List.length ks) out' f).
Proof.
  intros G lmax e U p ks m i Hb Hp Hs F HF Hpw HR Hi.
  destruct (gains F F ks m HF HF eq_refl (fun i j _ _ => eq_refl) eq_refl Hpw HR) as (H & RH & _ & Hinv).
  destruct (C26_localize F ks m H i HF RH Hi) as (out & E & _ & Ho). destruct (C26_localize F ks m H (p i) HF RH (proj1 Hs i Hi)) as (out' & E' & _ & Ho').
  exists out, out'. split; [exact E|]. split; [exact E'|]. intros f Hf j Hj.
  rewrite Ho by assumption. rewrite Ho'; [|exact Hf|apply (proj1 Hs); exact Hj]. f_equal.
  apply (mult_moved G lmax e U p (H f) _ _ Hb Hp Hs HF); try assumption; [intros k l; apply Hinv|].
  intros l Hl. destruct (Nat.eqb_spec l i) as [->|Hne]; [rewrite Nat.eqb_refl; reflexivity|].
  destruct (Nat.eqb_spec (p l) (p i)) as [Ep|]; [|reflexivity]. destruct Hs as (_ & Hinj & _). apply Hinj in Ep; try assumption. contradiction.
Qed.

(** The energy of the Fourier transform over any set of eigenvalues, and the smoothness, do not change. *)
Theorem C101_spectral_energy_is_invariant :
  forall G lmax e U p x y, built G -> nonneg_weights G -> symmetry G p ->
    let F := mkview (g_n_vertices G) (gL G) lmax e U in spectral F -> moved (g_n_vertices G) p x y ->
    exists t t', gft F (vec_arr (g_n_vertices G) x) = Ok t /\ gft F (vec_arr (g_n_vertices G) y) = Ok t' /\
      (forall h : R -> R, \sum_(k < g_n_vertices G) (h (nth k e 0) * (aget t' [k])²) = \sum_(k < g_n_vertices G) (h (nth k e 0) * (aget t [k])²)) /\
      quad (g_n_vertices G) (gL G) y = quad (g_n_vertices G) (gL G) x.
Proof.
  intros G lmax e U p x y Hb Hp Hs F HF Hm. set (n := g_n_vertices G) in *.
  destruct (symmetry_renamed G p Hs) as (q & Hr). pose proof (renamed_L G G p q Hb Hb Hp Hr) as HL. fold n in HL.
  destruct Hr as (_ & _ & Hpq & Hqp & _). fold n in Hpq, Hqp. assert (Hrel : relabel n p q) by (split; assumption).
  unfold gft. cbn. fold n. rewrite !Nat.eqb_refl. cbn.
  eexists. eexists. split; [reflexivity|]. split; [reflexivity|].
  assert (EN : forall h : R -> R, \sum_(k < n) (h (nth k e 0) * (fhat F y k)²) = \sum_(k < n) (h (nth k e 0) * (fhat F x k)²)).
  { intros h. assert (A : forall z, \sum_(k < n) (h (nth k e 0) * (fhat F z k)²) = dot n (mult F (fun k => h (nth k e 0)) z) z).
    { intros z. rewrite (mult_dot F HF). apply rsum_ext. intros k Hk. unfold Rsqr. ring. }
    rewrite !A. unfold dot. rewrite <- (relabel_sum n p q (fun i => mult F (fun k => h (nth k e 0)) y i * y i) Hrel).
    apply rsum_ext. intros i Hi. rewrite (Hm i Hi). f_equal. apply (mult_moved G lmax e U p _ x y Hb Hp Hs HF); try assumption.
    intros k l _ _ E. rewrite E. reflexivity. }
  split; [exact EN|].
  unfold quad, dot. rewrite <- (relabel_sum n p q (fun i => y i * mulv n (gL G) y i) Hrel). apply rsum_ext. intros i Hi. rewrite (Hm i Hi). f_equal.
  unfold mulv. rewrite <- (relabel_sum n p q (fun j => gL G (p i) j * y j) Hrel). apply rsum_ext. intros j Hj. rewrite (HL i j Hi Hj), (Hm j Hj). reflexivity.
Qed.

(** ** Predictions *)
Lemma moved_quad G p x y : built G -> nonneg_weights G -> symmetry G p -> moved (g_n_vertices G) p x y ->
  quad (g_n_vertices G) (gL G) y = quad (g_n_vertices G) (gL G) x.
Proof.
  intros Hb Hp Hs Hm. destruct (C82_every_graph_has_a_fourier_basis G 0 Hb) as (e & U & HF).
  destruct (C101_spectral_energy_is_invariant G 0 e U p x y Hb Hp Hs HF Hm) as (t & t' & _ & _ & _ & E). exact E.
Qed.
Definition moved_mask (n : nat) (p : nat -> nat) (M M' : list bool) : Prop := forall i, (i < n)%nat -> nth (p i) M' false = nth i M false.

(** Tikhonov regression (tau > 0, and the interpolation that tau = 0 asks for): with the measurements and the mask moved
    along a symmetry, the prediction is the prediction, moved. *)
Theorem C101_predictions_respect_symmetries :
  forall G p y y' M M' tau sol sol', built G -> nonneg_weights G -> g_lap_type G = Combinatorial -> symmetry G p ->
    let n := g_n_vertices G in moved n p y y' -> moved_mask n p M M' -> List.length M = n -> List.length M' = n -> covered G M -> covered G M' ->
    (0 < tau /\ cg_ok G M tau y (sol 0%nat) /\ cg_ok G M' tau y' (sol' 0%nat) \/
     tau <= 0 /\ spsolve_labels_ok G M y (sol 0%nat) /\ spsolve_labels_ok G M' y' (sol' 0%nat)) ->
    exists x x', regression_tikhonov G false (vec_arr n y) M tau sol = Ok x /\ regression_tikhonov G false (vec_arr n y') M' tau sol' = Ok x' /\
      moved n p (fun i => aget x [i]) (fun i => aget x' [i]).
Proof.
  intros G p y y' M M' tau sol sol' Hb Hp Ht Hs n Hy HM Hl Hl' HC HC' Hcase.
  destruct (symmetry_renamed G p Hs) as (q & (_ & _ & Hpq & Hqp & _)). fold n in Hpq, Hqp.
  assert (Hrel : relabel n p q) by (split; assumption).
  assert (Mv : forall x, moved n p x (fun i => x (q i))) by (intros x i Hi; cbv beta; rewrite (proj2 (Hpq i Hi)); reflexivity).
  assert (Mb : forall x', moved n p (fun i => x' (p i)) x') by (intros x' i Hi; reflexivity).
  assert (Q1 : forall x, quad n (gL G) (fun i => x (q i)) = quad n (gL G) x) by (intros x; apply (moved_quad G p); auto).
  assert (Q2 : forall x', quad n (gL G) (fun i => x' (p i)) = quad n (gL G) x') by (intros x'; symmetry; apply (moved_quad G p); auto).
  assert (Hcol : forall z, columns n (vec_arr n z) 1 (fun _ i => z i)) by (intros z; apply (columns1 n (fun idx => z (hd 0%nat idx)))).
  destruct Hcase as [(Htau & S1 & S2)|(Htau & S1 & S2)].
  - assert (Reg : forall z N so, List.length N = n -> regression_tikhonov G false (vec_arr n z) N tau so = Ok (Arr [n] (fun idx => so 0%nat (ix idx 0)))).
    { intros z N so HN. unfold regression_tikhonov. destruct (Rltb_spec 0 tau); [|lra]. cbn [shape vec_arr]. rewrite HN. fold n. rewrite Nat.eqb_refl. reflexivity. }
    eexists. eexists. split; [apply Reg; exact Hl|]. split; [apply Reg; exact Hl'|]. cbn [aget ix nth].
    assert (C : forall x, tik_cost n (gL G) M' tau y' (fun i => x (q i)) = tik_cost n (gL G) M tau y x).
    { intros x. unfold tik_cost. rewrite Q1. f_equal. rewrite <- (relabel_sum n p q (fun i => if nth i M' false then _ else 0) Hrel).
      apply rsum_ext. intros i Hi. rewrite (HM i Hi), (proj2 (Hpq i Hi)), (Hy i Hi). reflexivity. }
    assert (Min : forall N z x, cg_ok G N tau z x -> forall v, tik_cost n (gL G) N tau z x <= tik_cost n (gL G) N tau z v).
    { intros N z x Hx v. pose proof (C39_inexact_solver G N tau z x v Hb Hp Ht Htau) as I. cbv zeta in I. fold n in I. rewrite (rsum_0 n (fun i => (v i - x i) * _)) in I; [lra|].
      intros i Hi. specialize (Hx i Hi). fold n in Hx. rewrite Hx. ring. }
    destruct (C39_unique_and_in_range G M' tau y' Hb Hp Ht Htau HC') as (_ & Uq & _). fold n in Uq.
    assert (E : veq n (sol' 0%nat) (fun i => sol 0%nat (q i))).
    { apply (Uq _ _ S2). intros w. rewrite C. refine (Rle_trans _ _ _ (Min M y _ S1 (fun i => w (p i))) _). rewrite <- C. right.
      unfold tik_cost. f_equal.
      - apply rsum_ext. intros i Hi. rewrite (proj2 (Hqp i Hi)). reflexivity.
      - f_equal. unfold quad, dot, mulv. apply rsum_ext. intros i Hi. rewrite (proj2 (Hqp i Hi)). f_equal. apply rsum_ext. intros j Hj. rewrite (proj2 (Hqp j Hj)). reflexivity. }
    intros i Hi. rewrite (E (p i)) by (apply Hpq; exact Hi). rewrite (proj2 (Hpq i Hi)). reflexivity.
  - destruct (C40_interpolates_with_least_energy G (vec_arr n y) 1 _ M tau sol Hb Hp Ht (Hcol y) Hl Htau (or_introl eq_refl) HC) as (x & E & Shx & xs & Hx & A).
    { intros j Hj. replace j with 0%nat by lia. exact S1. }
    destruct (C40_interpolates_with_least_energy G (vec_arr n y') 1 _ M' tau sol' Hb Hp Ht (Hcol y') Hl' Htau (or_introl eq_refl) HC') as (x' & E' & Shx' & xs' & Hx' & A').
    { intros j Hj. replace j with 0%nat by lia. exact S2. }
    exists x, x'. split; [exact E|]. split; [exact E'|].
    destruct (A 0%nat ltac:(lia)) as (A1 & _ & A3 & _ & _). destruct (A' 0%nat ltac:(lia)) as (A1' & _ & A3' & A4' & _). fold n in A1, A3, A1', A3', A4'.
    assert (P1 : forall v, (v < n)%nat -> labelled M' v -> xs 0%nat (q v) = y' v).
    { intros v Hv L. destruct (Hqp v Hv) as (Hq & Ep). rewrite A1; [|exact Hq|]. { rewrite <- Ep at 2. symmetry. apply Hy. exact Hq. }
      unfold labelled in *. rewrite <- (HM (q v) Hq), Ep. exact L. }
    assert (P2 : forall v, (v < n)%nat -> labelled M v -> xs' 0%nat (p v) = y v).
    { intros v Hv L. rewrite A1'; [apply Hy; exact Hv|apply Hpq; exact Hv|]. unfold labelled in *. rewrite (HM v Hv). exact L. }
    assert (Eq : veq n (fun i => xs 0%nat (q i)) (xs' 0%nat)).
    { apply A4'; [exact P1|]. apply Rle_antisym.
      - rewrite Q1. rewrite <- (Q2 (xs' 0%nat)). apply A3. exact P2.
      - apply (A3' (fun i => xs 0%nat (q i))). exact P1. }
    assert (X : forall i, aget x [i] = xs 0%nat i) by (intros i; inversion Hx; subst; [reflexivity|discriminate Shx]).
    assert (X' : forall i, aget x' [i] = xs' 0%nat i) by (intros i; inversion Hx'; subst; [reflexivity|discriminate Shx']).
    intros i Hi. rewrite X, X'. rewrite <- (Eq (p i)) by (apply Hpq; exact Hi). rewrite (proj2 (Hpq i Hi)). reflexivity.
Qed.

(** ** The symmetries of the ready-made graphs *)
Lemma unit_symmetry G n (E : nat -> nat -> Prop) p : unit_graph G n E -> (forall i j, {E i j} + {~ E i j}) ->
  (forall i, (i < n)%nat -> (p i < n)%nat) -> (forall i j, (i < n)%nat -> (j < n)%nat -> p i = p j -> i = j) ->
  (forall i j, (i < n)%nat -> (j < n)%nat -> E (p i) (p j) <-> E i j) -> symmetry G p.
Proof.
  intros (_ & Hn & Hw) D Hp Hi HE. unfold symmetry. rewrite Hn. split; [exact Hp|]. split; [exact Hi|]. intros i j Hii Hj.
  destruct (Hw i j Hii Hj) as (A1 & A2). destruct (Hw (p i) (p j) (Hp i Hii) (Hp j Hj)) as (B1 & B2). specialize (HE i j Hii Hj).
  destruct (D i j) as [HD|HD]; [rewrite A1, B1 by tauto|rewrite A2, B2 by tauto]; reflexivity.
Qed.
(** (i + s) mod N without the division. *)
Lemma mod_shift N s i : (i < N)%nat -> Nat.modulo (i + s) N = if Nat.ltb (i + Nat.modulo s N) N then (i + Nat.modulo s N)%nat else (i + Nat.modulo s N - N)%nat.
Proof.
  intros Hi. assert (HN : N <> 0%nat) by lia. rewrite <- Nat.add_mod_idemp_r by exact HN. pose proof (Nat.mod_upper_bound s N HN) as Hs. set (t := Nat.modulo s N) in *.
  destruct (Nat.ltb_spec (i + t) N) as [H|H]; [apply Nat.mod_small; exact H|].
  replace (i + t)%nat with (i + t - N + 1 * N)%nat at 1 by lia. rewrite Nat.mod_add by exact HN. apply Nat.mod_small. lia.
Qed.
Lemma mod_shift_inj N s i j : (i < N)%nat -> (j < N)%nat -> Nat.modulo (i + s) N = Nat.modulo (j + s) N -> i = j.
Proof.
  intros Hi Hj. rewrite !mod_shift by assumption. pose proof (Nat.mod_upper_bound s N ltac:(lia)). set (t := Nat.modulo s N) in *.
  destruct (Nat.ltb_spec (i + t) N), (Nat.ltb_spec (j + t) N); lia.
Qed.
Lemma circ_shift N s i j : (i < N)%nat -> (j < N)%nat -> circ N (Nat.modulo (i + s) N) (Nat.modulo (j + s) N) = circ N i j.
Proof.
  intros Hi Hj. rewrite !mod_shift by assumption. pose proof (Nat.mod_upper_bound s N ltac:(lia)). set (t := Nat.modulo s N) in *. unfold circ.
  destruct (Nat.ltb_spec (i + t) N), (Nat.ltb_spec (j + t) N); lia.
Qed.
Lemma circ_flip N i j : (i < N)%nat -> (j < N)%nat -> circ N (N - 1 - i) (N - 1 - j) = circ N i j.
Proof. intros Hi Hj. unfold circ. lia. Qed.
Lemma ndist_flip N i j : (i < N)%nat -> (j < N)%nat -> ndist (N - 1 - i) (N - 1 - j) = ndist i j.
Proof. intros Hi Hj. unfold ndist. lia. Qed.

(** Ring: the rotations, and the reversal. *)
Theorem C101_ring_symmetries :
  forall N k lap G, (3 <= N)%nat -> (2 * k < N)%nat -> valid_lap lap -> Ring N k lap = Ok G ->
    (forall s, symmetry G (fun i => (i + s) mod N)%nat) /\ symmetry G (fun i => N - 1 - i)%nat.
Proof.
  intros N k lap G HN Hk Hl EG. destruct (C45_ring N k lap HN Hk Hl) as (G' & EG' & HU & _). rewrite EG in EG'. injection EG' as <-.
  assert (D : forall i j, {(1 <= circ N i j <= k)%nat} + {~ (1 <= circ N i j <= k)%nat}).
  { intros i j. destruct (le_lt_dec 1 (circ N i j)); [destruct (le_lt_dec (circ N i j) k)|]; [left|right|right]; lia. }
  split.
  - intros s. apply (unit_symmetry G N _ _ HU D).
    + intros i _. apply Nat.mod_upper_bound. lia.
    + intros i j. apply mod_shift_inj.
    + intros i j Hi Hj. cbv beta. rewrite circ_shift by assumption. tauto.
  - apply (unit_symmetry G N _ _ HU D); [intros; lia|intros; lia|]. intros i j Hi Hj. rewrite circ_flip by assumption. tauto.
Qed.

(** Torus: the rotations of the rows and of the columns. *)
Lemma pos_split w m i : (i < m * w)%nat -> exists r c, (r < m)%nat /\ (c < w)%nat /\ i = (w * r + c)%nat.
Proof.
  intros Hi. assert (0 < w)%nat by nia. destruct (pos_of w i ltac:(lia)) as (E' & Hc'). exists (rowof w i), (colof w i). split; [apply row_lt; lia|]. split; [exact Hc'|exact E'].
Qed.
Theorem C101_torus_symmetries :
  forall w m lap G s t, (3 <= w)%nat -> (3 <= m)%nat -> valid_lap lap -> Torus w (Some m) lap = Ok G ->
    symmetry G (fun v => w * ((rowof w v + s) mod m) + (colof w v + t) mod w)%nat.
Proof.
  intros w m lap G s t Hw Hm Hl EG. destruct (C47_torus w m lap Hw Hm Hl) as (G' & EG' & HU & _). rewrite EG in EG'. injection EG' as <-.
  assert (D : forall i j, {torus_adj w m i j} + {~ torus_adj w m i j}).
  { intros i j. unfold torus_adj. destruct (Nat.eq_dec (rowof w i) (rowof w j)), (Nat.eq_dec (circ w (colof w i) (colof w j)) 1), (Nat.eq_dec (colof w i) (colof w j)), (Nat.eq_dec (circ m (rowof w i) (rowof w j)) 1); tauto. }
  assert (B : forall a, (a mod w < w)%nat) by (intros; apply Nat.mod_upper_bound; lia). assert (B' : forall a, (a mod m < m)%nat) by (intros; apply Nat.mod_upper_bound; lia).
  apply (unit_symmetry G (m * w) _ _ HU D).
  - intros i Hi. apply pos_lt; [apply B'|apply B].
  - intros i j Hi Hj E. destruct (pos_split w m i Hi) as (r & c & Hr & Hc & ->), (pos_split w m j Hj) as (r' & c' & Hr' & Hc' & ->).
    rewrite !row_pos, !col_pos in E by assumption. apply pos_inj in E; [|apply B|apply B]. destruct E as (E1 & E2).
    apply mod_shift_inj in E1; [|exact Hr|exact Hr']. apply mod_shift_inj in E2; [|exact Hc|exact Hc']. subst. reflexivity.
  - intros i j Hi Hj. destruct (pos_split w m i Hi) as (r & c & Hr & Hc & ->), (pos_split w m j Hj) as (r' & c' & Hr' & Hc' & ->).
    unfold torus_adj. rewrite !row_pos, !col_pos by first [assumption|apply B]. rewrite !circ_shift by assumption.
    assert (X1 : ((r + s) mod m = (r' + s) mod m <-> r = r')%nat) by (split; [apply mod_shift_inj; assumption|intros ->; reflexivity]).
    assert (X2 : ((c + t) mod w = (c' + t) mod w <-> c = c')%nat) by (split; [apply mod_shift_inj; assumption|intros ->; reflexivity]).
    rewrite X1, X2. tauto.
Qed.

(** Path: the reversal.  Grid2d (with or without diagonals): the two reflections; when it is square, the transposition. *)
Theorem C101_path_symmetry :
  forall N lap G, (1 <= N)%nat -> valid_lap lap -> Path N false lap = Ok G -> symmetry G (fun i => N - 1 - i)%nat.
Proof.
  intros N lap G HN Hl EG. destruct (C44_path N lap HN Hl) as (G' & EG' & HU & _). rewrite EG in EG'. injection EG' as <-.
  apply (unit_symmetry G N _ _ HU); [|intros; lia|intros; lia|intros; lia].
  intros i j. destruct (Nat.eq_dec j (S i)), (Nat.eq_dec i (S j)); tauto.
Qed.
Lemma grid_symmetry N1 N2 d lap G (p : nat -> nat) (f : nat -> nat -> nat * nat) : (1 <= N1)%nat -> (2 <= N2)%nat -> valid_lap lap -> Grid2d N1 (Some N2) d lap = Ok G ->
  (forall r c, (r < N1)%nat -> (c < N2)%nat -> p (N2 * r + c)%nat = (N2 * fst (f r c) + snd (f r c))%nat /\ (fst (f r c) < N1)%nat /\ (snd (f r c) < N2)%nat) ->
  (forall r c r' c', (r < N1)%nat -> (c < N2)%nat -> (r' < N1)%nat -> (c' < N2)%nat ->
     (ndist (fst (f r c)) (fst (f r' c')) = ndist r r' /\ ndist (snd (f r c)) (snd (f r' c')) = ndist c c') \/
     (ndist (fst (f r c)) (fst (f r' c')) = ndist c c' /\ ndist (snd (f r c)) (snd (f r' c')) = ndist r r')) ->
  symmetry G p.
Proof.
  intros H1 H2 Hl EG Hp Hd. destruct (C46_grid N1 N2 d lap H1 H2 Hl) as (G' & EG' & Hb & Hn & Hw & _). rewrite EG in EG'. injection EG' as <-.
  unfold symmetry. rewrite Hn. split; [|split].
  - intros i Hi. destruct (pos_split N2 N1 i Hi) as (r & c & Hr & Hc & ->). destruct (Hp r c Hr Hc) as (E & A & B). rewrite E. apply pos_lt; assumption.
  - intros i j Hi Hj E. destruct (pos_split N2 N1 i Hi) as (r & c & Hr & Hc & ->), (pos_split N2 N1 j Hj) as (r' & c' & Hr' & Hc' & ->).
    destruct (Hp r c Hr Hc) as (E1 & A1 & B1). destruct (Hp r' c' Hr' Hc') as (E2 & A2 & B2). rewrite E1, E2 in E. apply pos_inj in E; try assumption. destruct E as (Ea & Eb).
    specialize (Hd r c r' c' Hr Hc Hr' Hc'). rewrite Ea, Eb in Hd. unfold ndist in Hd. assert (r = r' /\ c = c') as (-> & ->) by lia. reflexivity.
  - intros i j Hi Hj. destruct (pos_split N2 N1 i Hi) as (r & c & Hr & Hc & ->), (pos_split N2 N1 j Hj) as (r' & c' & Hr' & Hc' & ->).
    destruct (Hp r c Hr Hc) as (E1 & A1 & B1). destruct (Hp r' c' Hr' Hc') as (E2 & A2 & B2). rewrite E1, E2. specialize (Hd r c r' c' Hr Hc Hr' Hc').
    destruct (Hw _ _ Hi Hj) as (W1 & W2 & W3).
    destruct (Hw _ _ (pos_lt _ _ _ _ A1 B1) (pos_lt _ _ _ _ A2 B2)) as (V1 & V2 & V3). unfold straight, oblique in *. rewrite !row_pos, !col_pos in * by assumption.
    set (a := ndist (fst (f r c)) (fst (f r' c'))) in *. set (b := ndist (snd (f r c)) (snd (f r' c'))) in *. clearbody a b.
    destruct (Nat.eq_dec (ndist r r' + ndist c c') 1) as [Es|Es]; [rewrite W1, V1 by lia; reflexivity|].
    destruct (Nat.eq_dec (ndist r r') 1) as [Er|Er]; [destruct (Nat.eq_dec (ndist c c') 1) as [Ec|Ec]|].
    + rewrite W2, V2 by lia. reflexivity.
    + rewrite W3, V3 by lia. reflexivity.
    + rewrite W3, V3 by lia. reflexivity.
Qed.
Theorem C101_grid_symmetries :
  forall N1 N2 d lap G, (1 <= N1)%nat -> (2 <= N2)%nat -> valid_lap lap -> Grid2d N1 (Some N2) d lap = Ok G ->
    symmetry G (fun v => N2 * (N1 - 1 - rowof N2 v) + colof N2 v)%nat /\ symmetry G (fun v => N2 * rowof N2 v + (N2 - 1 - colof N2 v))%nat /\
    (N1 = N2 -> symmetry G (fun v => N2 * colof N2 v + rowof N2 v)%nat).
Proof.
  intros N1 N2 d lap G H1 H2 Hl EG. split; [|split].
  - apply (grid_symmetry N1 N2 d lap G _ (fun r c => (N1 - 1 - r, c)%nat) H1 H2 Hl EG); cbn [fst snd].
    + intros r c Hr Hc. rewrite row_pos, col_pos by exact Hc. lia.
    + intros. left. rewrite ndist_flip by assumption. tauto.
  - apply (grid_symmetry N1 N2 d lap G _ (fun r c => (r, N2 - 1 - c)%nat) H1 H2 Hl EG); cbn [fst snd].
    + intros r c Hr Hc. rewrite row_pos, col_pos by exact Hc. lia.
    + intros. left. rewrite ndist_flip by assumption. tauto.
  - intros ->. apply (grid_symmetry N2 N2 d lap G _ (fun r c => (c, r)) H1 H2 Hl EG); cbn [fst snd].
    + intros r c Hr Hc. rewrite row_pos, col_pos by exact Hc. lia.
    + intros. right. tauto.
Qed.

(** FullConnected: every permutation.  Star: every permutation that leaves the centre in place. *)
Theorem C101_full_symmetries :
  forall N lap G p, valid_lap lap -> FullConnected N lap = Ok G ->
    (forall i, (i < N)%nat -> (p i < N)%nat) -> (forall i j, (i < N)%nat -> (j < N)%nat -> p i = p j -> i = j) -> symmetry G p.
Proof.
  intros N lap G p Hl EG Hp Hi. destruct (C48_full N lap Hl) as (G' & EG' & HU & _). rewrite EG in EG'. injection EG' as <-.
  apply (unit_symmetry G N _ _ HU); [|exact Hp|exact Hi|].
  - intros i j. destruct (Nat.eq_dec i j); [right|left]; lia.
  - intros i j Hii Hj. split; intros H E; apply H; [rewrite E; reflexivity|]. apply Hi; assumption.
Qed.
Theorem C101_star_symmetries :
  forall N lap G p, (1 <= N)%nat -> valid_lap lap -> Star N false lap = Ok G -> p 0%nat = 0%nat ->
    (forall i, (i < N)%nat -> (p i < N)%nat) -> (forall i j, (i < N)%nat -> (j < N)%nat -> p i = p j -> i = j) -> symmetry G p.
Proof.
  intros N lap G p HN Hl EG H0 Hp Hi. destruct (C48_star N lap HN Hl) as (G' & EG' & HU & _). rewrite EG in EG'. injection EG' as <-.
  apply (unit_symmetry G N _ _ HU); [|exact Hp|exact Hi|].
  - intros i j. destruct (Nat.eq_dec i 0), (Nat.eq_dec j 0); [right|left|left|right]; lia.
  - intros i j Hii Hj. assert (Z : forall a, (a < N)%nat -> (p a = 0 <-> a = 0)%nat).
    { intros a Ha. split; [intros E; apply Hi; [exact Ha|lia|congruence]|intros ->; exact H0]. }
    rewrite (Z i Hii), (Z j Hj). tauto.
Qed.

(** ** Circular convolutions *)
Lemma impulse_moved n p j : (forall a b, (a < n)%nat -> (b < n)%nat -> p a = p b -> a = b) -> (j < n)%nat -> moved n p (impulse j) (impulse (p j)).
Proof.
  intros Hi Hj l Hl. unfold impulse. destruct (Nat.eqb_spec l j) as [->|Hne]; [rewrite Nat.eqb_refl; reflexivity|].
  destruct (Nat.eqb_spec (p l) (p j)) as [E|]; [|reflexivity]. apply Hi in E; try assumption. contradiction.
Qed.
(** The response to an impulse anywhere is the response to an impulse at a, moved: so the filter is its impulse
    response at a combined with the moves. *)
Lemma moved_kernel G lmax e U (h : vec) a (p : nat -> nat -> nat) x i : built G -> nonneg_weights G ->
  let F := mkview (g_n_vertices G) (gL G) lmax e U in spectral F ->
  (forall k l, (k < g_n_vertices G)%nat -> (l < g_n_vertices G)%nat -> nth k e 0 = nth l e 0 -> h k = h l) ->
  (a < g_n_vertices G)%nat -> (i < g_n_vertices G)%nat ->
  (forall j, (j < g_n_vertices G)%nat -> symmetry G (p j) /\ p j a = j) ->
  forall s : nat -> nat, (forall j, (j < g_n_vertices G)%nat -> (s j < g_n_vertices G)%nat /\ p j (s j) = i) ->
  mult F h x i = \sum_(j < g_n_vertices G) (mult F h (impulse a) (s j) * x j).
Proof.
  intros Hb Hp F HF Hh Ha Hi Hs s Hsj. rewrite (mult_as_matrix F) by exact Hi. cbn [v_N F]. apply rsum_ext. intros j Hj. f_equal.
  destruct (Hs j Hj) as (Sj & Ej). destruct (Hsj j Hj) as (Sl & El).
  pose proof (mult_moved G lmax e U (p j) h (impulse a) (impulse j) Hb Hp Sj HF Hh) as M. cbv zeta in M. fold F in M.
  rewrite <- El at 1. rewrite M; [reflexivity| |exact Sl]. pose proof (impulse_moved (g_n_vertices G) (p j) a (proj1 (proj2 Sj)) Ha) as M'. rewrite Ej in M'. exact M'.
Qed.
Lemma mod_back N i j : (i < N)%nat -> (j < N)%nat -> (((i + N - j) mod N + j) mod N = i)%nat.
Proof.
  intros Hi Hj. assert (HN : N <> 0%nat) by lia. rewrite Nat.add_mod_idemp_l by exact HN. replace (i + N - j + j)%nat with (i + 1 * N)%nat by lia.
  rewrite Nat.mod_add by exact HN. apply Nat.mod_small. exact Hi.
Qed.

(** On a ring every filter is a circular convolution with its response to an impulse at vertex 0. *)
Theorem C101_ring_filtering_is_a_circular_convolution :
  forall N k lap G lmax e U ks m x, (3 <= N)%nat -> (2 * k < N)%nat -> valid_lap lap -> Ring N k lap = Ok G ->
    let F := mkview N (gL G) lmax e U in spectral F ->
    (m = Exact -> exists gs, ks = map pw gs) -> (exists H, response F ks m H) ->
    exists imp out, gfilter F ks m (vec_arr N (impulse 0)) = Ok imp /\ gfilter F ks m (vec_arr N x) = Ok out /\
      forall f i, (f < List.length ks)%nat -> (i < N)%nat ->
        ans F (List.length ks) out f i = \sum_(j < N) (ans F (List.length ks) imp f ((i + N - j) mod N)%nat * x j).
Proof.
  intros N k lap G lmax e U ks m x HN Hk Hl EG F HF Hpw HR. destruct (C101_ring_symmetries N k lap G HN Hk Hl EG) as (Hsym & _).
  destruct (C45_ring N k lap HN Hk Hl) as (G' & EG' & (Hb & Hn & _) & _ & _ & Hp & _). rewrite EG in EG'. injection EG' as <-.
  destruct (gains F F ks m HF HF eq_refl (fun i j _ _ => eq_refl) eq_refl Hpw HR) as (H & RH & _ & Hinv).
  destruct (one_signal F ks m H (impulse 0) HF RH) as (imp & E & _ & Ho). destruct (one_signal F ks m H x HF RH) as (out & E' & _ & Ho').
  exists imp, out. split; [exact E|]. split; [exact E'|]. intros f i Hf Hi. rewrite Ho' by assumption.
  pose proof (moved_kernel G lmax e U (H f) 0 (fun s i => (i + s) mod N)%nat x i Hb Hp) as M. rewrite Hn in M. cbv zeta in M. fold F in M.
  rewrite (M HF (Hinv f) ltac:(lia) Hi) with (s := fun j => ((i + N - j) mod N)%nat).
  - apply rsum_ext. intros j Hj. rewrite Ho; [reflexivity|exact (Nat.mod_upper_bound _ N ltac:(lia))|exact Hf].
  - intros j Hj. split; [apply Hsym|]. apply Nat.mod_small. exact Hj.
  - intros j Hj. split; [apply Nat.mod_upper_bound; lia|apply mod_back; assumption].
Qed.

(** On a torus, a two-dimensional one. *)
Theorem C101_torus_filtering_is_a_circular_convolution :
  forall w m lap G lmax e U ks me x, (3 <= w)%nat -> (3 <= m)%nat -> valid_lap lap -> Torus w (Some m) lap = Ok G ->
    let F := mkview (m * w) (gL G) lmax e U in spectral F ->
    (me = Exact -> exists gs, ks = map pw gs) -> (exists H, response F ks me H) ->
    exists imp out, gfilter F ks me (vec_arr (m * w) (impulse 0)) = Ok imp /\ gfilter F ks me (vec_arr (m * w) x) = Ok out /\
      forall f r c, (f < List.length ks)%nat -> (r < m)%nat -> (c < w)%nat ->
        ans F (List.length ks) out f (w * r + c)%nat =
        \sum_(r' < m) \sum_(c' < w) (ans F (List.length ks) imp f (w * ((r + m - r') mod m) + (c + w - c') mod w)%nat * x (w * r' + c')%nat).
Proof.
  intros w m lap G lmax e U ks me x Hw Hm Hl EG F HF Hpw HR. pose proof (fun s t => C101_torus_symmetries w m lap G s t Hw Hm Hl EG) as Hsym.
  destruct (C47_torus w m lap Hw Hm Hl) as (G' & EG' & (Hb & Hn & _) & _ & _ & Hp & _). rewrite EG in EG'. injection EG' as <-.
  destruct (gains F F ks me HF HF eq_refl (fun i j _ _ => eq_refl) eq_refl Hpw HR) as (H & RH & _ & Hinv).
  destruct (one_signal F ks me H (impulse 0) HF RH) as (imp & E & _ & Ho). destruct (one_signal F ks me H x HF RH) as (out & E' & _ & Ho').
  exists imp, out. split; [exact E|]. split; [exact E'|]. intros f r c Hf Hr Hc.
  assert (Hi : (w * r + c < m * w)%nat) by (apply pos_lt; assumption). rewrite Ho' by assumption.
  assert (B : forall a, (a mod w < w)%nat) by (intros; apply Nat.mod_upper_bound; lia). assert (B' : forall a, (a mod m < m)%nat) by (intros; apply Nat.mod_upper_bound; lia).
  pose proof (moved_kernel G lmax e U (H f) 0 (fun j v => w * ((rowof w v + rowof w j) mod m) + (colof w v + colof w j) mod w)%nat x (w * r + c)%nat Hb Hp) as M. rewrite Hn in M. cbv zeta in M. fold F in M.
  rewrite (M HF (Hinv f) ltac:(nia) Hi) with (s := fun j => (w * ((r + m - rowof w j) mod m) + (c + w - colof w j) mod w)%nat).
  - rewrite rsum_grid. apply sum2_ext. intros r' c' Hr' Hc'. rewrite row_pos, col_pos by exact Hc'. rewrite Ho; [reflexivity|apply pos_lt; [apply B'|apply B]|exact Hf].
  - intros j Hj. split; [apply Hsym|]. destruct (pos_split w m j Hj) as (r' & c' & Hr' & Hc' & ->). rewrite row_pos, col_pos by exact Hc'.
    replace (rowof w 0) with 0%nat by (symmetry; apply Nat.div_0_l; lia). replace (colof w 0) with 0%nat by (symmetry; apply Nat.mod_0_l; lia). cbn [Nat.add]. rewrite !Nat.mod_small by assumption. reflexivity.
  - intros j Hj. destruct (pos_split w m j Hj) as (r' & c' & Hr' & Hc' & ->). rewrite !row_pos, !col_pos by exact Hc'. split; [apply pos_lt; [apply B'|apply B]|].
    rewrite row_pos, col_pos by apply B. rewrite !mod_back by assumption. reflexivity.
Qed.

(** ** Separable filters *)

(** Any eigenbasis computes the same functions of a symmetric matrix. *)
Lemma eigenbasis_function n A v U v' W (h : R -> R) : symmetric n A -> eigenbasis n A v U -> eigenbasis n A v' W ->
  forall x i, (i < n)%nat -> \sum_(k < n) (U i k * (h (v k) * coef n U x k)) = \sum_(k < n) (W i k * (h (v' k) * coef n W x k)).
Proof.
  intros Hs HU HW x i Hi.
  assert (P : forall V (u : vec), \sum_(k < n) (V i k * (h (u k) * coef n V x k)) =
    / 2 * (\sum_(k < n) (h (u k) * (coef n V (fun j => x j + impulse i j) k * coef n V (fun j => x j + impulse i j) k)) -
    \sum_(k < n) (h (u k) * (coef n V x k * coef n V x k)) - \sum_(k < n) (h (u k) * (coef n V (impulse i) k * coef n V (impulse i) k)))).
  { intros V u. rewrite <- !rsum_minus, <- rsum_scal_l. apply rsum_ext. intros k Hk.
    assert (E1 : coef n V (fun j => x j + impulse i j) k = coef n V x k + coef n V (impulse i) k).
    { unfold coef. rewrite <- rsum_plus. apply rsum_ext. intros; ring. }
    assert (E2 : coef n V (impulse i) k = V i k).
    { unfold coef, impulse. rewrite (rsum_single n _ i Hi); [rewrite Nat.eqb_refl; ring|]. intros j Hj Hne. destruct (Nat.eqb_spec j i); [contradiction|ring]. }
    rewrite E1, E2. field. }
  rewrite !P. rewrite !(eigenbasis_energy n A v U v' W h Hs HU HW). reflexivity.
Qed.

Lemma product_mult G G1 G2 lmax e U lmax1 e1 U1 lmax2 e2 U2 (h h1 h2 : R -> R) x : plain G -> plain G1 -> plain G2 -> product_of G G1 G2 ->
  let F := mkview (g_n_vertices G) (gL G) lmax e U in let F1 := mkview (g_n_vertices G1) (gL G1) lmax1 e1 U1 in let F2 := mkview (g_n_vertices G2) (gL G2) lmax2 e2 U2 in
  spectral F -> spectral F1 -> spectral F2 -> (forall a b, h (a + b) = h1 a * h2 b) ->
  let w := g_n_vertices G2 in
  forall r c, (r < g_n_vertices G1)%nat -> (c < w)%nat ->
    mult F (fun k => h (nth k e 0)) x (w * r + c)%nat =
    mult F1 (fun a => h1 (nth a e1 0)) (fun r' => mult F2 (fun b => h2 (nth b e2 0)) (fun c' => x (w * r' + c')%nat) c) r.
Proof.
  intros HG HG1 HG2 HP F F1 F2 (Hlen & HV) (Hlen1 & HV1) (Hlen2 & HV2) Hh w r c Hr Hc. cbn [v_N v_L v_e v_U F F1 F2] in *.
  pose proof (product_basis G G1 G2 _ _ _ _ HG HG1 HG2 HP (eigh_eigenbasis _ _ _ _ HV1) (eigh_eigenbasis _ _ _ _ HV2)) as HB. destruct HP as (Hn & _).
  fold w in HB, Hn. pose proof (built_symmetric G (proj1 HG)) as Hs. set (m := g_n_vertices G1) in *.
  assert (Hi : (w * r + c < g_n_vertices G)%nat) by (rewrite Hn; apply pos_lt; assumption).
  pose proof (eigenbasis_function _ _ _ U _ _ h Hs (eigh_eigenbasis _ _ _ _ HV) HB x (w * r + c)%nat Hi) as EE.
  unfold mult, fhat. cbn [v_N v_U]. refine (eq_trans EE _). rewrite Hn, rsum_grid. unfold kron at 1, kron_sum. clear EE HB HV Hs Hi.
  assert (EC : forall a b, (a < m)%nat -> (b < w)%nat -> coef (m * w) (kron w U1 U2) x (w * a + b)%nat = \sum_(r' < m) (U1 r' a * \sum_(c' < w) (U2 c' b * x (w * r' + c')%nat))).
  { intros a b Ha Hb. unfold coef. rewrite rsum_grid. apply rsum_ext. intros r' Hr'. rewrite <- rsum_scal_l. apply rsum_ext. intros c' Hc'. unfold kron. rewrite !row_pos, !col_pos by assumption. ring. }
  apply rsum_ext. intros a Ha.
  rewrite (rsum_ext w _ (fun b => U1 r a * h1 (nth a e1 0) * \sum_(r' < m) (U1 r' a * (U2 c b * (h2 (nth b e2 0) * \sum_(c' < w) (U2 c' b * x (w * r' + c')%nat)))))).
  2:{ intros b Hb. rewrite !row_pos, !col_pos by assumption. rewrite EC by assumption. rewrite Hh. rewrite <- !rsum_scal_l. apply rsum_ext. intros r' Hr'. ring. }
  rewrite rsum_scal_l, rsum_swap. rewrite Rmult_assoc. f_equal. f_equal. apply rsum_ext. intros r' Hr'. rewrite rsum_scal_l. reflexivity.
Qed.

Lemma heat_product G G1 G2 lmax e U lmax1 e1 U1 lmax2 e2 U2 tau x : plain G -> plain G1 -> plain G2 -> product_of G G1 G2 ->
  let F := mkview (g_n_vertices G) (gL G) lmax e U in let F1 := mkview (g_n_vertices G1) (gL G1) lmax1 e1 U1 in let F2 := mkview (g_n_vertices G2) (gL G2) lmax2 e2 U2 in
  spectral F -> spectral F1 -> spectral F2 -> 0 < lmax -> 0 < lmax1 -> 0 < lmax2 -> 0 <= tau ->
  let m := g_n_vertices G1 in let w := g_n_vertices G2 in
  exists out rows cols, gfilter F (Heat F (Scalar (tau * lmax)) false) Exact (vec_arr (g_n_vertices G) x) = Ok out /\
    (forall r, (r < m)%nat -> gfilter F2 (Heat F2 (Scalar (tau * lmax2)) false) Exact (vec_arr w (fun c => x (w * r + c)%nat)) = Ok (rows r)) /\
    (forall c, (c < w)%nat -> gfilter F1 (Heat F1 (Scalar (tau * lmax1)) false) Exact (vec_arr m (fun r => ans F2 1 (rows r) 0 c)) = Ok (cols c)) /\
    forall r c, (r < m)%nat -> (c < w)%nat -> ans F 1 out 0 (w * r + c)%nat = ans F1 1 (cols c) 0 r.
Proof.
  intros HG HG1 HG2 HP F F1 F2 HF HF1 HF2 Hl Hl1 Hl2 Ht m w. pose proof HG as (Hb & Hu & Hp & Hty). pose proof HG1 as (Hb1 & Hu1 & Hp1 & Ht1). pose proof HG2 as (Hb2 & Hu2 & Hp2 & Ht2).
  destruct (heat_total G lmax e U (Scalar (tau * lmax)) x HF) as (out & E).
  destruct (fin_choice m (fun r o => gfilter F2 (Heat F2 (Scalar (tau * lmax2)) false) Exact (vec_arr w (fun c => x (w * r + c)%nat)) = Ok o) out) as (rows & Er).
  { intros r Hr. apply (heat_total G2 lmax2 e2 U2 (Scalar (tau * lmax2)) _ HF2). }
  destruct (fin_choice w (fun c o => gfilter F1 (Heat F1 (Scalar (tau * lmax1)) false) Exact (vec_arr m (fun r => ans F2 1 (rows r) 0 c)) = Ok o) out) as (cols & Ec).
  { intros c Hc. apply (heat_total G1 lmax1 e1 U1 (Scalar (tau * lmax1)) _ HF1). }
  exists out, rows, cols. split; [exact E|]. split; [exact Er|]. split; [exact Ec|]. intros r c Hr Hc.
  pose proof HP as (Hn & _). cbv zeta in Hn.
  assert (Pos : forall l, 0 < l -> 0 <= tau * l) by (intros; apply Rmult_le_pos; lra).
  pose proof (heat_out G lmax e U (Scalar (tau * lmax)) x out 0 (w * r + c)%nat Hb Hp Hty Hl HF E ltac:(cbn; lia) (Pos lmax Hl) ltac:(rewrite Hn; apply pos_lt; assumption)) as A.
  pose proof (heat_out G1 lmax1 e1 U1 (Scalar (tau * lmax1)) _ (cols c) 0 r Hb1 Hp1 Ht1 Hl1 HF1 (Ec c Hc) ltac:(cbn; lia) (Pos lmax1 Hl1) Hr) as A1.
  assert (A2 : forall r', (r' < m)%nat -> ans F2 1 (rows r') 0 c = mult F2 (fun b => exp (- (tau * nth b e2 0))) (fun c' => x (w * r' + c')%nat) c).
  { intros r' Hr'. pose proof (heat_out G2 lmax2 e2 U2 (Scalar (tau * lmax2)) _ (rows r') 0 c Hb2 Hp2 Ht2 Hl2 HF2 (Er r' Hr') ltac:(cbn; lia) (Pos lmax2 Hl2) Hc) as A2.
    cbn [pvals List.length nth] in A2. refine (eq_trans A2 _). apply mult_ext; [|intros ? ?; reflexivity]. intros k Hk. f_equal. field. lra. }
  cbn [pvals List.length nth] in A, A1. refine (eq_trans A (eq_trans _ (eq_sym A1))).
  transitivity (mult F (fun k => (fun t => exp (- (tau * t))) (nth k e 0)) x (w * r + c)%nat).
  { apply mult_ext; [|intros ? ?; reflexivity]. intros k Hk. cbv beta. f_equal. field. lra. }
  pose proof (product_mult G G1 G2 lmax e U lmax1 e1 U1 lmax2 e2 U2 (fun t => exp (- (tau * t))) (fun t => exp (- (tau * t))) (fun t => exp (- (tau * t))) x HG HG1 HG2 HP HF HF1 HF2) as PM.
  cbv beta zeta in PM. cbv beta. refine (eq_trans (PM _ r c Hr Hc) _).
  { intros a b. rewrite <- exp_plus. f_equal. ring. }
  apply mult_ext.
  - intros k Hk. f_equal. field. lra.
  - intros r' Hr'. symmetry. apply A2. exact Hr'.
Qed.

(** Heat diffusion on a grid (tau: the diffusion time, in units of the Laplacian) is diffusion along every row followed by
    diffusion along every column of the result, each on a path. *)
Theorem C101_heat_on_a_grid_is_separable :
  forall N1 N2 G P1 P2 lmax e U lmax1 e1 U1 lmax2 e2 U2 tau x, (1 <= N1)%nat -> (2 <= N2)%nat ->
    Grid2d N1 (Some N2) 0 Combinatorial = Ok G -> Path N1 false Combinatorial = Ok P1 -> Path N2 false Combinatorial = Ok P2 ->
    let F := mkview (N1 * N2) (gL G) lmax e U in let F1 := mkview N1 (gL P1) lmax1 e1 U1 in let F2 := mkview N2 (gL P2) lmax2 e2 U2 in
    spectral F -> spectral F1 -> spectral F2 -> 0 < lmax -> 0 < lmax1 -> 0 < lmax2 -> 0 <= tau ->
    exists out rows cols, gfilter F (Heat F (Scalar (tau * lmax)) false) Exact (vec_arr (N1 * N2) x) = Ok out /\
      (forall r, (r < N1)%nat -> gfilter F2 (Heat F2 (Scalar (tau * lmax2)) false) Exact (vec_arr N2 (fun c => x (N2 * r + c)%nat)) = Ok (rows r)) /\
      (forall c, (c < N2)%nat -> gfilter F1 (Heat F1 (Scalar (tau * lmax1)) false) Exact (vec_arr N1 (fun r => ans F2 1 (rows r) 0 c)) = Ok (cols c)) /\
      forall r c, (r < N1)%nat -> (c < N2)%nat -> ans F 1 out 0 (N2 * r + c)%nat = ans F1 1 (cols c) 0 r.
Proof.
  intros N1 N2 G P1 P2 lmax e U lmax1 e1 U1 lmax2 e2 U2 tau x H1 H2 EG EP1 EP2 F F1 F2 HF HF1 HF2 Hl Hl1 Hl2 Ht.
  destruct (grid_product N1 N2 G P1 P2 H1 H2 EG EP1 EP2) as (HG & HP). destruct (path_plain N1 P1 H1 EP1) as (HG1 & M1 & _). destruct (path_plain N2 P2 ltac:(lia) EP2) as (HG2 & M2 & _).
  pose proof (proj1 HP) as Hn. cbv beta zeta in Hn. rewrite M1, M2 in Hn.
  pose proof (heat_product G P1 P2 lmax e U lmax1 e1 U1 lmax2 e2 U2 tau x HG HG1 HG2 HP) as A. rewrite Hn, M1, M2 in A. exact (A HF HF1 HF2 Hl Hl1 Hl2 Ht).
Qed.
(** On a torus, along rings. *)
Theorem C101_heat_on_a_torus_is_separable :
  forall w m G R1 R2 lmax e U lmax1 e1 U1 lmax2 e2 U2 tau x, (3 <= w)%nat -> (3 <= m)%nat ->
    Torus w (Some m) Combinatorial = Ok G -> Ring m 1 Combinatorial = Ok R1 -> Ring w 1 Combinatorial = Ok R2 ->
    let F := mkview (m * w) (gL G) lmax e U in let F1 := mkview m (gL R1) lmax1 e1 U1 in let F2 := mkview w (gL R2) lmax2 e2 U2 in
    spectral F -> spectral F1 -> spectral F2 -> 0 < lmax -> 0 < lmax1 -> 0 < lmax2 -> 0 <= tau ->
    exists out rows cols, gfilter F (Heat F (Scalar (tau * lmax)) false) Exact (vec_arr (m * w) x) = Ok out /\
      (forall r, (r < m)%nat -> gfilter F2 (Heat F2 (Scalar (tau * lmax2)) false) Exact (vec_arr w (fun c => x (w * r + c)%nat)) = Ok (rows r)) /\
      (forall c, (c < w)%nat -> gfilter F1 (Heat F1 (Scalar (tau * lmax1)) false) Exact (vec_arr m (fun r => ans F2 1 (rows r) 0 c)) = Ok (cols c)) /\
      forall r c, (r < m)%nat -> (c < w)%nat -> ans F 1 out 0 (w * r + c)%nat = ans F1 1 (cols c) 0 r.
Proof.
  intros w m G P1 P2 lmax e U lmax1 e1 U1 lmax2 e2 U2 tau x H1 H2 EG EP1 EP2 F F1 F2 HF HF1 HF2 Hl Hl1 Hl2 Ht.
  destruct (torus_product w m G P1 P2 H1 H2 EG EP1 EP2) as (HG & HP). destruct (ring_plain m P1 H2 EP1) as (HG1 & M1 & _). destruct (ring_plain w P2 H1 EP2) as (HG2 & M2 & _).
  pose proof (proj1 HP) as Hn. cbv beta zeta in Hn. rewrite M1, M2 in Hn.
  pose proof (heat_product G P1 P2 lmax e U lmax1 e1 U1 lmax2 e2 U2 tau x HG HG1 HG2 HP) as A. rewrite Hn, M1, M2 in A. exact (A HF HF1 HF2 Hl Hl1 Hl2 Ht).
Qed.

(** The hypotheses are met: rings of every size, their rotations, a bank and a signal that a rotation really moves; and the
    grids, paths, tori and rings have exact eigendecompositions (C83_ex). *)
Example C101_ex : forall N, (3 <= N)%nat -> exists G e U, Ring N 1 Combinatorial = Ok G /\ built G /\ nonneg_weights G /\ g_n_vertices G = N /\
  symmetry G (fun i => (i + 1) mod N)%nat /\ spectral (mkview N (gL G) 4 e U) /\
  (exists H, response (mkview N (gL G) 4 e U) (map pw [fun t => exp (- t); fun t => 1 - exp (- t)]) Exact H) /\
  moved N (fun i => (i + 1) mod N)%nat (impulse 0) (impulse 1) /\ impulse 0 0%nat <> impulse 1 0%nat.
Proof.
  intros N HN. destruct (C45_ring N 1 Combinatorial HN ltac:(lia) (or_introl eq_refl)) as (G & EG & (Hb & Hn & _) & _ & _ & Hp & _).
  destruct (C101_ring_symmetries N 1 Combinatorial G HN ltac:(lia) (or_introl eq_refl) EG) as (Hs & _).
  destruct (C82_every_graph_has_a_fourier_basis G 4 Hb) as (e & U & HF). rewrite Hn in HF. exists G, e, U.
  split; [exact EG|]. split; [exact Hb|]. split; [exact Hp|]. split; [exact Hn|]. split; [apply Hs|]. split; [exact HF|].
  split; [eexists; apply (response_pw _ _ HF)|]. split; [|unfold impulse; cbn; lra].
  pose proof (impulse_moved N (fun i => (i + 1) mod N)%nat 0 (fun a b => mod_shift_inj N 1 a b) ltac:(lia)) as M. cbv beta in M.
  rewrite (Nat.mod_small (0 + 1) N) in M by lia. exact M.
Qed.

(** For the predictions: one label, at vertex 0 and then at vertex 1 of a ring. *)
Example C101_predictions_ex : forall N tau, (3 <= N)%nat -> 0 < tau -> exists G M M' sol sol', Ring N 1 Combinatorial = Ok G /\ built G /\ nonneg_weights G /\
  g_lap_type G = Combinatorial /\ symmetry G (fun i => (i + 1) mod N)%nat /\ g_n_vertices G = N /\
  moved N (fun i => (i + 1) mod N)%nat (impulse 0) (impulse 1) /\ moved_mask N (fun i => (i + 1) mod N)%nat M M' /\ List.length M = N /\ List.length M' = N /\
  covered G M /\ covered G M' /\ cg_ok G M tau (impulse 0) sol /\ cg_ok G M' tau (impulse 1) sol'.
Proof.
  intros N tau HN Ht. destruct (C101_ex N HN) as (G & e & U & EG & Hb & Hp & Hn & Hs & HF & _ & Hm & _).
  destruct (C45_ring N 1 Combinatorial HN ltac:(lia) (or_introl eq_refl)) as (G' & EG' & _ & _ & _ & _ & _ & HC & _). rewrite EG in EG'. injection EG' as <-.
  specialize (HC ltac:(lia)).
  assert (Hty : g_lap_type G = Combinatorial) by (unfold Ring in EG; destruct (Nat.ltb N 3); [discriminate|]; destruct (Nat.ltb N (2 * 1)); [discriminate|]; apply init_laptype in EG; exact EG).
  set (M := map (fun i => Nat.eqb i 0) (seq 0 N)). set (M' := map (fun i => Nat.eqb i 1) (seq 0 N)).
  assert (NM : forall i, (i < N)%nat -> nth i M false = Nat.eqb i 0) by (intros i Hi; apply (nth_map_seq (fun i => Nat.eqb i 0)); exact Hi).
  assert (NM' : forall i, (i < N)%nat -> nth i M' false = Nat.eqb i 1) by (intros i Hi; apply (nth_map_seq (fun i => Nat.eqb i 1)); exact Hi).
  assert (C1 : covered G M) by (intros v Hv; exists 0%nat; split; [lia|]; split; [unfold labelled; rewrite NM by lia; reflexivity|apply HC; lia]).
  assert (C2 : covered G M') by (intros v Hv; exists 1%nat; split; [lia|]; split; [unfold labelled; rewrite NM' by lia; reflexivity|apply HC; lia]).
  destruct (C39_unique_and_in_range G M tau (impulse 0) Hb Hp Hty Ht C1) as ((sol & S1) & _). destruct (C39_unique_and_in_range G M' tau (impulse 1) Hb Hp Hty Ht C2) as ((sol' & S2) & _).
  exists G, M, M', sol, sol'. split; [exact EG|]. split; [exact Hb|]. split; [exact Hp|]. split; [exact Hty|]. split; [exact Hs|]. split; [exact Hn|]. split; [exact Hm|].
  split; [|unfold M, M'; rewrite !map_length, seq_length; tauto].
  intros i Hi. pose proof (Nat.mod_upper_bound (i + 1) N ltac:(lia)) as B. rewrite NM, NM' by lia. rewrite mod_shift by exact Hi. rewrite (Nat.mod_small 1 N) by lia.
  destruct (Nat.ltb_spec (i + 1) N) as [H|H]; [destruct (Nat.eqb_spec (i + 1) 1)|destruct (Nat.eqb_spec (i + 1 - N) 1)]; destruct (Nat.eqb_spec i 0); try reflexivity; lia.
Qed.
