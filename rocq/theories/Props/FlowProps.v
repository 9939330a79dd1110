(** C108: every edge signal is the gradient of a potential plus a divergence-free part (Graph.grad, Graph.div). *)
From Coq Require Import Reals Lra Lia List Arith Bool String ZArith Classical.
From Verif.Base Require Import RSum Prelude LinAlg Spectral Solve.
From Verif.Spec Require Import Matrix GraphSpec Reach LapSpec GenSpec FlowSpec.
From Verif.Model Require Import Sparse Graph Difference Generators.
From Verif.Proofs Require Import SparseFacts InitFacts LapFacts MaxPrinciple SpectralFacts.
From Verif.Props Require Import Core Laplacian Traversal UtilsProps SpectrumProps GenProps.
Import ListNotations.
Open Scope R_scope.
Open Scope list_scope.

(** ** Matrices *)

Definition lv (x : list R) : vec := fun i => nth i x 0.
Definition vl (n : nat) (x : vec) : list R := map x (seq 0 n).
Lemma lv_vl n x i : (i < n)%nat -> lv (vl n x) i = x i.
Proof. intros H. unfold lv, vl. apply nth_map_seq. exact H. Qed.
Lemma vl_len n x : List.length (vl n x) = n.
Proof. unfold vl. rewrite map_length, seq_length. reflexivity. Qed.

Lemma normsq_zero_entries k x : normsq k x = 0 -> forall i, (i < k)%nat -> x i = 0.
Proof.
  intros H i Hi. unfold normsq, dot in H.
  assert (P : forall j, (j < k)%nat -> 0 <= x j * x j) by (intros; apply Rle_0_sqr).
  pose proof (rsum_zero_all k (fun j => x j * x j) P H i Hi) as Q. cbv beta in Q. nra.
Qed.

(** L x = b has a solution when b is orthogonal to the kernel. *)
Lemma sym_solve n L b : symmetric n L -> (forall x, (forall i, (i < n)%nat -> mulv n L x i = 0) -> dot n x b = 0) ->
  exists x, forall i, (i < n)%nat -> mulv n L x i = b i.
Proof.
  intros Hs Hb. destruct (spectral_theorem n L Hs) as (e & U & HU).
  set (c := fun k => if Reqb (e k) 0 then 0 else coef n U b k / e k).
  exists (fun i => \sum_(k < n) (U i k * c k)). set (x := fun i => \sum_(k < n) (U i k * c k)).
  assert (Hc : forall k, (k < n)%nat -> coef n U (mulv n L x) k = coef n U b k).
  { intros k Hk. rewrite (coef_mulv n L e U HU x k Hk). unfold x. rewrite (coef_synth n L e U HU c k Hk). unfold c.
    destruct (Reqb (e k) 0) eqn:E.
    - apply Reqb_true in E. rewrite E, Rmult_0_l. symmetry. change (coef n U b k) with (dot n (fun i => U i k) b). apply Hb.
      intros i Hi. rewrite (eigh_eig _ _ _ _ HU i k Hi Hk), E. ring.
    - apply Reqb_false in E. field. exact E. }
  intros i Hi. rewrite <- (eigh_expand n L e U HU (mulv n L x) i Hi), <- (eigh_expand n L e U HU b i Hi).
  apply rsum_ext. intros k Hk. rewrite (Hc k Hk). reflexivity.
Qed.

Section Factor.
Variables (n m : nat) (L D : mat).
Hypothesis HF : forall i j, (i < n)%nat -> (j < n)%nat -> \sum_(k < m) (D i k * D j k) = L i j.

Lemma fac_mulv x i : (i < n)%nat -> mulv n L x i = mulv m D (mulv n (tr D) x) i.
Proof.
  intros Hi. rewrite <- mulv_mulm. unfold mulv. apply rsum_ext. intros j Hj. rewrite <- (HF i j Hi Hj). reflexivity.
Qed.
Lemma fac_quad x : quad n L x = normsq m (mulv n (tr D) x).
Proof.
  unfold quad, normsq. rewrite <- dot_mulv_tr. apply dot_ext; [intros ? ?; reflexivity|]. intros i Hi. apply fac_mulv. exact Hi.
Qed.
Lemma fac_sym : symmetric n L.
Proof. intros i j Hi Hj. transitivity (\sum_(k < m) (D i k * D j k)); [symmetry; apply HF; assumption|]. transitivity (\sum_(k < m) (D j k * D i k)); [|apply HF; assumption]. apply rsum_ext. intros. ring. Qed.

(** L x = D y has a solution. *)
Lemma fac_solve y : exists x, forall i, (i < n)%nat -> mulv n L x i = mulv m D y i.
Proof using HF.
  apply (sym_solve n L (mulv m D y) fac_sym). intros x Hx.
  assert (Q : quad n L x = 0) by (unfold quad, dot; apply rsum_0; intros i Hi; rewrite (Hx i Hi); ring).
  rewrite fac_quad in Q. pose proof (normsq_zero_entries _ _ Q) as Z.
  rewrite dot_mulv_tr. unfold dot. apply rsum_0. intros j Hj. rewrite (Z j Hj). ring.
Qed.
(** what is orthogonal to D y for all y is annihilated by the transpose *)
Lemma fac_null x : (forall i, (i < n)%nat -> mulv n L x i = 0) -> forall k, (k < m)%nat -> mulv n (tr D) x k = 0.
Proof.
  intros H. apply normsq_zero_entries. rewrite <- fac_quad. unfold quad, dot. apply rsum_0. intros i Hi. rewrite (H i Hi). ring.
Qed.
End Factor.

(** ** grad and div are a matrix and its transpose *)

Lemma flow_ops G : built G -> nonneg_weights G -> let n := g_n_vertices G in let m := g_n_edges G in exists D,
  (forall x, List.length x = n -> grad G x = Ok (vl m (mulv n (tr D) (lv x)))) /\
  (forall y, List.length y = m -> div G y = Ok (vl n (mulv m D (lv y)))) /\
  (forall i j, (i < n)%nat -> (j < n)%nat -> \sum_(k < m) (D i k * D j k) = gL G i j).
Proof.
  intros Hb Hp n m. destruct (C12_factorisation G Hb Hp) as (D & HD & HF). exists D. split; [|split; [|exact HF]].
  - intros x Hx. unfold grad, check_signal. rewrite Hx. fold n. rewrite Nat.eqb_refl. cbn [bindr]. rewrite HD. reflexivity.
  - intros y Hy. unfold div. rewrite Hy. fold m. rewrite Nat.eqb_refl, HD. reflexivity.
Qed.
Lemma grad_len G x gx : grad G x = Ok gx -> List.length x = g_n_vertices G.
Proof. unfold grad, check_signal. destruct (Nat.eqb_spec (List.length x) (g_n_vertices G)); [auto|discriminate]. Qed.
Lemma div_len G y d : div G y = Ok d -> List.length y = g_n_edges G.
Proof. unfold div. destruct (Nat.eqb_spec (List.length y) (g_n_edges G)); [auto|discriminate]. Qed.

(** ** The decomposition *)

Theorem C108_every_edge_signal_splits G y : built G -> nonneg_weights G -> List.length y = g_n_edges G ->
  let n := g_n_vertices G in let m := g_n_edges G in
  exists x gx z d, List.length x = n /\ grad G x = Ok gx /\ List.length gx = m /\ List.length z = m /\ adds_up m y gx z /\
    div G z = Ok d /\ all_zero n d /\ inner m gx z = 0.
Proof.
  intros Hb Hp Hy n m. destruct (flow_ops G Hb Hp) as (D & Hg & Hd & HF). fold n m in Hg, Hd, HF.
  destruct (fac_solve n m (gL G) D HF (lv y)) as (x & Hx).
  set (g := mulv n (tr D) (lv (vl n x))).
  assert (Eg : forall k, (k < m)%nat -> g k = mulv n (tr D) x k).
  { intros k Hk. unfold g. apply mulv_ext; [intros ? ?; reflexivity|]. intros i Hi. apply lv_vl. exact Hi. }
  set (zv := fun k => lv y k - g k).
  assert (Hz : forall i, (i < n)%nat -> mulv m D zv i = 0).
  { intros i Hi. pose proof (Hx i Hi) as E. rewrite (fac_mulv n m (gL G) D HF x i Hi) in E.
    transitivity (mulv m D (lv y) i - mulv m D (mulv n (tr D) x) i); [|lra].
    unfold mulv at 1 2 3. rewrite <- rsum_minus. apply rsum_ext. intros k Hk. unfold zv. rewrite (Eg k Hk). ring. }
  exists (vl n x), (vl m g), (vl m zv), (vl n (mulv m D (lv (vl m zv)))).
  assert (Hz' : forall i, (i < n)%nat -> mulv m D (lv (vl m zv)) i = 0).
  { intros i Hi. rewrite <- (Hz i Hi). apply mulv_ext; [intros ? ?; reflexivity|]. intros k Hk. apply lv_vl. exact Hk. }
  split; [apply vl_len|]. split; [apply Hg; apply vl_len|]. split; [apply vl_len|]. split; [apply vl_len|].
  split; [|split; [apply Hd; apply vl_len|split]].
  - intros k Hk. change (lv y k = lv (vl m g) k + lv (vl m zv) k). rewrite !lv_vl by exact Hk. unfold zv. ring.
  - intros i Hi. change (lv (vl n (mulv m D (lv (vl m zv)))) i = 0). rewrite lv_vl by exact Hi. apply Hz'. exact Hi.
  - transitivity (dot m g zv).
    + unfold inner, dot. apply rsum_ext. intros k Hk. change (lv (vl m g) k * lv (vl m zv) k = g k * zv k). rewrite !lv_vl by exact Hk. reflexivity.
    + unfold g. rewrite <- dot_mulv_tr. unfold dot. apply rsum_0. intros i Hi. rewrite (Hz i Hi). ring.
Qed.

(** gradients and divergence-free signals are orthogonal *)
Theorem C108_gradients_are_orthogonal_to_circulations G x gx z d : built G -> nonneg_weights G ->
  grad G x = Ok gx -> div G z = Ok d -> all_zero (g_n_vertices G) d -> inner (g_n_edges G) gx z = 0.
Proof.
  intros Hb Hp Hx Hz H0. pose proof (grad_len _ _ _ Hx) as Lx. pose proof (div_len _ _ _ Hz) as Lz.
  destruct (C13_divergence_adjoint G x z Hb Hp Lx Lz) as (gx' & d' & E1 & E2 & _ & _ & E). rewrite Hx in E1. injection E1 as <-.
  rewrite Hz in E2. injection E2 as <-. unfold inner. rewrite <- E. apply rsum_0. intros i Hi. rewrite (H0 i Hi). ring.
Qed.

(** a signal that is both is zero *)
Lemma both_zero G x gx d : built G -> nonneg_weights G -> grad G x = Ok gx -> div G gx = Ok d -> all_zero (g_n_vertices G) d ->
  all_zero (g_n_edges G) gx.
Proof.
  intros Hb Hp Hx Hd H0. pose proof (C108_gradients_are_orthogonal_to_circulations G x gx gx d Hb Hp Hx Hd H0) as E.
  exact (normsq_zero_entries _ (lv gx) E).
Qed.

Lemma grad_minus G x x' g g' : built G -> nonneg_weights G -> grad G x = Ok g -> grad G x' = Ok g' ->
  let n := g_n_vertices G in let m := g_n_edges G in
  exists w gw, List.length w = n /\ grad G w = Ok gw /\ List.length gw = m /\ (forall k, (k < m)%nat -> nth k gw 0 = nth k g 0 - nth k g' 0) /\
    (forall i, (i < n)%nat -> nth i w 0 = nth i x 0 - nth i x' 0).
Proof.
  intros Hb Hp Hx Hx' n m. destruct (flow_ops G Hb Hp) as (D & Hg & _ & _). fold n m in Hg.
  rewrite (Hg x (grad_len _ _ _ Hx)) in Hx. injection Hx as <-. rewrite (Hg x' (grad_len _ _ _ Hx')) in Hx'. injection Hx' as <-.
  set (w := vl n (fun i => lv x i - lv x' i)). exists w, (vl m (mulv n (tr D) (lv w))). split; [apply vl_len|].
  split; [apply Hg; apply vl_len|]. split; [apply vl_len|]. split.
  - intros k Hk. change (lv (vl m (mulv n (tr D) (lv w))) k = lv (vl m (mulv n (tr D) (lv x))) k - lv (vl m (mulv n (tr D) (lv x'))) k).
    rewrite !lv_vl by exact Hk. unfold mulv. rewrite <- rsum_minus. apply rsum_ext. intros i Hi. unfold w. rewrite lv_vl by exact Hi. ring.
  - intros i Hi. change (lv w i = lv x i - lv x' i). unfold w. apply lv_vl. exact Hi.
Qed.
Lemma div_minus G y y' d d' : built G -> nonneg_weights G -> div G y = Ok d -> div G y' = Ok d' ->
  let n := g_n_vertices G in let m := g_n_edges G in
  exists w dw, List.length w = m /\ div G w = Ok dw /\ List.length dw = n /\ (forall k, (k < m)%nat -> nth k w 0 = nth k y 0 - nth k y' 0) /\
    (forall i, (i < n)%nat -> nth i dw 0 = nth i d 0 - nth i d' 0).
Proof.
  intros Hb Hp Hx Hx' n m. destruct (flow_ops G Hb Hp) as (D & _ & Hg & _). fold n m in Hg.
  rewrite (Hg y (div_len _ _ _ Hx)) in Hx. injection Hx as <-. rewrite (Hg y' (div_len _ _ _ Hx')) in Hx'. injection Hx' as <-.
  set (w := vl m (fun i => lv y i - lv y' i)). exists w, (vl n (mulv m D (lv w))). split; [apply vl_len|].
  split; [apply Hg; apply vl_len|]. split; [apply vl_len|]. split.
  - intros k Hk. change (lv w k = lv y k - lv y' k). unfold w. apply lv_vl. exact Hk.
  - intros i Hi. change (lv (vl n (mulv m D (lv w))) i = lv (vl n (mulv m D (lv y))) i - lv (vl n (mulv m D (lv y'))) i).
    rewrite !lv_vl by exact Hi. unfold mulv. rewrite <- rsum_minus. apply rsum_ext. intros k Hk. unfold w. rewrite lv_vl by exact Hk. ring.
Qed.

(** both parts are determined by y, although the potential is not *)
Theorem C108_parts_are_unique G y x gx z d x' gx' z' d' : built G -> nonneg_weights G ->
  let n := g_n_vertices G in let m := g_n_edges G in
  grad G x = Ok gx -> div G z = Ok d -> all_zero n d -> adds_up m y gx z ->
  grad G x' = Ok gx' -> div G z' = Ok d' -> all_zero n d' -> adds_up m y gx' z' ->
  same_signal m gx gx' /\ same_signal m z z'.
Proof.
  intros Hb Hp n m Hx Hz H0 Hy Hx' Hz' H0' Hy'.
  destruct (grad_minus G x x' gx gx' Hb Hp Hx Hx') as (w & gw & Lw & Ew & Lgw & Hgw & _).
  destruct (div_minus G z' z d' d Hb Hp Hz' Hz) as (v & dv & Lv & Ev & Ldv & Hv & Hdv). fold n m in Lw, Lgw, Hgw, Lv, Ldv, Hv, Hdv.
  assert (Hsame : forall k, (k < m)%nat -> nth k gw 0 = nth k v 0).
  { intros k Hk. rewrite (Hgw k Hk), (Hv k Hk). pose proof (Hy k Hk). pose proof (Hy' k Hk). lra. }
  assert (Elist : gw = v) by (apply (nth_ext _ _ 0 0); [congruence|]; intros k Hk; apply Hsame; lia). subst v.
  assert (Z : all_zero m gw).
  { apply (both_zero G w gw dv Hb Hp Ew Ev). intros i Hi. rewrite (Hdv i Hi), (H0 i Hi), (H0' i Hi). ring. }
  split; intros k Hk.
  - pose proof (Z k Hk) as E. rewrite (Hgw k Hk) in E. lra.
  - pose proof (Z k Hk) as E. rewrite (Hv k Hk) in E. lra.
Qed.

Theorem C108_pythagoras G y x gx z d : built G -> nonneg_weights G -> let m := g_n_edges G in
  grad G x = Ok gx -> div G z = Ok d -> all_zero (g_n_vertices G) d -> adds_up m y gx z ->
  inner m y y = inner m gx gx + inner m z z.
Proof.
  intros Hb Hp m Hx Hz H0 Hy. pose proof (C108_gradients_are_orthogonal_to_circulations G x gx z d Hb Hp Hx Hz H0) as E. fold m in E.
  transitivity (inner m gx gx + inner m z z + 2 * inner m gx z); [|rewrite E; ring].
  unfold inner. rewrite <- rsum_scal_l, <- !rsum_plus. apply rsum_ext. intros k Hk. rewrite (Hy k Hk). ring.
Qed.

(** the gradient part is the gradient nearest to y *)
Theorem C108_nearest_gradient G y x gx z d x' gx' : built G -> nonneg_weights G -> let m := g_n_edges G in
  grad G x = Ok gx -> div G z = Ok d -> all_zero (g_n_vertices G) d -> adds_up m y gx z -> grad G x' = Ok gx' ->
  distance2 m y gx <= distance2 m y gx' /\ (distance2 m y gx' = distance2 m y gx -> same_signal m gx' gx).
Proof.
  intros Hb Hp m Hx Hz H0 Hy Hx'. destruct (grad_minus G x x' gx gx' Hb Hp Hx Hx') as (w & gw & Lw & Ew & Lgw & Hgw & _). fold m in Lgw, Hgw.
  pose proof (C108_gradients_are_orthogonal_to_circulations G w gw z d Hb Hp Ew Hz H0) as E. fold m in E.
  assert (A : distance2 m y gx' = distance2 m y gx + inner m gw gw).
  { transitivity (distance2 m y gx + inner m gw gw + 2 * inner m gw z); [|rewrite E; ring].
    unfold distance2, inner. rewrite <- rsum_scal_l, <- !rsum_plus. apply rsum_ext. intros k Hk. rewrite (Hy k Hk), (Hgw k Hk). ring. }
  assert (P : 0 <= inner m gw gw) by (unfold inner; apply rsum_nonneg; intros; apply Rle_0_sqr).
  split; [lra|]. intros Eq. assert (Q : inner m gw gw = 0) by lra. pose proof (normsq_zero_entries m (lv gw) Q) as Z.
  intros k Hk. pose proof (Z k Hk) as V. unfold lv in V. rewrite (Hgw k Hk) in V. lra.
Qed.

(** the potentials are the solutions of L x = div y *)
Theorem C108_potentials G y dy x gx : built G -> nonneg_weights G -> let n := g_n_vertices G in let m := g_n_edges G in
  div G y = Ok dy -> grad G x = Ok gx ->
  ((exists z d, List.length z = m /\ adds_up m y gx z /\ div G z = Ok d /\ all_zero n d) <->
   forall i, (i < n)%nat -> \sum_(j < n) (gL G i j * nth j x 0) = nth i dy 0).
Proof.
  intros Hb Hp n m Hy Hx. destruct (C13_div_grad_is_laplacian G x gx Hb Hp Hx) as (l & El & Ll & Hl). fold n in Ll, Hl.
  destruct (div_minus G y gx dy l Hb Hp Hy El) as (w & dwl & Lw & Ew & Ldw & Hw & Hdw). fold n m in Lw, Ldw, Hw, Hdw. split.
  - intros (z & d & Lz & Hyz & Hz & H0) i Hi. rewrite <- (Hl i Hi).
    assert (Ez : w = z) by (apply (nth_ext _ _ 0 0); [congruence|]; intros k Hk; rewrite (Hw k ltac:(lia)), (Hyz k ltac:(lia)); ring).
    subst z. rewrite Ew in Hz. injection Hz as <-. pose proof (Hdw i Hi) as E. rewrite (H0 i Hi) in E. lra.
  - intros H. exists w, dwl. split; [exact Lw|]. split; [intros k Hk; rewrite (Hw k Hk); ring|]. split; [exact Ew|].
    intros i Hi. rewrite (Hdw i Hi), (Hl i Hi), (H i Hi). ring.
Qed.

(** ** Spectrum *)

(** the gradients of the Fourier modes are orthogonal, of squared length the eigenvalue, and eigenvectors of grad o div *)
Theorem C108_gradients_of_the_fourier_modes G e U k l gk gl : built G -> nonneg_weights G ->
  let n := g_n_vertices G in let m := g_n_edges G in eigh_ok n (gL G) e U -> (k < n)%nat -> (l < n)%nat ->
  grad G (map (fun i => U i k) (seq 0 n)) = Ok gk -> grad G (map (fun i => U i l) (seq 0 n)) = Ok gl ->
  inner m gk gl = (if Nat.eqb k l then e k else 0) /\
  exists d h, div G gk = Ok d /\ grad G d = Ok h /\ forall a, (a < m)%nat -> nth a h 0 = e k * nth a gk 0.
Proof.
  intros Hb Hp n m HU Hk Hl Ek El. destruct (flow_ops G Hb Hp) as (D & Hg & Hd & HF). fold n m in Hg, Hd, HF.
  set (u := vl n (fun i => U i k)) in *. set (v := vl n (fun i => U i l)) in *. change (grad G u = Ok gk) in Ek. change (grad G v = Ok gl) in El.
  rewrite (Hg u (vl_len _ _)) in Ek. injection Ek as <-. rewrite (Hg v (vl_len _ _)) in El. injection El as <-.
  assert (HLu : forall i, (i < n)%nat -> mulv n (gL G) (lv u) i = e k * lv u i).
  { intros i Hi. unfold u. rewrite lv_vl by exact Hi. rewrite <- (eigh_eig _ _ _ _ HU i k Hi Hk). apply mulv_ext; [intros ? ?; reflexivity|]. intros j Hj. exact (lv_vl n (fun a => U a k) j Hj). }
  split.
  - transitivity (dot m (mulv n (tr D) (lv v)) (mulv n (tr D) (lv u))).
    { unfold inner, dot. apply rsum_ext. intros a Ha. change (lv (vl m (mulv n (tr D) (lv u))) a * lv (vl m (mulv n (tr D) (lv v))) a = mulv n (tr D) (lv v) a * mulv n (tr D) (lv u) a). rewrite !lv_vl by exact Ha. ring. }
    rewrite <- dot_mulv_tr. transitivity (\sum_(i < n) (e k * (U i k * U i l))).
    { unfold dot. apply rsum_ext. intros i Hi. rewrite <- (fac_mulv n m (gL G) D HF (lv u) i Hi), (HLu i Hi). unfold u, v. rewrite !lv_vl by exact Hi. ring. }
    rewrite rsum_scal_l. rewrite (eigh_cols _ _ _ _ HU k l Hk Hl). destruct (Nat.eqb k l); ring.
  - set (g := vl m (mulv n (tr D) (lv u))). set (d := vl n (mulv m D (lv g))). exists d, (vl m (mulv n (tr D) (lv d))).
    split; [apply Hd; apply vl_len|]. split; [apply Hg; apply vl_len|]. intros a Ha.
    change (lv (vl m (mulv n (tr D) (lv d))) a = e k * lv g a). unfold g. rewrite !lv_vl by exact Ha.
    unfold mulv. rewrite <- rsum_scal_l. apply rsum_ext. intros i Hi.
    assert (E : lv d i = e k * lv u i).
    { unfold d. rewrite lv_vl by exact Hi. rewrite <- (HLu i Hi), (fac_mulv n m (gL G) D HF (lv u) i Hi). apply mulv_ext; [intros ? ?; reflexivity|]. intros b Hbm. unfold g. apply lv_vl. exact Hbm. }
    rewrite E. ring.
Qed.

(** ** Connected graphs *)

Definition circulation (G : graph) (z : list R) : Prop := exists d, div G z = Ok d /\ all_zero (g_n_vertices G) d.

Lemma circ_rows G D z : (forall y, List.length y = g_n_edges G -> div G y = Ok (vl (g_n_vertices G) (mulv (g_n_edges G) D (lv y)))) ->
  List.length z = g_n_edges G -> (circulation G z <-> forall i, (i < g_n_vertices G)%nat -> mulv (g_n_edges G) D (lv z) i = 0).
Proof.
  intros Hd Hz. split.
  - intros (d & E & H0) i Hi. rewrite (Hd z Hz) in E. injection E as <-. rewrite <- (H0 i Hi). symmetry. exact (lv_vl _ _ i Hi).
  - intros H. eexists. split; [apply Hd; exact Hz|]. intros i Hi. transitivity (mulv (g_n_edges G) D (lv z) i); [exact (lv_vl _ _ i Hi)|exact (H i Hi)].
Qed.

(** on a combinatorial Laplacian, what flows out of some vertices flows into others *)
Theorem C108_divergences_sum_to_zero G y dy : built G -> nonneg_weights G -> g_lap_type G = Combinatorial -> div G y = Ok dy ->
  \sum_(i < g_n_vertices G) nth i dy 0 = 0.
Proof.
  intros Hb Hp Ht Hy. pose proof (div_len _ _ _ Hy) as Ly. set (n := g_n_vertices G) in *. set (m := g_n_edges G) in *.
  destruct (flow_ops G Hb Hp) as (D & _ & Hd & HF). fold n m in Hd, HF. rewrite (Hd y Ly) in Hy. injection Hy as <-.
  transitivity (dot n (fun _ => 1) (mulv m D (lv y))).
  { unfold dot. apply rsum_ext. intros i Hi. rewrite Rmult_1_l. exact (lv_vl n _ i Hi). }
  rewrite dot_mulv_tr. unfold dot. apply rsum_0. intros k Hk.
  rewrite (fac_null n m (gL G) D HF (fun _ => 1)); [ring| |exact Hk]. intros i Hi.
  destruct (C09_combinatorial_structure G Hb Ht) as (_ & H2 & _ & _). rewrite <- (H2 i Hi). unfold mulv. apply rsum_ext. intros; ring.
Qed.

(** on a connected graph, exactly the signals of sum zero are divergences, and images of the Laplacian *)
Theorem C108_poisson G b : built G -> nonneg_weights G -> g_lap_type G = Combinatorial -> connected G ->
  let n := g_n_vertices G in let m := g_n_edges G in List.length b = n ->
  (\sum_(i < n) nth i b 0 = 0 <-> exists y, div G y = Ok b) /\
  (\sum_(i < n) nth i b 0 = 0 <-> exists x, List.length x = n /\ forall i, (i < n)%nat -> \sum_(j < n) (gL G i j * nth j x 0) = nth i b 0).
Proof.
  intros Hb Hp Ht HC n m Hlb. pose proof (graph_is_laplacian G Hb Hp Ht) as HL. fold n in HL.
  assert (S1 : \sum_(i < n) nth i b 0 = 0 -> exists x, List.length x = n /\ forall i, (i < n)%nat -> \sum_(j < n) (gL G i j * nth j x 0) = nth i b 0).
  { intros H0. destruct (sym_solve n (gL G) (lv b) (proj1 HL)) as (x & Hx).
    - intros x Hx0. pose proof (proj1 (proj1 (C72_kernel G x Hb Hp Ht HC)) Hx0) as Hx. fold n in Hx. destruct (Nat.eq_dec n 0) as [E|E]; [rewrite E; reflexivity|].
      transitivity (x 0%nat * \sum_(i < n) nth i b 0); [|rewrite H0; ring]. rewrite <- rsum_scal_l. unfold dot. apply rsum_ext. intros i Hi.
      rewrite (Hx i 0%nat Hi ltac:(lia)). reflexivity.
    - exists (vl n x). split; [apply vl_len|]. intros i Hi. change (nth i b 0) with (lv b i). rewrite <- (Hx i Hi). apply rsum_ext. intros j Hj.
      f_equal. exact (lv_vl n x j Hj). }
  assert (S2 : (exists x, List.length x = n /\ forall i, (i < n)%nat -> \sum_(j < n) (gL G i j * nth j x 0) = nth i b 0) -> exists y, div G y = Ok b).
  { intros (x & Lx & Hx). destruct (flow_ops G Hb Hp) as (D & Hg & _ & _). fold n m in Hg. pose proof (Hg x Lx) as Eg.
    destruct (C13_div_grad_is_laplacian G x _ Hb Hp Eg) as (z & Ez & Lz & Hz). fold n in Lz, Hz.
    assert (E : z = b) by (apply (nth_ext _ _ 0 0); [congruence|]; intros i Hi; rewrite (Hz i ltac:(lia)); apply Hx; lia).
    subst z. eexists. exact Ez. }
  assert (S3 : (exists y, div G y = Ok b) -> \sum_(i < n) nth i b 0 = 0).
  { intros (y & Hy). exact (C108_divergences_sum_to_zero G y b Hb Hp Ht Hy). }
  split; split; intros H.
  - apply S2, S1, H.
  - apply S3, H.
  - apply S1, H.
  - apply S3, S2, H.
Qed.

(** n_edges - n_vertices linear conditions leave a non-zero circulation *)
Theorem C108_circulations_exist G q (c : nat -> list R) : built G -> nonneg_weights G -> g_lap_type G = Combinatorial -> (0 < g_n_vertices G)%nat ->
  let m := g_n_edges G in (q + g_n_vertices G <= m)%nat ->
  exists z, List.length z = m /\ circulation G z /\ ~ all_zero m z /\ forall a, (a < q)%nat -> inner m (c a) z = 0.
Proof.
  intros Hb Hp Ht Hn m Hq. set (n := g_n_vertices G) in *. destruct (flow_ops G Hb Hp) as (D & _ & Hd & HF). fold n m in Hd, HF.
  destruct (few_conditions m (q + (n - 1)) (fun k => if Nat.ltb k q then lv (c k) else D (k - q)%nat) ltac:(lia)) as (x & Hx & H).
  set (z := vl m x).
  assert (Hz : forall k, (k < m)%nat -> lv z k = x k) by (intros k Hk; exact (lv_vl m x k Hk)).
  assert (R1 : forall i, (i < n - 1)%nat -> mulv m D (lv z) i = 0).
  { intros i Hi. specialize (H (q + i)%nat ltac:(lia)). cbv beta in H. destruct (Nat.ltb_spec (q + i) q); [lia|].
    replace (q + i - q)%nat with i in H by lia. rewrite <- H. unfold mulv, dot. apply rsum_ext. intros k Hk. rewrite (Hz k Hk). reflexivity. }
  assert (Ed : div G z = Ok (vl n (mulv m D (lv z)))) by (apply Hd; apply vl_len).
  exists z. split; [apply vl_len|]. split; [|split].
  - exists (vl n (mulv m D (lv z))). split; [exact Ed|]. fold n. intros i Hi. change (lv (vl n (mulv m D (lv z))) i = 0). rewrite lv_vl by exact Hi.
    destruct (Nat.eq_dec i (n - 1)) as [E|E]; [|apply R1; lia]. subst i.
    pose proof (C108_divergences_sum_to_zero G z _ Hb Hp Ht Ed) as Q. fold n in Q.
    assert (S' : \sum_(i < n) mulv m D (lv z) i = 0).
    { rewrite <- Q. apply rsum_ext. intros i Hi'. symmetry. exact (lv_vl n _ i Hi'). }
    assert (En : n = S (n - 1)) by lia. rewrite En in S'. cbn [rsum] in S'. rewrite (rsum_0 (n - 1)) in S' by exact R1. lra.
  - intros Hz0. apply Hx. intros k Hk. rewrite <- (Hz k Hk). exact (Hz0 k Hk).
  - intros a Ha. specialize (H a ltac:(lia)). cbv beta in H. destruct (Nat.ltb_spec a q); [|lia]. rewrite <- H. unfold inner, dot. apply rsum_ext.
    intros k Hk. change (nth k z 0) with (lv z k). rewrite (Hz k Hk). reflexivity.
Qed.

(** on a connected graph, any n_edges - n_vertices + 2 circulations are linearly dependent *)
Theorem C108_circulations_are_dependent G (zs : list (list R)) : built G -> nonneg_weights G -> g_lap_type G = Combinatorial -> connected G ->
  (0 < g_n_vertices G)%nat -> let m := g_n_edges G in let q := List.length zs in
  (forall z, In z zs -> circulation G z) -> (m + 1 < q + g_n_vertices G)%nat ->
  exists c : nat -> R, (exists a, (a < q)%nat /\ c a <> 0) /\ forall k, (k < m)%nat -> \sum_(a < q) (c a * nth k (nth a zs []) 0) = 0.
Proof.
  intros Hb Hp Ht HC Hn m q Hzs Hq. set (n := g_n_vertices G) in *. destruct (flow_ops G Hb Hp) as (D & Hg & Hd & HF). fold n m in Hg, Hd, HF.
  set (row := fun k b => if Nat.ltb k m then (if Nat.ltb b q then nth k (nth b zs []) 0 else D (b - q)%nat k) else (if Nat.ltb b q then 0 else 1)).
  destruct (few_conditions (q + n) (m + 1) row ltac:(lia)) as (w & Hw & H).
  set (x := fun i => w (q + i)%nat).
  assert (Hrow : forall k, (k < m)%nat -> \sum_(a < q) (w a * nth k (nth a zs []) 0) + mulv n (tr D) x k = 0).
  { intros k Hk. specialize (H k ltac:(lia)). unfold dot, row in H. destruct (Nat.ltb_spec k m); [|lia]. rewrite rsum_split in H. etransitivity; [|exact H]. f_equal.
    - apply rsum_ext. intros a Ha. destruct (Nat.ltb_spec a q); [ring|lia].
    - unfold mulv, tr, x. apply rsum_ext. intros i Hi. destruct (Nat.ltb_spec (q + i) q); [lia|]. replace (q + i - q)%nat with i by lia. reflexivity. }
  assert (Hsum : \sum_(i < n) x i = 0).
  { specialize (H m ltac:(lia)). unfold dot, row in H. destruct (Nat.ltb_spec m m); [lia|]. rewrite rsum_split in H. etransitivity; [|exact H].
    rewrite (rsum_0 q); [rewrite Rplus_0_l|intros a Ha; destruct (Nat.ltb_spec a q); [ring|lia]]. unfold x. apply rsum_ext. intros i Hi.
    destruct (Nat.ltb_spec (q + i) q); [lia|ring]. }
  assert (Hdz : forall a i, (a < q)%nat -> (i < n)%nat -> mulv m D (lv (nth a zs [])) i = 0).
  { intros a i Ha Hi. assert (Hin : In (nth a zs []) zs) by (apply nth_In; exact Ha). pose proof (Hzs _ Hin) as Hc. destruct Hc as (d & Ec & H0).
    apply (proj1 (circ_rows G D (nth a zs []) Hd (div_len _ _ _ Ec))); [exists d; auto|exact Hi]. }
  set (s := fun k => \sum_(a < q) (w a * nth k (nth a zs []) 0)). set (g := mulv n (tr D) x).
  assert (Hs : forall i, (i < n)%nat -> mulv m D s i = 0).
  { intros i Hi. unfold mulv, s. rewrite (rsum_ext m _ (fun k => \sum_(a < q) (w a * (D i k * lv (nth a zs []) k)))).
    2:{ intros k Hk. rewrite <- rsum_scal_l. apply rsum_ext. intros a Ha. unfold lv. ring. }
    rewrite rsum_swap. apply rsum_0. intros a Ha. rewrite rsum_scal_l. pose proof (Hdz a i Ha Hi) as E. unfold mulv in E. rewrite E. ring. }
  assert (G0 : forall k, (k < m)%nat -> g k = 0).
  { apply normsq_zero_entries. transitivity (- dot m g s).
    - unfold normsq, dot. rewrite <- rsum_opp. apply rsum_ext. intros k Hk. pose proof (Hrow k Hk) as E. fold (s k) in E. fold (g k) in E. replace (s k) with (- g k) by lra. ring.
    - unfold g. rewrite <- dot_mulv_tr. unfold dot. rewrite (rsum_0 n); [ring|]. intros i Hi. rewrite (Hs i Hi). ring. }
  assert (X0 : forall i, (i < n)%nat -> x i = 0).
  { assert (K : forall i j, (i < n)%nat -> (j < n)%nat -> x i = x j).
    { apply (proj1 (proj1 (C72_kernel G x Hb Hp Ht HC))). intros i Hi. fold n. rewrite (fac_mulv n m (gL G) D HF x i Hi). unfold mulv at 1. apply rsum_0.
      intros k Hk. fold g. rewrite (G0 k Hk). ring. }
    intros i Hi. assert (Q : \sum_(j < n) x j = INR n * x i) by (rewrite <- rsum_const; apply rsum_ext; intros j Hj; apply K; assumption). rewrite Q in Hsum.
    apply Rmult_integral in Hsum. destruct Hsum as [E|E]; [|exact E]. exfalso. apply (not_0_INR n); [lia|exact E]. }
  exists w. split.
  - apply NNPP. intros Hno. apply Hw. intros b Hbq. destruct (Nat.lt_ge_cases b q) as [Hlt|Hge].
    + apply NNPP. intros Hne. apply Hno. exists b. split; assumption.
    + replace b with (q + (b - q))%nat by lia. apply X0. lia.
  - intros k Hk. pose proof (Hrow k Hk) as E. fold (g k) in E. rewrite (G0 k Hk) in E. lra.
Qed.

(** a connected graph has no non-zero circulation exactly when it has n_vertices - 1 edges *)
Theorem C108_trees G : built G -> nonneg_weights G -> g_lap_type G = Combinatorial -> connected G -> (0 < g_n_vertices G)%nat ->
  let m := g_n_edges G in
  (g_n_vertices G <= m + 1)%nat /\
  ((m + 1 = g_n_vertices G)%nat <-> forall z, circulation G z -> all_zero m z) /\
  ((m + 1 = g_n_vertices G)%nat <-> forall y, List.length y = m -> exists x, grad G x = Ok y).
Proof.
  intros Hb Hp Ht HC Hn m. set (n := g_n_vertices G) in *.
  assert (A : (n <= m + 1)%nat).
  { destruct (Nat.lt_ge_cases (m + 1) n) as [H|H]; [|exact H]. exfalso.
    destruct (C108_circulations_are_dependent G [] Hb Hp Ht HC Hn) as (c & (a & Ha & _) & _); [intros z []|exact H|cbn in Ha; lia]. }
  assert (B : (m + 1 = n)%nat -> forall z, circulation G z -> all_zero m z).
  { intros E z Hz. destruct (C108_circulations_are_dependent G [z] Hb Hp Ht HC Hn) as (c & (a & Ha & Hc) & H).
    - intros z' [<-|[]]. exact Hz.
    - fold m n. cbn [List.length]. lia.
    - cbn [List.length] in Ha, H. assert (a = 0)%nat by lia. subst a. intros k Hk. specialize (H k Hk). cbn [rsum nth] in H.
      assert (Q : c 0%nat * nth k z 0 = 0) by lra. apply Rmult_integral in Q. destruct Q; [contradiction|assumption]. }
  assert (C : (forall z, circulation G z -> all_zero m z) -> forall y, List.length y = m -> exists x, grad G x = Ok y).
  { intros H y Ly. destruct (C108_every_edge_signal_splits G y Hb Hp Ly) as (x & gx & z & d & _ & Eg & Lg & Lz & Hy & Ed & Hd0 & _).
    exists x. rewrite Eg. f_equal. fold m in Lg, Hy. apply (nth_ext _ _ 0 0); [congruence|]. intros k Hk.
    rewrite (Hy k ltac:(lia)), (H z (ex_intro _ d (conj Ed Hd0)) k ltac:(lia)). ring. }
  assert (F : (forall y, List.length y = m -> exists x, grad G x = Ok y) -> (m + 1 = n)%nat).
  { intros H. destruct (Nat.le_gt_cases n m) as [Hle|Hgt]; [|lia]. exfalso.
    destruct (C108_circulations_exist G 0 (fun _ => []) Hb Hp Ht Hn ltac:(lia)) as (z & Lz & (d & Ed & H0) & Hz & _). fold m in Lz, Hz.
    destruct (H z Lz) as (x & Ex). apply Hz. exact (both_zero G x z d Hb Hp Ex Ed H0). }
  split; [exact A|]. split; split; auto.
Qed.

(** on a path every edge signal is a gradient *)
Theorem C108_paths N G y : (1 <= N)%nat -> Path N false Combinatorial = Ok G -> List.length y = (N - 1)%nat -> exists x, grad G x = Ok y.
Proof.
  intros HN E Hy. destruct (C44_path N Combinatorial HN (or_introl eq_refl)) as (G' & E' & (Hb & Hn & _) & _ & _ & Hp & HC & He & Ht & _).
  rewrite E in E'. injection E' as <-. destruct (C108_trees G Hb Hp Ht HC ltac:(lia)) as (_ & _ & H). apply (proj1 H); lia.
Qed.
Lemma init_type inp lap coords G : graph_init inp lap coords = Ok G -> g_lap_type G = lap.
Proof.
  unfold graph_init. repeat match goal with |- context [if ?b then _ else _] => destruct b end; try discriminate.
  match goal with |- context [laplacian ?W lap] => destruct (laplacian W lap) end; cbn; [|discriminate]. intros H. injection H as <-. reflexivity.
Qed.
(** on a cycle the circulations are the multiples of one of them *)
Theorem C108_rings N G : (3 <= N)%nat -> Ring N 1 Combinatorial = Ok G -> g_n_edges G = N /\
  exists z, List.length z = N /\ circulation G z /\ ~ all_zero N z /\
    forall z', circulation G z' -> exists c, forall k, (k < N)%nat -> nth k z' 0 = c * nth k z 0.
Proof.
  intros HN E. destruct (C45_ring N 1 Combinatorial HN ltac:(lia) (or_introl eq_refl)) as (G' & E' & (Hb & Hn & _) & _ & _ & Hp & He & HC & _).
  rewrite E in E'. injection E' as <-. specialize (HC (le_n 1)). rewrite Nat.mul_1_r in He.
  assert (Ht : g_lap_type G = Combinatorial) by (unfold Ring in E; destruct (Nat.ltb N 3); [discriminate|]; destruct (Nat.ltb N (2 * 1)); [discriminate|]; apply init_type in E; exact E).
  split; [exact He|].
  destruct (C108_circulations_exist G 0 (fun _ => []) Hb Hp Ht ltac:(lia) ltac:(lia)) as (z & Lz & Hz & Hnz & _). rewrite He in Lz, Hnz.
  exists z. split; [exact Lz|]. split; [exact Hz|]. split; [exact Hnz|]. intros z' Hz'.
  destruct (C108_circulations_are_dependent G [z; z'] Hb Hp Ht HC ltac:(lia)) as (c & (a & Ha & Hc) & H).
  - intros v [ <- | [ <- | []]]; assumption.
  - cbn [List.length]. lia.
  - cbn [List.length] in Ha, H. rewrite He in H. cbn [rsum nth] in H.
    destruct (Req_dec (c 1%nat) 0) as [E1|E1].
    + exfalso. assert (E0 : c 0%nat <> 0) by (destruct a as [|[|a]]; [exact Hc|contradiction|lia]). apply Hnz. intros k Hk. specialize (H k Hk).
      rewrite E1 in H. assert (Q : c 0%nat * nth k z 0 = 0) by lra. apply Rmult_integral in Q. destruct Q; [contradiction|assumption].
    + exists (- c 0%nat / c 1%nat). intros k Hk. specialize (H k Hk). apply (Rmult_eq_reg_l (c 1%nat)); [|exact E1].
      replace (c 1%nat * (- c 0%nat / c 1%nat * nth k z 0)) with (- (c 0%nat * nth k z 0)) by (field; exact E1). lra.
Qed.
Example C108_ex : exists G y x gx z d, Ring 3 1 Combinatorial = Ok G /\ built G /\ nonneg_weights G /\ connected G /\ List.length y = 3%nat /\
  ~ all_zero 3 y /\ grad G x = Ok gx /\ adds_up 3 y gx z /\ div G z = Ok d /\ all_zero 3 d /\ ~ all_zero 3 z.
Proof.
  destruct (C45_ring 3 1 Combinatorial ltac:(lia) ltac:(lia) (or_introl eq_refl)) as (G & E & (Hb & Hn & _) & _ & _ & Hp & He & HC & _).
  destruct (C108_rings 3 G ltac:(lia) E) as (_ & y & Ly & (dy & Hd & H0) & Hnz & _). rewrite Hn in H0. cbn in He.
  destruct (C108_every_edge_signal_splits G y Hb Hp ltac:(lia)) as (x & gx & z & d & Lx & Eg & Lg & Lz & Hy & Ed & Hd0 & Ho).
  rewrite Hn in Hd0. rewrite He in Hy, Lz, Ho. exists G, y, x, gx, z, d. split; [exact E|]. split; [exact Hb|]. split; [exact Hp|]. split; [apply HC; lia|].
  split; [exact Ly|]. split; [exact Hnz|]. split; [exact Eg|]. split; [exact Hy|]. split; [exact Ed|]. split; [exact Hd0|].
  intros Hz. apply Hnz. assert (Q : inner 3 gx y = 0).
  { pose proof (C108_gradients_are_orthogonal_to_circulations G x gx y dy Hb Hp Eg Hd ltac:(rewrite Hn; exact H0)) as Q. rewrite He in Q. exact Q. }
  assert (S1 : inner 3 y y = 0).
  { rewrite <- Q. unfold inner. apply rsum_ext. intros k Hk. rewrite (Hy k Hk) at 1. rewrite (Hz k Hk). ring. }
  exact (normsq_zero_entries 3 (lv y) S1).
Qed.
