(** C20: what the computed Chebyshev coefficients are for an arbitrary kernel (interpolation at the Chebyshev nodes), in closed form
    for 1/(b + a x); and C37: the default orders of the pyramid do not match. *)
From Coq Require Import Reals Lra Lia List Arith Bool String FunctionalExtensionality.
From Coq Require Import List.
From Verif.Base Require Import RSum Prelude LinAlg Solve.
From Verif.Spec Require Import Matrix NdArray GraphSpec Reach LapSpec FilterSpec.
From Verif.Model Require Import Sparse Graph Traverse Cache Filter Utils Reduction.
From Verif.Proofs Require Import SparseFacts InitFacts EdgeFacts LapFacts SubgraphFacts MaxPrinciple SchurFacts SpectralFacts FilterFacts ChebFacts.
From Verif.Props Require Import Core Laplacian Traversal Caching Filtering UtilsProps ReductionProps PyramidProps.
Import ListNotations.
Open Scope R_scope.

(** the j-th of the m+1 Chebyshev nodes in [-1, 1] *)
Definition node (m j : nat) : R := cos (PI * (INR j + /2) / INR (S m)).

Lemma coeff_of_span lmax g m f : 0 < lmax -> tspan m f -> (forall j, (j <= m)%nat -> f (node m j) = g (lmax / 2 * node m j + lmax / 2)) ->
  exists c, cheby_coeff1 lmax (pw g) m None = Ok c /\ forall y, cheb_series c y = f y.
Proof.
  intros Hl Hsp Hf. unfold cheby_coeff1, pw. cbn [bindr]. unfold cheby_nodes. rewrite !map_length, seq_length, Nat.eqb_refl. cbn [negb].
  eexists. split; [reflexivity|]. intros y.
  rewrite <- (dct_series m (S m) f m ltac:(lia) Hsp ltac:(lia) ltac:(lia) y).
  f_equal. apply map_ext_in. intros o Ho. unfold dct. f_equal. apply rsum_ext. intros j Hj.
  rewrite map_map, nth_map_seq by exact Hj. f_equal. symmetry. apply Hf. lia.
Qed.
(** through any values at the nodes there is a combination of T_0 .. T_m *)
Lemma interp_exists m (y : nat -> R) : exists f, tspan m f /\ forall j, (j <= m)%nat -> f (node m j) = y j.
Proof.
  destruct (solve_exists (S m) (fun j l => chebT l (node m j)) y) as (b & Hb).
  - intros x Hx l Hl.
    pose proof (dct_span m (S m) (fun t => \sum_(l < S m) (x l * chebT l t)) x l ltac:(lia) ltac:(lia) (fun _ => eq_refl)) as D.
    assert (Z : dct (S m) (fun j => \sum_(l < S m) (x l * chebT l (cos (PI * (INR j + / 2) / INR (S m))))) l = 0).
    { unfold dct. rewrite rsum_0; [ring|]. intros j Hj. specialize (Hx j Hj). unfold mulv, node in Hx.
      rewrite (rsum_ext (S m) _ (fun l => chebT l (cos (PI * (INR j + / 2) / INR (S m))) * x l)); [rewrite Hx; ring|]. intros; ring. }
    cbv beta in D. rewrite Z in D. destruct (Nat.eqb_spec l 0) as [->|]; lra.
  - exists (fun t => \sum_(l < S m) (b l * chebT l t)). split; [exists b; reflexivity|]. intros j Hj. rewrite <- (Hb j) by lia.
    unfold mulv. apply rsum_ext. intros; ring.
Qed.
Lemma coeffs_of_spans lmax m : 0 < lmax -> forall gs (fs : nat -> R -> R),
  (forall i, (i < List.length gs)%nat -> tspan m (fs i) /\ forall j, (j <= m)%nat -> fs i (node m j) = nth i gs (fun _ => 0) (lmax / 2 * node m j + lmax / 2)) ->
  exists c, mapr (fun k => cheby_coeff1 lmax k m None) (map pw gs) = Ok c /\ forall i y, (i < List.length gs)%nat -> cheb_series (nth i c []) y = fs i y.
Proof.
  intros Hl. induction gs as [|g gs IH]; intros fs H.
  - exists []. split; [reflexivity|]. intros; cbn in *; lia.
  - destruct (IH (fun i => fs (S i))) as (c & E & Hc). { intros i Hi. apply (H (S i)). cbn; lia. }
    destruct (H 0%nat ltac:(cbn; lia)) as (Hs & Hn). destruct (coeff_of_span lmax g m (fs 0%nat) Hl Hs Hn) as (c0 & E0 & H0).
    exists (c0 :: c). cbn [map mapr]. rewrite E0. cbn [bindr]. rewrite E. split; [reflexivity|].
    intros [|i] y Hi; cbn [nth]; [apply H0|apply Hc; cbn in Hi; lia].
Qed.
(** For every kernel, the computed series takes the kernel's values at the order+1 Chebyshev nodes of [0, lmax]. *)
Theorem C20_series_interpolates_the_kernel : forall lmax gs o, 0 < lmax -> gs <> [] ->
  exists c, compute_cheby_coeff lmax (map pw gs) o None = Ok c /\
    forall i j, (i < List.length gs)%nat -> (j <= o)%nat ->
      let t := cos (PI * (INR j + /2) / INR (S o)) in
      cheb_series (nth i c []) t = nth i gs (fun _ => 0) (lmax / 2 * t + lmax / 2).
Proof.
  intros lmax gs o Hl Hne.
  destruct (fin_choice (List.length gs) (fun i f => tspan o f /\ forall j, (j <= o)%nat -> f (node o j) = nth i gs (fun _ => 0) (lmax / 2 * node o j + lmax / 2)) (fun _ => 0)) as (fs & Hfs).
  { intros i Hi. apply interp_exists. }
  destruct (coeffs_of_spans lmax o Hl gs fs Hfs) as (c & E & Hc). exists c. split; [destruct gs; [congruence|exact E]|].
  intros i j Hi Hj t. rewrite Hc by exact Hi. apply Hfs; assumption.
Qed.
(** Every bank of pointwise kernels has a frequency response with the Chebyshev method. *)
Lemma response_cheb F gs o : 0 < v_lmax F -> (1 <= o)%nat -> gs <> [] -> exists H, response F (map pw gs) (Chebyshev o) H.
Proof.
  intros Hl Ho Hne. destruct (C20_series_interpolates_the_kernel (v_lmax F) gs o Hl Hne) as (c & E & _).
  exists (fun i k => cheb_series (nth i c []) (2 * nth k (v_e F) 0 / v_lmax F - 1)). exists c. split; [exact E|]. split; [exact Ho|]. split; [exact Hl|]. reflexivity.
Qed.

(** ** The kernel 1/(b + a x) *)
Lemma chebT_SS k z : chebT (S (S k)) z = 2 * z * chebT (S k) z - chebT k z. Proof. reflexivity. Qed.
Lemma chebT_grows z : 1 < Rabs z -> forall k, 1 <= Rabs (chebT k z) < Rabs (chebT (S k) z).
Proof.
  intros Hz k. induction k as [|k (IH1 & IH2)].
  - cbn [chebT]. rewrite Rabs_R1. split; [lra|exact Hz].
  - split; [lra|]. rewrite chebT_SS. pose proof (Rabs_triang_inv (2 * z * chebT (S k) z) (chebT k z)) as T.
    rewrite !Rabs_mult in T. rewrite (Rabs_pos_eq 2) in T by lra.
    assert (2 * Rabs (chebT (S k) z) < 2 * Rabs z * Rabs (chebT (S k) z)) by nra. lra.
Qed.
Lemma chebT_incr z i j : 1 < Rabs z -> (i < j)%nat -> Rabs (chebT i z) < Rabs (chebT j z).
Proof.
  intros Hz Hij. induction Hij as [|j Hij IH]; [apply chebT_grows; exact Hz|]. pose proof (chebT_grows z Hz j). lra.
Qed.
Lemma chebT_nz z k : 1 < Rabs z -> chebT k z <> 0.
Proof. intros Hz E. destruct (chebT_grows z Hz k) as (H & _). rewrite E, Rabs_R0 in H. lra. Qed.
(** (T_n(y) - T_n(z)) / (y - z) is a combination of T_0 .. T_{n-1} *)
Lemma chebT_quot z n : exists d, tspan n d /\ (forall y, chebT (S n) y - chebT (S n) z = (y - z) * d y) /\
                        exists d', tspan n d' /\ (forall y, chebT n y - chebT n z = (y - z) * d' y).
Proof.
  induction n as [|n (d & Hd & Ed & d' & Hd' & Ed')].
  - exists (fun _ => 1). split; [apply tspan_ext with (chebT 0); [reflexivity|apply tspan_T; lia]|]. split; [intros y; cbn; ring|].
    exists (fun _ => 0). split; [exists (fun _ => 0); intros y; symmetry; apply rsum_0; intros; ring|]. intros y. cbn. ring.
  - exists (fun y => 1 * ((2 * y + 0) * d y) + 1 * (2 * chebT (S n) z * chebT 0 y + (-1) * d' y)).
    split; [|split].
    + apply tspan_lin; [apply tspan_mul; exact Hd|]. apply tspan_lin; [apply tspan_T; lia|]. apply tspan_mono with n; [lia|exact Hd'].
    + intros y. rewrite !chebT_SS. change (chebT 0 y) with 1. transitivity (2 * y * (chebT (S n) y - chebT (S n) z) + 2 * (y - z) * chebT (S n) z - (chebT n y - chebT n z)); [ring|].
      rewrite Ed, Ed'. ring.
    + exists d. split; [apply tspan_mono with n; [lia|exact Hd]|exact Ed].
Qed.
Lemma cos_half j : cos (INR j * PI + PI / 2) = 0.
Proof. rewrite cos_plus, cos_PI2, sin_PI2, sin_kPI. ring. Qed.
Lemma node_root m j : chebT (S m) (node m j) = 0.
Proof.
  unfold node. rewrite chebT_cos. assert (INR (S m) <> 0) by (apply not_0_INR; lia).
  replace (INR (S m) * (PI * (INR j + / 2) / INR (S m))) with (INR j * PI + PI / 2) by (field; assumption). apply cos_half.
Qed.
Lemma node_range m j : -1 <= node m j <= 1. Proof. apply COS_bound. Qed.

(** the interpolant of 1/(b + a x) *)
Definition inv_series (a b lmax : R) (o : nat) (x : R) : R :=
  (1 - chebT (S o) (2 * x / lmax - 1) / chebT (S o) (-2 * (b / a) / lmax - 1)) / (b + a * x).
Lemma pole_out a b lmax : 0 < a -> 0 < b -> 0 < lmax -> -2 * (b / a) / lmax - 1 < -1 /\ 1 < Rabs (-2 * (b / a) / lmax - 1).
Proof.
  intros Ha Hb Hl. assert (0 < b / a / lmax) by (apply Rdiv_lt_0_compat; [apply Rdiv_lt_0_compat|]; assumption).
  assert (-2 * (b / a) / lmax - 1 < -1). { replace (-2 * (b / a) / lmax) with (- 2 * (b / a / lmax)) by (field; lra). lra. }
  split; [assumption|]. rewrite Rabs_left by lra. lra.
Qed.
Lemma inv_series_span a b lmax o : 0 < a -> 0 < b -> 0 < lmax -> exists f, tspan o f /\
  (forall y, -1 <= y -> f y = inv_series a b lmax o (lmax / 2 * y + lmax / 2)) /\
  forall j, (j <= o)%nat -> f (node o j) = 1 / (b + a * (lmax / 2 * node o j + lmax / 2)).
Proof.
  intros Ha Hb Hl. destruct (pole_out a b lmax Ha Hb Hl) as (Hz1 & Hz). set (z := -2 * (b / a) / lmax - 1) in *.
  destruct (chebT_quot z o) as (d & Hd & Ed & _). pose proof (chebT_nz z (S o) Hz) as Hnz.
  set (q := - 2 / (a * lmax * chebT (S o) z)).
  assert (Ef : forall y, -1 <= y -> q * d y + 0 * d y = inv_series a b lmax o (lmax / 2 * y + lmax / 2)).
  { intros y Hy. unfold inv_series. fold z. replace (2 * (lmax / 2 * y + lmax / 2) / lmax - 1) with y by (field; lra).
    assert (Hyz : y - z <> 0) by lra.
    assert (E1 : b + a * (lmax / 2 * y + lmax / 2) = a * lmax / 2 * (y - z)) by (unfold z; field; lra). rewrite E1.
    replace (d y) with ((chebT (S o) y - chebT (S o) z) / (y - z)) by (rewrite Ed; field; exact Hyz).
    unfold q. field. repeat split; try lra; assumption. }
  exists (fun y => q * d y + 0 * d y). split; [apply tspan_lin; exact Hd|]. split; [exact Ef|]. intros j Hj. pose proof (node_range o j).
  rewrite Ef by lra. unfold inv_series. replace (2 * (lmax / 2 * node o j + lmax / 2) / lmax - 1) with (node o j) by (field; lra).
  rewrite node_root. f_equal. unfold Rdiv. ring.
Qed.
(** The Chebyshev method applied to 1/(b + a x): the gain at frequency x is (1 - T_{o+1}(x')/T_{o+1}(z)) / (b + a x), where x' is x mapped to
    [-1,1] and z is the image of the pole. *)
Theorem C20_closed_form_for_a_pole : forall F a b o, 0 < v_lmax F -> (1 <= o)%nat -> 0 < a -> 0 < b ->
  (forall k, (k < v_N F)%nat -> 0 <= nth k (v_e F) 0) ->
  response F [pw (fun x => 1 / (b + a * x))] (Chebyshev o) (fun _ k =>
    let x := nth k (v_e F) 0 in
    (1 - chebT (S o) (2 * x / v_lmax F - 1) / chebT (S o) (-2 * (b / a) / v_lmax F - 1)) / (b + a * x)).
Proof.
  intros F a b o Hl Ho Ha Hb He. destruct (inv_series_span a b (v_lmax F) o Ha Hb Hl) as (f & Hs & Ef & Hn).
  destruct (coeffs_of_spans (v_lmax F) o Hl [fun x => 1 / (b + a * x)] (fun _ => f)) as (c & E & Hc).
  { intros i Hi. split; [exact Hs|]. intros j Hj. destruct i; [|cbn in Hi; lia]. apply Hn. exact Hj. }
  exists c. split; [exact E|]. split; [exact Ho|]. split; [exact Hl|]. intros i k Hi Hk. cbn in Hi.
  rewrite Hc by exact Hi. specialize (He k Hk). set (x := nth k (v_e F) 0) in *.
  rewrite Ef.
  - unfold inv_series. replace (v_lmax F / 2 * (2 * x / v_lmax F - 1) + v_lmax F / 2) with x by (field; lra). reflexivity.
  - assert (0 <= 2 * x / v_lmax F). { apply Rmult_le_pos; [lra|]. left. apply Rinv_0_lt_compat. exact Hl. } lra.
Qed.
Example C20_closed_form_ex : 0 < v_lmax (k2_view 2) /\ (forall k, (k < v_N (k2_view 2))%nat -> 0 <= nth k (v_e (k2_view 2)) 0).
Proof. cbn. split; [lra|]. intros [|[|k]] Hk; try lra; lia. Qed.

(** ** C37: with the default keywords the pyramid does not reconstruct *)
Lemma green_as_pole eps : green eps = pw (fun x => 1 / (eps + 1 * x)).
Proof. unfold green. f_equal. apply functional_extensionality. intros x. rewrite Rmult_1_l. reflexivity. Qed.
Lemma default_as_pole : pw (fun x => 1 / (2 * x + 1)) = pw (fun x => 1 / (1 + 2 * x)).
Proof. f_equal. apply functional_extensionality. intros x. f_equal. ring. Qed.

Definition k2_level : plevel := mkplevel (k2_view 2) true [0%nat] (fun _ _ => -1 / 1.005).
Lemma k2_level_solver : spsolve_ok 2 (l_reg (v_L (k2_view 2)) 0.005) [0%nat] (pl_X k2_level).
Proof.
  intros k j Hk Hj. change (setdiff 2 [0%nat]) with [1%nat] in *. cbn in Hk, Hj. destruct k; [|lia]. destruct j; [|lia].
  unfold l_reg, idm. cbn [List.length rsum nth k2_view v_L Nat.eqb pl_X k2_level]. lra.
Qed.
Lemma k2_level_sel : selection 2 [0%nat].
Proof. split; [repeat constructor; cbn; tauto|]. intros v [<-|[]]. lia. Qed.
Lemma k2_eig : forall k, (k < v_N (k2_view 2))%nat -> 0 <= nth k (v_e (k2_view 2)) 0.
Proof. exact (proj2 C20_closed_form_ex). Qed.
Definition pole_gain (a b lmax : R) (o : nat) (x : R) : R := (1 - chebT (S o) (2 * x / lmax - 1) / chebT (S o) (-2 * (b / a) / lmax - 1)) / (b + a * x).
Lemma k2_green_response o : (1 <= o)%nat -> response (k2_view 2) [green 0.005] (Chebyshev o) (fun _ k => pole_gain 1 0.005 2 o (nth k [0; 2] 0)).
Proof. intros Ho. rewrite green_as_pole. apply (C20_closed_form_for_a_pole (k2_view 2) 1 0.005 o); [cbn; lra|exact Ho|lra|lra|exact k2_eig]. Qed.
Lemma k2_default_response o : (1 <= o)%nat -> response (k2_view 2) [pw (fun x => 1 / (2 * x + 1))] (Chebyshev o) (fun _ k => pole_gain 2 1 2 o (nth k [0; 2] 0)).
Proof. intros Ho. rewrite default_as_pole. apply (C20_closed_form_for_a_pole (k2_view 2) 2 1 o); [cbn; lra|exact Ho|lra|lra|exact k2_eig]. Qed.
Lemma k2_mult h x n : (n < 2)%nat -> mult (k2_view 2) h x n =
  (h 0%nat * (x 0%nat + x 1%nat) + (if Nat.eqb n 0 then 1 else -1) * h 1%nat * (x 0%nat - x 1%nat)) / 2.
Proof.
  intros Hn. assert (Hs : / sqrt 2 * / sqrt 2 = / 2).
  { rewrite <- Rinv_mult, sqrt_sqrt by lra. reflexivity. }
  unfold mult, fhat. cbn [v_N k2_view rsum v_U]. destruct n as [|[|n]]; [| |lia]; unfold k2U; cbn [Nat.eqb andb].
  - transitivity ((/ sqrt 2 * / sqrt 2) * (h 0%nat * (x 0%nat + x 1%nat) + 1 * h 1%nat * (x 0%nat - x 1%nat))); [ring|]. rewrite Hs. field.
  - transitivity ((/ sqrt 2 * / sqrt 2) * (h 0%nat * (x 0%nat + x 1%nat) + -1 * h 1%nat * (x 0%nat - x 1%nat))); [ring|]. rewrite Hs. field.
Qed.
Lemma chebT_1 k : chebT k 1 = 1. Proof. rewrite <- cos_0. rewrite chebT_cos, Rmult_0_r. reflexivity. Qed.
Lemma chebT_m1 k : Rabs (chebT k (-1)) <= 1. Proof. rewrite <- cos_PI. rewrite chebT_cos. apply Rabs_le. apply COS_bound. Qed.
Lemma default_gain_nz o : pole_gain 2 1 2 o 0 <> 0.
Proof.
  unfold pole_gain. destruct (pole_out 2 1 2 ltac:(lra) ltac:(lra) ltac:(lra)) as (_ & Hz). set (z := -2 * (1 / 2) / 2 - 1) in *.
  replace (2 * 0 / 2 - 1) with (-1) by field. pose proof (chebT_nz z (S o) Hz) as Hnz.
  intros E. assert (E1 : chebT (S o) (-1) = chebT (S o) z).
  { replace (1 + 2 * 0) with 1 in E by ring. unfold Rdiv in E at 1; rewrite Rinv_1, Rmult_1_r in E. assert (E2 : chebT (S o) (-1) / chebT (S o) z = 1) by lra.
    apply (f_equal (fun t => t * chebT (S o) z)) in E2. rewrite Rmult_1_l in E2. rewrite <- E2. field. exact Hnz. }
  pose proof (chebT_m1 (S o)) as H1. rewrite E1 in H1. destruct (chebT_grows z Hz o). lra.
Qed.
Lemma green_gain_differs o1 o2 : (o1 < o2)%nat -> pole_gain 1 0.005 2 o1 2 <> pole_gain 1 0.005 2 o2 2.
Proof.
  intros Ho. unfold pole_gain. destruct (pole_out 1 0.005 2 ltac:(lra) ltac:(lra) ltac:(lra)) as (_ & Hz). set (z := -2 * (0.005 / 1) / 2 - 1) in *.
  replace (2 * 2 / 2 - 1) with 1 by field. rewrite !chebT_1. intros E.
  pose proof (chebT_nz z (S o1) Hz) as N1. pose proof (chebT_nz z (S o2) Hz) as N2.
  assert (E1 : 1 / chebT (S o1) z = 1 / chebT (S o2) z).
  { unfold Rdiv at 1 3 in E. apply Rmult_eq_reg_r in E; [lra|]. apply Rinv_neq_0_compat. lra. }
  assert (E2 : chebT (S o1) z = chebT (S o2) z).
  { rewrite <- (Rinv_inv (chebT (S o1) z)), <- (Rinv_inv (chebT (S o2) z)). f_equal. unfold Rdiv in E1. lra. }
  pose proof (chebT_incr z (S o1) (S o2) Hz ltac:(lia)). rewrite E2 in H. lra.
Qed.

(** The default keywords: order 100 predicts during the analysis, order 30 during the synthesis (Chebyshev method). On the graph with one edge, keeping
    one vertex, the all-ones signal does not come back, although every hypothesis of the reconstruction theorem but the equality of orders holds. *)
Theorem C37_default_orders_refuted : exists l f ca e rec cs,
  chained 2 [l] /\ level_ok (Chebyshev 30) (Chebyshev 100) (l, pw (fun x => 1 / (2 * x + 1))) /\
  spsolve_ok 2 (l_reg (v_L (pl_view l)) 0.005) (pl_idx l) (pl_X l) /\ shape f = [2%nat; 1%nat] /\
  pyramid_analysis 2 [l] f HDefault MCheb None = Ok ([f; ca], [e]) /\
  pyramid_synthesis [l] ca [e] MCheb None false = Ok (rec, cs) /\ shape rec = shape f /\ ~ aeq rec f.
Proof.
  pose (F := k2_view 2). pose (f := Arr [2%nat; 1%nat] (fun _ => 1)).
  assert (HF : spectral F) by apply k2_spectral.
  pose proof (k2_default_response 30 ltac:(lia)) as R0. pose proof (k2_green_response 100 ltac:(lia)) as R1. pose proof (k2_green_response 30 ltac:(lia)) as R2.
  destruct (analysis_batch F _ (Chebyshev 30) _ f 1 _ HF ltac:(cbn; lia) R0 (batch2 _ 1 1 _ ltac:(lia))) as (sl & E1 & S1 & V1).
  assert (E2 : exists ca', take_rows sl [0%nat] = Ok ca' /\ shape ca' = [1%nat; 1%nat] /\ aget ca' [0%nat; 0%nat] = aget sl [0%nat; 0%nat]).
  { unfold take_rows. rewrite S1. cbn. eexists. split; [reflexivity|]. split; reflexivity. }
  destruct E2 as (ca & E2 & S2 & V2).
  specialize (V1 0%nat 0%nat ltac:(cbn; lia) ltac:(lia)). cbn [Nat.mul Nat.add v_N F k2_view] in V1. fold F in V1.
  rewrite k2_mult in V1 by lia. cbn [nth] in V1.
  assert (Vc : aget ca [0%nat; 0%nat] = pole_gain 2 1 2 30 0).
  { rewrite V2. rewrite V1. field. }
  set (s := pole_gain 2 1 2 30 0) in *. assert (Hsnz : s <> 0) by apply default_gain_nz.
  assert (P : forall o, (1 <= o)%nat -> exists sp, interpolate F true ca [0%nat] (Chebyshev o) 0.005 (pl_X k2_level) = Ok sp /\ shape sp = [2%nat; 1%nat] /\
     forall n, (n < 2)%nat -> aget sp [n; 0%nat] = (pole_gain 1 0.005 2 o 0 + (if Nat.eqb n 0 then 1 else -1) * pole_gain 1 0.005 2 o 2) * ((1.005 - 1 / 1.005) * s) / 2).
  { intros o Ho. destruct (interpolate_batch F [0%nat] (Chebyshev o) 0.005 (pl_X k2_level) _ ca 1 (fun j i => aget ca [i; j]) HF ltac:(cbn; lia) k2_level_sel (k2_green_response o Ho) (or_intror (conj S2 (fun j i => eq_refl)))) as (sp & E & Ss & Vs).
    exists sp. split; [exact E|]. split; [exact Ss|]. intros n Hn. specialize (Vs n 0%nat Hn ltac:(lia)). cbn [Nat.mul] in Vs. rewrite Nat.mul_0_r, Nat.add_0_r in Vs. rewrite Vs.
    rewrite k2_mult by exact Hn. cbn [nth List.length].
    assert (Ka : mulv 1 (sym_fix 1 (schur (v_N F) (l_reg (v_L F) 0.005) [0%nat] (pl_X k2_level))) (fun i => aget ca [i; 0%nat]) 0%nat = (1.005 - 1 / 1.005) * s).
    { unfold mulv. cbn [rsum]. rewrite Vc. rewrite sym_fix_id; [|intros i j Hi Hj; destruct i; [|lia]; destruct j; [reflexivity|lia]|lia|lia].
      unfold schur. change (setdiff (v_N F) [0%nat]) with [1%nat]. unfold ixm, l_reg, idm, F. cbn [List.length rsum nth k2_view v_L Nat.eqb pl_X k2_level]. lra. }
    change (scatter [0%nat] ?al 0%nat) with (al 0%nat). change (scatter [0%nat] ?al 1%nat) with 0.
    rewrite Ka. field. lra. }
  destruct (P 100%nat ltac:(lia)) as (p1 & Ep1 & Sp1 & Vp1). destruct (P 30%nat ltac:(lia)) as (p2 & Ep2 & Sp2 & Vp2).
  destruct (broadcast_col Rminus f p1 2 1 eq_refl Sp1 ltac:(lia)) as (e & Ee & Se & Ve).
  destruct (broadcast_col' Rplus e p2 2 1 Se Sp2 ltac:(lia)) as (rec & Er & Sr & Vr).
  exists k2_level, f, ca, e, rec, [rec; ca]. split; [cbn; auto|]. split.
  { split; [exact HF|]. split; [cbn; lia|]. split; [reflexivity|]. split; [exact k2_level_sel|]. split; eexists; eassumption. }
  split; [exact k2_level_solver|]. split; [reflexivity|]. split; [|split].
  - unfold pyramid_analysis. cbn [shape f Nat.eqb negb List.length h_expand h_list repeat bindr combine pyr_loop with_order oget]. fold f.
    change (pl_view k2_level) with F. change (pl_idx k2_level) with [0%nat]. change (pl_mr k2_level) with true. rewrite E1. cbn [bindr]. rewrite E2. cbn [bindr].
    rewrite Ep1. cbn [bindr]. rewrite Ee. reflexivity.
  - unfold pyramid_synthesis. cbn [List.length seq map nth_error combine rev app syn_loop with_order oget].
    change (pl_view k2_level) with F. change (pl_idx k2_level) with [0%nat]. change (pl_mr k2_level) with true. rewrite Ep2. cbn [bindr]. rewrite Er. reflexivity.
  - split; [exact Sr|]. intros (_ & A).
    assert (A0 : aget p2 [0%nat; 0%nat] = aget p1 [0%nat; 0%nat]).
    { pose proof (A [0%nat; 0%nat]) as B. rewrite Sr in B. specialize (B ltac:(repeat constructor)). rewrite Vr, Ve in B by lia. unfold f in B. cbn [aget] in B. lra. }
    assert (A1 : aget p2 [1%nat; 0%nat] = aget p1 [1%nat; 0%nat]).
    { pose proof (A [1%nat; 0%nat]) as B. rewrite Sr in B. specialize (B ltac:(repeat constructor)). rewrite Vr, Ve in B by lia. unfold f in B. cbn [aget] in B. lra. }
    rewrite Vp1, Vp2 in A0, A1 by lia. cbn [Nat.eqb] in A0, A1. apply (green_gain_differs 30 100 ltac:(lia)).
    assert (Hal : (1.005 - 1 / 1.005) * s <> 0) by (apply Rmult_integral_contrapositive_currified; [lra|exact Hsnz]).
    apply Rmult_eq_reg_r with ((1.005 - 1 / 1.005) * s); [|exact Hal]. lra.
Qed.
(** The hypotheses of the reconstruction theorem are met, with the default filter and the exact method (and the same order otherwise). *)
Example C37_ex : chained 2 [k2_level] /\ h_expand HDefault 1 = Ok [pw (fun x => 1 / (2 * x + 1))] /\
  Forall (level_ok Exact Exact) [(k2_level, pw (fun x => 1 / (2 * x + 1)))] /\
  Forall (level_ok (Chebyshev 30) (Chebyshev 30)) [(k2_level, pw (fun x => 1 / (2 * x + 1)))].
Proof.
  split; [cbn; auto|]. split; [reflexivity|].
  assert (HF : spectral (pl_view k2_level)) by apply k2_spectral.
  split; (constructor; [|constructor]); (split; [exact HF|]; split; [cbn; lia|]; split; [reflexivity|]; split; [exact k2_level_sel|]).
  - split; eexists; [apply (response_pw _ [_] HF)|apply (response_pw _ [fun x => 1 / (0.005 + x)] HF)].
  - split; eexists; [apply k2_default_response; lia|apply k2_green_response; lia].
Qed.
Example C36_ex : spectral (k2_view 2) /\ (1 < v_N (k2_view 2))%nat /\ symmetric 2 (v_L (k2_view 2)) /\ psd 2 (v_L (k2_view 2)) /\ selection 2 [0%nat] /\
  spsolve_ok 2 (l_reg (v_L (k2_view 2)) 0.005) [0%nat] (pl_X k2_level).
Proof.
  split; [apply k2_spectral|]. split; [cbn; lia|]. split; [intros i j Hi Hj; cbn; unfold tr; rewrite (Nat.eqb_sym j i); reflexivity|]. split.
  - intros x. unfold quad, dot, mulv. cbn. pose proof (Rle_0_sqr (x 0%nat - x 1%nat)) as H. unfold Rsqr in H. nra.
  - split; [exact k2_level_sel|exact k2_level_solver].
Qed.
Example C37_levels_ex : chained 2 [k2_level] /\ Forall level_exact [k2_level] /\ h_expand HDefault 1 = Ok (map pw [fun x => 1 / (2 * x + 1)]).
Proof.
  destruct C36_ex as (H1 & H2 & H3 & H4 & H5 & H6). split; [cbn; auto|]. split; [|reflexivity]. constructor; [|constructor]. unfold level_exact. change (pl_view k2_level) with (k2_view 2). change (pl_idx k2_level) with [0%nat].
  split; [exact H1|]. split; [exact H2|]. split; [reflexivity|]. split; [exact H5|]. split; [exact H3|]. split; [exact H4|exact H6].
Qed.
