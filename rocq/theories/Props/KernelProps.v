(** Properties C28-C31, C68: the ready-made kernels. *)
From Coq Require Import Reals Lra Lia List Arith Bool String ZArith.
From Coq Require Import List.
From Verif.Base Require Import RSum Prelude LinAlg.
From Verif.Spec Require Import Matrix NdArray FilterSpec.
From Verif.Model Require Import Sparse Graph Traverse Cache Filter Kernels.
From Verif.Proofs Require Import SpectralFacts FilterFacts ChebFacts.
From Verif.Props Require Import Caching Filtering Banks.
Import ListNotations.
Open Scope R_scope.

(** ** C28: Heat *)

Lemma div_nonneg a b : 0 <= a -> 0 < b -> 0 <= a / b.
Proof. intros. apply Rmult_le_pos; [assumption|]. apply Rlt_le, Rinv_0_lt_compat. assumption. Qed.
Lemma heat_exp lmax s x : 0 < lmax -> 0 <= s -> 0 <= x -> heat_fun lmax s x = exp (- (s * x / lmax)).
Proof.
  intros Hl Hs Hx. unfold heat_fun. replace (- s * x / lmax) with (- (s * x / lmax)) by (field; lra). apply Rmin_left.
  rewrite <- exp_0. assert (0 <= s * x / lmax) by (apply div_nonneg; [apply Rmult_le_pos|]; assumption).
  destruct (Req_dec (s * x / lmax) 0) as [->|Hne]; [rewrite Ropp_0; lra|]. apply Rlt_le, exp_increasing. lra.
Qed.

(** One filter per scale, whether a number or a sequence is passed; kernel i at x is
    min(exp(-scale_i x / lmax), 1), divided by its norm over the spectrum if normalize. *)
Theorem C28_heat_bank :
  forall F scale x, List.length (Heat F scale false) = List.length (pvals scale) /\
    evaluate (Heat F scale false) x = Ok (map (fun s => map (fun t => Rmin (exp (- s * t / v_lmax F)) 1) x) (pvals scale)).
Proof.
  intros F scale x. split; [apply map_length|]. unfold Heat.
  transitivity (evaluate (map pw (map (fun s t => heat_fun (v_lmax F) s t / 1) (pvals scale))) x).
  - f_equal. rewrite map_map. reflexivity.
  - rewrite evaluate_pw, map_map. f_equal. apply map_ext. intros s. apply map_ext. intros t. unfold heat_fun. field.
Qed.

Theorem C28_range_and_value_at_zero :
  forall lmax s x, 0 < heat_fun lmax s x <= 1 /\ heat_fun lmax s 0 = 1.
Proof.
  intros lmax s x. unfold heat_fun. split.
  - split; [apply Rmin_glb_lt; [apply exp_pos|lra]|apply Rmin_r].
  - replace (- s * 0 / lmax) with 0 by (unfold Rdiv; ring). rewrite exp_0. apply Rmin_left. lra.
Qed.
Theorem C28_decreasing :
  forall lmax s x y, 0 < lmax -> 0 <= s -> 0 <= x <= y -> heat_fun lmax s y <= heat_fun lmax s x /\ (0 < s -> x < y -> heat_fun lmax s y < heat_fun lmax s x).
Proof.
  intros lmax s x y Hl Hs Hxy. rewrite !heat_exp by lra.
  assert (E : s * y / lmax - s * x / lmax = s * (y - x) / lmax) by (field; lra).
  assert (Hd : 0 <= s * (y - x) / lmax) by (apply div_nonneg; [apply Rmult_le_pos; lra|exact Hl]).
  split.
  - destruct (Req_dec (s * y / lmax) (s * x / lmax)) as [->|Hne]; [lra|]. apply Rlt_le, exp_increasing. lra.
  - intros H1 H2. apply exp_increasing. assert (0 < s * (y - x) / lmax) by (apply Rdiv_lt_0_compat; nra). lra.
Qed.
Theorem C28_semigroup :
  forall lmax s t x, 0 < lmax -> 0 <= s -> 0 <= t -> 0 <= x -> heat_fun lmax (s + t) x = heat_fun lmax t x * heat_fun lmax s x.
Proof.
  intros lmax s t x Hl Hs Ht Hx. rewrite !heat_exp by lra. rewrite <- exp_plus. f_equal. field. lra.
Qed.
(** The kernel solves the heat equation: d/ds = - (x / lmax) times the kernel. *)
Theorem C28_heat_equation :
  forall lmax s x, 0 < lmax -> 0 < s -> 0 <= x ->
    derivable_pt_lim (fun s => heat_fun lmax s x) s (- (x / lmax) * heat_fun lmax s x).
Proof.
  intros lmax s x Hl Hs Hx. rewrite heat_exp by lra.
  assert (HD : derivable_pt_lim (fun s => exp (- (s * x / lmax))) s (exp (- (s * x / lmax)) * - (x / lmax))).
  { apply (derivable_pt_lim_comp (fun s => - (s * x / lmax)) exp); [|apply derivable_pt_lim_exp].
    assert (E : forall y, - (x / lmax) * y = - (y * x / lmax)) by (intros; field; lra).
    assert (D : derivable_pt_lim (fun y => - (x / lmax) * y) s (- (x / lmax) * 1)) by (apply (derivable_pt_lim_scal id), derivable_pt_lim_id).
    rewrite Rmult_1_r in D. intros eps He. destruct (D eps He) as (d & Hd). exists d. intros h Hh1 Hh2. rewrite <- !E. apply Hd; assumption. }
  rewrite Rmult_comm. intros eps He. destruct (HD eps He) as (d & Hd).
  assert (Hp : 0 < Rmin d s) by (apply Rmin_glb_lt; [apply cond_pos|exact Hs]).
  exists (mkposreal _ Hp). intros h Hh Hlt. cbn in Hlt.
  pose proof (Rmin_l d s). pose proof (Rmin_r d s). rewrite !heat_exp; try lra; [apply Hd; lra|].
  unfold Rabs in Hlt. destruct (Rcase_abs h); lra.
Qed.

(** Filtering (exactly) with scale s and then with scale t is filtering with scale s + t. *)
Theorem C28_diffusion_composes :
  forall F s t x, spectral F -> (1 < v_N F)%nat -> 0 < v_lmax F -> 0 <= s -> 0 <= t -> (forall u, In u (v_e F) -> 0 <= u) ->
    exists o1 o2 o3, gfilter F (Heat F (Scalar s) false) Exact (vec_arr (v_N F) x) = Ok o1 /\
      gfilter F (Heat F (Scalar t) false) Exact o1 = Ok o2 /\
      gfilter F (Heat F (Scalar (s + t)) false) Exact (vec_arr (v_N F) x) = Ok o3 /\ aeq o2 o3.
Proof.
  intros F s t x HF HN Hl Hs Ht He.
  destruct (C19_composition F (fun u => heat_fun (v_lmax F) s u / 1) (fun u => heat_fun (v_lmax F) t u / 1) x HF HN) as (o1 & o2 & o3 & E1 & E2 & E3 & Ha).
  exists o1, o2, o3. split; [exact E1|]. split; [exact E2|]. split; [|exact Ha]. rewrite <- E3.
  unfold gfilter. cbn [List.length Heat map pvals]. destruct (to_3d _ _ _) as [s3|]; [|reflexivity]. cbn [bindr filter3].
  unfold filter_exact3. cbn [List.length].
  replace (evaluate [pw (fun x0 => heat_fun (v_lmax F) (s + t) x0 / 1)] (v_e F))
    with (evaluate [pw (fun t0 => heat_fun (v_lmax F) t t0 / 1 * (heat_fun (v_lmax F) s t0 / 1))] (v_e F)); [reflexivity|].
  unfold evaluate, pw. cbn [mapr bindr]. rewrite !map_length, Nat.eqb_refl. do 2 f_equal. apply map_ext_in. intros u Hu.
  rewrite C28_semigroup by (try assumption; apply He; exact Hu). field.
Qed.

(** normalize=True: over the eigenvalues of the graph each kernel has unit norm. *)
Theorem C28_normalized :
  forall F scale, v_e F <> [] -> exists y, evaluate (Heat F scale true) (v_e F) = Ok y /\ List.length y = List.length (pvals scale) /\
    forall row, In row y -> lsum (map (fun v => v * v) row) = 1.
Proof.
  intros F scale He.
  assert (E : Heat F scale true = map pw (map (fun s t => heat_fun (v_lmax F) s t / heat_norm (v_lmax F) (v_e F) s) (pvals scale)))
    by (unfold Heat; rewrite map_map; reflexivity).
  rewrite E, evaluate_pw, map_map. eexists. split; [reflexivity|]. split; [apply map_length|].
  intros row Hin. apply in_map_iff in Hin. destruct Hin as (s & <- & _). rewrite map_map.
  set (q := lsum (map (fun x => heat_fun (v_lmax F) s x * heat_fun (v_lmax F) s x) (v_e F))).
  assert (Hq : 0 < q).
  { unfold q. destruct (v_e F) as [|a l]; [congruence|]. cbn [map]. rewrite lsum_cons.
    pose proof (proj1 (C28_range_and_value_at_zero (v_lmax F) s a)).
    assert (0 <= lsum (map (fun x => heat_fun (v_lmax F) s x * heat_fun (v_lmax F) s x) l)) by (apply lsum_map_nonneg; intros; nra). nra. }
  rewrite (lsum_map_ext _ _ (fun x => / q * (heat_fun (v_lmax F) s x * heat_fun (v_lmax F) s x))).
  - rewrite lsum_map_scal. fold q. field. lra.
  - intros x _. unfold heat_norm. fold q. assert (Hs : sqrt q * sqrt q = q) by (apply sqrt_sqrt; lra).
    assert (sqrt q <> 0) by (intros Z; rewrite Z in Hs; lra). rewrite <- Hs at 3. field. assumption.
Qed.

Example C28_ex : spectral (k2_view 2) /\ 0 < v_lmax (k2_view 2) /\ (forall u, In u (v_e (k2_view 2)) -> 0 <= u) /\ v_e (k2_view 2) <> [].
Proof. split; [apply k2_spectral|]. cbn. split; [lra|]. split; [intros u [<-|[<-|[]]]; lra|discriminate]. Qed.

(** ** C29: Wave *)

Lemma wave_arg_range lmax c x : 0 < lmax -> Rabs c <= 2 -> 0 <= x <= lmax -> -1 <= wave_arg lmax c x <= 1.
Proof.
  intros Hl Hc Hx. unfold wave_arg. assert (Hx1 : 0 <= x / lmax) by (apply div_nonneg; lra).
  assert (Hx2 : x / lmax <= 1) by (apply Rmult_le_reg_r with lmax; [lra|]; unfold Rdiv; rewrite Rmult_assoc, Rinv_l by lra; lra).
  replace (c ^ 2 * x / lmax / 2) with (c * c * (x / lmax) / 2) by (field; lra).
  assert (0 <= c * c <= 4). { replace (c * c) with (Rabs c * Rabs c); [pose proof (Rabs_pos c); nra|]. rewrite <- Rabs_mult. apply Rabs_pos_eq. nra. }
  nra.
Qed.

(** The discrete wave equation: consecutive times satisfy
    g_{t+1} + g_{t-1} = 2 (1 - speed^2 x / (2 lmax)) g_t on the whole spectrum. *)
Theorem C29_wave_equation :
  forall lmax speed t x, 0 < lmax -> 0 <= speed < 2 -> 0 <= x <= lmax ->
    wave_fun lmax (t + 1) speed x + wave_fun lmax (t - 1) speed x =
    2 * (1 - speed ^ 2 * x / (2 * lmax)) * wave_fun lmax t speed x.
Proof.
  intros lmax c t x Hl Hc Hx. unfold wave_fun. set (th := acos (wave_arg lmax c x)).
  assert (Hcos : cos th = wave_arg lmax c x) by (apply cos_acos, wave_arg_range; [exact Hl|rewrite Rabs_pos_eq; lra|exact Hx]).
  replace ((t + 1) * th) with (t * th + th) by ring. replace ((t - 1) * th) with (t * th - th) by ring.
  rewrite cos_plus, cos_minus, Hcos. unfold wave_arg. field. lra.
Qed.
Theorem C29_initial_condition_and_bound :
  forall lmax speed t x, 0 < lmax ->
    wave_fun lmax 0 speed x = 1 /\ wave_fun lmax t speed 0 = 1 /\ -1 <= wave_fun lmax t speed x <= 1.
Proof.
  intros lmax c t x Hl. unfold wave_fun. split; [rewrite Rmult_0_l; apply cos_0|]. split; [|apply COS_bound].
  unfold wave_arg. replace (1 - c ^ 2 * 0 / lmax / 2) with 1 by (unfold Rdiv; ring). rewrite acos_1, Rmult_0_r. apply cos_0.
Qed.

(** *** Parameters *)
Lemma existsb_speed l : existsb (fun s => Rleb 2 s) l = false <-> forall s, In s l -> s < 2.
Proof.
  split.
  - intros E s Hin. destruct (Rleb_spec 2 s) as [H|H]; [|lra]. exfalso.
    assert (existsb (fun s => Rleb 2 s) l = true) by (apply existsb_exists; exists s; split; [exact Hin|apply Rleb_true; exact H]). congruence.
  - intros H. destruct (existsb _ l) eqn:E; [|reflexivity]. apply existsb_exists in E. destruct E as (s & Hin & Hs). apply Rleb_true in Hs. specialize (H s Hin). lra.
Qed.
Lemma concat_repeat1 (x : R) n : List.concat (repeat [x] n) = repeat x n.
Proof. induction n; cbn; congruence. Qed.

(** Sequences of equal lengths are paired; a speed of 2 or more is rejected. *)
Theorem C29_equal_lengths :
  forall lmax time speed, List.length (pvals time) = List.length (pvals speed) ->
    ((forall s, In s (pvals speed) -> s < 2) ->
       Wave lmax time speed = Ok (map (fun p => pw (wave_fun lmax (fst p) (snd p))) (combine (pvals time) (pvals speed)))) /\
    ((exists s, In s (pvals speed) /\ 2 <= s) -> Wave lmax time speed = Raise ValueError).
Proof.
  intros lmax time speed El. unfold Wave. rewrite El, Nat.eqb_refl. cbn [bindr fst snd]. split.
  - intros H. apply existsb_speed in H. rewrite H. reflexivity.
  - intros (s & Hin & Hs). replace (existsb _ _) with true; [reflexivity|]. symmetry. apply existsb_exists. exists s. split; [exact Hin|apply Rleb_true; exact Hs].
Qed.
(** A number or a one-element list is broadcast against the other parameter. *)
Theorem C29_broadcasting :
  forall lmax v other, (List.length (pvals other) <> 1)%nat -> pvals other <> [] ->
    forall p, p = Scalar v \/ p = PyList [v] ->
    (v < 2 -> Wave lmax other p = Ok (map (fun t => pw (wave_fun lmax t v)) (pvals other))) /\
    ((forall s, In s (pvals other) -> s < 2) -> Wave lmax p other = Ok (map (fun s => pw (wave_fun lmax v s)) (pvals other))).
Proof.
  intros lmax v other H1 H0 p Hp.
  assert (E : pvals p = [v]) by (destruct Hp as [-> | ->]; reflexivity).
  assert (ET : forall n, pvals (py_times p n) = repeat v n) by (intros n; destruct Hp as [-> | ->]; apply concat_repeat1).
  apply Nat.eqb_neq in H1. assert (H1' : Nat.eqb 1 (List.length (pvals other)) = false) by (rewrite Nat.eqb_sym; exact H1).
  unfold Wave. rewrite E. cbn [List.length]. rewrite !H1', !H1, !Nat.eqb_refl. cbn [bindr fst snd]. rewrite !ET. split; intros Hs.
  - replace (existsb _ _) with false.
    + f_equal. generalize (pvals other). intros l. induction l as [|a l IH]; cbn; [reflexivity|]. f_equal. exact IH.
    + symmetry. apply existsb_speed. intros s Hin. apply repeat_spec in Hin. lra.
  - apply existsb_speed in Hs. rewrite Hs. f_equal. clear. generalize (pvals other). intros l. induction l as [|a l IH]; cbn; [reflexivity|]. f_equal. exact IH.
Qed.
Theorem C29_incompatible_lengths_rejected :
  forall lmax time speed, List.length (pvals time) <> List.length (pvals speed) ->
    List.length (pvals time) <> 1%nat -> List.length (pvals speed) <> 1%nat -> Wave lmax time speed = Raise ValueError.
Proof.
  intros lmax time speed H1 H2 H3. unfold Wave. apply Nat.eqb_neq in H1, H2, H3. rewrite H1, H2, H3. reflexivity.
Qed.
(** Finding: a one-element numpy array is not broadcast but multiplied by the number of times, and a single
    filter results. *)
Theorem C29_array_parameter_is_not_broadcast_refuted :
  forall lmax t1 t2 s, s < 1 -> Wave lmax (PyList [t1; t2]) (NdArray [s]) = Ok [pw (wave_fun lmax t1 (s * 2))].
Proof.
  intros lmax t1 t2 s Hs. unfold Wave. cbn. destruct (Rleb_spec 2 (s * (1 + 1))); [lra|]. cbn. repeat f_equal. 
Qed.
(** Finding: a negative speed below -2 is accepted although np.arccos is then undefined at lmax. *)
Theorem C29_negative_speed_accepted_refuted :
  forall lmax t, 0 < lmax -> Wave lmax (Scalar t) (Scalar (-3)) = Ok [pw (wave_fun lmax t (-3))] /\ wave_arg lmax (-3) lmax < -1.
Proof.
  intros lmax t Hl. split.
  - unfold Wave. cbn. destruct (Rleb_spec 2 (-3)); [lra|]. reflexivity.
  - unfold wave_arg. replace ((-3) ^ 2 * lmax / lmax / 2) with (9 / 2) by (field; lra). lra.
Qed.
Example C29_ex : exists ks, Wave 2 (PyList [0; 1; 2]) (Scalar (/ 2)) = Ok ks /\ List.length ks = 3%nat.
Proof.
  destruct (C29_broadcasting 2 (/ 2) (PyList [0; 1; 2]) ltac:(cbn; lia) ltac:(discriminate) (Scalar (/ 2)) (or_introl eq_refl)) as (H & _).
  rewrite (H ltac:(lra)). eexists. split; reflexivity.
Qed.

(** ** C30: Rectangular and Expwin *)

(** Rectangular is the indicator of the closed band band_min <= x / lmax <= band_max (None: no limit). *)
Theorem C30_rectangular_is_the_indicator :
  forall lmax bmin bmax x, 0 < lmax ->
    ((forall a, bmin = Some a -> a * lmax <= x) -> (forall b, bmax = Some b -> x <= b * lmax) -> rect_fun lmax bmin bmax x = 1) /\
    ((exists a, bmin = Some a /\ x < a * lmax) \/ (exists b, bmax = Some b /\ b * lmax < x) -> rect_fun lmax bmin bmax x = 0).
Proof.
  intros lmax bmin bmax x Hl.
  assert (Hle : forall b, Rleb (x / lmax) b = true <-> x <= b * lmax).
  { intros b. rewrite Rleb_true. unfold Rdiv. split; intros H.
    - apply Rmult_le_compat_r with (r := lmax) in H; [|lra]. rewrite Rmult_assoc, Rinv_l, Rmult_1_r in H by lra. exact H.
    - apply Rmult_le_reg_r with lmax; [lra|]. rewrite Rmult_assoc, Rinv_l, Rmult_1_r by lra. exact H. }
  assert (Hge : forall b, Rleb b (x / lmax) = true <-> b * lmax <= x).
  { intros b. rewrite Rleb_true. unfold Rdiv. split; intros H.
    - apply Rmult_le_compat_r with (r := lmax) in H; [|lra]. rewrite Rmult_assoc, Rinv_l, Rmult_1_r in H by lra. exact H.
    - apply Rmult_le_reg_r with lmax; [lra|]. rewrite Rmult_assoc, Rinv_l, Rmult_1_r by lra. exact H. }
  split.
  - intros H1 H2. unfold rect_fun. destruct bmin as [a|]; destruct bmax as [b|]; try reflexivity.
    + rewrite (proj2 (Hle b) (H2 b eq_refl)), (proj2 (Hge a) (H1 a eq_refl)). ring.
    + rewrite (proj2 (Hge a) (H1 a eq_refl)). reflexivity.
    + rewrite (proj2 (Hle b) (H2 b eq_refl)). reflexivity.
  - intros H. unfold rect_fun. destruct H as [(a & -> & Ha)|(b & -> & Hb)].
    + assert (E : Rleb a (x / lmax) = false) by (destruct (Rleb a (x / lmax)) eqn:E; [apply Hge in E; lra|reflexivity]).
      rewrite E. destruct bmax; ring.
    + assert (E : Rleb (x / lmax) b = false) by (destruct (Rleb (x / lmax) b) eqn:E; [apply Hle in E; lra|reflexivity]).
      rewrite E. destruct bmin; ring.
Qed.

Lemma expwin_exp_nonneg s x : 0 <= expwin_exp s x /\ (0 < x -> 0 < expwin_exp s x).
Proof. unfold expwin_exp. destruct (Rleb_spec x 0); [split; lra|]. pose proof (exp_pos (- s / x)). split; lra. Qed.
Lemma expwin_den s x : 0 < expwin_exp s x + expwin_exp s (1 - x).
Proof.
  pose proof (expwin_exp_nonneg s x) as (H1 & H2). pose proof (expwin_exp_nonneg s (1 - x)) as (H3 & H4).
  destruct (Rlt_le_dec 0 x) as [H|H]; [specialize (H2 H); lra|specialize (H4 ltac:(lra)); lra].
Qed.
Lemma expwin_h_range s x : 0 <= expwin_h s x <= 1.
Proof.
  unfold expwin_h. pose proof (expwin_den s x). pose proof (proj1 (expwin_exp_nonneg s x)). pose proof (proj1 (expwin_exp_nonneg s (1 - x))).
  split; [apply div_nonneg; assumption|]. apply Rmult_le_reg_r with (expwin_exp s x + expwin_exp s (1 - x)); [assumption|].
  unfold Rdiv. rewrite Rmult_assoc, Rinv_l by lra. lra.
Qed.
Lemma expwin_h_compl s x : expwin_h s x + expwin_h s (1 - x) = 1.
Proof. unfold expwin_h. replace (1 - (1 - x)) with x by ring. pose proof (expwin_den s x). field. lra. Qed.
Lemma expwin_h_one s x : 1 <= x -> expwin_h s x = 1.
Proof.
  intros H. unfold expwin_h. assert (E : expwin_exp s (1 - x) = 0) by (unfold expwin_exp; destruct (Rleb_spec (1 - x) 0); [reflexivity|lra]).
  rewrite E. pose proof (proj2 (expwin_exp_nonneg s x) ltac:(lra)). field. lra.
Qed.
Lemma expwin_h_zero s x : x <= 0 -> expwin_h s x = 0.
Proof. intros H. pose proof (expwin_h_compl s x). rewrite (expwin_h_one s (1 - x)) in H0 by lra. lra. Qed.
Lemma expwin_h_half s : expwin_h s (/ 2) = / 2.
Proof. pose proof (expwin_h_compl s (/ 2)). replace (1 - / 2) with (/ 2) in H by lra. lra. Qed.
Lemma expwin_exp_mono s x y : 0 <= s -> x <= y -> expwin_exp s x <= expwin_exp s y.
Proof.
  intros Hs Hxy. unfold expwin_exp at 1. destruct (Rleb_spec x 0) as [H|H]; [apply expwin_exp_nonneg|]. unfold expwin_exp. destruct (Rleb_spec y 0); [lra|].
  assert (- s / x <= - s / y).
  { unfold Rdiv. rewrite !Ropp_mult_distr_l_reverse. apply Ropp_le_contravar, Rmult_le_compat_l; [lra|]. apply Rinv_le_contravar; lra. }
  destruct (Req_dec (- s / x) (- s / y)) as [->|Hne]; [lra|]. apply Rlt_le, exp_increasing. lra.
Qed.
Lemma expwin_h_mono s x y : 0 <= s -> x <= y -> expwin_h s x <= expwin_h s y.
Proof.
  intros Hs Hxy. unfold expwin_h. pose proof (expwin_exp_mono s x y Hs Hxy). pose proof (expwin_exp_mono s (1 - y) (1 - x) Hs ltac:(lra)).
  pose proof (expwin_den s x). pose proof (expwin_den s y).
  pose proof (proj1 (expwin_exp_nonneg s x)). pose proof (proj1 (expwin_exp_nonneg s (1 - y))).
  set (a := expwin_exp s x) in *. set (b := expwin_exp s (1 - x)) in *. set (c := expwin_exp s y) in *. set (d := expwin_exp s (1 - y)) in *.
  apply Rmult_le_reg_r with ((a + b) * (c + d)); [apply Rmult_lt_0_compat; assumption|].
  replace (a / (a + b) * ((a + b) * (c + d))) with (a * (c + d)) by (field; lra).
  replace (c / (c + d) * ((a + b) * (c + d))) with (c * (a + b)) by (field; lra). nra.
Qed.

(** Low-pass Expwin: values in [0,1], 1 up to band_max - 1/2, 0 from band_max + 1/2 (in units of lmax),
    exactly 1/2 at the band edge, and non-increasing for slope >= 0. *)
Theorem C30_expwin_lowpass :
  forall lmax slope b x, 0 < lmax ->
    let g := expwin_fun lmax slope None (Some b) in
    0 <= g x <= 1 /\ (x / lmax <= b - / 2 -> g x = 1) /\ (b + / 2 <= x / lmax -> g x = 0) /\ g (b * lmax) = / 2 /\
    (forall y, 0 <= slope -> x <= y -> g y <= g x).
Proof.
  intros lmax slope b x Hl g. unfold g, expwin_fun. split; [apply expwin_h_range|]. split; [intros; apply expwin_h_one; lra|].
  split; [intros; apply expwin_h_zero; lra|]. split.
  - replace (/ 2 - b * lmax / lmax + b) with (/ 2) by (field; lra). apply expwin_h_half.
  - intros y Hs Hxy. apply expwin_h_mono; [exact Hs|]. assert (x / lmax <= y / lmax); [|lra].
    apply Rmult_le_compat_r; [apply Rlt_le, Rinv_0_lt_compat; exact Hl|exact Hxy].
Qed.
(** High-pass: the complement to one of the low-pass with the same edge; band-pass: their product. *)
Theorem C30_expwin_complementary :
  forall lmax slope b x, expwin_fun lmax slope None (Some b) x + expwin_fun lmax slope (Some b) None x = 1.
Proof.
  intros. unfold expwin_fun. pose proof (expwin_h_compl slope (/ 2 - x / lmax + b)) as E.
  replace (1 - (/ 2 - x / lmax + b)) with (/ 2 + x / lmax - b) in E by lra. exact E.
Qed.
Theorem C30_expwin_bandpass :
  forall lmax slope a b x,
    expwin_fun lmax slope (Some a) (Some b) x = expwin_fun lmax slope None (Some b) x * expwin_fun lmax slope (Some a) None x /\
    expwin_fun lmax slope None None x = 1 /\
    (a + / 2 <= x / lmax <= b - / 2 -> expwin_fun lmax slope (Some a) (Some b) x = 1) /\
    (x / lmax <= a - / 2 \/ b + / 2 <= x / lmax -> expwin_fun lmax slope (Some a) (Some b) x = 0).
Proof.
  intros. split; [reflexivity|]. split; [reflexivity|]. unfold expwin_fun. split; intros H.
  - rewrite !expwin_h_one by lra. ring.
  - destruct H; [rewrite (expwin_h_zero slope (/ 2 + x / lmax - a)) by lra|rewrite (expwin_h_zero slope (/ 2 - x / lmax + b)) by lra]; ring.
Qed.
Example C30_ex : expwin_fun 2 1 None (Some 1) 0 = 1 /\ rect_fun 2 (Some (/ 4)) (Some (/ 2)) 1 = 1.
Proof.
  split; [apply (proj1 (proj2 (C30_expwin_lowpass 2 1 1 0 ltac:(lra)))); lra|].
  apply (proj1 (C30_rectangular_is_the_indicator 2 (Some (/ 4)) (Some (/ 2)) 1 ltac:(lra))); intros v E; injection E as <-; lra.
Qed.

(** ** C31: scales and wavelet kernels *)

(** compute_log_scales: N scales, the first t2/lmin, the last t1/lmax, with a constant ratio, decreasing
    when t1/lmax < t2/lmin. *)
Theorem C31_log_scales :
  forall lmin lmax N t1 t2, 0 < lmin -> 0 < lmax -> 0 < t1 -> 0 < t2 -> (2 <= N)%nat ->
    let s := compute_log_scales lmin lmax N t1 t2 in
    List.length s = N /\ nth 0 s 0 = t2 / lmin /\ nth (N - 1) s 0 = t1 / lmax /\
    (forall i, (S i < N)%nat -> nth (S i) s 0 * nth 0 s 0 = nth i s 0 * nth 1 s 0) /\
    (t1 / lmax < t2 / lmin -> forall i, (S i < N)%nat -> 0 < nth (S i) s 0 < nth i s 0).
Proof.
  intros lmin lmax N t1 t2 H1 H2 H3 H4 HN s.
  assert (Pa : 0 < t2 / lmin) by (apply Rdiv_lt_0_compat; assumption). assert (Pb : 0 < t1 / lmax) by (apply Rdiv_lt_0_compat; assumption).
  set (a := ln (t2 / lmin)) in *. set (b := ln (t1 / lmax)) in *.
  assert (Hn : forall i, (i < N)%nat -> nth i s 0 = exp (a + INR i * ((b - a) / INR (N - 1)))).
  { intros i Hi. unfold s, compute_log_scales, np_linspace. rewrite map_map. rewrite nth_map_seq by exact Hi. reflexivity. }
  assert (HN1 : 0 < INR (N - 1)) by (apply lt_0_INR; lia).
  split; [unfold s, compute_log_scales, np_linspace; rewrite !map_length, seq_length; reflexivity|].
  split; [|split; [|split]].
  - rewrite Hn by lia. cbn [INR]. rewrite Rmult_0_l, Rplus_0_r. apply exp_ln, Pa.
  - rewrite Hn by lia. replace (a + INR (N - 1) * ((b - a) / INR (N - 1))) with b by (field; lra). apply exp_ln, Pb.
  - intros i Hi. rewrite !Hn by lia. rewrite <- !exp_plus. f_equal. rewrite S_INR. cbn [INR]. ring.
  - intros Hlt i Hi. rewrite !Hn by lia. split; [apply exp_pos|]. apply exp_increasing. rewrite S_INR.
    assert (b < a) by (apply ln_increasing; assumption).
    assert (0 < (a - b) / INR (N - 1)) by (apply Rdiv_lt_0_compat; lra).
    replace ((b - a) / INR (N - 1)) with (- ((a - b) / INR (N - 1))) by (field; lra). lra.
Qed.
Theorem C31_log_scales_degenerate :
  forall lmin lmax t1 t2, 0 < lmin -> 0 < t2 -> compute_log_scales lmin lmax 0 t1 t2 = [] /\ compute_log_scales lmin lmax 1 t1 t2 = [t2 / lmin].
Proof.
  intros. split; [reflexivity|]. unfold compute_log_scales, np_linspace. cbn [seq map INR]. rewrite Rmult_0_l, Rplus_0_r, exp_ln; [reflexivity|].
  apply Rdiv_lt_0_compat; assumption.
Qed.

Lemma band_pass_bound x : 0 <= x -> 0 <= band_pass x <= exp (-1).
Proof.
  intros Hx. unfold band_pass. pose proof (exp_pos (- x)). split; [nra|].
  pose proof (exp_ineq1_le (x - 1)) as H1.
  replace (exp (-1)) with (exp (x - 1) * exp (- x)) by (rewrite <- exp_plus; f_equal; ring). apply Rmult_le_compat_r; lra.
Qed.

(** MexicanHat (default scales, Nf >= 1, lpfactor > 0): Nf filters; the band-pass ones vanish at frequency 0,
    are non-negative and (unless normalize) at most exp(-1), which filter i attains at 1/scale_i; the
    low-pass one is 1.2 exp(-1) at frequency 0 and non-increasing. *)
Theorem C31_mexican_hat :
  forall lmax Nf lp, 0 < lmax -> 0 < lp -> (1 <= Nf)%nat ->
    exists ks s, MexicanHat lmax Nf lp None false = Ok ks /\ List.length ks = Nf /\ List.length s = (Nf - 1)%nat /\
      (forall i, (i < Nf - 1)%nat -> 0 < nth i s 0) /\
      forall x, (forall t, In t x -> 0 <= t) -> exists y, evaluate ks x = Ok y /\ List.length y = Nf /\
        forall j, (j < List.length x)%nat ->
          nth j (nth 0 y []) 0 = 1.2 * exp (-1) * exp (- (nth j x 0 / (0.4 * (lmax / lp))) ^ 4) /\
          forall i, (i < Nf - 1)%nat ->
            nth j (nth (S i) y []) 0 = nth i s 0 * nth j x 0 * exp (- (nth i s 0 * nth j x 0)) /\
            0 <= nth j (nth (S i) y []) 0 <= exp (-1) /\
            (nth j x 0 = 0 -> nth j (nth (S i) y []) 0 = 0) /\
            (nth j x 0 = / nth i s 0 -> nth j (nth (S i) y []) 0 = exp (-1)).
Proof.
  intros lmax Nf lp Hl Hp HN. unfold MexicanHat. destruct (Nat.eqb_spec Nf 0); [lia|]. cbn [bindr].
  set (s := compute_log_scales (lmax / lp) lmax (Nf - 1) 1 2).
  assert (Hlen : List.length s = (Nf - 1)%nat) by (unfold s, compute_log_scales, np_linspace; rewrite !map_length, seq_length; reflexivity).
  assert (Hok : scales_ok s Nf = true) by (unfold scales_ok; rewrite Hlen; apply Nat.eqb_eq; lia). rewrite Hok. cbn [negb].
  assert (Hpos : forall i, (i < Nf - 1)%nat -> 0 < nth i s 0).
  { intros i Hi. unfold s, compute_log_scales, np_linspace. rewrite map_map, nth_map_seq by exact Hi. apply exp_pos. }
  eexists _, s. split; [reflexivity|]. split; [cbn [List.length]; rewrite map_length, seq_length; lia|]. split; [exact Hlen|]. split; [exact Hpos|].
  intros x Hx.
  set (g0 := fun x0 : R => 1.2 * exp (-1) * low_pass (x0 / 0.4 / (lmax / lp))).
  set (gi := fun (i : nat) (t : R) => 1 * band_pass (nth i s 0 * t)).
  assert (Ev : evaluate (pw g0 :: map (fun i => with_scale s i (fun s0 x0 => 1 * band_pass (s0 * x0))) (seq 0 (Nf - 1))) x =
    Ok (map g0 x :: map (fun i => map (gi i) x) (seq 0 (Nf - 1)))).
  { unfold evaluate. cbn [mapr]. unfold pw at 1. cbn [bindr]. rewrite map_length, Nat.eqb_refl. cbn [bindr].
    assert (Em : forall l, (forall i, In i l -> (i < Nf - 1)%nat) ->
      mapr (fun k : list R -> res (list R) => bindr (k x) (fun y => if Nat.eqb (List.length y) (List.length x) then Ok y else Raise ValueError))
        (map (fun i => with_scale s i (fun s0 x0 => 1 * band_pass (s0 * x0))) l) = Ok (map (fun i => map (gi i) x) l)).
    { induction l as [|i l IH]; intros Hin; [reflexivity|]. cbn [map mapr]. unfold with_scale at 1.
      rewrite (nth_error_nth' s 0) by (rewrite Hlen; apply Hin; left; reflexivity). cbn [bindr]. rewrite map_length, Nat.eqb_refl. cbn [bindr].
      rewrite IH by (intros q Hq; apply Hin; right; exact Hq). reflexivity. }
    rewrite Em by (intros i Hi; apply in_seq in Hi; lia). reflexivity. }
  eexists. split; [exact Ev|]. split; [cbn [List.length]; rewrite map_length, seq_length; lia|].
  intros j Hj. cbn [nth]. split.
  - rewrite (nth_indep (map g0 x) 0 (g0 0)) by (rewrite map_length; exact Hj). rewrite map_nth. unfold g0, low_pass.
    do 4 f_equal. assert (0 < lmax / lp) by (apply Rdiv_lt_0_compat; assumption). field. lra.
  - intros i Hi. rewrite nth_map_seq by exact Hi.
    rewrite (nth_indep (map (gi i) x) 0 (gi i 0)) by (rewrite map_length; exact Hj). rewrite map_nth. unfold gi. rewrite Rmult_1_l.
    specialize (Hpos i Hi). pose proof (Hx _ (nth_In x 0 Hj)) as Hxj. set (c := nth i s 0) in *. set (t := nth j x 0) in *.
    split; [unfold band_pass; reflexivity|]. split; [apply band_pass_bound; nra|]. split.
    + intros ->. rewrite Rmult_0_r. unfold band_pass. ring.
    + intros ->. rewrite Rinv_r by lra. unfold band_pass. replace (Ropp 1) with (-1) by lra. ring.
Qed.

(** The spline system has exactly one solution for t1 < t2 (so np.linalg.solve is defined). *)
Theorem C31_abspline_system_unique :
  forall alpha beta t1 t2 a0 a1 a2 a3 b0 b1 b2 b3, t1 < t2 ->
    abspline_system alpha beta t1 t2 a0 a1 a2 a3 -> abspline_system alpha beta t1 t2 b0 b1 b2 b3 ->
    a0 = b0 /\ a1 = b1 /\ a2 = b2 /\ a3 = b3.
Proof.
  intros alpha beta t1 t2 a0 a1 a2 a3 b0 b1 b2 b3 Hlt (E1 & E2 & E3 & E4) (F1 & F2 & F3 & F4).
  set (c0 := a0 - b0). set (c1 := a1 - b1). set (c2 := a2 - b2). set (c3 := a3 - b3).
  assert (G1 : c0 + t1 * c1 + t1 ^ 2 * c2 + t1 ^ 3 * c3 = 0) by (unfold c0, c1, c2, c3; lra).
  assert (G2 : c0 + t2 * c1 + t2 ^ 2 * c2 + t2 ^ 3 * c3 = 0) by (unfold c0, c1, c2, c3; lra).
  assert (G3 : c1 + 2 * t1 * c2 + 3 * t1 ^ 2 * c3 = 0) by (unfold c1, c2, c3; lra).
  assert (G4 : c1 + 2 * t2 * c2 + 3 * t2 ^ 2 * c3 = 0) by (unfold c1, c2, c3; lra).
  assert (D : t2 - t1 <> 0) by lra.
  (* (t2-t1)^3 c3 = (t2-t1)(G3+G4) - 2(G2-G1) *)
  assert (Z3 : (t2 - t1) ^ 3 * c3 = 0).
  { replace ((t2 - t1) ^ 3 * c3) with ((t2 - t1) * ((c1 + 2 * t1 * c2 + 3 * t1 ^ 2 * c3) + (c1 + 2 * t2 * c2 + 3 * t2 ^ 2 * c3))
      - 2 * ((c0 + t2 * c1 + t2 ^ 2 * c2 + t2 ^ 3 * c3) - (c0 + t1 * c1 + t1 ^ 2 * c2 + t1 ^ 3 * c3))) by ring. rewrite G1, G2, G3, G4. ring. }
  apply Rmult_integral in Z3. destruct Z3 as [Z|Z3]; [exfalso; revert Z; apply pow_nonzero; exact D|].
  assert (Z2 : (t2 - t1) * c2 = 0) by (rewrite Z3 in *; lra). apply Rmult_integral in Z2. destruct Z2 as [Z|Z2]; [lra|].
  assert (Z1 : c1 = 0) by (rewrite Z2, Z3 in *; lra). assert (Z0 : c0 = 0) by (rewrite Z1, Z2, Z3 in *; lra).
  unfold c0, c1, c2, c3 in *. lra.
Qed.

(** Gluing two differentiable functions with the same value and derivative. *)
Lemma glue (f g h : R -> R) c l d : 0 < d -> g c = f c -> h c = f c ->
  (forall x, c - d < x <= c -> f x = g x) -> (forall x, c <= x < c + d -> f x = h x) ->
  derivable_pt_lim g c l -> derivable_pt_lim h c l -> derivable_pt_lim f c l.
Proof.
  intros Hd Eg Eh Hg Hh Dg Dh eps He. destruct (Dg eps He) as (d1 & H1). destruct (Dh eps He) as (d2 & H2).
  assert (Hp : 0 < Rmin d (Rmin d1 d2)) by (repeat apply Rmin_glb_lt; try apply cond_pos; exact Hd).
  exists (mkposreal _ Hp). intros x Hx Hlt. cbn in Hlt.
  pose proof (Rmin_l d (Rmin d1 d2)). pose proof (Rmin_r d (Rmin d1 d2)). pose proof (Rmin_l d1 d2). pose proof (Rmin_r d1 d2).
  destruct (Rle_lt_dec x 0) as [Hn|Hn].
  - rewrite Hg, <- Eg; [apply H1; [exact Hx|lra]|]. rewrite Rabs_left1 in Hlt by exact Hn. lra.
  - rewrite Hh, <- Eh; [apply H2; [exact Hx|lra]|]. rewrite Rabs_pos_eq in Hlt by lra. lra.
Qed.

Lemma pow_div_pred t n : 0 < t -> (0 < n)%nat -> / t ^ n * INR n * t ^ (n - 1) = INR n / t.
Proof.
  intros Ht Hn. replace n with (S (n - 1)) at 1 by lia. cbn [pow]. assert (t ^ (n - 1) <> 0) by (apply pow_nonzero; lra). field. split; first [assumption|lra].
Qed.

(** The Abspline wavelet kernel is once differentiable at both knots (hence continuous there), with the
    derivatives of the two power laws it joins: alpha/t1 and -beta/t2. *)
Theorem C31_abspline_is_smooth_at_the_knots :
  forall alpha beta t1 t2 a0 a1 a2 a3, 0 < t1 < t2 -> (0 < alpha)%nat ->
    abspline_system alpha beta t1 t2 a0 a1 a2 a3 ->
    let k := abspline3 alpha beta t1 t2 a0 a1 a2 a3 in
    k t1 = 1 /\ k t2 = 1 /\ derivable_pt_lim k t1 (INR alpha / t1) /\ derivable_pt_lim k t2 (- (INR beta / t2)).
Proof.
  intros alpha beta t1 t2 a0 a1 a2 a3 (Ht1 & Ht12) Ha (E1 & E2 & E3 & E4) k.
  set (p := fun x => a0 + a1 * x + a2 * x ^ 2 + a3 * x ^ 3).
  assert (P1 : p t1 = 1) by (unfold p; lra). assert (P2 : p t2 = 1) by (unfold p; lra).
  assert (Dp : forall c, derivable_pt_lim p c (a1 + 2 * c * a2 + 3 * c ^ 2 * a3)).
  { intros c. replace (a1 + 2 * c * a2 + 3 * c ^ 2 * a3) with (0 + a1 * 1 + a2 * (INR 2 * c ^ 1) + a3 * (INR 3 * c ^ 2)) by (cbn; ring).
    unfold p. apply (derivable_pt_lim_plus (fun x => a0 + a1 * x + a2 * x ^ 2) (fun x => a3 * x ^ 3)).
    - apply (derivable_pt_lim_plus (fun x => a0 + a1 * x) (fun x => a2 * x ^ 2)).
      + apply (derivable_pt_lim_plus (fun x => a0) (fun x => a1 * x)); [apply derivable_pt_lim_const|].
        apply (derivable_pt_lim_scal id), derivable_pt_lim_id.
      + apply (derivable_pt_lim_scal (fun x => x ^ 2)), (derivable_pt_lim_pow c 2).
    - apply (derivable_pt_lim_scal (fun x => x ^ 3)), (derivable_pt_lim_pow c 3). }
  assert (Kp : forall x, t1 <= x < t2 -> k x = p x).
  { intros x Hx. unfold k, abspline3. destruct (Rleb_spec t2 x); [lra|]. destruct (Rleb_spec t1 x); [reflexivity|lra]. }
  set (L := fun x => x ^ alpha * / t1 ^ alpha). set (Rr := fun x => / x ^ beta * t2 ^ beta).
  assert (N1 : t1 ^ alpha <> 0) by (apply pow_nonzero; lra). assert (N2 : t2 ^ beta <> 0) by (apply pow_nonzero; lra).
  assert (L1 : L t1 = 1) by (unfold L; field; exact N1). assert (R2 : Rr t2 = 1) by (unfold Rr; field; exact N2).
  assert (K1 : k t1 = 1) by (rewrite Kp by lra; exact P1).
  assert (KR : forall x, t2 <= x -> k x = Rr x) by (intros x Hx; unfold k, abspline3; destruct (Rleb_spec t2 x); [reflexivity|lra]).
  assert (K2 : k t2 = 1) by (rewrite KR by lra; exact R2).
  assert (KL : forall x, x <= t1 -> k x = L x).
  { intros x Hx. destruct (Req_dec x t1) as [->|Hne]; [congruence|]. unfold k, abspline3. destruct (Rleb_spec t2 x); [lra|]. destruct (Rleb_spec t1 x); [lra|reflexivity]. }
  split; [exact K1|]. split; [exact K2|]. split.
  - apply (glue k L p t1 _ (t2 - t1)); [lra|congruence|congruence|intros; apply KL; lra|intros; apply Kp; lra| |].
    + rewrite <- (pow_div_pred t1 alpha Ht1 Ha). unfold L.
      replace (/ t1 ^ alpha * INR alpha * t1 ^ (alpha - 1)) with (/ t1 ^ alpha * (INR alpha * t1 ^ Init.Nat.pred alpha)) by (rewrite Nat.sub_1_r; ring).
      assert (D : derivable_pt_lim (fun x => / t1 ^ alpha * x ^ alpha) t1 (/ t1 ^ alpha * (INR alpha * t1 ^ Init.Nat.pred alpha))) by (apply (derivable_pt_lim_scal (fun x => x ^ alpha)), derivable_pt_lim_pow).
      intros eps He. destruct (D eps He) as (d & Hd). exists d. intros h H1 H2. rewrite !(Rmult_comm (_ ^ alpha)). apply Hd; assumption.
    + rewrite <- (pow_div_pred t1 alpha Ht1 Ha), <- E3. replace (0 * a0 + 1 * a1 + 2 * t1 * a2 + 3 * t1 ^ 2 * a3) with (a1 + 2 * t1 * a2 + 3 * t1 ^ 2 * a3) by ring. apply Dp.
  - assert (EB : - INR beta * / t2 ^ (beta + 1) * t2 ^ beta = - (INR beta / t2)) by (rewrite pow_add, pow_1; field; split; first [exact N2|lra]).
    apply (glue k p Rr t2 _ (t2 - t1)); [lra|congruence|congruence| |intros; apply KR; lra| |].
    + intros x Hx. destruct (Req_dec x t2) as [->|Hne]; [congruence|apply Kp; lra].
    + rewrite <- EB, <- E4. replace (0 * a0 + 1 * a1 + 2 * t2 * a2 + 3 * t2 ^ 2 * a3) with (a1 + 2 * t2 * a2 + 3 * t2 ^ 2 * a3) by ring. apply Dp.
    + assert (D1 : derivable_pt_lim (fun x => / x ^ beta) t2 (- (INR beta * t2 ^ Init.Nat.pred beta) / Rsqr (t2 ^ beta))).
      { apply (derivable_pt_lim_div (fun _ => 1) (fun x => x ^ beta) t2 0 (INR beta * t2 ^ Init.Nat.pred beta)) in N2 as D; [|apply derivable_pt_lim_const|apply derivable_pt_lim_pow].
        replace (- (INR beta * t2 ^ Init.Nat.pred beta) / Rsqr (t2 ^ beta)) with ((0 * t2 ^ beta - INR beta * t2 ^ Init.Nat.pred beta * 1) / Rsqr (t2 ^ beta)).
        - intros eps He. destruct (D eps He) as (d & Hd). exists d. intros h H1 H2. specialize (Hd h H1 H2). unfold div_fct in Hd. unfold Rdiv in Hd |- *. rewrite !Rmult_1_l in Hd. exact Hd.
        - unfold Rsqr. field. exact N2. }
      apply (derivable_pt_lim_scal (fun x => / x ^ beta) (t2 ^ beta)) in D1.
      replace (- (INR beta / t2)) with (t2 ^ beta * (- (INR beta * t2 ^ Init.Nat.pred beta) / Rsqr (t2 ^ beta))).
      * intros eps He. destruct (D1 eps He) as (d & Hd). exists d. intros h H1 H2. specialize (Hd h H1 H2). unfold mult_real_fct in Hd. unfold Rr. rewrite !(Rmult_comm (/ _ ^ beta)). exact Hd.
      * destruct beta as [|bt]; [cbn; unfold Rdiv; ring|]. cbn [Init.Nat.pred]. unfold Rsqr. assert (t2 ^ bt <> 0) by (apply pow_nonzero; lra). cbn [pow]. field. split; first [assumption|lra].
Qed.

(** With the values the bank uses (alpha = beta = 2, knots 1 and 2) the solution is -5 + 11 x - 6 x^2 + x^3. *)
Example C31_ex : abspline_system 2 2 1 2 (-5) 11 (-6) 1.
Proof. unfold abspline_system. cbn. repeat split; lra. Qed.
