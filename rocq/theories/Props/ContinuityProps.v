(** C80: the kernels of the ready-made filter banks are continuous functions of the frequency. *)
From Coq Require Import Reals Lra Lia List Arith Bool String.
From Coq Require Import List.
From Verif.Base Require Import RSum Prelude.
From Verif.Spec Require Import Matrix NdArray FilterSpec.
From Verif.Model Require Import Sparse Graph Traverse Cache Filter Kernels.
From Verif.Proofs Require Import SpectralFacts FilterFacts.
From Verif.Props Require Import Filtering Banks Frames KernelProps.
Import ListNotations.
Open Scope R_scope.
Open Scope list_scope.

(** ** Specification *)
(** f is continuous on the interval [lo, hi] (one-sided at its ends) *)
Definition continuous_on (f : R -> R) (lo hi : R) : Prop :=
  forall t, lo <= t <= hi -> forall eps, 0 < eps -> exists delta, 0 < delta /\ forall u, lo <= u <= hi -> Rabs (u - t) < delta -> Rabs (f u - f t) < eps.
(** On any batch of frequencies in [lo, hi] the bank evaluates to the values of functions that are continuous there. *)
Definition continuous_bank (ks : list kernel) (lo hi : R) : Prop :=
  exists fs, List.length fs = List.length ks /\ (forall f, In f fs -> continuous_on f lo hi) /\
    forall x, x <> [] -> (forall t, In t x -> lo <= t <= hi) -> evaluate ks x = Ok (map (fun f => map f x) fs).

(** ** Tools *)
Lemma cont_fun f t : continuity_pt f t <-> forall eps, 0 < eps -> exists delta, 0 < delta /\ forall u, Rabs (u - t) < delta -> Rabs (f u - f t) < eps.
Proof.
  split.
  - intros H eps He. destruct (H eps He) as (d & Hd & K). exists d. split; [exact Hd|]. intros u Hu. destruct (Req_dec u t) as [->|Hne]; [rewrite Rminus_diag_eq by reflexivity; rewrite Rabs_R0; exact He|].
    apply K. split; [split; [exact I|congruence]|exact Hu].
  - intros H eps He. destruct (H eps He) as (d & Hd & K). exists d. split; [exact Hd|]. intros u (_ & Hu). apply K. exact Hu.
Qed.
Lemma cont_on f lo hi : (forall t, lo <= t <= hi -> continuity_pt f t) -> continuous_on f lo hi.
Proof. intros H t Ht eps He. destruct (proj1 (cont_fun f t) (H t Ht) eps He) as (d & Hd & K). exists d. split; [exact Hd|]. intros u _. apply K. Qed.
Lemma cont_on_ext f g lo hi : (forall t, lo <= t <= hi -> f t = g t) -> continuous_on f lo hi -> continuous_on g lo hi.
Proof. intros E H t Ht eps He. destruct (H t Ht eps He) as (d & Hd & K). exists d. split; [exact Hd|]. intros u Hu Hd'. rewrite <- !E by assumption. apply K; assumption. Qed.
Lemma cont_const c t : continuity_pt (fun _ => c) t.
Proof. apply cont_fun. intros eps He. exists 1. split; [lra|]. intros u _. rewrite Rminus_diag_eq by reflexivity. rewrite Rabs_R0. exact He. Qed.
Lemma cont_id t : continuity_pt (fun x => x) t.
Proof. apply cont_fun. intros eps He. exists eps. split; [exact He|]. intros u Hu. exact Hu. Qed.
Lemma cont_plus f g t : continuity_pt f t -> continuity_pt g t -> continuity_pt (fun x => f x + g x) t.
Proof. apply continuity_pt_plus. Qed.
Lemma cont_minus f g t : continuity_pt f t -> continuity_pt g t -> continuity_pt (fun x => f x - g x) t.
Proof. apply continuity_pt_minus. Qed.
Lemma cont_mult f g t : continuity_pt f t -> continuity_pt g t -> continuity_pt (fun x => f x * g x) t.
Proof. apply continuity_pt_mult. Qed.
Lemma cont_opp f t : continuity_pt f t -> continuity_pt (fun x => - f x) t.
Proof. apply continuity_pt_opp. Qed.
Lemma cont_inv f t : continuity_pt f t -> f t <> 0 -> continuity_pt (fun x => / f x) t.
Proof. apply continuity_pt_inv. Qed.
Lemma cont_divc f c t : continuity_pt f t -> continuity_pt (fun x => f x / c) t.
Proof. intros H. apply (cont_mult f (fun _ => / c)); [exact H|apply cont_const]. Qed.
Lemma cont_comp f g t : continuity_pt g t -> continuity_pt f (g t) -> continuity_pt (fun x => f (g x)) t.
Proof. intros H1 H2. apply (continuity_pt_comp g f); assumption. Qed.
Lemma cont_pow f n t : continuity_pt f t -> continuity_pt (fun x => f x ^ n) t.
Proof. intros H. induction n as [|n IH]; cbn [pow]; [apply cont_const|]. apply (cont_mult f (fun x => f x ^ n)); assumption. Qed.
Lemma cont_sin f t : continuity_pt f t -> continuity_pt (fun x => sin (f x)) t.
Proof. intros H. apply (cont_comp sin f); [exact H|apply continuity_sin]. Qed.
Lemma cont_cos f t : continuity_pt f t -> continuity_pt (fun x => cos (f x)) t.
Proof. intros H. apply (cont_comp cos f); [exact H|apply continuity_cos]. Qed.
Lemma cont_exp f t : continuity_pt f t -> continuity_pt (fun x => exp (f x)) t.
Proof. intros H. apply (cont_comp exp f); [exact H|apply derivable_continuous_pt, derivable_pt_exp]. Qed.
Lemma cont_sqrt f t : continuity_pt f t -> 0 <= f t -> continuity_pt (fun x => sqrt (f x)) t.
Proof. intros H Hp. apply (cont_comp sqrt f); [exact H|apply continuity_pt_sqrt; exact Hp]. Qed.
Lemma cont_abs f t : continuity_pt f t -> continuity_pt (fun x => Rabs (f x)) t.
Proof. intros H. apply (cont_comp Rabs f); [exact H|apply Rcontinuity_abs]. Qed.
Lemma cont_ln f t : continuity_pt f t -> 0 < f t -> continuity_pt (fun x => ln (f x)) t.
Proof. intros H Hp. apply (cont_comp ln f); [exact H|]. apply derivable_continuous_pt. exists (/ f t). apply derivable_pt_lim_ln. exact Hp. Qed.
Ltac ct := repeat first
  [ apply cont_const | apply cont_id | apply cont_divc | apply cont_plus | apply cont_minus | apply cont_mult | apply cont_opp
  | apply cont_pow | apply cont_sin | apply cont_cos | apply cont_exp | apply cont_abs ].
(** Two continuous pieces with the same value where they meet *)
Lemma cont_glue f g c t : (t <= c -> continuity_pt f t) -> (c <= t -> continuity_pt g t) -> f c = g c ->
  continuity_pt (fun x => if Rltb x c then f x else g x) t.
Proof.
  intros Hf Hg Ec. apply cont_fun. intros eps He. destruct (Rtotal_order t c) as [L|[E|L]].
  - destruct (proj1 (cont_fun f t) (Hf (Rlt_le _ _ L)) eps He) as (d & Hd & K). exists (Rmin d (c - t)). split; [apply Rmin_glb_lt; lra|].
    intros u Hu. pose proof (Rmin_l d (c - t)). pose proof (Rmin_r d (c - t)). pose proof (Rle_abs (u - t)).
    destruct (Rltb_spec u c); [|lra]. destruct (Rltb_spec t c); [|lra]. apply K. lra.
  - subst t. destruct (proj1 (cont_fun f c) (Hf (Rle_refl c)) eps He) as (d1 & Hd1 & K1). destruct (proj1 (cont_fun g c) (Hg (Rle_refl c)) eps He) as (d2 & Hd2 & K2).
    exists (Rmin d1 d2). split; [apply Rmin_glb_lt; lra|]. intros u Hu. pose proof (Rmin_l d1 d2). pose proof (Rmin_r d1 d2).
    destruct (Rltb_spec c c); [lra|]. destruct (Rltb_spec u c); [rewrite <- Ec; apply K1; lra|apply K2; lra].
  - destruct (proj1 (cont_fun g t) (Hg (Rlt_le _ _ L)) eps He) as (d & Hd & K). exists (Rmin d (t - c)). split; [apply Rmin_glb_lt; lra|].
    intros u Hu. pose proof (Rmin_l d (t - c)). pose proof (Rmin_r d (t - c)). pose proof (Rle_abs (- (u - t))) as A. rewrite Rabs_Ropp in A.
    destruct (Rltb_spec u c); [lra|]. destruct (Rltb_spec t c); [lra|]. apply K. lra.
Qed.
Lemma cont_eq f g t : (forall x, f x = g x) -> continuity_pt f t -> continuity_pt g t.
Proof. intros E H. apply cont_fun. intros eps He. destruct (proj1 (cont_fun f t) H eps He) as (d & Hd & K). exists d. split; [exact Hd|]. intros u Hu. rewrite <- !E. apply K. exact Hu. Qed.
Lemma leb_ltb (a x : R) (p q : R) : (if Rleb a x then p else q) = (if Rltb x a then q else p).
Proof. destruct (Rleb_spec a x), (Rltb_spec x a); try reflexivity; lra. Qed.

(** ** From functions to banks *)
Lemma bank_pw fs lo hi : (forall f, In f fs -> continuous_on f lo hi) -> continuous_bank (map pw fs) lo hi.
Proof. intros H. exists fs. split; [rewrite map_length; reflexivity|]. split; [exact H|]. intros x _ _. apply evaluate_pw. Qed.
Lemma bank_eval ks fs lo hi : List.length fs = List.length ks -> (forall x, evaluate ks x = Ok (map (fun f => map f x) fs)) -> (forall f, In f fs -> continuous_on f lo hi) -> continuous_bank ks lo hi.
Proof. intros H1 H2 H3. exists fs. split; [exact H1|]. split; [exact H3|]. intros x _ _. apply H2. Qed.
(** a kernel for the first scale and one for each scale *)
Lemma bank_scales (h g : R -> R -> R) scales Nf lo hi : scales_ok scales Nf = true -> scales <> [] ->
  (forall s, In s scales -> continuous_on (h s) lo hi) -> (forall s, In s scales -> continuous_on (g s) lo hi) ->
  continuous_bank (with_scale scales 0 h :: map (fun i => with_scale scales i g) (seq 0 (Nf - 1))) lo hi.
Proof.
  intros Hok Hne Hh Hg. apply Nat.eqb_eq in Hok. assert (HL : List.length scales = (Nf - 1)%nat) by lia.
  assert (H0 : (0 < List.length scales)%nat) by (destruct scales; [congruence|cbn; lia]).
  apply (bank_eval _ (h (nth 0 scales 0) :: map (fun i => g (nth i scales 0)) (seq 0 (Nf - 1)))).
  - cbn [List.length]. rewrite !map_length. reflexivity.
  - intros x. pose proof (evaluate_with_scales scales ((0%nat, h) :: map (fun i => (i, g)) (seq 0 (Nf - 1))) x) as E. cbn [map fst snd] in E. rewrite !map_map in E. cbn [fst snd] in E.
    rewrite E.
    + f_equal. cbn [map]. f_equal. rewrite map_map. reflexivity.
    + intros p [<-|Hp]; [exact H0|]. apply in_map_iff in Hp. destruct Hp as (i & <- & Hi). apply in_seq in Hi. cbn [fst]. lia.
  - intros f [<-|Hf]; [apply Hh, nth_In; exact H0|]. apply in_map_iff in Hf. destruct Hf as (i & <- & Hi). apply in_seq in Hi. apply Hg, nth_In. lia.
Qed.

(** ** Meyer *)
Lemma cont_meyer_v f t : continuity_pt f t -> continuity_pt (fun x => meyer_v (f x)) t.
Proof. intros H. unfold meyer_v. ct; exact H. Qed.
Lemma meyer_v0 : meyer_v 0 = 0. Proof. unfold meyer_v. ring. Qed.
Lemma meyer_v1 : meyer_v 1 = 1. Proof. unfold meyer_v. ring. Qed.
Lemma cont_meyer_scaling t : continuity_pt meyer_scaling t.
Proof.
  unfold meyer_scaling. apply (cont_glue (fun _ => 1) (fun x => if Rltb x (4 / 3) then cos (PI / 2 * meyer_v (Rabs x / (2 / 3) - 1)) else 0) (2 / 3)).
  - intros _. ct.
  - intros _. apply (cont_glue (fun x => cos (PI / 2 * meyer_v (Rabs x / (2 / 3) - 1))) (fun _ => 0) (4 / 3)).
    + intros _. ct.
    + intros _. ct.
    + rewrite Rabs_pos_eq by lra. replace (4 / 3 / (2 / 3) - 1) with 1 by field. rewrite meyer_v1, Rmult_1_r. apply cos_PI2.
  - destruct (Rltb_spec (2 / 3) (4 / 3)); [|lra]. rewrite Rabs_pos_eq by lra. replace (2 / 3 / (2 / 3) - 1) with 0 by field. rewrite meyer_v0, Rmult_0_r, cos_0. reflexivity.
Qed.
Lemma cont_meyer_wavelet t : continuity_pt meyer_wavelet t.
Proof.
  unfold meyer_wavelet. apply (cont_glue (fun _ => 0) (fun x => if Rltb x (4 / 3) then sin (PI / 2 * meyer_v (Rabs x / (2 / 3) - 1)) else if Rltb x (8 / 3) then cos (PI / 2 * meyer_v (Rabs x / (4 / 3) - 1)) else 0) (2 / 3)).
  - intros _. ct.
  - intros _. apply (cont_glue (fun x => sin (PI / 2 * meyer_v (Rabs x / (2 / 3) - 1))) (fun x => if Rltb x (8 / 3) then cos (PI / 2 * meyer_v (Rabs x / (4 / 3) - 1)) else 0) (4 / 3)).
    + intros _. ct.
    + intros _. apply (cont_glue (fun x => cos (PI / 2 * meyer_v (Rabs x / (4 / 3) - 1))) (fun _ => 0) (8 / 3)).
      * intros _. ct.
      * intros _. ct.
      * rewrite Rabs_pos_eq by lra. replace (8 / 3 / (4 / 3) - 1) with 1 by field. rewrite meyer_v1, Rmult_1_r. apply cos_PI2.
    + destruct (Rltb_spec (4 / 3) (8 / 3)); [|lra]. rewrite Rabs_pos_eq by lra. replace (4 / 3 / (2 / 3) - 1) with 1 by field. replace (4 / 3 / (4 / 3) - 1) with 0 by field.
      rewrite meyer_v1, meyer_v0, Rmult_1_r, Rmult_0_r, sin_PI2, cos_0. reflexivity.
  - destruct (Rltb_spec (2 / 3) (4 / 3)); [|lra]. rewrite Rabs_pos_eq by lra. replace (2 / 3 / (2 / 3) - 1) with 0 by field. rewrite meyer_v0, Rmult_0_r, sin_0. reflexivity.
Qed.
Lemma cont_scaled g s lo hi : (forall t, continuity_pt g t) -> continuous_on (fun x => g (s * x)) lo hi.
Proof. intros H. apply cont_on. intros t _. apply (cont_comp g (fun x => s * x)); [ct|apply H]. Qed.
Lemma cont_shift g a s b lo hi : (forall t, continuity_pt g t) -> continuous_on (fun x => a * g (x * s - b)) lo hi.
Proof. intros H. apply cont_on. intros t _. apply (cont_mult (fun _ => a) (fun x => g (x * s - b))); [ct|]. apply (cont_comp g (fun x => x * s - b)); [ct|apply H]. Qed.

(** Meyer and SimpleTight, whatever the scales *)
Theorem C80_meyer lmax Nf scales ks lo hi : Meyer lmax Nf scales = Ok ks -> (2 <= Nf)%nat -> continuous_bank ks lo hi.
Proof.
  unfold Meyer. set (sc := match scales with Some s => s | None => _ end). clearbody sc. intros H HN. destruct (scales_ok sc Nf) eqn:E; [|discriminate]. cbn [negb] in H. injection H as <-.
  apply (bank_scales (fun s x => meyer_scaling (s * x)) (fun s x => meyer_wavelet (s * x))); [exact E| | |].
  - intros ->. apply Nat.eqb_eq in E. cbn in E. lia.
  - intros s _. apply cont_scaled. exact cont_meyer_scaling.
  - intros s _. apply cont_scaled. exact cont_meyer_wavelet.
Qed.
Lemma cont_st_h f t : continuity_pt f t -> continuity_pt (fun x => st_h (f x)) t.
Proof. intros H. unfold st_h. ct; exact H. Qed.
Lemma cont_st_root f t : continuity_pt f t -> continuity_pt (fun x => sqrt (1 - st_h (f x) ^ 2)) t.
Proof. intros H. apply cont_sqrt; [ct; exact H|]. pose proof (st_h_range (f t)). nra. Qed.
Lemma st_h0 : st_h 0 = 0. Proof. unfold st_h. replace (PI * 0 / 2) with 0 by field. rewrite sin_0. ring. Qed.
Lemma st_h1 : st_h 1 = 1. Proof. unfold st_h. replace (PI * 1 / 2) with (PI / 2) by field. rewrite sin_PI2. ring. Qed.
Lemma cont_st_scaling t : continuity_pt st_scaling t.
Proof.
  unfold st_scaling. apply (cont_glue (fun _ => 1) (fun x => if Rltb x (1 / 2) then sqrt (1 - st_h (4 * x - 1) ^ 2) else 0) (1 / 4)).
  - intros _. ct.
  - intros _. apply (cont_glue (fun x => sqrt (1 - st_h (4 * x - 1) ^ 2)) (fun _ => 0) (1 / 2)).
    + intros _. apply (cont_st_root (fun x => 4 * x - 1)). ct.
    + intros _. ct.
    + replace (4 * (1 / 2) - 1) with 1 by field. rewrite st_h1. replace (1 - 1 ^ 2) with 0 by ring. apply sqrt_0.
  - destruct (Rltb_spec (1 / 4) (1 / 2)); [|lra]. replace (4 * (1 / 4) - 1) with 0 by field. rewrite st_h0. replace (1 - 0 ^ 2) with 1 by ring. rewrite sqrt_1. reflexivity.
Qed.
Lemma cont_st_wavelet t : continuity_pt st_wavelet t.
Proof.
  unfold st_wavelet. apply (cont_glue (fun _ => 0) (fun x => if Rltb x (1 / 2) then st_h (4 * (x - 1 / 4)) else if Rltb x 1 then sqrt (1 - st_h (2 * x - 1) ^ 2) else 0) (1 / 4)).
  - intros _. ct.
  - intros _. apply (cont_glue (fun x => st_h (4 * (x - 1 / 4))) (fun x => if Rltb x 1 then sqrt (1 - st_h (2 * x - 1) ^ 2) else 0) (1 / 2)).
    + intros _. apply cont_st_h. ct.
    + intros _. apply (cont_glue (fun x => sqrt (1 - st_h (2 * x - 1) ^ 2)) (fun _ => 0) 1).
      * intros _. apply (cont_st_root (fun x => 2 * x - 1)). ct.
      * intros _. ct.
      * replace (2 * 1 - 1) with 1 by ring. rewrite st_h1. replace (1 - 1 ^ 2) with 0 by ring. apply sqrt_0.
    + destruct (Rltb_spec (1 / 2) 1); [|lra]. replace (4 * (1 / 2 - 1 / 4)) with 1 by field. replace (2 * (1 / 2) - 1) with 0 by field. rewrite st_h1, st_h0. replace (1 - 0 ^ 2) with 1 by ring. rewrite sqrt_1. reflexivity.
  - destruct (Rltb_spec (1 / 4) (1 / 2)); [|lra]. replace (4 * (1 / 4 - 1 / 4)) with 0 by field. rewrite st_h0. reflexivity.
Qed.
Theorem C80_simple_tight lmax Nf scales ks lo hi : SimpleTight lmax Nf scales = Ok ks -> (2 <= Nf)%nat -> continuous_bank ks lo hi.
Proof.
  unfold SimpleTight. set (sc := match scales with Some (s :: r) => s :: r | _ => _ end). clearbody sc. intros H HN. destruct (scales_ok sc Nf) eqn:E; [|discriminate]. cbn [negb] in H. injection H as <-.
  apply (bank_scales (fun s x => st_scaling (s * x)) (fun s x => st_wavelet (s * x))); [exact E| | |].
  - intros ->. apply Nat.eqb_eq in E. cbn in E. lia.
  - intros s _. apply cont_scaled. exact cont_st_scaling.
  - intros s _. apply cont_scaled. exact cont_st_wavelet.
Qed.

(** ** Itersine and HalfCosine: bumps that vanish at the ends of their support *)
Lemma cont_itersine_kernel t : continuity_pt itersine_kernel t.
Proof.
  set (b := fun x => sin (/ 2 * PI * cos (x * PI) ^ 2)).
  apply (cont_eq (fun x => if Rltb x (- / 2) then 0 else if Rltb x (/ 2) then b x else 0)).
  - intros x. unfold itersine_kernel. fold (b x). destruct (Rltb_spec x (- / 2)), (Rleb_spec (- / 2) x); try lra; cbn [andb]; try lra.
    destruct (Rltb_spec x (/ 2)), (Rleb_spec x (/ 2)); try lra. replace x with (/ 2) by lra. unfold b. replace (/ 2 * PI) with (PI / 2) by field. rewrite cos_PI2. replace (PI / 2 * 0 ^ 2) with 0 by ring. rewrite sin_0. ring.
  - assert (Cb : continuity_pt b t) by (unfold b; ct). apply (cont_glue (fun _ => 0) (fun x => if Rltb x (/ 2) then b x else 0)); [intros _; ct| |].
    + intros _. apply (cont_glue b (fun _ => 0)); [intros _; exact Cb|intros _; ct|]. unfold b. replace (/ 2 * PI) with (PI / 2) by field. rewrite cos_PI2. replace (PI / 2 * 0 ^ 2) with 0 by ring. apply sin_0.
    + destruct (Rltb_spec (- / 2) (/ 2)); [|lra]. unfold b. replace (- / 2 * PI) with (- (PI / 2)) by field. rewrite cos_neg, cos_PI2. replace (/ 2 * PI * 0 ^ 2) with 0 by ring. rewrite sin_0. reflexivity.
Qed.
(** With a single filter, Meyer and SimpleTight construct a bank whose only kernel looks up a scale that does not exist: every evaluation raises. *)
Theorem C80_single_filter_banks_cannot_be_evaluated lmax : forall scales ks, Meyer lmax 1 scales = Ok ks \/ SimpleTight lmax 1 scales = Ok ks ->
  List.length ks = 1%nat /\ forall x, evaluate ks x = Raise IndexError.
Proof.
  intros scales ks H. unfold Meyer, SimpleTight, scales_ok in H. destruct H as [H|H].
  - destruct scales as [[|a r]|]; cbn in H; try discriminate; injection H as <-; split; [reflexivity|intros x; reflexivity|reflexivity|intros x; reflexivity].
  - destruct scales as [[|a [|b r]]|]; cbn in H; try discriminate; injection H as <-; split; [reflexivity|intros x; reflexivity|reflexivity|intros x; reflexivity].
Qed.
Example C80_single_filter_ex : (exists ks, Meyer 2 1 None = Ok ks) /\ exists ks, SimpleTight 2 1 (Some []) = Ok ks.
Proof. split; eexists; reflexivity. Qed.
Theorem C80_itersine lmax Nf overlap lo hi : continuous_bank (Itersine lmax Nf overlap) lo hi.
Proof.
  unfold Itersine. rewrite <- (map_map (itersine_fun lmax Nf overlap) pw). apply bank_pw. intros f Hf. apply in_map_iff in Hf. destruct Hf as (i & <- & _).
  unfold itersine_fun. cbv zeta. apply cont_on. intros t _.
  match goal with |- continuity_pt (fun x => itersine_kernel (x / ?s - ?b) * ?c) t => apply (cont_mult (fun x => itersine_kernel (x / s - b)) (fun _ => c)); [|ct]; apply (cont_comp itersine_kernel (fun x => x / s - b)) end; [ct|apply cont_itersine_kernel].
Qed.
Lemma cont_halfcosine_kernel dila t : 0 < dila -> continuity_pt (halfcosine_kernel dila) t.
Proof.
  intros Hd. set (b := fun x => / 2 + / 2 * cos (2 * PI * (x / dila - / 2))).
  assert (B0 : b 0 = 0) by (unfold b; replace (2 * PI * (0 / dila - / 2)) with (- PI) by (field; lra); rewrite cos_neg, cos_PI; lra).
  assert (B1 : b dila = 0) by (unfold b; replace (2 * PI * (dila / dila - / 2)) with PI by (field; lra); rewrite cos_PI; lra).
  assert (Cb : continuity_pt b t) by (unfold b; ct).
  apply (cont_eq (fun x => if Rltb x 0 then 0 else if Rltb x dila then b x else 0)).
  - intros x. unfold halfcosine_kernel. fold (b x). destruct (Rltb_spec x 0), (Rleb_spec 0 x); try lra. destruct (Rltb_spec x dila), (Rleb_spec x dila); try lra. replace x with dila by lra. rewrite B1. ring.
  - apply (cont_glue (fun _ => 0) (fun x => if Rltb x dila then b x else 0)); [intros _; ct| |].
    + intros _. apply (cont_glue b (fun _ => 0)); [intros _; exact Cb|intros _; ct|exact B1].
    + destruct (Rltb_spec 0 dila); [|lra]. symmetry. exact B0.
Qed.
Theorem C80_half_cosine lmax Nf ks lo hi : 0 < lmax -> HalfCosine lmax Nf = Ok ks -> continuous_bank ks lo hi.
Proof.
  intros Hl H. unfold HalfCosine in H. destruct (Nat.leb_spec Nf 2) as [|HN]; [discriminate|]. injection H as <-.
  rewrite <- (map_map (halfcosine_fun lmax Nf) pw). apply bank_pw. intros f Hf. apply in_map_iff in Hf. destruct Hf as (i & <- & _).
  apply cont_on. intros t _. unfold halfcosine_fun. cbv zeta.
  assert (Hd : 0 < lmax * 3 / (INR Nf - 2)) by (apply Rdiv_lt_0_compat; [lra|]; apply lt_INR in HN; cbn in HN; lra).
  match goal with |- continuity_pt (fun x => halfcosine_kernel ?d (x - ?b)) t => apply (cont_comp (halfcosine_kernel d) (fun x => x - b)) end; [ct|apply cont_halfcosine_kernel; exact Hd].
Qed.

(** ** A low-pass and its complement *)
Lemma bank_complement lmax g hi : 0 < lmax -> (forall t, 0 <= t <= hi -> g (t * 2 / lmax) * g (t * 2 / lmax) <= 1) ->
  continuous_on (fun t => g (t * 2 / lmax)) 0 hi -> continuous_bank (with_complement lmax g) 0 hi.
Proof.
  intros Hl Hg Hc. exists [fun t => g (t * 2 / lmax); fun t => sqrt (1 - g (t * 2 / lmax) * g (t * 2 / lmax))]. split; [reflexivity|]. split.
  - intros f [<-|[<-|[]]]; [exact Hc|]. intros t Ht eps He.
    set (h := fun t => g (t * 2 / lmax)) in *. change (exists delta, 0 < delta /\ forall u, 0 <= u <= hi -> Rabs (u - t) < delta -> Rabs (sqrt (1 - h u * h u) - sqrt (1 - h t * h t)) < eps).
    assert (Q : continuity_pt (fun y => sqrt (1 - y * y)) (h t)) by (apply cont_sqrt; [ct|]; specialize (Hg t Ht); fold (h t) in Hg; lra).
    destruct (proj1 (cont_fun _ _) Q eps He) as (d & Hd & K). destruct (Hc t Ht d Hd) as (d2 & Hd2 & K2). exists d2. split; [exact Hd2|]. intros u Hu Hut. apply K. apply K2; assumption.
  - intros x Hx Hin. unfold with_complement. cbv zeta. cbn [app complement].
    assert (E1 : evaluate [pw (fun x => g (x * 2 / lmax))] x = Ok [map (fun x => g (x * 2 / lmax)) x]) by (apply (evaluate_pw [fun x => g (x * 2 / lmax)])).
    set (h := fun t => g (t * 2 / lmax)) in *. change (map (fun x0 => g (x0 * 2 / lmax)) x) with (map h x) in E1.
    pose proof (sumsq_pw [h] x) as Es. cbn [map] in Es.
    destruct (lmaxl (map (sq_at [h]) x)) as [m|] eqn:Em; [|destruct x; [congruence|discriminate]].
    destruct (lmaxl_spec _ _ Em) as (Hm & _). apply in_map_iff in Hm. destruct Hm as (t0 & Et & Ht0).
    assert (Q : forall t, sq_at [h] t = h t * h t) by (intros t; unfold sq_at, lsum; cbn; ring).
    unfold evaluate at 1. cbn [mapr]. unfold pw at 1. cbn [bindr]. rewrite map_length, Nat.eqb_refl. cbn [bindr].
    unfold complement. cbn [mapr]. rewrite E1. cbn [bindr]. rewrite Es, Em. cbn [bindr]. destruct (Rltb_spec 1 m) as [Lt|_]; [rewrite <- Et, Q in Lt; pose proof (Hg t0 (Hin t0 Ht0)) as X; fold (h t0) in X; lra|].
    cbn [bindr]. rewrite !map_length, Nat.eqb_refl. cbn [bindr map]. rewrite map_map. do 3 f_equal. apply map_ext. intros t. rewrite Q. reflexivity.
Qed.
Lemma cont_freq g lmax hi : 0 < lmax -> continuous_on g 0 (hi * 2 / lmax) -> continuous_on (fun t => g (t * 2 / lmax)) 0 hi.
Proof.
  intros Hl H t Ht eps He. assert (Hi : 0 < / lmax) by (apply Rinv_0_lt_compat; exact Hl).
  assert (B : forall u, 0 <= u <= hi -> 0 <= u * 2 / lmax <= hi * 2 / lmax).
  { intros u Hu. split; unfold Rdiv; [apply Rmult_le_pos; lra|]. apply Rmult_le_compat_r; lra. }
  destruct (H (t * 2 / lmax) (B t Ht) eps He) as (d & Hd & K). exists (d * lmax / 2). split; [apply Rmult_lt_0_compat; [nra|lra]|]. intros u Hu Hut. apply K; [apply B; exact Hu|].
  replace (u * 2 / lmax - t * 2 / lmax) with ((u - t) * (2 / lmax)) by (field; lra). rewrite Rabs_mult, (Rabs_pos_eq (2 / lmax)) by (unfold Rdiv; nra).
  replace d with (d * lmax / 2 * (2 / lmax)) by (field; lra). apply Rmult_lt_compat_r; [unfold Rdiv; lra|exact Hut].
Qed.
Lemma cont_regions junk l1 l2 mid hi : 0 < l1 < l2 -> (forall t, l1 <= t <= l2 -> continuity_pt mid t) -> mid l1 = 1 -> mid l2 = 0 ->
  continuous_on (three_regions junk l1 l2 mid) 0 hi.
Proof.
  intros Hl Hm E1 E2. apply (cont_on_ext (fun x => if Rltb x l1 then 1 else if Rltb x l2 then mid x else 0)).
  - intros x Hx. unfold three_regions. destruct (Rltb_spec x l1), (Rltb_spec x l2), (Rleb_spec l2 x), (Rleb_spec l1 x); try lra; cbn [andb]; try reflexivity.
    destruct (Rleb_spec 0 x); [reflexivity|lra].
  - apply cont_on. intros t _. apply (cont_glue (fun _ => 1) (fun x => if Rltb x l2 then mid x else 0)); [intros _; ct| |].
    + intros H. apply (cont_glue mid (fun _ => 0)); [intros H2; apply Hm; lra|intros _; ct|exact E2].
    + destruct (Rltb_spec l1 l2); [|lra]. symmetry. exact E1.
Qed.
(** Held, Simoncelli, Papadakis and Regular banks, on all non-negative frequencies, whatever np.empty leaves in uncovered entries *)
Theorem C80_held_simoncelli_papadakis_regular junk lmax a degree hi : 0 < lmax -> 0 < a ->
  continuous_bank (Held junk lmax a) 0 hi /\ continuous_bank (Simoncelli junk lmax a) 0 hi /\
  continuous_bank (Papadakis junk lmax a) 0 hi /\ continuous_bank (Regular lmax degree) 0 hi.
Proof.
  intros Hl Ha. split; [|split; [|split]]; (apply bank_complement; [exact Hl| |]).
  - intros t Ht. pose proof (freq_pos t lmax Hl (proj1 Ht)) as Hf. apply three_regions_le1; [exact Hf|lra|]. intros y Hy. match goal with |- sin ?q * _ <= 1 => pose proof (SIN_bound q); nra end.
  - apply cont_freq; [exact Hl|]. apply cont_regions; [lra| | |].
    + intros t Ht. unfold held_mu. ct.
    + unfold held_mu. replace (2 * PI * _) with (PI / 2) by (field; lra). apply sin_PI2.
    + unfold held_mu. replace (2 * PI * _) with 0 by (field; lra). apply sin_0.
  - intros t Ht. pose proof (freq_pos t lmax Hl (proj1 Ht)) as Hf. apply three_regions_le1; [exact Hf|lra|]. intros y Hy. match goal with |- cos ?q * _ <= 1 => pose proof (COS_bound q); nra end.
  - apply cont_freq; [exact Hl|]. apply cont_regions; [lra| | |].
    + intros t Ht. ct. apply cont_ln; [ct|]. apply Rdiv_lt_0_compat; lra.
    + replace (a / a) with 1 by (field; lra). rewrite ln_1. replace (PI / 2 * 0 / ln 2) with 0 by (unfold Rdiv; ring). apply cos_0.
    + replace (2 * a / a) with 2 by (field; lra). assert (ln 2 <> 0) by (pose proof ln_lt_2; lra). replace (PI / 2 * ln 2 / ln 2) with (PI / 2) by (field; assumption). apply cos_PI2.
  - intros t Ht. pose proof (freq_pos t lmax Hl (proj1 Ht)) as Hf. apply three_regions_le1; [exact Hf|lra|]. intros y Hy. pose proof (SIN_bound (3 * PI / (2 * a) * y)). rewrite sqrt_sqrt; lra.
  - apply cont_freq; [exact Hl|]. apply cont_regions; [lra| | |].
    + intros t Ht. apply cont_sqrt; [ct|]. pose proof (SIN_bound (3 * PI / (2 * a) * t)). lra.
    + replace (3 * PI / (2 * a) * a) with (3 * (PI / 2)) by (field; lra). rewrite sin_3PI2. replace ((1 - -1) / 2) with 1 by lra. apply sqrt_1.
    + replace (3 * PI / (2 * a) * (a * 5 / 3)) with (PI / 2 + 2 * INR 1 * PI) by (cbn; field; lra). rewrite sin_period, sin_PI2. replace ((1 - 1) / 2) with 0 by lra. apply sqrt_0.
  - intros t Ht. unfold regular_kernel. destruct degree; match goal with |- sin ?q * _ <= 1 => pose proof (SIN_bound q); nra end.
  - apply cont_freq; [exact Hl|]. apply cont_on. intros t _. unfold regular_kernel. destruct degree as [|dg]; [ct|]. ct.
    induction (S dg - 2)%nat as [|n IH]; cbn [iter_sin]; ct. exact IH.
Qed.

(** ** Heat, MexicanHat, Abspline *)
Lemma cont_min1 f t : continuity_pt f t -> continuity_pt (fun x => Rmin (f x) 1) t.
Proof.
  intros H. apply (cont_eq (fun x => (f x + 1 - Rabs (f x - 1)) / 2)); [|ct; exact H].
  intros x. unfold Rmin. destruct (Rle_dec (f x) 1); [rewrite Rabs_left1 by lra|rewrite Rabs_pos_eq by lra]; lra.
Qed.
Theorem C80_heat F scale normalize lo hi : continuous_bank (Heat F scale normalize) lo hi.
Proof.
  unfold Heat. cbv zeta. rewrite <- (map_map (fun s x => heat_fun (v_lmax F) s x / (if normalize then heat_norm (v_lmax F) (v_e F) s else 1)) pw). apply bank_pw.
  intros f Hf. apply in_map_iff in Hf. destruct Hf as (s & <- & _). apply cont_on. intros t _. unfold heat_fun. apply cont_divc. apply cont_min1. ct.
Qed.
(** a low-pass first, then one kernel for each scale *)
Lemma bank_pass (h : R -> R) (g : R -> R -> R) scales n lo hi : List.length scales = n ->
  continuous_on h lo hi -> (forall s, In s scales -> continuous_on (g s) lo hi) ->
  continuous_bank (pw h :: map (fun i => with_scale scales i g) (seq 0 n)) lo hi.
Proof.
  intros HL Hh Hg. apply (bank_eval _ (h :: map (fun i => g (nth i scales 0)) (seq 0 n))).
  - cbn [List.length]. rewrite !map_length. reflexivity.
  - intros x. pose proof (evaluate_with_scales scales (map (fun i => (i, g)) (seq 0 n)) x) as E. rewrite !map_map in E. cbn [fst snd] in E.
    unfold evaluate in *. cbn [mapr]. unfold pw at 1. cbn [bindr]. rewrite map_length, Nat.eqb_refl. cbn [bindr]. rewrite E.
    + cbn [bindr map]. rewrite map_map. reflexivity.
    + intros p Hp. apply in_map_iff in Hp. destruct Hp as (i & <- & Hi). apply in_seq in Hi. cbn [fst]. lia.
  - intros f [<-|Hf]; [exact Hh|]. apply in_map_iff in Hf. destruct Hf as (i & <- & Hi). apply in_seq in Hi. apply Hg, nth_In. lia.
Qed.
Theorem C80_mexican_hat lmax Nf lpfactor scales normalize ks lo hi : MexicanHat lmax Nf lpfactor scales normalize = Ok ks -> continuous_bank ks lo hi.
Proof.
  unfold MexicanHat. cbv zeta. intros H.
  match type of H with bindr ?x _ = _ => destruct x as [sc|] end; [|discriminate]. cbn [bindr] in H.
  destruct (scales_ok sc Nf) eqn:E; [|discriminate]. cbn [negb] in H. injection H as <-. apply Nat.eqb_eq in E.
  apply (bank_pass (fun x => 1.2 * exp (-1) * low_pass (x / 0.4 / (lmax / lpfactor))) (fun s x => (if normalize then sqrt s else 1) * band_pass (s * x))); [lia| |].
  - apply cont_on. intros t _. unfold low_pass. ct.
  - intros s _. apply cont_on. intros t _. unfold band_pass. ct.
Qed.
Lemma cont_abspline3 alpha beta t1 t2 a0 a1 a2 a3 t : 0 < t1 < t2 -> abspline_system alpha beta t1 t2 a0 a1 a2 a3 -> continuity_pt (abspline3 alpha beta t1 t2 a0 a1 a2 a3) t.
Proof.
  intros Ht (E1 & E2 & _). assert (N1 : t1 ^ alpha <> 0) by (apply pow_nonzero; lra). assert (N2 : t2 ^ beta <> 0) by (apply pow_nonzero; lra).
  apply (cont_eq (fun x => if Rltb x t1 then x ^ alpha * / t1 ^ alpha else if Rltb x t2 then a0 + a1 * x + a2 * x ^ 2 + a3 * x ^ 3 else / x ^ beta * t2 ^ beta)).
  - intros x. unfold abspline3. destruct (Rltb_spec x t1), (Rltb_spec x t2), (Rleb_spec t2 x), (Rleb_spec t1 x); try lra; reflexivity.
  - apply (cont_glue (fun x => x ^ alpha * / t1 ^ alpha) (fun x => if Rltb x t2 then a0 + a1 * x + a2 * x ^ 2 + a3 * x ^ 3 else / x ^ beta * t2 ^ beta)); [intros _; ct| |].
    + intros _. apply (cont_glue (fun x => a0 + a1 * x + a2 * x ^ 2 + a3 * x ^ 3) (fun x => / x ^ beta * t2 ^ beta)); [intros _; ct| |].
      * intros H. apply cont_mult; [|ct]. apply (cont_inv (fun x => x ^ beta)); [ct|]. apply pow_nonzero. lra.
      * rewrite Rinv_l by exact N2. lra.
    + destruct (Rltb_spec t1 t2); [|lra]. rewrite Rinv_r by exact N1. lra.
Qed.
(** The spline coefficients are those np.linalg.solve returns; the number of scales is not checked by the code. *)
Theorem C80_abspline lmax Nf lpfactor scales a0 a1 a2 a3 xstar ks lo hi : abspline_system 2 2 1 2 a0 a1 a2 a3 -> (1 <= Nf)%nat ->
  (forall s, scales = Some s -> List.length s = (Nf - 1)%nat) ->
  Abspline lmax Nf lpfactor scales a0 a1 a2 a3 xstar = Ok ks -> continuous_bank ks lo hi.
Proof.
  intros Hs HN HL H. unfold Abspline in H. cbv zeta in H.
  assert (K : exists sc, List.length sc = (Nf - 1)%nat /\ match scales with Some s => Ok s | None => if Nat.eqb Nf 0 then Raise ValueError else Ok (compute_log_scales (lmax / lpfactor) lmax (Nf - 1) 1 2) end = Ok sc).
  { destruct scales as [s|]; [exists s; split; [apply HL; reflexivity|reflexivity]|]. replace (Nat.eqb Nf 0) with false by (symmetry; apply Nat.eqb_neq; lia). eexists. split; [|reflexivity].
    unfold compute_log_scales, np_linspace. rewrite !map_length, seq_length. reflexivity. }
  destruct K as (sc & Lsc & E). rewrite E in H. cbn [bindr] in H. injection H as <-.
  apply (bank_pass (fun x => (a0 + a1 * xstar + a2 * xstar ^ 2 + a3 * xstar ^ 3) * exp (- (x / (0.6 * (lmax / lpfactor))) ^ 4)) (fun s x => abspline3 2 2 1 2 a0 a1 a2 a3 (s * x))); [exact Lsc| |].
  - apply cont_on. intros t _. ct.
  - intros s _. apply cont_scaled. intros t. apply cont_abspline3; [lra|exact Hs].
Qed.

(** ** Expwin *)
Lemma cont_expwin_exp slope t : 0 < slope -> continuity_pt (expwin_exp slope) t.
Proof.
  intros Hs. apply cont_fun. intros eps He. unfold expwin_exp. destruct (Rtotal_order t 0) as [L|[->|L]].
  - exists (- t). split; [lra|]. intros u Hu. pose proof (Rle_abs (u - t)). destruct (Rleb_spec u 0); [|lra]. destruct (Rleb_spec t 0); [|lra]. rewrite Rminus_diag_eq by reflexivity. rewrite Rabs_R0. exact He.
  - (* exp(-a/u) <= u/a for u > 0 *)
    exists (eps * slope). split; [apply Rmult_lt_0_compat; assumption|]. intros u Hu. destruct (Rleb_spec 0 0); [|lra]. rewrite Rminus_0_r in *.
    destruct (Rleb_spec u 0) as [|Hp]; [rewrite Rabs_R0; exact He|]. rewrite Rabs_pos_eq by (apply Rlt_le, exp_pos). rewrite Rabs_pos_eq in Hu by lra.
    replace (- slope / u) with (- (slope / u)) by (field; lra). rewrite exp_Ropp. assert (Hq : 0 < slope / u) by (apply Rdiv_lt_0_compat; lra).
    pose proof (exp_ineq1 (slope / u) ltac:(lra)) as Hx. apply Rle_lt_trans with (/ (slope / u)); [apply Rinv_le_contravar; lra|].
    replace (/ (slope / u)) with (u / slope) by (field; lra). apply Rmult_lt_reg_r with slope; [exact Hs|]. replace (u / slope * slope) with u by (field; lra). exact Hu.
  - assert (C : continuity_pt (fun x => exp (- slope / x)) t) by (apply cont_exp; apply (cont_mult (fun _ => - slope) (fun x => / x)); [ct|apply (cont_inv (fun x => x)); [ct|lra]]).
    destruct (proj1 (cont_fun _ _) C eps He) as (d & Hd & K). exists (Rmin d t). split; [apply Rmin_glb_lt; assumption|]. intros u Hu. pose proof (Rmin_l d t). pose proof (Rmin_r d t).
    pose proof (Rle_abs (- (u - t))) as A. rewrite Rabs_Ropp in A. destruct (Rleb_spec u 0); [lra|]. destruct (Rleb_spec t 0); [lra|]. apply K. lra.
Qed.
Lemma expwin_den slope t : 0 < expwin_exp slope t + expwin_exp slope (1 - t).
Proof.
  unfold expwin_exp. destruct (Rleb_spec t 0); destruct (Rleb_spec (1 - t) 0); try lra; try (pose proof (exp_pos (- slope / t)); pose proof (exp_pos (- slope / (1 - t))); lra).
Qed.
Lemma cont_expwin_h slope t : 0 < slope -> continuity_pt (expwin_h slope) t.
Proof.
  intros Hs. unfold expwin_h. apply (cont_mult (expwin_exp slope) (fun x => / (expwin_exp slope x + expwin_exp slope (1 - x)))); [apply cont_expwin_exp; exact Hs|].
  apply (cont_inv (fun x => expwin_exp slope x + expwin_exp slope (1 - x))); [|apply Rgt_not_eq, expwin_den].
  apply cont_plus; [apply cont_expwin_exp; exact Hs|]. apply (cont_comp (expwin_exp slope) (fun x => 1 - x)); [ct|apply cont_expwin_exp; exact Hs].
Qed.
Theorem C80_expwin lmax slope band_min band_max lo hi : 0 < slope -> continuous_bank [pw (expwin_fun lmax slope band_min band_max)] lo hi.
Proof.
  intros Hs. apply (bank_pw [expwin_fun lmax slope band_min band_max]). intros f [<-|[]]. apply cont_on. intros t _. unfold expwin_fun. cbv zeta.
  assert (Lw : forall b, continuity_pt (fun x => expwin_h slope (/ 2 - x / lmax + b)) t) by (intros b; apply (cont_comp (expwin_h slope) (fun x => / 2 - x / lmax + b)); [ct|apply cont_expwin_h; exact Hs]).
  assert (Hg : forall b, continuity_pt (fun x => expwin_h slope (/ 2 + x / lmax - b)) t) by (intros b; apply (cont_comp (expwin_h slope) (fun x => / 2 + x / lmax - b)); [ct|apply cont_expwin_h; exact Hs]).
  destruct band_min as [a|], band_max as [b|]; [apply cont_mult; [apply Lw|apply Hg]|apply Hg|apply Lw|apply cont_const].
Qed.
(** Rectangular is the ideal filter: it jumps at every band edge inside the spectrum. *)
Theorem C80_rectangular_refuted lmax b : 0 < lmax -> 0 < b < 1 -> ~ continuous_bank [pw (rect_fun lmax None (Some b))] 0 lmax.
Proof.
  intros Hl Hb (fs & HL & Hc & He). destruct fs as [|f [|? ?]]; try discriminate. specialize (Hc f (or_introl eq_refl)).
  assert (V : forall t, 0 <= t <= lmax -> f t = rect_fun lmax None (Some b) t).
  { intros t Ht. specialize (He [t] ltac:(discriminate) ltac:(intros u [<-|[]]; exact Ht)). pose proof (evaluate_pw [rect_fun lmax None (Some b)] [t]) as E. cbn [map] in E. rewrite E in He. injection He as He. symmetry. exact He. }
  assert (R0 : 0 < b * lmax) by (apply Rmult_lt_0_compat; lra). assert (R1 : b * lmax < lmax) by nra.
  destruct (Hc (b * lmax) ltac:(lra) 1 ltac:(lra)) as (d & Hd & K).
  set (u := b * lmax + Rmin (d / 2) (lmax - b * lmax)). assert (Hm : 0 < Rmin (d / 2) (lmax - b * lmax)) by (apply Rmin_glb_lt; lra).
  pose proof (Rmin_l (d / 2) (lmax - b * lmax)). pose proof (Rmin_r (d / 2) (lmax - b * lmax)).
  assert (Hu : 0 <= u <= lmax) by (unfold u; lra). specialize (K u Hu). rewrite !V in K by lra.
  assert (X : Rabs (u - b * lmax) < d) by (unfold u; rewrite Rabs_pos_eq; lra). specialize (K X). unfold rect_fun in K.
  replace (b * lmax / lmax) with b in K by (field; lra). destruct (Rleb_spec b b); [|lra].
  destruct (Rleb_spec (u / lmax) b) as [Y|Y]; [|rewrite Rabs_left1 in K by lra; lra].
  apply Rmult_le_compat_r with (r := lmax) in Y; [|lra]. replace (u / lmax * lmax) with u in Y by (field; lra). unfold u in Y. lra.
Qed.

(** ** Wave: arccos is continuous up to the end of its domain *)
Lemma cont_acos_inside t : -1 < t < 1 -> continuity_pt acos t.
Proof. intros H. apply derivable_continuous_pt, derivable_pt_acos. exact H. Qed.
Lemma wave_cont lmax time speed hi : 0 < lmax -> 0 <= speed < 2 -> hi <= lmax -> continuous_on (wave_fun lmax time speed) 0 hi.
Proof.
  intros Hl Hs Hh. assert (Il : 0 < / lmax) by (apply Rinv_0_lt_compat; exact Hl).
  assert (Ca : forall t, continuity_pt (wave_arg lmax speed) t) by (intros t; unfold wave_arg; ct).
  assert (Ra : forall t, 0 <= t <= hi -> -1 < wave_arg lmax speed t <= 1).
  { intros t Ht. unfold wave_arg. assert (B : 0 <= t * / lmax <= 1).
    { split; [apply Rmult_le_pos; lra|]. replace 1 with (lmax * / lmax) by (field; lra). apply Rmult_le_compat_r; lra. }
    replace (speed ^ 2 * t / lmax / 2) with (speed * speed * (t * / lmax) / 2) by (field; lra).
    assert (S2 : 0 <= speed * speed < 4) by nra. nra. }
  assert (Acos : forall t, 0 <= t <= hi -> forall eps, 0 < eps -> exists d, 0 < d /\ forall u, 0 <= u <= hi -> Rabs (u - t) < d -> Rabs (acos (wave_arg lmax speed u) - acos (wave_arg lmax speed t)) < eps).
  { intros t Ht eps He. destruct (Ra t Ht) as (A1 & [A2|A2]).
    - assert (C : continuity_pt (fun x => acos (wave_arg lmax speed x)) t) by (apply (cont_comp acos (wave_arg lmax speed)); [apply Ca|apply cont_acos_inside; lra]).
      destruct (proj1 (cont_fun _ _) C eps He) as (d & Hd & K). exists d. split; [exact Hd|]. intros u _. apply K.
    - rewrite A2, acos_1. set (e := Rmin eps PI). assert (He' : 0 < e) by (apply Rmin_glb_lt; [exact He|apply PI_RGT_0]). pose proof (Rmin_l eps PI) as E1. pose proof (Rmin_r eps PI) as E2. fold e in E1, E2.
      assert (Hc : 0 < 1 - cos e).
      { assert (cos e < cos 0) by (apply cos_decreasing_1; pose proof PI_RGT_0; lra). rewrite cos_0 in H. lra. }
      destruct (proj1 (cont_fun _ _) (Ca t) (1 - cos e) Hc) as (d & Hd & K). exists d. split; [exact Hd|]. intros u Hu Hut. specialize (K u Hut). rewrite A2 in K.
      destruct (Ra u Hu) as (U1 & U2). rewrite Rabs_left1 in K by lra. rewrite Rminus_0_r. pose proof (acos_bound (wave_arg lmax speed u)) as B. rewrite Rabs_pos_eq by lra.
      apply Rlt_le_trans with e; [|exact E1]. apply Rnot_le_lt. intros Hle. assert (cos (acos (wave_arg lmax speed u)) <= cos e) by (apply cos_decr_1; lra).
      rewrite cos_acos in H by lra. lra. }
  intros t Ht eps He. assert (C : continuity_pt (fun y => cos (time * y)) (acos (wave_arg lmax speed t))) by ct.
  destruct (proj1 (cont_fun _ _) C eps He) as (d & Hd & K). destruct (Acos t Ht d Hd) as (d2 & Hd2 & K2). exists d2. split; [exact Hd2|]. intros u Hu Hut. unfold wave_fun. apply K. apply K2; assumption.
Qed.
(** Every wave bank that is accepted and whose speeds are not negative, on the spectrum *)
Theorem C80_wave lmax time speed ks : 0 < lmax -> Wave lmax time speed = Ok ks -> (forall s, In s (pvals speed) -> 0 <= s) -> continuous_bank ks 0 lmax.
Proof.
  intros Hl H Hs. unfold Wave in H. cbv zeta in H.
  match type of H with bindr ?x _ = _ => destruct x as [[tm sp]|] eqn:E end; [|discriminate]. cbn [bindr fst snd] in H.
  destruct (existsb _ _) eqn:Ex; [discriminate|]. injection H as <-.
  assert (Hp : forall s, In s (pvals sp) -> 0 <= s).
  { destruct (Nat.eqb _ _); [injection E as _ <-; exact Hs|]. destruct (Nat.eqb _ _); [injection E as _ <-|destruct (Nat.eqb _ _); [injection E as _ <-; exact Hs|discriminate]].
    intros s Hin. destruct speed as [x|l|l]; cbn [py_times pvals] in *.
    - apply in_concat in Hin. destruct Hin as (l & Hl1 & Hl2). apply repeat_spec in Hl1. subst l. apply Hs. exact Hl2.
    - apply in_concat in Hin. destruct Hin as (l' & Hl1 & Hl2). apply repeat_spec in Hl1. subst l'. apply Hs. exact Hl2.
    - apply in_map_iff in Hin. destruct Hin as (x & <- & Hx). apply Rmult_le_pos; [apply Hs; exact Hx|apply pos_INR]. }
  rewrite <- (map_map (fun p => wave_fun lmax (fst p) (snd p)) pw). apply bank_pw. intros f Hf. apply in_map_iff in Hf. destruct Hf as ((a & s) & <- & Hin). apply in_combine_r in Hin. cbn [fst snd].
  apply wave_cont; [exact Hl| |lra]. split; [apply Hp; exact Hin|].
  assert (Q : forall b, In b (pvals sp) -> Rleb 2 b = false).
  { intros b Hb. destruct (Rleb 2 b) eqn:Z; [|reflexivity]. rewrite <- Ex. symmetry. apply existsb_exists. exists b. split; assumption. }
  specialize (Q s Hin). destruct (Rleb_spec 2 s); [discriminate|lra].
Qed.

Lemma evaluate_cons k ks x : evaluate (k :: ks) x = bindr (bindr (k x) (fun y => if Nat.eqb (List.length y) (List.length x) then Ok y else Raise ValueError)) (fun y => bindr (evaluate ks x) (fun ys => Ok (y :: ys))).
Proof. reflexivity. Qed.
(** ** Continuity passes to the Gabor translates *)
Theorem C80_gabor F mother g lo hi : (forall t, continuity_pt g t) -> mother = [pw g] -> exists ks, Gabor F true mother = Ok ks /\ continuous_bank ks lo hi.
Proof.
  intros Hg ->. unfold Gabor. cbn [List.length Nat.eqb negb]. eexists. split; [reflexivity|].
  apply (bank_eval _ (map (fun i x => g (x - nth i (v_e F) 0)) (seq 0 (v_N F)))).
  - rewrite !map_length. reflexivity.
  - intros x. induction (seq 0 (v_N F)) as [|i l IH]; [reflexivity|]. cbn [map].
    pose proof (evaluate_pw [g] (map (fun t => t - nth i (v_e F) 0) x)) as E. cbn [map] in E.
    rewrite evaluate_cons, E. cbn [bindr nth]. rewrite !map_length, Nat.eqb_refl. cbn [bindr]. rewrite IH. cbn [bindr]. rewrite map_map. reflexivity.
  - intros f Hf. apply in_map_iff in Hf. destruct Hf as (i & <- & _). apply cont_on. intros t _. apply (cont_comp g (fun x => x - nth i (v_e F) 0)); [ct|apply Hg].
Qed.

(** The hypotheses are met by the documented defaults. *)
Example C80_ex : (exists ks, Meyer 2 6 None = Ok ks /\ continuous_bank ks 0 2) /\ (exists ks, Abspline 2 6 20 None (-5) 11 (-6) 1 (3 / 2) = Ok ks /\ continuous_bank ks 0 2) /\
  (exists ks, Wave 2 (Scalar 10) (Scalar 1) = Ok ks /\ continuous_bank ks 0 2).
Proof.
  split; [|split].
  - eexists. split; [reflexivity|]. apply (C80_meyer 2 6 None); [reflexivity|lia].
  - eexists. split; [reflexivity|]. apply (C80_abspline 2 6 20 None (-5) 11 (-6) 1 (3 / 2)); [apply C31_ex|lia|discriminate|reflexivity].
  - destruct (Wave 2 (Scalar 10) (Scalar 1)) as [ks|e] eqn:E.
    + exists ks. split; [reflexivity|]. eapply C80_wave; [lra|exact E|]. intros s [<-|[]]. lra.
    + exfalso. unfold Wave in E. cbn in E. destruct (Rleb_spec 2 1); [lra|]. discriminate.
Qed.
