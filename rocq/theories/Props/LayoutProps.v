(** C61: coordinates of the vertices. *)
From Coq Require Import Reals Lra Lia List Arith Bool String.
From Coq Require Import List.
From Verif.Base Require Import RSum Prelude.
From Verif.Spec Require Import Matrix NdArray.
From Verif.Model Require Import Sparse Graph Layout.
Import ListNotations.
Open Scope R_scope.
Open Scope list_scope.

(** ** Coordinates given as an array *)

(** An array is accepted iff, once its dimensions of size one are dropped, it has the shape N, N x 2 or N x 3; the coordinates
    are then its values.  Otherwise ValueError, or IndexError for an array with a single value. *)
Theorem C61_array :
  forall N a,
    (forall c, set_array N a = Ok c -> c = squeeze a) /\
    ((exists c, set_array N a = Ok c) <-> drop1 (shape a) = [N] \/ drop1 (shape a) = [N; 2%nat] \/ drop1 (shape a) = [N; 3%nat]) /\
    (drop1 (shape a) = [] -> set_array N a = Raise IndexError) /\
    (drop1 (shape a) <> [] -> drop1 (shape a) <> [N] -> drop1 (shape a) <> [N; 2%nat] -> drop1 (shape a) <> [N; 3%nat] -> set_array N a = Raise ValueError).
Proof.
  intros N a. unfold set_array. change (shape (squeeze a)) with (drop1 (shape a)). destruct (drop1 (shape a)) as [|n r].
  - split; [discriminate|]. split; [split; [intros (c & H); discriminate|intros [H|[H|H]]; discriminate]|]. split; [reflexivity|congruence].
  - destruct (Nat.eqb_spec n N) as [->|Ne]; cbn [negb orb].
    + destruct r as [|m [|p r]]; cbn [List.length Nat.eqb nth andb orb negb].
      * split; [intros c [= <-]; reflexivity|]. split; [split; [intros _; left; reflexivity|intros _; eexists; reflexivity]|]. split; [discriminate|congruence].
      * destruct (Nat.leb_spec 2 m) as [L2|L2], (Nat.leb_spec m 3) as [L3|L3]; cbn [andb negb].
        -- split; [intros c [= <-]; reflexivity|]. split.
           ++ split; [intros _|intros _; eexists; reflexivity]. assert (Hm : m = 2%nat \/ m = 3%nat) by lia. destruct Hm as [-> | ->]; auto.
           ++ split; [discriminate|]. intros _ _ N2 N3. exfalso. assert (Hm : m = 2%nat \/ m = 3%nat) by lia. destruct Hm as [-> | ->]; congruence.
        -- split; [discriminate|]. split; [split; [intros (c & H); discriminate|intros [H|[H|H]]; [discriminate|injection H as H; lia|injection H as H; lia]]|]. split; [discriminate|reflexivity].
        -- split; [discriminate|]. split; [split; [intros (c & H); discriminate|intros [H|[H|H]]; [discriminate|injection H as H; lia|injection H as H; lia]]|]. split; [discriminate|reflexivity].
        -- lia.
      * split; [discriminate|]. split; [split; [intros (c & H); discriminate|intros [H|[H|H]]; discriminate]|]. split; [discriminate|reflexivity].
    + split; [discriminate|]. split; [split; [intros (c & H); discriminate|intros [H|[H|H]]; congruence]|]. split; [discriminate|reflexivity].
Qed.
Example C61_array_ex : drop1 (shape (mat_arr 4 3 (fun _ _ => 0))) = [4%nat; 3%nat].
Proof. reflexivity. Qed.

(** Finding: a graph with a single vertex cannot be given coordinates. *)
Theorem C61_single_vertex_refuted : forall a, exists e, set_array 1 a = Raise e.
Proof.
  intros a. destruct (C61_array 1 a) as (_ & H & _). destruct (set_array 1 a) as [c|e]; [|exists e; reflexivity]. exfalso.
  assert (I : In 1%nat (drop1 (shape a))).
  { destruct (proj1 H (ex_intro _ c eq_refl)) as [E|[E|E]]; rewrite E; left; reflexivity. }
  apply filter_In in I as [_ I]. discriminate.
Qed.

(** ** Layouts by name *)
Definition kinds : list string :=
  ["line1D"; "line2D"; "ring2D"; "random2D"; "random3D"; "spring"; "community2D"; "laplacian_eigenmap2D"; "laplacian_eigenmap3D"]%string.

Theorem C61_unknown_kind_rejected :
  forall N adj inf u eig kind, ~ In kind kinds -> set_kind N adj inf u eig kind = Raise ValueError.
Proof.
  intros N adj inf u eig kind H. unfold set_kind.
  repeat match goal with |- context [String.eqb kind ?s] => destruct (String.eqb_spec kind s); [exfalso; apply H; subst; cbn; tauto|] end.
  reflexivity.
Qed.

(** Line: vertex i at i.  Ring: on the unit circle, neighbours at equal distances.  Random: in the unit box.  Eigenmaps: the
    second and following eigenvectors. *)
Theorem C61_layouts :
  forall N adj inf u eig i, (i < N)%nat -> (forall i d, 0 <= u i d < 1) ->
    (exists c, set_kind N adj inf u eig "line1D" = Ok (Some c) /\ shape c = [N] /\ aget c [i] = INR i) /\
    (exists c, set_kind N adj inf u eig "line2D" = Ok (Some c) /\ shape c = [N; 2%nat] /\ aget c [i; 0%nat] = INR i /\ aget c [i; 1%nat] = 0) /\
    (exists c, set_kind N adj inf u eig "ring2D" = Ok (Some c) /\ shape c = [N; 2%nat] /\ aget c [i; 0%nat] ^ 2 + aget c [i; 1%nat] ^ 2 = 1 /\
       let j := ((i + 1) mod N)%nat in
       (aget c [i; 0%nat] - aget c [j; 0%nat]) ^ 2 + (aget c [i; 1%nat] - aget c [j; 1%nat]) ^ 2 = (2 * sin (PI / INR N)) ^ 2) /\
    (exists c, set_kind N adj inf u eig "random2D" = Ok (Some c) /\ shape c = [N; 2%nat] /\ forall d, (d < 2)%nat -> 0 <= aget c [i; d] < 1) /\
    (exists c, set_kind N adj inf u eig "random3D" = Ok (Some c) /\ shape c = [N; 3%nat] /\ forall d, (d < 3)%nat -> 0 <= aget c [i; d] < 1) /\
    (forall U, eig 3%nat = Ok U -> exists c, set_kind N adj inf u eig "laplacian_eigenmap2D" = Ok (Some c) /\ shape c = [N; 2%nat] /\
       aget c [i; 0%nat] = U i 1%nat /\ aget c [i; 1%nat] = U i 2%nat) /\
    (forall U, eig 4%nat = Ok U -> exists c, set_kind N adj inf u eig "laplacian_eigenmap3D" = Ok (Some c) /\ shape c = [N; 3%nat] /\
       aget c [i; 0%nat] = U i 1%nat /\ aget c [i; 1%nat] = U i 2%nat /\ aget c [i; 2%nat] = U i 3%nat).
Proof.
  intros N adj inf u eig i Hi Hu. assert (PN : 0 < INR N) by (apply lt_0_INR; lia).
  assert (SC : forall a, cos a ^ 2 + sin a ^ 2 = 1) by (intros a; pose proof (sin2_cos2 a) as S; unfold Rsqr in S; lra).
  split; [exists (line1D N); repeat split|]. split; [exists (line2D N); repeat split|]. split; [|split; [|split; [|split]]].
  - exists (ring2D N). split; [reflexivity|]. split; [reflexivity|]. split; [cbn; apply SC|]. cbn [aget ring2D points mat_arr nth Nat.eqb].
    set (a := INR i * 2 * PI / INR N). set (h := 2 * (PI / INR N)).
    assert (B : exists b, (forall d, (if Nat.eqb d 0 then cos (INR ((i + 1) mod N) * 2 * PI / INR N) else sin (INR ((i + 1) mod N) * 2 * PI / INR N)) = if Nat.eqb d 0 then cos b else sin b) /\ b = a + h).
    { exists (a + h). split; [|reflexivity]. assert (E : a + h = INR (i + 1) * 2 * PI / INR N) by (unfold a, h; rewrite plus_INR; cbn [INR]; field; lra). rewrite E.
      destruct (Nat.eq_dec (i + 1) N) as [En|Nn].
      - replace ((i + 1) mod N)%nat with 0%nat by (rewrite En, Nat.mod_same by lia; reflexivity). intros d.
        assert (E2 : INR (i + 1) * 2 * PI / INR N = 2 * PI) by (rewrite En; field; lra). rewrite E2. cbn [INR].
        replace (0 * 2 * PI / INR N) with 0 by (field; lra). rewrite cos_0, sin_0, cos_2PI, sin_2PI. reflexivity.
      - rewrite Nat.mod_small by lia. reflexivity. }
    destruct B as (b & Eb & Ebb). pose proof (Eb 0%nat) as E0. pose proof (Eb 1%nat) as E1. cbn [Nat.eqb] in E0, E1. rewrite E0, E1, Ebb.
    assert (H2 : cos h = 1 - 2 * sin (PI / INR N) * sin (PI / INR N)) by (unfold h; apply cos_2a_sin).
    transitivity (2 - 2 * (cos a * cos (a + h) + sin a * sin (a + h))).
    + pose proof (SC a). pose proof (SC (a + h)). nra.
    + replace (cos a * cos (a + h) + sin a * sin (a + h)) with (cos h).
      * rewrite H2. ring.
      * replace h with ((a + h) - a) at 1 by ring. rewrite cos_minus. ring.
  - exists (random2D N u). split; [reflexivity|]. split; [reflexivity|]. intros d _. apply Hu.
  - exists (random3D N u). split; [reflexivity|]. split; [reflexivity|]. intros d _. apply Hu.
  - intros U E. unfold set_kind. cbn [String.eqb Ascii.eqb Bool.eqb]. rewrite E. cbn [bindr]. eexists. split; [reflexivity|]. repeat split.
  - intros U E. unfold set_kind. cbn [String.eqb Ascii.eqb Bool.eqb]. rewrite E. cbn [bindr]. eexists. split; [reflexivity|]. repeat split.
Qed.

(** ** Communities *)
Lemma com_check_ok z sizes vs : com_check z sizes vs = Ok tt <-> forall i, In i vs -> exists c, nth_error z i = Some c /\ (c < List.length sizes)%nat.
Proof.
  induction vs as [|i vs IH]; cbn [com_check]; [split; [intros _ i []|reflexivity]|]. destruct (nth_error z i) as [c|] eqn:E.
  - destruct (Nat.ltb_spec c (List.length sizes)) as [L|L].
    + rewrite IH. split; [intros H j [<-|Hj]; [exists c; auto|apply H; exact Hj]|intros H j Hj; apply H; right; exact Hj].
    + split; [discriminate|]. intros H. destruct (H i (or_introl eq_refl)) as (c' & E' & L'). rewrite E in E'. injection E' as <-. lia.
  - split; [discriminate|]. intros H. destruct (H i (or_introl eq_refl)) as (c' & E' & _). congruence.
Qed.

(** The centres of the communities are on the circle of radius world_rad; every vertex lies within the square root of the size
    of its community from its centre. *)
Theorem C61_community :
  forall N z rad sizes u, (forall i d, 0 <= u i d < 1) -> 0 <= rad -> List.length z = N -> (forall c, In c z -> (c < List.length sizes)%nat) ->
  exists c, community2D N (Some (mkinfo (Some z) (Some rad) (Some sizes))) u = Ok (c, mkinfo (Some z) (Some rad) (Some sizes)) /\ shape c = [N; 2%nat] /\
    forall i, (i < N)%nat -> exists cx cy, cx ^ 2 + cy ^ 2 = rad ^ 2 /\
      (aget c [i; 0%nat] - cx) ^ 2 + (aget c [i; 1%nat] - cy) ^ 2 <= INR (nth (nth i z 0%nat) sizes 0%nat) /\
      cx = rad * cos (2 * PI * INR (nth i z 0%nat + 1) / INR (List.length sizes)) /\ cy = rad * sin (2 * PI * INR (nth i z 0%nat + 1) / INR (List.length sizes)).
Proof.
  intros N z rad sizes u Hu Hr Hz Hc. unfold community2D. cbn [i_rad i_sizes i_com].
  assert (CK : com_check z sizes (seq 0 N) = Ok tt).
  { apply com_check_ok. intros i Hi. apply in_seq in Hi. exists (nth i z 0%nat). split; [apply nth_error_nth'; lia|]. apply Hc. apply nth_In. lia. }
  rewrite CK. eexists. split; [reflexivity|]. split; [reflexivity|]. intros i Hi. cbn [aget points mat_arr nth].
  set (c := nth i z 0%nat). exists (com_centre rad (List.length sizes) c 0), (com_centre rad (List.length sizes) c 1).
  assert (SC : forall a, cos a ^ 2 + sin a ^ 2 = 1) by (intros a; pose proof (sin2_cos2 a) as S; unfold Rsqr in S; lra).
  unfold com_centre. cbn [Nat.eqb]. set (a := 2 * PI * INR (c + 1) / INR (List.length sizes)). split; [|split; [|split; reflexivity]].
  - pose proof (SC a). replace ((rad * cos a) ^ 2 + (rad * sin a) ^ 2) with (rad ^ 2 * (cos a ^ 2 + sin a ^ 2)) by ring. rewrite H. ring.
  - set (s := sqrt (INR (nth c sizes 0%nat))). set (b := 2 * PI * u i 1%nat). set (v := u i 0%nat).
    assert (Ss : s * s = INR (nth c sizes 0%nat)) by (apply sqrt_sqrt, pos_INR). rewrite <- Ss.
    replace ((rad * cos a + s * (v * cos b) - rad * cos a) ^ 2 + (rad * sin a + s * (v * sin b) - rad * sin a) ^ 2)
      with (s * s * (v * v) * (cos b ^ 2 + sin b ^ 2)) by ring. rewrite SC, Rmult_1_r.
    pose proof (Hu i 0%nat) as Hv. fold v in Hv. assert (0 <= v * v <= 1) by (split; nra). assert (0 <= s * s) by (rewrite Ss; apply pos_INR). nra.
Qed.
Example C61_community_ex : (forall i d : nat, 0 <= (fun _ _ => 1 / 2) i d < 1) /\ List.length [0; 1; 1]%nat = 3%nat /\
  (forall c, In c [0; 1; 1]%nat -> (c < List.length [1; 2]%nat)%nat).
Proof. split; [intros; cbn; lra|]. split; [reflexivity|]. intros c [<-|[<-|[<-|[]]]]; cbn; lia. Qed.

(** Findings: without information on the communities the promised ValueError never comes (AttributeError, KeyError, or
    NameError whenever the sizes are missing, even if the communities are known). *)
Theorem C61_community_errors_refuted :
  forall N u z rad, (1 <= N)%nat ->
    community2D N None u = Raise AttributeError /\
    community2D N (Some (mkinfo (Some z) rad None)) u = Raise NameError /\
    (forall sizes, community2D N (Some (mkinfo None rad (Some sizes))) u = Raise KeyError).
Proof.
  intros N u z rad HN. split; [reflexivity|]. split; [reflexivity|]. intros sizes. unfold community2D. cbn. destruct N; [lia|]. reflexivity.
Qed.

(** ** Spring layout *)
Section Spring.
Variables (N dim : nat) (adj : nat -> nat -> bool) (k : R) (fixed : list nat).

Lemma step_fixed t pos i d : In i fixed -> fr_step N dim adj k fixed t pos i d = pos i d.
Proof.
  intros H. unfold fr_step, fr_disp. replace (existsb (Nat.eqb i) fixed) with true; [unfold Rdiv; ring|].
  symmetry. apply existsb_exists. exists i. split; [exact H|apply Nat.eqb_refl].
Qed.
Lemma loop_fixed iters t dt pos i d : In i fixed -> fr_loop N dim adj k fixed iters t dt pos i d = pos i d.
Proof. intros H. revert t pos. induction iters as [|m IH]; intros t pos; [reflexivity|]. cbn. rewrite IH. apply step_fixed. exact H. Qed.

Lemma step_move t pos i d : 0 <= t -> (d < dim)%nat -> Rabs (fr_step N dim adj k fixed t pos i d - pos i d) <= t.
Proof.
  intros Ht Hd. unfold fr_step. replace (_ + _ - _) with (fr_disp N dim adj k fixed pos d i * t / fr_len N dim adj k fixed pos i) by ring.
  set (x := fr_disp N dim adj k fixed pos d i).
  set (r := sqrt (\sum_(d < dim) fr_disp N dim adj k fixed pos d i ^ 2)).
  assert (Hx : Rabs x <= r).
  { rewrite <- sqrt_Rsqr_abs. unfold r. apply sqrt_le_1_alt. unfold Rsqr, x.
    assert (T := rsum_ge_term dim (fun d => fr_disp N dim adj k fixed pos d i ^ 2) d). cbv beta in T.
    replace (fr_disp N dim adj k fixed pos d i * fr_disp N dim adj k fixed pos d i) with (fr_disp N dim adj k fixed pos d i ^ 2) by ring. apply T; [|exact Hd].
    intros j _. apply pow2_ge_0. }
  assert (Hl : 0 < fr_len N dim adj k fixed pos i /\ r <= fr_len N dim adj k fixed pos i).
  { unfold fr_len. fold r. destruct (Rltb_spec r 0.01) as [L|L]; lra. }
  destruct Hl as [Lp Lr]. replace (x * t / fr_len N dim adj k fixed pos i) with (t * (x / fr_len N dim adj k fixed pos i)) by (field; lra).
  rewrite Rabs_mult, (Rabs_pos_eq t) by exact Ht. rewrite <- (Rmult_1_r t) at 2. apply Rmult_le_compat_l; [exact Ht|].
  unfold Rdiv. rewrite Rabs_mult, Rabs_inv, (Rabs_pos_eq (fr_len _ _ _ _ _ _ _)) by lra.
  apply (Rmult_le_reg_r (fr_len N dim adj k fixed pos i)); [exact Lp|]. rewrite Rmult_assoc, Rinv_l by lra. lra.
Qed.
Lemma loop_move iters t dt pos i d : 0 <= dt -> INR iters * dt <= t -> (d < dim)%nat ->
  Rabs (fr_loop N dim adj k fixed iters t dt pos i d - pos i d) <= INR iters * t - dt * (INR iters * (INR iters - 1) / 2).
Proof.
  intros Hdt. revert t pos. induction iters as [|m IH]; intros t pos Ht Hd.
  - cbn. rewrite Rminus_diag_eq, Rabs_R0 by reflexivity. lra.
  - cbn [fr_loop]. rewrite S_INR in *. pose proof (pos_INR m) as Pm.
    assert (P2 : 0 <= INR m * dt) by (apply Rmult_le_pos; assumption).
    specialize (IH (t - dt) (fr_step N dim adj k fixed t pos)). assert (Q : INR m * dt <= t - dt) by lra. specialize (IH Q Hd).
    pose proof (step_move t pos i d ltac:(lra) Hd) as M.
    replace (fr_loop N dim adj k fixed m (t - dt) dt (fr_step N dim adj k fixed t pos) i d - pos i d)
      with ((fr_loop N dim adj k fixed m (t - dt) dt (fr_step N dim adj k fixed t pos) i d - fr_step N dim adj k fixed t pos i d) + (fr_step N dim adj k fixed t pos i d - pos i d)) by ring.
    eapply Rle_trans; [apply Rabs_triang|]. eapply Rle_trans; [apply Rplus_le_compat; [exact IH|exact M]|]. right. field.
Qed.

Lemma dist_shift pos (c : nat -> R) i j : fr_dist dim (fun i d => pos i d + c d) i j = fr_dist dim pos i j.
Proof.
  unfold fr_dist. replace (\sum_(d < dim) (pos i d + c d - (pos j d + c d)) ^ 2) with (\sum_(d < dim) (pos i d - pos j d) ^ 2); [reflexivity|].
  apply rsum_ext. intros d _. f_equal. ring.
Qed.
Lemma disp_shift pos (c : nat -> R) d i : fr_disp N dim adj k fixed (fun i d => pos i d + c d) d i = fr_disp N dim adj k fixed pos d i.
Proof.
  unfold fr_disp. destruct (existsb _ _); [reflexivity|]. apply rsum_ext. intros j _. rewrite dist_shift. f_equal. ring.
Qed.
Lemma step_shift t pos (c : nat -> R) i d : fr_step N dim adj k fixed t (fun i d => pos i d + c d) i d = fr_step N dim adj k fixed t pos i d + c d.
Proof.
  unfold fr_step, fr_len. rewrite disp_shift.
  replace (\sum_(d < dim) fr_disp N dim adj k fixed (fun i d => pos i d + c d) d i ^ 2) with (\sum_(d < dim) fr_disp N dim adj k fixed pos d i ^ 2); [ring|].
  apply rsum_ext. intros e _. rewrite disp_shift. reflexivity.
Qed.
Lemma dist_ext p q i j : (forall i d, p i d = q i d) -> fr_dist dim p i j = fr_dist dim q i j.
Proof. intros H. unfold fr_dist. replace (\sum_(d < dim) (p i d - p j d) ^ 2) with (\sum_(d < dim) (q i d - q j d) ^ 2); [reflexivity|]. apply rsum_ext. intros d _. rewrite !H. reflexivity. Qed.
Lemma disp_ext p q d i : (forall i d, p i d = q i d) -> fr_disp N dim adj k fixed p d i = fr_disp N dim adj k fixed q d i.
Proof. intros H. unfold fr_disp. destruct (existsb _ _); [reflexivity|]. apply rsum_ext. intros j _. rewrite !H, (dist_ext p q i j H). reflexivity. Qed.
Lemma step_ext t p q i d : (forall i d, p i d = q i d) -> fr_step N dim adj k fixed t p i d = fr_step N dim adj k fixed t q i d.
Proof.
  intros H. unfold fr_step, fr_len. rewrite H, (disp_ext p q d i H).
  replace (\sum_(d < dim) fr_disp N dim adj k fixed p d i ^ 2) with (\sum_(d < dim) fr_disp N dim adj k fixed q d i ^ 2); [reflexivity|].
  apply rsum_ext. intros e _. rewrite (disp_ext p q e i H). reflexivity.
Qed.
Lemma loop_ext iters t dt p q : (forall i d, p i d = q i d) -> forall i d, fr_loop N dim adj k fixed iters t dt p i d = fr_loop N dim adj k fixed iters t dt q i d.
Proof. revert t p q. induction iters as [|m IH]; intros t p q H i d; [apply H|]. cbn. apply IH. intros a b. apply step_ext. exact H. Qed.
Lemma loop_shift iters t dt pos (c : nat -> R) i d :
  fr_loop N dim adj k fixed iters t dt (fun i d => pos i d + c d) i d = fr_loop N dim adj k fixed iters t dt pos i d + c d.
Proof.
  revert t pos i d. induction iters as [|m IH]; intros t pos i d; [reflexivity|]. cbn.
  rewrite (loop_ext m (t - dt) dt _ (fun i d => fr_step N dim adj k fixed t pos i d + c d)); [apply IH|]. intros a b. apply step_shift.
Qed.
End Spring.

(** A fixed vertex keeps exactly the position it was given. *)
Theorem C61_fixed_vertices :
  forall N dim adj k pos fixed iterations scale center u r i d,
    In i fixed -> spring N dim adj k (Some pos) fixed iterations scale center u = Some r -> r i d = pos i d.
Proof.
  intros N dim adj k pos fixed iters scale center u r i d Hi H. unfold spring in H. destruct (Reqb _ 0); [discriminate|].
  destruct fixed as [|f fs]; [destruct Hi|]. cbn [List.length Nat.eqb] in H. injection H as <-. unfold fr_run. apply loop_fixed. exact Hi.
Qed.

(** No coordinate of any vertex moves by more than 0.05 n (n + 3) / (n + 1) in n iterations (with fixed vertices, where the
    result is not rescaled). *)
Theorem C61_moves_are_bounded :
  forall N dim adj k pos fixed iterations scale center u r i d,
    fixed <> [] -> (d < dim)%nat -> spring N dim adj k (Some pos) fixed iterations scale center u = Some r ->
    Rabs (r i d - pos i d) <= 0.05 * INR iterations * (INR iterations + 3) / (INR iterations + 1).
Proof.
  intros N dim adj k pos fixed iters scale center u r i d Hf Hd H. unfold spring in H. destruct (Reqb _ 0); [discriminate|].
  destruct fixed as [|f fs]; [congruence|]. cbn [List.length Nat.eqb] in H. injection H as <-. unfold fr_run.
  pose proof (pos_INR iters) as P. set (n := INR iters) in *. assert (Q : 0 < n + 1) by lra.
  eapply Rle_trans; [apply loop_move|].
  - apply Rmult_le_pos; [lra|]. left. apply Rinv_0_lt_compat. exact Q.
  - fold n. apply (Rmult_le_reg_r (n + 1)); [exact Q|]. replace (n * (0.1 / (n + 1)) * (n + 1)) with (n * 0.1) by (field; lra). lra.
  - exact Hd.
  - fold n. right. replace 0.05 with (0.1 / 2) by lra. field. lra.
Qed.

(** Translating the given positions translates the layout when it is not rescaled, and changes nothing when it is. *)
Theorem C61_translation :
  forall N dim adj k pos fixed iterations scale center u (c : nat -> R) r i d, (1 <= N)%nat ->
    (fixed = [] \/ k <> None) ->
    spring N dim adj k (Some pos) fixed iterations scale center u = Some r ->
    exists r', spring N dim adj k (Some (fun i d => pos i d + c d)) fixed iterations scale center u = Some r' /\
      r' i d = if Nat.eqb (List.length fixed) 0 then r i d else r i d + c d.
Proof.
  intros N dim adj k pos fixed iters scale center u c r i d HN Hk H. unfold spring in *.
  set (kk := match k with Some k => k | None => if Nat.eqb (List.length fixed) 0 then sqrt (1 / INR N) else arr_max N dim pos / sqrt (INR N) end) in H.
  set (kk' := match k with Some k => k | None => _ end).
  assert (Ek : kk' = kk). { unfold kk, kk'. destruct Hk as [-> |Hk]; [reflexivity|]. destruct k; [reflexivity|congruence]. }
  rewrite Ek. destruct (Reqb kk 0); [discriminate|]. destruct (Nat.eqb (List.length fixed) 0).
  - set (p := fr_run N dim adj kk fixed iters pos) in *. set (p' := fr_run N dim adj kk fixed iters (fun i d => pos i d + c d)).
    assert (E : forall i d, centred N p' i d = centred N p i d).
    { assert (Ep : forall i d, p' i d = p i d + c d) by (intros a b; unfold p', p, fr_run; apply loop_shift).
      intros a b. unfold centred, col_mean. rewrite Ep. replace (\sum_(i < N) p' i b) with (\sum_(i < N) p i b + INR N * c b).
      - field. apply not_0_INR. lia.
      - rewrite <- rsum_const, <- rsum_plus. apply rsum_ext. intros j _. symmetry. apply Ep. }
    assert (Em : forall b, col_max N (fun i => centred N p' i b) = col_max N (fun i => centred N p i b)).
    { intros b. unfold col_max. rewrite E. f_equal. apply map_ext. intros a. apply E. }
    assert (El : layout_lim N dim p' = layout_lim N dim p).
    { unfold layout_lim. generalize 0. induction (seq 0 dim) as [|b l IH]; intros z; [reflexivity|]. cbn. rewrite Em. apply IH. }
    unfold rescale_layout in *. rewrite El. destruct (Reqb (layout_lim N dim p) 0); [discriminate|]. injection H as <-. eexists. split; [reflexivity|]. cbv beta. rewrite E. reflexivity.
  - injection H as <-. eexists. split; [reflexivity|]. unfold fr_run. apply loop_shift.
Qed.

(** ** Rescaling *)
Lemma col_max_spec N (x : nat -> R) : (1 <= N)%nat -> (forall i, (i < N)%nat -> x i <= col_max N x) /\ exists i, (i < N)%nat /\ col_max N x = x i.
Proof.
  intros HN. unfold col_max.
  assert (G : forall l a, (a <= fold_left Rmax l a /\ forall y, In y l -> y <= fold_left Rmax l a) /\ (fold_left Rmax l a = a \/ In (fold_left Rmax l a) l)).
  { induction l as [|b l IH]; intros a; cbn; [split; [split; [lra|intros y []]|left; reflexivity]|]. destruct (IH (Rmax a b)) as [[A B] C]. split.
    - split; [eapply Rle_trans; [apply Rmax_l|exact A]|]. intros y [->|Hy]; [eapply Rle_trans; [apply Rmax_r|exact A]|apply B; exact Hy].
    - destruct C as [C|C]; [|right; right; exact C]. rewrite C. unfold Rmax. destruct (Rle_dec a b); auto. }
  destruct (G (map x (seq 1 (N - 1))) (x 0%nat)) as [[A B] C]. split.
  - intros [|i] Hi; [exact A|]. apply B. apply in_map. apply in_seq. lia.
  - destruct C as [C|C]; [exists 0%nat; split; [lia|exact C]|]. apply in_map_iff in C as (i & E & Hi). apply in_seq in Hi. exists i. split; [lia|symmetry; exact E].
Qed.
Lemma lim_spec N dim pos : (1 <= N)%nat ->
  0 <= layout_lim N dim pos /\ (forall i d, (i < N)%nat -> (d < dim)%nat -> centred N pos i d <= layout_lim N dim pos) /\
  (layout_lim N dim pos = 0 \/ exists i d, (i < N)%nat /\ (d < dim)%nat /\ layout_lim N dim pos = centred N pos i d).
Proof.
  intros HN. unfold layout_lim.
  assert (G : forall l z, z <= fold_left (fun lim d => Rmax (col_max N (fun i => centred N pos i d)) lim) l z /\
    (forall i d, (i < N)%nat -> In d l -> centred N pos i d <= fold_left (fun lim d => Rmax (col_max N (fun i => centred N pos i d)) lim) l z) /\
    (fold_left (fun lim d => Rmax (col_max N (fun i => centred N pos i d)) lim) l z = z \/
     exists i d, (i < N)%nat /\ In d l /\ fold_left (fun lim d => Rmax (col_max N (fun i => centred N pos i d)) lim) l z = centred N pos i d)).
  { induction l as [|b l IH]; intros z; cbn [fold_left]; [split; [lra|split; [intros i d _ []|left; reflexivity]]|].
    destruct (IH (Rmax (col_max N (fun i => centred N pos i b)) z)) as (A & B & C). destruct (col_max_spec N (fun i => centred N pos i b) HN) as [M1 M2].
    split; [eapply Rle_trans; [apply Rmax_r|exact A]|]. split.
    - intros i d Hi [->|Hd]; [|apply B; assumption]. eapply Rle_trans; [apply (M1 i Hi)|]. eapply Rle_trans; [apply Rmax_l|exact A].
    - destruct C as [C|(i & d & Hi & Hd & C)]; [|right; exists i, d; split; [exact Hi|split; [right; exact Hd|exact C]]].
      rewrite C. unfold Rmax. destruct (Rle_dec _ z); [left; reflexivity|]. right. destruct M2 as (i & Hi & Ei). exists i, b. split; [exact Hi|]. split; [left; reflexivity|exact Ei]. }
  destruct (G (seq 0 dim) 0) as (A & B & C). split; [exact A|]. split.
  - intros i d Hi Hd. apply B; [exact Hi|apply in_seq; lia].
  - destruct C as [C|(i & d & Hi & Hd & C)]; [left; exact C|right]. exists i, d. apply in_seq in Hd. split; [exact Hi|]. split; [lia|exact C].
Qed.
Lemma centred_sum N pos d : (1 <= N)%nat -> \sum_(i < N) centred N pos i d = 0.
Proof.
  intros HN. unfold centred. rewrite rsum_minus, rsum_const. unfold col_mean. field. apply not_0_INR. lia.
Qed.
Lemma lim_zero N dim pos : (1 <= N)%nat -> layout_lim N dim pos = 0 <-> forall i j d, (i < N)%nat -> (j < N)%nat -> (d < dim)%nat -> pos i d = pos j d.
Proof.
  intros HN. destruct (lim_spec N dim pos HN) as (L0 & LB & LA). split.
  - intros Z. assert (C0 : forall i d, (i < N)%nat -> (d < dim)%nat -> centred N pos i d = 0).
    { intros i d Hi Hd. pose proof (LB i d Hi Hd) as B. rewrite Z in B. destruct (Rlt_le_dec (centred N pos i d) 0) as [Neg|]; [|lra]. exfalso.
      pose proof (centred_sum N pos d HN) as S.
      assert (0 <= \sum_(i < N) (- centred N pos i d)) by (apply rsum_nonneg; intros j Hj; pose proof (LB j d Hj Hd); lra).
      assert (T : - centred N pos i d <= \sum_(i < N) (- centred N pos i d)).
      { apply (rsum_ge_term N (fun i => - centred N pos i d) i); [|exact Hi]. intros j Hj. pose proof (LB j d Hj Hd). lra. }
      assert (E : \sum_(i < N) (- centred N pos i d) = 0).
      { replace (\sum_(i < N) (- centred N pos i d)) with (- 1 * \sum_(i < N) centred N pos i d); [rewrite S; ring|]. rewrite <- rsum_scal_l. apply rsum_ext. intros j _. ring. }
      lra. }
    intros i j d Hi Hj Hd. pose proof (C0 i d Hi Hd). pose proof (C0 j d Hj Hd). unfold centred in *. lra.
  - intros H. destruct LA as [Z|(i & d & Hi & Hd & E)]; [exact Z|]. rewrite E. unfold centred, col_mean.
    replace (\sum_(j < N) pos j d) with (INR N * pos i d); [field; apply not_0_INR; lia|]. rewrite <- rsum_const. apply rsum_ext. intros j Hj. apply H; assumption.
Qed.

(** The rescaled layout: every axis has mean zero, no coordinate exceeds [scale] and one reaches it, differences are multiplied by one
    positive factor.  It is undefined (NaN) exactly when all the points coincide. *)
Theorem C61_rescale :
  forall N dim scale pos, (1 <= N)%nat -> 0 < scale ->
    (rescale_layout N dim scale pos = None <-> forall i j d, (i < N)%nat -> (j < N)%nat -> (d < dim)%nat -> pos i d = pos j d) /\
    (forall q, rescale_layout N dim scale pos = Some q ->
       (forall d, \sum_(i < N) q i d = 0) /\
       (forall i d, (i < N)%nat -> (d < dim)%nat -> q i d <= scale) /\
       (exists i d, (i < N)%nat /\ (d < dim)%nat /\ q i d = scale) /\
       exists f, 0 < f /\ forall i j d, q i d - q j d = f * (pos i d - pos j d)).
Proof.
  intros N dim scale pos HN Hs. destruct (lim_spec N dim pos HN) as (L0 & LB & LA). rewrite <- (lim_zero N dim pos HN). unfold rescale_layout.
  destruct (Reqb_spec (layout_lim N dim pos) 0) as [Z|NZ].
  - split; [split; auto|]. intros q H. discriminate.
  - split; [split; [discriminate|contradiction]|]. intros q [= <-]. assert (Lp : 0 < layout_lim N dim pos) by lra. set (lim := layout_lim N dim pos) in *.
    assert (Pf : 0 < scale / lim) by (apply Rdiv_lt_0_compat; assumption).
    assert (One : lim * (scale / lim) = scale) by (field; lra). split; [|split; [|split]].
    + intros d. rewrite rsum_scal_r, centred_sum by exact HN. ring.
    + intros i d Hi Hd. eapply Rle_trans; [|right; exact One]. apply Rmult_le_compat_r; [lra|]. apply LB; assumption.
    + destruct LA as [Z|(i & d & Hi & Hd & E)]; [contradiction|]. exists i, d. split; [exact Hi|]. split; [exact Hd|]. rewrite <- E. exact One.
    + exists (scale / lim). split; [exact Pf|]. intros i j d. unfold centred. ring.
Qed.
Definition rpos (i d : nat) : R := match i with 0%nat => -4 | 1%nat => 2 | _ => 2 end.
Lemma rpos_mean d : col_mean 3 (fun i => rpos i d) = 0.
Proof. unfold col_mean, rpos. cbn. lra. Qed.
Lemma rpos_lim : layout_lim 3 1 rpos = 2.
Proof.
  unfold layout_lim, col_max. cbn [seq fold_left map Nat.sub]. unfold centred. rewrite !rpos_mean. unfold rpos.
  rewrite (Rmax_right (-4 - 0) (2 - 0)), (Rmax_left (2 - 0) (2 - 0)), (Rmax_left (2 - 0) 0) by lra. lra.
Qed.
Example C61_rescale_ex : exists q, rescale_layout 3 1 1 rpos = Some q.
Proof. unfold rescale_layout. rewrite rpos_lim. destruct (Reqb_spec 2 0); [lra|]. eexists; reflexivity. Qed.
(** Finding: the coordinates are not confined to (-scale, scale): here one is -2 scale. *)
Theorem C61_rescale_box_refuted :
  exists q, rescale_layout 3 1 1 rpos = Some q /\ q 0%nat 0%nat = -2.
Proof.
  unfold rescale_layout. rewrite rpos_lim. destruct (Reqb_spec 2 0); [lra|]. eexists. split; [reflexivity|]. cbv beta. unfold centred. rewrite rpos_mean. unfold rpos. lra.
Qed.
(** Finding: the spring layout of a single vertex is undefined. *)
Theorem C61_spring_single_vertex_refuted :
  forall dim adj k iterations scale center u, 0 < scale -> spring 1 dim adj k None [] iterations scale center u = None.
Proof.
  intros dim adj k iters scale center u Hs. unfold spring. destruct (Reqb _ 0); [reflexivity|]. cbn [List.length Nat.eqb].
  set (p := fr_run _ _ _ _ _ _ _). destruct (C61_rescale 1 dim scale p (le_n 1) Hs) as [[_ H] _]. rewrite H; [reflexivity|].
  intros i j d Hi Hj _. replace i with 0%nat by lia. replace j with 0%nat by lia. reflexivity.
Qed.

(** The layout with the default arguments is centred, and its largest coordinate is [scale] away from the centre. *)
Theorem C61_spring_default :
  forall N dim adj iterations scale center u r, (1 <= N)%nat -> 0 < scale -> List.length center = dim ->
    spring N dim adj None None [] iterations scale (Some center) u = Some r ->
    (forall d, (d < dim)%nat -> col_mean N (fun i => r i d) = nth d center 0) /\
    (forall i d, (i < N)%nat -> (d < dim)%nat -> r i d <= nth d center 0 + scale) /\
    (exists i d, (i < N)%nat /\ (d < dim)%nat /\ r i d = nth d center 0 + scale).
Proof.
  intros N dim adj iters scale center u r HN Hs Hc H. unfold spring in H. destruct (Reqb _ 0); [discriminate|]. cbn [List.length Nat.eqb] in H.
  rewrite Hc, Nat.eqb_refl in H. set (p := fr_run _ _ _ _ _ _ _) in H. destruct (rescale_layout N dim scale p) as [q|] eqn:E; [|discriminate]. injection H as <-.
  destruct (proj2 (C61_rescale N dim scale p HN Hs) q E) as (M & B & A & _). split; [|split].
  - intros d Hd. unfold col_mean. rewrite rsum_plus, M, rsum_const. field. apply not_0_INR. lia.
  - intros i d Hi Hd. specialize (B i d Hi Hd). lra.
  - destruct A as (i & d & Hi & Hd & A). exists i, d. split; [exact Hi|]. split; [exact Hd|]. lra.
Qed.
Example C61_spring_ex : exists r, spring 3 1 (fun _ _ => false) None None [] 0 1 (Some [5]) rpos = Some r.
Proof.
  unfold spring. assert (N0 : sqrt (1 / INR 3) <> 0). { apply Rgt_not_eq. apply sqrt_lt_R0. cbn. lra. }
  cbn [List.length Nat.eqb]. destruct (Reqb_spec (sqrt (1 / INR 3)) 0); [contradiction|].
  change (fr_run 3 1 (fun _ _ => false) (sqrt (1 / INR 3)) [] 0 rpos) with rpos. destruct C61_rescale_ex as (q & ->). eexists; reflexivity.
Qed.
Example C61_fixed_ex : exists r, spring 3 1 (fun _ _ => true) (Some 1) (Some rpos) [1%nat] 50 1 None rpos = Some r.
Proof. unfold spring. destruct (Reqb_spec 1 0); [lra|]. cbn [List.length Nat.eqb]. eexists; reflexivity. Qed.

(** ** The forces of the spring layout *)
(** The Euclidean distance of two vertices, the net force on a vertex as the literature has it (every vertex pushes with k^2 / d,
    a neighbour pulls with d^2 / k, along the line between them; d is at least 0.01), and its size. *)
Definition euclid (dim : nat) (p : nat -> nat -> R) (i j : nat) : R := sqrt (\sum_(d < dim) (p i d - p j d) ^ 2).
Definition apart (dim : nat) (p : nat -> nat -> R) (i j : nat) : R := Rmax 0.01 (euclid dim p i j).
Definition radial (adj : bool) (k d : R) : R := k ^ 2 / d - (if adj then d ^ 2 / k else 0).
Definition net_force (N dim : nat) (adj : nat -> nat -> bool) (k : R) (p : nat -> nat -> R) (i d : nat) : R :=
  \sum_(j < N) ((p i d - p j d) / apart dim p i j * radial (adj i j) k (apart dim p i j)).
Definition force_size (N dim : nat) (adj : nat -> nat -> bool) (k : R) (p : nat -> nat -> R) (i : nat) : R :=
  sqrt (\sum_(d < dim) net_force N dim adj k p i d ^ 2).

Lemma fr_dist_apart dim p i j : fr_dist dim p i j = apart dim p i j.
Proof. unfold fr_dist, apart. fold (euclid dim p i j). destruct (Rltb_spec (euclid dim p i j) 0.01) as [L|L]; [rewrite Rmax_left|rewrite Rmax_right]; lra. Qed.
Lemma apart_pos dim p i j : 0 < apart dim p i j.
Proof. unfold apart. pose proof (Rmax_l 0.01 (euclid dim p i j)). lra. Qed.
Lemma fr_disp_force N dim adj k fixed p d i : k <> 0 -> ~ In i fixed -> fr_disp N dim adj k fixed p d i = net_force N dim adj k p i d.
Proof.
  intros Hk Hi. unfold fr_disp. replace (existsb (Nat.eqb i) fixed) with false.
  2:{ symmetry. apply not_true_is_false. rewrite existsb_exists. intros (x & Hx & E). apply Nat.eqb_eq in E. subst x. contradiction. }
  unfold net_force. apply rsum_ext. intros j Hj. rewrite fr_dist_apart. pose proof (apart_pos dim p i j). unfold radial. destruct (adj i j); field; try (split; lra); lra.
Qed.
Lemma fr_len_force N dim adj k fixed p i : k <> 0 -> ~ In i fixed ->
  fr_len N dim adj k fixed p i = if Rltb (force_size N dim adj k p i) 0.01 then 0.1 else force_size N dim adj k p i.
Proof.
  intros Hk Hi. unfold fr_len, force_size.
  replace (\sum_(d < dim) fr_disp N dim adj k fixed p d i ^ 2) with (\sum_(d < dim) net_force N dim adj k p i d ^ 2); [reflexivity|].
  apply rsum_ext. intros d Hd. rewrite fr_disp_force by assumption. reflexivity.
Qed.

(** One iteration: a vertex that is not fixed moves along the net force, by the temperature 0.1 if the force is at least 0.01, by
    the force itself if it is smaller. *)
Theorem C61_one_iteration :
  forall N dim adj k pos fixed scale center u r i d, fixed <> [] -> ~ In i fixed ->
    spring N dim adj (Some k) (Some pos) fixed 1 scale center u = Some r ->
    (0.01 <= force_size N dim adj k pos i -> r i d = pos i d + 0.1 * (net_force N dim adj k pos i d / force_size N dim adj k pos i)) /\
    (force_size N dim adj k pos i < 0.01 -> r i d = pos i d + net_force N dim adj k pos i d).
Proof.
  intros N dim adj k pos fixed scale center u r i d Hf Hi H. unfold spring in H. destruct (Reqb_spec k 0) as [|Hk]; [discriminate|].
  destruct fixed as [|f fs]; [congruence|]. cbn [List.length Nat.eqb] in H. injection H as <-. unfold fr_run. cbn [fr_loop]. unfold fr_step.
  rewrite fr_disp_force, fr_len_force by assumption. destruct (Rltb_spec (force_size N dim adj k pos i) 0.01) as [L|L]; split; intros Q; try lra; field; lra.
Qed.

(** At rest: when no vertex that can move feels a force, nothing moves, however many iterations are made. *)
Theorem C61_equilibrium :
  forall N dim adj k pos fixed iterations scale center u, fixed <> [] -> k <> 0 ->
    (forall i d, (i < N)%nat -> (d < dim)%nat -> ~ In i fixed -> net_force N dim adj k pos i d = 0) ->
    exists r, spring N dim adj (Some k) (Some pos) fixed iterations scale center u = Some r /\
      forall i d, (i < N)%nat -> (d < dim)%nat -> r i d = pos i d.
Proof.
  intros N dim adj k pos fixed iters scale center u Hf Hk H0. unfold spring. destruct (Reqb_spec k 0) as [|_]; [contradiction|].
  destruct fixed as [|f fs]; [congruence|]. cbn [List.length Nat.eqb]. eexists. split; [reflexivity|]. unfold fr_run. set (fx := f :: fs) in *.
  assert (Q : forall t p, (forall a b, (a < N)%nat -> (b < dim)%nat -> p a b = pos a b) -> forall i d, (i < N)%nat -> (d < dim)%nat -> fr_step N dim adj k fx t p i d = pos i d).
  { intros t p Hp i d Hi Hd. destruct (in_dec Nat.eq_dec i fx) as [I|I]; [rewrite step_fixed by exact I; apply Hp; assumption|]. unfold fr_step. rewrite fr_disp_force by assumption.
    assert (A : forall j, (j < N)%nat -> apart dim p i j = apart dim pos i j).
    { intros j Hj. unfold apart, euclid. do 2 f_equal. apply rsum_ext. intros b Hb. rewrite !Hp by assumption. reflexivity. }
    assert (Z : net_force N dim adj k p i d = 0).
    { rewrite <- (H0 i d Hi Hd I). unfold net_force. apply rsum_ext. intros j Hj. rewrite A, !Hp by assumption. reflexivity. }
    rewrite Z, Hp by assumption. unfold Rdiv. ring. }
  assert (G : forall m t dt p, (forall a b, (a < N)%nat -> (b < dim)%nat -> p a b = pos a b) -> forall i d, (i < N)%nat -> (d < dim)%nat -> fr_loop N dim adj k fx m t dt p i d = pos i d).
  { induction m as [|m IH]; intros t dt p Hp i d Hi Hd; [apply Hp; assumption|]. cbn [fr_loop]. apply IH; try assumption. intros a b Ha Hb. apply Q; assumption. }
  intros i d Hi Hd. apply G; auto.
Qed.

(** Two vertices, one of them fixed: the other one moves on the line through both; away from the fixed one if they are not joined or
    nearer than k, towards it if they are joined and farther away than k, and not at all if they are joined at distance k. *)
Theorem C61_two_vertices :
  forall dim adj k pos scale center u r, 0 < k -> 0.01 <= euclid dim pos 1 0 ->
    spring 2 dim adj (Some k) (Some pos) [0%nat] 1 scale center u = Some r ->
    exists c, (forall d, r 1%nat d = pos 1%nat d + c * (pos 1%nat d - pos 0%nat d)) /\
      (0 < c <-> adj 1%nat 0%nat = false \/ euclid dim pos 1 0 < k) /\
      (c = 0 <-> adj 1%nat 0%nat = true /\ euclid dim pos 1 0 = k) /\
      (c < 0 <-> adj 1%nat 0%nat = true /\ k < euclid dim pos 1 0).
Proof.
  intros dim adj k pos scale center u r Hk He H. set (e := euclid dim pos 1 0) in *.
  assert (Ea : apart dim pos 1 0 = e) by (unfold apart; apply Rmax_right; exact He).
  assert (F : forall d, net_force 2 dim adj k pos 1 d = (radial (adj 1%nat 0%nat) k e / e) * (pos 1%nat d - pos 0%nat d)).
  { intros d. unfold net_force. cbn [rsum]. rewrite Ea. pose proof (apart_pos dim pos 1 1). field. split; lra. }
  set (f := radial (adj 1%nat 0%nat) k e / e) in *. set (s := force_size 2 dim adj k pos 1).
  assert (Hn : ~ In 1%nat [0%nat]) by (intros [|[]]; discriminate).
  assert (Sg : forall m, 0 < m -> (0 < m * f <-> adj 1%nat 0%nat = false \/ e < k) /\ (m * f = 0 <-> adj 1%nat 0%nat = true /\ e = k) /\ (m * f < 0 <-> adj 1%nat 0%nat = true /\ k < e)).
  { intros m Hm.
    assert (E : m * f = (m / (e * e * k)) * (if adj 1%nat 0%nat then (k - e) * (k * k + k * e + e * e) else k * (k * k))).
    { unfold f, radial. destruct (adj 1%nat 0%nat); field; split; lra. }
    assert (P : 0 < m / (e * e * k)). { apply Rdiv_lt_0_compat; [exact Hm|]. apply Rmult_lt_0_compat; [apply Rmult_lt_0_compat; lra|exact Hk]. }
    assert (P3 : 0 < k * k) by (apply Rmult_lt_0_compat; lra). assert (P4 : 0 < k * (k * k)) by (apply Rmult_lt_0_compat; lra).
    assert (P5 : 0 < e * e) by (apply Rmult_lt_0_compat; lra). assert (P6 : 0 < k * e) by (apply Rmult_lt_0_compat; lra).
    rewrite E. set (c := m / (e * e * k)) in *. destruct (adj 1%nat 0%nat).
    - set (q := k * k + k * e + e * e). assert (Pq : 0 < c * q) by (apply Rmult_lt_0_compat; unfold q; lra).
      replace (c * ((k - e) * q)) with ((k - e) * (c * q)) by ring.
      assert (A1 : e < k -> 0 < (k - e) * (c * q)) by (intros; apply Rmult_lt_0_compat; lra).
      assert (A2 : k < e -> (k - e) * (c * q) < 0). { intros. assert (0 < (e - k) * (c * q)) by (apply Rmult_lt_0_compat; lra). lra. }
      assert (A3 : e = k -> (k - e) * (c * q) = 0) by (intros ->; ring).
      split; [|split]; split.
      + intros L. right. destruct (Rtotal_order e k) as [|[A|A]]; [assumption|rewrite (A3 A) in L; lra|specialize (A2 A); lra].
      + intros [X|X]; [discriminate|apply A1; exact X].
      + intros L. split; [reflexivity|]. destruct (Rtotal_order e k) as [A|[A|A]]; [specialize (A1 A); lra|exact A|specialize (A2 A); lra].
      + intros (_ & X). apply A3; exact X.
      + intros L. split; [reflexivity|]. destruct (Rtotal_order e k) as [A|[A|A]]; [specialize (A1 A); lra|rewrite (A3 A) in L; lra|exact A].
      + intros (_ & X). apply A2; exact X.
    - assert (0 < c * (k * (k * k))) by (apply Rmult_lt_0_compat; assumption). split; [|split]; split; try (intros (X & _); discriminate); try (intros; lra). }
  destruct (Rlt_le_dec s 0.01) as [L|L].
  - exists (1 * f). split; [|apply Sg; lra]. intros d. destruct (C61_one_iteration 2 dim adj k pos [0%nat] scale center u r 1 d ltac:(discriminate) Hn H) as (_ & Q). rewrite (Q L), F. ring.
  - exists (0.1 / s * f). split; [|apply Sg; apply Rdiv_lt_0_compat; lra]. intros d. destruct (C61_one_iteration 2 dim adj k pos [0%nat] scale center u r 1 d ltac:(discriminate) Hn H) as (Q & _). rewrite (Q L), F. fold s. field. lra.
Qed.

(** The default k: sqrt(1/N) without fixed vertices; with fixed vertices the largest coordinate, divided by sqrt N. *)
Lemma arr_max_spec N dim x : (1 <= N)%nat -> (1 <= dim)%nat ->
  (forall i d, (i < N)%nat -> (d < dim)%nat -> x i d <= arr_max N dim x) /\ exists i d, (i < N)%nat /\ (d < dim)%nat /\ arr_max N dim x = x i d.
Proof.
  intros HN Hd. unfold arr_max. change (fold_left Rmax (map (fun d => col_max N (fun i => x i d)) (seq 1 (dim - 1))) (col_max N (fun i => x i 0%nat))) with (col_max dim (fun d => col_max N (fun i => x i d))).
  destruct (col_max_spec dim (fun d => col_max N (fun i => x i d)) Hd) as (A & d0 & Hd0 & B). split.
  - intros i d Hi Hd'. apply Rle_trans with (col_max N (fun i => x i d)); [apply (col_max_spec N (fun i => x i d) HN); exact Hi|apply A; exact Hd'].
  - destruct (col_max_spec N (fun i => x i d0) HN) as (_ & i & Hi & C). exists i, d0. rewrite B, C. auto.
Qed.
Theorem C61_default_length :
  forall N dim adj fixed iterations scale center u, (1 <= N)%nat -> (1 <= dim)%nat ->
    (forall pos, spring N dim adj None pos [] iterations scale center u = spring N dim adj (Some (sqrt (1 / INR N))) pos [] iterations scale center u) /\
    (forall pos m, fixed <> [] -> (forall i d, (i < N)%nat -> (d < dim)%nat -> pos i d <= m) -> (exists i d, (i < N)%nat /\ (d < dim)%nat /\ pos i d = m) ->
       spring N dim adj None (Some pos) fixed iterations scale center u = spring N dim adj (Some (m / sqrt (INR N))) (Some pos) fixed iterations scale center u).
Proof.
  intros N dim adj fixed iters scale center u HN Hd. split; [reflexivity|]. intros pos m Hf Hm (i & d & Hi & Hd' & Em). unfold spring.
  destruct fixed as [|f fs]; [congruence|]. cbn [List.length Nat.eqb]. destruct (arr_max_spec N dim pos HN Hd) as (A & i' & d' & Hi' & Hd'' & B).
  replace m with (arr_max N dim pos); [reflexivity|]. apply Rle_antisym; [rewrite B; apply Hm; assumption|rewrite <- Em; apply A; assumption].
Qed.
(** Two vertices joined at distance k = 1 are at rest; three forces that cancel. *)
Example C61_equilibrium_ex : exists r, spring 2 1 (fun i j => negb (Nat.eqb i j)) (Some 1) (Some (fun i _ => INR i)) [0%nat] 50 1 None (fun _ _ => 0) = Some r /\ forall i d, (i < 2)%nat -> (d < 1)%nat -> r i d = INR i.
Proof.
  apply (C61_equilibrium 2 1 (fun i j => negb (Nat.eqb i j)) 1 (fun i _ => INR i) [0%nat] 50 1 None (fun _ _ => 0)); [discriminate|lra|]. intros i d Hi2 Hd Hi.
  assert (Hi0 : i <> 0%nat) by (intros ->; apply Hi; left; reflexivity).
  unfold net_force. cbn [rsum]. destruct i as [|[|i]]; [contradiction|..].
  - cbn [INR negb Nat.eqb]. assert (E : apart 1 (fun i _ => INR i) 1 0 = 1).
    { unfold apart, euclid. cbn [rsum INR]. replace (0 + (1 - 0) ^ 2) with (1 * 1) by ring. rewrite sqrt_square by lra. apply Rmax_right. lra. }
    rewrite E. unfold radial. unfold Rdiv. rewrite !Rinv_1. ring.
  - lia.
Qed.
Example C61_two_ex : 0.01 <= euclid 1 (fun i _ => INR i) 1 0 /\ exists r, spring 2 1 (fun _ _ => true) (Some 2) (Some (fun i _ => INR i)) [0%nat] 1 1 None (fun _ _ => 0) = Some r.
Proof.
  split. { unfold euclid. cbn [rsum INR]. replace (0 + (1 - 0) ^ 2) with (1 * 1) by ring. rewrite sqrt_square by lra. lra. }
  unfold spring. destruct (Reqb_spec 2 0); [lra|]. cbn [List.length Nat.eqb]. eexists; reflexivity.
Qed.

Print Assumptions C61_layouts.
Print Assumptions C61_translation.
Print Assumptions C61_rescale.
