(** The spectral upper bound (Model.Bounds). *)
From Coq Require Import Reals Lra Lia List Arith Bool Permutation String.
From Verif.Base Require Import RSum Prelude LinAlg.
From Verif.Spec Require Import Matrix GraphSpec.
From Verif.Model Require Import Sparse Graph Difference Bounds.
From Verif.Proofs Require Import SparseFacts InitFacts EdgeFacts LapFacts.
Import ListNotations.
Open Scope R_scope.

Lemma fold_xmax2_fin l a :
  exists m, fold_left xmax2 (map Fin l) (Fin a) = Fin m /\ In m (a :: l) /\ forall x, In x (a :: l) -> x <= m.
Proof.
  revert a. induction l as [|b l IH]; intros a.
  - exists a. split; [reflexivity|]. split; [left; reflexivity|]. intros x [->|[]]. lra.
  - cbn [map fold_left]. unfold xmax2 at 2. cbn [xlt].
    destruct (Rltb_spec a b) as [H|H].
    + destruct (IH b) as (m & E & Hin & Hm). exists m. split; [exact E|]. split; [right; exact Hin|].
      intros x [<-|Hx]; [|apply Hm; exact Hx]. pose proof (Hm b (or_introl eq_refl)). lra.
    + destruct (IH a) as (m & E & Hin & Hm). exists m. split; [exact E|]. split.
      * destruct Hin as [->|Hin]; [left; reflexivity|right; right; exact Hin].
      * intros x [<-|[<-|Hx]].
        -- apply Hm; left; reflexivity.
        -- pose proof (Hm a (or_introl eq_refl)). lra.
        -- apply Hm; right; exact Hx.
Qed.

Lemma np_max_fin l : l <> [] ->
  exists m, np_max (map Fin l) = Ok (Fin m) /\ In m l /\ forall x, In x l -> x <= m.
Proof.
  destruct l as [|a l]; intros H; [congruence|]. cbn [map np_max].
  destruct (fold_xmax2_fin l a) as (m & E & Hin & Hm). exists m. rewrite E. auto.
Qed.

Lemma fold_xmax2_nan l : fold_left xmax2 l NaN = NaN.
Proof. induction l as [|a l IH]; [reflexivity|]. cbn. exact IH. Qed.

Lemma np_max_nan l : In NaN l -> np_max l = Ok NaN.
Proof.
  destruct l as [|a l]; intros H; [destruct H|]. cbn [np_max]. f_equal.
  revert a H. induction l as [|b l IH]; intros a H.
  - destruct H as [->|[]]. reflexivity.
  - cbn [fold_left]. destruct H as [->|[->|H]].
    + apply fold_xmax2_nan.
    + replace (xmax2 a NaN) with NaN by (destruct a; reflexivity). apply fold_xmax2_nan.
    + apply IH. right; exact H.
Qed.

(** Every candidate is NaN or a finite upper bound of lam; the first is not NaN. *)
Lemma py_min_bound lam l a :
  (forall x, In x l -> x = NaN \/ exists r, x = Fin r /\ lam <= r) -> lam <= a ->
  exists r, fold_left (fun m x => if xlt x m then x else m) l (Fin a) = Fin r /\ lam <= r.
Proof.
  revert a. induction l as [|b l IH]; intros a H Ha; [exists a; auto|]. cbn [fold_left].
  destruct (H b (or_introl eq_refl)) as [->|(r & -> & Hr)].
  - cbn [xlt]. apply IH; [intros; apply H; right; assumption|exact Ha].
  - cbn [xlt]. destruct (Rltb r a); apply IH; auto; intros; apply H; right; assumption.
Qed.

Lemma map_Fin_map {X} (f : X -> R) l : map (fun x => Fin (f x)) l = map Fin (map f l).
Proof. rewrite map_map. reflexivity. Qed.

Lemma max_weight_ok W : good W -> (0 < nrow W)%nat ->
  exists m, max_weight W = Ok (Fin m) /\
    (forall i j, (i < nrow W)%nat -> (j < nrow W)%nat -> get W i j <= m) /\
    (exists i j, (i < nrow W)%nat /\ (j < nrow W)%nat /\ m = get W i j).
Proof.
  intros G Hn. unfold max_weight.
  set (l := flat_map (fun i => map (get W i) (seq 0 (ncol W))) (seq 0 (nrow W))).
  assert (E : flat_map (fun i => map (fun j => Fin (get W i j)) (seq 0 (ncol W))) (seq 0 (nrow W)) = map Fin l).
  { unfold l. rewrite map_flat_map. apply flat_map_ext. intros i. rewrite map_map. reflexivity. }
  rewrite E.
  assert (Hin : forall x, In x l <-> exists i j, (i < nrow W)%nat /\ (j < nrow W)%nat /\ x = get W i j).
  { intros x. unfold l. rewrite in_flat_map. split.
    - intros (i & Hi & Hx). apply in_map_iff in Hx. destruct Hx as (j & <- & Hj).
      apply in_seq in Hi. apply in_seq in Hj. rewrite (good_sq W G) in Hj. exists i, j. repeat split; lia.
    - intros (i & j & Hi & Hj & ->). exists i. split; [apply in_seq; lia|]. apply in_map.
      apply in_seq. rewrite (good_sq W G). lia. }
  destruct (np_max_fin l) as (m & Em & Hm & Hmax).
  { intros El. assert (H : In (get W 0 0) l) by (apply Hin; exists 0%nat, 0%nat; auto). rewrite El in H. destruct H. }
  exists m. split; [exact Em|]. split.
  - intros i j Hi Hj. apply Hmax, Hin. eauto.
  - apply Hin; exact Hm.
Qed.

Lemma merris_nan W i : good W -> nonnegW W -> (i < nrow W)%nat -> dw W i = 0 -> merris_term W i = NaN.
Proof.
  intros G Hp Hi E. unfold merris_term, xdiv. rewrite (proj2 (Reqb_true _ _) E).
  rewrite (rsum_0 (nrow W)).
  - rewrite Reqb_refl. reflexivity.
  - intros j Hj. rewrite (dw_zero_wlap W G Hp i Hi E j Hj). ring.
Qed.

Lemma merris_fin W i : dw W i <> 0 ->
  merris_term W i = Fin (dw W i + (\sum_(j < nrow W) (wlap W i j * dw W j)) / dw W i).
Proof. intros E. unfold merris_term, xdiv. rewrite (proj2 (Reqb_false _ _) E). reflexivity. Qed.

(** The value returned for the combinatorial Laplacian is finite and bounds every eigenvalue. *)
Lemma upper_bound_comb W : good W -> nonnegW W -> (0 < nrow W)%nat ->
  exists r, upper_bound W Combinatorial = Ok (Fin r) /\
    forall lam x, eigenpair (nrow W) (lap_comb W) lam x -> lam <= r.
Proof.
  intros G Hp Hn. set (n := nrow W) in *.
  destruct (max_weight_ok W G Hn) as (mw & Emw & Hmw & _).
  destruct (np_max_fin (map (dw W) (seq 0 n))) as (md & Emd & _ & Hmd).
  { destruct n; [lia|]. discriminate. }
  rewrite <- map_Fin_map in Emd.
  assert (Hmd' : forall i, (i < n)%nat -> dw W i <= md) by (intros i Hi; apply Hmd, in_map, in_seq; lia).
  (* third bound *)
  assert (H3 : exists b3, (if Nat.ltb 0 (count_edges W) then
               bindr (get_edge_list W) (fun l =>
               bindr (np_max (map (fun e => Fin (dw W (fst (fst e)) + dw W (snd (fst e)))) l)) (fun b =>
                 Ok [b])) else Ok []) = Ok b3 /\
    ((b3 = []) \/ exists m, b3 = [Fin m] /\ 0 <= m /\
       forall u v, (u < n)%nat -> (v < n)%nat -> 0 < wlap W u v -> dw W u + dw W v <= m)).
  { destruct (edge_list_ok W G) as (l & Hl & _ & Hlen).
    destruct (Nat.ltb_spec 0 (count_edges W)) as [He|He].
    - rewrite Hl. cbn [bindr].
      destruct (np_max_fin (map (fun e : nat * nat * R => dw W (fst (fst e)) + dw W (snd (fst e))) l)) as (m & Em & Hm & Hmax).
      { destruct l; [cbn in Hlen; lia|discriminate]. }
      rewrite map_map in Em. rewrite Em. exists [Fin m]. split; [reflexivity|]. right. exists m.
      split; [reflexivity|]. split.
      + apply in_map_iff in Hm. destruct Hm as ([[a b] w] & <- & Hin).
        apply (edge_list_in W l a b w G Hl) in Hin. destruct Hin as (Ha & Hb & _).
        cbn. pose proof (dw_nonneg W G Hp a Ha). pose proof (dw_nonneg W G Hp b Hb). lra.
      + intros u v Hu Hv Hw. rewrite wlap_avg in Hw by assumption.
        pose proof (Hp u v Hu Hv) as Hp1. pose proof (Hp v u Hv Hu) as Hp2.
        assert (Hcase : exists a b w, In (a, b, w) l /\ (dw W a + dw W b = dw W u + dw W v)).
        { destruct (is_directed W) eqn:Ed.
          - destruct (Req_dec (get W u v) 0) as [E0|E0].
            + exists v, u, (get W v u). split; [|ring]. apply (edge_list_in W l _ _ _ G Hl).
              repeat split; auto. rewrite E0 in Hw. lra. congruence.
            + exists u, v, (get W u v). split; [|ring]. apply (edge_list_in W l _ _ _ G Hl).
              repeat split; auto. congruence.
          - assert (Es : get W u v = get W v u) by (apply (proj1 (is_directed_false W) Ed); assumption).
            destruct (Nat.le_ge_cases u v) as [Huv|Huv].
            + exists u, v, (get W u v). split; [|ring]. apply (edge_list_in W l _ _ _ G Hl).
              repeat split; auto. lra.
            + exists v, u, (get W v u). split; [|ring]. apply (edge_list_in W l _ _ _ G Hl).
              repeat split; auto. lra. }
        destruct Hcase as (a & b & w & Hin & <-). apply Hmax. apply in_map_iff. exists (a, b, w). auto.
    - exists []. split; [reflexivity|]. left; reflexivity. }
  destruct H3 as (b3 & E3 & Hb3).
  (* fourth bound *)
  assert (H4 : exists b4, np_max (map (merris_term W) (seq 0 n)) = Ok b4 /\
    (b4 = NaN \/ exists m, b4 = Fin m /\ (forall i, (i < n)%nat -> 0 < dw W i) /\
       forall i, (i < n)%nat -> dw W i + (\sum_(j < n) (wlap W i j * dw W j)) / dw W i <= m)).
  { assert (Hcase : (exists i, (i < n)%nat /\ dw W i = 0) \/ forall i, (i < n)%nat -> dw W i <> 0).
    { clear. induction n as [|k [(i & Hi & E)|IH]].
      - right; intros; lia.
      - left; exists i; split; [lia|exact E].
      - destruct (Req_dec (dw W k) 0) as [E|E]; [left; exists k; split; [lia|exact E]|].
        right. intros i Hi. destruct (Nat.eq_dec i k) as [->|]; [exact E|apply IH; lia]. }
    destruct Hcase as [(i & Hi & E)|Hnz].
    - exists NaN. split; [|left; reflexivity]. apply np_max_nan. apply in_map_iff. exists i.
      split; [apply merris_nan; assumption|apply in_seq; lia].
    - rewrite (map_ext_in _ (fun i => Fin (dw W i + (\sum_(j < n) (wlap W i j * dw W j)) / dw W i))).
      2:{ intros i Hi. apply in_seq in Hi. apply merris_fin, Hnz. lia. }
      rewrite map_Fin_map.
      destruct (np_max_fin (map (fun i => dw W i + (\sum_(j < n) (wlap W i j * dw W j)) / dw W i) (seq 0 n)))
        as (m & Em & _ & Hmax).
      { destruct n; [lia|discriminate]. }
      exists (Fin m). split; [exact Em|]. right. exists m. split; [reflexivity|]. split.
      + intros i Hi. pose proof (dw_nonneg W G Hp i Hi). pose proof (Hnz i Hi). lra.
      + intros i Hi. apply Hmax. apply in_map_iff. exists i. split; [reflexivity|apply in_seq; lia]. }
  destruct H4 as (b4 & E4 & Hb4).
  (* every candidate bounds every eigenvalue *)
  assert (Habs : forall lam x, eigenpair n (lap_comb W) lam x ->
     eigenpair n (fun i j => (if Nat.eqb i j then \sum_(k < n) wlap W i k else 0) - wlap W i j) lam x).
  { intros lam x (Hx & He). split; [exact Hx|]. intros i Hi. rewrite <- (He i Hi).
    apply mulv_ext; [|intros ? ?; reflexivity]. intros j Hj. symmetry. apply lap_comb_abs; assumption. }
  assert (Hws : forall i j, (i < n)%nat -> (j < n)%nat -> wlap W i j = wlap W j i) by (intros; apply wlap_sym; assumption).
  assert (Hwn : forall i j, (i < n)%nat -> (j < n)%nat -> 0 <= wlap W i j) by (intros; apply wlap_nonneg; assumption).
  assert (Hdw : forall i, (i < n)%nat -> \sum_(j < n) wlap W i j = dw W i)
    by (intros; symmetry; apply (dw_wlap W _ G); assumption).
  assert (Hmw0 : 0 <= mw).
  { pose proof (Hmw 0%nat 0%nat Hn Hn). pose proof (Hp 0%nat 0%nat Hn Hn). lra. }
  assert (Hall : forall lam x, eigenpair n (lap_comb W) lam x ->
     lam <= INR n * mw /\
     (forall c, In c ([Fin (2 * md)] ++ b3 ++ [b4]) -> c = NaN \/ exists r, c = Fin r /\ lam <= r)).
  { intros lam x He. apply Habs in He. split.
    - apply (abs_bound_max n (wlap W) Hws lam x mw He); [|exact Hmw0].
      intros i j Hi Hj. rewrite wlap_avg by assumption. pose proof (Hmw i j Hi Hj). pose proof (Hmw j i Hj Hi). lra.
    - intros c Hc. apply in_app_iff in Hc. destruct Hc as [[<-|[]]|Hc].
      + right. exists (2 * md). split; [reflexivity|].
        apply (abs_bound_deg n (wlap W) Hws Hwn lam x md He).
        intros i Hi. change (\sum_(j < n) wlap W i j <= md). rewrite (Hdw i Hi). apply Hmd'; exact Hi.
      + apply in_app_iff in Hc. destruct Hc as [Hc|[<-|[]]].
        * destruct Hb3 as [->|(m & -> & Hm0 & Hm)]; [destruct Hc|]. destruct Hc as [<-|[]].
          right. exists m. split; [reflexivity|].
          apply (abs_bound_edges n (wlap W) Hws Hwn lam x m He); [|exact Hm0].
          intros u v Hu Hv Huv. specialize (Hm u v Hu Hv Huv).
          change (\sum_(j < n) wlap W u j + \sum_(j < n) wlap W v j <= m).
          rewrite (Hdw u Hu), (Hdw v Hv). exact Hm.
        * destruct Hb4 as [->|(m & -> & Hpos & Hm)]; [left; reflexivity|]. right. exists m. split; [reflexivity|].
          apply (abs_bound_merris n (wlap W) Hwn lam x m He).
          -- intros i Hi. change (0 < (\sum_(j < n) wlap W i j)). rewrite (Hdw i Hi). apply Hpos; exact Hi.
          -- intros i Hi. change ((\sum_(j < n) wlap W i j) +
               (\sum_(j < n) (wlap W i j * (\sum_(k < n) wlap W j k))) / (\sum_(j < n) wlap W i j) <= m).
             rewrite (Hdw i Hi). specialize (Hm i Hi).
             rewrite (rsum_ext n (fun j => wlap W i j * (\sum_(k < n) wlap W j k)) (fun j => wlap W i j * dw W j)); [exact Hm|].
             intros j Hj. rewrite (Hdw j Hj). reflexivity. }
  assert (Hshape : upper_bound W Combinatorial =
     Ok (fold_left (fun m x => if xlt x m then x else m) ([Fin (2 * md)] ++ b3 ++ [b4]) (Fin (INR n * mw)))).
  { unfold upper_bound. rewrite Emw. cbn [bindr]. fold n. rewrite Emd. cbn [bindr]. rewrite E3. cbn [bindr].
    rewrite E4. reflexivity. }
  (* finiteness: 0 is an eigenvalue (constant vector), so some lam exists; but argue directly *)
  assert (Hfin : exists r, fold_left (fun m x => if xlt x m then x else m) ([Fin (2 * md)] ++ b3 ++ [b4]) (Fin (INR n * mw)) = Fin r).
  { assert (He0 : eigenpair n (lap_comb W) 0 (fun _ => 1)).
    { split.
      - intros Hz. specialize (Hz 0%nat Hn). cbn in Hz. lra.
      - intros i Hi. unfold mulv. rewrite (rsum_ext n _ (fun j => lap_comb W i j)) by (intros; ring).
        change (\sum_(j < n) lap_comb W i j = 0 * 1). unfold n. rewrite (lap_comb_row_sum W G i Hi). ring. }
    destruct (Hall _ _ He0) as (H0 & H1). destruct (py_min_bound 0 _ _ H1 H0) as (r & Er & _). eauto. }
  destruct Hfin as (r & Er). exists r. split; [rewrite Hshape, Er; reflexivity|].
  intros lam x He. destruct (Hall lam x He) as (H0 & H1).
  destruct (py_min_bound lam _ _ H1 H0) as (r' & Er' & Hr'). rewrite Er in Er'. injection Er' as ->. exact Hr'.
Qed.
