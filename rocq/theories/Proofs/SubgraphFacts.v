(** Subgraph extraction. *)
From Coq Require Import Reals Lra Lia Arith Bool String ZArith Permutation Sorted List.
From Verif.Base Require Import RSum Prelude.
From Verif.Spec Require Import Matrix GraphSpec.
From Verif.Model Require Import Sparse Graph Traverse.
From Verif.Proofs Require Import SparseFacts InitFacts TraverseFacts.
Import ListNotations.
Open Scope R_scope.

Lemma xsum_map_Fin l : xsum (map Fin l) = Fin (lsum l).
Proof. induction l as [|x l IH]; [reflexivity|]. cbn [map xsum fold_right] in *. change (fold_right xadd (Fin 0) (map Fin l)) with (xsum (map Fin l)). rewrite IH. reflexivity. Qed.

(** A CSR matrix of finite values is accepted. *)
Lemma init_csr A lap coords : wf_csr A -> canonical A -> nrow A = ncol A -> valid_lap lap ->
  exists G, graph_init (InCSR (cmap Fin A)) lap coords = Ok G /\ built G /\ g_n_vertices G = nrow A /\
    g_lap_type G = lap /\ g_coords G = coords /\ g_signals G = [] /\
    forall i j, (i < nrow A)%nat -> (j < nrow A)%nat -> wt G i j = get A i j.
Proof.
  intros Hwf Hcan Hsq Hlap. set (inp := InCSR (cmap Fin A)).
  assert (Hwf' : wf_input inp).
  { destruct Hwf as (Hl & Hc). split; [cbn; rewrite map_length; exact Hl|].
    intros i Hi cv Hin. rewrite row_cmap in Hin. apply in_map_iff in Hin. destruct Hin as (x & <- & Hx).
    cbn. exact (Hc i Hi x Hx). }
  assert (Hent : forall i j, input_entry inp i j = Fin (get A i j)).
  { intros i j. unfold get, inp. cbn [input_entry]. change (nth i (rows (cmap Fin A)) []) with (row (cmap Fin A) i).
    rewrite row_cmap, <- xsum_map_Fin. f_equal.
    induction (row A i) as [|[c v] l IH]; [reflexivity|]. cbn. destruct (Nat.eqb c j); cbn; [f_equal|]; exact IH. }
  destruct (proj2 (init_accepts inp lap coords Hwf')) as (G & HG).
  { split; [exact Hlap|]. exists (nrow A). split; [cbn; congruence|]. intros i j Hi Hj. exists (get A i j). apply Hent. }
  exists G. split; [exact HG|]. split; [eapply built_init; eauto|].
  destruct (init_preserves inp lap coords G Hwf' HG) as (Hs & Hw & _).
  destruct (init_inv inp lap coords G Hwf' HG) as (n & L & _ & _ & _ & E).
  assert (En : g_n_vertices G = nrow A) by (cbn in Hs; congruence).
  split; [exact En|]. split; [subst G; reflexivity|]. split; [subst G; reflexivity|]. split; [subst G; reflexivity|].
  intros i j Hi Hj. specialize (Hw i j ltac:(lia) ltac:(lia)). rewrite Hent in Hw. congruence.
Qed.

(** A COO matrix of finite values: weights are the sums of the values given for a position. *)
Lemma init_coo n (e : list (nat * nat * R)) lap coords :
  (forall t, In t e -> (fst (fst t) < n)%nat /\ (snd (fst t) < n)%nat) -> valid_lap lap ->
  exists G, graph_init (InCOO n n (map (fun t => (fst t, Fin (snd t))) e)) lap coords = Ok G /\ built G /\
    g_n_vertices G = n /\ g_lap_type G = lap /\ g_coords G = coords /\ g_signals G = [] /\
    forall i j, (i < n)%nat -> (j < n)%nat -> wt G i j = lsum (coo_here i j e).
Proof.
  intros Hin Hlap. set (inp := InCOO n n (map (fun t => (fst t, Fin (snd t))) e)).
  assert (Hwf : wf_input inp).
  { intros t Ht. apply in_map_iff in Ht. destruct Ht as (t' & <- & Ht). cbn. apply Hin, Ht. }
  assert (Hent : forall i j, input_entry inp i j = Fin (lsum (coo_here i j e))).
  { intros i j. cbn [input_entry inp]. rewrite <- xsum_map_Fin. f_equal. unfold coo_here.
    clear. induction e as [|[[a b] v] l IH]; [reflexivity|]. cbn.
    destruct (Nat.eqb a i && Nat.eqb b j)%bool; cbn; [f_equal|]; exact IH. }
  destruct (proj2 (init_accepts inp lap coords Hwf)) as (G & HG).
  { split; [exact Hlap|]. exists n. split; [reflexivity|]. intros i j Hi Hj. eexists. apply Hent. }
  exists G. split; [exact HG|]. split; [eapply built_init; [exact Hwf|exact HG]|].
  destruct (init_preserves inp lap coords G Hwf HG) as (Hs & Hw & _).
  destruct (init_inv inp lap coords G Hwf HG) as (n' & L & _ & _ & _ & E).
  assert (En : g_n_vertices G = n) by (cbn in Hs; congruence).
  split; [exact En|]. split; [subst G; reflexivity|]. split; [subst G; reflexivity|]. split; [subst G; reflexivity|].
  intros i j Hi Hj. specialize (Hw i j ltac:(lia) ltac:(lia)). rewrite Hent in Hw. congruence.
Qed.

Lemma row_select W v a : (a < List.length v)%nat -> row (csr_select W v) a =
  flat_map (fun cv => map (fun b => (b, snd cv))
     (filter (fun b => Nat.eqb (nth b v 0%nat) (fst cv)) (seq 0 (List.length v)))) (row W (nth a v 0%nat)).
Proof.
  intros Ha. unfold row at 1, csr_select. cbn [rows].
  set (f := fun a0 : nat => flat_map _ (row W a0)).
  rewrite (nth_indep _ [] (f 0%nat)) by (rewrite map_length; exact Ha). rewrite map_nth. reflexivity.
Qed.

Lemma filter_eqb_seq n b : (b < n)%nat -> filter (fun c => Nat.eqb c b) (seq 0 n) = [b].
Proof.
  intros H. replace n with (b + S (n - b - 1))%nat by lia. rewrite seq_app. cbn [Nat.add]. rewrite filter_app. cbn [seq filter].
  rewrite Nat.eqb_refl.
  assert (E : forall s l, (forall x, In x (seq s l) -> x <> b) -> filter (fun c => Nat.eqb c b) (seq s l) = []).
  { intros s l. revert s. induction l as [|l IH]; intros s Hs; [reflexivity|]. cbn.
    destruct (Nat.eqb_spec s b) as [->|]; [exfalso; apply (Hs b); [left; reflexivity|reflexivity]|].
    apply IH. intros x Hx. apply Hs. right; exact Hx. }
  rewrite !E; [reflexivity| |]; intros x Hx; apply in_seq in Hx; lia.
Qed.

Lemma get_select W v a b : (a < List.length v)%nat -> (b < List.length v)%nat ->
  get (csr_select W v) a b = get W (nth a v 0%nat) (nth b v 0%nat).
Proof.
  intros Ha Hb. unfold get. rewrite row_select by exact Ha.
  induction (row W (nth a v 0%nat)) as [|[c x] l IH]; [reflexivity|].
  cbn [flat_map fst snd]. rewrite filter_app, map_app, lsum_app, IH. cbn [filter fst].
  assert (E : forall m, filter (fun cv : nat * R => Nat.eqb (fst cv) b) (map (fun b0 => (b0, x)) m) =
                    map (fun b0 => (b0, x)) (filter (fun b0 => Nat.eqb b0 b) m)).
  { induction m as [|y m IHm]; [reflexivity|]. cbn. destruct (Nat.eqb y b); cbn; rewrite IHm; reflexivity. }
  assert (F : forall m, filter (fun b0 => Nat.eqb b0 b) (filter (fun b0 => Nat.eqb (nth b0 v 0%nat) c) m) =
     if Nat.eqb (nth b v 0%nat) c then filter (fun b0 => Nat.eqb b0 b) m else []).
  { induction m as [|y m IHm]; [cbn; destruct (Nat.eqb _ _); reflexivity|]. cbn [filter].
    destruct (Nat.eqb_spec (nth y v 0%nat) c) as [E1|E1]; cbn [filter]; rewrite IHm.
    - destruct (Nat.eqb_spec y b) as [->|]; [rewrite E1, Nat.eqb_refl; reflexivity|reflexivity].
    - destruct (Nat.eqb_spec y b) as [->|]; [|reflexivity].
      destruct (Nat.eqb_spec (nth b v 0%nat) c); [congruence|reflexivity]. }
  rewrite E, F, (filter_eqb_seq _ _ Hb). rewrite (Nat.eqb_sym (nth b v 0%nat) c).
  destruct (Nat.eqb c (nth b v 0%nat)); cbn [map]; rewrite ?lsum_cons; cbn [lsum fold_right snd]; unfold lsum; cbn [fold_right]; lra.
Qed.

Lemma select_wf W v : wf_csr (csr_select W v).
Proof.
  split; [cbn; apply map_length|]. intros a Ha cv Hin. cbn in Ha. rewrite row_select in Hin by exact Ha.
  apply in_flat_map in Hin. destruct Hin as (x & _ & Hin). apply in_map_iff in Hin. destruct Hin as (b & <- & Hb).
  apply filter_In in Hb. destruct Hb as (Hb & _). apply in_seq in Hb. cbn. lia.
Qed.

Lemma select_canonical W v : canonical W -> (forall a, In a v -> (a < nrow W)%nat) -> canonical (csr_select W v).
Proof.
  intros Hc Hv a Ha. cbn in Ha. rewrite row_select by exact Ha. rewrite map_flat_map.
  specialize (Hc (nth a v 0%nat) (Hv _ (nth_In _ _ Ha))).
  set (l := row W (nth a v 0%nat)) in *. clearbody l.
  rewrite (flat_map_concat_map). 
  assert (E : map (fun cv : nat * R => map fst (map (fun b : nat => (b, snd cv))
      (filter (fun b : nat => Nat.eqb (nth b v 0%nat) (fst cv)) (seq 0 (List.length v))))) l =
    map (fun c => filter (fun b => Nat.eqb (nth b v 0%nat) c) (seq 0 (List.length v))) (map fst l)).
  { rewrite map_map. apply map_ext. intros cv. rewrite map_map. cbn. apply map_id. }
  rewrite E, <- flat_map_concat_map. apply NoDup_flat_map; [exact Hc|intros; apply NoDup_filter, seq_NoDup|].
  intros c c' b _ _ H1 H2. apply filter_In in H1. apply filter_In in H2.
  destruct H1 as (_ & H1), H2 as (_ & H2). apply Nat.eqb_eq in H1. apply Nat.eqb_eq in H2. congruence.
Qed.

Lemma resolve_lt n sel v : resolve n sel = Ok v -> forall i, In i v -> (i < n)%nat.
Proof.
  destruct sel as [l|m]; cbn.
  - destruct (forallb _ l) eqn:E; [|discriminate]. intros H; injection H as <-. intros i Hi.
    apply in_map_iff in Hi. destruct Hi as (z & <- & Hz). rewrite forallb_forall in E. specialize (E z Hz).
    apply andb_prop in E. destruct E as (E1 & E2). apply Z.leb_le in E1. apply Z.ltb_lt in E2.
    destruct (Z.ltb_spec z 0); lia.
  - destruct (Nat.eqb _ _); [|discriminate]. intros H; injection H as <-. intros i Hi.
    apply filter_In in Hi. destruct Hi as (Hi & _). apply in_seq in Hi. lia.
Qed.

(** Attached signals of a built graph have one row per vertex. *)
Lemma built_signals G : built G -> forall name s, In (name, s) (g_signals G) -> List.length s = g_n_vertices G.
Proof.
  induction 1 as [inp lap co G Hwf H|G s name G' HG IH H]; intros nm x Hin.
  - destruct (init_inv inp lap co G Hwf H) as (n & L & _ & _ & _ & E). subst G. destruct Hin.
  - unfold set_signal, check_signal in H.
    destruct (Nat.eqb_spec (List.length s) (g_n_vertices G)) as [El|]; [|discriminate]. injection H as <-. cbn in *.
    revert Hin. generalize (IH). generalize (g_signals G) as d. clear IH. induction d as [|[k v] d IHd]; intros IH Hin; cbn in Hin.
    + destruct Hin as [E|[]]. congruence.
    + destruct (String.eqb k name).
      * destruct Hin as [E|Hin]; [congruence|]. apply (IH nm x). right; exact Hin.
      * destruct Hin as [E|Hin]; [apply (IH nm x); left; exact E|]. apply IHd; [|exact Hin].
        intros n' s' H'. apply (IH n' s'). right; exact H'.
Qed.

Lemma built_signals_nodup G : built G -> NoDup (map fst (g_signals G)).
Proof.
  induction 1 as [inp lap co G Hwf H|G s name G' HG IH H].
  - destruct (init_inv inp lap co G Hwf H) as (n & L & _ & _ & _ & E). subst G. constructor.
  - unfold set_signal, check_signal in H. destruct (Nat.eqb _ _); [|discriminate]. injection H as <-. cbn.
    clear HG. revert IH. generalize (g_signals G) as d. 
    assert (Hin : forall d k, In k (map fst (dict_set name s d)) <-> k = name \/ In k (map fst d)).
    { induction d as [|[k' v] d IHd]; intros k; cbn; [intuition|].
      destruct (String.eqb_spec k' name) as [->|]; cbn; [intuition|]. rewrite IHd. tauto. }
    induction d as [|[k v] d IHd]; intros Hnd; cbn; [repeat constructor; cbn; tauto|].
    cbn in Hnd. inversion Hnd; subst. destruct (String.eqb_spec k name) as [->|]; cbn; [constructor; assumption|].
    constructor; [|apply IHd; assumption]. rewrite Hin. intros [E|E]; [congruence|contradiction].
Qed.

Lemma dict_get_set_same {V} k (v : V) d : dict_get k (dict_set k v d) = Some v.
Proof.
  induction d as [|[k' v'] d IH]; cbn; [rewrite String.eqb_refl; reflexivity|].
  destruct (String.eqb_spec k' k) as [->|Hne]; cbn; [rewrite String.eqb_refl; reflexivity|].
  destruct (String.eqb_spec k' k); [congruence|exact IH].
Qed.
Lemma dict_get_set_other {V} k k2 (v : V) d : k2 <> k -> dict_get k2 (dict_set k v d) = dict_get k2 d.
Proof.
  intros Hne. induction d as [|[k' v'] d IH]; cbn.
  - destruct (String.eqb_spec k k2); [congruence|reflexivity].
  - destruct (String.eqb_spec k' k) as [->|Hne']; cbn.
    + destruct (String.eqb_spec k k2); [congruence|reflexivity].
    + destruct (String.eqb_spec k' k2); [reflexivity|exact IH].
Qed.

Lemma dict_get_notin {V} k (d : list (string * V)) : ~ In k (map fst d) -> dict_get k d = None.
Proof.
  induction d as [|[k' v'] d IH]; cbn; [reflexivity|]. intros H.
  destruct (String.eqb_spec k' k) as [->|]; [exfalso; apply H; auto|]. apply IH; tauto.
Qed.

Lemma copy_signals_spec n sel v : resolve n sel = Ok v ->
  forall l G, built G -> g_n_vertices G = List.length v ->
  (forall name s, In (name, s) l -> List.length s = n) -> NoDup (map fst l) ->
  exists G', copy_signals l sel G = Ok G' /\ built G' /\ gW G' = gW G /\ gL G' = gL G /\
    g_n_vertices G' = g_n_vertices G /\ g_n_edges G' = g_n_edges G /\
    g_lap_type G' = g_lap_type G /\ g_coords G' = g_coords G /\
    forall name, dict_get name (g_signals G') =
      match dict_get name l with
      | Some s => Some (rows_select [] s v)
      | None => dict_get name (g_signals G)
      end.
Proof.
  intros Hr. induction l as [|[k s] l IH]; intros G Hb Hn Hl Hnd.
  - exists G. cbn. auto 12.
  - cbn [copy_signals]. unfold take_rows. rewrite (Hl k s (or_introl eq_refl)), Hr. cbn [bindr].
    assert (Es : set_signal G (rows_select [] s v) k =
                 Ok (with_signals G (dict_set k (rows_select [] s v) (g_signals G)))).
    { unfold set_signal, check_signal, rows_select. rewrite map_length, Hn, Nat.eqb_refl. reflexivity. }
    rewrite Es. cbn [bindr]. cbn in Hnd. inversion Hnd; subst.
    destruct (IH (with_signals G (dict_set k (rows_select [] s v) (g_signals G)))) as (G' & E & Hb' & H3 & H4 & H5 & H6 & H7 & H8 & H9).
    + eapply built_signal; eauto.
    + exact Hn.
    + intros name s' Hin. apply (Hl name s'). right; exact Hin.
    + assumption.
    + exists G'. split; [exact E|]. split; [exact Hb'|]. repeat (split; [assumption|]).
      intros name. rewrite H9. cbn [g_signals with_signals dict_get].
      destruct (String.eqb_spec k name) as [->|Hne].
      * rewrite (dict_get_notin name l) by assumption. apply dict_get_set_same.
      * destruct (dict_get name l); [reflexivity|]. apply dict_get_set_other. congruence.
Qed.

Lemma built_valid_lap G : built G -> valid_lap (g_lap_type G).
Proof.
  intros Hb. destruct (built_good G Hb) as (_ & _ & _ & HL). apply (laplacian_ok (gW G)). eauto.
Qed.

Lemma subgraph_spec G sel v : built G -> resolve (g_n_vertices G) sel = Ok v ->
  (forall c, g_coords G = Some c -> List.length c = g_n_vertices G) ->
  exists G', subgraph G sel = Ok G' /\ built G' /\ g_n_vertices G' = List.length v /\
    (forall a b, (a < List.length v)%nat -> (b < List.length v)%nat ->
       wt G' a b = wt G (nth a v 0%nat) (nth b v 0%nat)) /\
    g_lap_type G' = g_lap_type G /\
    g_coords G' = match g_coords G with Some c => Some (rows_select [] c v) | None => None end /\
    (forall name, dict_get name (g_signals G') =
       match dict_get name (g_signals G) with Some s => Some (rows_select [] s v) | None => None end).
Proof.
  intros Hb Hr Hco. destruct (built_good G Hb) as (Hg & Hn & _ & _).
  unfold subgraph. rewrite <- Hn, Hr. cbn [bindr].
  assert (Ec : (match g_coords G with None => Ok None
         | Some c => bindr (take_rows c sel) (fun c' => Ok (Some c')) end) =
         Ok (match g_coords G with Some c => Some (rows_select [] c v) | None => None end)).
  { destruct (g_coords G) as [c|]; [|reflexivity]. unfold take_rows. rewrite (Hco c eq_refl), Hr. reflexivity. }
  rewrite Ec. cbn [bindr].
  destruct (init_csr (csr_select (gW G) v) (g_lap_type G)
     (match g_coords G with Some c => Some (rows_select [] c v) | None => None end)) as
     (G0 & E0 & Hb0 & Hn0 & Ht0 & Hc0 & Hs0 & Hw0).
  { apply select_wf. }
  { apply select_canonical; [apply (good_can _ Hg)|]. rewrite <- Hn. apply (resolve_lt _ _ _ Hr). }
  { reflexivity. }
  { apply built_valid_lap, Hb. }
  match goal with |- context [graph_init ?a ?b ?c] => replace (graph_init a b c) with (Ok G0) by (symmetry; exact E0) end.
  cbn [bindr].
  destruct (copy_signals_spec (g_n_vertices G) sel v Hr (g_signals G) G0 Hb0 Hn0) as
    (G' & E & Hb' & H3 & H4 & H5 & H6 & H7 & H8 & H9).
  { intros name s Hin. apply (built_signals G Hb name s Hin). }
  { apply built_signals_nodup, Hb. }
  exists G'. split; [exact E|]. split; [exact Hb'|]. split; [rewrite H5; exact Hn0|]. split.
  { intros a b Ha Hbb. unfold wt. rewrite H3. rewrite <- (get_select (gW G) v a b Ha Hbb). apply Hw0; assumption. }
  split; [congruence|]. split; [rewrite H8; exact Hc0|]. intros name. rewrite H9, Hs0. unfold rowarray.
  destruct (dict_get name (g_signals G)); reflexivity.
Qed.
