(** C57 to C60: signals through break and join, NetworkX, graph-tool, save and load. *)
From Coq Require Import Reals Lra Lia List Arith Bool String Ascii Permutation.
From Coq Require Import List.
From Verif.Base Require Import RSum Prelude.
From Verif.Spec Require Import Matrix GraphSpec IOSpec.
From Verif.Model Require Import Sparse Graph IO.
From Verif.Proofs Require Import SparseFacts InitFacts EdgeFacts IOFacts.
From Verif.Props Require Import Core.
Import ListNotations.
Open Scope R_scope.
Open Scope list_scope.

(** ** C57: breaking the 2-D signals and joining them again *)

Lemma reorder_id n s k : nd_ok n s -> nd_dims s = [k] -> reorder (seq 0 k) s = s.
Proof.
  intros [_ H] E. destruct s as [ds rs]. cbn in *. subst ds. unfold reorder. cbn. f_equal.
  rewrite <- (map_id rs) at 2. apply map_ext_in. intros c Hc. rewrite Forall_forall in H. specialize (H c Hc).
  destruct c as [x|l]; cbn in H; [contradiction|]. destruct H as [H _]. f_equal. cbn.
  apply nth_ext with (d := Leaf NaN) (d' := Leaf NaN); [rewrite map_length, seq_length; symmetry; exact H|].
  rewrite map_length, seq_length. intros i Hi. exact (nth_map_seq (fun i => nth i l (Leaf NaN)) k i (Leaf NaN) Hi).
Qed.

Lemma width_dims p k : nd_dims (snd p) = [k] -> width p = k /\ is2 p = true.
Proof. unfold width, is2. intros ->. split; reflexivity. Qed.

(** Breaking replaces every 2-D signal by its columns, under the names name_0, name_1, ..., and keeps the others. *)
Theorem C57_break :
  forall n S, sigs_ok n S -> names_ok S -> exists B, break_signals S = Ok B /\ NoDup (map fst B) /\
    (forall name s, dict_get name B = Some s <->
       (dict_get name S = Some s /\ ~ two_d s) \/
       (exists base t k i, dict_get base S = Some t /\ nd_dims t = [k] /\ (i < k)%nat /\ name = (base ++ "_" ++ str i)%string /\
          s = mknd [] (map (cell_nth i) (nd_rows t)))).
Proof.
  intros n S [Hd _] Hn. exists (broken S). pose proof (broken_keys_nodup S Hd Hn) as HB.
  split; [exact (break_eq S Hd Hn)|]. split; [exact HB|]. intros name s. split.
  - intros H. apply dget_in in H. unfold broken in H. apply in_app_or in H as [H|H].
    + apply filter_In in H as [H H2]. left. split; [apply in_dget; assumption|]. intros T. apply (is2_two_d (name, s)) in T. rewrite T in H2. discriminate.
    + apply in_flat_map in H as ([b t] & Hp & H). apply filter_In in Hp as [Hp H2]. unfold images in H. apply in_map_iff in H as (i & E & Hi).
      cbn [fst snd] in E. injection E as <- <-. apply in_seq in Hi. right. exists b, t, (width (b, t)), i.
      split; [apply in_dget; assumption|]. split; [apply (is2_dims (b, t)); exact H2|]. split; [lia|]. split; reflexivity.
  - intros [[H H2]|(b & t & k & i & H & Hk & Hi & -> & ->)].
    + apply in_dget; [exact HB|]. apply dget_in in H. unfold broken. apply in_or_app. left. apply filter_In. split; [exact H|].
      destruct (is2 (name, s)) eqn:E; [|reflexivity]. exfalso. apply H2. apply (is2_two_d (name, s)). exact E.
    + apply in_dget; [exact HB|]. apply dget_in in H. unfold broken. apply in_or_app. right. apply in_flat_map. exists (b, t).
      destruct (width_dims (b, t) k Hk) as [W T]. split; [apply filter_In; split; assumption|]. unfold images. apply in_map_iff. exists i.
      split; [reflexivity|]. rewrite W. apply in_seq. lia.
Qed.

(** Whatever their widths, joining restores every signal up to the order of the columns of the 2-D ones: these come back in
    the alphabetical order of their names. *)
Theorem C57_join_any_width :
  forall n S, sigs_ok n S -> names_ok S -> (forall name s k, dict_get name S = Some s -> nd_dims s = [k] -> (2 <= k)%nat) ->
  exists B D, break_signals S = Ok B /\ join_signals B = Ok D /\
    (forall name s, dict_get name S = Some s -> ~ two_d s -> dict_get name D = Some s) /\
    (forall name s k, dict_get name S = Some s -> nd_dims s = [k] ->
       exists p, Permutation p (seq 0 k) /\
         (forall i, (i + 1 < k)%nat -> String.leb (name ++ "_" ++ str (nth i p 0%nat)) (name ++ "_" ++ str (nth (i + 1) p 0%nat)) = true) /\
         dict_get name D = Some (reorder p s)) /\
    (forall name, dict_get name S = None -> dict_get name D = None).
Proof.
  intros n S [Hd _] Hn Hw. destruct (join_broken S Hd Hn) as (D & F & J1 & J2 & J3).
  { intros [b t] Hp H2. apply (in_dget b t S Hd) in Hp. apply (Hw b t (width (b, t)) Hp). apply (is2_dims (b, t)). exact H2. }
  exists (broken S), D. split; [exact (break_eq S Hd Hn)|]. split; [exact F|]. split; [|split].
  - intros name s H N. apply dget_in in H. apply (J2 (name, s) H). destruct (is2 (name, s)) eqn:E; [|reflexivity].
    exfalso. apply N. apply (is2_two_d (name, s)). exact E.
  - intros name s k H Hk. apply dget_in in H. destruct (width_dims (name, s) k Hk) as [W T]. destruct (J1 (name, s) H T) as (o & _ & [P So] & Eo).
    rewrite W in *. exists o. split; [exact P|]. split; [|exact Eo]. cbn [fst] in So. intros i Hi. rewrite Nat.add_1_r in *. specialize (So i Hi).
    assert (L : List.length o = k) by (rewrite (Permutation_length P); apply seq_length).
    rewrite !(nth_indep _ ""%string (col_name name 0)) in So by (rewrite map_length; lia). rewrite !map_nth in So. exact So.
  - intros name H. apply J3. apply dget_none. exact H.
Qed.

(** With two to ten columns every signal comes back exactly. *)
Theorem C57_round_trip :
  forall n S, sigs_ok n S -> names_ok S -> (forall name s k, dict_get name S = Some s -> nd_dims s = [k] -> (2 <= k <= 10)%nat) ->
  exists B D, break_signals S = Ok B /\ join_signals B = Ok D /\ forall name, dict_get name D = dict_get name S.
Proof.
  intros n S [Hd Hok] Hn Hw. destruct (join_broken S Hd Hn) as (D & F & J1 & J2 & J3).
  { intros [b t] Hp H2. apply (in_dget b t S Hd) in Hp. apply (Hw b t (width (b, t)) Hp). apply (is2_dims (b, t)). exact H2. }
  exists (broken S), D. split; [exact (break_eq S Hd Hn)|]. split; [exact F|].
  intros name. destruct (dict_get name S) as [s|] eqn:E; [|apply J3; apply dget_none; exact E].
  pose proof (dget_in _ _ _ E) as Hin. destruct (is2 (name, s)) eqn:H2; [|exact (J2 (name, s) Hin H2)].
  destruct (J1 (name, s) Hin H2) as (o & So & _ & Eo). cbn [fst snd] in *. pose proof (is2_dims _ H2) as Hk. cbn [snd] in Hk.
  apply order_unique in So; [|apply (Hw name s _ E Hk)]. rewrite Eo, So. rewrite Forall_forall in Hok. specialize (Hok _ Hin). cbn in Hok.
  rewrite (reorder_id n s _ Hok Hk). reflexivity.
Qed.

(** Names without underscore can always be told apart. *)
Theorem C57_simple_names :
  forall S, NoDup (map fst S) -> (forall name s, In (name, s) S -> ~ In "_"%char (list_ascii_of_string name)) -> names_ok S.
Proof.
  intros S Hd H.
  assert (J : forall p b, In p S -> joined_name p b -> b = fst p).
  { intros [a x] b Hp [[_ E]|[_ E]]; [exact E|]. apply stem_rsplit in E. cbn in E. rewrite E. unfold rsplit.
    rewrite (proj2 (before_last_none a) (H a x Hp)). reflexivity. }
  split.
  - intros p q b Hp Hq Jp Jq. apply (key_inj S Hd p q Hp Hq). rewrite <- (J p b Hp Jp). exact (J q b Hq Jq).
  - intros p [a x] k i Hp Hq _ _ _ E. cbn in E. pose proof (proj2 (before_last_none a) (H a x Hq)) as N. rewrite <- E in N. unfold col_name in N.
    change ("_" ++ str i)%string with (String "_" (str i)) in N. rewrite before_last_app in N by apply str_no_us. discriminate.
Qed.

Definition f1 (r : R) : cell := Leaf (Fin r).

Example C57_ex : exists S, sigs_ok 2 S /\ names_ok S /\ (forall name s k, dict_get name S = Some s -> nd_dims s = [k] -> (2 <= k <= 10)%nat) /\
  dict_get "xyz" S = Some (mknd [3%nat] [Node [f1 1; f1 2; f1 3]; Node [f1 4; f1 5; f1 6]]) /\ dict_get "t" S = Some (mknd [] [f1 7; Leaf NaN]).
Proof.
  exists [("xyz", mknd [3%nat] [Node [f1 1; f1 2; f1 3]; Node [f1 4; f1 5; f1 6]]); ("t", mknd [] [f1 7; Leaf NaN])]%string.
  assert (ND : NoDup ["xyz"; "t"]%string).
  { constructor; [intros [E|[]]; discriminate|]. constructor; [intros []|constructor]. }
  split; [|split; [|split; [|split; reflexivity]]].
  - split; [exact ND|]. repeat constructor.
  - apply C57_simple_names; [exact ND|]. intros name s [E|[E|[]]]; injection E as <- _; cbn; intuition discriminate.
  - intros name s k H. apply dget_in in H. destruct H as [H|[H|[]]]; injection H as _ <-; cbn; [intros [= <-]; lia|discriminate].
Qed.

(** Findings.  Eleven columns come back permuted: the third is the original eleventh. *)
Theorem C57_eleven_columns_refuted :
  exists S B D s t, sigs_ok 1 S /\ names_ok S /\ dict_get "s" S = Some s /\ nd_dims s = [11%nat] /\
    break_signals S = Ok B /\ join_signals B = Ok D /\ dict_get "s" D = Some t /\
    cell_nth 2 (nth 0 (nd_rows s) (Leaf NaN)) = f1 2 /\ cell_nth 2 (nth 0 (nd_rows t) (Leaf NaN)) = f1 10 /\ t <> s.
Proof.
  pose (s := mknd [11%nat] [Node (map (fun i => f1 (INR i)) (seq 0 11))]).
  pose (t := mknd [11%nat] [Node (map (fun i => f1 (INR i)) [0; 1; 10; 2; 3; 4; 5; 6; 7; 8; 9]%nat)]).
  exists [("s"%string, s)], (broken [("s"%string, s)]), [("s"%string, t)], s, t.
  assert (ND : NoDup ["s"]%string) by (constructor; [intros []|constructor]).
  assert (NO : names_ok [("s"%string, s)]).
  { apply C57_simple_names; [exact ND|]. intros name x [E|[]]; injection E as <- _; cbn; intuition discriminate. }
  assert (E2 : f1 (INR 2) = f1 2) by (f_equal; f_equal; cbn; lra).
  assert (E10 : f1 (INR 10) = f1 10) by (f_equal; f_equal; cbn; lra).
  split; [split; [exact ND|]|]. { constructor; [|constructor]. split; [reflexivity|]. constructor; [|constructor]. cbn. split; [reflexivity|]. repeat constructor. }
  split; [exact NO|]. split; [reflexivity|]. split; [reflexivity|]. split; [exact (break_eq [("s"%string, s)] ND NO)|]. split; [reflexivity|].
  split; [reflexivity|]. split; [exact E2|]. split; [exact E10|].
  intros E. apply (f_equal (fun s => cell_nth 2 (nth 0 (nd_rows s) (Leaf NaN)))) in E. change (f1 (INR 10) = f1 (INR 2)) in E.
  rewrite E2, E10 in E. injection E as E. lra.
Qed.

(** A 2-D signal with one column comes back as a 1-D signal under another name; one without columns is lost. *)
Theorem C57_one_column_refuted :
  exists S B D, sigs_ok 1 S /\ names_ok S /\ dict_get "s" S = Some (mknd [1%nat] [Node [f1 5]]) /\
    break_signals S = Ok B /\ join_signals B = Ok D /\ D = [("s_0"%string, mknd [] [f1 5])] /\ dict_get "s" D = None.
Proof.
  exists [("s"%string, mknd [1%nat] [Node [f1 5]])], [("s_0"%string, mknd [] [f1 5])], [("s_0"%string, mknd [] [f1 5])].
  assert (ND : NoDup ["s"]%string) by (constructor; [intros []|constructor]).
  split; [split; [exact ND|repeat constructor]|]. split.
  { apply C57_simple_names; [exact ND|]. intros name x [E|[]]; injection E as <- _; cbn; intuition discriminate. }
  repeat split; reflexivity.
Qed.
Theorem C57_no_column_refuted : forall n name rs, break_signals [(name, mknd [0%nat] rs)] = Ok [] /\
  (sigs_ok n [(name, mknd [0%nat] (repeat (Node []) n))]).
Proof.
  intros n name rs. split.
  - unfold break_signals, break_one. cbn. rewrite String.eqb_refl. cbn. unfold dict_del. cbn. rewrite String.eqb_refl. reflexivity.
  - split; [constructor; [intros []|constructor]|]. constructor; [|constructor]. split; [apply repeat_length|]. apply Forall_forall.
    intros c Hc. apply repeat_spec in Hc. subst c. cbn. auto.
Qed.

(** Two unrelated 1-D signals whose names share what precedes the last underscore come back merged in one 2-D signal. *)
Theorem C57_shared_prefix_merged_refuted :
  forall a b, List.length a = List.length b ->
    let S := [("pos_x", mknd [] (map Leaf a)); ("pos_y", mknd [] (map Leaf b))]%string in
    break_signals S = Ok S /\ exists s, join_signals S = Ok [("pos"%string, s)] /\ nd_dims s = [2%nat].
Proof.
  intros a b H. split; [reflexivity|]. unfold join_signals. cbn. unfold stack1, same_shape. cbn. rewrite !map_length, <- H, Nat.eqb_refl. cbn.
  eexists. split; reflexivity.
Qed.

(** A signal called "a" is destroyed by another one called "a_0": both are lost. *)
Theorem C57_signals_lost_refuted :
  forall a b, List.length a = List.length b ->
    let S := [("a", mknd [] (map Leaf a)); ("a_0", mknd [] (map Leaf b))]%string in
    break_signals S = Ok S /\ join_signals S = Ok [].
Proof.
  intros a b H. split; [reflexivity|]. unfold join_signals. cbn. unfold stack1, same_shape. cbn. rewrite !map_length, <- H, Nat.eqb_refl. reflexivity.
Qed.

(** Some sets of 1-D signals cannot be loaded at all: one group overwrites a member of another. *)
Theorem C57_join_fails_refuted :
  forall a, let s := mknd [] (map Leaf a) in let S := [("a_b_0", s); ("a_b_1", s); ("a_b", s); ("a_c", s)]%string in
    break_signals S = Ok S /\ join_signals S = Raise ValueError.
Proof.
  intros a s S. split; [reflexivity|].
  assert (St : stack1 [s; s] = Ok (mknd [2%nat] (map (fun v => Node (map (fun s => nth v (nd_rows s) (Leaf NaN)) [s; s])) (seq 0 (List.length (nd_rows s)))))).
  { unfold stack1, same_shape. cbn [forallb nd_dims s]. rewrite Nat.eqb_refl. reflexivity. }
  change (join_signals S) with (join_one (join_one (Ok S) ("a_b", ["a_b_0"; "a_b_1"])) ("a", ["a_b"; "a_c"]))%string.
  unfold join_one at 2. change (Nat.ltb 1 (List.length (snd ("a_b", ["a_b_0"; "a_b_1"])%string))) with true. cbn [bindr].
  change (ssort (snd ("a_b", ["a_b_0"; "a_b_1"])%string)) with ["a_b_0"; "a_b_1"]%string.
  change (lookup_all S ["a_b_0"; "a_b_1"]%string) with (@Ok (list nd) [s; s]). cbn [bindr]. rewrite St. cbn [bindr].
  generalize (map (fun v => Node (map (fun s => nth v (nd_rows s) (Leaf NaN)) [s; s])) (seq 0 (List.length (nd_rows s)))). intros rs. clear St.
  match goal with |- ?x = _ => change x with (bindr (stack1 [mknd [2%nat] rs; s]) (fun t =>
    fold_left (fun d n => bindr d (dict_del n)) ["a_b"; "a_c"]%string (Ok (dict_set "a"%string t [("a_b"%string, mknd [2%nat] rs); ("a_c"%string, s)])))) end.
  unfold stack1, same_shape. cbn [forallb nd_dims nd_rows s]. rewrite Nat.eqb_refl. reflexivity.
Qed.

(** A column of one 2-D signal overwrites another 2-D signal. *)
Theorem C57_column_name_clash_refuted :
  exists S B, sigs_ok 1 S /\ dict_get "a_0" S = Some (mknd [2%nat] [Node [f1 3; f1 4]]) /\ break_signals S = Ok B /\
    B = [("a_0"%string, mknd [] [f1 1]); ("a_1"%string, mknd [] [f1 2])].
Proof.
  exists [("a"%string, mknd [2%nat] [Node [f1 1; f1 2]]); ("a_0"%string, mknd [2%nat] [Node [f1 3; f1 4]])]. eexists. split.
  { split; [|repeat constructor]. constructor; [intros [E|[]]; discriminate|]. constructor; [intros []|constructor]. }
  split; [reflexivity|]. split; reflexivity.
Qed.

(** ** C58: NetworkX *)

Lemma leaf_inj l l' : map Leaf l = map Leaf l' -> l = l'.
Proof. revert l'. induction l as [|a l IH]; intros [|b l'] H; try discriminate; [reflexivity|]. cbn in H. injection H as -> H. f_equal. apply IH. exact H. Qed.

(** The exported graph: the vertices 0 .. n-1 in order, as attributes the values of the signals and of the columns of the 2-D
    ones, exactly the edges of G with their weights (once per unordered pair if W is symmetric), directed iff W is not
    symmetric.  The signals of G itself are left broken (finding). *)
Theorem C58_to_networkx :
  forall G Sg, built G -> sigs_ok (g_n_vertices G) Sg -> names_ok Sg ->
  (forall name s, dict_get name Sg = Some s -> (List.length (nd_dims s) <= 1)%nat) ->
  exists g B, to_networkx G Sg = Ok (g, B) /\ break_signals Sg = Ok B /\ nx_ok g /\
    (nx_directed g = false <-> undirected G) /\
    map fst (nx_nodes g) = seq 0 (g_n_vertices G) /\
    (forall v a, In (v, a) (nx_nodes g) -> NoDup (map fst a) /\
       forall name x, dict_get name a = Some x <-> exists l, column Sg name l /\ nth_error l v = Some x) /\
    (forall u v w, In (u, v, w) (nx_edges g) <->
       (u < g_n_vertices G)%nat /\ (v < g_n_vertices G)%nat /\ w = Fin (wt G u v) /\ wt G u v <> 0 /\ (undirected G -> (u <= v)%nat)).
Proof.
  intros G Sg HG HS HN Hdim.
  assert (H1 : forall p, In p Sg -> (List.length (nd_dims (snd p)) <= 1)%nat).
  { intros [k s] Hp. apply (Hdim k). apply in_dget; [exact (proj1 HS)|exact Hp]. }
  destruct (C04_edge_list_enumerates_every_edge_once G HG) as (l & El & _ & _ & IN).
  exists (exported G Sg l), (broken Sg). split; [exact (export_eq G HG Sg HS HN H1 l El)|].
  pose proof (break_eq Sg (proj1 HS) HN) as EB. split; [exact EB|]. split; [exact (exported_ok G HG Sg l El)|].
  split; [cbn; rewrite is_directed_false; unfold undirected, wt; destruct (built_good G HG) as (_ & -> & _); tauto|].
  split; [apply exported_nodes|]. split.
  - intros v a Ha. cbn in Ha. apply in_map_iff in Ha as (v' & E & Hv). apply pair_equal_spec in E. destruct E as [-> <-]. apply in_seq in Hv.
    pose proof (broken_keys_nodup Sg (proj1 HS) HN) as NB. pose proof (broken_1d (g_n_vertices G) Sg HS H1) as B1.
    assert (EK : map fst (attrs_at (flatB (broken Sg)) v) = map fst (broken Sg)).
    { unfold attrs_at, flatB. rewrite !map_map. reflexivity. }
    split; [rewrite EK; exact NB|]. intros name x.
    destruct (C57_break (g_n_vertices G) Sg HS HN) as (B' & EB' & _ & IB). assert (B' = broken Sg) by congruence. subst B'.
    assert (K : dict_get name (attrs_at (flatB (broken Sg)) v) = Some x <->
                exists s, dict_get name (broken Sg) = Some s /\ nth v (lx s) NaN = x).
    { split.
      - intros H. apply dget_in in H. unfold attrs_at, flatB in H. rewrite map_map in H. apply in_map_iff in H as ([k s] & E & Hs). cbn in E.
        injection E as <- <-. exists s. split; [|reflexivity]. apply in_dget; assumption.
      - intros (s & Hs & <-). apply in_dget; [rewrite EK; exact NB|]. apply dget_in in Hs. unfold attrs_at, flatB. rewrite map_map. apply in_map_iff.
        exists (name, s). split; [reflexivity|exact Hs]. }
    rewrite K. split.
    + intros (s & Hs & <-). exists (lx s). destruct (B1 (name, s) (dget_in _ _ _ Hs)) as [Os Ds]. cbn [snd] in *.
      destruct (lx_leaf _ s Os Ds) as [Es Ls]. split.
      * apply IB in Hs as [[Hs _]|(base & t & k & i & Ht & Hk & Hi & -> & ->)]; [left; rewrite <- Es; exact Hs|].
        right. destruct t as [ds rs]. cbn in Hk, Es. subst ds. exists base, k, rs, i. split; [exact Ht|]. split; [exact Hi|]. split; [reflexivity|].
        injection Es as Es. exact Es.
      * apply nth_error_nth'. lia.
    + intros (lv & Hc & Hx). assert (Lx : lx (mknd [] (map Leaf lv)) = lv) by (unfold lx; cbn; rewrite map_map; apply map_id).
      exists (mknd [] (map Leaf lv)). rewrite Lx. split; [|apply nth_error_nth; exact Hx]. apply IB.
      destruct Hc as [Hc|(base & k & rows & i & Hb & Hi & -> & E)].
      * left. split; [exact Hc|]. intros [k Hk]. discriminate.
      * right. exists base, (mknd [k] rows), k, i. split; [exact Hb|]. split; [reflexivity|]. split; [exact Hi|]. split; [reflexivity|]. cbn. rewrite E. reflexivity.
  - intros u v w. cbn. rewrite in_map_iff. split.
    + intros ([[i j] x] & E & He). cbn in E. injection E as <- <- <-. apply IN in He. destruct He as (? & ? & -> & ? & ?). auto.
    + intros (Hu & Hv & -> & Hw & Ho). exists (u, v, wt G u v). split; [reflexivity|]. apply IN. auto.
Qed.

(** The graph read from any NetworkX graph with at least one node: one vertex per node in the order of the nodes, the weight
    between two positions being that of the edge between the two nodes, the combinatorial Laplacian, no coordinates.  The
    attributes of the nodes become 1-D signals with NaN where a node lacks the attribute, and are then joined: reading
    succeeds iff joining does. *)
Theorem C58_from_networkx :
  forall g, nx_ok g -> nx_nodes g <> [] -> (forall p, In p (nx_nodes g) -> NoDup (map fst (snd p))) ->
  exists G raw, from_networkx g = bindr (join_signals raw) (fun D => Ok (G, D)) /\ built G /\
    g_n_vertices G = List.length (nx_nodes g) /\ g_lap_type G = Combinatorial /\ g_coords G = None /\
    (forall i j, (i < g_n_vertices G)%nat -> (j < g_n_vertices G)%nat ->
       let u := nth i (map fst (nx_nodes g)) 0%nat in let v := nth j (map fst (nx_nodes g)) 0%nat in
       (forall e w, In (e, Fin w) (nx_edges g) -> joins (nx_directed g) e u v -> wt G i j = w) /\
       ((forall e w, In (e, w) (nx_edges g) -> ~ joins (nx_directed g) e u v) -> wt G i j = 0)) /\
    (forall name s, dict_get name raw = Some s <->
       (exists v a, In (v, a) (nx_nodes g) /\ In name (map fst a)) /\
       s = mknd [] (map (fun p => Leaf (match dict_get name (snd p) with Some x => x | None => NaN end)) (nx_nodes g))).
Proof.
  intros g Hok Hne Hk. destruct (nx_graph g Hok) as (G & HG & Hb & En & Ht & Hc & HW).
  exists G, (map (fun p => (fst p, mknd [] (map Leaf (snd p)))) (nx_read (List.length (nx_nodes g)) (map snd (nx_nodes g)))).
  split; [|split; [exact Hb|split; [exact En|split; [exact Ht|split; [exact Hc|split]]]]].
  - unfold from_networkx. destruct (Nat.eqb_spec (List.length (nx_nodes g)) 0) as [E|_]; [apply length_zero_iff_nil in E; contradiction|].
    rewrite HG. reflexivity.
  - intros i j Hi Hj u v. specialize (HW i j Hi Hj).
    assert (Li : (i < List.length (map fst (nx_nodes g)))%nat) by (rewrite map_length; lia).
    assert (Lj : (j < List.length (map fst (nx_nodes g)))%nat) by (rewrite map_length; lia).
    destruct (nx_entry_value g u v Hok) as [V1 V2]; [apply nth_In; exact Li|apply nth_In; exact Lj|].
    unfold u, v in V1, V2. rewrite !position_of_nth in V1, V2 by (try exact (proj1 Hok); assumption). fold u v in V1, V2.
    split.
    + intros e w He J. specialize (V1 e w He J). rewrite HW in V1. injection V1 as ->. reflexivity.
    + intros H. specialize (V2 H). rewrite HW in V2. injection V2 as ->. reflexivity.
  - intros name s. assert (Kd : Forall (fun a => NoDup (map fst a)) (map snd (nx_nodes g))).
    { apply Forall_forall. intros a Ha. apply in_map_iff in Ha as (p & <- & Hp). exact (Hk p Hp). }
    pose proof (nx_read_get (List.length (nx_nodes g)) (map snd (nx_nodes g)) (map_length _ _) Kd name) as Rd.
    assert (EM : forall d : list (string * list xval), dict_get name (map (fun p => (fst p, mknd [] (map Leaf (snd p)))) d) =
                 match dict_get name d with Some l => Some (mknd [] (map Leaf l)) | None => None end).
    { induction d as [|[k l] d IH]; cbn; [reflexivity|]. destruct (String.eqb k name); [reflexivity|exact IH]. }
    rewrite EM, Rd. clear EM Rd.
    assert (Ev : map (attr_of (map snd (nx_nodes g)) name) (seq 0 (List.length (nx_nodes g))) =
                 map (fun p => match dict_get name (snd p) with Some x => x | None => NaN end) (nx_nodes g)).
    { apply nth_ext with (d := NaN) (d' := NaN); [rewrite !map_length, seq_length; reflexivity|]. rewrite map_length, seq_length. intros j Hj.
      rewrite nth_map_seq by exact Hj. unfold attr_of.
      rewrite (nth_indep _ NaN (match dict_get name (snd (0%nat, [])) with Some x => x | None => NaN end)) by (rewrite map_length; exact Hj).
      rewrite (map_nth (fun p => match dict_get name (snd p) with Some x => x | None => NaN end)).
      change (@nil (string * xval)) with (snd (0%nat, @nil (string * xval))) at 1. rewrite map_nth. reflexivity. }
    rewrite Ev. destruct (existsb _ _) eqn:Eb; rewrite ?map_map.
    + apply existsb_exists in Eb as (a & Ha & Ea). apply in_map_iff in Ha as ([v a'] & E & Hp). cbn in E. subst a'. split.
      * intros [= <-]. split; [|reflexivity]. exists v, a. split; [exact Hp|]. destruct (dict_get name a) as [x|] eqn:Ex; [|discriminate].
        apply dget_in in Ex. apply in_map_iff. exists (name, x). split; [reflexivity|exact Ex].
      * intros [_ ->]. reflexivity.
    + split; [discriminate|]. intros [(v & a & Hp & Hn) _]. exfalso. apply not_true_iff_false in Eb. apply Eb. apply existsb_exists. exists a.
      split; [apply in_map_iff; exists (v, a); split; [reflexivity|exact Hp]|]. destruct (dict_get name a) eqn:Ex; [reflexivity|].
      apply (proj1 (dget_none name a)) in Ex. contradiction.
Qed.

(** Exporting a graph and importing the result gives back the same number of vertices, the same weights and the joined
    signals. *)
Lemma round_trip_raw G Sg l : built G -> (1 <= g_n_vertices G)%nat -> sigs_ok (g_n_vertices G) Sg -> names_ok Sg ->
  (forall p, In p Sg -> (List.length (nd_dims (snd p)) <= 1)%nat) -> get_edge_list (gW G) = Ok l ->
  exists G', from_networkx (exported G Sg l) = bindr (join_signals (broken Sg)) (fun D => Ok (G', D)) /\
    built G' /\ g_n_vertices G' = g_n_vertices G /\ g_lap_type G' = Combinatorial /\ g_coords G' = None /\
    (forall i j, (i < g_n_vertices G)%nat -> (j < g_n_vertices G)%nat -> wt G' i j = wt G i j).
Proof.
  intros HG Hn HS HN H1 El. pose proof (exported_ok G HG Sg l El) as Hok. pose proof (exported_nodes G Sg l) as Nod.
  assert (Ln : List.length (nx_nodes (exported G Sg l)) = g_n_vertices G) by (rewrite <- (map_length fst), Nod, seq_length; reflexivity).
  destruct (nx_graph _ Hok) as (G' & HG' & Hb & En & Ht & Hc & HW). exists G'. rewrite Ln in *. split; [|split; [exact Hb|split; [exact En|split; [exact Ht|split; [exact Hc|]]]]].
  - unfold from_networkx. rewrite Ln. destruct (Nat.eqb_spec (g_n_vertices G) 0) as [E|_]; [lia|]. rewrite HG'. cbn [bindr].
    pose proof (broken_1d (g_n_vertices G) Sg HS H1) as B1.
    replace (map snd (nx_nodes (exported G Sg l))) with (map (attrs_at (flatB (broken Sg))) (seq 0 (g_n_vertices G))) by (cbn; rewrite map_map; reflexivity).
    rewrite read_all.
    + f_equal. f_equal. unfold flatB. rewrite map_map. rewrite <- (map_id (broken Sg)) at 2. apply map_ext_in. intros [k s] Hp. cbn.
      destruct (B1 (k, s) Hp) as [Os Ds]. rewrite <- (proj1 (lx_leaf _ s Os Ds)). reflexivity.
    + unfold flatB. rewrite map_map. cbn. exact (broken_keys_nodup Sg (proj1 HS) HN).
    + intros p Hp. unfold flatB in Hp. apply in_map_iff in Hp as (q & <- & Hq). cbn. destruct (B1 q Hq) as [Os Ds]. exact (proj2 (lx_leaf _ _ Os Ds)).
    + exact Hn.
  - intros i j Hi Hj. rewrite <- En in Hi, Hj. specialize (HW i j Hi Hj). rewrite En in Hi, Hj.
    destruct (nx_entry_value (exported G Sg l) i j Hok) as [V1 V2]; [rewrite Nod; apply in_seq; lia|rewrite Nod; apply in_seq; lia|].
    rewrite Nod, !position_seq in V1, V2 by assumption. rewrite HW in V1, V2.
    destruct (built_good G HG) as (Hg & Hnr & _). pose proof (fun a b w => edge_list_in (gW G) l a b w Hg El) as IN. rewrite <- Hnr in IN.
    assert (Sy : is_directed (gW G) = false -> forall a b, (a < g_n_vertices G)%nat -> (b < g_n_vertices G)%nat -> get (gW G) a b = get (gW G) b a).
    { intros Bd. rewrite is_directed_false, <- Hnr in Bd. exact Bd. }
    change (wt G' i j = get (gW G) i j). destruct (Req_dec (get (gW G) i j) 0) as [Z|NZ].
    + rewrite Z. assert (H : Fin (wt G' i j) = Fin 0); [|injection H as ->; reflexivity]. apply V2. intros [a b] w He J. cbn in He. apply in_map_iff in He as ([[a' b'] x] & E & He).
      cbn in E. injection E as <- <- _. apply IN in He as (_ & _ & _ & N & _). apply N. destruct J as [J|[Bd J]]; injection J as -> ->; [exact Z|]. rewrite Sy; assumption.
    + destruct (is_directed (gW G)) eqn:Bd.
      * assert (H : Fin (wt G' i j) = Fin (get (gW G) i j)); [|injection H as H; exact H]. apply (V1 (i, j)).
        -- cbn. apply in_map_iff. exists (i, j, get (gW G) i j). split; [reflexivity|]. apply IN. repeat split; auto. congruence.
        -- left. reflexivity.
      * destruct (Nat.le_ge_cases i j) as [L|L].
        -- assert (H : Fin (wt G' i j) = Fin (get (gW G) i j)); [|injection H as H; exact H]. apply (V1 (i, j)).
           ++ cbn. apply in_map_iff. exists (i, j, get (gW G) i j). split; [reflexivity|]. apply IN. repeat split; auto.
           ++ left. reflexivity.
        -- assert (H : Fin (wt G' i j) = Fin (get (gW G) i j)); [|injection H as H; exact H]. apply (V1 (j, i)).
           ++ cbn. apply in_map_iff. exists (j, i, get (gW G) j i). rewrite (Sy eq_refl i j) by assumption. split; [reflexivity|]. apply IN.
              repeat split; auto. rewrite <- (Sy eq_refl i j) by assumption. exact NZ.
           ++ right. split; [exact Bd|reflexivity].
Qed.

Theorem C58_round_trip :
  forall G Sg, built G -> (1 <= g_n_vertices G)%nat -> sigs_ok (g_n_vertices G) Sg -> names_ok Sg ->
  (forall name s, dict_get name Sg = Some s -> nd_dims s = [] \/ exists k, nd_dims s = [k] /\ (2 <= k <= 10)%nat) ->
  exists g B G' D, to_networkx G Sg = Ok (g, B) /\ from_networkx g = Ok (G', D) /\
    g_n_vertices G' = g_n_vertices G /\
    (forall i j, (i < g_n_vertices G)%nat -> (j < g_n_vertices G)%nat -> wt G' i j = wt G i j) /\
    (forall name, dict_get name D = dict_get name Sg) /\
    g_lap_type G' = Combinatorial /\ g_coords G' = None.
Proof.
  intros G Sg HG Hn HS HN Hd.
  assert (H1 : forall p, In p Sg -> (List.length (nd_dims (snd p)) <= 1)%nat).
  { intros [k s] Hp. apply (in_dget k s Sg (proj1 HS)) in Hp. destruct (Hd k s Hp) as [E|(m & E & _)]; cbn; rewrite E; cbn; lia. }
  destruct (C04_edge_list_enumerates_every_edge_once G HG) as (l & El & _).
  destruct (round_trip_raw G Sg l HG Hn HS HN H1 El) as (G' & EG & _ & En & Ht & Hc & HW).
  destruct (C57_round_trip (g_n_vertices G) Sg HS HN) as (B & D & EB & EJ & ED).
  { intros name s k Hs Hk. destruct (Hd name s Hs) as [E|(m & E & Hm)]; rewrite E in Hk; [discriminate|]. injection Hk as <-. exact Hm. }
  assert (B = broken Sg) by (pose proof (break_eq Sg (proj1 HS) HN); congruence). subst B.
  exists (exported G Sg l), (broken Sg), G', D. split; [exact (export_eq G HG Sg HS HN H1 l El)|].
  split; [rewrite EG, EJ; reflexivity|]. auto.
Qed.

(** The two failures of the export and of the import. *)
Theorem C58_three_dimensional_signal_rejected :
  forall G name s a b, built G -> (1 <= g_n_vertices G)%nat -> nd_ok (g_n_vertices G) s -> nd_dims s = [a; b] -> (a * b <> 1)%nat ->
    to_networkx G [(name, s)] = Raise TypeError.
Proof.
  intros G name s a b HG Hn [Hl Hf] Hd Hab. unfold to_networkx, break_signals, break_one. cbn. rewrite String.eqb_refl, Hd. cbn [bindr].
  destruct (g_n_vertices G) as [|m]; [lia|]. cbn [seq mapres]. unfold nx_attrs. cbn [mapres snd fst].
  destruct (nd_rows s) as [|c rs]; [discriminate|]. cbn [nth_error]. rewrite Forall_forall in Hf. specialize (Hf c (or_introl eq_refl)). rewrite Hd in Hf.
  destruct c as [x|lc]; [destruct Hf|]. destruct Hf as [La Fa].
  assert (Lv : List.length (cell_values (Node lc)) = (a * b)%nat).
  { cbn. rewrite <- La. clear -Fa. induction lc as [|c l IH]; [reflexivity|]. inversion Fa as [|? ? Hc Hr]; subst. cbn [flat_map List.length]. rewrite app_length, IH by exact Hr.
    destruct c as [x|lb]; [destruct Hc|]. destruct Hc as [Lb Fb]. cbn. f_equal. rewrite <- Lb. clear -Fb. induction lb as [|c l IH]; [reflexivity|].
    inversion Fb as [|? ? Hc Hr]; subst. cbn [flat_map List.length]. rewrite app_length, IH by exact Hr. destruct c; [reflexivity|destruct Hc]. }
  unfold convert. destruct (cell_values (Node lc)) as [|x [|y r]]; try reflexivity. cbn in Lv. lia.
Qed.
(** A signal written into the dictionary without set_signal, with fewer values than vertices, makes the export fail. *)
Theorem C58_short_signal_rejected :
  forall G name l, built G -> (List.length l < g_n_vertices G)%nat -> to_networkx G [(name, mknd [] (map Leaf l))] = Raise IndexError.
Proof.
  intros G name l HG Hl. unfold to_networkx, break_signals, break_one. cbn [map fold_left fst bindr dict_get]. rewrite String.eqb_refl. cbn [nd_dims bindr].
  assert (F : forall a b, (a <= List.length l < a + b)%nat ->
    mapres (fun v => bindr (nx_attrs [(name, mknd [] (map Leaf l))] v) (fun x => Ok (v, x))) (seq a b) = Raise IndexError).
  { intros a b. revert a. induction b as [|b IH]; intros a H; [lia|]. cbn [seq mapres]. unfold nx_attrs at 1. cbn [mapres fst snd nd_rows].
    destruct (nth_error (map Leaf l) a) as [c|] eqn:E; [|reflexivity].
    assert (a < List.length l)%nat by (rewrite <- (map_length Leaf l); apply nth_error_Some; congruence).
    rewrite nth_error_map in E. destruct (nth_error l a) as [x|]; [|discriminate]. injection E as <-. cbn [convert cell_values bindr].
    rewrite IH by lia. reflexivity. }
  rewrite F by lia. reflexivity.
Qed.
Theorem C58_no_nodes_rejected : forall g, nx_nodes g = [] -> from_networkx g = Raise NetworkXError.
Proof. intros g H. unfold from_networkx. rewrite H. reflexivity. Qed.

(** A case that meets the hypotheses: two joined vertices, a 3-column signal and a 1-D one. *)
Definition pair_signals : sigs :=
  [("xyz", mknd [3%nat] [Node [f1 1; f1 2; f1 3]; Node [f1 4; f1 5; f1 6]]); ("t", mknd [] [f1 7; Leaf NaN])]%string.
Lemma pair_signals_ok : sigs_ok 2 pair_signals /\ names_ok pair_signals /\
  (forall name s, dict_get name pair_signals = Some s -> nd_dims s = [] \/ exists k, nd_dims s = [k] /\ (2 <= k <= 10)%nat).
Proof.
  assert (ND : NoDup ["xyz"; "t"]%string).
  { constructor; [intros [E|[]]; discriminate|]. constructor; [intros []|constructor]. }
  split; [|split].
  - split; [exact ND|]. repeat constructor.
  - apply C57_simple_names; [exact ND|]. intros name s [E|[E|[]]]; injection E as <- _; cbn; intuition discriminate.
  - intros name s H. apply dget_in in H. destruct H as [H|[H|[]]]; injection H as _ <-; cbn; [right; exists 3%nat; split; [reflexivity|lia]|left; reflexivity].
Qed.
Example C58_ex : exists G, built G /\ g_n_vertices G = 2%nat /\ g_lap_type G = Normalized /\ wt G 0 1 = 1 /\ wt G 0 0 = 5 /\
  sigs_ok (g_n_vertices G) pair_signals /\ names_ok pair_signals /\
  (forall name s, dict_get name pair_signals = Some s -> nd_dims s = [] \/ exists k, nd_dims s = [k] /\ (2 <= k <= 10)%nat).
Proof.
  destruct (finite_entry_built 2 [5; 1; 1; 0] Normalized None) as (G & _ & Hb & Hn & Ht & _ & Hw); [reflexivity|right; reflexivity|].
  exists G. split; [exact Hb|]. split; [exact Hn|]. split; [exact Ht|]. split; [apply (Hw 0%nat 1%nat); lia|]. split; [apply (Hw 0%nat 0%nat); lia|].
  rewrite Hn. destruct pair_signals_ok as (A & B & C). auto.
Qed.

(** Finding: exporting changes the graph it is called on: its 2-D signal is gone. *)
Theorem C58_export_breaks_the_signals_refuted :
  exists G g B, built G /\ to_networkx G pair_signals = Ok (g, B) /\ dict_get "xyz" pair_signals <> None /\ dict_get "xyz" B = None /\ dict_get "xyz_0" B <> None.
Proof.
  destruct C58_ex as (G & Hb & Hn & _ & _ & _ & HS & HN & Hd).
  destruct (C58_to_networkx G pair_signals Hb HS HN) as (g & B & E & EB & _).
  { intros name s Hs. destruct (Hd name s Hs) as [Z|(k & Z & _)]; rewrite Z; cbn; lia. }
  exists G, g, B. split; [exact Hb|]. split; [exact E|]. split; [discriminate|]. cbn in EB. injection EB as <-. split; [reflexivity|discriminate].
Qed.
(** Finding: the type of the Laplacian is not restored. *)
Theorem C58_laplacian_type_lost_refuted :
  exists G g B G' D, built G /\ g_lap_type G = Normalized /\ to_networkx G [] = Ok (g, B) /\ from_networkx g = Ok (G', D) /\ g_lap_type G' = Combinatorial.
Proof.
  destruct C58_ex as (G & Hb & Hn & Ht & _). destruct (C58_round_trip G [] Hb) as (g & B & G' & D & E1 & E2 & _ & _ & _ & E3 & _); [lia| | | |].
  - split; constructor.
  - apply C57_simple_names; [constructor|intros ? ? []].
  - intros ? ? H. discriminate H.
  - exists G, g, B, G', D. auto.
Qed.

(** ** C59: graph-tool *)

(** The exported graph has exactly the edges of G; its vertices go up to the last vertex that has an edge. *)
Theorem C59_to_graphtool_graph :
  forall G Sg g B, built G -> to_graphtool G Sg = Ok (g, B) ->
    break_signals Sg = Ok B /\ (gt_directed g = false <-> undirected G) /\ edge_bound G (gt_n g) /\ NoDup (map fst (gt_edges g)) /\
    (forall u v w, In (u, v, w) (gt_edges g) <->
       (u < g_n_vertices G)%nat /\ (v < g_n_vertices G)%nat /\ w = Fin (wt G u v) /\ wt G u v <> 0 /\ (undirected G -> (u <= v)%nat)).
Proof.
  intros G Sg g B HG H. destruct (C04_edge_list_enumerates_every_edge_once G HG) as (l & El & _ & ND & IN). unfold to_graphtool in H. rewrite El in H.
  cbn [bindr] in H. destruct (break_signals Sg) as [S'|]; [|discriminate]. cbn [bindr] in H.
  destruct (mapres _ S') as [pr|]; [|discriminate]. cbn [bindr] in H. injection H as <- <-. cbn [gt_directed gt_n gt_edges]. split; [reflexivity|].
  split; [rewrite is_directed_false; unfold undirected, wt; destruct (built_good G HG) as (_ & -> & _); tauto|].
  split; [exact (gt_vertices G l HG El)|]. split; [rewrite map_map; exact ND|].
  intros u v w. rewrite in_map_iff. split.
  - intros ([[i j] x] & E & He). cbn in E. injection E as <- <- <-. apply IN in He. destruct He as (? & ? & -> & ? & ?). auto.
  - intros (Hu & Hv & -> & Hw & Ho). exists (u, v, wt G u v). split; [reflexivity|]. apply IN. auto.
Qed.

Lemma flat_of_leaf s n : nd_ok n s -> nd_dims s = [] -> flat1 s = Ok (lx s).
Proof.
  intros Os Ds. unfold flat1. rewrite Ds. cbn [removelast forallb]. f_equal. rewrite (proj1 (lx_leaf n s Os Ds)) at 1. cbn. generalize (lx s). intros l.
  induction l as [|a l IH]; cbn; [reflexivity|]. rewrite IH. reflexivity.
Qed.

(** The export succeeds, and then every signal or column becomes a vertex property with its values. *)
Theorem C59_to_graphtool_signals :
  forall G Sg, built G -> sigs_ok (g_n_vertices G) Sg -> names_ok Sg -> edge_bound G (g_n_vertices G) ->
  (forall name s, dict_get name Sg = Some s -> (List.length (nd_dims s) <= 1)%nat) ->
  exists g B, to_graphtool G Sg = Ok (g, B) /\ gt_ok g /\ gt_n g = g_n_vertices G /\
    (forall name l, dict_get name (gt_props g) = Some l <-> column Sg name l).
Proof.
  intros G Sg HG HS HN Hm Hdim.
  assert (H1 : forall p, In p Sg -> (List.length (nd_dims (snd p)) <= 1)%nat).
  { intros [k s] Hp. apply (Hdim k). apply in_dget; [exact (proj1 HS)|exact Hp]. }
  destruct (C04_edge_list_enumerates_every_edge_once G HG) as (l & El & _ & _ & IN).
  pose proof (broken_keys_nodup Sg (proj1 HS) HN) as NB. pose proof (broken_1d (g_n_vertices G) Sg HS H1) as B1.
  assert (E : to_graphtool G Sg = Ok (mkgt (is_directed (gW G)) (g_n_vertices G) (map (fun e => (fst e, Fin (snd e))) l) (flatB (broken Sg)), broken Sg)).
  { unfold to_graphtool. rewrite El. cbn [bindr]. rewrite (edge_bound_unique G _ _ (gt_vertices G l HG El) Hm).
    rewrite (break_eq Sg (proj1 HS) HN). cbn [bindr]. rewrite (mapres_ok _ (fun p => (fst p, lx (snd p)))); [reflexivity|].
    intros p Hp. destruct (B1 p Hp) as [Os Ds]. rewrite (flat_of_leaf _ _ Os Ds). cbn [bindr]. unfold np_assign.
    rewrite (proj2 (lx_leaf _ _ Os Ds)), Nat.eqb_refl. reflexivity. }
  eexists. eexists. split; [exact E|]. split; [|split; [reflexivity|]].
  - split; [|split]; cbn [gt_edges gt_n gt_props].
    + intros u v w Hw. apply in_map_iff in Hw as ([[i j] x] & Ee & He). cbn in Ee. injection Ee as <- <- <-. apply IN in He.
      split; [tauto|]. split; [tauto|]. eexists; reflexivity.
    + unfold flatB. rewrite map_map. exact NB.
    + intros p Hp. unfold flatB in Hp. apply in_map_iff in Hp as (q & <- & Hq). destruct (B1 q Hq) as [Os Ds]. exact (proj2 (lx_leaf _ _ Os Ds)).
  - cbn [gt_props]. intros name lv. destruct (C57_break (g_n_vertices G) Sg HS HN) as (B' & EB' & _ & IB).
    assert (B' = broken Sg) by (pose proof (break_eq Sg (proj1 HS) HN); congruence). subst B'.
    assert (K : dict_get name (flatB (broken Sg)) = Some lv <-> exists s, dict_get name (broken Sg) = Some s /\ lx s = lv).
    { unfold flatB. clear. induction (broken Sg) as [|[k s] d IH]; cbn.
      - split; [discriminate|]. intros (s & H & _). discriminate.
      - destruct (String.eqb k name); [|exact IH]. split; [intros [= <-]; exists s; auto|]. intros (s' & [= <-] & <-). reflexivity. }
    rewrite K. split.
    + intros (s & Hs & <-). destruct (B1 (name, s) (dget_in _ _ _ Hs)) as [Os Ds]. cbn [snd] in *. destruct (lx_leaf _ s Os Ds) as [Es Ls].
      apply IB in Hs as [[Hs _]|(base & t & k & i & Ht & Hk & Hi & -> & ->)]; [left; rewrite <- Es; exact Hs|].
      right. destruct t as [ds rs]. cbn in Hk, Es. subst ds. exists base, k, rs, i. split; [exact Ht|]. split; [exact Hi|]. split; [reflexivity|].
      injection Es as Es. exact Es.
    + intros Hc. assert (Lx : lx (mknd [] (map Leaf lv)) = lv) by (unfold lx; cbn; rewrite map_map; apply map_id).
      exists (mknd [] (map Leaf lv)). split; [|exact Lx]. apply IB. destruct Hc as [Hc|(base & k & rows & i & Hb & Hi & -> & E')].
      * left. split; [exact Hc|]. intros [k Hk]. discriminate.
      * right. exists base, (mknd [k] rows), k, i. split; [exact Hb|]. split; [reflexivity|]. split; [exact Hi|]. split; [reflexivity|]. cbn. rewrite E'. reflexivity.
Qed.

(** The graph read from any graph-tool graph: parallel edges are added up, an undirected edge counts both ways, an undirected
    self-loop as many times as graph-tool's adjacency counts it. *)
Theorem C59_from_graphtool :
  forall loops g, gt_ok g -> exists G,
    from_graphtool loops g = bindr (join_signals (map (fun p => (fst p, mknd [] (map Leaf (snd p)))) (gt_props g))) (fun D => Ok (G, D)) /\
    built G /\ g_n_vertices G = gt_n g /\ g_lap_type G = Combinatorial /\ g_coords G = None /\
    (forall i j, (i < gt_n g)%nat -> (j < gt_n g)%nat ->
       (gt_directed g = true -> wt G i j = edge_total (gt_edges g) i j) /\
       (gt_directed g = false -> i <> j -> wt G i j = edge_total (gt_edges g) i j + edge_total (gt_edges g) j i) /\
       (gt_directed g = false -> wt G i i = INR loops * edge_total (gt_edges g) i i)).
Proof.
  intros loops g Hg. destruct (gt_graph loops g Hg) as (G & HG & Hb & En & Ht & Hc & HW). exists G. split; [|split; [exact Hb|split; [exact En|split; [exact Ht|split; [exact Hc|]]]]].
  - unfold from_graphtool. rewrite HG. cbn [bindr]. destruct Hg as (_ & ND & HL).
    rewrite (mapres_ok _ (fun p => (fst p, mknd [] (map Leaf (snd p))))).
    + cbn [bindr]. rewrite fold_set_fresh; [reflexivity|rewrite map_map; exact ND|intros k _ []].
    + intros p Hp. unfold check_signal. rewrite (HL p Hp), En, Nat.eqb_refl. reflexivity.
  - intros i j Hi Hj. rewrite En in HW. split; [|split]; intros Bd.
    + rewrite (HW i j Hi Hj), Bd. reflexivity.
    + intros Ne. rewrite (HW i j Hi Hj), Bd. destruct (Nat.eqb_spec i j); [contradiction|reflexivity].
    + rewrite (HW i i Hi Hi), Bd, Nat.eqb_refl. reflexivity.
Qed.

(** Exporting and importing: every weight is restored, an undirected self-loop multiplied by [loops]. *)
Theorem C59_round_trip :
  forall loops G Sg, built G -> sigs_ok (g_n_vertices G) Sg -> names_ok Sg -> edge_bound G (g_n_vertices G) ->
  (forall name s, dict_get name Sg = Some s -> nd_dims s = [] \/ exists k, nd_dims s = [k] /\ (2 <= k <= 10)%nat) ->
  exists g B G' D, to_graphtool G Sg = Ok (g, B) /\ from_graphtool loops g = Ok (G', D) /\
    g_n_vertices G' = g_n_vertices G /\
    (forall i j, (i < g_n_vertices G)%nat -> (j < g_n_vertices G)%nat ->
       (i <> j \/ ~ undirected G -> wt G' i j = wt G i j) /\ (undirected G -> wt G' i i = INR loops * wt G i i)) /\
    (forall name, dict_get name D = dict_get name Sg).
Proof.
  intros loops G Sg HG HS HN Hm Hd.
  assert (Hdim : forall name s, dict_get name Sg = Some s -> (List.length (nd_dims s) <= 1)%nat).
  { intros name s Hs. destruct (Hd name s Hs) as [E|(k & E & _)]; rewrite E; cbn; lia. }
  assert (H1 : forall p, In p Sg -> (List.length (nd_dims (snd p)) <= 1)%nat).
  { intros [k s] Hp. apply (Hdim k). apply in_dget; [exact (proj1 HS)|exact Hp]. }
  destruct (C04_edge_list_enumerates_every_edge_once G HG) as (l & El & _ & _ & IN).
  pose proof (broken_keys_nodup Sg (proj1 HS) HN) as NB. pose proof (broken_1d (g_n_vertices G) Sg HS H1) as B1.
  destruct (C59_to_graphtool_signals G Sg HG HS HN Hm Hdim) as (g & B & E & Hg & Egn & Hcol).
  destruct (C59_from_graphtool loops g Hg) as (G' & EG & Hb' & En & _ & _ & HW).
  destruct (C57_round_trip (g_n_vertices G) Sg HS HN) as (B' & D & EB & EJ & ED).
  { intros name s k Hs Hk. destruct (Hd name s Hs) as [Z|(m & Z & Hk')]; rewrite Z in Hk; [discriminate|]. injection Hk as <-. exact Hk'. }
  assert (B' = broken Sg) by (pose proof (break_eq Sg (proj1 HS) HN); congruence). subst B'.
  assert (Eg : g = mkgt (is_directed (gW G)) (g_n_vertices G) (map (fun e => (fst e, Fin (snd e))) l) (flatB (broken Sg))).
  { unfold to_graphtool in E. rewrite El in E. cbn [bindr] in E. rewrite (edge_bound_unique G _ _ (gt_vertices G l HG El) Hm) in E.
    rewrite EB in E. cbn [bindr] in E. rewrite (mapres_ok _ (fun p => (fst p, lx (snd p)))) in E.
    - cbn [bindr] in E. injection E as <- _. reflexivity.
    - intros p Hp. destruct (B1 p Hp) as [Os Ds]. rewrite (flat_of_leaf _ _ Os Ds). cbn [bindr]. unfold np_assign.
      rewrite (proj2 (lx_leaf _ _ Os Ds)), Nat.eqb_refl. reflexivity. }
  exists g, B, G', D. split; [exact E|].
  assert (EP : map (fun p => (fst p, mknd [] (map Leaf (snd p)))) (gt_props g) = broken Sg).
  { rewrite Eg. cbn [gt_props]. unfold flatB. rewrite map_map. rewrite <- (map_id (broken Sg)) at 2. apply map_ext_in. intros [k s] Hp. cbn.
    destruct (B1 (k, s) Hp) as [Os Ds]. rewrite <- (proj1 (lx_leaf _ s Os Ds)). reflexivity. }
  split; [rewrite EG, EP, EJ; reflexivity|]. split; [lia|]. split; [|exact ED].
  intros i j Hi Hj. rewrite <- Egn in Hi, Hj. destruct (HW i j Hi Hj) as (W1 & W2 & W3). rewrite Egn in Hi, Hj.
  rewrite Eg in W1, W2, W3. cbn [gt_directed gt_edges] in W1, W2, W3.
  assert (LT : forall a b, (a < g_n_vertices G)%nat -> (b < g_n_vertices G)%nat -> edge_total (map (fun e => (fst e, Fin (snd e))) l) a b = if (is_directed (gW G) || Nat.leb a b)%bool then wt G a b else 0).
  { intros a b Ha Hb. exact (list_total G l a b HG El Ha Hb). }
  assert (Un : is_directed (gW G) = false <-> undirected G) by (rewrite is_directed_false; unfold undirected, wt; destruct (built_good G HG) as (_ & -> & _); tauto).
  split.
  - intros Hc. destruct (is_directed (gW G)) eqn:Bd.
    + rewrite (W1 eq_refl), LT by assumption. reflexivity.
    + pose proof (proj1 Un eq_refl) as U. destruct Hc as [Ne|Nu]; [|contradiction]. rewrite (W2 eq_refl Ne), !LT by assumption. cbn [orb].
      destruct (Nat.leb_spec i j) as [L|L], (Nat.leb_spec j i) as [L'|L']; try lia; [lra|]. rewrite Rplus_0_l. apply U; assumption.
  - intros U. apply Un in U. rewrite (W3 U), LT by assumption. rewrite Nat.leb_refl, orb_true_r. reflexivity.
Qed.
Example C59_ex : exists G, built G /\ g_n_vertices G = 2%nat /\ edge_bound G (g_n_vertices G) /\ sigs_ok (g_n_vertices G) pair_signals /\ names_ok pair_signals /\
  (forall name s, dict_get name pair_signals = Some s -> nd_dims s = [] \/ exists k, nd_dims s = [k] /\ (2 <= k <= 10)%nat) /\ wt G 0 0 = 5 /\ undirected G.
Proof.
  destruct (finite_entry_built 2 [5; 1; 1; 0] Normalized None) as (G & _ & Hb & Hn & Ht & _ & Hw); [reflexivity|right; reflexivity|].
  exists G. split; [exact Hb|]. split; [exact Hn|]. destruct pair_signals_ok as (A & B & C). rewrite Hn. split.
  { split; [lia|]. split; [auto; lia|]. right. exists 0%nat. split; [lia|]. left. change (2 - 1)%nat with 1%nat. rewrite (Hw 1%nat 0%nat) by lia. cbn. lra. }
  split; [exact A|]. split; [exact B|]. split; [exact C|]. split; [apply (Hw 0%nat 0%nat); lia|].
  intros i j Hi Hj. rewrite Hn in Hi, Hj. rewrite !Hw by assumption. destruct i as [|[|i]], j as [|[|j]]; try lia; reflexivity.
Qed.

(** Findings.  Trailing vertices without edge disappear from the exported graph. *)
Theorem C59_isolated_vertices_dropped_refuted :
  forall loops G m, built G -> edge_bound G m -> (m < g_n_vertices G)%nat ->
    exists g G', to_graphtool G [] = Ok (g, []) /\ gt_n g = m /\ from_graphtool loops g = Ok (G', []) /\ (g_n_vertices G' < g_n_vertices G)%nat.
Proof.
  intros loops G m HG Hm Lt. destruct (C04_edge_list_enumerates_every_edge_once G HG) as (l & El & _ & ND & IN).
  assert (E : to_graphtool G [] = Ok (mkgt (is_directed (gW G)) m (map (fun e => (fst e, Fin (snd e))) l) [], [])).
  { unfold to_graphtool. rewrite El. cbn [bindr]. rewrite (edge_bound_unique G _ _ (gt_vertices G l HG El) Hm). reflexivity. }
  destruct (C59_to_graphtool_graph G [] _ _ HG E) as (_ & _ & Eb & _ & IE). cbn [gt_n gt_edges] in *.
  match type of E with _ = Ok (?x, _) => set (g := x) in * end.
  assert (Hg : gt_ok g).
  { split; [|split; [constructor|intros p []]]. intros u v w Hw. change (In (u, v, w) (map (fun e => (fst e, Fin (snd e))) l)) in Hw. apply IE in Hw as (Hu & Hv & -> & N & _).
    destruct Hm as (_ & Hm & _). destruct (Hm u v Hu Hv N). split; [assumption|]. split; [assumption|]. eexists; reflexivity. }
  destruct (C59_from_graphtool loops g Hg) as (G' & EG & _ & En & _). exists g, G'. split; [exact E|]. split; [reflexivity|]. split; [exact EG|]. rewrite En. exact Lt.
Qed.
(** With a 1-D signal the export then fails, unless there is a single vertex. *)
Theorem C59_isolated_vertices_signal_refuted :
  forall G m name l, built G -> edge_bound G m -> (m < g_n_vertices G)%nat -> (2 <= g_n_vertices G)%nat -> List.length l = g_n_vertices G ->
    to_graphtool G [(name, mknd [] (map Leaf l))] = Raise ValueError.
Proof.
  intros G m name l HG Hm Lt H2 Hl. destruct (C04_edge_list_enumerates_every_edge_once G HG) as (e & El & _).
  unfold to_graphtool. rewrite El. cbn [bindr]. rewrite (edge_bound_unique G _ _ (gt_vertices G e HG El) Hm).
  unfold break_signals, break_one. cbn [map fold_left fst bindr dict_get]. rewrite String.eqb_refl. cbn [nd_dims bindr mapres fst snd].
  unfold flat1. cbn [nd_dims bindr nd_rows removelast forallb].
  assert (F : flat_map cell_values (map Leaf l) = l) by (clear; induction l as [|a l IH]; cbn; [reflexivity|rewrite IH; reflexivity]). rewrite F.
  unfold np_assign. rewrite Hl. destruct (Nat.eqb_spec (g_n_vertices G) m); [lia|]. destruct l as [|a [|b r]]; cbn in Hl; try lia; reflexivity.
Qed.
(** A signal of more than two dimensions makes the export fail; on a graph with a single vertex it is flattened if
    all its axes but the last have length one. *)
Theorem C59_three_dimensional_signal_rejected :
  forall G name s a b r, built G -> nd_ok (g_n_vertices G) s -> nd_dims s = a :: b :: r -> (g_n_vertices G <> 1 \/ a <> 1)%nat ->
    to_graphtool G [(name, s)] = Raise ValueError.
Proof.
  intros G name s a b r HG (Hl & _) Hd H1. destruct (C04_edge_list_enumerates_every_edge_once G HG) as (e & El & _).
  unfold to_graphtool. rewrite El. cbn [bindr]. unfold break_signals, break_one. cbn [map fold_left fst bindr dict_get]. rewrite String.eqb_refl, Hd. cbn [bindr mapres fst snd].
  unfold flat1. rewrite Hd, Hl. change (removelast (g_n_vertices G :: a :: b :: r)) with (g_n_vertices G :: a :: removelast (b :: r)). cbn [forallb].
  replace (Nat.eqb 1 (g_n_vertices G) && (Nat.eqb 1 a && forallb (Nat.eqb 1) (removelast (b :: r))))%bool with false; [reflexivity|].
  destruct (Nat.eqb_spec 1 (g_n_vertices G)); [|reflexivity]. destruct (Nat.eqb_spec 1 a); [|reflexivity]. exfalso. lia.
Qed.
Theorem C59_three_dimensional_signal_of_one_vertex :
  forall G m name x, built G -> edge_bound G m -> g_n_vertices G = 1%nat ->
    exists g B, to_graphtool G [(name, mknd [1; 1]%nat [Node [Node [Leaf x]]])] = Ok (g, B) /\ gt_n g = m /\ gt_props g = [(name, repeat x m)].
Proof.
  intros G m name x HG Hm H1. destruct (C04_edge_list_enumerates_every_edge_once G HG) as (e & El & _).
  unfold to_graphtool. rewrite El. cbn [bindr]. rewrite (edge_bound_unique G _ _ (gt_vertices G e HG El) Hm).
  unfold break_signals, break_one. cbn [map fold_left fst bindr dict_get]. rewrite String.eqb_refl. cbn [nd_dims bindr mapres fst snd].
  unfold flat1. cbn [nd_dims bindr nd_rows List.length removelast forallb Nat.eqb andb flat_map cell_values app].
  assert (E : np_assign m [x] = Ok (repeat x m)) by (unfold np_assign; cbn [List.length]; destruct (Nat.eqb_spec 1 m) as [<-|]; reflexivity).
  rewrite E. cbn [bindr]. eexists. eexists. split; [reflexivity|]. split; reflexivity.
Qed.
(** With a single vertex numpy broadcasts the one value over no vertex at all: the export succeeds and the signal is lost. *)
Theorem C59_single_vertex_signal_lost_refuted :
  forall G name x, built G -> g_n_vertices G = 1%nat -> edge_bound G 0 ->
    exists g B, to_graphtool G [(name, mknd [] [Leaf x])] = Ok (g, B) /\ gt_n g = 0%nat /\ gt_props g = [(name, [])].
Proof.
  intros G name x HG H1 Hm. destruct (C04_edge_list_enumerates_every_edge_once G HG) as (e & El & _).
  unfold to_graphtool. rewrite El. cbn [bindr]. rewrite (edge_bound_unique G _ _ (gt_vertices G e HG El) Hm).
  unfold break_signals, break_one. cbn [map fold_left fst bindr dict_get]. rewrite String.eqb_refl. cbn [nd_dims bindr mapres fst snd].
  unfold flat1. cbn [nd_dims bindr nd_rows removelast forallb flat_map cell_values app]. unfold np_assign. cbn [List.length Nat.eqb repeat bindr].
  eexists. eexists. split; [reflexivity|]. split; reflexivity.
Qed.
Example C59_single_vertex_ex : exists G, built G /\ g_n_vertices G = 1%nat /\ edge_bound G 0.
Proof.
  destruct (finite_entry_built 1 [0] Combinatorial None) as (G & _ & Hb & Hn & Ht & _ & Hw); [reflexivity|left; reflexivity|].
  exists G. split; [exact Hb|]. split; [exact Hn|]. split; [lia|]. split; [|left; reflexivity].
  rewrite Hn. intros i j Hi Hj N. rewrite Hw in N by assumption. destruct i as [|i], j as [|j]; try lia; cbn in N; lra.
Qed.
Example C59_isolated_ex : exists G, built G /\ edge_bound G 2 /\ g_n_vertices G = 3%nat.
Proof.
  destruct (finite_entry_built 3 [0; 1; 0; 1; 0; 0; 0; 0; 0] Combinatorial None) as (G & _ & Hb & Hn & Ht & _ & Hw); [reflexivity|left; reflexivity|].
  exists G. split; [exact Hb|]. split; [|exact Hn]. split; [lia|]. split.
  - rewrite Hn. intros i j Hi Hj N. rewrite Hw in N by assumption. destruct i as [|[|[|i]]], j as [|[|[|j]]]; try lia; cbn in N; lra.
  - right. exists 0%nat. split; [lia|]. left. change (2 - 1)%nat with 1%nat. rewrite (Hw 1%nat 0%nat) by lia. cbn. lra.
Qed.
(** With the double counting of undirected self-loops that graph-tool documents, a self-loop comes back doubled. *)
Theorem C59_loops_doubled_refuted :
  exists G g B G' D, built G /\ undirected G /\ to_graphtool G [] = Ok (g, B) /\ from_graphtool 2 g = Ok (G', D) /\ wt G 0 0 = 5 /\ wt G' 0 0 = 10.
Proof.
  destruct C59_ex as (G & Hb & Hn & Hm & _ & _ & _ & W & U). destruct (C59_round_trip 2 G [] Hb) as (g & B & G' & D & E1 & E2 & _ & E3 & _).
  - split; constructor.
  - apply C57_simple_names; [constructor|intros ? ? []].
  - exact Hm.
  - intros ? ? H. discriminate H.
  - exists G, g, B, G', D. repeat (split; [assumption|]). destruct (E3 0%nat 0%nat) as [_ E]; [lia|lia|]. rewrite (E U), W. cbn. lra.
Qed.

(** ** C60: save and load *)

(** The format: the explicit one, else what follows the last dot of the file name. *)
Lemma has_slash s : existsb (Ascii.eqb "/"%char) (list_ascii_of_string s) = true <-> In "/"%char (list_ascii_of_string s).
Proof.
  rewrite existsb_exists. split; [intros (x & H & E); apply Ascii.eqb_eq in E; subst; exact H|]. intros H. exists "/"%char. split; [exact H|apply Ascii.eqb_refl].
Qed.
Lemma has_dot s : existsb (Ascii.eqb "."%char) (list_ascii_of_string s) = true <-> In "."%char (list_ascii_of_string s).
Proof.
  rewrite existsb_exists. split; [intros (x & H & E); apply Ascii.eqb_eq in E; subst; exact H|]. intros H. exists "."%char. split; [exact H|apply Ascii.eqb_refl].
Qed.
Lemma las_app s t : list_ascii_of_string (s ++ t) = list_ascii_of_string s ++ list_ascii_of_string t.
Proof. induction s as [|c s IH]; cbn; [reflexivity|rewrite IH; reflexivity]. Qed.
Lemma last_component_none s : ~ In "/"%char (list_ascii_of_string s) -> last_component s = s.
Proof.
  destruct s as [|c s]; intros H; [reflexivity|]. cbn [last_component]. destruct (existsb _ _) eqn:E; [apply has_slash in E; exfalso; apply H; right; exact E|].
  destruct (Ascii.eqb_spec c "/"%char) as [-> |]; [exfalso; apply H; left; reflexivity|reflexivity].
Qed.
Lemma last_component_dir d s : ~ In "/"%char (list_ascii_of_string s) -> last_component (d ++ "/" ++ s) = s.
Proof.
  intros H. induction d as [|c d IH].
  - change ("" ++ "/" ++ s)%string with (String "/" s). cbn [last_component]. destruct (existsb _ _) eqn:E; [apply has_slash in E; contradiction|]. reflexivity.
  - change (String c d ++ "/" ++ s)%string with (String c (d ++ "/" ++ s)). cbn [last_component].
    replace (existsb _ _) with true; [exact IH|]. symmetry. apply has_slash. rewrite las_app. apply in_or_app. right. left. reflexivity.
Qed.
Lemma from_last_dot_ext b e : ~ In "."%char (list_ascii_of_string e) -> from_last_dot (b ++ "." ++ e) = String "." e.
Proof.
  intros H. induction b as [|c b IH].
  - change ("" ++ "." ++ e)%string with (String "." e). cbn [from_last_dot]. destruct (existsb _ _) eqn:E; [apply has_dot in E; contradiction|]. reflexivity.
  - change (String c b ++ "." ++ e)%string with (String c (b ++ "." ++ e)). cbn [from_last_dot].
    replace (existsb _ _) with true; [exact IH|]. symmetry. apply has_dot. rewrite las_app. apply in_or_app. right. left. reflexivity.
Qed.
Lemma from_last_dot_none s : ~ In "."%char (list_ascii_of_string s) -> from_last_dot s = EmptyString.
Proof.
  destruct s as [|c s]; intros H; [reflexivity|]. cbn [from_last_dot]. destruct (existsb _ _) eqn:E; [apply has_dot in E; exfalso; apply H; right; exact E|].
  destruct (Ascii.eqb_spec c "."%char) as [-> |]; [exfalso; apply H; left; reflexivity|reflexivity].
Qed.
Lemma strip_app b t : (exists c, In c (list_ascii_of_string b) /\ c <> "."%char) -> exists b', strip_dots (b ++ t) = (b' ++ t)%string.
Proof.
  induction b as [|c b IH]; intros (x & Hx & Nx); [destruct Hx|]. change (String c b ++ t)%string with (String c (b ++ t)). cbn [strip_dots].
  destruct (Ascii.eqb_spec c "."%char) as [-> |Nc].
  - destruct Hx as [<-|Hx]; [congruence|]. apply IH. exists x. auto.
  - exists (String c b). reflexivity.
Qed.
Lemma strip_dots_all b t : (forall c, In c (list_ascii_of_string b) -> c = "."%char) -> strip_dots (b ++ t) = strip_dots t.
Proof.
  induction b as [|c b IH]; intros H; [reflexivity|]. change (String c b ++ t)%string with (String c (b ++ t)). cbn [strip_dots].
  rewrite (H c) by (left; reflexivity). rewrite Ascii.eqb_refl. apply IH. intros x Hx. apply H. right. exact Hx.
Qed.

Definition with_dir (d : option string) (file : string) : string := match d with None => file | Some d => (d ++ "/" ++ file)%string end.

Theorem C60_format :
  (forall path f, the_fmt path (Some f) = f) /\
  (forall d base ext, ~ In "/"%char (list_ascii_of_string (base ++ "." ++ ext)) -> ~ In "."%char (list_ascii_of_string ext) ->
     (exists c, In c (list_ascii_of_string base) /\ c <> "."%char) -> the_fmt (with_dir d (base ++ "." ++ ext)) None = ext) /\
  (forall d file, ~ In "/"%char (list_ascii_of_string file) -> ~ In "."%char (list_ascii_of_string file) -> the_fmt (with_dir d file) None = EmptyString) /\
  (forall d dots ext, ~ In "/"%char (list_ascii_of_string (dots ++ ext)) -> (forall c, In c (list_ascii_of_string dots) -> c = "."%char) ->
     ~ In "."%char (list_ascii_of_string ext) -> the_fmt (with_dir d (dots ++ ext)) None = EmptyString).
Proof.
  assert (L : forall d f, ~ In "/"%char (list_ascii_of_string f) -> last_component (with_dir d f) = f).
  { intros [d|] f H; [apply last_component_dir|apply last_component_none]; exact H. }
  assert (S0 : forall s, ~ In "."%char (list_ascii_of_string s) -> strip_dots s = s).
  { intros [|c s] H; [reflexivity|]. cbn. destruct (Ascii.eqb_spec c "."%char) as [-> |]; [exfalso; apply H; left; reflexivity|reflexivity]. }
  split; [reflexivity|]. split; [|split].
  - intros d b e Hs He Hb. unfold the_fmt, splitext. rewrite L by exact Hs. destruct (strip_app b ("." ++ e) Hb) as (b' & ->).
    rewrite from_last_dot_ext by exact He. reflexivity.
  - intros d f Hs Hd. unfold the_fmt, splitext. rewrite L by exact Hs. rewrite S0 by exact Hd. rewrite from_last_dot_none by exact Hd. reflexivity.
  - intros d dots e Hs Hd He. unfold the_fmt, splitext. rewrite L by exact Hs. rewrite strip_dots_all by exact Hd. rewrite S0 by exact He.
    rewrite from_last_dot_none by exact He. reflexivity.
Qed.
Example C60_format_ex : the_fmt "out.d/logo.v2.gexf" None = "gexf"%string /\ the_fmt "out.d/logo" None = ""%string /\ the_fmt ".gml" None = ""%string /\
  the_fmt "out/..a.gml" None = "gml"%string.
Proof. repeat split; reflexivity. Qed.

Definition supported (f : string) : Prop := f = "graphml"%string \/ f = "gml"%string \/ f = "gexf"%string.
Lemma fmt_ok_iff f : fmt_ok f = true <-> supported f.
Proof.
  unfold fmt_ok, supported. cbn. rewrite !orb_true_iff, !String.eqb_eq. split; [intros [H|[H|[H|H]]]; auto; discriminate|intuition].
Qed.

Definition import_error {A} (r : res A) : Prop := r = Raise ImportError.

(** What is tried, and what comes out, for every path, format, backend argument and outcome of the two packages. *)
Theorem C60_dispatch :
  forall A (nx gt : string -> string -> res A) path fmt backend_arg,
    let f := the_fmt path fmt in
    (~ supported f -> dispatch nx gt path fmt backend_arg = ([], Raise ValueError)) /\
    (supported f ->
       (backend_arg = Some "networkx"%string -> dispatch nx gt path fmt backend_arg = ([NetworkX], nx path f)) /\
       (backend_arg = Some "graph-tool"%string -> dispatch nx gt path fmt backend_arg = ([GraphTool], gt path f)) /\
       (forall b, backend_arg = Some b -> b <> "networkx"%string -> b <> "graph-tool"%string -> dispatch nx gt path fmt backend_arg = ([], Raise ValueError)) /\
       (backend_arg = None -> ~ import_error (nx path f) -> dispatch nx gt path fmt backend_arg = ([NetworkX], nx path f)) /\
       (backend_arg = None -> import_error (nx path f) -> dispatch nx gt path fmt backend_arg = ([NetworkX; GraphTool], gt path f))).
Proof.
  intros A nx gt path fmt ba f. unfold dispatch. fold f. split.
  - intros H. destruct (fmt_ok f) eqn:E; [apply fmt_ok_iff in E; contradiction|reflexivity].
  - intros H. apply fmt_ok_iff in H. rewrite H. cbn [negb]. split; [|split; [|split; [|split]]].
    + intros ->. reflexivity.
    + intros ->. reflexivity.
    + intros b -> N1 N2. destruct (String.eqb_spec b "networkx"); [contradiction|]. destruct (String.eqb_spec b "graph-tool"); [contradiction|reflexivity].
    + intros -> N. unfold import_error in N. destruct (nx path f) as [a|[]]; try reflexivity. congruence.
    + intros -> E. unfold import_error in E. rewrite E. f_equal. destruct (gt path f) as [a|[]]; reflexivity.
Qed.

(** A file format that gives back the NetworkX graph it was given restores the weights and the signals, whatever the state of
    graph-tool; with the default backend as with the explicit one. *)
Theorem C60_save_then_load :
  forall G Sg path fmt fmt' b b' (gts : string -> string -> res (nxgraph * sigs)) (gtl : string -> string -> res (graph * sigs)),
  built G -> (1 <= g_n_vertices G)%nat -> sigs_ok (g_n_vertices G) Sg -> names_ok Sg ->
  (forall name s, dict_get name Sg = Some s -> nd_dims s = [] \/ exists k, nd_dims s = [k] /\ (2 <= k <= 10)%nat) ->
  supported (the_fmt path fmt) -> supported (the_fmt path fmt') ->
  (b = None \/ b = Some "networkx"%string) -> (b' = None \/ b' = Some "networkx"%string) ->
  exists g B G' D, dispatch (fun _ _ => to_networkx G Sg) gts path fmt b = ([NetworkX], Ok (g, B)) /\
    dispatch (fun _ _ => from_networkx g) gtl path fmt' b' = ([NetworkX], Ok (G', D)) /\
    g_n_vertices G' = g_n_vertices G /\
    (forall i j, (i < g_n_vertices G)%nat -> (j < g_n_vertices G)%nat -> wt G' i j = wt G i j) /\
    (forall name, dict_get name D = dict_get name Sg).
Proof.
  intros G Sg path fmt fmt' b b' gts gtl HG Hn HS HN Hd F1 F2 Hb Hb'.
  destruct (C58_round_trip G Sg HG Hn HS HN Hd) as (g & B & G' & D & E1 & E2 & E3 & E4 & E5 & _). exists g, B, G', D.
  destruct (C60_dispatch _ (fun _ _ => to_networkx G Sg) gts path fmt b) as [_ D1]. destruct (D1 F1) as (A1 & _ & _ & A2 & _).
  destruct (C60_dispatch _ (fun _ _ => from_networkx g) gtl path fmt' b') as [_ D2]. destruct (D2 F2) as (B1 & _ & _ & B2 & _).
  split; [|split; [|auto]].
  - rewrite <- E1. destruct Hb as [Hb|Hb]; [apply A2; [exact Hb|]; unfold import_error; rewrite E1; discriminate|exact (A1 Hb)].
  - rewrite <- E2. destruct Hb' as [Hb'|Hb']; [apply B2; [exact Hb'|]; unfold import_error; rewrite E2; discriminate|exact (B1 Hb')].
Qed.
Example C60_ex : supported (the_fmt "logo.gexf" None) /\ ~ supported (the_fmt "logo.GML" None) /\ ~ supported (the_fmt "logo" None).
Proof. unfold supported. cbn. split; [auto|]. split; intuition discriminate. Qed.

Print Assumptions C57_round_trip.
Print Assumptions C58_round_trip.
Print Assumptions C59_round_trip.
Print Assumptions C60_save_then_load.
