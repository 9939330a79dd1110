(** C46 (Grid2d) and C47 (Torus). *)
From Coq Require Import Reals Lra Lia List Arith Bool String.
From Coq Require Import List.
From Verif.Base Require Import RSum Prelude.
From Verif.Spec Require Import Matrix GraphSpec Card Reach GenSpec.
From Verif.Model Require Import Sparse Graph Utils Reduction Generators.
From Verif.Proofs Require Import SparseFacts InitFacts EdgeFacts SubgraphFacts GenFacts.
From Verif.Props Require Import Core Traversal UtilsProps ReductionProps GenProps.
Import ListNotations.
Open Scope R_scope.

(** ** Positions *)
Lemma pos_of w v : (0 < w)%nat -> v = (w * rowof w v + colof w v)%nat /\ (colof w v < w)%nat.
Proof. intros Hw. split; [apply Nat.div_mod; lia|apply Nat.mod_upper_bound; lia]. Qed.
Lemma row_lt w m v : (0 < w)%nat -> (v < m * w)%nat -> (rowof w v < m)%nat.
Proof. intros Hw Hv. unfold rowof. apply Nat.div_lt_upper_bound; lia. Qed.
Lemma pos_lt w m r c : (r < m)%nat -> (c < w)%nat -> (w * r + c < m * w)%nat.
Proof. intros. nia. Qed.
Lemma pos_inj w r c r' c' : (c < w)%nat -> (c' < w)%nat -> (w * r + c = w * r' + c')%nat -> r = r' /\ c = c'.
Proof. intros H H' E. apply (Nat.div_mod_unique w r r' c c'); assumption. Qed.
Lemma row_pos w r c : (c < w)%nat -> rowof w (w * r + c) = r.
Proof. intros H. destruct (pos_of w (w * r + c)) as (E & H'); [lia|]. symmetry. apply (pos_inj w r c _ _ H H' E). Qed.
Lemma col_pos w r c : (c < w)%nat -> colof w (w * r + c) = c.
Proof. intros H. destruct (pos_of w (w * r + c)) as (E & H'); [lia|]. symmetry. apply (pos_inj w r c _ _ H H' E). Qed.
Lemma next_row_start w r c : (c < w)%nat -> Nat.eqb (Nat.modulo (w * r + c + 1) w) 0 = Nat.eqb (c + 1) w.
Proof.
  intros H. destruct (Nat.eqb_spec (c + 1) w) as [E|E].
  - replace (w * r + c + 1)%nat with (0 + (r + 1) * w)%nat by nia. rewrite Nat.mod_add by lia. rewrite Nat.mod_0_l by lia. reflexivity.
  - replace (w * r + c + 1)%nat with (w * r + (c + 1))%nat by lia. change (Nat.modulo (w * r + (c + 1)) w) with (colof w (w * r + (c + 1))). rewrite col_pos by lia.
    destruct (Nat.eqb_spec (c + 1) 0); [lia|reflexivity].
Qed.
Lemma bool_iff (a b : bool) : (a = true <-> b = true) -> a = b.
Proof. destruct a, b; intuition; symmetry; intuition. Qed.

(** Lists over a rectangle *)
Definition rect {B} (a b : nat) (f : nat -> nat -> B) : list B := flat_map (fun r => map (f r) (seq 0 b)) (seq 0 a).
Lemma rect_in {B} a b (f : nat -> nat -> B) x : In x (rect a b f) <-> exists r c, (r < a)%nat /\ (c < b)%nat /\ f r c = x.
Proof.
  unfold rect. rewrite in_flat_map. split.
  - intros (r & Hr & H). apply in_seq in Hr. apply map_seq_in in H. destruct H as (c & Hc & E). exists r, c. split; [lia|]. split; [lia|exact E].
  - intros (r & c & Hr & Hc & E). exists r. split; [apply in_seq; lia|]. apply map_seq_in. exists c. split; [lia|exact E].
Qed.
Lemma const_sum (m : nat) (l : list nat) : list_sum (map (fun _ => m) l) = (List.length l * m)%nat.
Proof. induction l as [|a l IH]; [reflexivity|]. change (m + list_sum (map (fun _ => m) l) = S (List.length l) * m)%nat. rewrite IH. lia. Qed.
Lemma rect_len {B} a b (f : nat -> nat -> B) : List.length (rect a b f) = (a * b)%nat.
Proof.
  unfold rect. rewrite flat_map_length_sum. rewrite (map_ext _ (fun _ => b)) by (intros; rewrite map_length, seq_length; reflexivity).
  rewrite const_sum, seq_length. reflexivity.
Qed.
Lemma rect_nodup {B} a b (f : nat -> nat -> B) :
  (forall r c r' c', (r < a)%nat -> (c < b)%nat -> (r' < a)%nat -> (c' < b)%nat -> f r c = f r' c' -> r = r' /\ c = c') -> NoDup (rect a b f).
Proof.
  intros H. apply NoDup_flat_map; [apply seq_NoDup| |].
  - intros r Hr. apply in_seq in Hr. apply map_seq_nodup. intros s t Hs Ht E. apply (H r s r t); try lia. exact E.
  - intros r r' x Hr Hr' H1 H2. apply in_seq in Hr, Hr'. rewrite map_seq_in in H1, H2. destruct H1 as (c & Hc & <-), H2 as (c' & Hc' & E).
    symmetry. apply (H r' c' r c); try lia. exact E.
Qed.

(** ** C46: Grid2d *)
Definition lower (d : R) (r c r' c' : nat) : R :=
  (if (Nat.eqb r r' && Nat.eqb c (c' + 1))%bool then 1 else 0) + (if (Nat.eqb r (r' + 1) && Nat.eqb c c')%bool then 1 else 0) +
  ((if (Nat.eqb r (r' + 1) && Nat.eqb c (c' + 1))%bool then d else 0) + (if (Nat.eqb r (r' + 1) && Nat.eqb (c + 1) c')%bool then d else 0)).
Lemma grid_lower N1 N2 d r c r' c' : (2 <= N2)%nat -> (r < N1)%nat -> (r' < N1)%nat -> (c < N2)%nat -> (c' < N2)%nat ->
  grid_matrix N1 N2 d (N2 * r + c)%nat (N2 * r' + c')%nat = lower d r c r' c'.
Proof.
  intros H2 Hr Hr' Hc Hc'. unfold grid_matrix, grid_base, grid_diag, lower.
  rewrite next_row_start by assumption. change (Nat.modulo (N2 * r' + c') N2) with (colof N2 (N2 * r' + c')). rewrite col_pos by assumption.
  assert (Hi : (N2 * r + c < N1 * N2)%nat) by (apply pos_lt; assumption). assert (Hj : (N2 * r' + c' < N1 * N2)%nat) by (apply pos_lt; assumption).
  set (N := (N1 * N2)%nat) in *.
  assert (A1 : (if (Nat.eqb (N2 * r + c) (N2 * r' + c' + 1) && Nat.ltb (N2 * r' + c') (N - 1))%bool then (if Nat.eqb (c' + 1) N2 then 0 else 1) else 0) =
               (if (Nat.eqb r r' && Nat.eqb c (c' + 1))%bool then 1 else 0)).
  { destruct (Nat.eqb_spec (c' + 1) N2) as [E|E].
    - replace (Nat.eqb r r' && Nat.eqb c (c' + 1))%bool with false; [match goal with |- (if ?b then 0 else 0) = _ => destruct b end; reflexivity|]. symmetry. apply andb_false_iff. right. apply Nat.eqb_neq. lia.
    - replace (Nat.eqb (N2 * r + c) (N2 * r' + c' + 1) && Nat.ltb (N2 * r' + c') (N - 1))%bool with (Nat.eqb r r' && Nat.eqb c (c' + 1))%bool; [reflexivity|].
      apply bool_iff. rewrite !andb_true_iff, !Nat.eqb_eq, Nat.ltb_lt. split.
      + intros (-> & ->). lia.
      + intros (E' & _). apply (pos_inj N2 r c r' (c' + 1)); lia. }
  assert (A2 : (if (Nat.eqb (N2 * r + c) (N2 * r' + c' + N2) && Nat.ltb (N2 * r' + c') (N - N2))%bool then 1 else 0) = (if (Nat.eqb r (r' + 1) && Nat.eqb c c')%bool then 1 else 0)).
  { replace (Nat.eqb (N2 * r + c) (N2 * r' + c' + N2) && Nat.ltb (N2 * r' + c') (N - N2))%bool with (Nat.eqb r (r' + 1) && Nat.eqb c c')%bool; [reflexivity|].
    apply bool_iff. rewrite !andb_true_iff, !Nat.eqb_eq, Nat.ltb_lt. split.
    + intros (-> & ->). split; nia.
    + intros (E' & _). apply (pos_inj N2 r c (r' + 1) c'); nia. }
  rewrite A1, A2. f_equal.
  assert (A3 : (if (Nat.eqb (N2 * r + c) (N2 * r' + c' + (N2 + 1)) && Nat.ltb (N2 * r' + c') (N - N2 - 1))%bool then (if Nat.eqb (c' + 1) N2 then 0 else d) else 0) =
               (if (Nat.eqb r (r' + 1) && Nat.eqb c (c' + 1))%bool then d else 0)).
  { destruct (Nat.eqb_spec (c' + 1) N2) as [E|E].
    - replace (Nat.eqb r (r' + 1) && Nat.eqb c (c' + 1))%bool with false; [match goal with |- (if ?b then 0 else 0) = _ => destruct b end; reflexivity|]. symmetry. apply andb_false_iff. right. apply Nat.eqb_neq. lia.
    - replace (Nat.eqb (N2 * r + c) (N2 * r' + c' + (N2 + 1)) && Nat.ltb (N2 * r' + c') (N - N2 - 1))%bool with (Nat.eqb r (r' + 1) && Nat.eqb c (c' + 1))%bool; [reflexivity|].
      apply bool_iff. rewrite !andb_true_iff, !Nat.eqb_eq, Nat.ltb_lt. split.
      + intros (-> & ->). split; nia.
      + intros (E' & _). apply (pos_inj N2 r c (r' + 1) (c' + 1)); nia. }
  assert (A4 : (if (Nat.eqb (N2 * r + c) (N2 * r' + c' + (N2 - 1)) && Nat.ltb (N2 * r' + c') (N - N2 + 1))%bool then (if Nat.eqb c' 0 then 0 else d) else 0) =
               (if (Nat.eqb r (r' + 1) && Nat.eqb (c + 1) c')%bool then d else 0)).
  { destruct (Nat.eqb_spec c' 0) as [E|E].
    - replace (Nat.eqb r (r' + 1) && Nat.eqb (c + 1) c')%bool with false; [match goal with |- (if ?b then 0 else 0) = _ => destruct b end; reflexivity|]. symmetry. apply andb_false_iff. right. apply Nat.eqb_neq. lia.
    - replace (Nat.eqb (N2 * r + c) (N2 * r' + c' + (N2 - 1)) && Nat.ltb (N2 * r' + c') (N - N2 + 1))%bool with (Nat.eqb r (r' + 1) && Nat.eqb (c + 1) c')%bool; [reflexivity|].
      apply bool_iff. rewrite !andb_true_iff, !Nat.eqb_eq, Nat.ltb_lt. split.
      + intros (-> & <-). split; nia.
      + intros (E' & _). destruct (pos_inj N2 r c (r' + 1) (c' - 1)); nia. }
  rewrite A3, A4. destruct (Nat.ltb_spec 1 (Nat.min N1 N2)) as [Hm|Hm]; cbn [andb].
  - destruct (Reqb_spec d 0) as [->|Hd]; cbn [negb]; [|reflexivity]. repeat match goal with |- context [if ?b then 0 else 0] => destruct b end; lra.
  - replace (Nat.eqb r (r' + 1)) with false by (symmetry; apply Nat.eqb_neq; lia). cbn [andb]. lra.
Qed.
(** The weight between two positions. *)
Definition gw (d : R) (r c r' c' : nat) : R :=
  if Nat.eqb (ndist r r' + ndist c c') 1 then 1 else if (Nat.eqb (ndist r r') 1 && Nat.eqb (ndist c c') 1)%bool then Rmax d 0 else 0.
Ltac eqbs := repeat match goal with |- context [Nat.eqb ?a ?b] => destruct (Nat.eqb_spec a b) end; cbn [andb]; try (exfalso; unfold ndist in *; lia).
Lemma lower_gw d r c r' c' : (r' < r \/ r = r' /\ c' < c)%nat -> Rmax (lower d r c r' c') 0 = gw d r c r' c'.
Proof.
  intros H. unfold lower, gw. destruct H as [H|(-> & H)].
  - replace (Nat.eqb r r') with false by (symmetry; apply Nat.eqb_neq; lia). cbn [andb]. eqbs; unfold Rmax; repeat destruct Rle_dec; lra.
  - replace (Nat.eqb r' (r' + 1)) with false by (symmetry; apply Nat.eqb_neq; lia). cbn [andb]. eqbs; unfold Rmax; repeat destruct Rle_dec; lra.
Qed.
Lemma grid_sym N1 N2 d : exists S', symmetrize (mkmarg true (N1 * N2) (N1 * N2) (grid_matrix N1 N2 d)) "tril"%string = Ok S' /\
  forall r c r' c', (2 <= N2)%nat -> (r < N1)%nat -> (r' < N1)%nat -> (c < N2)%nat -> (c' < N2)%nat -> S' (N2 * r + c)%nat (N2 * r' + c')%nat = gw d r c r' c'.
Proof.
  unfold symmetrize. cbn [m_rows m_cols m_sparse m_get]. rewrite Nat.eqb_refl. cbn [negb]. eexists. split; [reflexivity|].
  intros r c r' c' H2 Hr Hr' Hc Hc'. rewrite sym_max_is_max. unfold tril.
  destruct (Nat.lt_trichotomy (N2 * r + c) (N2 * r' + c')) as [H|[H|H]].
  - destruct (Nat.leb_spec (N2 * r' + c') (N2 * r + c)); [lia|]. destruct (Nat.leb_spec (N2 * r + c) (N2 * r' + c')); [|lia].
    rewrite Rmax_comm, grid_lower by assumption. rewrite lower_gw by nia. unfold gw.
    replace (ndist r' r) with (ndist r r') by (unfold ndist; lia). replace (ndist c' c) with (ndist c c') by (unfold ndist; lia). reflexivity.
  - apply pos_inj in H; try assumption. destruct H as (-> & ->). rewrite Nat.leb_refl. rewrite grid_lower by assumption. unfold lower, gw. eqbs. unfold Rmax. destruct Rle_dec; lra.
  - destruct (Nat.leb_spec (N2 * r' + c') (N2 * r + c)); [|lia]. destruct (Nat.leb_spec (N2 * r + c) (N2 * r' + c')); [lia|].
    rewrite grid_lower by assumption. apply lower_gw. nia.
Qed.
Definition grid_edges (N1 N2 : nat) (diag : bool) : list (nat * nat) :=
  (rect N1 (N2 - 1) (fun r c => (N2 * r + c, N2 * r + (c + 1)))%nat ++ rect (N1 - 1) N2 (fun r c => (N2 * r + c, N2 * (r + 1) + c))%nat ++
  if diag then rect (N1 - 1) (N2 - 1) (fun r c => (N2 * r + c, N2 * (r + 1) + (c + 1)))%nat ++ rect (N1 - 1) (N2 - 1) (fun r c => (N2 * r + (c + 1), N2 * (r + 1) + c))%nat else [])%list.
Ltac posinj E := match type of E with (?a, ?b) = (?a', ?b') => let H1 := fresh in let H2 := fresh in
  assert (H1 : a = a') by (injection E; auto); assert (H2 : b = b') by (injection E; auto); clear E; apply pos_inj in H1; [|lia|lia]; apply pos_inj in H2; [|lia|lia] end.
Lemma grid_edges_nodup N1 N2 diag : NoDup (grid_edges N1 N2 diag).
Proof.
  unfold grid_edges. apply NoDup_app_disj; [apply rect_nodup; intros * ? ? ? ? E; posinj E; lia| |].
  - apply NoDup_app_disj; [apply rect_nodup; intros * ? ? ? ? E; posinj E; lia| |].
    + destruct diag; [|constructor]. apply NoDup_app_disj; [apply rect_nodup; intros * ? ? ? ? E; posinj E; lia|apply rect_nodup; intros * ? ? ? ? E; posinj E; lia|].
      intros x. rewrite !rect_in. intros (r & c & Hr & Hc & <-) (r' & c' & Hr' & Hc' & E). posinj E. lia.
    + destruct diag; [|intros x _ []]. intros x. rewrite in_app_iff, !rect_in. intros (r & c & Hr & Hc & <-) [(r' & c' & Hr' & Hc' & E)|(r' & c' & Hr' & Hc' & E)]; posinj E; lia.
  - intros x. destruct diag; rewrite !in_app_iff, !rect_in.
    + intros (r & c & Hr & Hc & <-) [(r' & c' & Hr' & Hc' & E)|[(r' & c' & Hr' & Hc' & E)|(r' & c' & Hr' & Hc' & E)]]; posinj E; lia.
    + intros (r & c & Hr & Hc & <-) [(r' & c' & Hr' & Hc' & E)|[]]; posinj E; lia.
Qed.
Lemma grid_edges_in N1 N2 diag r c r' c' : (r < N1)%nat -> (r' < N1)%nat -> (c < N2)%nat -> (c' < N2)%nat ->
  In (N2 * r + c, N2 * r' + c')%nat (grid_edges N1 N2 diag) <->
  (r = r' /\ c' = c + 1 \/ r' = r + 1 /\ c = c')%nat \/ diag = true /\ (r' = r + 1 /\ (c' = c + 1 \/ c = c' + 1))%nat.
Proof.
  intros Hr Hr' Hc Hc'. unfold grid_edges. rewrite !in_app_iff. split.
  - intros [H|[H|H]].
    + apply rect_in in H. destruct H as (a & b & Ha & Hb & E). posinj E. left; left; lia.
    + apply rect_in in H. destruct H as (a & b & Ha & Hb & E). posinj E. left; right; lia.
    + destruct diag; [|destruct H]. right. split; [reflexivity|]. apply in_app_iff in H. rewrite !rect_in in H. destruct H as [(a & b & Ha & Hb & E)|(a & b & Ha & Hb & E)]; posinj E; lia.
  - intros [[(-> & ->)|(-> & ->)]|(-> & -> & [-> | ->])].
    + left. apply rect_in. exists r', c. split; [lia|]. split; [lia|]. reflexivity.
    + right; left. apply rect_in. exists r, c'. split; [lia|]. split; [lia|]. reflexivity.
    + right; right. apply in_app_iff; left. apply rect_in. exists r, c. split; [lia|]. split; [lia|]. reflexivity.
    + right; right. apply in_app_iff; right. apply rect_in. exists r, c'. split; [lia|]. split; [lia|]. reflexivity.
Qed.
(** Grid2d(N1, N2, diagonal) for N2 >= 2: weight 1 between horizontal and vertical neighbours, max(diagonal, 0) between diagonal neighbours,
    0 elsewhere. *)
Theorem C46_grid N1 N2 d lap : (1 <= N1)%nat -> (2 <= N2)%nat -> valid_lap lap ->
  exists G, Grid2d N1 (Some N2) d lap = Ok G /\ built G /\ g_n_vertices G = (N1 * N2)%nat /\
    (forall i j, (i < N1 * N2)%nat -> (j < N1 * N2)%nat ->
       (straight N2 i j -> wt G i j = 1) /\ (oblique N2 i j -> wt G i j = Rmax d 0) /\ (~ straight N2 i j -> ~ oblique N2 i j -> wt G i j = 0)) /\
    undirected G /\ loop_free G /\ nonneg_weights G /\ connected G /\
    g_n_edges G = (N1 * (N2 - 1) + (N1 - 1) * N2 + if Rltb 0 d then 2 * ((N1 - 1) * (N2 - 1)) else 0)%nat /\ g_coords G = Some (grid_coords N1 N2).
Proof.
  intros H1 H2 Hl. unfold Grid2d. destruct (Nat.eqb_spec N1 0); [lia|]. destruct (Nat.eqb_spec N2 0); [lia|]. destruct (Nat.eqb_spec N2 1); [lia|]. cbn [orb].
  destruct (grid_sym N1 N2 d) as (S' & E & HS). rewrite E. cbn [bindr].
  destruct (finite_entry_built (N1 * N2) (dense (N1 * N2) S') lap (Some (grid_coords N1 N2)) (dense_len _ _) Hl) as (G & EG & Hb & Hn & Ht & Hc & Hw).
  assert (P : forall i, (i < N1 * N2)%nat -> exists r c, (r < N1)%nat /\ (c < N2)%nat /\ i = (N2 * r + c)%nat).
  { intros i Hi. destruct (pos_of N2 i ltac:(lia)) as (E' & Hc'). exists (rowof N2 i), (colof N2 i). split; [apply row_lt; lia|]. split; [exact Hc'|exact E']. }
  assert (HW : forall r c r' c', (r < N1)%nat -> (r' < N1)%nat -> (c < N2)%nat -> (c' < N2)%nat -> wt G (N2 * r + c)%nat (N2 * r' + c')%nat = gw d r c r' c').
  { intros. rewrite Hw by (apply pos_lt; assumption). rewrite dense_nth by (apply pos_lt; assumption). apply HS; assumption. }
  assert (Hu : undirected G). { intros i j Hi Hj. rewrite Hn in Hi, Hj. destruct (P i Hi) as (r & c & Hr & Hc' & ->), (P j Hj) as (r' & c' & Hr' & Hc'' & ->). rewrite !HW by assumption.
    unfold gw. replace (ndist r' r) with (ndist r r') by (unfold ndist; lia). replace (ndist c' c) with (ndist c c') by (unfold ndist; lia). reflexivity. }
  assert (Hnn : nonneg_weights G). { intros i j Hi Hj. rewrite Hn in Hi, Hj. destruct (P i Hi) as (r & c & Hr & Hc' & ->), (P j Hj) as (r' & c' & Hr' & Hc'' & ->). rewrite !HW by assumption.
    unfold gw. destruct (Nat.eqb _ _); [lra|]. destruct (_ && _)%bool; [apply Rmax_r|lra]. }
  exists G. split; [exact EG|]. split; [exact Hb|]. split; [exact Hn|]. split; [|split; [exact Hu|split; [|split; [exact Hnn|split; [|split; [|exact Hc]]]]]].
  - intros i j Hi Hj. destruct (P i Hi) as (r & c & Hr & Hc' & ->), (P j Hj) as (r' & c' & Hr' & Hc'' & ->). rewrite !HW by assumption.
    unfold straight, oblique. rewrite !row_pos, !col_pos by assumption. unfold gw. split; [|split].
    + intros ->. reflexivity.
    + intros (-> & ->). reflexivity.
    + intros A B. eqbs; try tauto; try reflexivity.
  - intros i Hi. rewrite Hn in Hi. destruct (P i Hi) as (r & c & Hr & Hc' & ->). rewrite HW by assumption. unfold gw, ndist. rewrite !Nat.max_id, !Nat.min_id, !Nat.sub_diag. reflexivity.
  - apply ladder_connected; [exact Hu|]. intros v Hv. rewrite Hn in Hv. destruct (P (S v) Hv) as (r & c & Hr & Hc' & Ev). rewrite Ev. unfold has_arc. rewrite Hn.
    destruct c as [|c].
    + destruct r as [|r]; [lia|]. exists (N2 * r + 0)%nat. split; [nia|]. split; [apply pos_lt; lia|]. split; [rewrite <- Ev; exact Hv|]. rewrite HW by lia. unfold gw. eqbs. lra.
    + exists (N2 * r + c)%nat. split; [lia|]. split; [lia|]. split; [lia|]. rewrite HW by lia. unfold gw. eqbs. lra.
  - rewrite (edges_listed G (grid_edges N1 N2 (Rltb 0 d)) Hb Hu (grid_edges_nodup _ _ _)).
    + unfold grid_edges. rewrite !app_length, !rect_len. destruct (Rltb 0 d); [rewrite app_length, !rect_len|cbn [List.length]]; lia.
    + intros i j. rewrite Hn. assert (D : Rltb 0 d = true <-> Rmax d 0 <> 0). { rewrite Rltb_true. unfold Rmax. destruct Rle_dec; split; intros; try lra. }
      split.
      * intros Hin. assert (exists r c r' c', (r < N1)%nat /\ (r' < N1)%nat /\ (c < N2)%nat /\ (c' < N2)%nat /\ i = (N2 * r + c)%nat /\ j = (N2 * r' + c')%nat) as (r & c & r' & c' & Hr & Hr' & Hc' & Hc'' & -> & ->).
        { unfold grid_edges in Hin. rewrite !in_app_iff in Hin. destruct Hin as [Hin|[Hin|Hin]]; [| |destruct (Rltb 0 d); [apply in_app_iff in Hin; destruct Hin as [Hin|Hin]|destruct Hin]];
            apply rect_in in Hin; destruct Hin as (a & b & Ha & Hb' & E'); injection E' as <- <-; repeat eexists; try reflexivity; lia. }
        apply grid_edges_in in Hin; try assumption. split; [|split; [apply pos_lt; assumption|]].
        { destruct Hin as [[(-> & ->)|(-> & ->)]|(_ & -> & _)]; nia. }
        rewrite HW by assumption. unfold gw. destruct Hin as [H|(Hd & H)]; [eqbs; lra|]. apply D in Hd. eqbs. exact Hd.
      * intros (Hle & Hj & Hne). destruct (P i ltac:(lia)) as (r & c & Hr & Hc' & ->), (P j Hj) as (r' & c' & Hr' & Hc'' & ->). rewrite HW in Hne by assumption.
        apply grid_edges_in; try assumption. assert (r <= r')%nat by nia. unfold gw in Hne. unfold ndist in Hne.
        destruct (Nat.eqb_spec (Nat.max r r' - Nat.min r r' + (Nat.max c c' - Nat.min c c')) 1); [left; destruct (Nat.eq_dec r r'); [subst; left; lia|right; lia]|].
        destruct (Nat.eqb_spec (Nat.max r r' - Nat.min r r') 1); cbn [andb] in Hne; [|lra]. destruct (Nat.eqb_spec (Nat.max c c' - Nat.min c c') 1); [|lra].
        right. split; [apply D; exact Hne|lia].
Qed.
(** vertex (row r, column c) is drawn at (c / N2, (N1 - 1 - r) / N1): columns from left to right, the first row on top *)
Theorem C46_positions N1 N2 d lap G cs r c : (1 <= N1)%nat -> (2 <= N2)%nat -> valid_lap lap -> Grid2d N1 (Some N2) d lap = Ok G -> g_coords G = Some cs ->
  (r < N1)%nat -> (c < N2)%nat ->
  List.length cs = (N1 * N2)%nat /\ nth (N2 * r + c) cs [] = [INR c / INR N2; INR (N1 - 1 - r) / INR N1].
Proof.
  intros H1 H2 Hl E Ec Hr Hc. destruct (C46_grid N1 N2 d lap H1 H2 Hl) as (G' & E' & _ & _ & _ & _ & _ & _ & _ & _ & Hcs). rewrite E in E'. injection E' as <-.
  rewrite Hcs in Ec. injection Ec as <-. unfold grid_coords. split; [rewrite map_length, seq_length; reflexivity|].
  assert (Hlt : (N2 * r + c < N1 * N2)%nat) by nia. rewrite nth_map_seq by exact Hlt.
  replace ((N2 * r + c) mod N2) with c by (rewrite Nat.add_comm, Nat.mul_comm, Nat.mod_add by lia; rewrite Nat.mod_small by lia; reflexivity).
  replace ((N2 * r + c) / N2)%nat with r by (rewrite Nat.mul_comm, Nat.div_add_l by lia; rewrite Nat.div_small by lia; lia). reflexivity.
Qed.
Example C46_positions_ex : exists G cs, Grid2d 2 (Some 3%nat) 0 Combinatorial = Ok G /\ g_coords G = Some cs /\ nth 4 cs [] = [INR 1 / INR 3; INR 0 / INR 2].
Proof.
  destruct (C46_grid 2 3 0 Combinatorial ltac:(lia) ltac:(lia) (or_introl eq_refl)) as (G & E & _ & _ & _ & _ & _ & _ & _ & _ & Hcs).
  exists G, (grid_coords 2 3). split; [exact E|]. split; [exact Hcs|].
  exact (proj2 (C46_positions 2 3 0 Combinatorial G _ 1 1 ltac:(lia) ltac:(lia) (or_introl eq_refl) E Hcs ltac:(lia) ltac:(lia))).
Qed.
Theorem C46_default N1 d lap : Grid2d N1 None d lap = Grid2d N1 (Some N1) d lap. Proof. reflexivity. Qed.
Theorem C46_single_column_rejected N1 d lap : Grid2d N1 (Some 1%nat) d lap = Raise ValueError.
Proof. unfold Grid2d. destruct (Nat.eqb N1 0); reflexivity. Qed.
(** A negative diagonal weight is silently dropped: no diagonal edge exists. *)
Theorem C46_negative_diagonal_refuted N1 N2 d lap : (1 <= N1)%nat -> (2 <= N2)%nat -> valid_lap lap -> d < 0 ->
  exists G, Grid2d N1 (Some N2) d lap = Ok G /\ forall i j, (i < N1 * N2)%nat -> (j < N1 * N2)%nat -> oblique N2 i j -> wt G i j = 0.
Proof.
  intros H1 H2 Hl Hd. destruct (C46_grid N1 N2 d lap H1 H2 Hl) as (G & E & _ & _ & Hw & _). exists G. split; [exact E|]. intros i j Hi Hj Ho.
  rewrite (proj1 (proj2 (Hw i j Hi Hj)) Ho). apply Rmax_right. lra.
Qed.
Example C46_oblique_exists : oblique 2 0 3. Proof. split; reflexivity. Qed.

(** ** C47: Torus *)
Definition tor_enc (w : nat) (q : (nat * nat) * (nat * nat)) : nat * nat :=
  let '((i, t), (i', t')) := q in (w * i + t, w * i' + t')%nat.
Definition rows_q (w m : nat) : list ((nat * nat) * (nat * nat)) :=
  flat_map (fun i => [((i, w - 1), (i, 0))%nat] ++ map (fun t => ((i, t), (i, S t))) (seq 0 (w - 1)) ++
                     [((i, 0), (i, w - 1))%nat] ++ map (fun t => ((i, S t), (i, t))) (seq 0 (w - 1)))%list (seq 0 m).
Definition cols_q (w m : nat) : list ((nat * nat) * (nat * nat)) :=
  (flat_map (fun i => map (fun t => ((i, t), (i + 1, t))%nat) (seq 0 w) ++ map (fun t => ((i + 1, t), (i, t))%nat) (seq 0 w)) (seq 0 (m - 1))
  ++ map (fun t => ((0, t), (m - 1, t))%nat) (seq 0 w) ++ map (fun t => ((m - 1, t), (0, t))%nat) (seq 0 w))%list.
Lemma map_flat_map {A B C} (f : B -> C) (g : A -> list B) l : map f (flat_map g l) = flat_map (fun x => map f (g x)) l.
Proof. induction l as [|a l IH]; [reflexivity|]. cbn [flat_map]. rewrite map_app, IH. reflexivity. Qed.
Lemma torus_rows_q w m : torus_rows w m = map (tor_enc w) (rows_q w m).
Proof.
  unfold torus_rows, rows_q. rewrite map_flat_map. apply flat_map_ext. intros i. rewrite !map_app, !map_map. cbn [map]. unfold tor_enc. rewrite (Nat.mul_comm w i), Nat.add_0_r. reflexivity.
Qed.
Lemma torus_cols_q w m : torus_cols w m = map (tor_enc w) (cols_q w m).
Proof.
  unfold torus_cols, cols_q. rewrite !map_app, map_flat_map, !map_map. unfold tor_enc. f_equal; [|rewrite (Nat.mul_comm w (m - 1)), Nat.mul_0_r; reflexivity].
  apply flat_map_ext. intros i. rewrite map_app, !map_map. rewrite (Nat.mul_comm w i), (Nat.mul_comm w (i + 1)). reflexivity.
Qed.
Lemma circ_one N a b : (3 <= N)%nat -> (a < N)%nat -> (b < N)%nat ->
  (circ N a b = 1 <-> b = a + 1 \/ a = b + 1 \/ (a = 0 /\ b = N - 1) \/ (b = 0 /\ a = N - 1))%nat.
Proof. intros. unfold circ. lia. Qed.
Lemma rows_in w m i t i' t' : (3 <= w)%nat -> In ((i, t), (i', t')) (rows_q w m) <-> (i < m)%nat /\ i' = i /\ (t < w)%nat /\ (t' < w)%nat /\ circ w t t' = 1%nat.
Proof.
  intros Hw. unfold rows_q. rewrite in_flat_map. split.
  - intros (a & Ha & H). apply in_seq in Ha. rewrite !in_app_iff, !map_seq_in in H. cbn [In] in H.
    destruct H as [[H|[]]|[(s & Hs & H)|[[H|[]]|(s & Hs & H)]]]; injection H as <- <- <- <-; unfold circ; lia.
  - intros (Hi & -> & Ht & Ht' & Hc). apply circ_one in Hc; try assumption. exists i. split; [apply in_seq; lia|]. rewrite !in_app_iff, !map_seq_in. cbn [In].
    destruct Hc as [-> |[-> |[(-> & ->)|(-> & ->)]]].
    + right; left. exists t. split; [lia|]. repeat f_equal; lia.
    + right; right; right. exists t'. split; [lia|]. repeat f_equal; lia.
    + right; right; left; left; reflexivity.
    + left; left; reflexivity.
Qed.
Lemma cols_in w m i t i' t' : (3 <= m)%nat -> In ((i, t), (i', t')) (cols_q w m) <-> (t < w)%nat /\ t' = t /\ (i < m)%nat /\ (i' < m)%nat /\ circ m i i' = 1%nat.
Proof.
  intros Hm. unfold cols_q. rewrite !in_app_iff, in_flat_map, !map_seq_in. split.
  - intros [(a & Ha & H)|[(s & Hs & H)|(s & Hs & H)]].
    + apply in_seq in Ha. rewrite in_app_iff, !map_seq_in in H. destruct H as [(s & Hs & H)|(s & Hs & H)]; injection H as <- <- <- <-; unfold circ; lia.
    + injection H as <- <- <- <-. unfold circ. lia.
    + injection H as <- <- <- <-. unfold circ. lia.
  - intros (Ht & -> & Hi & Hi' & Hc). apply circ_one in Hc; try assumption. destruct Hc as [-> |[-> |[(-> & ->)|(-> & ->)]]].
    + left. exists i. split; [apply in_seq; lia|]. rewrite in_app_iff, !map_seq_in. left. exists t. split; [lia|reflexivity].
    + left. exists i'. split; [apply in_seq; lia|]. rewrite in_app_iff, !map_seq_in. right. exists t. split; [lia|reflexivity].
    + right; left. exists t. split; [lia|reflexivity].
    + right; right. exists t. split; [lia|reflexivity].
Qed.
Ltac inj4 E := injection E; clear E; intros; subst.
Lemma rows_nodup w m : (3 <= w)%nat -> NoDup (rows_q w m).
Proof.
  intros Hw. apply NoDup_flat_map; [apply seq_NoDup| |].
  - intros i _. repeat apply NoDup_app_disj; try (apply map_seq_nodup; intros s t _ _ E; injection E; lia); try (repeat constructor; intros []; fail).
    + intros x [<-|[]]. rewrite map_seq_in. intros (s & Hs & E). injection E. lia.
    + intros x. rewrite in_app_iff, !map_seq_in. intros (s & Hs & <-) [[E|[]]|(s' & Hs' & E)]; injection E; lia.
    + intros x [<-|[]]. rewrite !in_app_iff, !map_seq_in. intros [(s & Hs & E)|[[E|[]]|(s & Hs & E)]]; injection E; lia.
  - intros i i' [[a t] [a' t']] _ _ H H'. rewrite !in_app_iff, !map_seq_in in H, H'. cbn [In] in H, H'.
    assert (a = i) by (destruct H as [[H|[]]|[(s & Hs & H)|[[H|[]]|(s & Hs & H)]]]; injection H; auto).
    assert (a = i') by (destruct H' as [[H'|[]]|[(s & Hs & H')|[[H'|[]]|(s & Hs & H')]]]; injection H'; auto). congruence.
Qed.
Lemma cols_nodup w m : (3 <= m)%nat -> NoDup (cols_q w m).
Proof.
  intros Hm. apply NoDup_app_disj; [apply NoDup_flat_map; [apply seq_NoDup| |]| |].
  - intros i _. apply NoDup_app_disj; try (apply map_seq_nodup; intros s t _ _ E; injection E; lia).
    intros x. rewrite !map_seq_in. intros (s & Hs & <-) (s' & Hs' & E). injection E. lia.
  - intros i i' x _ _ H H'. rewrite !in_app_iff, !map_seq_in in H, H'. destruct H as [(s & Hs & <-)|(s & Hs & <-)], H' as [(s' & Hs' & E)|(s' & Hs' & E)]; injection E; lia.
  - apply NoDup_app_disj; try (apply map_seq_nodup; intros s t _ _ E; injection E; lia).
    intros x. rewrite !map_seq_in. intros (s & Hs & <-) (s' & Hs' & E). injection E. lia.
  - intros x. rewrite in_flat_map, in_app_iff, !map_seq_in. intros (i & Hi & H) H'. apply in_seq in Hi. rewrite !in_app_iff, !map_seq_in in H.
    destruct H as [(s & Hs & <-)|(s & Hs & <-)], H' as [(s' & Hs' & E)|(s' & Hs' & E)]; injection E; lia.
Qed.
Lemma tor_in w m r c r' c' : (3 <= w)%nat -> (3 <= m)%nat -> (c < w)%nat -> (c' < w)%nat -> (r < m)%nat -> (r' < m)%nat ->
  In (w * r + c, w * r' + c')%nat (torus_rows w m ++ torus_cols w m) <-> (r = r' /\ circ w c c' = 1 \/ c = c' /\ circ m r r' = 1)%nat.
Proof.
  intros Hw Hm Hc Hc' Hr Hr'. rewrite torus_rows_q, torus_cols_q, <- map_app, in_map_iff. split.
  - intros ([[a b] [a' b']] & E & H). apply in_app_iff in H. cbn [tor_enc] in E. destruct H as [H|H].
    + apply rows_in in H; [|lia]. destruct H as (H1 & -> & H3 & H4 & H5). posinj E. left. destruct H, H0. subst. tauto.
    + apply cols_in in H; [|lia]. destruct H as (H1 & -> & H3 & H4 & H5). posinj E. right. destruct H, H0. subst. tauto.
  - intros H. exists ((r, c), (r', c')). split; [reflexivity|]. apply in_app_iff. destruct H as [(-> & H)|(-> & H)]; [left; apply rows_in|right; apply cols_in]; tauto.
Qed.
Lemma tor_enc_inj w q q' : (snd (fst q) < w)%nat -> (snd (snd q) < w)%nat -> (snd (fst q') < w)%nat -> (snd (snd q') < w)%nat -> tor_enc w q = tor_enc w q' -> q = q'.
Proof.
  destruct q as [[a b] [c d]], q' as [[a' b'] [c' d']]. cbn [fst snd tor_enc]. intros ? ? ? ? E. posinj E. destruct H3, H4. subst. reflexivity.
Qed.
Lemma NoDup_map_on {A B} (f : A -> B) l : (forall x y, In x l -> In y l -> f x = f y -> x = y) -> NoDup l -> NoDup (map f l).
Proof.
  induction l as [|a l IH]; intros Hf Hnd; [constructor|]. inversion Hnd; subst. cbn [map]. constructor.
  - intros Hin. apply in_map_iff in Hin. destruct Hin as (y & E & Hy). assert (y = a) by (apply Hf; [right; exact Hy|left; reflexivity|exact E]). subst. contradiction.
  - apply IH; [|assumption]. intros x y Hx Hy. apply Hf; right; assumption.
Qed.
Lemma tor_nodup w m : (3 <= w)%nat -> (3 <= m)%nat -> NoDup (torus_rows w m ++ torus_cols w m).
Proof.
  intros Hw Hm. rewrite torus_rows_q, torus_cols_q, <- map_app.
  assert (Hq : forall q, In q (rows_q w m ++ cols_q w m) -> (snd (fst q) < w)%nat /\ (snd (snd q) < w)%nat).
  { intros [[a b] [c d]] H. apply in_app_iff in H. cbn [fst snd]. destruct H as [H|H]; [apply rows_in in H|apply cols_in in H]; lia. }
  apply NoDup_map_on.
  - intros x y Hx Hy. destruct (Hq x Hx), (Hq y Hy). apply tor_enc_inj; assumption.
  - apply NoDup_app_disj; [apply rows_nodup; lia|apply cols_nodup; lia|]. intros [[a b] [c d]] H H'. apply rows_in in H; [|lia]. apply cols_in in H'; [|lia].
    destruct H as (_ & -> & _ & _ & H), H' as (_ & -> & _ & _ & H'). unfold circ in *. lia.
Qed.
(** the four neighbours of a vertex *)
Definition around (N a s : nat) : nat := if Nat.eqb s 0 then (if Nat.eqb (a + 1) N then 0 else a + 1)%nat else (if Nat.eqb a 0 then N - 1 else a - 1)%nat.
Lemma around_circ N a b : (3 <= N)%nat -> (a < N)%nat -> (b < N)%nat -> (circ N a b = 1 <-> b = around N a 0 \/ b = around N a 1)%nat.
Proof.
  intros HN Ha Hb. rewrite (circ_one N a b HN Ha Hb). unfold around. cbn [Nat.eqb]. destruct (Nat.eqb_spec (a + 1) N) as [E|E], (Nat.eqb_spec a 0) as [E'|E'].
  - lia.
  - split; [intros [H|[H|[(H & _)|(H & _)]]]; [lia|right; lia|lia|left; exact H]|intros [H|H]; [right; right; right; lia|right; left; lia]].
  - split; [intros [H|[H|[(_ & H)|(_ & H)]]]; [left; exact H|lia|right; exact H|lia]|intros [H|H]; [left; exact H|right; right; left; lia]].
  - split; [intros [H|[H|[(H & _)|(_ & H)]]]; [left; exact H|right; lia|lia|lia]|intros [H|H]; [left; exact H|right; left; lia]].
Qed.
Lemma around_lt N a s : (3 <= N)%nat -> (a < N)%nat -> (around N a s < N)%nat.
Proof. intros. unfold around. destruct (Nat.eqb s 0), (Nat.eqb_spec (a + 1) N), (Nat.eqb_spec a 0); lia. Qed.
Lemma around_ne N a : (3 <= N)%nat -> (a < N)%nat -> around N a 0 <> around N a 1 /\ around N a 0 <> a /\ around N a 1 <> a.
Proof. intros. unfold around. cbn [Nat.eqb]. destruct (Nat.eqb_spec (a + 1) N), (Nat.eqb_spec a 0); (split; [lia|]); split; lia. Qed.
Lemma torus_four w m v : (3 <= w)%nat -> (3 <= m)%nat -> (v < m * w)%nat -> card (fun u => (u < m * w)%nat /\ torus_adj w m v u) 4.
Proof.
  intros Hw Hm Hv.
  assert (P : forall i, (i < m * w)%nat -> exists r c, (r < m)%nat /\ (c < w)%nat /\ i = (w * r + c)%nat).
  { intros i Hi. destruct (pos_of w i ltac:(lia)) as (E' & Hc'). exists (rowof w i), (colof w i). split; [apply row_lt; lia|]. split; [exact Hc'|exact E']. }
  destruct (P v Hv) as (r & c & H1 & H2 & ->). clear Hv.
  exists [w * r + around w c 0; w * r + around w c 1; w * around m r 0 + c; w * around m r 1 + c]%nat.
  assert (A0 : forall s, (around w c s < w)%nat) by (intros s; apply around_lt; assumption).
  assert (A1 : forall s, (around m r s < m)%nat) by (intros s; apply around_lt; assumption).
  pose proof (around_ne w c Hw H2) as B0. pose proof (around_ne m r Hm H1) as B1.
  destruct B0 as (B01 & B02 & B03), B1 as (B11 & B12 & B13).
  split; [|split; [|reflexivity]].
  + repeat constructor; cbn [In]; intros K; repeat match type of K with _ \/ _ => destruct K as [K|K] | False => destruct K end;
      symmetry in K; apply pos_inj in K; try apply A0; try assumption; destruct K as (K1 & K2); congruence.
  + pose proof (fun b => around_circ w c b Hw H2) as C0. pose proof (fun b => around_circ m r b Hm H1) as C1.
    intros u. cbn [In]. split.
    * intros [<-|[<-|[<-|[<-|[]]]]]; (split; [apply pos_lt; auto|]); unfold torus_adj; rewrite !row_pos, !col_pos by auto.
      -- left. split; [reflexivity|]. apply C0; [apply A0|]. left; reflexivity.
      -- left. split; [reflexivity|]. apply C0; [apply A0|]. right; reflexivity.
      -- right. split; [reflexivity|]. apply C1; [apply A1|]. left; reflexivity.
      -- right. split; [reflexivity|]. apply C1; [apply A1|]. right; reflexivity.
    * intros (Hu' & Ha). destruct (P u Hu') as (r' & c' & H3 & H4 & ->). unfold torus_adj in Ha. rewrite !row_pos, !col_pos in Ha by assumption. destruct Ha as [(-> & Ha)|(-> & Ha)].
      -- apply C0 in Ha; [|assumption]. destruct Ha as [-> | ->]; tauto.
      -- apply C1 in Ha; [|assumption]. destruct Ha as [-> | ->]; tauto.
Qed.
(** Torus(Nv, Mv), both at least 3: unit weights between torus neighbours, 2 Nv Mv edges, every vertex has four neighbours, connected. *)
Theorem C47_torus w m lap : (3 <= w)%nat -> (3 <= m)%nat -> valid_lap lap ->
  exists G, Torus w (Some m) lap = Ok G /\ unit_graph G (m * w) (torus_adj w m) /\ undirected G /\ loop_free G /\ nonneg_weights G /\ connected G /\
    g_n_edges G = (2 * (m * w))%nat /\ (forall v, (v < m * w)%nat -> card (fun u => (u < m * w)%nat /\ torus_adj w m v u) 4) /\ g_coords G = Some (torus_coords w m).
Proof.
  intros Hw Hm Hl. unfold Torus. destruct (Nat.eqb_spec w 0); [lia|]. destruct (Nat.eqb_spec m 0); [lia|]. cbn [orb].
  assert (P : forall i, (i < m * w)%nat -> exists r c, (r < m)%nat /\ (c < w)%nat /\ i = (w * r + c)%nat).
  { intros i Hi. destruct (pos_of w i ltac:(lia)) as (E' & Hc'). exists (rowof w i), (colof w i). split; [apply row_lt; lia|]. split; [exact Hc'|exact E']. }
  assert (Hr : forall p, In p (torus_rows w m ++ torus_cols w m) -> (fst p < m * w)%nat /\ (snd p < m * w)%nat).
  { intros p H. rewrite torus_rows_q, torus_cols_q, <- map_app, in_map_iff in H. destruct H as ([[a b] [c d]] & <- & H). cbn [tor_enc fst snd].
    apply in_app_iff in H. destruct H as [H|H]; [apply rows_in in H|apply cols_in in H]; try lia; split; apply pos_lt; lia. }
  assert (Hi : forall i j, (i < m * w)%nat -> (j < m * w)%nat -> In (i, j) (torus_rows w m ++ torus_cols w m) <-> torus_adj w m i j).
  { intros i j H1 H2. destruct (P i H1) as (r & c & ? & ? & ->), (P j H2) as (r' & c' & ? & ? & ->). rewrite tor_in by assumption. unfold torus_adj. rewrite !row_pos, !col_pos by assumption. tauto. }
  destruct (simple_unit (m * w) _ lap (Some (torus_coords w m)) (tor_nodup w m Hw Hm)) as (G & E & HU & Hu & Hlf & Hp & He & Ht & Hc); try assumption.
  { intros i j H. destruct (Hr _ H) as (H1 & H2). cbn [fst snd] in H1, H2. apply Hi; try assumption. apply Hi in H; try assumption. unfold torus_adj in *. rewrite (circ_sym w), (circ_sym m).
    destruct H as [(-> & H)|(-> & H)]; [left|right]; auto. }
  { intros i H. destruct (Hr _ H) as (H1 & H2). cbn [fst snd] in H1, H2. apply Hi in H; try assumption. unfold torus_adj, circ in H. lia. }
  assert (HU' : unit_graph G (m * w) (torus_adj w m)) by (eapply unit_graph_iff; [|exact HU]; intros i j H1 H2; apply Hi; assumption).
  exists G. split; [exact E|]. split; [exact HU'|]. split; [exact Hu|]. split; [exact Hlf|]. split; [exact Hp|]. pose proof HU' as (Hb & Hn & _). split; [|split; [|split; [|exact Hc]]].
  - apply ladder_connected; [exact Hu|]. intros v Hv. rewrite Hn in Hv. destruct (P (S v) Hv) as (r & c & H1 & H2 & Ev). rewrite Ev. destruct c as [|c].
    + destruct r as [|r]; [lia|]. exists (w * r + 0)%nat. split; [nia|]. apply (unit_arc G (m * w) _ _ _ HU'); [apply pos_lt; lia|apply pos_lt; lia|].
      right. rewrite !row_pos, !col_pos by lia. unfold circ. lia.
    + exists (w * r + c)%nat. split; [lia|]. apply (unit_arc G (m * w) _ _ _ HU'); [apply pos_lt; lia|apply pos_lt; lia|]. left. rewrite !row_pos, !col_pos by lia. unfold circ. lia.
  - rewrite app_length, torus_rows_q, torus_cols_q, !map_length in He. unfold rows_q, cols_q in He. rewrite !app_length, !flat_map_length_sum in He.
    rewrite (map_ext _ (fun _ => (2 * w)%nat)) in He by (intros; rewrite !app_length, !map_length, !seq_length; cbn [List.length]; lia).
    rewrite (map_ext (fun a => List.length (map (fun t => ((a, t), (a + 1, t))%nat) (seq 0 w) ++ map (fun t => ((a + 1, t), (a, t))%nat) (seq 0 w))) (fun _ => (2 * w)%nat)) in He by (intros; rewrite !app_length, !map_length, !seq_length; lia).
    rewrite !const_sum, !map_length, !seq_length in He. clear -He Hm. destruct m as [|k]; [lia|]. replace (S k - 1)%nat with k in He by lia. lia.
  - intros v Hv. apply torus_four; assumption.
Qed.
Theorem C47_default w lap : Torus w None lap = Torus w (Some w) lap. Proof. reflexivity. Qed.
(** With rows of two vertices (or two rows) an edge is counted twice: the weights are not 1. *)
Theorem C47_small_refuted m lap : (1 <= m)%nat -> valid_lap lap ->
  exists G, Torus 2 (Some m) lap = Ok G /\ built G /\ wt G 0 1 >= 2.
Proof.
  intros Hm Hl. unfold Torus. destruct (Nat.eqb_spec m 0); [lia|]. cbn [Nat.eqb orb].
  destruct (unit_weights (m * 2) (torus_rows 2 m ++ torus_cols 2 m) lap (Some (torus_coords 2 m))) as (G & E & Hb & Hn & _ & _ & _ & Hw); [|exact Hl|].
  - intros p H. unfold torus_rows, torus_cols in H. rewrite !in_app_iff, !in_flat_map in H. destruct H as [(i & Hi & H)|[(i & Hi & H)|[H|H]]].
    + apply in_seq in Hi. cbn in H. destruct H as [<-|[<-|[<-|[<-|[]]]]]; cbn [fst snd]; lia.
    + apply in_seq in Hi. apply in_app_iff in H. rewrite !map_seq_in in H. destruct H as [(t & Ht & <-)|(t & Ht & <-)]; cbn [fst snd]; nia.
    + apply map_seq_in in H. destruct H as (t & Ht & <-). cbn [fst snd]. nia.
    + apply map_seq_in in H. destruct H as (t & Ht & <-). cbn [fst snd]. nia.
  - exists G. split; [exact E|]. split; [exact Hb|]. rewrite Hw by lia. destruct m as [|m]; [lia|].
    match goal with |- INR (count_occ pair_dec ?l ?p) >= 2 => assert (K : (2 <= count_occ pair_dec l p)%nat) end.
    { unfold torus_rows. cbn [seq flat_map map Nat.mul Nat.sub Nat.add app]. cbn [count_occ].
      destruct (pair_dec (1%nat, 0%nat) (0%nat, 1%nat)) as [Q|Q]; [discriminate|]. destruct (pair_dec (0%nat, 1%nat) (0%nat, 1%nat)) as [_|Q']; [lia|exfalso; apply Q'; reflexivity]. }
    apply le_INR in K. cbn [INR] in K. lra.
Qed.
Example C47_adjacent : torus_adj 3 3 0 2 /\ torus_adj 3 3 0 6. Proof. unfold torus_adj. cbn. split; [left|right]; split; reflexivity. Qed.
