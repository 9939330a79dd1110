(** Properties of pygsp/reduction.py: C35 (kron_reduction), C36 (interpolate), C37 (pyramid), C38 (multiresolution). *)
From Coq Require Import Reals Lra Lia List Arith Bool String.
From Coq Require Import List.
From Verif.Base Require Import RSum Prelude LinAlg Solve.
From Verif.Spec Require Import Matrix GraphSpec Reach LapSpec.
From Verif.Model Require Import Sparse Graph Utils Reduction.
From Verif.Proofs Require Import SparseFacts InitFacts EdgeFacts LapFacts SubgraphFacts MaxPrinciple SchurFacts.
From Verif.Props Require Import Core Laplacian Traversal Caching UtilsProps.
Import ListNotations.
Open Scope R_scope.

(** The contract of the sparse solver: spsolve(A, B) returns X with A X = B; here A and B are the blocks of L
    on the eliminated vertices and between eliminated and kept ones. *)
Definition spsolve_ok (n : nat) (L : mat) (ind : list nat) (X : mat) : Prop :=
  let comp := setdiff n ind in
  forall k j, (k < List.length comp)%nat -> (j < List.length ind)%nat ->
    \sum_(l < List.length comp) (L (nth k comp 0%nat) (nth l comp 0%nat) * X l j) = L (nth k comp 0%nat) (nth j ind 0%nat).
(** A duplicate-free selection of vertices. *)
Definition selection (n : nat) (ind : list nat) : Prop := NoDup ind /\ forall v, In v ind -> (v < n)%nat.
(** The signal x on all vertices read on the selected ones. *)
Definition on (ind : list nat) (x : vec) : vec := fun i => x (nth i ind 0%nat).

Lemma sym_fix_id m A : symmetric m A -> forall i j, (i < m)%nat -> (j < m)%nat -> sym_fix m A i j = A i j.
Proof.
  intros H i j Hi Hj. unfold sym_fix. destruct (Rltb _ _); [|reflexivity]. pose proof (H i j Hi Hj) as E. unfold tr in E. rewrite <- E. field.
Qed.
Lemma kron_matrix_ok n L ind X K : kron_matrix n L ind X = Ok K ->
  (forall v, In v ind -> (v < n)%nat) /\ K = sym_fix (List.length ind) (schur n L ind X).
Proof.
  unfold kron_matrix. destruct (forallb _ ind) eqn:E; cbn [negb]; [|discriminate]. intros H. injection H as <-.
  rewrite forallb_forall in E. split; [|reflexivity]. intros v Hv. apply Nat.ltb_lt. apply E. exact Hv.
Qed.

(** Reducing a symmetric matrix eliminates variables: whenever L v vanishes off the kept vertices, the reduced matrix maps
    the kept part of v to the kept part of L v; every signal on the kept vertices is the kept part of such a v. *)
Theorem C35_matrix n L ind X K : symmetric n L -> NoDup ind -> kron_matrix n L ind X = Ok K -> spsolve_ok n L ind X ->
  let m := List.length ind in
  symmetric m K /\
  (forall v, (forall c, (c < n)%nat -> ~ In c ind -> mulv n L v c = 0) ->
     forall i, (i < m)%nat -> mulv m K (on ind v) i = mulv n L v (nth i ind 0%nat)) /\
  (forall x, exists v, (forall i, (i < m)%nat -> on ind v i = x i) /\ forall c, (c < n)%nat -> ~ In c ind -> mulv n L v c = 0).
Proof.
  intros Hs Hnd HK HX m. destruct (kron_matrix_ok n L ind X K HK) as (Hin & ->). fold m.
  pose proof (schur_sym n ind Hin L X Hs HX) as Hsym. fold m in Hsym.
  split; [|split].
  - intros i j Hi Hj. unfold tr. rewrite !sym_fix_id by assumption. apply Hsym; assumption.
  - intros v Hv i Hi. rewrite <- (schur_harmonic n ind Hnd Hin L X Hs HX v i Hv Hi). apply mulv_ext; [|intros j Hj; reflexivity].
    intros j Hj. apply sym_fix_id; assumption.
  - intros x. exists (extend n ind X x). split; [intros i Hi; apply extend_ind; assumption|].
    intros c Hc Hnc. apply (extend_harmonic n ind Hnd Hin L X HX); assumption.
Qed.
(** Any matrix, symmetric or not: with S the Schur complement formed from the solver's answer, the result is S, except
    that an asymmetry of S below the rounding unit (relative to the sum of the absolute values) is averaged out. *)
Theorem C35_any_matrix n L ind X K : kron_matrix n L ind X = Ok K ->
  let m := List.length ind in let comp := setdiff n ind in
  let S : mat := fun i j => L (nth i ind 0%nat) (nth j ind 0%nat) - \sum_(k < List.length comp) (L (nth i ind 0%nat) (nth k comp 0%nat) * X k j) in
  let asym := \sum_(i < m) \sum_(j < m) Rabs (S i j - S j i) in
  let size := \sum_(i < m) \sum_(j < m) Rabs (S i j) in
  (asym < / 2 ^ 52 * size -> symmetric m K /\ forall i j, K i j = (S i j + S j i) / 2) /\
  (~ asym < / 2 ^ 52 * size -> forall i j, K i j = S i j).
Proof.
  intros HK m comp S asym size. destruct (kron_matrix_ok n L ind X K HK) as (_ & ->).
  assert (E : forall i j, schur n L ind X i j = S i j) by (intros; reflexivity).
  unfold sym_fix. change (\sum_(i < List.length ind) \sum_(j < List.length ind) Rabs (schur n L ind X i j - schur n L ind X j i)) with asym.
  change (\sum_(i < List.length ind) \sum_(j < List.length ind) Rabs (schur n L ind X i j)) with size. unfold spacing_1.
  destruct (Rltb_spec asym (/ 2 ^ 52 * size)) as [H|H]; split; intros H'; try lra.
  - split; [|intros; reflexivity]. intros i j _ _. unfold tr. lra.
  - intros; reflexivity.
Qed.
Example C35_any_matrix_ex : exists K, kron_matrix 2 (fun i j => if (Nat.eqb i 1 && Nat.eqb j 0)%bool then 1 + / 2 ^ 60 else 1) [0; 1]%nat (fun _ _ => 0) = Ok K /\
  K 0%nat 1%nat = 1 + / 2 ^ 61.
Proof.
  eexists. split; [reflexivity|].
  match goal with |- ?K 0%nat 1%nat = _ => destruct (C35_any_matrix 2 (fun i j => if (Nat.eqb i 1 && Nat.eqb j 0)%bool then 1 + / 2 ^ 60 else 1) [0; 1]%nat (fun _ _ => 0) K eq_refl) as (H & _) end.
  cbn [List.length setdiff seq existsb filter Nat.eqb orb negb rsum nth andb] in H.
  assert (P : / 2 ^ 60 = / 2 ^ 52 * / 256) by (rewrite <- Rinv_mult; f_equal; lra).
  assert (Q : / 2 ^ 61 = / 2 ^ 60 / 2) by (unfold Rdiv; rewrite <- Rinv_mult; f_equal; lra).
  set (e := / 2 ^ 60) in *. set (u := / 2 ^ 52) in *. assert (U : 0 < u) by (unfold u; apply Rinv_0_lt_compat; lra).
  assert (e0 : 0 < e) by lra. clearbody e u.
  destruct H as (_ & H).
  - rewrite !(Rabs_right (1 - 0)), !(Rabs_right (1 - 0 - (1 - 0))), (Rabs_left (1 - 0 - (1 + e - 0))), (Rabs_right (1 + e - 0 - (1 - 0))), (Rabs_right (1 + e - 0)) by lra.
    rewrite P. nra.
  - rewrite H. rewrite Q. cbn. lra.
Qed.
(** Eliminating vertices in two steps is eliminating them at once. *)
Theorem C35_two_steps n L ind1 ind2 X1 X2 X3 K1 K2 K3 : symmetric n L -> NoDup ind1 -> NoDup ind2 ->
  let ind := map (fun v => nth v ind1 0%nat) ind2 in
  kron_matrix n L ind1 X1 = Ok K1 -> spsolve_ok n L ind1 X1 ->
  kron_matrix (List.length ind1) K1 ind2 X2 = Ok K2 -> spsolve_ok (List.length ind1) K1 ind2 X2 ->
  kron_matrix n L ind X3 = Ok K3 -> spsolve_ok n L ind X3 ->
  meq (List.length ind2) (List.length ind2) K2 K3.
Proof.
  intros Hs N1 N2 ind E1 S1 E2 S2 E3 S3.
  destruct (kron_matrix_ok _ _ _ _ _ E1) as (I1 & _). destruct (kron_matrix_ok _ _ _ _ _ E2) as (I2 & _).
  assert (Nd : NoDup ind).
  { unfold ind. clear - N1 N2 I2. induction ind2 as [|x l IH]; [constructor|]. apply NoDup_cons_iff in N2 as (Hx & N2). cbn. constructor; [|apply IH; [exact N2|intros v Hv; apply I2; right; exact Hv]].
    intros J. apply in_map_iff in J as (y & E & Hy). apply Hx. assert (y = x) as <-; [|exact Hy]. apply (proj1 (NoDup_nth ind1 0%nat) N1); [apply I2; right; exact Hy|apply I2; left; reflexivity|exact E]. }
  assert (Nth : forall i, (i < List.length ind2)%nat -> nth i ind 0%nat = nth (nth i ind2 0%nat) ind1 0%nat).
  { intros i Hi. unfold ind. rewrite (nth_indep _ 0%nat (nth 0%nat ind1 0%nat)) by (rewrite map_length; exact Hi). apply (map_nth (fun v => nth v ind1 0%nat)). }
  destruct (C35_matrix n L ind1 X1 K1 Hs N1 E1 S1) as (Y1 & H1 & _). destruct (C35_matrix _ K1 ind2 X2 K2 Y1 N2 E2 S2) as (_ & H2 & _).
  destruct (C35_matrix n L ind X3 K3 Hs Nd E3 S3) as (_ & H3 & V3).
  assert (Li : List.length ind = List.length ind2) by apply map_length. rewrite Li in H3, V3.
  intros a b Ha Hb. destruct (V3 (unitv b)) as (v & Hv & Hz).
  assert (S : forall M : mat, \sum_(j < List.length ind2) (M a j * on ind v j) = M a b).
  { intros M. rewrite (rsum_single (List.length ind2) _ b Hb); [rewrite Hv by exact Hb; unfold unitv; rewrite Nat.eqb_refl; ring|].
    intros j Hj Hne. rewrite Hv by exact Hj. unfold unitv. destruct (Nat.eqb_spec j b); [contradiction|ring]. }
  rewrite <- (S K2), <- (S K3). change (mulv (List.length ind2) K2 (on ind v) a = mulv (List.length ind2) K3 (on ind v) a).
  rewrite (H3 v Hz a Ha).
  assert (Hz1 : forall c, (c < n)%nat -> ~ In c ind1 -> mulv n L v c = 0).
  { intros c Hc Hni. apply Hz; [exact Hc|]. intros J. apply in_map_iff in J as (u & <- & Hu). apply Hni, nth_In, I2, Hu. }
  assert (Hz2 : forall c, (c < List.length ind1)%nat -> ~ In c ind2 -> mulv (List.length ind1) K1 (on ind1 v) c = 0).
  { intros c Hc Hni. rewrite (H1 v Hz1 c Hc). apply Hz; [apply I1, nth_In, Hc|]. intros J. apply in_map_iff in J as (u & E & Hu). apply Hni.
    assert (u = c) as <-; [|exact Hu]. apply (proj1 (NoDup_nth ind1 0%nat) N1); [apply I2, Hu|exact Hc|exact E]. }
  pose proof (H2 (on ind1 v) Hz2 a Ha) as Q. rewrite (H1 v Hz1) in Q by (apply I2, nth_In, Ha). rewrite (Nth a Ha), <- Q.
  apply mulv_ext; [reflexivity|]. intros j Hj. unfold on. rewrite Nth by exact Hj. reflexivity.
Qed.
(** The path of three vertices reduced to its ends, then to the first one. *)
Example C35_two_steps_ex : let L : mat := fun i j => nth (i * 3 + j) [1; -1; 0; -1; 2; -1; 0; -1; 1] 0 in
  exists X1 X2 X3 K1 K2 K3, symmetric 3 L /\ kron_matrix 3 L [0; 2]%nat X1 = Ok K1 /\ spsolve_ok 3 L [0; 2]%nat X1 /\
    kron_matrix 2 K1 [0%nat] X2 = Ok K2 /\ spsolve_ok 2 K1 [0%nat] X2 /\ kron_matrix 3 L [0%nat] X3 = Ok K3 /\ spsolve_ok 3 L [0%nat] X3.
Proof.
  intros L. assert (HL : symmetric 3 L) by (intros i j Hi Hj; unfold tr, L; destruct i as [|[|[|i]]]; try lia; destruct j as [|[|[|j]]]; try lia; reflexivity).
  exists (fun _ _ => - / 2), (fun _ _ => -1), (fun _ _ => -1). do 3 eexists. split; [exact HL|]. split; [reflexivity|].
  assert (S1 : spsolve_ok 3 L [0; 2]%nat (fun _ _ => - / 2)).
  { unfold spsolve_ok, L. cbn. intros k j Hk Hj. destruct k as [|k]; [|lia]. destruct j as [|[|j]]; try lia; cbn; lra. }
  split; [exact S1|]. split; [reflexivity|]. split; [|split; [reflexivity|]].
  - assert (Y : symmetric 2 (schur 3 L [0; 2]%nat (fun _ _ => - / 2))).
    { intros i j Hi Hj. unfold tr, schur, ixm, L. destruct i as [|[|i]]; try lia; destruct j as [|[|j]]; try lia; cbn; lra. }
    unfold spsolve_ok. cbn [setdiff seq filter existsb Nat.eqb orb negb List.length]. intros k j Hk Hj. assert (k = 0%nat) as -> by lia. assert (j = 0%nat) as -> by lia. cbn [rsum nth].
    rewrite !sym_fix_id by (try exact Y; cbn; lia). unfold schur, ixm, L. cbn. lra.
  - unfold spsolve_ok, L. cbn. intros k j Hk Hj. destruct j as [|j]; [|lia]. destruct k as [|[|k]]; try lia; cbn; lra.
Qed.
Theorem C35_matrix_index_error n L ind X : (exists v, In v ind /\ (n <= v)%nat) -> kron_matrix n L ind X = Raise IndexError.
Proof.
  intros (v & Hv & Hn). unfold kron_matrix. destruct (forallb _ ind) eqn:E; [|reflexivity].
  rewrite forallb_forall in E. specialize (E v Hv). apply Nat.ltb_lt in E. lia.
Qed.

(** ** Graphs *)
Lemma dense_length m A : List.length (dense m A) = (m * m)%nat.
Proof.
  unfold dense. assert (H : forall l, List.length (flat_map (fun i => map (A i) (seq 0 m)) l) = (List.length l * m)%nat).
  { induction l as [|a l IH]; [reflexivity|]. cbn [flat_map List.length]. rewrite app_length, map_length, seq_length, IH. lia. }
  rewrite H, seq_length. reflexivity.
Qed.
Lemma dense_nth m A i j : (i < m)%nat -> (j < m)%nat -> nth (i * m + j) (dense m A) 0 = A i j.
Proof.
  intros Hi Hj. unfold dense.
  assert (H : forall c s i, (i < c)%nat -> nth (i * m + j) (flat_map (fun i => map (A i) (seq 0 m)) (seq s c)) 0 = A (s + i)%nat j).
  { induction c as [|c IH]; intros s i0 Hi0; [lia|]. cbn [seq flat_map]. destruct i0 as [|i0].
    - rewrite app_nth1 by (rewrite map_length, seq_length; lia). rewrite Nat.add_0_r. cbn. rewrite nth_map_seq by exact Hj. reflexivity.
    - rewrite app_nth2 by (rewrite map_length, seq_length; lia). rewrite map_length, seq_length.
      replace (S i0 * m + j - m)%nat with (i0 * m + j)%nat by lia. rewrite IH by lia. f_equal. lia. }
  rewrite H by exact Hi. reflexivity.
Qed.

Lemma kron_weights_lap m L : is_laplacian m L -> forall i j, (i < m)%nat -> (j < m)%nat ->
  kron_weights m L i j = if Nat.eqb i j then 0 else - L i j.
Proof.
  intros (Hs & Hr & _) i j Hi Hj. unfold kron_weights.
  set (W1 := fun i j => (if Nat.eqb i j then L i i else 0) - L i j).
  assert (S0 : forall j, (j < m)%nat -> L j j - \sum_(i < m) W1 i j = 0).
  { intros b Hb. unfold W1. rewrite rsum_minus.
    rewrite (rsum_single m (fun a => if Nat.eqb a b then L a a else 0) b Hb).
    2:{ intros a Ha Hne. destruct (Nat.eqb_spec a b); [contradiction|reflexivity]. }
    rewrite Nat.eqb_refl. rewrite (rsum_ext m (fun a => L a b) (fun a => L b a)) by (intros a Ha; apply Hs; assumption).
    rewrite Hr by exact Hb. ring. }
  rewrite (rsum_0 m) by (intros b Hb; rewrite S0 by exact Hb; ring). rewrite sqrt_0.
  destruct (Rleb_spec spacing_1000 0) as [Hle|_].
  - exfalso. unfold spacing_1000 in Hle. assert (0 < / 2 ^ 43) by (apply Rinv_0_lt_compat; apply pow_lt; lra). lra.
  - unfold W1. rewrite Nat.eqb_refl. destruct (Nat.eqb_spec i j) as [->|]; ring.
Qed.

(** Every vertex is linked to a kept one: true in a connected graph as soon as one vertex is kept. *)
Definition reaches (G : graph) (ind : list nat) : Prop :=
  forall v, (v < g_n_vertices G)%nat -> exists b, In b ind /\ reach (has_arc G) v b.
Lemma connected_reaches G ind : connected G -> (forall v, In v ind -> (v < g_n_vertices G)%nat) -> ind <> [] -> reaches G ind.
Proof.
  intros HC Hin Hne v Hv. destruct ind as [|b l]; [contradiction|]. exists b. split; [left; reflexivity|].
  apply HC; [exact Hv|apply Hin; left; reflexivity].
Qed.

Lemma arc_lap_reach G u v : built G -> nonneg_weights G -> g_lap_type G = Combinatorial ->
  reach (has_arc G) u v -> reach (lap_edge (g_n_vertices G) (gL G)) u v.
Proof.
  intros Hb Hp Ht R. destruct (C09_combinatorial_structure G Hb Ht) as (_ & _ & H3 & _).
  induction R as [|a b c R1 IH Hs]; [apply reach_refl|]. destruct Hs as (H1 & H2 & H4).
  destruct (Nat.eq_dec b c) as [<-|Hne]; [exact IH|].
  eapply reach_step; [exact IH|]. split; [assumption|]. split; [assumption|]. split; [exact Hne|].
  rewrite H3 by assumption. pose proof (Hp b c ltac:(assumption) ltac:(assumption)). pose proof (Hp c b ltac:(assumption) ltac:(assumption)). unfold wt in *. lra.
Qed.
Lemma lap_arc_reach G u v : built G -> undirected G -> g_lap_type G = Combinatorial ->
  reach (lap_edge (g_n_vertices G) (gL G)) u v -> reach (has_arc G) u v.
Proof.
  intros Hb Hu Ht R. destruct (C09_combinatorial_structure G Hb Ht) as (_ & _ & H3 & _).
  induction R as [|a b c R1 IH Hs]; [apply reach_refl|]. destruct Hs as (H1 & H2 & H4 & H5).
  eapply reach_step; [exact IH|]. split; [assumption|]. split; [assumption|].
  intros E. apply H5. rewrite H3 by assumption. rewrite <- (Hu b c) by assumption. rewrite E. lra.
Qed.

(** What a successful reduction returned. *)
Lemma kron_reduction_ok G ind X Gn : built G -> nonneg_weights G -> NoDup ind -> reaches G ind ->
  spsolve_ok (g_n_vertices G) (gL G) ind X -> kron_reduction G ind X = Ok Gn ->
  let n := g_n_vertices G in let m := List.length ind in
  g_lap_type G = Combinatorial /\ undirected G /\ (forall v, In v ind -> (v < n)%nat) /\
  (exists c, g_coords G = Some c /\ g_coords Gn = Some (map (fun v => nth v c []) ind)) /\
  built Gn /\ g_n_vertices Gn = m /\ g_lap_type Gn = Combinatorial /\
  is_laplacian m (schur n (gL G) ind X) /\
  (forall i j, (i < m)%nat -> (j < m)%nat -> wt Gn i j = if Nat.eqb i j then 0 else - schur n (gL G) ind X i j) /\
  meq m m (gL Gn) (schur n (gL G) ind X).
Proof.
  intros Hb Hp Hnd Hre HX HK n m. unfold kron_reduction in HK.
  destruct (g_lap_type G) eqn:Ht; try discriminate.
  destruct (is_directed (gW G)) eqn:Hd; [discriminate|].
  destruct (kron_matrix (g_n_vertices G) (gL G) ind X) as [K|] eqn:EK; [|discriminate]. cbn [bindr] in HK.
  destruct (Nat.eqb (List.length ind) 1); [discriminate|].
  destruct (g_coords G) as [c|] eqn:Ec; [|discriminate].
  destruct (forallb _ ind); cbn [negb] in HK; [|discriminate].
  destruct (kron_matrix_ok _ _ _ _ _ EK) as (Hin & EKs).
  assert (Hu : undirected G).
  { destruct (built_good G Hb) as (_ & Hn & _). intros i j Hi Hj. rewrite Hn in Hi, Hj. apply (proj1 (is_directed_false _) Hd); assumption. }
  pose proof (graph_is_laplacian G Hb Hp Ht) as HL.
  assert (Hrl : forall v, (v < n)%nat -> exists b, In b ind /\ reach (lap_edge n (gL G)) v b).
  { intros v Hv. destruct (Hre v Hv) as (b & Hbi & R). exists b. split; [exact Hbi|]. apply arc_lap_reach; assumption. }
  pose proof (schur_laplacian n ind Hnd Hin (gL G) X HL HX Hrl) as HS. fold m in HS.
  assert (HKl : is_laplacian m K).
  { destruct HS as (S1 & S2 & S3). rewrite EKs. fold m. split; [|split].
    - intros i j Hi Hj. unfold tr. rewrite !sym_fix_id by assumption. apply S1; assumption.
    - intros i Hi. rewrite <- (S2 i Hi). apply rsum_ext. intros j Hj. apply sym_fix_id; assumption.
    - intros i j Hi Hj Hne. rewrite sym_fix_id by assumption. apply S3; assumption. }
  destruct (finite_entry_built m (dense m (kron_weights m K)) Combinatorial (Some (map (fun v => nth v c []) ind))
             (dense_length m _) (or_introl eq_refl)) as (G' & HG' & Hb' & Hn' & Ht' & Hc' & Hw').
  fold m in HK. rewrite HG' in HK. injection HK as <-.
  assert (Hw : forall i j, (i < m)%nat -> (j < m)%nat -> wt G' i j = if Nat.eqb i j then 0 else - schur n (gL G) ind X i j).
  { intros i j Hi Hj. rewrite Hw' by assumption. rewrite dense_nth by assumption. rewrite (kron_weights_lap m K HKl) by assumption.
    destruct (Nat.eqb i j); [reflexivity|]. rewrite EKs. fold m. rewrite sym_fix_id by (try assumption; apply HS). reflexivity. }
  split; [reflexivity|]. split; [exact Hu|]. split; [exact Hin|]. split; [exists c; split; [reflexivity|exact Hc']|].
  split; [exact Hb'|]. split; [exact Hn'|]. split; [exact Ht'|]. split; [exact HS|]. split; [exact Hw|].
  destruct (C09_combinatorial_structure G' Hb' Ht') as (_ & R1 & R2 & _). rewrite Hn' in R1, R2.
  destruct HS as (S1 & S2 & S3).
  assert (OD : forall i j, (i < m)%nat -> (j < m)%nat -> i <> j -> gL G' i j = schur n (gL G) ind X i j).
  { intros i j Hi Hj Hne. rewrite R2 by assumption. rewrite !Hw by assumption.
    destruct (Nat.eqb_spec i j); [contradiction|]. destruct (Nat.eqb_spec j i); [congruence|].
    pose proof (S1 i j Hi Hj) as E. unfold tr in E. rewrite <- E. field. }
  intros i j Hi Hj. destruct (Nat.eq_dec i j) as [<-|Hne]; [|apply OD; assumption].
  specialize (R1 i Hi). specialize (S2 i Hi).
  assert (D : \sum_(j < m) (gL G' i j - schur n (gL G) ind X i j) = gL G' i i - schur n (gL G) ind X i i).
  { apply (rsum_single m (fun j => gL G' i j - schur n (gL G) ind X i j) i Hi). intros j Hj' Hne. rewrite OD by auto. ring. }
  rewrite rsum_minus in D. change (rsum m (gL G' i)) with (\sum_(j < m) gL G' i j) in D.
  change (rsum m (schur n (gL G) ind X i)) with (\sum_(j < m) schur n (gL G) ind X i j) in D. rewrite R1, S2 in D. lra.
Qed.

(** C35: the reduced graph is an undirected loop-free graph with non-negative weights on the kept vertices (in the given
    order), with their coordinates, and its Laplacian is L with the other vertices eliminated. *)
Theorem C35_kron_graph G ind X Gn : built G -> nonneg_weights G -> NoDup ind -> reaches G ind ->
  spsolve_ok (g_n_vertices G) (gL G) ind X -> kron_reduction G ind X = Ok Gn ->
  let n := g_n_vertices G in let m := List.length ind in
  built Gn /\ g_n_vertices Gn = m /\ g_lap_type Gn = Combinatorial /\ nonneg_weights Gn /\ undirected Gn /\
  (forall i, (i < m)%nat -> wt Gn i i = 0) /\
  (exists c, g_coords G = Some c /\ g_coords Gn = Some (map (fun v => nth v c []) ind)) /\
  (forall v, (forall c, (c < n)%nat -> ~ In c ind -> mulv n (gL G) v c = 0) ->
     forall i, (i < m)%nat -> mulv m (gL Gn) (on ind v) i = mulv n (gL G) v (nth i ind 0%nat)) /\
  (forall x, exists v, (forall i, (i < m)%nat -> on ind v i = x i) /\ forall c, (c < n)%nat -> ~ In c ind -> mulv n (gL G) v c = 0).
Proof.
  intros Hb Hp Hnd Hre HX HK n m.
  destruct (kron_reduction_ok G ind X Gn Hb Hp Hnd Hre HX HK) as (Ht & Hu & Hin & Hc & Hb' & Hn' & Ht' & HS & Hw & HL').
  subst n m. pose proof (graph_is_laplacian G Hb Hp Ht) as HL. pose proof HS as (S1 & S2 & S3).
  split; [exact Hb'|]. split; [exact Hn'|]. split; [exact Ht'|]. split; [|split; [|split; [|split; [exact Hc|split]]]].
  - intros i j Hi Hj. rewrite Hn' in Hi, Hj. rewrite Hw by assumption. destruct (Nat.eqb_spec i j) as [|n0]; [lra|].
    specialize (S3 i j Hi Hj n0). lra.
  - intros i j Hi Hj. rewrite Hn' in Hi, Hj. rewrite !Hw by assumption. rewrite (Nat.eqb_sym j i). destruct (Nat.eqb i j); [reflexivity|].
    f_equal. apply S1; assumption.
  - intros i Hi. rewrite Hw by assumption. rewrite Nat.eqb_refl. reflexivity.
  - intros v Hv i Hi. rewrite <- (schur_harmonic _ ind Hnd Hin (gL G) X (proj1 HL) HX v i Hv Hi).
    apply mulv_ext; [|intros j Hj; reflexivity]. intros j Hj. apply HL'; assumption.
  - intros x. exists (extend (g_n_vertices G) ind X x). split; [intros i Hi; apply extend_ind; assumption|].
    intros c Hcn Hnc. apply (extend_harmonic _ ind Hnd Hin (gL G) X HX); assumption.
Qed.
(** The energy of a signal on the reduced graph is the least energy of a signal of the original graph that extends it. *)
Theorem C35_energy G ind X Gn x : built G -> nonneg_weights G -> NoDup ind -> reaches G ind ->
  spsolve_ok (g_n_vertices G) (gL G) ind X -> kron_reduction G ind X = Ok Gn ->
  let n := g_n_vertices G in let m := List.length ind in
  (forall w, (forall i, (i < m)%nat -> on ind w i = x i) -> quad m (gL Gn) x <= quad n (gL G) w) /\
  (exists w, (forall i, (i < m)%nat -> on ind w i = x i) /\ quad m (gL Gn) x = quad n (gL G) w).
Proof.
  intros Hb Hp Hnd Hre HX HK n m.
  destruct (kron_reduction_ok G ind X Gn Hb Hp Hnd Hre HX HK) as (Ht & Hu & Hin & Hc & Hb' & Hn' & Ht' & HS & Hw & HL').
  subst n m. pose proof (graph_is_laplacian G Hb Hp Ht) as HL.
  rewrite (quad_ext _ (gL Gn) _ x HL'). split.
  - intros w Hwx. apply (schur_min _ ind Hnd Hin (gL G) X (proj1 HL) HX); [apply lap_psd; exact HL|exact Hwx].
  - exists (extend (g_n_vertices G) ind X x). split; [intros i Hi; apply extend_ind; assumption|].
    apply (schur_quad _ ind Hnd Hin (gL G) X (proj1 HL) HX).
Qed.
(** Connectedness is preserved. *)
Theorem C35_connected G ind X Gn : built G -> nonneg_weights G -> NoDup ind -> ind <> [] -> connected G ->
  spsolve_ok (g_n_vertices G) (gL G) ind X -> kron_reduction G ind X = Ok Gn -> connected Gn.
Proof.
  intros Hb Hp Hnd Hne HC HX HK.
  assert (Hin0 : forall v, In v ind -> (v < g_n_vertices G)%nat).
  { unfold kron_reduction in HK. destruct (g_lap_type G); try discriminate. destruct (is_directed _); [discriminate|].
    destruct (kron_matrix _ _ _ _) eqn:E; [|discriminate]. apply (kron_matrix_ok _ _ _ _ _ E). }
  pose proof (connected_reaches G ind HC Hin0 Hne) as Hre.
  destruct (kron_reduction_ok G ind X Gn Hb Hp Hnd Hre HX HK) as (Ht & Hu & Hin & Hc & Hb' & Hn' & Ht' & HS & Hw & HL').
  pose proof (graph_is_laplacian G Hb Hp Ht) as HL.
  assert (Hrl : forall v, (v < g_n_vertices G)%nat -> exists b, In b ind /\ reach (lap_edge (g_n_vertices G) (gL G)) v b).
  { intros v Hv. destruct (Hre v Hv) as (b & Hbi & R). exists b. split; [exact Hbi|]. apply arc_lap_reach; assumption. }
  pose proof (schur_connected _ ind Hnd Hin (gL G) X HL HX Hrl (connected_lap G Hb Hp Ht HC)) as HCS.
  intros u v Hu' Hv'. apply lap_arc_reach; [exact Hb'| |exact Ht'|].
  - destruct (C35_kron_graph G ind X Gn Hb Hp Hnd Hre HX HK) as (_ & _ & _ & _ & H & _). exact H.
  - rewrite Hn' in *. eapply reach_mono; [|apply (HCS u v Hu' Hv')].
    intros a b (H1 & H2 & H3 & H4). split; [exact H1|]. split; [exact H2|]. split; [exact H3|]. rewrite HL' by assumption. exact H4.
Qed.
(** Effective resistances between kept vertices do not change. *)
Theorem C35_resistance G ind X Gn o o' R' Rn : built G -> nonneg_weights G -> NoDup ind -> ind <> [] -> connected G ->
  spsolve_ok (g_n_vertices G) (gL G) ind X -> kron_reduction G ind X = Ok Gn ->
  inv_contract (g_n_vertices G) (gL G) o -> resistance_distance G o = Ok R' ->
  inv_contract (g_n_vertices Gn) (gL Gn) o' -> resistance_distance Gn o' = Ok Rn ->
  forall i j, (i < List.length ind)%nat -> (j < List.length ind)%nat -> Rn i j = R' (nth i ind 0%nat) (nth j ind 0%nat).
Proof.
  intros Hb Hp Hnd Hne HC HX HK Ho HR Ho' HRn i j Hi Hj.
  pose proof (C35_connected G ind X Gn Hb Hp Hnd Hne HC HX HK) as HCn.
  assert (Hin0 : forall v, In v ind -> (v < g_n_vertices G)%nat).
  { unfold kron_reduction in HK. destruct (g_lap_type G); try discriminate. destruct (is_directed _); [discriminate|].
    destruct (kron_matrix _ _ _ _) eqn:E; [|discriminate]. apply (kron_matrix_ok _ _ _ _ _ E). }
  pose proof (connected_reaches G ind HC Hin0 Hne) as Hre.
  destruct (kron_reduction_ok G ind X Gn Hb Hp Hnd Hre HX HK) as (Ht & _).
  destruct (C35_kron_graph G ind X Gn Hb Hp Hnd Hre HX HK) as (Hb' & Hn' & Ht' & Hp' & Hu' & _ & _ & Hh & _).
  assert (Hi' : (nth i ind 0 < g_n_vertices G)%nat) by (apply Hin0, nth_In, Hi).
  assert (Hj' : (nth j ind 0 < g_n_vertices G)%nat) by (apply Hin0, nth_In, Hj).
  destruct (C34_potential_difference G o R' _ _ Hb Hp Ht HC Ho HR Hi' Hj') as ((v & Hv) & Hd).
  rewrite (Hd v Hv).
  destruct (C34_potential_difference Gn o' Rn i j Hb' Hp' Ht' HCn Ho' HRn ltac:(lia) ltac:(lia)) as (_ & Hd').
  apply (Hd' (on ind v)). rewrite Hn'. intros a Ha. rewrite Hh; [|intros c Hc Hnc|exact Ha].
  - rewrite Hv by (apply Hin0, nth_In, Ha). unfold unitv.
    assert (E : forall b, (b < List.length ind)%nat -> Nat.eqb (nth a ind 0%nat) (nth b ind 0%nat) = Nat.eqb a b).
    { intros b Hb0. destruct (Nat.eqb_spec a b) as [->|Hab]; [apply Nat.eqb_refl|]. apply Nat.eqb_neq. intros E. apply Hab.
      apply (proj1 (NoDup_nth ind 0%nat) Hnd); assumption. }
    rewrite !E by assumption. reflexivity.
  - rewrite Hv by exact Hc. unfold unitv.
    destruct (Nat.eqb_spec c (nth i ind 0%nat)) as [->|]; [exfalso; apply Hnc, nth_In, Hi|].
    destruct (Nat.eqb_spec c (nth j ind 0%nat)) as [->|]; [exfalso; apply Hnc, nth_In, Hj|]. ring.
Qed.
(** The linear system has exactly one solution as soon as every vertex is linked to a kept one, so the contract
    of the solver can be met. *)
Theorem C35_solvable G ind : built G -> nonneg_weights G -> g_lap_type G = Combinatorial -> selection (g_n_vertices G) ind -> reaches G ind ->
  (exists X, spsolve_ok (g_n_vertices G) (gL G) ind X) /\
  (forall X Y, spsolve_ok (g_n_vertices G) (gL G) ind X -> spsolve_ok (g_n_vertices G) (gL G) ind Y ->
     meq (List.length (setdiff (g_n_vertices G) ind)) (List.length ind) X Y).
Proof.
  intros Hb Hp Ht (Hnd & Hin) Hre. set (n := g_n_vertices G) in *. pose proof (graph_is_laplacian G Hb Hp Ht) as HL. fold n in HL.
  assert (Hrl : forall v, (v < n)%nat -> exists b, In b ind /\ reach (lap_edge n (gL G)) v b).
  { intros v Hv. destruct (Hre v Hv) as (b & Hbi & R). exists b. split; [exact Hbi|]. apply arc_lap_reach; assumption. }
  pose proof (interior_kernel n ind Hnd Hin (gL G) HL Hrl) as HKer. split.
  - destruct (solve_matrix _ (List.length ind) _ (ixm (gL G) (setdiff n ind) ind) HKer) as (X & HX). exists X. exact HX.
  - intros X Y HX HY k j Hk Hj. apply (solve_unique _ _ (fun k => X k j) (fun k => Y k j) HKer); [|exact Hk].
    intros i Hi. transitivity (gL G (nth i (setdiff n ind) 0%nat) (nth j ind 0%nat)); [apply HX; assumption|symmetry; apply HY; assumption].
Qed.
(** Rejected graphs: other Laplacians, directed graphs; and (finding) graphs without coordinates. *)
Theorem C35_rejects G ind X : built G ->
  (g_lap_type G <> Combinatorial -> kron_reduction G ind X = Raise NotImplementedError) /\
  (g_lap_type G = Combinatorial -> ~ undirected G -> kron_reduction G ind X = Raise NotImplementedError).
Proof.
  intros Hb. split.
  - intros H. unfold kron_reduction. destruct (g_lap_type G); [contradiction|reflexivity|reflexivity].
  - intros Ht H. unfold kron_reduction. rewrite Ht. destruct (is_directed (gW G)) eqn:E; [reflexivity|exfalso; apply H].
    destruct (built_good G Hb) as (_ & Hn & _). intros i j Hi Hj. rewrite Hn in Hi, Hj. apply (proj1 (is_directed_false _) E); assumption.
Qed.
Theorem C35_no_coordinates_refuted G ind X : built G -> g_lap_type G = Combinatorial -> undirected G ->
  (forall v, In v ind -> (v < g_n_vertices G)%nat) -> List.length ind <> 1%nat -> g_coords G = None -> kron_reduction G ind X = Raise AttributeError.
Proof.
  intros Hb Ht Hu Hin H1 Hc. unfold kron_reduction. rewrite Ht.
  assert (E : is_directed (gW G) = false).
  { apply is_directed_false. destruct (built_good G Hb) as (_ & Hn & _). rewrite <- Hn. exact Hu. }
  rewrite E. unfold kron_matrix. assert (E2 : forallb (fun v => Nat.ltb v (g_n_vertices G)) ind = true).
  { apply forallb_forall. intros v Hv. apply Nat.ltb_lt. apply Hin, Hv. }
  rewrite E2. cbn [negb bindr]. destruct (Nat.eqb_spec (List.length ind) 1); [contradiction|]. rewrite Hc. reflexivity.
Qed.
(** Finding: a graph cannot be reduced to a single vertex. *)
Theorem C35_single_vertex_refuted G v X : built G -> g_lap_type G = Combinatorial -> undirected G ->
  (v < g_n_vertices G)%nat -> kron_reduction G [v] X = Raise ValueError.
Proof.
  intros Hb Ht Hu Hv. unfold kron_reduction. rewrite Ht.
  assert (E : is_directed (gW G) = false).
  { apply is_directed_false. destruct (built_good G Hb) as (_ & Hn & _). rewrite <- Hn. exact Hu. }
  rewrite E. unfold kron_matrix. cbn [forallb]. rewrite (proj2 (Nat.ltb_lt v (g_n_vertices G)) Hv). reflexivity.
Qed.

(** A path of three vertices with unit weights, whose middle vertex is eliminated. *)
Lemma p3_weights co : exists G, (built G /\ g_n_vertices G = 3%nat /\ g_lap_type G = Combinatorial /\ g_coords G = co /\ nonneg_weights G /\ undirected G /\ connected G /\
  meq 3 3 (gL G) (fun i j => nth (i * 3 + j) [1; -1; 0; -1; 2; -1; 0; -1; 1] 0)) /\
  forall i j, (i < 3)%nat -> (j < 3)%nat -> wt G i j = nth (i * 3 + j) [0; 1; 0; 1; 0; 1; 0; 1; 0] 0.
Proof.
  destruct (finite_entry_built 3 [0; 1; 0; 1; 0; 1; 0; 1; 0] Combinatorial co eq_refl (or_introl eq_refl)) as (G & _ & Hb & Hn & Ht & Hc & Hw).
  exists G. split; [|exact Hw]. split; [exact Hb|]. split; [exact Hn|]. split; [exact Ht|]. split; [exact Hc|].
  split. { intros i j Hi Hj. rewrite Hn in Hi, Hj. rewrite Hw by assumption.
    destruct i as [|[|[|i]]]; try lia; destruct j as [|[|[|j]]]; try lia; cbn; lra. }
  split. { intros i j Hi Hj. rewrite Hn in Hi, Hj. rewrite !Hw by assumption.
    destruct i as [|[|[|i]]]; try lia; destruct j as [|[|[|j]]]; try lia; reflexivity. }
  split.
  { assert (A : forall a b, (a < 3)%nat -> (b < 3)%nat -> (b = S a \/ a = S b) -> has_arc G a b).
    { intros a b Ha Hb' Hs. unfold has_arc. rewrite Hn. split; [exact Ha|]. split; [exact Hb'|]. rewrite Hw by assumption.
      destruct a as [|[|[|a]]]; try lia; destruct b as [|[|[|b]]]; try lia; cbn; lra. }
    assert (H1 : forall a, (a < 3)%nat -> reach (has_arc G) a 1).
    { intros a Ha. destruct (Nat.eq_dec a 1) as [->|]; [apply reach_refl|]. apply reach_one. apply A; lia. }
    assert (H2 : forall a, (a < 3)%nat -> reach (has_arc G) 1 a).
    { intros a Ha. destruct (Nat.eq_dec a 1) as [->|]; [apply reach_refl|]. apply reach_one. apply A; lia. }
    intros u v Hu Hv. rewrite Hn in Hu, Hv. eapply reach_trans; [apply H1|apply H2]; assumption. }
  destruct (C09_combinatorial_structure G Hb Ht) as (_ & R1 & R2 & _). rewrite Hn in R1, R2.
  assert (OD : forall i j, (i < 3)%nat -> (j < 3)%nat -> i <> j -> gL G i j = nth (i * 3 + j) [1; -1; 0; -1; 2; -1; 0; -1; 1] 0).
  { intros i j Hi Hj Hne. rewrite R2 by assumption. rewrite !Hw by assumption.
    destruct i as [|[|[|i]]]; try lia; destruct j as [|[|[|j]]]; try lia; cbn; lra. }
  intros i j Hi Hj. destruct (Nat.eq_dec i j) as [<-|]; [|apply OD; assumption].
  specialize (R1 i Hi). cbn [rsum] in R1. destruct i as [|[|[|i]]]; try lia;
  repeat match type of R1 with context [gL G ?a ?b] => rewrite (OD a b) in R1 by lia end; cbn in R1 |- *; lra.
Qed.
Lemma p3_graph co : exists G, built G /\ g_n_vertices G = 3%nat /\ g_lap_type G = Combinatorial /\ g_coords G = co /\ nonneg_weights G /\ undirected G /\ connected G /\
  meq 3 3 (gL G) (fun i j => nth (i * 3 + j) [1; -1; 0; -1; 2; -1; 0; -1; 1] 0).
Proof. destruct (p3_weights co) as (G & H & _). exists G. exact H. Qed.
Example C35_ex : exists G X Gn, built G /\ nonneg_weights G /\ connected G /\ reaches G [0; 2]%nat /\ spsolve_ok (g_n_vertices G) (gL G) [0; 2]%nat X /\
  kron_reduction G [0; 2]%nat X = Ok Gn /\ wt Gn 0%nat 1%nat = / 2.
Proof.
  destruct (p3_graph (Some [[0]; [1]; [2]])) as (G & Hb & Hn & Ht & Hc & Hp & Hu & HC & HL).
  assert (Hre : reaches G [0; 2]%nat).
  { apply connected_reaches; [exact HC| |discriminate]. rewrite Hn. intros v [<-|[<-|[]]]; lia. }
  set (X := fun _ _ : nat => - / 2).
  assert (HX : spsolve_ok (g_n_vertices G) (gL G) [0; 2]%nat X).
  { rewrite Hn. unfold spsolve_ok. cbn. intros k j Hk Hj. destruct k as [|k]; [|lia]. destruct j as [|[|j]]; try lia;
    rewrite !HL by lia; unfold X; cbn; lra. }
  assert (Hd : is_directed (gW G) = false).
  { apply is_directed_false. destruct (built_good G Hb) as (_ & Hn' & _). rewrite <- Hn'. exact Hu. }
  assert (HK : exists Gn, kron_reduction G [0; 2]%nat X = Ok Gn).
  { unfold kron_reduction. rewrite Ht, Hd, Hn, Hc. unfold kron_matrix. cbn [forallb Nat.ltb Nat.leb andb negb bindr List.length Nat.eqb].
    match goal with |- exists _, graph_init (InDense [?m; ?m] (map Fin (dense _ ?A))) _ ?c = _ =>
      destruct (finite_entry_built m (dense m A) Combinatorial c (dense_length m A) (or_introl eq_refl)) as (G' & HG & _) end.
    exists G'. exact HG. }
  destruct HK as (Gn & HK). exists G, X, Gn. repeat (split; [assumption|]).
  assert (Hnd : NoDup [0; 2]%nat) by (repeat constructor; cbn; intuition discriminate).
  destruct (kron_reduction_ok G [0; 2]%nat X Gn Hb Hp Hnd Hre HX HK) as (_ & _ & _ & _ & _ & _ & _ & _ & Hw & _).
  rewrite Hw by (cbn; lia). cbn [Nat.eqb]. rewrite Hn. unfold schur, ixm. cbn. rewrite !HL by lia. cbn. unfold X. lra.
Qed.
