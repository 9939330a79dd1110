(** C67: what G.plot checks and computes. *)
From Coq Require Import Reals Lra Lia List Arith Bool String Permutation Sorted.
From Coq Require Import List.
From Verif.Base Require Import RSum Prelude.
From Verif.Spec Require Import Matrix GraphSpec NdArray.
From Verif.Model Require Import Sparse Graph Ring Plot.
From Verif.Proofs Require Import SparseFacts InitFacts EdgeFacts.
From Verif.Props Require Import Core RingProps.
Import ListNotations.
Open Scope R_scope.
Open Scope list_scope.

(** ** Specification: the extreme values of an array. *)
Definition least (x : list R) (m : R) : Prop := In m x /\ forall v, In v x -> m <= v.
Definition greatest (x : list R) (m : R) : Prop := In m x /\ forall v, In v x -> v <= m.

Lemma fold_min l a : least (a :: l) (fold_left Rmin l a).
Proof.
  revert a. induction l as [|b l IH]; intros a; cbn [fold_left].
  - split; [left; reflexivity|]. intros v [->|[]]. lra.
  - destruct (IH (Rmin a b)) as [I L]. split.
    + destruct I as [I|I]; [|right; right; exact I]. rewrite <- I. unfold Rmin. destruct (Rle_dec a b); [left; reflexivity|right; left; reflexivity].
    + intros v [->|[->|H]].
      * apply Rle_trans with (Rmin v b); [apply L; left; reflexivity|apply Rmin_l].
      * apply Rle_trans with (Rmin a v); [apply L; left; reflexivity|apply Rmin_r].
      * apply L. right. exact H.
Qed.
Lemma fold_max l a : greatest (a :: l) (fold_left Rmax l a).
Proof.
  revert a. induction l as [|b l IH]; intros a; cbn [fold_left].
  - split; [left; reflexivity|]. intros v [->|[]]. lra.
  - destruct (IH (Rmax a b)) as [I L]. split.
    + destruct I as [I|I]; [|right; right; exact I]. rewrite <- I. unfold Rmax. destruct (Rle_dec a b); [right; left; reflexivity|left; reflexivity].
    + intros v [->|[->|H]].
      * apply Rle_trans with (Rmax v b); [apply Rmax_l|apply L; left; reflexivity].
      * apply Rle_trans with (Rmax a v); [apply Rmax_r|apply L; left; reflexivity].
      * apply L. right. exact H.
Qed.
Lemma np_min_ok x m : np_min x = Ok m <-> least x m.
Proof.
  assert (U : forall a b, least x a -> least x b -> a = b).
  { intros a b [A LA] [B LB]. apply Rle_antisym; auto. }
  destruct x as [|a l]; cbn; [split; [discriminate|intros [[] _]]|]. split; [intros [= <-]; apply fold_min|]. intros H. f_equal. apply U; [apply fold_min|exact H].
Qed.
Lemma np_max_ok x m : np_max x = Ok m <-> greatest x m.
Proof.
  assert (U : forall a b, greatest x a -> greatest x b -> a = b).
  { intros a b [A LA] [B LB]. apply Rle_antisym; auto. }
  destruct x as [|a l]; cbn; [split; [discriminate|intros [[] _]]|]. split; [intros [= <-]; apply fold_max|]. intros H. f_equal. apply U; [apply fold_max|exact H].
Qed.

(** ** Normalisation *)

(** A constant array becomes 1/2 everywhere.  Any other is mapped increasingly and affinely onto [intercept, 1], its least
    value to the intercept and its greatest to 1. *)
Theorem C67_normalize :
  forall c x, 0 <= c < 1 ->
    (x = [] -> normalize c x = Raise ValueError) /\
    (forall mn mx, least x mn -> greatest x mx ->
       exists y, normalize c x = Ok y /\ List.length y = List.length x /\
         (mn = mx -> forall i, (i < List.length x)%nat -> nth i y 0 = 1 / 2) /\
         (mn < mx -> forall i j, (i < List.length x)%nat -> (j < List.length x)%nat ->
            c <= nth i y 0 <= 1 /\
            (nth i x 0 = mn -> nth i y 0 = c) /\ (nth i x 0 = mx -> nth i y 0 = 1) /\
            (nth i x 0 < nth j x 0 -> nth i y 0 < nth j y 0) /\
            (mx - mn) * (nth i y 0 - nth j y 0) = (1 - c) * (nth i x 0 - nth j x 0))).
Proof.
  intros c x Hc. split; [intros ->; reflexivity|]. intros mn mx Hn Hx. unfold normalize.
  rewrite (proj2 (np_min_ok x mn) Hn), (proj2 (np_max_ok x mx) Hx). cbn [bindr].
  assert (Le : mn <= mx) by (apply Hn; apply Hx). destruct (Reqb_spec (mx - mn) 0) as [E|E].
  - eexists. split; [reflexivity|]. split; [apply map_length|]. split; [|intros; lra].
    intros _ i Hi. rewrite (nth_indep _ 0 ((fun _ => 1 / 2) 0)) by (rewrite map_length; exact Hi). rewrite (map_nth (fun _ => 1 / 2) x 0 i). reflexivity.
  - eexists. split; [reflexivity|]. split; [apply map_length|]. split; [intros ->; lra|]. intros Lt i j Hi Hj.
    set (f := fun v => (1 - c) * (v - mn) / (mx - mn) + c).
    assert (Ef : forall k, (k < List.length x)%nat -> nth k (map f x) 0 = f (nth k x 0)).
    { intros k Hk. rewrite (nth_indep _ 0 (f 0)) by (rewrite map_length; exact Hk). apply map_nth. }
    change (map (fun v => (1 - c) * (v - mn) / (mx - mn) + c) x) with (map f x). rewrite !Ef by assumption.
    assert (A : forall v, f v = (1 - c) / (mx - mn) * (v - mn) + c) by (intros v; unfold f; field; lra).
    assert (P : 0 < (1 - c) / (mx - mn)) by (apply Rdiv_lt_0_compat; lra).
    assert (B1 : forall k, (k < List.length x)%nat -> mn <= nth k x 0 <= mx) by (intros k Hk; split; [apply Hn|apply Hx]; apply nth_In; exact Hk).
    assert (F1 : f mx = 1) by (unfold f; field; lra). assert (F0 : f mn = c) by (unfold f; field; lra).
    assert (M : forall a b, a <= b -> f a <= f b). { intros a b L. rewrite !A. apply Rplus_le_compat_r, Rmult_le_compat_l; lra. }
    split; [rewrite <- F1, <- F0 at 1; split; apply M; apply B1; exact Hi|]. split; [intros ->; exact F0|]. split; [intros ->; exact F1|]. split.
    + intros L. rewrite !A. apply Rplus_lt_compat_r, Rmult_lt_compat_l; lra.
    + unfold f. field. lra.
Qed.
Example C67_normalize_ex : least [3; 7; 5] 3 /\ greatest [3; 7; 5] 7 /\ 0 <= pp_intercept default_pp < 1.
Proof.
  split; [|split; [|cbn; lra]]; split; cbn; [tauto| |tauto|]; intros v [<-|[<-|[<-|[]]]]; lra.
Qed.

(** ** Sizes, widths, opacities *)
Lemma normalize_inv c x y : 0 <= c < 1 -> c <= 1 / 2 -> normalize c x = Ok y ->
  List.length y = List.length x /\ forall v, In v y -> c <= v <= 1.
Proof.
  intros Hc Hh E. destruct x as [|a l]; [discriminate|]. set (x := a :: l) in *.
  assert (Hn : least x (fold_left Rmin l a)) by apply fold_min. assert (Hx : greatest x (fold_left Rmax l a)) by apply fold_max.
  destruct (proj2 (C67_normalize c x Hc) _ _ Hn Hx) as (y' & E' & L & C0 & C1). rewrite E in E'. injection E' as <-. split; [exact L|].
  intros v Hv. apply (In_nth y v 0) in Hv as (i & Hi & <-). rewrite L in Hi.
  destruct (Rtotal_order (fold_left Rmin l a) (fold_left Rmax l a)) as [Lt|[Eq|Gt]].
  - apply (C1 Lt i i Hi Hi).
  - rewrite (C0 Eq i Hi). lra.
  - assert (fold_left Rmin l a <= fold_left Rmax l a) by (apply Hn; apply Hx). lra.
Qed.

Lemma check_ok sh len many : check_shape sh len many = Ok tt <-> exists r, sh = len :: r /\ (many = true \/ r = []).
Proof.
  unfold check_shape. destruct sh as [|d r]; [split; [discriminate|intros (r & H & _); discriminate]|].
  destruct (Nat.eqb_spec d len) as [->|N]; cbn [negb].
  - destruct many; cbn [negb andb]; [split; [intros _; exists r; auto|reflexivity]|]. destruct r as [|b r]; cbn.
    + split; [intros _; exists []; auto|reflexivity].
    + split; [discriminate|]. intros (r' & [= <-] & [H|H]); discriminate.
  - split; [discriminate|]. intros (r' & [= -> _] & _). contradiction.
Qed.
Lemma check_raise sh len many : check_shape sh len many = Ok tt \/ check_shape sh len many = Raise ValueError.
Proof. unfold check_shape. destruct sh; auto. destruct (negb _); auto. destruct (_ && _)%bool; auto. Qed.

Lemma sizes_values :
  forall base c N sh x, 0 <= base -> 0 <= c <= 1 / 2 -> List.length x = fold_right Nat.mul 1%nat sh ->
    (forall r, vertex_sizes base c N (Values sh x) = Ok r -> drop1 sh = [N] /\
       exists l, r = Each l /\ List.length l = List.length x /\ forall v, In v l -> base * 4 * c ^ 2 <= v <= base * 4) /\
    (forall r, edge_widths base c N (Values sh x) = Ok r -> drop1 sh = [N] /\
       exists l, r = Each l /\ List.length l = List.length x /\ forall v, In v l -> base * 2 * c <= v <= base * 2) /\
    (forall r, edge_opacity false c N (Values sh x) = Ok r -> drop1 sh = [N] /\
       exists l, r = Graded l /\ List.length l = List.length x /\ forall v, In v l -> 9 / 10 * c <= v <= 9 / 10) /\
    (drop1 sh = [N] -> (1 <= N)%nat -> (exists r, vertex_sizes base c N (Values sh x) = Ok r) /\
       (exists r, edge_widths base c N (Values sh x) = Ok r) /\ (exists r, edge_opacity false c N (Values sh x) = Ok r)) /\
    (drop1 sh <> [N] -> vertex_sizes base c N (Values sh x) = Raise ValueError /\ edge_widths base c N (Values sh x) = Raise ValueError /\
       edge_opacity false c N (Values sh x) = Raise ValueError).
Proof.
  intros base c N sh x Hb Hc Hl. unfold vertex_sizes, edge_widths, edge_opacity. change (is_color false sh x) with false. cbn iota.
  assert (Hc1 : 0 <= c < 1) by lra.
  assert (CK : check_shape (drop1 sh) N false = Ok tt <-> drop1 sh = [N]).
  { rewrite check_ok. split; [intros (r & E & [D|D]); [discriminate|subst r; exact E]|]. intros E. exists []. auto. }
  assert (K : forall (F : R -> R), (forall l, normalize c x = Ok l -> List.length (map F l) = List.length x)).
  { intros F l E. rewrite map_length. apply (normalize_inv c x l Hc1); [lra|exact E]. }
  assert (V : forall l, normalize c x = Ok l -> forall v, In v l -> c <= v <= 1).
  { intros l E. apply (normalize_inv c x l Hc1); [lra|exact E]. }
  destruct (check_raise (drop1 sh) N false) as [Ec|Ec]; rewrite Ec in *; cbn [bindr].
  - pose proof (proj1 CK eq_refl) as Ed. destruct (normalize c x) as [l|ex] eqn:En; cbn [bindr].
    + split; [|split; [|split; [|split]]].
      * intros r [= <-]. split; [exact Ed|]. eexists. split; [reflexivity|]. split; [apply K; reflexivity|].
        intros v Hv. apply in_map_iff in Hv as (w & <- & Hw). specialize (V l eq_refl w Hw).
        assert (Q : c * c <= w * w <= 1) by (split; nra). replace (c ^ 2) with (c * c) by ring. replace (w ^ 2) with (w * w) by ring. split; nra.
      * intros r [= <-]. split; [exact Ed|]. eexists. split; [reflexivity|]. split; [apply K; reflexivity|].
        intros v Hv. apply in_map_iff in Hv as (w & <- & Hw). specialize (V l eq_refl w Hw). split; nra.
      * intros r [= <-]. split; [exact Ed|]. eexists. split; [reflexivity|]. split; [apply K; reflexivity|].
        intros v Hv. apply in_map_iff in Hv as (w & <- & Hw). specialize (V l eq_refl w Hw). split; nra.
      * intros _ _. split; [|split]; eexists; reflexivity.
      * intros Hn. contradiction.
    + split; [intros r H; discriminate|]. split; [intros r H; discriminate|]. split; [intros r H; discriminate|]. split; [|intros Hn; contradiction].
      intros _ HN. exfalso. destruct x as [|a l].
      * cbn in Hl. assert (Z : In 0%nat sh).
        { clear -Hl. induction sh as [|d sh IH]; cbn in Hl; [discriminate|]. destruct d; [left; reflexivity|]. right. apply IH.
          destruct (fold_right Nat.mul 1%nat sh); [reflexivity|cbn in Hl; discriminate]. }
        assert (In 0%nat (drop1 sh)) by (apply filter_In; auto). rewrite Ed in H. destruct H as [H|[]]. lia.
      * unfold normalize in En. cbn [np_min np_max bindr] in En. destruct (Reqb _ _); discriminate.
  - assert (Nd : drop1 sh <> [N]) by (intros E; apply CK in E; discriminate).
    split; [intros r H; discriminate|]. split; [intros r H; discriminate|]. split; [intros r H; discriminate|]. split; [intros E; contradiction|]. auto.
Qed.
(** A vertex (or edge) array is accepted iff, once its dimensions of size one are dropped, it is one-dimensional with one
    value per vertex (or edge); the sizes then stay between 4 base c^2 and 4 base, the widths between 2 base c and 2 base, the
    opacities between 0.9 c and 0.9.  An array that matplotlib reads as colours (is_color) is used as such for the edges. *)
Theorem C67_sizes :
  forall mpl base c N sh x, 0 <= base -> 0 <= c <= 1 / 2 -> List.length x = fold_right Nat.mul 1%nat sh ->
    (forall r, vertex_sizes base c N (Values sh x) = Ok r -> drop1 sh = [N] /\
       exists l, r = Each l /\ List.length l = List.length x /\ forall v, In v l -> base * 4 * c ^ 2 <= v <= base * 4) /\
    (forall r, edge_widths base c N (Values sh x) = Ok r -> drop1 sh = [N] /\
       exists l, r = Each l /\ List.length l = List.length x /\ forall v, In v l -> base * 2 * c <= v <= base * 2) /\
    (forall r, edge_opacity mpl c N (Values sh x) = Ok r -> (is_color mpl sh x = true /\ r = Colours sh x) \/ drop1 sh = [N] /\
       exists l, r = Graded l /\ List.length l = List.length x /\ forall v, In v l -> 9 / 10 * c <= v <= 9 / 10) /\
    (drop1 sh = [N] -> (1 <= N)%nat -> (exists r, vertex_sizes base c N (Values sh x) = Ok r) /\
       (exists r, edge_widths base c N (Values sh x) = Ok r) /\ (exists r, edge_opacity mpl c N (Values sh x) = Ok r)) /\
    (drop1 sh <> [N] -> vertex_sizes base c N (Values sh x) = Raise ValueError /\ edge_widths base c N (Values sh x) = Raise ValueError /\
       (is_color mpl sh x = false -> edge_opacity mpl c N (Values sh x) = Raise ValueError)).
Proof.
  intros mpl base c N sh x Hb Hc Hl. destruct (sizes_values base c N sh x Hb Hc Hl) as (A & B & C & D & E).
  split; [exact A|]. split; [exact B|]. destruct (is_color mpl sh x) eqn:IC.
  - assert (EO : edge_opacity mpl c N (Values sh x) = Ok (Colours sh x)) by (unfold edge_opacity; rewrite IC; reflexivity). rewrite EO.
    split; [intros r [= <-]; left; auto|]. split; [|intros Hn; destruct (E Hn) as (? & ? & _); split; [assumption|split; [assumption|discriminate]]].
    intros Ed HN. destruct (D Ed HN) as (? & ? & _). split; [assumption|]. split; [assumption|]. eexists; reflexivity.
  - assert (EO : edge_opacity mpl c N (Values sh x) = edge_opacity false c N (Values sh x)) by (unfold edge_opacity; rewrite IC; reflexivity). rewrite EO.
    split; [intros r Hr; right; apply C; exact Hr|]. split; [exact D|]. intros Hn. destruct (E Hn) as (? & ? & ?). auto.
Qed.
Example C67_sizes_ex : 0 <= pp_size default_pp /\ 0 <= pp_intercept default_pp <= 1 / 2 /\ drop1 [3%nat; 1%nat] = [3%nat] /\
  List.length [3; 7; 5] = fold_right Nat.mul 1%nat [3%nat; 1%nat].
Proof. cbn. repeat split; lra. Qed.

(** With the default plotting parameters (vertex size 100, edge width 2, intercept 1/4): vertices are drawn between 25 and 400, edges
    between 1 and 4 wide, with opacities between 0.225 and 0.9; without arguments they are 100 and 2. *)
Theorem C67_default_sizes :
  forall N sh x, List.length x = fold_right Nat.mul 1%nat sh -> let P := default_pp in
    vertex_sizes (pp_size P) (pp_intercept P) N Missing = Ok (One 100) /\ edge_widths (pp_width P) (pp_intercept P) N Missing = Ok (One 2) /\
    (forall l, vertex_sizes (pp_size P) (pp_intercept P) N (Values sh x) = Ok (Each l) -> forall v, In v l -> 25 <= v <= 400) /\
    (forall l, edge_widths (pp_width P) (pp_intercept P) N (Values sh x) = Ok (Each l) -> forall v, In v l -> 1 <= v <= 4) /\
    (forall mpl l, edge_opacity mpl (pp_intercept P) N (Values sh x) = Ok (Graded l) -> forall v, In v l -> 9 / 40 <= v <= 9 / 10) /\
    (forall l, vertex_sizes (pp_size P) (pp_intercept P) N (Values sh x) = Ok (Each l) -> (exists a b, In a x /\ In b x /\ a <> b) -> In 25 l /\ In 400 l).
Proof.
  intros N sh x Hl P. unfold P, default_pp. cbn [pp_size pp_width pp_intercept]. split; [reflexivity|]. split; [reflexivity|].
  split; [|split; [|split]].
  - intros l E v Hv. destruct (C67_sizes true 100 (1 / 4) N sh x ltac:(lra) ltac:(lra) Hl) as (A & _). destruct (A _ E) as (_ & l' & E' & _ & B). injection E' as <-. specialize (B v Hv). lra.
  - intros l E v Hv. destruct (C67_sizes true 2 (1 / 4) N sh x ltac:(lra) ltac:(lra) Hl) as (_ & A & _). destruct (A _ E) as (_ & l' & E' & _ & B). injection E' as <-. specialize (B v Hv). lra.
  - intros mpl l E v Hv. destruct (C67_sizes mpl 2 (1 / 4) N sh x ltac:(lra) ltac:(lra) Hl) as (_ & _ & A & _).
    destruct (A _ E) as [(_ & E')|(_ & l' & E' & _ & B)]; [discriminate|]. injection E' as <-. specialize (B v Hv). lra.
  - intros l E (a & b & Ha & Hb & Hab). unfold vertex_sizes in E. destruct (check_shape (drop1 sh) N false) as [u|u]; [|discriminate]. cbn [bindr] in E.
    destruct (np_min x) as [mn|z] eqn:Emn; [|destruct x; [destruct Ha|discriminate]]. destruct (np_max x) as [mx|z] eqn:Emx; [|destruct x; [destruct Ha|discriminate]].
    apply np_min_ok in Emn. apply np_max_ok in Emx.
    assert (Lt : mn < mx).
    { pose proof (proj2 Emn a Ha). pose proof (proj2 Emn b Hb). pose proof (proj2 Emx a Ha). pose proof (proj2 Emx b Hb). destruct (Rtotal_order a b) as [H3|[H3|H3]]; [lra|contradiction|lra]. }
    destruct (C67_normalize (1 / 4) x ltac:(lra)) as (_ & Hnm). destruct (Hnm mn mx Emn Emx) as (y & Ey & Hly & _ & Hy). rewrite Ey in E. cbn [bindr] in E. injection E as <-.
    destruct (In_nth x mn 0 (proj1 Emn)) as (i & Hi & Ei). destruct (In_nth x mx 0 (proj1 Emx)) as (j & Hj & Ej).
    split; apply in_map_iff.
    + exists (nth i y 0). split; [|apply nth_In; lia]. rewrite (proj1 (proj2 (Hy Lt i i Hi Hi)) Ei). field.
    + exists (nth j y 0). split; [|apply nth_In; lia]. rewrite (proj1 (proj2 (proj2 (Hy Lt j j Hj Hj))) Ej). field.
Qed.
Example C67_default_sizes_ex : exists l, vertex_sizes 100 (1 / 4) 2 (Values [2%nat] [3; 7]) = Ok (Each l) /\ exists a b, In a [3; 7] /\ In b [3; 7] /\ a <> b.
Proof.
  destruct (C67_sizes true 100 (1 / 4) 2 [2%nat] [3; 7] ltac:(lra) ltac:(lra) eq_refl) as (A & _ & _ & B & _). destruct (proj1 (B eq_refl ltac:(lia))) as (r & E).
  destruct (A r E) as (_ & l & -> & _). exists l. split; [exact E|]. exists 3, 7. cbn. repeat split; [tauto|tauto|apply Rlt_not_eq; lra].
Qed.

(** Finding: on a graph with one edge no array of edge widths or colours is accepted, whatever its shape (the same holds for
    the vertex sizes of a graph with one vertex). *)
Theorem C67_single_edge_refuted :
  forall mpl base c sh x, edge_widths base c 1 (Values sh x) = Raise ValueError /\ vertex_sizes base c 1 (Values sh x) = Raise ValueError /\
    (is_color mpl sh x = false -> edge_opacity mpl c 1 (Values sh x) = Raise ValueError).
Proof.
  intros mpl base c sh x. unfold edge_widths, edge_opacity, vertex_sizes.
  assert (E : check_shape (drop1 sh) 1 false = Raise ValueError).
  { destruct (check_raise (drop1 sh) 1 false) as [E|E]; [|exact E]. apply check_ok in E as (r & E & _).
    assert (I : In 1%nat (drop1 sh)) by (rewrite E; left; reflexivity). apply filter_In in I as [_ I]. discriminate. }
  rewrite E. split; [reflexivity|]. split; [reflexivity|]. intros ->. reflexivity.
Qed.

(** ** Colours *)

(** A signal of one value per vertex is read as a single colour exactly when there are three or four vertices and all its values are
    between 0 and 1. *)
Lemma unit_values_ok x : unit_values x = true <-> forall v, In v x -> 0 <= v <= 1.
Proof.
  unfold unit_values. rewrite forallb_forall. split; intros H v Hv.
  - specialize (H v Hv). apply andb_true_iff in H as [A B]. apply Rleb_true in A, B. lra.
  - specialize (H v Hv). apply andb_true_iff. split; apply Rleb_true; lra.
Qed.
Theorem C67_is_color :
  forall n x, (1 <= n)%nat -> is_color false [n] x = false /\
    (is_color true [n] x = true <-> (n = 3%nat \/ n = 4%nat) /\ forall v, In v x -> 0 <= v <= 1).
Proof.
  intros n x Hn. split; [reflexivity|]. unfold is_color. rewrite andb_true_l, orb_true_iff, andb_true_iff, unit_values_ok.
  assert (R1 : rgb_shape [n] = true <-> n = 3%nat \/ n = 4%nat).
  { unfold rgb_shape. cbn [existsb].
    destruct (list_eq_dec Nat.eq_dec [n] [3%nat]) as [E|E]; [cbn; split; [left; congruence|reflexivity]|].
    destruct (list_eq_dec Nat.eq_dec [n] [1%nat; 3%nat]) as [E'|E']; [discriminate E'|].
    destruct (list_eq_dec Nat.eq_dec [n] [4%nat]) as [F|F]; [cbn; split; [right; congruence|reflexivity]|].
    destruct (list_eq_dec Nat.eq_dec [n] [1%nat; 4%nat]) as [F'|F']; [discriminate F'|]. cbn. split; [discriminate|]. intros [->| ->]; [destruct (E eq_refl)|destruct (F eq_refl)]. }
  rewrite R1. destruct n as [|n]; [lia|]. change (rgb_shape []) with false. cbn [andb]. split; [intros [H|H]; [exact H|discriminate]|auto].
Qed.
(** All the arrays: an array without items is read as a (list of) colour, and a two-dimensional array iff its rows are RGB or RGBA
    colours. *)
Theorem C67_is_color_arrays :
  forall x, is_color true [0%nat] x = true /\
    forall n k, (is_color true [n; k] x = true <-> n = 0%nat \/ (k = 3%nat \/ k = 4%nat) /\ forall v, In v x -> 0 <= v <= 1).
Proof.
  intros x. split; [reflexivity|]. intros n k. unfold is_color. rewrite andb_true_l, orb_true_iff, andb_true_iff, unit_values_ok.
  assert (R1 : rgb_shape [k] = true <-> k = 3%nat \/ k = 4%nat).
  { unfold rgb_shape. cbn [existsb].
    destruct (list_eq_dec Nat.eq_dec [k] [3%nat]) as [E|E]; [cbn; split; [left; congruence|reflexivity]|].
    destruct (list_eq_dec Nat.eq_dec [k] [1%nat; 3%nat]) as [E'|E']; [discriminate E'|].
    destruct (list_eq_dec Nat.eq_dec [k] [4%nat]) as [F|F]; [cbn; split; [right; congruence|reflexivity]|].
    destruct (list_eq_dec Nat.eq_dec [k] [1%nat; 4%nat]) as [F'|F']; [discriminate F'|]. cbn. split; [discriminate|]. intros [->| ->]; [destruct (E eq_refl)|destruct (F eq_refl)]. }
  assert (R2 : rgb_shape [n; k] = true -> k = 3%nat \/ k = 4%nat).
  { unfold rgb_shape. cbn [existsb]. intros H. destruct (list_eq_dec Nat.eq_dec [n; k] [3%nat]) as [E|E]; [discriminate E|]. destruct (list_eq_dec Nat.eq_dec [n; k] [1%nat; 3%nat]) as [E'|E']; [injection E'; auto|].
    destruct (list_eq_dec Nat.eq_dec [n; k] [4%nat]) as [F|F]; [discriminate F|]. destruct (list_eq_dec Nat.eq_dec [n; k] [1%nat; 4%nat]) as [F'|F']; [injection F'; auto|]. discriminate. }
  destruct n as [|n].
  - split; [left; reflexivity|intros _; right; reflexivity].
  - rewrite andb_true_iff, unit_values_ok, R1. split; [intros [(H & Hv)|H]; right; [split; [apply R2; exact H|exact Hv]|exact H]|intros [H|H]; [discriminate|right; exact H]].
Qed.
(** Finding: on a graph with three or four vertices a signal with values in [0, 1], such as any indicator signal, is not treated as a signal
    but as a colour given by the caller: the limits of the colour scale become (0, 0), those given by the caller are dropped, and there is
    no colour bar (so scatter gives all the vertices the same colour); with three or four edges an array of edge values in [0, 1] is
    taken for the one colour of all the edges. *)
Theorem C67_signal_read_as_colour_refuted :
  forall n x one_dim limits c, (n = 3%nat \/ n = 4%nat) -> (forall v, In v x -> 0 <= v <= 1) ->
    colour true n one_dim (Values [n] x) limits = Ok (Colours [n] x, (0, 0)) /\
    edge_opacity true c n (Values [n] x) = Ok (Colours [n] x).
Proof.
  intros n x one limits c Hn Hx. assert (IC : is_color true [n] x = true) by (apply (C67_is_color n x); [lia|auto]).
  unfold colour, edge_opacity. rewrite IC. auto.
Qed.
(** Otherwise a signal is accepted iff it has one value per vertex (several signals when the coordinates are on a line), and it is
    coloured as it is. *)
Theorem C67_signal_coloured :
  forall mpl N one_dim sh x lim, is_color mpl sh x = false ->
    (forall r, drop1 sh = N :: r -> (one_dim = true \/ r = []) -> colour mpl N one_dim (Values sh x) (Some lim) = Ok (Graded x, lim)) /\
    (forall p, colour mpl N one_dim (Values sh x) (Some lim) = Ok p -> exists r, drop1 sh = N :: r /\ (one_dim = true \/ r = [])).
Proof.
  intros mpl N one sh x lim IC. unfold colour. rewrite IC. split.
  - intros r E H. rewrite (proj2 (check_ok (drop1 sh) N one)); [reflexivity|exists r; auto].
  - intros p H. apply check_ok. destruct (check_raise (drop1 sh) N one) as [E|E]; [exact E|]. rewrite E in H. discriminate.
Qed.
Example C67_colour_ex : is_color true [3%nat] [1; 0; 0] = true /\ is_color true [3%nat] [1; 0; -1] = false /\ is_color true [5%nat] [1; 0; 0; 0; 0] = false.
Proof.
  split; [|split].
  - apply (C67_is_color 3); [lia|]. split; [auto|]. intros v [<-|[<-|[<-|[]]]]; lra.
  - apply not_true_iff_false. intros H. apply (C67_is_color 3) in H; [|lia]. destruct H as [_ H]. specialize (H (-1) ltac:(cbn; auto)). lra.
  - apply not_true_iff_false. intros H. apply (C67_is_color 5) in H; [|lia]. destruct H as [[H|H] _]; discriminate.
Qed.


(** The default limits of the colour scale contain all the coloured values iff these reach down to zero or below, and up to
    zero or above. *)
Theorem C67_default_limits :
  forall mpl N one_dim sh x r, colour mpl N one_dim (Values sh x) None = Ok r -> is_color mpl sh x = false ->
    exists mn mx, least x mn /\ greatest x mx /\ r = (Graded x, (1.05 * mn, 1.05 * mx)) /\
      ((forall v, In v x -> fst (snd r) <= v <= snd (snd r)) <-> mn <= 0 <= mx).
Proof.
  intros mpl N one sh x r H IC. unfold colour in H. rewrite IC in H. destruct (check_shape (drop1 sh) N one); [|discriminate]. cbn [bindr] in H.
  destruct (np_min x) as [mn|] eqn:En; [|discriminate]. destruct (np_max x) as [mx|] eqn:Ex; [|discriminate]. cbn [bindr] in H. injection H as <-.
  apply np_min_ok in En. apply np_max_ok in Ex. exists mn, mx. split; [exact En|]. split; [exact Ex|]. split; [reflexivity|]. cbn [fst snd]. split.
  - intros B. pose proof (B mn (proj1 En)). pose proof (B mx (proj1 Ex)). lra.
  - intros Z v Hv. pose proof (proj2 En v Hv). pose proof (proj2 Ex v Hv). lra.
Qed.
(** Finding: so a positive signal has values below its own colour scale. *)
Theorem C67_limits_exclude_values_refuted :
  exists x r, colour true 2 false (Values [2%nat] x) None = Ok r /\ exists v, In v x /\ v < fst (snd r).
Proof.
  destruct (colour true 2 false (Values [2%nat] [1; 2]) None) as [r|] eqn:E; [|discriminate].
  exists [1; 2], r. split; [exact E|]. exists 1. split; [left; reflexivity|]. cbn in E. injection E as <-. cbn. unfold Rmin. destruct (Rle_dec 1 2); lra.
Qed.

(** With the pyqtgraph backend the values are mapped to the positions 1 to 64 of the colour map when the lower limit is 0 ... *)
Theorem C67_qtg_colours :
  forall hi v, 0 < hi -> 0 <= v <= hi -> 1 <= qtg_colour (0, hi) v <= 64 /\ qtg_colour (0, hi) 0 = 1 /\ qtg_colour (0, hi) hi = 64.
Proof.
  intros hi v Hh Hv. unfold qtg_colour. cbn [fst snd]. assert (Q : 63 * (v - 0) / hi = 63 * (v / hi)) by (field; lra).
  assert (0 <= v / hi <= 1).
  { split; [apply Rmult_le_pos; [lra|left; apply Rinv_0_lt_compat; exact Hh]|]. apply (Rmult_le_reg_r hi); [exact Hh|]. unfold Rdiv. rewrite Rmult_assoc, Rinv_l by lra. lra. }
  rewrite Q. split; [lra|]. split; field; lra.
Qed.
(** ... and, a finding, only then: with any other lower limit at least one end of the scale is not mapped to the end of the
    colour map (an error of operator precedence). *)
Theorem C67_qtg_colours_refuted :
  forall lo hi, hi <> 0 -> lo < hi -> lo <> 0 -> qtg_colour (lo, hi) lo = 1 - lo /\ qtg_colour (lo, hi) lo <> 1.
Proof.
  intros lo hi Hh Hl Hz. unfold qtg_colour. cbn [fst snd]. replace (lo - lo) with 0 by ring. split; [field; exact Hh|].
  replace (1 + 63 * 0 / hi - lo) with (1 - lo) by (field; exact Hh). lra.
Qed.

(** ** The whole call *)
Lemma coords_ok N c : check_coords N c = Ok tt <-> c = Some [N] \/ c = Some [N; 2%nat] \/ c = Some [N; 3%nat].
Proof.
  unfold check_coords. destruct c as [sh|]; [|split; [discriminate|intros [H|[H|H]]; discriminate]].
  destruct sh as [|a [|b [|d r]]]; cbn.
  - split; [discriminate|intros [H|[H|H]]; discriminate].
  - destruct (Nat.eqb_spec a N) as [->|Ne]; cbn; [split; auto|]. split; [discriminate|intros [H|[H|H]]; injection H; congruence].
  - destruct (Nat.eqb_spec b 2) as [->|N2]; cbn.
    + destruct (Nat.eqb_spec a N) as [->|Ne]; cbn; [split; auto|]. split; [discriminate|intros [H|[H|H]]; injection H; congruence].
    + destruct (Nat.eqb_spec b 3) as [->|N3]; cbn.
      * destruct (Nat.eqb_spec a N) as [->|Ne]; cbn; [split; auto|]. split; [discriminate|intros [H|[H|H]]; injection H; congruence].
      * split; [discriminate|]. intros [H|[H|H]]; injection H; congruence.
  - split; [discriminate|intros [H|[H|H]]; discriminate].
Qed.
Lemma coords_raise N c : check_coords N c = Ok tt \/ check_coords N c = Raise AttributeError.
Proof. unfold check_coords. destruct c; auto. destruct (_ && _)%bool; auto. destruct (negb _); auto. Qed.

(** Which calls without arrays succeed. *)
Theorem C67_plot_accepts :
  forall pp N Ne coords edges limits backend,
    ((coords <> Some [N] /\ coords <> Some [N; 2%nat] /\ coords <> Some [N; 3%nat]) ->
       forall vc vs ec ew, plot_graph pp N Ne coords vc vs edges ec ew limits backend = Raise AttributeError) /\
    (forall d, plot_graph pp N Ne coords Missing Missing edges Missing Missing limits backend = Ok d <->
       ((backend = "matplotlib"%string /\ (coords = Some [N] \/ coords = Some [N; 2%nat] \/ coords = Some [N; 3%nat])) \/
        (backend = "pyqtgraph"%string /\ (coords = Some [N; 2%nat] \/ coords = Some [N; 3%nat]))) /\
       d = mkdrawing Default (0, 0) (One (pp_size pp)) (match edges with Some b => b | None => Rltb (INR Ne) 10000 end) Default (One (pp_width pp))).
Proof.
  intros pp N Ne coords edges limits backend. split.
  - intros (N1 & N2 & N3) vc vs ec ew. unfold plot_graph. destruct (coords_raise N coords) as [E|E]; [apply coords_ok in E; tauto|]. rewrite E. reflexivity.
  - intros d. unfold plot_graph. destruct (coords_raise N coords) as [E|E].
    + rewrite E. apply coords_ok in E. cbn [bindr colour vertex_sizes edge_opacity edge_widths fst snd].
      destruct (String.eqb_spec backend "pyqtgraph") as [->|Nq].
      * destruct E as [-> |[-> | ->]]; cbn [List.length Nat.eqb].
        -- split; [discriminate|]. intros [[[H _]|[_ [H|H]]] _]; discriminate.
        -- split; [intros [= <-]; split; [right; auto|reflexivity]|intros [_ ->]; reflexivity].
        -- split; [intros [= <-]; split; [right; auto|reflexivity]|intros [_ ->]; reflexivity].
      * destruct (String.eqb_spec backend "matplotlib") as [->|Nm].
        -- split; [intros [= <-]; split; [left; auto|reflexivity]|intros [_ ->]; reflexivity].
        -- split; [discriminate|]. intros [[[H _]|[H _]] _]; contradiction.
    + rewrite E. cbn [bindr]. split; [discriminate|].
      assert (Nc : check_coords N coords <> Ok tt) by (rewrite E; discriminate). rewrite coords_ok in Nc.
      intros [[[_ H]|[_ H]] _]; exfalso; apply Nc; tauto.
Qed.
Example C67_plot_ex : exists d, plot_graph default_pp 3 2 (Some [3%nat; 2%nat]) Missing Missing None Missing Missing None "matplotlib" = Ok d /\ d_sizes d = One 100 /\ d_edges d = true.
Proof.
  eexists. split; [reflexivity|]. split; [reflexivity|]. cbn. apply (reflect_iff _ _ (Rltb_spec _ _)). lra.
Qed.

(** The edges drawn join the coordinates of the two ends of every edge, each edge once. *)
Theorem C67_edges_drawn :
  forall G, built G -> exists l, get_edge_list (gW G) = Ok l /\ NoDup (edge_pairs l) /\
    (forall i j, In (i, j) (edge_pairs l) <-> (i < g_n_vertices G)%nat /\ (j < g_n_vertices G)%nat /\ wt G i j <> 0 /\ (undirected G -> (i <= j)%nat)) /\
    (forall coords d k, (k < List.length l)%nat ->
       nth (2 * k) (edge_line coords d l) 0 = coords (fst (nth k (edge_pairs l) (0, 0)%nat)) d /\
       nth (2 * k + 1) (edge_line coords d l) 0 = coords (snd (nth k (edge_pairs l) (0, 0)%nat)) d).
Proof.
  intros G HG. destruct (C04_edge_list_enumerates_every_edge_once G HG) as (l & El & _ & ND & IN). exists l. split; [exact El|]. split; [exact ND|]. split.
  - intros i j. unfold edge_pairs. rewrite in_map_iff. split.
    + intros ([[a b] w] & E & H). cbn in E. injection E as -> ->. apply IN in H as (? & ? & -> & ? & ?). auto.
    + intros (Hi & Hj & Hw & Ho). exists (i, j, wt G i j). split; [reflexivity|]. apply IN. auto.
  - intros coords d k Hk. unfold edge_pairs, edge_line. clear -Hk. revert k Hk. induction l as [|e l IH]; intros k Hk; [cbn in Hk; lia|].
    destruct k as [|k]; [split; reflexivity|]. replace (2 * S k)%nat with (S (S (2 * k))) by lia. cbn [flat_map app map nth]. cbn in Hk.
    replace (S (S (2 * k)) + 1)%nat with (S (S (2 * k + 1))) by lia. apply IH. lia.
Qed.

(** Finding: plot_spectrogram never works. *)
Theorem C67_plot_spectrogram_refuted : forall installed, exists e, plot_spectrogram installed = Raise e.
Proof. intros [|]; eexists; reflexivity. Qed.

(** The filters are plotted at increasing abscissae from 0 to lmax which include every known eigenvalue. *)
Theorem C67_filter_points :
  forall lmax n e, 0 <= lmax -> (2 <= n)%nat ->
    List.length (linspace lmax n) = n /\ nth 0 (linspace lmax n) 0 = 0 /\ nth (n - 1) (linspace lmax n) 0 = lmax /\
    (forall i, (i + 1 < n)%nat -> nth (i + 1) (linspace lmax n) 0 - nth i (linspace lmax n) 0 = lmax / (INR n - 1)) /\
    Permutation (filter_points lmax n (Some e)) (linspace lmax n ++ e) /\
    (forall i j, (i < j < n + List.length e)%nat -> nth i (filter_points lmax n (Some e)) 0 <= nth j (filter_points lmax n (Some e)) 0) /\
    filter_points lmax n None = linspace lmax n.
Proof.
  intros lmax n e Hl Hn. assert (Ln : List.length (linspace lmax n) = n) by (unfold linspace; rewrite map_length, seq_length; reflexivity).
  assert (P : 0 < INR n - 1) by (assert (INR 1 < INR n) by (apply lt_INR; lia); cbn in *; lra).
  assert (V : forall i, (i < n)%nat -> nth i (linspace lmax n) 0 = INR i * (lmax / (INR n - 1))).
  { intros i Hi. unfold linspace. rewrite nth_map_seq by exact Hi. destruct (Nat.eqb_spec n 1); [lia|reflexivity]. }
  split; [exact Ln|]. split; [rewrite V by lia; cbn; lra|]. split.
  { rewrite V by lia. rewrite minus_INR by lia. cbn [INR]. field. lra. }
  split; [intros i Hi; rewrite !V by lia; rewrite plus_INR; cbn [INR]; ring|].
  split; [apply rsort_perm|]. split; [|reflexivity].
  intros i j Hij. apply sorted_nth; [apply rsort_sorted|lia|]. cbn [filter_points]. rewrite (Permutation_length (rsort_perm _)), app_length, Ln. lia.
Qed.

Print Assumptions C67_normalize.
Print Assumptions C67_plot_accepts.
