(** Property C84: what repr() and the default plot titles show. *)
From Coq Require Import Reals Lra Lia List Arith Bool String Ascii ZArith.
From Verif.Base Require Import Prelude.
From Verif.Spec Require Import TextSpec.
From Verif.Model Require Import Repr.
Import ListNotations.
Open Scope string_scope.
Open Scope list_scope.

(** ** Strings *)
Fixpoint trail (l : list string) : string := match l with [] => ""%string | s :: r => (s ++ ", " ++ trail r)%string end.
Lemma sapp_assoc (a b c : string) : ((a ++ b) ++ c = a ++ b ++ c)%string.
Proof. induction a as [|x a IH]; cbn; [reflexivity|rewrite IH; reflexivity]. Qed.
Lemma sapp_nil (a : string) : (a ++ "" = a)%string.
Proof. induction a as [|x a IH]; cbn; [reflexivity|rewrite IH; reflexivity]. Qed.
Lemma slen_app (a b : string) : String.length (a ++ b)%string = (String.length a + String.length b)%nat.
Proof. induction a as [|x a IH]; cbn; [reflexivity|rewrite IH; reflexivity]. Qed.
Lemma sub_app (a b : string) : substring 0 (String.length a) (a ++ b)%string = a.
Proof. induction a as [|x a IH]; cbn; [destruct b; reflexivity|rewrite IH; reflexivity]. Qed.
Lemma trail_commas l : l <> [] -> trail l = (commas l ++ ", ")%string.
Proof.
  induction l as [|s r IH]; [congruence|]. intros _. destruct r as [|s' r']; [reflexivity|].
  change (trail (s :: s' :: r')) with (s ++ ", " ++ trail (s' :: r'))%string. rewrite IH by discriminate.
  change (commas (s :: s' :: r')) with (s ++ ", " ++ commas (s' :: r'))%string. rewrite !sapp_assoc. reflexivity.
Qed.
Lemma cut2_trail l : l <> [] -> cut2 (trail l) = commas l.
Proof.
  intros H. rewrite trail_commas by exact H. unfold cut2. rewrite slen_app. cbn [String.length]. rewrite Nat.add_sub. apply sub_app.
Qed.
Lemma trail_app l r : trail (l ++ r) = (trail l ++ trail r)%string.
Proof. induction l as [|s l IH]; [reflexivity|]. cbn [trail app]. rewrite IH, !sapp_assoc. reflexivity. Qed.
Lemma loop_trail limit i l : extra_loop limit i l =
  trail (match limit with
         | Some L => if (Z.leb (Z.of_nat i) (L - 2) && Z.ltb (L - 2) (Z.of_nat (i + List.length l)))%bool
                     then map shown (firstn (Z.to_nat (L - 2) - i) l) ++ ["..."] else map shown l
         | None => map shown l end).
Proof.
  revert i. induction l as [|kv l IH]; intros i.
  - cbn [extra_loop]. destruct limit as [L|]; [|reflexivity]. cbn [List.length map]. rewrite Nat.add_0_r.
    destruct (Z.leb_spec (Z.of_nat i) (L - 2)), (Z.ltb_spec (L - 2) (Z.of_nat i)); try reflexivity. lia.
  - cbn [extra_loop]. destruct limit as [L|].
    + destruct (Z.eqb_spec (Z.of_nat i) (L - 2)) as [E|E].
      * replace (Z.leb (Z.of_nat i) (L - 2) && Z.ltb (L - 2) (Z.of_nat (i + List.length (kv :: l))))%bool with true.
        -- replace (Z.to_nat (L - 2) - i)%nat with 0%nat by lia. reflexivity.
        -- symmetry. apply andb_true_iff. split; [apply Z.leb_le; lia|apply Z.ltb_lt; cbn [List.length]; lia].
      * rewrite IH. replace (Z.leb (Z.of_nat (S i)) (L - 2) && Z.ltb (L - 2) (Z.of_nat (S i + List.length l)))%bool
          with (Z.leb (Z.of_nat i) (L - 2) && Z.ltb (L - 2) (Z.of_nat (i + List.length (kv :: l))))%bool.
        -- destruct (Z.leb_spec (Z.of_nat i) (L - 2)) as [H1|H1]; cbn [andb].
           ++ destruct (Z.ltb (L - 2) (Z.of_nat (i + List.length (kv :: l)))).
              ** replace (Z.to_nat (L - 2) - i)%nat with (S (Z.to_nat (L - 2) - S i)) by lia. cbn [firstn map app trail]. unfold shown. rewrite !sapp_assoc. reflexivity.
              ** cbn [map trail]. unfold shown. rewrite !sapp_assoc. reflexivity.
           ++ cbn [map trail]. unfold shown. rewrite !sapp_assoc. reflexivity.
        -- f_equal; [destruct (Z.leb_spec (Z.of_nat i) (L - 2)), (Z.leb_spec (Z.of_nat (S i)) (L - 2)); try reflexivity; lia|].
           f_equal. cbn [List.length]. lia.
    + rewrite IH. cbn [map trail]. unfold shown. rewrite !sapp_assoc. reflexivity.
Qed.

(** The extra attributes shown under a limit on the number of attributes. *)
Definition shown_extras (limit : option Z) (l : list (string * string)) : list string :=
  match limit with
  | Some L => if (Z.leb 2 L && Z.ltb (L - 2) (Z.of_nat (List.length l)))%bool then map shown (firstn (Z.to_nat (L - 2)) l) ++ ["..."] else map shown l
  | None => map shown l
  end.

(** repr(G) is Name(n_vertices=n, n_edges=m, key=value, ...); a limit L >= 2 keeps the first L - 2 extra attributes and replaces
    the others, if any, by three dots. *)
Theorem C84_graph_text :
  forall name n m l limit,
    graph_repr name n m (Ok l) limit =
    Ok (call_text name (("n_vertices=" ++ int_text (Z.of_nat n))%string :: ("n_edges=" ++ int_text (Z.of_nat m))%string :: shown_extras limit l)).
Proof.
  intros name n m l limit. unfold graph_repr. cbn [bindr]. f_equal. unfold call_text. f_equal. f_equal. f_equal.
  rewrite <- cut2_trail by discriminate. f_equal. cbn [trail]. rewrite loop_trail, !sapp_assoc. do 6 f_equal.
  unfold shown_extras. destruct limit as [L|]; [|reflexivity]. rewrite Nat.sub_0_r. cbn [Nat.add].
  replace (Z.leb (Z.of_nat 0) (L - 2)) with (Z.leb 2 L); [reflexivity|]. destruct (Z.leb_spec 2 L), (Z.leb_spec (Z.of_nat 0) (L - 2)); try reflexivity; lia.
Qed.

(** The default title of a plot shows n_vertices, n_edges and at most two more attributes. *)
Theorem C84_title_is_short :
  forall name n m l,
    exists ss, plot_title None name n m (Ok l) =
      Ok (call_text name (("n_vertices=" ++ int_text (Z.of_nat n))%string :: ("n_edges=" ++ int_text (Z.of_nat m))%string :: ss)) /\
      ss = (match l with a :: b :: _ :: _ => [shown a; shown b; "..."] | _ => map shown l end).
Proof.
  intros name n m l. eexists. split; [unfold plot_title; apply C84_graph_text|]. unfold shown_extras.
  destruct l as [|a [|b [|c l]]]; [reflexivity|reflexivity|reflexivity|].
  replace (Z.leb 2 4 && Z.ltb (4 - 2) (Z.of_nat (List.length (a :: b :: c :: l))))%bool with true; [reflexivity|].
  symmetry. apply andb_true_iff. split; [reflexivity|]. apply Z.ltb_lt. cbn [List.length]. lia.
Qed.

(** A limit below 2 is not a limit: everything is shown. *)
Theorem C84_small_limits_ignored_refuted :
  forall name n m l L, (L < 2)%Z -> graph_repr name n m (Ok l) (Some L) = graph_repr name n m (Ok l) None.
Proof.
  intros name n m l L HL. rewrite !C84_graph_text. unfold shown_extras. destruct (Z.leb_spec 2 L); [lia|reflexivity].
Qed.

(** ** When it fails *)

(** Python numbers: what format(v, ".2f") accepts. *)
Definition number (v : pyval) : Prop := match v with PBool _ | PInt _ | PFloat _ => True | _ => False end.
Lemma number_num v : number v -> exists r, num_of v = Ok r.
Proof. destruct v; cbn; try contradiction; eauto. Qed.

(** The parameters documented as numbers; those that may also be None, which the constructor then computes. *)
Definition number_params : list string := ["epsilon"; "radius"; "sigmag"; "sigmad"; "distance"; "thresh"; "size_ratio"].
Definition auto_params : list string := ["sigma"; "s"; "world_density"; "epsilon"].
Definition sane (c : gclass) (arg auto : string -> pyval) : Prop :=
  (forall a, In a number_params -> (c = GCommunity -> a <> "epsilon") -> number (arg a)) /\
  (forall a, In a auto_params -> arg a = PNone \/ number (arg a)) /\
  (arg "comm_density" = PNone \/ number (arg "comm_density")) /\
  (forall a, number (auto a)).

Lemma or_auto_number arg auto a : (forall a, number (auto a)) -> (arg a = PNone \/ number (arg a)) -> number (snd (or_auto arg auto a)).
Proof. intros H [E|E]; unfold or_auto; cbn [snd]; [rewrite E; apply H|]. destruct (arg a); try contradiction; exact E. Qed.

(** Every graph of the package built with parameters of the documented types has a description, and its keys are in the documented
    order, with the values the constructor was given (or computed, for those that were None); a stochastic block model must have been
    given p and q, not M. *)
Definition keys_of (c : gclass) (arg auto : string -> pyval) : list string :=
  match c with
  | GGraph | GStar => []
  | GMinnesota => ["connected"]
  | GSBM => ["k"] ++ (match arg "p" with PFloat _ => ["p"] | _ => [] end) ++ (match arg "q", auto "q" with PFloat _, _ | PNone, PFloat _ => ["q"] | _, _ => [] end) ++
            ["directed"; "self_loops"; "connected"; "seed"]
  | GNNGraph => ["NNtype"; "use_flann"; "center"; "rescale"; "k"; "sigma"; "epsilon"; "symmetrize_type"; "dist_type"; "order"]
  | GSphere | GCube => ["radius"; "nb_pts"; "nb_dim"; "sampling"; "seed"; "NNtype"; "use_flann"; "center"; "rescale"; "k"; "sigma"; "epsilon"; "symmetrize_type"; "dist_type"; "order"]
  | GTwoMoons => ["moontype"; "dim"; "sigmag"; "sigmad"; "distance"; "seed"; "NNtype"; "use_flann"; "center"; "rescale"; "k"; "sigma"; "epsilon"; "symmetrize_type"; "dist_type"; "order"]
  | GImgPatches => ["patch_shape"; "NNtype"; "use_flann"; "center"; "rescale"; "k"; "sigma"; "epsilon"; "symmetrize_type"; "dist_type"; "order"]
  | GSensor => ["k"; "distributed"; "seed"]
  | GDavid | GRandomRing => ["seed"]
  | GPath => ["directed"]
  | GSwiss => ["a"; "b"; "dim"; "thresh"; "s"; "noise"; "srtype"; "seed"]
  | GGrid2d => ["N1"; "N2"]
  | GCommunity => ["Nc"; "min_comm"; "comm_sizes"; "size_ratio"; "world_density"] ++
      [match arg "comm_density", arg "k_neigh" with PNone, PNone => "epsilon" | PNone, _ => "k_neigh" | _, _ => "comm_density" end] ++ ["seed"]
  | GRing | GComet | GLowStretch => ["k"]
  | GRandomRegular => ["k"; "seed"]
  | GBA => ["m0"; "m"; "seed"]
  | GTorus => ["Nv"; "Mv"]
  end.

(** The text of a value: str(v), or v formatted with d decimals or in scientific notation. *)
Definition text_of (P : printer) (v : pyval) (s : string) : Prop :=
  s = to_str P v \/ exists r, num_of v = Ok r /\ ((exists d, s = p_fixed P d r) \/ s = p_exp P r).

Lemma render_text P o i l k s : (forall a, i <> FixEach a) -> render P o i = Ok l -> In (k, s) l -> exists v, getattr o k = Ok v /\ text_of P v s.
Proof.
  intros Hi E Hin. destruct i; cbn [render] in E; try (exfalso; eapply Hi; reflexivity);
    (destruct (getattr o a) as [v|] eqn:Ea; cbn [bindr] in E; [|discriminate]).
  - injection E as <-. destruct Hin as [Hin|[]]. injection Hin as <- <-. exists v. split; [exact Ea|left; reflexivity].
  - unfold fixed in E. destruct (num_of v) as [r|] eqn:En; cbn [bindr] in E; [|discriminate]. injection E as <-. destruct Hin as [Hin|[]]. injection Hin as <- <-.
    exists v. split; [exact Ea|right; exists r; split; [exact En|left; eexists; reflexivity]].
  - destruct (num_of v) as [r|] eqn:En; cbn [bindr] in E; [|discriminate]. injection E as <-. destruct Hin as [Hin|[]]. injection Hin as <- <-.
    exists v. split; [exact Ea|right; exists r; split; [exact En|right; reflexivity]].
  - destruct v; injection E as <-; try contradiction. destruct Hin as [Hin|[]]. injection Hin as <- <-. exists (PFloat r). split; [exact Ea|].
    right. exists r. split; [reflexivity|left; eexists; reflexivity].
  - assert (E' : l = [] \/ exists r, num_of v = Ok r /\ l = [(a, p_fixed P 2 r)]).
    { unfold fixed in E. destruct v; cbn in E; try discriminate; injection E as <-; try (left; reflexivity); right; eexists; split; reflexivity. }
    destruct E' as [->|(r & En & ->)]; [contradiction|]. destruct Hin as [Hin|[]]. injection Hin as <- <-. exists v. split; [exact Ea|right; exists r; split; [exact En|left; eexists; reflexivity]].
  - assert (E' : v = PNone \/ exists r, num_of v = Ok r /\ l = [(a, p_fixed P 2 r)]).
    { unfold fixed in E. destruct v; cbn in E; try discriminate; try (left; reflexivity); injection E as <-; right; eexists; split; reflexivity. }
    destruct E' as [->|(r & En & ->)].
    + destruct (getattr o b) as [w|] eqn:Eb; cbn [bindr] in E; [|discriminate].
      assert (E' : (w = PNone /\ exists x r, getattr o c = Ok x /\ num_of x = Ok r /\ l = [(c, p_fixed P 2 r)]) \/ l = [(b, to_str P w)]).
      { destruct w; try (right; injection E as <-; reflexivity). left. split; [reflexivity|]. destruct (getattr o c) as [x|] eqn:Ec; cbn [bindr] in E; [|discriminate].
        unfold fixed in E. destruct (num_of x) as [r|] eqn:En; cbn [bindr] in E; [|discriminate]. injection E as <-. exists x, r. repeat split; assumption. }
      destruct E' as [(-> & x & r & Ec & En & ->)| -> ]; destruct Hin as [Hin|[]]; injection Hin as <- <-.
      * exists x. split; [exact Ec|right; exists r; split; [exact En|left; eexists; reflexivity]].
      * exists w. split; [exact Eb|left; reflexivity].
    + destruct Hin as [Hin|[]]. injection Hin as <- <-. exists v. split; [exact Ea|right; exists r; split; [exact En|left; eexists; reflexivity]].
Qed.
Lemma set_in kv d x : In x (set_key kv d) -> x = kv \/ In x d.
Proof.
  induction d as [|(k, v) d IH]; cbn [set_key]; [intros [<-|[]]; left; reflexivity|]. destruct (String.eqb k (fst kv)).
  - intros [<-|H]; [left; reflexivity|right; right; exact H].
  - intros [<-|H]; [right; left; reflexivity|]. destruct (IH H) as [->|H']; [left; reflexivity|right; right; exact H'].
Qed.
Lemma update_in d e x : In x (update d e) -> In x d \/ In x e.
Proof.
  revert d. induction e as [|kv e IH]; intros d; [cbn; tauto|]. unfold update. cbn [fold_left]. intros H. apply IH in H. destruct H as [H|H]; [|right; right; exact H].
  apply set_in in H. destruct H as [->|H]; [right; left; reflexivity|left; exact H].
Qed.
Lemma mapr_in {A B} (f : A -> res B) l r y : mapr f l = Ok r -> In y r -> exists x, In x l /\ f x = Ok y.
Proof.
  revert r. induction l as [|x l IH]; cbn [mapr]; intros r E Hy; [injection E as <-; contradiction|].
  destruct (f x) as [z|] eqn:Ez; cbn [bindr] in E; [|discriminate]. destruct (mapr f l) as [r'|]; cbn [bindr] in E; [|discriminate]. injection E as <-.
  destruct Hy as [<-|Hy]; [exists x; split; [left; reflexivity|exact Ez]|]. destruct (IH r' eq_refl Hy) as (x' & H & E). exists x'. split; [right; exact H|exact E].
Qed.
Lemma extra_text P o its l k s : (forall a, ~ In (FixEach a) its) -> extra P o its = Ok l -> In (k, s) l -> exists v, getattr o k = Ok v /\ text_of P v s.
Proof.
  intros Hi E Hin. unfold extra in E. destruct (mapr (render P o) its) as [ls|] eqn:Em; cbn [bindr] in E; [|discriminate]. injection E as <-.
  assert (H : forall ls d, In (k, s) (fold_left update ls d) -> In (k, s) d \/ exists x, In x ls /\ In (k, s) x).
  { induction ls0 as [|x ls0 IH]; intros d H; [left; exact H|]. cbn [fold_left] in H. apply IH in H. destruct H as [H|(y & Hy & H)].
    - apply update_in in H. destruct H as [H|H]; [left; exact H|right; exists x; split; [left; reflexivity|exact H]].
    - right. exists y. split; [right; exact Hy|exact H]. }
  apply H in Hin. destruct Hin as [[]|(x & Hx & Hin)]. destruct (mapr_in _ _ _ _ Em Hx) as (i & Hit & Er).
  apply (render_text P o i x k s); [|exact Er|exact Hin]. intros a ->. apply (Hi a). exact Hit.
Qed.
(** The value in effect for a parameter: the one given; if None was given, the number of rows for the number of columns of a grid or torus,
    the number the constructor computes for the parameters it computes, and None for the others. *)
Definition effective (c : gclass) (arg auto : string -> pyval) (k : string) : pyval :=
  match arg k with
  | PNone =>
    match c with
    | GGrid2d => if String.eqb k "N2" then arg "N1" else PNone
    | GTorus => if String.eqb k "Mv" then arg "Nv" else PNone
    | GSBM => if String.eqb k "q" then auto "q" else PNone
    | GNNGraph | GSphere | GCube | GTwoMoons | GImgPatches | GSensor => if String.eqb k "sigma" then auto "sigma" else PNone
    | GSwiss => if String.eqb k "s" then auto "s" else PNone
    | GCommunity => if existsb (String.eqb k) ["Nc"; "min_comm"; "world_density"; "epsilon"] then auto k else PNone
    | _ => PNone
    end
  | v => v
  end.
Lemma getattr_in o k v : getattr o k = Ok v -> In (k, v) o.
Proof.
  induction o as [|(b, w) o IH]; cbn [getattr]; [discriminate|]. destruct (String.eqb_spec b k) as [->|]; [intros E; injection E as <-; left; reflexivity|]. intros E. right. apply IH. exact E.
Qed.
Lemma attrs_kept c arg auto k v : In (k, v) (attrs c arg auto) -> v = effective c arg auto k.
Proof.
  assert (K : forall x : pyval, x = match x with PNone => PNone | y => y end) by (intros []; reflexivity).
  destruct c; cbn [attrs]; unfold nn_attrs, keep, or_auto; try (destruct (arg "M")); cbn [map app In]; intros H;
    repeat (destruct H as [H|H]; [apply pair_equal_spec in H; destruct H as (<- & <-); unfold effective; cbn; try apply K; destruct (arg _); reflexivity|]);
    destruct H.
Qed.
Theorem C84_repr_never_fails :
  forall P c (arg auto : string -> pyval), sane c arg auto -> (c = GSBM -> arg "M" = PNone) ->
    exists l, extra P (attrs c arg auto) (items c) = Ok l /\ map fst l = keys_of c arg auto /\
      (forall k s, In (k, s) l -> text_of P (effective c arg auto k) s) /\
      forall name n m limit, exists s, graph_repr name n m (extra P (attrs c arg auto) (items c)) limit = Ok s.
Proof.
  intros P c arg auto (H1 & H2 & H3 & H4) HM.
  assert (K : exists l, extra P (attrs c arg auto) (items c) = Ok l /\ map fst l = keys_of c arg auto).
  { assert (Hs : number (snd (or_auto arg auto "sigma"))) by (apply or_auto_number; [exact H4|apply H2; cbn; tauto]).
    assert (Hs' : number (snd (or_auto arg auto "s"))) by (apply or_auto_number; [exact H4|apply H2; cbn; tauto]).
    assert (Hw : number (snd (or_auto arg auto "world_density"))) by (apply or_auto_number; [exact H4|apply H2; cbn; tauto]).
    assert (He : number (snd (or_auto arg auto "epsilon"))) by (apply or_auto_number; [exact H4|apply H2; cbn; tauto]).
    assert (Hd : c = GCommunity -> number (arg "size_ratio")) by (intros ->; apply H1; [cbn; tauto|discriminate]).
    destruct (number_num _ Hs) as (rs & Es). destruct (number_num _ Hs') as (rs' & Es'). destruct (number_num _ Hw) as (rw & Ew). destruct (number_num _ He) as (re & Ee).
    cbn [or_auto snd] in Es, Es', Ew, Ee.
    assert (N : forall a, In a number_params -> c <> GCommunity -> exists r, num_of (arg a) = Ok r) by (intros a Ha Hc; apply number_num; apply H1; [exact Ha|congruence]).
    destruct c; try (eexists; split; reflexivity).
    - (* SBM *) specialize (HM eq_refl). unfold extra, attrs. rewrite HM. cbn. 
      destruct (arg "p"); cbn; destruct (arg "q"); cbn; try (eexists; split; reflexivity); destruct (auto "q"); cbn; eexists; split; reflexivity.
    - destruct (N "epsilon") as (r1 & E1); [cbn; tauto|discriminate|]. unfold extra, attrs. cbn. unfold fixed. rewrite Es, E1. cbn. eexists; split; reflexivity.
    - destruct (N "epsilon") as (r1 & E1); [cbn; tauto|discriminate|]. destruct (N "radius") as (r2 & E2); [cbn; tauto|discriminate|].
      unfold extra, attrs. cbn. unfold fixed. rewrite Es, E1, E2. cbn. eexists; split; reflexivity.
    - destruct (N "epsilon") as (r1 & E1); [cbn; tauto|discriminate|]. destruct (N "radius") as (r2 & E2); [cbn; tauto|discriminate|].
      unfold extra, attrs. cbn. unfold fixed. rewrite Es, E1, E2. cbn. eexists; split; reflexivity.
    - destruct (N "epsilon") as (r1 & E1); [cbn; tauto|discriminate|]. destruct (N "sigmag") as (r2 & E2); [cbn; tauto|discriminate|].
      destruct (N "sigmad") as (r3 & E3); [cbn; tauto|discriminate|]. destruct (N "distance") as (r4 & E4); [cbn; tauto|discriminate|].
      unfold extra, attrs. cbn. unfold fixed. rewrite Es, E1, E2, E3, E4. cbn. eexists; split; reflexivity.
    - destruct (N "epsilon") as (r1 & E1); [cbn; tauto|discriminate|]. unfold extra, attrs. cbn. unfold fixed. rewrite Es, E1. cbn. eexists; split; reflexivity.
    - destruct (N "thresh") as (r1 & E1); [cbn; tauto|discriminate|]. unfold extra, attrs. cbn. unfold fixed. rewrite E1, Es'. cbn. eexists; split; reflexivity.
    - destruct (number_num _ (Hd eq_refl)) as (r1 & E1). unfold extra, attrs. cbn. unfold fixed. rewrite E1, Ew. cbn.
      destruct H3 as [E3|E3].
      + rewrite E3. destruct (arg "k_neigh"); cbn; try (eexists; split; reflexivity). rewrite Ee. cbn. eexists; split; reflexivity.
      + destruct (arg "comm_density"); cbn in E3 |- *; try contradiction; eexists; split; reflexivity. }
  destruct K as (l & E & Ek). exists l. split; [exact E|]. split; [exact Ek|]. split.
  - intros k s Hin. destruct (extra_text P (attrs c arg auto) (items c) l k s) as (v & Hv & Ht); [|exact E|exact Hin|].
    + intros a Ha. destruct c; cbn in Ha; repeat (destruct Ha as [Ha|Ha]; [discriminate|]); exact Ha.
    + rewrite <- (attrs_kept c arg auto k v); [exact Ht|]. apply getattr_in. exact Hv.
  - intros name n m limit. rewrite E. eexists. apply C84_graph_text.
Qed.

(** A stochastic block model built from a matrix M of probabilities (StochasticBlockModel and ErdosRenyi accept it) cannot be
    described: repr raises AttributeError, and so does any plot without an explicit title. *)
Theorem C84_block_model_from_matrix_refuted :
  forall P (arg auto : string -> pyval) name n m, arg "M" <> PNone ->
    (forall limit, graph_repr name n m (extra P (attrs GSBM arg auto) (items GSBM)) limit = Raise AttributeError) /\
    plot_title None name n m (extra P (attrs GSBM arg auto) (items GSBM)) = Raise AttributeError /\
    forall t, plot_title (Some t) name n m (extra P (attrs GSBM arg auto) (items GSBM)) = Ok t.
Proof.
  intros P arg auto name n m HM.
  assert (E : extra P (attrs GSBM arg auto) (items GSBM) = Raise AttributeError).
  { unfold extra, attrs. cbn. destruct (arg "M"); [congruence|..]; reflexivity. }
  rewrite E. repeat split; reflexivity.
Qed.

(** Grid2dImgPatches shows the two sides of the grid first, then the patches. *)
Theorem C84_grid_patches :
  forall P arg1 auto1 arg2 auto2, sane GImgPatches arg2 auto2 ->
    exists d e, extra P (attrs GGrid2d arg1 auto1) (items GGrid2d) = Ok d /\ extra P (attrs GImgPatches arg2 auto2) (items GImgPatches) = Ok e /\
      grid_patches_extra P (attrs GGrid2d arg1 auto1) (attrs GImgPatches arg2 auto2) = Ok (d ++ e).
Proof.
  intros P arg1 auto1 arg2 auto2 (H1 & H2 & _ & H4).
  destruct (number_num (arg2 "epsilon")) as (r1 & E1). { apply H1; [cbn; tauto|discriminate]. }
  destruct (number_num (snd (or_auto arg2 auto2 "sigma"))) as (rs & Es). { apply or_auto_number; [exact H4|apply H2; cbn; tauto]. }
  cbn [or_auto snd] in Es. unfold grid_patches_extra, extra, attrs. cbn. unfold fixed. rewrite Es, E1. cbn. eexists; eexists. split; [reflexivity|]. split; reflexivity.
Qed.

(** ** Filters *)
Lemma set_new kv d : ~ In (fst kv) (map fst d) -> set_key kv d = d ++ [kv].
Proof.
  induction d as [|(k, v) d IH]; intros H; [reflexivity|]. cbn [set_key]. destruct (String.eqb_spec k (fst kv)) as [E|E].
  - exfalso. apply H. left. exact E.
  - rewrite IH; [reflexivity|]. intros Hin. apply H. right. exact Hin.
Qed.
Lemma update_new d e : NoDup (map fst d ++ map fst e) -> update d e = d ++ e.
Proof.
  revert d. induction e as [|kv e IH]; intros d H; [cbn; rewrite app_nil_r; reflexivity|]. unfold update. cbn [fold_left].
  change (update (set_key kv d) e = d ++ kv :: e). rewrite set_new.
  - rewrite IH; [rewrite <- app_assoc; reflexivity|]. rewrite map_app, <- app_assoc. exact H.
  - cbn [map] in H. apply NoDup_remove_2 in H. intros Hin. apply H. apply in_or_app. left. exact Hin.
Qed.
Lemma fold_trail l s : fold_left (fun s kv => s ++ fst kv ++ "=" ++ snd kv ++ ", ")%string l s = (s ++ trail (map shown l))%string.
Proof.
  revert s. induction l as [|kv l IH]; intros s; cbn [fold_left map trail]; [rewrite sapp_nil; reflexivity|].
  rewrite IH. unfold shown. rewrite !sapp_assoc. reflexivity.
Qed.
(** repr of a filter bank: Name(in=1, out=number of filters, key=value, ...). *)
Theorem C84_filter_text :
  forall name n m e, NoDup ("in" :: "out" :: map fst e) ->
    filter_repr name n m (Ok e) = Ok (call_text name (("in=" ++ int_text (Z.of_nat n))%string :: ("out=" ++ int_text (Z.of_nat m))%string :: map shown e)).
Proof.
  intros name n m e H. unfold filter_repr. cbn [bindr]. rewrite update_new by exact H. rewrite fold_trail. unfold call_text. f_equal. f_equal. f_equal. f_equal.
  rewrite <- cut2_trail by discriminate. reflexivity.
Qed.
(** The parameters of a filter that are documented as numbers are numbers (band_min and band_max may be None; scale, time and speed
    may be sequences of numbers). *)
Definition sane_filter (arg : string -> pyval) : Prop :=
  (forall a, In a ["slope"; "a"; "lpfactor"; "overlap"] -> number (arg a)) /\
  (forall a, In a ["band_min"; "band_max"] -> arg a = PNone \/ number (arg a)) /\
  (forall a, In a ["scale"; "time"; "speed"] -> number (arg a) \/ exists l, arg a = PNums l /\ Forall number l).
Lemma fixed_all P l : Forall number l -> exists ss, mapr (fixed P 2) l = Ok ss /\ List.length ss = List.length l.
Proof.
  induction 1 as [|v l Hv _ (ss & E & El)]; [exists []; split; reflexivity|]. destruct (number_num v Hv) as (r & Er).
  exists (p_fixed P 2 r :: ss). cbn [mapr]. unfold fixed at 1. rewrite Er. cbn. rewrite E. cbn. split; [reflexivity|]. rewrite El. reflexivity.
Qed.
Lemma listed_all P (arg : string -> pyval) a : (number (arg a) \/ exists l, arg a = PNums l /\ Forall number l) ->
  exists l, listed (arg a) = PNums l /\ exists ss, mapr (fixed P 2) l = Ok ss.
Proof.
  intros [H|(l & E & H)].
  - exists [arg a]. split; [destruct (arg a); try contradiction; reflexivity|]. destruct (fixed_all P [arg a]) as (ss & E & _); [repeat constructor; exact H|]. exists ss. exact E.
  - exists l. rewrite E. split; [reflexivity|]. destruct (fixed_all P l H) as (ss & E' & _). exists ss. exact E'.
Qed.
Theorem C84_filter_repr_never_fails :
  forall P c (arg : string -> pyval), sane_filter arg -> forall name n m, exists e, extra P (fattrs c arg) (fitems c) = Ok e /\
    filter_repr name n m (extra P (fattrs c arg) (fitems c)) =
      Ok (call_text name (("in=" ++ int_text (Z.of_nat n))%string :: ("out=" ++ int_text (Z.of_nat m))%string :: map shown e)).
Proof.
  intros P c arg (H1 & H2 & H3) name n m.
  assert (K : exists e, extra P (fattrs c arg) (fitems c) = Ok e /\ NoDup ("in" :: "out" :: map fst e)).
  { assert (N : forall a, In a ["slope"; "a"; "lpfactor"; "overlap"] -> exists r, num_of (arg a) = Ok r) by (intros a Ha; apply number_num; apply H1; exact Ha).
    assert (L : forall a, In a ["scale"; "time"; "speed"] -> exists l, listed (arg a) = PNums l /\ exists ss, mapr (fixed P 2) l = Ok ss) by (intros a Ha; apply listed_all; apply H3; exact Ha).
    assert (B : forall a o, In a ["band_min"; "band_max"] -> getattr o a = Ok (arg a) -> render P o (FixSome a) = Ok [] \/ exists s, render P o (FixSome a) = Ok [(a, s)]).
    { intros a o Ha Eo. unfold render. rewrite Eo. cbn [bindr]. destruct (H2 a Ha) as [E|E]; [left; rewrite E; reflexivity|right].
      destruct (number_num _ E) as (r & Er). exists (p_fixed P 2 r). destruct (arg a); try contradiction; unfold fixed; rewrite Er; reflexivity. }
    assert (ND : forall l, NoDup (nodup string_dec l)) by (intros; apply NoDup_nodup).
    assert (Nd : forall l : list string, nodup string_dec l = l -> NoDup l) by (intros l E; rewrite <- E; apply NoDup_nodup).
    destruct c; unfold extra, fitems; cbn [mapr].
    - eexists; split; [reflexivity|]. apply Nd. reflexivity.
    - destruct (B "band_min" (fattrs FRectangular arg)) as [->|(s1 & ->)]; [cbn; tauto|reflexivity| |];
        (destruct (B "band_max" (fattrs FRectangular arg)) as [->|(s2 & ->)]; [cbn; tauto|reflexivity| |]);
        (eexists; split; [reflexivity|]; apply Nd; reflexivity).
    - destruct (N "slope") as (r & Er); [cbn; tauto|].
      assert (R : render P (fattrs FExpwin arg) (Fix 0 "slope") = Ok [("slope", p_fixed P 0 r)]) by (cbn; unfold fixed; rewrite Er; reflexivity). rewrite R.
      destruct (B "band_min" (fattrs FExpwin arg)) as [->|(s1 & ->)]; [cbn; tauto|reflexivity| |];
        (destruct (B "band_max" (fattrs FExpwin arg)) as [->|(s2 & ->)]; [cbn; tauto|reflexivity| |]);
        (eexists; split; [reflexivity|]; apply Nd; reflexivity).
    - destruct (L "time") as (l1 & E1 & s1 & F1); [cbn; tauto|]. destruct (L "speed") as (l2 & E2 & s2 & F2); [cbn; tauto|].
      cbn. rewrite E1, E2, F1. cbn. rewrite F2. cbn. eexists; split; [reflexivity|]. apply Nd. reflexivity.
    - destruct (N "a") as (r & Er); [cbn; tauto|]. cbn. unfold fixed. rewrite Er. eexists; split; [reflexivity|]. apply Nd. reflexivity.
    - destruct (N "lpfactor") as (r & Er); [cbn; tauto|]. cbn. unfold fixed. rewrite Er. eexists; split; [reflexivity|]. apply Nd. reflexivity.
    - destruct (N "overlap") as (r & Er); [cbn; tauto|]. cbn. unfold fixed. rewrite Er. eexists; split; [reflexivity|]. apply Nd. reflexivity.
    - destruct (L "scale") as (l1 & E1 & s1 & F1); [cbn; tauto|]. cbn. rewrite E1, F1. cbn. eexists; split; [reflexivity|]. apply Nd. reflexivity.
    - destruct (N "lpfactor") as (r & Er); [cbn; tauto|]. cbn. unfold fixed. rewrite Er. eexists; split; [reflexivity|]. apply Nd. reflexivity.
    - destruct (N "a") as (r & Er); [cbn; tauto|]. cbn. unfold fixed. rewrite Er. eexists; split; [reflexivity|]. apply Nd. reflexivity.
    - destruct (N "a") as (r & Er); [cbn; tauto|]. cbn. unfold fixed. rewrite Er. eexists; split; [reflexivity|]. apply Nd. reflexivity. }
  destruct K as (e & E & Hnd). exists e. split; [exact E|]. rewrite E. apply C84_filter_text. exact Hnd.
Qed.

(** What the text says about the parameters: the wave and heat filters list their numbers with two decimals between brackets, the others
    show one number (the edges of the band only if they are given). *)
Definition decimals (P : printer) (d : nat) (v : pyval) : string := match num_of v with Ok r => p_fixed P d r | Raise _ => "" end.
Definition sequence (v : pyval) : list pyval := match v with PNums l => l | _ => [v] end.
Definition bracketed (P : printer) (v : pyval) : string := ("[" ++ commas (map (decimals P 2) (sequence v)) ++ "]")%string.
Definition if_given (P : printer) (k : string) (v : pyval) : list (string * string) := match v with PNone => [] | _ => [(k, decimals P 2 v)] end.
Definition filter_says (P : printer) (c : fclass) (arg : string -> pyval) : list (string * string) :=
  match c with
  | FFilter => []
  | FRectangular => if_given P "band_min" (arg "band_min") ++ if_given P "band_max" (arg "band_max")
  | FExpwin => if_given P "band_min" (arg "band_min") ++ if_given P "band_max" (arg "band_max") ++ [("slope", decimals P 0 (arg "slope"))]
  | FWave => [("time", bracketed P (arg "time")); ("speed", bracketed P (arg "speed"))]
  | FPapadakis | FSimoncelli | FHeld => [("a", decimals P 2 (arg "a"))]
  | FMexicanHat => [("lpfactor", decimals P 2 (arg "lpfactor")); ("normalize", to_str P (arg "normalize"))]
  | FItersine => [("overlap", decimals P 2 (arg "overlap"))]
  | FHeat => [("scale", bracketed P (arg "scale")); ("normalize", to_str P (arg "normalize"))]
  | FAbspline => [("lpfactor", decimals P 2 (arg "lpfactor"))]
  end.
Lemma joined_commas l : joined l = commas l.
Proof. induction l as [|s [|s' l] IH]; [reflexivity|reflexivity|]. cbn [joined commas] in *. rewrite IH. reflexivity. Qed.
Lemma fixed_decimals P l : Forall number l -> mapr (fixed P 2) l = Ok (map (decimals P 2) l).
Proof.
  induction 1 as [|v l Hv _ IH]; [reflexivity|]. destruct (number_num v Hv) as (r & Er). cbn [mapr map]. unfold fixed at 1, decimals at 1. rewrite Er. cbn [bindr]. rewrite IH. reflexivity.
Qed.
Lemma listed_decimals P v : (number v \/ exists l, v = PNums l /\ Forall number l) ->
  exists l, listed v = PNums l /\ mapr (fixed P 2) l = Ok (map (decimals P 2) (sequence v)).
Proof.
  intros [H|(l & -> & H)].
  - exists [v]. split; [destruct v; try contradiction; reflexivity|]. replace (sequence v) with [v] by (destruct v; try contradiction; reflexivity). apply fixed_decimals. repeat constructor. exact H.
  - exists l. split; [reflexivity|]. apply fixed_decimals. exact H.
Qed.
Theorem C84_what_a_filter_says : forall P c (arg : string -> pyval), sane_filter arg -> forall name n m,
  filter_repr name n m (extra P (fattrs c arg) (fitems c)) =
    Ok (call_text name (("in=" ++ int_text (Z.of_nat n))%string :: ("out=" ++ int_text (Z.of_nat m))%string :: map shown (filter_says P c arg))).
Proof.
  intros P c arg HS name n m. pose proof HS as (H1 & H2 & H3).
  destruct (C84_filter_repr_never_fails P c arg HS name n m) as (e & E & T). rewrite T. do 2 f_equal. do 3 f_equal. clear T.
  assert (N : forall a d, In a ["slope"; "a"; "lpfactor"; "overlap"] -> fixed P d (arg a) = Ok (decimals P d (arg a))).
  { intros a d Ha. destruct (number_num _ (H1 a Ha)) as (r & Er). unfold fixed, decimals. rewrite Er. reflexivity. }
  assert (B : forall a o, In a ["band_min"; "band_max"] -> getattr o a = Ok (arg a) -> render P o (FixSome a) = Ok (if_given P a (arg a))).
  { intros a o Ha Eo. unfold render. rewrite Eo. cbn [bindr]. destruct (H2 a Ha) as [K|K]; [rewrite K; reflexivity|].
    destruct (number_num _ K) as (r & Er). unfold if_given, decimals, fixed. rewrite Er. destruct (arg a); try contradiction; reflexivity. }
  assert (G : forall a b, update (if_given P "band_min" a) (if_given P "band_max" b) = if_given P "band_min" a ++ if_given P "band_max" b) by (intros [] []; reflexivity).
  revert E. destruct c; unfold extra, fitems, filter_says; cbn [mapr].
  - cbn. intros E. injection E as <-. reflexivity.
  - rewrite (B "band_min" (fattrs FRectangular arg)), (B "band_max" (fattrs FRectangular arg)) by (cbn; tauto || reflexivity).
    cbn [bindr fold_left]. intros E. injection E as <-. rewrite <- G. unfold if_given. destruct (arg "band_min"), (arg "band_max"); reflexivity.
  - assert (R : render P (fattrs FExpwin arg) (Fix 0 "slope") = Ok [("slope", decimals P 0 (arg "slope"))]) by (cbn; rewrite N by (cbn; tauto); reflexivity). rewrite R.
    rewrite (B "band_min" (fattrs FExpwin arg)), (B "band_max" (fattrs FExpwin arg)) by (cbn; tauto || reflexivity).
    cbn [bindr fold_left]. intros E. injection E as <-. unfold if_given. destruct (arg "band_min"), (arg "band_max"); reflexivity.
  - destruct (listed_decimals P (arg "time")) as (l1 & E1 & F1); [apply H3; cbn; tauto|]. destruct (listed_decimals P (arg "speed")) as (l2 & E2 & F2); [apply H3; cbn; tauto|].
    cbn. rewrite E1, E2, F1. cbn. rewrite F2. cbn. rewrite !joined_commas. intros E. injection E as <-. reflexivity.
  - cbn. rewrite N by (cbn; tauto). cbn. intros E. injection E as <-. reflexivity.
  - cbn. rewrite N by (cbn; tauto). cbn. intros E. injection E as <-. reflexivity.
  - cbn. rewrite N by (cbn; tauto). cbn. intros E. injection E as <-. reflexivity.
  - destruct (listed_decimals P (arg "scale")) as (l1 & E1 & F1); [apply H3; cbn; tauto|]. cbn. rewrite E1, F1. cbn. rewrite !joined_commas. intros E. injection E as <-. reflexivity.
  - cbn. rewrite N by (cbn; tauto). cbn. intros E. injection E as <-. reflexivity.
  - cbn. rewrite N by (cbn; tauto). cbn. intros E. injection E as <-. reflexivity.
  - cbn. rewrite N by (cbn; tauto). cbn. intros E. injection E as <-. reflexivity.
Qed.

(** Barabasi-Albert: three extra attributes, of which the title of a plot shows two. *)
Example C84_ex :
  let P := mkprinter (fun _ => "") (fun _ _ => "") (fun _ => "") (fun _ => "") in
  let arg := fun a : string => if String.eqb a "seed" then PNone else if String.eqb a "m0" then PInt 3 else if String.eqb a "M" then POther "[[0.5]]" else PInt 2 in
  sane GBA arg (fun _ => PInt 1) /\
  graph_repr "BarabasiAlbert" 20 54 (extra P (attrs GBA arg arg) (items GBA)) None = Ok "BarabasiAlbert(n_vertices=20, n_edges=54, m0=3, m=2, seed=None)" /\
  plot_title None "BarabasiAlbert" 20 54 (extra P (attrs GBA arg arg) (items GBA)) = Ok "BarabasiAlbert(n_vertices=20, n_edges=54, m0=3, m=2, ...)" /\
  arg "M" <> PNone.
Proof.
  cbv zeta. split; [|split; [reflexivity|split; [reflexivity|discriminate]]].
  split; [|split; [|split]].
  - intros a Ha _. cbn in Ha. repeat (destruct Ha as [<-|Ha]; [exact I|]). contradiction.
  - intros a Ha. right. cbn in Ha. repeat (destruct Ha as [<-|Ha]; [exact I|]). contradiction.
  - right. exact I.
  - intros a. exact I.
Qed.
Example C84_filter_ex : sane_filter (fun a : string => if String.eqb a "scale" then PNums [PInt 1; PInt 10] else if String.eqb a "band_min" then PNone else PInt 1).
Proof.
  split; [|split].
  - intros a Ha. cbn in Ha. repeat (destruct Ha as [<-|Ha]; [exact I|]). contradiction.
  - intros a Ha. cbn in Ha. destruct Ha as [<-|[<-|[]]]; [left; reflexivity|right; exact I].
  - intros a Ha. cbn in Ha. destruct Ha as [<-|[<-|[<-|[]]]]; [right; eexists; split; [reflexivity|repeat constructor]|left; exact I|left; exact I].
Qed.
