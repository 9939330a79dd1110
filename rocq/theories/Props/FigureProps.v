(** C89: the figures pygsp opens, and what it draws on them. *)
From Coq Require Import Reals Lra Lia List Arith Bool String Permutation Sorted ZArith.
From Coq Require Import List.
From Verif.Base Require Import RSum Prelude.
From Verif.Spec Require Import Matrix GraphSpec NdArray FilterSpec.
From Verif.Model Require Import Sparse Graph Traverse Filter Kernels Ring Plot Figures.
From Verif.Proofs Require Import SparseFacts InitFacts EdgeFacts FilterFacts.
From Verif.Props Require Import Core RingProps Frames PlotProps.
Import ListNotations.
Open Scope R_scope.
Open Scope list_scope.

(** ** Windows *)
Lemma win_eqb_spec a b : reflect (a = b) (win_eqb a b).
Proof.
  destruct a as [[|] m], b as [[|] n]; unfold win_eqb; cbn [fst snd owner_eqb andb]; try (constructor; congruence);
  destruct (Nat.eqb_spec m n) as [->|N]; constructor; congruence.
Qed.
Lemma in_close w v l : In v (close_win w l) <-> In v l /\ v <> w.
Proof.
  unfold close_win. rewrite filter_In. destruct (win_eqb_spec w v) as [->|N]; cbn [negb]; [split; [intros [_ H]; discriminate|intros [_ H]; contradiction]|].
  split; [intros [H _]; split; [exact H|congruence]|intros [H _]; auto].
Qed.
Lemma close_widgets l s : let s' := fold_left (fun s w => close_widget w s) l s in
  s_next s' = s_next s /\ s_figs s' = s_figs s /\ kept_figs s' = kept_figs s /\ kept_widgets s' = kept_widgets s /\
  (forall v, In v (s_widgets s') <-> In v (s_widgets s) /\ ~ In v l).
Proof.
  revert s. induction l as [|w l IH]; intros s; cbn [fold_left].
  - repeat (split; [reflexivity|]). intros v. cbn [In]. tauto.
  - destruct (IH (close_widget w s)) as (A & B & C & D & E). cbn [close_widget s_next s_figs kept_figs kept_widgets s_widgets] in *.
    repeat (split; [assumption|]). intros v. rewrite E, in_close. cbn [In]. split; [intros [[? ?] ?]; split; [assumption|intros [?|?]; congruence]|].
    intros [? N]. split; [split; [assumption|intros ->; apply N; auto]|auto].
Qed.
Lemma close_figures l s : let s' := fold_left (fun s w => close_figure w s) l s in
  s_next s' = s_next s /\ s_widgets s' = s_widgets s /\ kept_figs s' = kept_figs s /\ kept_widgets s' = kept_widgets s /\
  (forall v, In v (s_figs s') <-> In v (s_figs s) /\ ~ In v l).
Proof.
  revert s. induction l as [|w l IH]; intros s; cbn [fold_left].
  - repeat (split; [reflexivity|]). intros v. cbn [In]. tauto.
  - destruct (IH (close_figure w s)) as (A & B & C & D & E). cbn [close_figure s_next s_figs kept_figs kept_widgets s_widgets] in *.
    repeat (split; [assumption|]). intros v. rewrite E, in_close. cbn [In]. split; [intros [[? ?] ?]; split; [assumption|intros [?|?]; congruence]|].
    intros [? N]. split; [split; [assumption|intros ->; apply N; auto]|auto].
Qed.
Lemma close_all_eq s : s_next (close_all s) = s_next s /\ kept_figs (close_all s) = [] /\ kept_widgets (close_all s) = [] /\
  (forall v, In v (s_figs (close_all s)) <-> In v (s_figs s) /\ ~ In v (kept_figs s)) /\
  (forall v, In v (s_widgets (close_all s)) <-> In v (s_widgets s) /\ ~ In v (kept_widgets s)).
Proof.
  unfold close_all. destruct (close_widgets (kept_widgets s) s) as (A & B & C & D & E). set (s1 := fold_left _ (kept_widgets s) s) in *.
  set (s2 := mkscreen (s_next s1) (s_figs s1) (s_widgets s1) (kept_figs s1) []) in *.
  destruct (close_figures (kept_figs s2) s2) as (A' & B' & C' & D' & E'). set (s3 := fold_left _ (kept_figs s2) s2) in *.
  cbn [s_next s_figs s_widgets kept_figs kept_widgets]. subst s2. cbn [s_next s_figs s_widgets kept_figs kept_widgets] in *.
  split; [congruence|]. split; [reflexivity|]. split; [congruence|]. split; [intros v; rewrite E', B, C; reflexivity|intros v; rewrite B'; apply E].
Qed.

(** What every plot call does to the screen. *)
Definition same_screen (s s' : screen) : Prop := s' = s.
Definition opens_one (s s' : screen) : Prop := exists w, w = (Pygsp, s_next s) /\
  s_figs s' = w :: s_figs s /\ kept_figs s' = kept_figs s ++ [w] /\ s_widgets s' = s_widgets s /\ kept_widgets s' = kept_widgets s /\ s_next s' = S (s_next s).
Definition opens_widget (s s' : screen) : Prop := exists w, w = (Pygsp, s_next s) /\
  s_widgets s' = w :: s_widgets s /\ kept_widgets s' = kept_widgets s ++ [w] /\ s_figs s' = s_figs s /\ kept_figs s' = kept_figs s /\ s_next s' = S (s_next s).
Lemma handle_screen {A} ax b (d : res A) s :
  (ax = None -> opens_one s (snd (handle_figure ax b d s))) /\ (ax <> None -> same_screen s (snd (handle_figure ax b d s))).
Proof.
  unfold handle_figure. destruct ax as [x|]; cbn [snd open_figure].
  - split; [discriminate|reflexivity].
  - split; [|congruence]. intros _. exists (Pygsp, s_next s). cbn. auto 10.
Qed.
Lemma plot_screen a s : same_screen s (snd (plot_call a s)) \/ opens_one s (snd (plot_call a s)) \/ opens_widget s (snd (plot_call a s)).
Proof.
  unfold plot_call. destruct (plot_graph _ _ _ _ _ _ _ _ _ _ _) as [d|e]; [|left; reflexivity]. cbn zeta.
  destruct (String.eqb (ga_backend a) "pyqtgraph").
  - right. right. cbn [open_widget snd]. exists (Pygsp, s_next s). cbn. auto 10.
  - match goal with |- context [handle_figure ?x ?b ?d s] => destruct (handle_screen x b d s) as [H1 H2]; destruct (handle_figure x b d s) as [r s1] eqn:E end.
    cbn [snd] in *. destruct (ga_ax a) as [x|]; [left; apply H2; discriminate|right; left; apply H1; reflexivity].
Qed.
Lemma filter_screen a s : same_screen s (snd (plot_filter_call a s)) \/ opens_one s (snd (plot_filter_call a s)).
Proof.
  unfold plot_filter_call. match goal with |- context [handle_figure ?x ?b ?d s] => destruct (handle_screen x b d s) as [H1 H2] end.
  destruct (fa_ax a) as [x|]; [left; apply H2; discriminate|right; apply H1; reflexivity].
Qed.

Record screen_ok (s : screen) : Prop := {
  so_figs : forall w, In w (s_figs s) -> fst w = Pygsp -> In w (kept_figs s);
  so_widgets : forall w, In w (s_widgets s) -> fst w = Pygsp -> In w (kept_widgets s);
  so_kept : forall w, In w (kept_figs s) \/ In w (kept_widgets s) -> fst w = Pygsp;
  so_next : forall w, In w (s_figs s) \/ In w (s_widgets s) \/ In w (kept_figs s) \/ In w (kept_widgets s) -> (snd w < s_next s)%nat }.
Lemma ok_one s s' : screen_ok s -> opens_one s s' -> screen_ok s'.
Proof.
  intros [A B C D] (w & -> & E1 & E2 & E3 & E4 & E5). constructor; rewrite ?E1, ?E2, ?E3, ?E4, ?E5.
  - intros v [<-|H] O; apply in_or_app; [right; left; reflexivity|left; auto].
  - auto.
  - intros v [H|H]; [apply in_app_or in H as [H|[<-|[]]]; [auto|reflexivity]|auto].
  - intros v [[<-|H]|[H|[H|H]]]; cbn [snd]; try lia; try (specialize (D v); pose proof (D ltac:(tauto)); lia).
    apply in_app_or in H as [H|[<-|[]]]; [pose proof (D v ltac:(tauto)); lia|cbn; lia].
Qed.
Lemma ok_widget s s' : screen_ok s -> opens_widget s s' -> screen_ok s'.
Proof.
  intros [A B C D] (w & -> & E1 & E2 & E3 & E4 & E5). constructor; rewrite ?E1, ?E2, ?E3, ?E4, ?E5.
  - auto.
  - intros v [<-|H] O; apply in_or_app; [right; left; reflexivity|left; auto].
  - intros v [H|H]; [auto|apply in_app_or in H as [H|[<-|[]]]; [auto|reflexivity]].
  - intros v [H|[[<-|H]|[H|H]]]; cbn [snd]; try lia; try (specialize (D v); pose proof (D ltac:(tauto)); lia).
    apply in_app_or in H as [H|[<-|[]]]; [pose proof (D v ltac:(tauto)); lia|cbn; lia].
Qed.
Lemma ok_happen s e : screen_ok s -> screen_ok (happen s e).
Proof.
  intros Hs. destruct e as [|w| |w|a|a|]; cbn [happen].
  - destruct Hs as [A B C D]. cbn [open_figure snd]. constructor; cbn [s_figs s_widgets kept_figs kept_widgets s_next].
    + intros v [<-|H] O; [discriminate O|auto].
    + auto.
    + auto.
    + intros v [[<-|H]|H]; cbn [snd]; [lia|pose proof (D v ltac:(tauto)); lia|pose proof (D v ltac:(tauto)); lia].
  - destruct Hs as [A B C D]. constructor; cbn [close_figure s_figs s_widgets kept_figs kept_widgets s_next]; auto.
    + intros v H O. apply in_close in H as [H _]. auto.
    + intros v [H|H]; [apply in_close in H as [H _]; auto|auto].
  - destruct Hs as [A B C D]. cbn [open_widget snd]. constructor; cbn [s_figs s_widgets kept_figs kept_widgets s_next].
    + auto.
    + intros v [<-|H] O; [discriminate O|auto].
    + auto.
    + intros v [H|[[<-|H]|H]]; cbn [snd]; [pose proof (D v ltac:(tauto)); lia|lia|pose proof (D v ltac:(tauto)); lia|pose proof (D v ltac:(tauto)); lia].
  - destruct Hs as [A B C D]. constructor; cbn [close_widget s_figs s_widgets kept_figs kept_widgets s_next]; auto.
    + intros v H O. apply in_close in H as [H _]. auto.
    + intros v [H|[H|H]]; [auto|apply in_close in H as [H _]; auto|auto].
  - destruct (plot_screen a s) as [E|[E|E]]; [rewrite E; exact Hs|eapply ok_one; eauto|eapply ok_widget; eauto].
  - destruct (filter_screen a s) as [E|E]; [rewrite E; exact Hs|eapply ok_one; eauto].
  - destruct (close_all_eq s) as (E1 & E2 & E3 & E4 & E5). destruct Hs as [A B C D]. constructor; rewrite ?E1, ?E2, ?E3.
    + intros w H O. apply E4 in H as [H N]. destruct (N (A w H O)).
    + intros w H O. apply E5 in H as [H N]. destruct (N (B w H O)).
    + intros w [[]|[]].
    + intros w [H|[H|[[]|[]]]]; apply D; [apply E4 in H; tauto|apply E5 in H; tauto].
Qed.
Lemma history_ok h : screen_ok (history h).
Proof.
  unfold history. assert (B : screen_ok blank) by (constructor; cbn; intros; tauto). revert B. generalize blank.
  induction h as [|e h IH]; intros s Hs; cbn [fold_left]; [exact Hs|]. apply IH. apply ok_happen. exact Hs.
Qed.

(** After any history of plots (successful or not) and of windows opened and closed by the user, [close_all] closes every figure and
    widget that pygsp opened, forgets them, and leaves the windows of the user as they are. *)
Theorem C89_close_all :
  forall h, let s := history h in let s' := happen s CloseAll in
    (forall w, In w (s_figs s') <-> In w (s_figs s) /\ fst w = User) /\
    (forall w, In w (s_widgets s') <-> In w (s_widgets s) /\ fst w = User) /\
    kept_figs s' = [] /\ kept_widgets s' = [].
Proof.
  intros h s s'. destruct (close_all_eq s) as (_ & E2 & E3 & E4 & E5). destruct (history_ok h) as [A B C _]. fold s in A, B, C.
  change (happen s CloseAll) with (close_all s) in s'. subst s'.
  split; [|split; [|auto]]; intros w; rewrite ?E4, ?E5; split; intros [H K]; (split; [exact H|]).
  - destruct w as [[|] k]; [|reflexivity]. destruct (K (A _ H eq_refl)).
  - intros I. rewrite (C w (or_introl I)) in K. discriminate.
  - destruct w as [[|] k]; [|reflexivity]. destruct (K (B _ H eq_refl)).
  - intros I. rewrite (C w (or_intror I)) in K. discriminate.
Qed.

(** A plot call whose arguments are accepted opens exactly one new figure if it is given no axes, and returns axes on it; given axes it
    opens none and returns these; it closes nothing.  A call whose arguments are refused opens nothing. *)
Definition accepted (a : gargs) (d : drawing) : Prop :=
  plot_graph (ga_pp a) (g_n_vertices (ga_G a)) (g_n_edges (ga_G a)) (option_map fst (ga_coords a)) (ga_vertex_color a) (ga_vertex_size a)
    (ga_edges a) (ga_edge_color a) (ga_edge_width a) (ga_limits a) (ga_backend a) = Ok d.
Theorem C89_one_figure_per_plot :
  forall h a r s', ga_backend a = "matplotlib"%string -> plot_call a (history h) = (r, s') -> let s := history h in
    s_widgets s' = s_widgets s /\
    ((forall d, ~ accepted a d) -> s' = s /\ exists e, r = Raise e) /\
    (forall d, accepted a d ->
       (ga_ax a = None -> exists w, ~ In w (s_figs s) /\ ~ In w (s_widgets s) /\ fst w = Pygsp /\ s_figs s' = w :: s_figs s /\
          ((exists e, r = Raise e) \/ exists p, r = Ok (Some (mkaxes w (match ga_coords a with Some ([_; 3%nat], _) => true | _ => false end), p)))) /\
       (forall x, ga_ax a = Some x -> s' = s /\ ((exists e, r = Raise e) \/ exists p, r = Ok (Some (x, p))))).
Proof.
  intros h a r s' HB E s. unfold plot_call in E. fold s in E. unfold accepted. destruct (plot_graph _ _ _ _ _ _ _ _ _ _ _) as [d|e] eqn:EP.
  2:{ injection E as <- <-. split; [reflexivity|]. split; [intros _; split; [reflexivity|eexists; reflexivity]|]. intros d H. discriminate. }
  cbn zeta in E. rewrite HB in E. cbn in E. unfold handle_figure in E.
  set (dr := draw_graph _ _ _ _) in E.
  destruct (ga_ax a) as [x|] eqn:EX.
  - destruct dr as [p|e]; cbn [bindr] in E; injection E as <- <-; (split; [reflexivity|]); (split; [intros N; destruct (N d eq_refl)|]).
    + intros d' _. split; [discriminate|]. intros x' [= <-]. split; [reflexivity|]. right. eexists; reflexivity.
    + intros d' _. split; [discriminate|]. intros x' [= <-]. split; [reflexivity|]. left. eexists; reflexivity.
  - assert (Fr : ~ In (Pygsp, s_next s) (s_figs s) /\ ~ In (Pygsp, s_next s) (s_widgets s)).
    { destruct (history_ok h) as [_ _ _ D]. fold s in D. split; intros H; pose proof (D (Pygsp, s_next s) ltac:(tauto)) as L; cbn in L; lia. }
    assert (T3 : Nat.eqb (nth 1 (fst (match ga_coords a with Some c => c | None => ([], fun _ => []) end)) 0%nat) 3 = match ga_coords a with Some ([_; 3%nat], _) => true | _ => false end).
    { unfold plot_graph in EP. destruct (coords_raise (g_n_vertices (ga_G a)) (option_map fst (ga_coords a))) as [EC|EC]; rewrite EC in EP; [|discriminate].
      apply coords_ok in EC. destruct (ga_coords a) as [[sh f]|]; cbn [option_map fst] in *; [|destruct EC as [H|[H|H]]; discriminate].
      destruct EC as [H|[H|H]]; injection H as ->; reflexivity. }
    destruct dr as [p|e]; cbn [bindr open_figure] in E; injection E as <- <-; cbn [s_widgets s_figs]; (split; [reflexivity|]); (split; [intros N; destruct (N d eq_refl)|]);
    intros d' _; (split; [|discriminate]); intros _; exists (Pygsp, s_next s); (split; [apply Fr|]); (split; [apply Fr|]); (split; [reflexivity|]); (split; [reflexivity|]).
    + right. exists p. rewrite <- T3. reflexivity.
    + left. eexists; reflexivity.
Qed.

(** ** What is drawn for a graph *)

(** The vertex colours are left out, are a signal (one number per vertex), or are numbers between 0 and 1 that stand for one colour (3 or 4
    numbers, possibly as one row) or for one colour per vertex (rows of 3 or 4). *)
Definition plain_colour (a : gargs) : Prop :=
  match ga_vertex_color a with
  | Missing => True
  | Number _ => False
  | Values sh x => is_color true sh x = false /\ List.length x = fold_right Nat.mul 1%nat sh \/
      is_color true sh x = true /\ exists c, (c = 3 \/ c = 4)%nat /\ (sh = [c] \/ sh = [1%nat; c] \/ sh = [g_n_vertices (ga_G a); c])
  end.
(** The colours show a signal. *)
Definition shows_signal (a : gargs) : Prop := match ga_vertex_color a with Values sh x => is_color true sh x = false | _ => False end.
Definition hl_list (h : hlarg) : list Z := match h with HLone i => [i] | HLmany l => l end.
(** Vertex i is designated by the python index z. *)
Definition designates (n : nat) (z : Z) (i : nat) : Prop := (i < n)%nat /\ (z = Z.of_nat i \/ z = Z.of_nat i - Z.of_nat n)%Z.

Lemma index_ok n z i : py_index n z = Ok i <-> designates n z i.
Proof.
  unfold py_index, designates. destruct (Z.leb_spec 0 z), (Z.ltb_spec z (Z.of_nat n)); cbn [andb].
  - split; [intros [= <-]; lia|]. intros [L [H1|H1]]; [f_equal; lia|lia].
  - destruct (Z.leb_spec (- Z.of_nat n) z), (Z.ltb_spec z 0); cbn [andb]; try lia; (split; [discriminate|intros [L [H3|H3]]; lia]).
  - destruct (Z.leb_spec (- Z.of_nat n) z), (Z.ltb_spec z 0); cbn [andb]; try lia.
    + split; [intros [= <-]; lia|]. intros [L [H3|H3]]; [lia|f_equal; lia].
    + split; [discriminate|intros [L [H3|H3]]; lia].
  - lia.
Qed.
Lemma index_raise n z : (exists i, py_index n z = Ok i) \/ py_index n z = Raise IndexError.
Proof. unfold py_index. destruct (_ && _)%bool; [left; eexists; reflexivity|]. destruct (_ && _)%bool; [left; eexists; reflexivity|auto]. Qed.
Lemma highlighted_ok n h l : highlighted n h = Ok l <-> Forall2 (designates n) (hl_list h) l.
Proof.
  unfold highlighted, hl_list. generalize (match h with HLone i => [i] | HLmany l => l end) as zs. intros zs. revert l.
  induction zs as [|z zs IH]; intros l; cbn [mapr].
  - split; [intros [= <-]; constructor|intros H; inversion H; reflexivity].
  - split.
    + intros H. destruct (py_index n z) as [i|] eqn:E; [|discriminate]. cbn [bindr] in H. destruct (mapr (py_index n) zs) as [r|] eqn:E'; [|discriminate].
      injection H as <-. constructor; [apply index_ok; exact E|apply IH; reflexivity].
    + intros H. inversion H as [|a i b r Hz Hr]; subst. apply index_ok in Hz. rewrite Hz. cbn [bindr]. rewrite (proj2 (IH r) Hr). reflexivity.
Qed.
Lemma highlighted_raise n h : (exists z, In z (hl_list h) /\ forall i, ~ designates n z i) -> highlighted n h = Raise IndexError.
Proof.
  unfold highlighted, hl_list. generalize (match h with HLone i => [i] | HLmany l => l end) as zs. intros zs (z & Hz & N).
  induction zs as [|y zs IH]; [destruct Hz|]. cbn [mapr]. destruct (index_raise n y) as [[i E]|E]; rewrite E; cbn [bindr]; [|reflexivity].
  destruct Hz as [->|Hz]; [destruct (N i); apply index_ok; exact E|]. rewrite (IH Hz). reflexivity.
Qed.
Lemma drop1_prod sh : fold_right Nat.mul 1%nat (drop1 sh) = fold_right Nat.mul 1%nat sh.
Proof.
  unfold drop1. induction sh as [|d sh IH]; [reflexivity|]. cbn [filter fold_right]. destruct (Nat.eqb_spec d 1) as [->|N]; cbn [negb fold_right]; rewrite IH; lia.
Qed.
Lemma plain_accepts a d k at_ : ga_backend a = "matplotlib"%string -> ga_coords a = Some ([g_n_vertices (ga_G a); k], at_) -> accepted a d -> plain_colour a ->
  scatter_accepts (g_n_vertices (ga_G a)) (d_colour d) = true /\
  (colorbar_wanted (d_colour d) (ga_colorbar a) = true <-> ga_colorbar a = true /\ shows_signal a).
Proof.
  intros HB HC HA HP. unfold accepted, plot_graph in HA. rewrite HC, HB in HA. cbn [option_map fst] in HA.
  destruct (check_coords _ _); [|discriminate]. cbn [bindr List.length Nat.eqb String.eqb Ascii.eqb Bool.eqb] in HA. 
  destruct (colour _ _ _ _ _) as [[pt lim]|] eqn:EC; [|discriminate]. cbn [bindr] in HA.
  destruct (vertex_sizes _ _ _ _); [|discriminate]. cbn [bindr] in HA. destruct (edge_opacity _ _ _ _); [|discriminate]. cbn [bindr] in HA.
  destruct (edge_widths _ _ _ _); [|discriminate]. cbn [bindr fst snd] in HA. injection HA as <-. cbn [d_colour].
  unfold plain_colour in HP. unfold colour in EC. destruct (ga_vertex_color a) as [|x|sh x] eqn:EV; [injection EC as <- <-; cbn; split; [reflexivity|unfold shows_signal; rewrite EV; split; [discriminate|tauto]]|destruct HP|].
  change (String.eqb "matplotlib" "matplotlib") with true in EC. unfold shows_signal. rewrite EV. destruct HP as [[IC HL]|(IC & c & Hc & Hs)].
  2:{ rewrite IC in EC. injection EC as <- <-. split; [|unfold colorbar_wanted; rewrite IC; split; [discriminate|intros [_ Z]; discriminate]].
    assert (Q : existsb (Nat.eqb (n_colours sh)) [0%nat; 1%nat; g_n_vertices (ga_G a)] = true); [|cbn [scatter_accepts]; rewrite Q; apply orb_true_r].
    assert (T : (n_colours sh = 1 \/ n_colours sh = g_n_vertices (ga_G a))%nat).
    { destruct Hs as [ -> |[ -> | -> ]]; [left; destruct Hc as [ -> | -> ]; reflexivity|left; destruct Hc as [ -> | -> ]; reflexivity|].
      unfold n_colours. destruct (rgb_shape _); [left|right]; reflexivity. }
    apply existsb_exists. destruct T as [T|T]; rewrite T; eexists; (split; [|apply Nat.eqb_refl]); cbn; tauto. }
  rewrite IC in EC.
  destruct (check_raise (drop1 sh) (g_n_vertices (ga_G a)) false) as [K|K]; rewrite K in EC; [|discriminate]. cbn [bindr] in EC.
  apply check_ok in K as (r & Er & [D|D]); [discriminate|]. subst r. pose proof (drop1_prod sh) as P. rewrite Er in P. cbn in P.
  assert (G : pt = Graded x).
  { destruct (ga_limits a); [injection EC as <- _; reflexivity|]. destruct (np_min x); [|discriminate]. destruct (np_max x); [|discriminate]. injection EC as <- _. reflexivity. }
  subst pt. split; [cbn; apply Nat.eqb_eq; lia|unfold colorbar_wanted; rewrite IC; tauto].
Qed.

(** With coordinates in the plane or in space: one disk per vertex at its coordinates, one straight line per edge between the coordinates
    of its ends (if edges are drawn), a ring of twice the size around every highlighted vertex, negative numbers counting from the
    end, its number on every vertex (if asked), a colour bar iff a signal is shown and the bar is wanted.  A highlighted vertex that does
    not exist is an IndexError. *)
Theorem C89_graph_drawn :
  forall a d k at_ s, let N := g_n_vertices (ga_G a) in
    built (ga_G a) -> ga_backend a = "matplotlib"%string -> ga_coords a = Some ([N; k], at_) -> accepted a d -> plain_colour a ->
    let size i := match d_sizes d with One r => r | Each r => nth i r 0 end in
    (forall l, Forall2 (designates N) (hl_list (ga_highlight a)) l ->
       exists x p, fst (plot_call a s) = Ok (Some (x, p)) /\
         List.length (points p) = N /\ (forall i, (i < N)%nat -> nth i (points p) ([], 0) = (at_ i, size i)) /\
         rings p = map (fun i => (at_ i, 2 * size i)) l /\
         (exists es, segments p = map (fun e => (at_ (fst e), at_ (snd e))) es /\ NoDup es /\
            forall i j, In (i, j) es <-> d_edges d = true /\ (i < N)%nat /\ (j < N)%nat /\ wt (ga_G a) i j <> 0 /\ (undirected (ga_G a) -> (i <= j)%nat)) /\
         (ga_indices a = false -> texts p = []) /\
         (ga_indices a = true -> List.length (texts p) = N /\ forall i, (i < N)%nat -> nth i (texts p) ([], 0%nat) = (at_ i, i)) /\
         (colorbar_drawn p = true <-> ga_colorbar a = true /\ shows_signal a) /\
         curves p = [] /\ verticals p = []) /\
    ((exists z, In z (hl_list (ga_highlight a)) /\ forall i, ~ designates N z i) -> fst (plot_call a s) = Raise IndexError).
Proof.
  intros a d k at_ s N HG HB HC HA HP size. pose proof HA as HA'. unfold accepted in HA'.
  destruct (plain_accepts a d k at_ HB HC HA HP) as [SA CB]. destruct (C67_edges_drawn (ga_G a) HG) as (el & El & ND & IN & _).
  assert (P : forall r, bindr (highlighted N (ga_highlight a)) (fun hl => Ok (mkpicture (if d_edges d then map (fun e => (at_ (fst (fst e)), at_ (snd (fst e)))) el else []) [] []
      (map (fun i => (at_ i, size_of (d_sizes d) i)) (seq 0 N)) (map (fun i => (at_ i, 2 * size_of (d_sizes d) i)) hl)
      (if ga_indices a then map (fun i => (at_ i, i)) (seq 0 N) else []) (colorbar_wanted (d_colour d) (ga_colorbar a)))) = r -> draw_graph a [N; k] at_ d = r).
  { intros r <-. unfold draw_graph. cbn [List.length Nat.eqb negb]. fold N. rewrite andb_true_r, El. fold N in SA. rewrite SA. destruct (d_edges d); reflexivity. }
  assert (Q : forall r, draw_graph a [N; k] at_ d = r -> fst (plot_call a s) = match r with Ok p => Ok (Some (match ga_ax a with Some x => x | None => mkaxes (Pygsp, s_next s) (Nat.eqb k 3) end, p)) | Raise e => Raise e end).
  { intros r E. unfold plot_call. rewrite HA'. cbn zeta. rewrite HB, HC. cbn [String.eqb fst snd nth]. 
    change (String.eqb "matplotlib" "pyqtgraph") with false. cbn iota. rewrite E. unfold handle_figure. destruct (ga_ax a), r; reflexivity. }
  split.
  - intros l Hl. apply highlighted_ok in Hl. rewrite Hl in P. cbn [bindr] in P. specialize (P _ eq_refl). rewrite (Q _ P). eexists. eexists. split; [reflexivity|].
    cbn [points rings segments texts colorbar_drawn curves verticals]. split; [rewrite map_length, seq_length; reflexivity|].
    split; [intros i Hi; rewrite (nth_indep _ ([], 0) ((fun i => (at_ i, size_of (d_sizes d) i)) 0%nat)), (map_nth (fun i => (at_ i, size_of (d_sizes d) i))), seq_nth by (rewrite ?map_length, ?seq_length; assumption); reflexivity|].
    split; [reflexivity|]. split.
    { exists (if d_edges d then edge_pairs el else []). destruct (d_edges d).
      - split; [unfold edge_pairs; rewrite map_map; reflexivity|]. split; [exact ND|]. intros i j. rewrite IN. tauto.
      - split; [reflexivity|]. split; [constructor|]. intros i j. split; [intros []|intros [H _]; discriminate]. }
    split; [intros ->; reflexivity|]. split.
    { intros ->. split; [rewrite map_length, seq_length; reflexivity|]. intros i Hi.
      rewrite (nth_indep _ ([], 0%nat) ((fun i => (at_ i, i)) 0%nat)), (map_nth (fun i => (at_ i, i))), seq_nth by (rewrite ?map_length, ?seq_length; assumption). reflexivity. }
    split; [exact CB|auto].
  - intros Hz. apply (highlighted_raise N) in Hz. rewrite Hz in P. cbn [bindr] in P. specialize (P _ eq_refl). rewrite (Q _ P). reflexivity.
Qed.

(** ** Coordinates on a line *)

(** With 1-D coordinates a signal is drawn as one curve (k signals as k curves) through the points (coordinate, value), highlighted
    vertices as vertical lines, and no edge. *)
Lemma line_call a d at_ s : let N := g_n_vertices (ga_G a) in ga_backend a = "matplotlib"%string -> ga_coords a = Some ([N], at_) -> accepted a d ->
  fst (plot_call a s) = bindr (draw_graph a [N] at_ d) (fun p => Ok (Some (match ga_ax a with Some x => x | None => mkaxes (Pygsp, s_next s) false end, p))) /\
  (ga_ax a = None -> s_figs (snd (plot_call a s)) = (Pygsp, s_next s) :: s_figs s).
Proof.
  intros N HB HC HA. unfold accepted in HA. unfold plot_call. rewrite HA. cbn zeta. rewrite HB, HC. change (String.eqb "matplotlib" "pyqtgraph") with false. cbn iota.
  cbn [fst snd nth]. unfold handle_figure. destruct (ga_ax a), (draw_graph a [N] at_ d); cbn; split; auto; discriminate.
Qed.
Lemma line_colour a d sh x at_ : ga_backend a = "matplotlib"%string -> ga_coords a = Some ([g_n_vertices (ga_G a)], at_) -> accepted a d ->
  ga_vertex_color a = Values sh x -> is_color true sh x = false ->
  d_colour d = Graded x /\ exists r, drop1 sh = g_n_vertices (ga_G a) :: r.
Proof.
  intros HB HC HA HV IC. unfold accepted, plot_graph in HA. rewrite HC, HB, HV in HA. cbn [option_map fst] in HA.
  destruct (check_coords _ _); [|discriminate]. cbn [bindr List.length Nat.eqb] in HA. change (String.eqb "matplotlib" "matplotlib") with true in HA.
  destruct (colour _ _ _ _ _) as [[pt lim]|] eqn:EC; [|discriminate]. cbn [bindr] in HA.
  destruct (vertex_sizes _ _ _ _); [|discriminate]. cbn [bindr] in HA. destruct (edge_opacity _ _ _ _); [|discriminate]. cbn [bindr] in HA.
  destruct (edge_widths _ _ _ _); [|discriminate]. cbn [bindr fst snd] in HA. injection HA as <-. cbn [d_colour].
  unfold colour in EC. rewrite IC in EC.
  destruct (check_raise (drop1 sh) (g_n_vertices (ga_G a)) true) as [K|K]; rewrite K in EC; [|discriminate]. cbn [bindr] in EC.
  apply check_ok in K as (r & Er & _). split; [|exists r; exact Er].
  destruct (ga_limits a); [injection EC as <- _; reflexivity|]. destruct (np_min x); [|discriminate]. destruct (np_max x); [|discriminate]. injection EC as <- _. reflexivity.
Qed.
Lemma nth_combine_seq {A} (f : nat -> R) (g : nat -> A) n i d : (i < n)%nat -> nth i (combine (map f (seq 0 n)) (map g (seq 0 n))) (0, d) = (f i, g i).
Proof.
  intros Hi. rewrite combine_nth by (rewrite !map_length; reflexivity). f_equal.
  - rewrite (nth_indep _ 0 (f 0%nat)), map_nth, seq_nth by (rewrite ?map_length, ?seq_length; assumption). reflexivity.
  - rewrite (nth_indep _ d (g 0%nat)), map_nth, seq_nth by (rewrite ?map_length, ?seq_length; assumption). reflexivity.
Qed.
Theorem C89_line_drawn :
  forall a d sh x at_ s l, let N := g_n_vertices (ga_G a) in
    ga_backend a = "matplotlib"%string -> ga_coords a = Some ([N], at_) -> accepted a d ->
    ga_vertex_color a = Values sh x -> is_color true sh x = false -> List.length x = fold_right Nat.mul 1%nat sh ->
    ga_indices a = false -> Forall2 (designates N) (hl_list (ga_highlight a)) l ->
    ((drop1 sh = [N] \/ exists k, drop1 sh = [N; k]) ->
      let k := match drop1 sh with [_; k] => k | _ => 1%nat end in
      exists ax p, fst (plot_call a s) = Ok (Some (ax, p)) /\ segments p = [] /\ points p = [] /\ verticals p = map (fun i => hd 0 (at_ i)) l /\
        List.length (curves p) = k /\
        forall c, (c < k)%nat -> List.length (nth c (curves p) []) = N /\
          forall i, (i < N)%nat -> nth i (nth c (curves p) []) (0, 0) = (hd 0 (at_ i), nth (i * k + c) x 0)) /\
    (drop1 sh <> [N] -> (forall k, drop1 sh <> [N; k]) -> fst (plot_call a s) = Raise ValueError).
Proof.
  intros a d sh x at_ s l N HB HC HA HV IC HL HI Hl. destruct (line_call a d at_ s HB HC HA) as [E _]. rewrite E. clear E.
  destruct (line_colour a d sh x at_ HB HC HA HV IC) as [ED (r & Er)]. fold N in Er. apply highlighted_ok in Hl.
  unfold draw_graph. cbn [List.length Nat.eqb negb]. fold N. rewrite andb_false_r, Hl. cbn [bindr]. rewrite HI, ED, HV. cbn [line_values fst snd andb].
  pose proof (drop1_prod sh) as P. rewrite <- HL in P.
  assert (LX : List.length (map (fun i => hd 0 (at_ i)) (seq 0 N)) = N) by (rewrite map_length, seq_length; reflexivity).
  assert (XS : forall m, List.length x = m -> x = map (fun i => nth i x 0) (seq 0 m)).
  { intros m <-. symmetry. apply (nth_ext _ _ 0 0); [rewrite map_length, seq_length; reflexivity|]. intros i Hi. rewrite map_length, seq_length in Hi.
    rewrite (nth_indep _ 0 (nth 0 x 0)), (map_nth (fun i => nth i x 0)), seq_nth by (rewrite ?map_length, ?seq_length; assumption). reflexivity. }
  split.
  - intros Hs. destruct Hs as [Hs|[k Hs]]; rewrite Hs in *.
    + cbn in P. rewrite Nat.mul_1_r in P. unfold plot_curves. rewrite LX, Nat.eqb_refl. cbn [bindr]. eexists. eexists. split; [reflexivity|].
      cbn [segments points verticals curves List.length]. repeat (split; [reflexivity|]). intros c Hc. replace c with 0%nat by lia. cbn [nth].
      split; [rewrite combine_length, LX; lia|]. intros i Hi. rewrite (XS N) at 1 by lia. rewrite nth_combine_seq by exact Hi. do 2 f_equal. lia.
    + unfold plot_curves. rewrite LX, Nat.eqb_refl. cbn [bindr]. eexists. eexists. split; [reflexivity|].
      cbn [segments points verticals curves]. repeat (split; [reflexivity|]). split; [rewrite map_length, seq_length; reflexivity|]. intros c Hc.
      rewrite (nth_indep _ [] ((fun c => combine (map (fun i => hd 0 (at_ i)) (seq 0 N)) (map (fun i => nth (i * k + c) x 0) (seq 0 N))) 0%nat)) by (rewrite map_length, seq_length; exact Hc).
      rewrite (map_nth (fun c => combine (map (fun i => hd 0 (at_ i)) (seq 0 N)) (map (fun i => nth (i * k + c) x 0) (seq 0 N)))), seq_nth by exact Hc.
      split; [rewrite combine_length, !map_length, seq_length; lia|]. intros i Hi. rewrite nth_combine_seq by exact Hi. reflexivity.
  - intros N1 N2. rewrite Er in *. destruct r as [|k [|k' r]]; [destruct (N1 eq_refl)|destruct (N2 k eq_refl)|]. reflexivity.
Qed.

(** Findings.  Without a signal, [G.plot()] of a graph with 1-D coordinates always fails (unless it has one vertex), and leaves an empty
    figure open. *)
Theorem C89_line_without_signal_refuted :
  forall a d at_ s l, let N := g_n_vertices (ga_G a) in
    ga_backend a = "matplotlib"%string -> ga_coords a = Some ([N], at_) -> accepted a d -> ga_vertex_color a = Missing -> N <> 1%nat ->
    Forall2 (designates N) (hl_list (ga_highlight a)) l -> ga_ax a = None ->
    fst (plot_call a s) = Raise ValueError /\ s_figs (snd (plot_call a s)) = (Pygsp, s_next s) :: s_figs s.
Proof.
  intros a d at_ s l N HB HC HA HV HN Hl HX. destruct (line_call a d at_ s HB HC HA) as [E F]. rewrite E. split; [|apply F; exact HX]. clear E F.
  assert (ED : d_colour d = Default).
  { unfold accepted, plot_graph in HA. rewrite HC, HB, HV in HA. cbn [option_map fst] in HA.
    destruct (check_coords _ _); [|discriminate]. cbn [bindr List.length Nat.eqb colour] in HA. change (String.eqb "matplotlib" "matplotlib") with true in HA.
    destruct (vertex_sizes _ _ _ _); [|discriminate]. cbn [bindr] in HA. destruct (edge_opacity _ _ _ _); [|discriminate]. cbn [bindr] in HA.
    destruct (edge_widths _ _ _ _); [|discriminate]. cbn [bindr fst snd] in HA. injection HA as <-. reflexivity. }
  apply highlighted_ok in Hl. unfold draw_graph. cbn [List.length Nat.eqb negb]. fold N. rewrite andb_false_r, Hl. cbn [bindr]. rewrite ED, HV. cbn [line_values fst snd].
  unfold plot_curves. rewrite map_length, seq_length. destruct (Nat.eqb_spec 1 N); [lia|]. reflexivity.
Qed.
(** Vertex numbers cannot be written with 1-D coordinates. *)
Theorem C89_line_indices_refuted :
  forall a d sh x at_ s l, let N := g_n_vertices (ga_G a) in
    ga_backend a = "matplotlib"%string -> ga_coords a = Some ([N], at_) -> accepted a d ->
    ga_vertex_color a = Values sh x -> is_color true sh x = false -> drop1 sh = [N] -> (0 < N)%nat ->
    Forall2 (designates N) (hl_list (ga_highlight a)) l -> ga_indices a = true -> fst (plot_call a s) = Raise TypeError.
Proof.
  intros a d sh x at_ s l N HB HC HA HV IC Hs HN Hl HI. destruct (line_call a d at_ s HB HC HA) as [E _]. rewrite E. clear E.
  destruct (line_colour a d sh x at_ HB HC HA HV IC) as [ED _]. apply highlighted_ok in Hl.
  unfold draw_graph. cbn [List.length Nat.eqb negb]. fold N. rewrite andb_false_r, Hl. cbn [bindr]. rewrite HI, ED, HV. cbn [line_values fst snd andb]. rewrite Hs.
  unfold plot_curves. rewrite map_length, seq_length, Nat.eqb_refl. cbn [bindr]. destruct (Nat.eqb_spec N 0); [lia|]. reflexivity.
Qed.

(** ** What is drawn for a filter bank *)

(** One curve per filter, through (t, g_i(t)) for increasing t from 0 to lmax, which go through all the eigenvalues if these are drawn; a
    curve of the sums of squares, and a legend, when asked; by default both for several filters only, and the eigenvalues when they
    are already known; then a vertical line and a dot per filter at every eigenvalue. *)
Lemma lsum_rsum (l : list R) : lsum l = \sum_(i < List.length l) nth i l 0.
Proof.
  induction l as [|a l IH]; [reflexivity|]. cbn [List.length]. rewrite rsum_S_first. cbn [nth]. rewrite <- IH. reflexivity.
Qed.
Lemma flag (o : option bool) (b : bool) (P : Prop) : (b = true <-> P) -> (match o with Some c => c | None => b end = true <-> o = Some true \/ o = None /\ P).
Proof. destruct o as [[|]|]; intuition congruence. Qed.
Theorem C89_filter_drawn :
  forall gs a s, fa_kernels a = map pw gs ->
    let many := (1 < List.length gs)%nat in
    let eig := fa_eigenvalues a = Some true \/ fa_eigenvalues a = None /\ fa_known a = true in
    let sum := fa_sum a = Some true \/ fa_sum a = None /\ many in
    let labels := fa_labels a = Some true \/ fa_labels a = None /\ many in
    let e := fa_e a in
    exists ax p ts, fst (plot_filter_call a s) = Ok (ax, p) /\
      (eig -> Permutation ts (linspace (fa_lmax a) (fa_n a) ++ e)) /\ (~ eig -> ts = linspace (fa_lmax a) (fa_n a)) /\
      (eig -> forall i j, (i < j < List.length ts)%nat -> nth i ts 0 <= nth j ts 0) /\
      f_curves p = map (fun g => map (fun t => (t, g t)) ts) gs /\
      (sum -> f_sum p = Some (map (fun t => (t, \sum_(i < List.length gs) (nth i gs (fun _ => 0) t) ^ 2)) ts)) /\ (~ sum -> f_sum p = None) /\
      (labels -> f_legend p = map LFilter (seq 0 (List.length gs)) ++ match f_sum p with Some _ => [LSum] | None => [] end) /\ (~ labels -> f_legend p = []) /\
      (eig -> f_verticals p = e /\ f_dots p = map (fun g => map (fun t => (t, g t)) e) gs) /\ (~ eig -> f_verticals p = [] /\ f_dots p = []) /\
      (eig -> sum -> f_sum_dots p = Some (map (fun t => (t, \sum_(i < List.length gs) (nth i gs (fun _ => 0) t) ^ 2)) e)).
Proof.
  intros gs a s HK many eig sum labels e.
  assert (C : forall (g : R -> R) l, combine l (map g l) = map (fun t => (t, g t)) l) by (intros g l; induction l as [|t l IH]; cbn; [reflexivity|rewrite IH; reflexivity]).
  assert (SS : forall l, combine l (sum_squares (List.length l) (map (fun g => map g l) gs)) = map (fun t => (t, \sum_(i < List.length gs) (nth i gs (fun _ => 0) t) ^ 2)) l).
  { intros l. rewrite <- C. f_equal. unfold sum_squares. apply (nth_ext _ _ 0 0); [rewrite !map_length, seq_length; reflexivity|].
    rewrite map_length, seq_length. intros j Hj.
    rewrite (nth_indep _ 0 ((fun j => lsum (map (fun r => nth j r 0 ^ 2) (map (fun g => map g l) gs))) 0%nat)) by (rewrite map_length, seq_length; exact Hj).
    rewrite (map_nth (fun j => lsum (map (fun r => nth j r 0 ^ 2) (map (fun g => map g l) gs)))), seq_nth by exact Hj. cbn [plus].
    rewrite (nth_indep _ 0 ((fun t => \sum_(i < List.length gs) (nth i gs (fun _ => 0) t) ^ 2) 0)) by (rewrite map_length; exact Hj).
    rewrite (map_nth (fun t => \sum_(i < List.length gs) (nth i gs (fun _ => 0) t) ^ 2)). rewrite lsum_rsum, !map_length. apply rsum_ext. intros i Hi.
    rewrite map_map. rewrite (nth_indep _ 0 ((fun g => nth j (map g l) 0 ^ 2) (fun _ => 0))) by (rewrite map_length; exact Hi).
    rewrite (map_nth (fun g => nth j (map g l) 0 ^ 2)). f_equal. rewrite (nth_indep _ 0 (nth i gs (fun _ => 0) 0)) by (rewrite map_length; exact Hj). rewrite map_nth. reflexivity. }
  set (be := match fa_eigenvalues a with Some b => b | None => fa_known a end).
  set (bs := match fa_sum a with Some b => b | None => Nat.ltb 1 (List.length gs) end).
  set (bl := match fa_labels a with Some b => b | None => Nat.ltb 1 (List.length gs) end).
  assert (He : be = true <-> eig) by (apply flag; tauto).
  assert (Hs : bs = true <-> sum) by (apply flag; apply Nat.ltb_lt).
  assert (Hl : bl = true <-> labels) by (apply flag; apply Nat.ltb_lt).
  set (ts := filter_points (fa_lmax a) (fa_n a) (if be then Some e else None)).
  assert (D : draw_filter a be bs bl = Ok (mkfpicture (map (fun g => map (fun t => (t, g t)) ts) gs)
      (if bs then Some (map (fun t => (t, \sum_(i < List.length gs) (nth i gs (fun _ => 0) t) ^ 2)) ts) else None)
      (if bl then map LFilter (seq 0 (List.length gs)) ++ (if bs then [LSum] else []) else []) (if be then e else [])
      (if be then map (fun g => map (fun t => (t, g t)) e) gs else [])
      (if (be && bs)%bool then Some (map (fun t => (t, \sum_(i < List.length gs) (nth i gs (fun _ => 0) t) ^ 2)) e) else None))).
  { unfold draw_filter. fold e. fold ts. rewrite HK, evaluate_pw. cbn [bindr].
    assert (M : forall l, map (combine l) (map (fun g : R -> R => map g l) gs) = map (fun g => map (fun t => (t, g t)) l) gs) by (intros l; rewrite map_map; apply map_ext; intros g; apply C).
    destruct be; cbn [bindr].
    - rewrite evaluate_pw. cbn [bindr andb]. rewrite !M, !SS, map_length. reflexivity.
    - cbn [andb]. rewrite M, SS, map_length. reflexivity. }
  assert (R : fst (plot_filter_call a s) = bindr (draw_filter a be bs bl) (fun p => Ok (match fa_ax a with Some x => x | None => mkaxes (Pygsp, s_next s) false end, p))).
  { unfold plot_filter_call. rewrite HK, map_length. fold be bs bl. unfold handle_figure. destruct (fa_ax a); reflexivity. }
  rewrite R, D. cbn [bindr]. eexists. eexists. exists ts. split; [reflexivity|]. cbn [f_curves f_sum f_legend f_verticals f_dots f_sum_dots].
  assert (Ne : ~ eig -> be = false) by (intros H; apply not_true_iff_false; intros K; apply H, He; exact K).
  assert (Ns : ~ sum -> bs = false) by (intros H; apply not_true_iff_false; intros K; apply H, Hs; exact K).
  assert (Nl : ~ labels -> bl = false) by (intros H; apply not_true_iff_false; intros K; apply H, Hl; exact K).
  split; [intros H; apply He in H; unfold ts; rewrite H; apply rsort_perm|]. split; [intros H; unfold ts; rewrite (Ne H); reflexivity|].
  split. { intros H i j Hij. apply He in H. unfold ts in *. rewrite H in *. cbn [filter_points] in *. apply sorted_nth; [apply rsort_sorted|lia|lia]. }
  split; [reflexivity|]. split; [intros H; apply Hs in H; rewrite H; reflexivity|]. split; [intros H; rewrite (Ns H); reflexivity|].
  split; [intros H; apply Hl in H; rewrite H; destruct bs; reflexivity|]. split; [intros H; rewrite (Nl H); reflexivity|].
  split; [intros H; apply He in H; rewrite H; auto|]. split; [intros H; rewrite (Ne H); auto|]. intros H1 H2. apply He in H1. apply Hs in H2. rewrite H1, H2. reflexivity.
Qed.

(** For a tight frame (Held, Simoncelli, Papadakis, Regular, SimpleTight, Itersine: C23) the curve of the sums of squares is the horizontal
    line at the frame bound. *)
Theorem C89_tight_sum_is_flat :
  forall a s A ax p l, fst (plot_filter_call a s) = Ok (ax, p) -> f_sum p = Some l -> 0 <= fa_lmax a -> (2 <= fa_n a)%nat ->
    (forall t, In t (fa_e a) -> 0 <= t <= fa_lmax a) -> tight_bank (fa_kernels a) 0 (fa_lmax a) A ->
    l <> [] /\ forall q, In q l -> 0 <= fst q <= fa_lmax a /\ snd q = A.
Proof.
  intros a s A ax p l E Hp HL HN He HT. unfold plot_filter_call in E. set (be := match fa_eigenvalues a with Some b => b | None => fa_known a end) in E.
  set (bs := match fa_sum a with Some b => b | None => _ end) in E. set (bl := match fa_labels a with Some b => b | None => _ end) in E.
  assert (D : draw_filter a be bs bl = Ok p). { unfold handle_figure in E. destruct (fa_ax a), (draw_filter a be bs bl); cbn in E; congruence. }
  clear E. unfold draw_filter in D. set (ts := filter_points _ _ _) in D.
  assert (LP : List.length (linspace (fa_lmax a) (fa_n a)) = fa_n a) by (unfold linspace; rewrite map_length, seq_length; reflexivity).
  assert (IL : forall t, In t (linspace (fa_lmax a) (fa_n a)) -> 0 <= t <= fa_lmax a).
  { intros t Ht. unfold linspace in Ht. apply in_map_iff in Ht as (i & <- & Hi). apply in_seq in Hi. destruct (Nat.eqb_spec (fa_n a) 1); [lia|].
    assert (P : 0 < INR (fa_n a) - 1) by (assert (INR 1 < INR (fa_n a)) by (apply lt_INR; lia); cbn in *; lra).
    assert (Q : 0 <= INR i <= INR (fa_n a) - 1).
    { split; [apply pos_INR|]. assert (INR (S i) <= INR (fa_n a)) by (apply le_INR; lia). rewrite S_INR in H. lra. }
    assert (Z : 0 <= fa_lmax a / (INR (fa_n a) - 1)) by (apply Rmult_le_pos; [exact HL|left; apply Rinv_0_lt_compat; exact P]).
    split; [apply Rmult_le_pos; lra|]. apply Rle_trans with ((INR (fa_n a) - 1) * (fa_lmax a / (INR (fa_n a) - 1))); [apply Rmult_le_compat_r; lra|]. right. field. lra. }
  assert (IT : forall t, In t ts -> 0 <= t <= fa_lmax a).
  { intros t Ht. unfold ts, filter_points in Ht. destruct be; [|auto]. apply (Permutation_in _ (rsort_perm _)) in Ht. apply in_app_or in Ht as [Ht|Ht]; auto. }
  assert (NT : ts <> []).
  { intros E. assert (L : List.length ts = 0%nat) by (rewrite E; reflexivity). unfold ts, filter_points in L. destruct be; [rewrite (Permutation_length (rsort_perm _)), app_length in L|]; lia. }
  destruct (HT ts NT IT) as (y & Ey & Ly & Sy). rewrite Ey in D. cbn [bindr] in D.
  destruct (if be then evaluate (fa_kernels a) (fa_e a) else Ok []) as [ye|] eqn:Eye; [|discriminate]. cbn [bindr] in D. injection D as <-. cbn [f_sum] in Hp.
  destruct bs; [|discriminate]. injection Hp as <-.
  assert (LS : List.length (sum_squares (List.length ts) y) = List.length ts) by (unfold sum_squares; rewrite map_length, seq_length; reflexivity).
  split.
  - intros E. apply (f_equal (@List.length _)) in E. rewrite combine_length, LS in E. cbn in E. destruct ts; [contradiction|cbn in E; lia].
  - intros [t v] Hq. cbn [fst snd]. split; [apply IT; apply in_combine_l in Hq; exact Hq|].
    apply in_combine_r in Hq. unfold sum_squares in Hq. apply in_map_iff in Hq as (j & <- & Hj). apply in_seq in Hj. rewrite lsum_rsum, map_length, Ly.
    rewrite <- (Sy j) by lia. apply rsum_ext. intros f Hf. rewrite (nth_indep _ 0 ((fun r => nth j r 0 ^ 2) [])) by (rewrite map_length, Ly; exact Hf).
    rewrite (map_nth (fun r => nth j r 0 ^ 2)). ring.
Qed.

(** ** Concrete cases *)
Example C89_graph_ex : exists a d at_, built (ga_G a) /\ g_n_vertices (ga_G a) = 2%nat /\ ga_backend a = "matplotlib"%string /\
  ga_coords a = Some ([2%nat; 2%nat], at_) /\ accepted a d /\ plain_colour a /\ Forall2 (designates 2) (hl_list (ga_highlight a)) [1%nat; 0%nat] /\
  hl_list (ga_highlight a) = [(-1)%Z; 0%Z] /\ ga_ax a = None /\ d_colour d = Graded [3; -2].
Proof.
  destruct (finite_entry_built 2 [0; 1; 1; 0] Combinatorial None) as (G & _ & Hb & Hn & Ht & _ & Hw); [reflexivity|left; reflexivity|].
  exists (mkgargs default_pp G (Some ([2%nat; 2%nat], fun i => [INR i; 0])) (Values [2%nat] [3; -2]) Missing (HLmany [(-1)%Z; 0%Z]) (Some true) Missing Missing true true (Some (-5, 5)) None "matplotlib").
  eexists. exists (fun i => [INR i; 0]). cbn [ga_G ga_backend ga_coords ga_highlight ga_ax hl_list].
  split; [exact Hb|]. split; [exact Hn|]. split; [reflexivity|]. split; [reflexivity|]. split; [|split; [|split; [|split; [reflexivity|split; [reflexivity|]]]]].
  - unfold accepted, plot_graph. cbn [ga_pp ga_G ga_coords ga_vertex_color ga_vertex_size ga_edges ga_edge_color ga_edge_width ga_limits ga_backend option_map fst]. rewrite Hn.
    cbn [check_coords List.length nth Nat.eqb existsb orb negb andb bindr]. change (String.eqb "matplotlib" "matplotlib") with true. change (String.eqb "matplotlib" "pyqtgraph") with false.
    cbv zeta. unfold colour. replace (is_color true [2%nat] [3; -2]) with false.
    + reflexivity.
    + symmetry. apply not_true_iff_false. intros H. apply (C67_is_color 2) in H; [|lia]. destruct H as [[H|H] _]; discriminate.
  - unfold plain_colour. cbn [ga_vertex_color]. left. split; [|reflexivity]. apply not_true_iff_false. intros H. apply (C67_is_color 2) in H; [|lia]. destruct H as [[H|H] _]; discriminate.
  - constructor; [|constructor; [|constructor]]; unfold designates; lia.
  - reflexivity.
Qed.
(** One colour for all vertices: no colour bar. *)
Example C89_one_colour_ex : exists a d at_, built (ga_G a) /\ g_n_vertices (ga_G a) = 2%nat /\ ga_backend a = "matplotlib"%string /\
  ga_coords a = Some ([2%nat; 2%nat], at_) /\ accepted a d /\ plain_colour a /\ ga_colorbar a = true /\ ~ shows_signal a /\ d_colour d = Colours [3%nat] [1; 0; 0].
Proof.
  destruct (finite_entry_built 2 [0; 1; 1; 0] Combinatorial None) as (G & _ & Hb & Hn & Ht & _ & Hw); [reflexivity|left; reflexivity|].
  assert (IC : is_color true [3%nat] [1; 0; 0] = true).
  { unfold is_color, unit_values. cbn [forallb]. rewrite !(proj2 (Rleb_true _ _)) by lra. reflexivity. }
  exists (mkgargs default_pp G (Some ([2%nat; 2%nat], fun i => [INR i; 0])) (Values [3%nat] [1; 0; 0]) Missing (HLmany [(-1)%Z; 0%Z]) (Some true) Missing Missing true true (Some (-5, 5)) None "matplotlib").
  eexists. exists (fun i => [INR i; 0]). cbn [ga_G ga_backend ga_coords ga_colorbar].
  split; [exact Hb|]. split; [exact Hn|]. split; [reflexivity|]. split; [reflexivity|]. split; [|split; [|split; [reflexivity|split]]].
  - unfold accepted, plot_graph. cbn [ga_pp ga_G ga_coords ga_vertex_color ga_vertex_size ga_edges ga_edge_color ga_edge_width ga_limits ga_backend option_map fst]. rewrite Hn.
    cbn [check_coords List.length nth Nat.eqb existsb orb negb andb bindr]. change (String.eqb "matplotlib" "matplotlib") with true. change (String.eqb "matplotlib" "pyqtgraph") with false.
    cbv zeta. unfold colour. rewrite IC. reflexivity.
  - unfold plain_colour. cbn [ga_vertex_color]. right. split; [exact IC|]. exists 3%nat. auto.
  - unfold shows_signal. cbn [ga_vertex_color]. rewrite IC. discriminate.
  - reflexivity.
Qed.
Example C89_line_ex : exists a d at_, g_n_vertices (ga_G a) = 2%nat /\ ga_backend a = "matplotlib"%string /\ ga_coords a = Some ([2%nat], at_) /\ accepted a d /\
  ga_vertex_color a = Missing /\ ga_ax a = None /\ Forall2 (designates 2) (hl_list (ga_highlight a)) [].
Proof.
  destruct (finite_entry_built 2 [0; 1; 1; 0] Combinatorial None) as (G & _ & Hb & Hn & Ht & _ & Hw); [reflexivity|left; reflexivity|].
  exists (mkgargs default_pp G (Some ([2%nat], fun i => [INR i])) Missing Missing (HLmany []) (Some true) Missing Missing false true None None "matplotlib").
  eexists. exists (fun i => [INR i]). cbn [ga_G ga_backend ga_coords ga_highlight ga_ax hl_list ga_vertex_color].
  split; [exact Hn|]. split; [reflexivity|]. split; [reflexivity|]. split; [|split; [reflexivity|split; [reflexivity|constructor]]].
  unfold accepted, plot_graph. cbn [ga_pp ga_G ga_coords ga_vertex_color ga_vertex_size ga_edges ga_edge_color ga_edge_width ga_limits ga_backend option_map fst]. rewrite Hn. reflexivity.
Qed.
Example C89_line_signal_ex : exists a d at_, g_n_vertices (ga_G a) = 2%nat /\ ga_backend a = "matplotlib"%string /\ ga_coords a = Some ([2%nat], at_) /\ accepted a d /\
  ga_vertex_color a = Values [2%nat] [3; -2] /\ is_color true [2%nat] [3; -2] = false /\ drop1 [2%nat] = [2%nat] /\ Forall2 (designates 2) (hl_list (ga_highlight a)) [1%nat].
Proof.
  destruct (finite_entry_built 2 [0; 1; 1; 0] Combinatorial None) as (G & _ & Hb & Hn & Ht & _ & Hw); [reflexivity|left; reflexivity|].
  assert (IC : is_color true [2%nat] [3; -2] = false) by (apply not_true_iff_false; intros H; apply (C67_is_color 2) in H; [|lia]; destruct H as [[H|H] _]; discriminate).
  exists (mkgargs default_pp G (Some ([2%nat], fun i => [INR i])) (Values [2%nat] [3; -2]) Missing (HLone 1) (Some true) Missing Missing false true (Some (-5, 5)) None "matplotlib").
  eexists. exists (fun i => [INR i]). cbn [ga_G ga_backend ga_coords ga_highlight ga_ax hl_list ga_vertex_color].
  split; [exact Hn|]. split; [reflexivity|]. split; [reflexivity|]. split; [|split; [reflexivity|split; [exact IC|split; [reflexivity|constructor; [unfold designates; lia|constructor]]]]].
  unfold accepted, plot_graph. cbn [ga_pp ga_G ga_coords ga_vertex_color ga_vertex_size ga_edges ga_edge_color ga_edge_width ga_limits ga_backend option_map fst]. rewrite Hn.
  cbn [check_coords List.length nth Nat.eqb existsb orb negb andb bindr]. change (String.eqb "matplotlib" "matplotlib") with true. change (String.eqb "matplotlib" "pyqtgraph") with false.
  cbv zeta. unfold colour. rewrite IC. reflexivity.
Qed.
(** A history where both a figure of the user and a figure of pygsp are open. *)
Example C89_history_ex : exists h, (exists w, In w (s_figs (history h)) /\ fst w = Pygsp) /\ (exists w, In w (s_figs (history h)) /\ fst w = User).
Proof.
  exists [UserOpensFigure; PlotFilter (mkfargs [] 1 [] false 2 None None None None)]. split.
  - exists (Pygsp, 1%nat). split; [left; reflexivity|reflexivity].
  - exists (User, 0%nat). split; [right; left; reflexivity|reflexivity].
Qed.
Example C89_tight_ex : exists ks, tight_bank ks 0 2 1 /\ exists ax p l, fst (plot_filter_call (mkfargs ks 2 [0; 2] true 3 None None None None) blank) = Ok (ax, p) /\ f_sum p = Some l.
Proof.
  destruct (C23_simple_tight 2 2 ltac:(lra) ltac:(lia)) as (ks & _ & Lk & HT). exists ks. split; [exact HT|].
  unfold plot_filter_call. cbn [fa_kernels fa_eigenvalues fa_sum fa_labels fa_ax fa_known]. rewrite Lk. cbn [Nat.ltb Nat.leb]. unfold handle_figure, draw_filter.
  cbn [fa_kernels fa_lmax fa_n fa_e filter_points].
  assert (P : forall t, In t (rsort (linspace 2 3 ++ [0; 2])) -> 0 <= t <= 2).
  { intros t Ht. apply (Permutation_in _ (rsort_perm _)) in Ht. cbn in Ht. destruct Ht as [<-|[<-|[<-|[<-|[<-|[]]]]]]; lra. }
  assert (NE : rsort (linspace 2 3 ++ [0; 2]) <> []).
  { intros E. apply (f_equal (@List.length _)) in E. rewrite (Permutation_length (rsort_perm _)) in E. cbn in E. discriminate. }
  destruct (HT _ NE P) as (y & Ey & _ & _). rewrite Ey. cbn [bindr].
  destruct (HT [0; 2]) as (ye & Eye & _ & _); [discriminate|intros t [<-|[<-|[]]]; lra|]. rewrite Eye. cbn [bindr fst open_figure].
  eexists. eexists. eexists. split; reflexivity.
Qed.

