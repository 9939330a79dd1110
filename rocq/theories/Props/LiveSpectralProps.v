(** Property C102: the spectral attributes of a graph object over every history of calls, including
    writes into its weight matrix. *)
From Coq Require Import Reals Lra Lia List Arith Bool String FunctionalExtensionality Classical.
From Verif.Base Require Import RSum Prelude LinAlg.
From Verif.Spec Require Import Matrix GraphSpec Card Reach CacheSpec.
From Verif.Model Require Import Sparse Graph Difference Bounds Traverse Cache Live LiveSpectral.
From Verif.Proofs Require Import SparseFacts InitFacts EdgeFacts LapFacts BoundFacts TraverseFacts CacheFacts.
From Verif.Props Require Import Core Laplacian Traversal Caching LiveProps.
Import ListNotations.
Open Scope R_scope.

(** A history of the whole object, what a call answers after it, the object after construction. *)
Definition wrun (s : whole) (cs : list wcall) : whole := fold_left (fun s c => fst (wact s c)) cs s.
Definition wanswers (s : whole) (cs : list wcall) (c : wcall) : res wanswer := snd (wact (wrun s cs) c).
Definition wfresh (G : graph) : whole := whole_init (gW G) (g_lap_type G).
(** The calls of Model.Live in the history. *)
Definition plain (cs : list wcall) : list call := flat_map (fun c => match c with Plain c => [c] | _ => [] end) cs.

(** ** The spectral calls leave the other attributes alone *)
Lemma directed_reached G v : linv G v -> live_directed v = (v, is_directed (gW G)).
Proof. intros I. unfold live_directed. rewrite (l_dir G v I). reflexivity. Qed.
Lemma dw_reached G v : linv G v -> live_dw v = (v, dw (gW G)).
Proof. intros I. unfold live_dw. rewrite (l_dw G v I). reflexivity. Qed.
Lemma bound_live G v : linv G v -> fst (whole_bound v) = v.
Proof.
  intros I. unfold whole_bound. destruct (v_lap v); try reflexivity. rewrite (dw_reached G v I), (directed_reached G v I). reflexivity.
Qed.
Lemma estimate_live G m o s : linv G (o_live s) -> o_live (fst (whole_estimate m o s)) = o_live s.
Proof.
  intros I. pose proof (bound_live G (o_live s) I) as B. unfold whole_estimate.
  destruct (match o_method s with Some _ => _ | None => _ end); [reflexivity|]. cbn zeta.
  change (o_live (with_method s (Some m))) with (o_live s).
  destruct (whole_bound (o_live s)) as [v ub]. cbn [fst] in B. subst v.
  destruct (String.eqb m "lanczos"); [destruct o as [r| |x]; try reflexivity; destruct ub as [b|x]; [destruct (fle _ _)|]; reflexivity|].
  destruct (String.eqb m "bounds"); [destruct ub; reflexivity|reflexivity].
Qed.
Lemma fourier_live G k o s : linv G (o_live s) -> o_live (fst (whole_fourier k o s)) = o_live s.
Proof.
  intros I. pose proof (bound_live G (o_live s) I) as B. unfold whole_fourier. cbn zeta.
  destruct (match o_basis s with Some _ => _ | None => _ end); [reflexivity|].
  destruct o as [[|e0 es] U|x]; try reflexivity. destruct (_ && _)%bool; [|reflexivity].
  change (o_live (with_basis s (Some (0 :: es, U)))) with (o_live s).
  destruct (whole_bound (o_live s)) as [v ub]. cbn [fst] in B. subst v.
  destruct ub as [b|x]; [|reflexivity]. destruct (fle _ _); [|reflexivity]. destruct (forallb _ _); [|reflexivity].
  destruct (Nat.eqb _ _); reflexivity.
Qed.
Lemma compute_D_live G s : linv G (o_live s) -> o_live (fst (whole_compute_D s)) = o_live s.
Proof.
  intros I. unfold whole_compute_D, live_edges. rewrite (directed_reached G _ I).
  destruct (Nat.eqb _ _); cbn [fst]; [|reflexivity].
  destruct (v_lap (o_live s)); try reflexivity; rewrite (dw_reached G _ I), (directed_reached G _ I); reflexivity.
Qed.

Lemma wact_live G s c : linv G (o_live s) ->
  o_live (fst (wact s c)) = match c with Plain c => fst (act (o_live s) c) | _ => o_live s end.
Proof.
  intros I. destruct c as [c|m o|o|k o|o|o| |]; cbn [wact].
  - destruct c; try (destruct (act (o_live s) _) as [v r]; reflexivity). cbn [act].
    unfold whole_laplacian. destruct (lap_eqb _ _); cbn [with_D with_coh with_basis with_lmax o_live];
      destruct (live_laplacian t (o_live s)) as [v r]; reflexivity.
  - pose proof (estimate_live G m o s I) as E. destruct (whole_estimate m o s). exact E.
  - unfold whole_lmax. destruct (o_lmax s); [reflexivity|]. pose proof (estimate_live G "lanczos" o s I) as E.
    destruct (whole_estimate "lanczos" o s). exact E.
  - pose proof (fourier_live G k o s I) as E. destruct (whole_fourier k o s). exact E.
  - unfold whole_basis. destruct (o_basis s); [reflexivity|]. pose proof (fourier_live G None o s I) as E.
    destruct (whole_fourier None o s). exact E.
  - unfold whole_coherence. destruct (o_coh s); [reflexivity|]. pose proof (fourier_live G None o s I) as E.
    destruct (whole_fourier None o s). exact E.
  - pose proof (compute_D_live G s I) as E. destruct (whole_compute_D s). exact E.
  - unfold whole_D. destruct (o_D s); [reflexivity|]. pose proof (compute_D_live G s I) as E. destruct (whole_compute_D s). exact E.
Qed.

Lemma wrun_live G cs s : linv G (o_live s) -> o_live (wrun s cs) = run (o_live s) (plain cs) /\ linv G (o_live (wrun s cs)).
Proof.
  revert s. induction cs as [|c cs IH]; intros s I; [split; [reflexivity|exact I]|].
  cbn [wrun fold_left]. change (fold_left (fun s0 c0 => fst (wact s0 c0)) cs ?s) with (wrun s cs).
  pose proof (wact_live G s c I) as E.
  assert (I' : linv G (o_live (fst (wact s c)))).
  { rewrite E. destruct c; try exact I. apply (step_inv G _ _ I). }
  destruct (IH _ I') as (H1 & H2). split; [|exact H2]. rewrite H1, E.
  destruct c as [c|m o|o|k o|o|o| |]; cbn [plain flat_map app run fold_left]; reflexivity.
Qed.
Lemma wreached G cs : built G -> o_live (wrun (wfresh G) cs) = run (fresh G) (plain cs) /\ linv G (o_live (wrun (wfresh G) cs)).
Proof. intros HG. apply wrun_live. exact (proj1 (fresh_ok G HG)). Qed.

(** Whatever estimates of lmax, eigendecompositions and differential operators are computed in
    between: W, A, d, dw, L, n_edges, the predicates and the edge list answer as if those calls had not
    been made; so C90 speaks about whole objects. *)
Theorem C102_spectral_calls_change_no_other_attribute :
  forall G cs c, built G -> (forall t, c <> Laplacian t) ->
    wanswers (wfresh G) cs (Plain c) = bindr (answers (fresh G) (plain cs) c) (fun a => Ok (Attr a)).
Proof.
  intros G cs c HG Hc. destruct (wreached G cs HG) as (E & _). unfold wanswers, answers. rewrite <- E.
  destruct c; try (cbn [wact]; destruct (act (o_live _) _); reflexivity). exfalso. apply (Hc t eq_refl).
Qed.

(** ** Objects nobody writes into behave as Model.Cache says *)
Definition view_cache (s : whole) : cache :=
  mkcache (v_W (o_live s)) (v_n (o_live s)) (v_lap (o_live s)) (v_L (o_live s)) (o_lmax s) (o_method s) (o_basis s) (o_coh s) (o_D s)
    (v_dir (o_live s)) (v_conn (o_live s)).
(** The call of Model.Cache, if it is one. *)
Definition as_op (c : wcall) : option op :=
  match c with
  | Plain (Laplacian t) => Some (OpLaplacian t) | Plain Directed => Some OpDirected
  | Plain (Connected p p') => Some (OpConnected p p') | Plain _ => None
  | Estimate m o => Some (OpEstimate m o) | Lmax o => Some (OpLmax o) | Fourier k o => Some (OpBasis k o)
  | Basis o => Some (OpReadBasis o) | Coherence o => Some (OpCoherence o) | ComputeD => Some OpComputeD | ReadD => Some OpReadD
  end.
Definition ops (cs : list wcall) : list op := flat_map (fun c => match as_op c with Some o => [o] | None => [] end) cs.
Definition as_out (a : wanswer) : out :=
  match a with Spectral a => a | Attr (AnsBool b) => OutBool b | Attr AnsFuel => OutFuel | Attr _ => OutUnit end.
Definition no_write (cs : list wcall) : Prop := forall W, ~ In (Plain (WriteW W)) cs.

Lemma bound_unwritten G v : linv G v -> v_W v = gW G -> whole_bound v = (v, upper_bound (gW G) (v_lap v)).
Proof.
  intros I EW. unfold whole_bound, upper_bound. destruct (v_lap v); try reflexivity.
  rewrite (dw_reached G v I), (directed_reached G v I). unfold live_edges. rewrite (directed_reached G v I). cbn [snd].
  rewrite EW, (l_n G v I), (l_ne G v I). reflexivity.
Qed.
Lemma diff_unwritten G t l (Hl : get_edge_list (gW G) = Ok l) : t = Combinatorial \/ t = Normalized ->
  diff_op (gW G) t = Ok (fun i k => dentry_as (is_directed (gW G)) (dw (gW G)) t i (nth k l (0%nat, 0%nat, 0))).
Proof.
  intros Ht. unfold diff_op. rewrite Hl. cbn [bindr]. destruct Ht as [-> | ->]; f_equal;
    apply functional_extensionality; intros i; apply functional_extensionality; intros k;
    destruct (nth k l _) as [[a b] w]; reflexivity.
Qed.

Lemma step_estimate G m o s : linv G (o_live s) -> v_W (o_live s) = gW G ->
  view_cache (fst (whole_estimate m o s)) = fst (estimate_lmax m o (view_cache s)) /\
  snd (whole_estimate m o s) = snd (estimate_lmax m o (view_cache s)).
Proof.
  intros I EW. unfold whole_estimate, estimate_lmax. cbn [view_cache c_method c_W c_lap].
  destruct (match o_method s with Some _ => _ | None => _ end); [split; reflexivity|]. cbn zeta.
  change (o_live (with_method s (Some m))) with (o_live s). rewrite (bound_unwritten G _ I EW), EW.
  destruct (String.eqb m "lanczos").
  - destruct o as [r| |x]; try (split; reflexivity).
    destruct (upper_bound _ _) as [b|x]; [destruct (fle _ _)|]; split; reflexivity.
  - destruct (String.eqb m "bounds"); [|split; reflexivity]. destruct (upper_bound _ _) as [b|x]; split; reflexivity.
Qed.
Lemma step_fourier G k o s : linv G (o_live s) -> v_W (o_live s) = gW G ->
  view_cache (fst (whole_fourier k o s)) = fst (compute_fourier_basis k o (view_cache s)) /\
  snd (whole_fourier k o s) = snd (compute_fourier_basis k o (view_cache s)).
Proof.
  intros I EW. unfold whole_fourier, compute_fourier_basis. cbn zeta. cbn [view_cache c_N c_basis c_W c_lap].
  destruct (match o_basis s with Some _ => _ | None => _ end); [split; reflexivity|].
  destruct o as [[|e0 es] U|x]; try (split; reflexivity). destruct (_ && _)%bool; [|split; reflexivity].
  change (o_live (with_basis s (Some (0 :: es, U)))) with (o_live s). rewrite (bound_unwritten G _ I EW), EW.
  destruct (upper_bound _ _) as [b|x]; [|split; reflexivity].
  destruct (fle _ _); [|split; reflexivity]. destruct (forallb _ _); [|split; reflexivity].
  destruct (Nat.eqb _ _); split; reflexivity.
Qed.
Lemma step_compute_D G s : built G -> linv G (o_live s) -> v_W (o_live s) = gW G ->
  view_cache (fst (whole_compute_D s)) = fst (compute_D (view_cache s)) /\
  snd (whole_compute_D s) = snd (compute_D (view_cache s)).
Proof.
  intros HG I EW. destruct (built_good G HG) as (Hg & _). destruct (edge_list_ok (gW G) Hg) as (l & El & _).
  assert (E : live_edges (o_live s) = (o_live s, Ok l)).
  { rewrite <- El. unfold live_edges, get_edge_list. rewrite (directed_reached G _ I), EW, (l_ne G _ I). reflexivity. }
  unfold whole_compute_D, compute_D. rewrite E. cbn [view_cache c_W c_lap]. rewrite EW.
  destruct (v_lap (o_live s)) as [| |x] eqn:Et.
  - rewrite (diff_unwritten G Combinatorial l El (or_introl eq_refl)). rewrite (dw_reached G _ I), (directed_reached G _ I).
    split; reflexivity.
  - rewrite (diff_unwritten G Normalized l El (or_intror eq_refl)). rewrite (dw_reached G _ I), (directed_reached G _ I).
    split; reflexivity.
  - unfold diff_op. rewrite El. cbn. unfold view_cache, with_live. cbn. split; reflexivity.
Qed.
Lemma step_laplacian G t s : linv G (o_live s) -> v_W (o_live s) = gW G ->
  view_cache (fst (whole_laplacian t s)) = fst (compute_laplacian t (view_cache s)) /\
  snd (whole_laplacian t s) = snd (compute_laplacian t (view_cache s)).
Proof.
  intros I EW. unfold whole_laplacian, compute_laplacian. cbn [view_cache c_W c_lap c_L].
  assert (Hi : o_live (if lap_eqb t (v_lap (o_live s)) then s
            else with_D (with_coh (with_basis (with_lmax s None) None) None) None) = o_live s) by (destruct (lap_eqb _ _); reflexivity).
  rewrite Hi. unfold live_laplacian.
  assert (I' : linv G (put_lap (o_live s) t (v_L (o_live s)))) by (destruct I; constructor; assumption).
  rewrite (directed_reached G _ I'), (dw_reached G _ I'). rewrite EW.
  destruct t as [| |x]; cbn [laplacian fst snd put_lap v_W]; rewrite ?EW;
    (split; [destruct (lap_eqb _ _); unfold view_cache; cbn; rewrite ?EW; reflexivity|reflexivity]).
Qed.

Lemma wact_step G s c : built G -> linv G (o_live s) -> v_W (o_live s) = gW G -> (forall W, c <> Plain (WriteW W)) ->
  match as_op c with
  | Some o => view_cache (fst (wact s c)) = fst (step (view_cache s) o) /\
      snd (step (view_cache s) o) = bindr (snd (wact s c)) (fun a => Ok (as_out a))
  | None => view_cache (fst (wact s c)) = view_cache s
  end.
Proof.
  intros HG I EW Hc.
  pose proof (act_frame G (o_live s)) as HF.
  destruct c as [c|m o|o|k o|o|o| |]; cbn [as_op].
  - assert (Hd := directed_reached G _ I).
    destruct c; cbn [wact act]; try (unfold view_cache, with_live; reflexivity).
    + unfold live_A. destruct (v_A (o_live s)); reflexivity.
    + unfold live_d. destruct (v_d (o_live s)); [reflexivity|]. rewrite Hd. reflexivity.
    + rewrite (dw_reached G _ I). reflexivity.
    + rewrite Hd. cbn [step]. unfold read_directed. cbn [view_cache c_dir]. rewrite (l_dir G _ I). split; reflexivity.
    + unfold live_edges. rewrite Hd. reflexivity.
    + cbn [step]. unfold live_connected, read_connected. cbn [view_cache c_conn c_W].
      destruct (v_conn (o_live s)) as [b|]; [split; reflexivity|]. rewrite Hd, EW, (l_n G _ I), connected_same.
      destruct (is_connected pop pop' (gW G)) as [[b|x]|]; try (split; reflexivity).
    + cbn [step]. destruct (step_laplacian G t s I EW) as (H1 & H2). unfold lift.
      destruct (whole_laplacian t s) as [s' r]. destruct (compute_laplacian t (view_cache s)) as [s2 r2]. cbn [fst snd] in *.
      subst r2. split; [exact H1|]. destruct r; reflexivity.
    + exfalso. apply (Hc W eq_refl).
  - cbn [wact step]. destruct (step_estimate G m o s I EW) as (H1 & H2). unfold lift.
    destruct (whole_estimate m o s) as [s' r], (estimate_lmax m o (view_cache s)) as [s2 r2]. cbn [fst snd] in *. subst r2.
    split; [exact H1|]. destruct r; reflexivity.
  - cbn [wact step]. unfold whole_lmax, read_lmax. cbn [view_cache c_lmax]. destruct (o_lmax s); [split; reflexivity|].
    destruct (step_estimate G "lanczos" o s I EW) as (H1 & H2).
    destruct (whole_estimate "lanczos" o s) as [s' r]. unfold view_cache in H1, H2 |- *.
    destruct (estimate_lmax "lanczos" o _) as [s2 r2]. cbn [fst snd] in *. subst r2 s2. destruct r; split; reflexivity.
  - cbn [wact step]. destruct (step_fourier G k o s I EW) as (H1 & H2). unfold lift.
    destruct (whole_fourier k o s) as [s' r], (compute_fourier_basis k o (view_cache s)) as [s2 r2]. cbn [fst snd] in *. subst r2.
    split; [exact H1|]. destruct r; reflexivity.
  - cbn [wact step]. unfold whole_basis, read_basis. cbn [view_cache c_basis]. destruct (o_basis s); [split; reflexivity|].
    destruct (step_fourier G None o s I EW) as (H1 & H2).
    destruct (whole_fourier None o s) as [s' r]. unfold view_cache in H1, H2 |- *.
    destruct (compute_fourier_basis None o _) as [s2 r2]. cbn [fst snd] in *. subst r2 s2. destruct r; split; reflexivity.
  - cbn [wact step]. unfold whole_coherence, read_coherence. cbn [view_cache c_coh]. destruct (o_coh s); [split; reflexivity|].
    destruct (step_fourier G None o s I EW) as (H1 & H2).
    destruct (whole_fourier None o s) as [s' r]. unfold view_cache in H1, H2 |- *.
    destruct (compute_fourier_basis None o _) as [s2 r2]. cbn [fst snd] in *. subst r2 s2. destruct r; split; reflexivity.
  - cbn [wact step]. destruct (step_compute_D G s HG I EW) as (H1 & H2). unfold lift.
    destruct (whole_compute_D s) as [s' r], (compute_D (view_cache s)) as [s2 r2]. cbn [fst snd] in *. subst r2.
    split; [exact H1|]. destruct r; reflexivity.
  - cbn [wact step]. unfold whole_D, read_D. cbn [view_cache c_D]. destruct (o_D s); [split; reflexivity|].
    destruct (step_compute_D G s HG I EW) as (H1 & H2).
    destruct (whole_compute_D s) as [s' r]. unfold view_cache in H1, H2 |- *.
    destruct (compute_D _) as [s2 r2]. cbn [fst snd] in *. subst r2 s2. destruct r; split; reflexivity.
Qed.

(** The object nobody wrote into, after any history, holds what Model.Cache says after the calls that
    concern it, and the next call answers what Model.Cache says; other reads do not matter. *)
Theorem C102_unwritten_objects_match_the_caches :
  forall G cs, built G -> no_write cs ->
    view_cache (wrun (wfresh G) cs) = fold_left (fun s o => fst (step s o)) (ops cs) (cache_init G) /\
    forall c o, as_op c = Some o ->
      bindr (wanswers (wfresh G) cs c) (fun a => Ok (as_out a)) = snd (step (fold_left (fun s o => fst (step s o)) (ops cs) (cache_init G)) o).
Proof.
  intros G cs HG Hnw.
  assert (HV : forall s, linv G (o_live s) -> v_W (o_live s) = gW G ->
    view_cache (wrun s cs) = fold_left (fun s o => fst (step s o)) (ops cs) (view_cache s) /\
    linv G (o_live (wrun s cs)) /\ v_W (o_live (wrun s cs)) = gW G).
  { induction cs as [|c cs IH]; intros s I EW; [auto|]. cbn [wrun fold_left].
    change (fold_left (fun s0 c0 => fst (wact s0 c0)) cs ?s) with (wrun s cs).
    assert (Hc : forall W, c <> Plain (WriteW W)) by (intros W ->; apply (Hnw W); left; reflexivity).
    pose proof (wact_step G s c HG I EW Hc) as HS. pose proof (wact_live G s c I) as HL.
    assert (IE : linv G (o_live (fst (wact s c))) /\ v_W (o_live (fst (wact s c))) = gW G).
    { rewrite HL. destruct c as [c|m o|o|k o|o|o| |]; auto. destruct (step_inv G (o_live s) c I) as (I' & E'). split; [exact I'|].
      rewrite E'. destruct c; try exact EW. exfalso. apply (Hc W eq_refl). }
    destruct IE as (I' & EW'). destruct (IH (fun W H => Hnw W (or_intror H)) _ I' EW') as (A & B). split; [|exact B].
    rewrite A. unfold ops. cbn [flat_map]. destruct (as_op c) as [o|].
    - cbn [app fold_left]. rewrite (proj1 HS). reflexivity.
    - cbn [app]. rewrite HS. reflexivity. }
  destruct (fresh_ok G HG) as (I & EW & Et & EL & _ & _ & Ec).
  assert (E0 : view_cache (wfresh G) = cache_init G).
  { unfold view_cache, wfresh, whole_init, cache_init. cbn [o_live o_lmax o_method o_basis o_coh o_D].
    change (fst (live_init (gW G) (g_lap_type G))) with (fresh G). rewrite EW, Et, EL, Ec, (l_n G _ I), (l_dir G _ I).
    destruct (built_good G HG) as (_ & Hn & _). rewrite Hn. reflexivity. }
  destruct (HV (wfresh G) I EW) as (A & I' & EW'). rewrite E0 in A. split; [exact A|].
  intros c o Hco. rewrite <- A. unfold wanswers.
  assert (Hc : (forall W, c <> Plain (WriteW W))) by (intros W ->; discriminate).
  pose proof (wact_step G _ c HG I' EW' Hc) as HS. rewrite Hco in HS. symmetry. apply HS.
Qed.

(** The solver answers in the history are about the L of the moment; then everything read later is
    about the L of the moment too. *)
Section Legal.
  Variable Eig : nat -> mat -> nat -> list R -> mat -> Prop.
  Variable Lan : nat -> mat -> R -> Prop.
  Fixpoint answered (s : whole) (cs : list wcall) : Prop :=
    match cs with
    | [] => True
    | c :: cs => match as_op c with Some o => legal Eig Lan (view_cache s) o | None => True end /\ answered (fst (wact s c)) cs
    end.
End Legal.
Theorem C102_unwritten_objects_are_coherent :
  forall Eig Lan G cs, sized Eig -> built G -> no_write cs -> known (plain cs) -> answered Eig Lan (wfresh G) cs ->
    let s := wrun (wfresh G) cs in
    exists L, wanswers (wfresh G) cs (Plain ReadL) = Ok (Attr (AnsL L)) /\ laplacian (gW G) (last_type G (plain cs)) = Ok L /\
      (forall o e U, o_basis s = Some (e, U) -> wanswers (wfresh G) cs (Basis o) = Ok (Spectral (OutBasis (Some (e, U)))) /\
         exists k e0, Eig (g_n_vertices G) L k e0 U /\ stored_eigs e0 e /\ List.length e = k) /\
      (forall D, wanswers (wfresh G) cs ReadD = Ok (Spectral (OutD (Some D))) -> diff_op (gW G) (last_type G (plain cs)) = Ok D).
Proof.
  intros Eig Lan G cs Hs HG Hnw Hk Ha s.
  destruct (C102_unwritten_objects_match_the_caches G cs HG Hnw) as (HV & Hans). fold s in HV.
  destruct (wreached G cs HG) as (HR & I). fold s in HR, I.
  destruct (L_after G (plain cs) HG Hk _ eq_refl) as (Elap & _). rewrite <- HR in Elap.
  assert (Hh : history Eig Lan (cache_init G) (ops cs) (view_cache s)).
  { assert (H0 : forall s0, linv G (o_live s0) -> v_W (o_live s0) = gW G -> answered Eig Lan s0 cs ->
      history Eig Lan (view_cache s0) (ops cs) (view_cache (wrun s0 cs))).
    { clear - HG Hnw. induction cs as [|c cs IH]; intros s0 I EW Ha; [constructor|]. destruct Ha as (Hl & Ha).
      assert (Hc : forall W, c <> Plain (WriteW W)) by (intros W ->; apply (Hnw W); left; reflexivity).
      pose proof (wact_step G s0 c HG I EW Hc) as HS. pose proof (wact_live G s0 c I) as HL.
      assert (IE : linv G (o_live (fst (wact s0 c))) /\ v_W (o_live (fst (wact s0 c))) = gW G).
      { rewrite HL. destruct c as [c|m o|o|k o|o|o| |]; auto. destruct (step_inv G (o_live s0) c I) as (I' & E'). split; [exact I'|].
        rewrite E'. destruct c; try exact EW. exfalso. apply (Hc W eq_refl). }
      destruct IE as (I' & EW'). specialize (IH (fun W H => Hnw W (or_intror H)) _ I' EW' Ha).
      cbn [wrun fold_left]. change (fold_left (fun s0 c0 => fst (wact s0 c0)) cs ?s) with (wrun s cs).
      unfold ops. cbn [flat_map]. fold (ops cs). destruct (as_op c) as [o|]; cbn [app].
      - eapply history_cons; [exact Hl|symmetry; exact (proj1 HS)|exact IH].
      - rewrite <- HS. exact IH. }
    destruct (fresh_ok G HG) as (I0 & EW0 & Et0 & EL0 & _ & _ & Ec0).
    specialize (H0 (wfresh G) I0 EW0 Ha).
    replace (cache_init G) with (view_cache (wfresh G)); [exact H0|].
    unfold view_cache, wfresh, whole_init, cache_init. cbn [o_live o_lmax o_method o_basis o_coh o_D].
    change (fst (live_init (gW G) (g_lap_type G))) with (fresh G). rewrite EW0, Et0, EL0, Ec0, (l_n G _ I0), (l_dir G _ I0).
    destruct (built_good G HG) as (_ & Hn & _). rewrite Hn. reflexivity. }
  assert (Hkt : known_types (ops cs)).
  { intros t Ht. apply Hk. unfold ops in Ht. apply in_flat_map in Ht. destruct Ht as (c & Hc & Ht).
    unfold plain. apply in_flat_map. exists c. split; [exact Hc|].
    destruct c as [c|m o|o|k o|o|o| |]; cbn [as_op] in Ht; try (destruct Ht as [Ht|[]]; discriminate Ht).
    destruct c; cbn [In] in Ht; try contradiction; try (destruct Ht as [Ht|[]]; discriminate Ht).
    destruct Ht as [Ht|[]]. injection Ht as ->. left. reflexivity. }
  destruct (C16_caches_are_coherent Eig Lan G (ops cs) (view_cache s) Hs HG Hkt Hh) as (HL & HB & _ & HD).
  cbn [view_cache c_lap c_L c_basis c_D] in HL, HB, HD. rewrite Elap in HL, HD.
  exists (v_L (o_live s)). split; [reflexivity|]. split; [exact HL|]. split.
  - intros o e U Eb. split; [|exact (HB e U Eb)]. unfold wanswers. fold s. cbn [wact]. unfold whole_basis. rewrite Eb. reflexivity.
  - intros D HDa. specialize (Hans ReadD OpReadD eq_refl). rewrite HDa in Hans. rewrite <- HV in Hans. cbn [bindr as_out] in Hans.
    destruct (C16_D_available Eig Lan G (ops cs) (view_cache s) Hs HG Hkt Hh) as (D' & ED & ED').
    cbn [view_cache c_lap] in ED'. rewrite Elap in ED'. rewrite ED'. cbn [step] in Hans. unfold lift in Hans. cbn [snd] in Hans.
    rewrite ED in Hans. injection Hans as ->. reflexivity.
Qed.

(** ** The basis, the coherence, lmax and D are never refreshed while the Laplacian type stays *)
Lemma type_reached G cs : built G -> v_lap (o_live (wrun (wfresh G) cs)) = last_type G (plain cs).
Proof.
  intros HG. rewrite (proj1 (wreached G cs HG)). generalize (plain cs) as ks. clear cs. intros ks.
  destruct (fresh_ok G HG) as (I & _ & Et & _). unfold last_type. rewrite <- Et. clear Et.
  revert I. generalize (fresh G) as v. induction ks as [|c ks IH]; intros v I; [reflexivity|].
  cbn [run fold_left]. change (fold_left (fun s0 c0 => fst (act s0 c0)) ks ?s) with (run s ks).
  rewrite (IH _ (proj1 (step_inv G v c I))). f_equal.
  destruct (act_frame G v c I) as (_ & _ & _ & F). destruct c; try (apply F; intros; discriminate).
  cbn [act]. unfold live_laplacian.
  assert (I' : linv G (put_lap v t (v_L v))) by (destruct I; constructor; assumption).
  rewrite (directed_reached G _ I'), (dw_reached G _ I'). destruct t; reflexivity.
Qed.

(** The calls below ask for the current Laplacian type only. *)
Definition keeps_type (t : laptype) (cs : list wcall) : Prop := forall t', In (Plain (Laplacian t')) cs -> t' = t.

Lemma plain_frame s c : (forall t, c <> Laplacian t) ->
  o_lmax (fst (wact s (Plain c))) = o_lmax s /\ o_basis (fst (wact s (Plain c))) = o_basis s /\
  o_coh (fst (wact s (Plain c))) = o_coh s /\ o_D (fst (wact s (Plain c))) = o_D s /\ o_method (fst (wact s (Plain c))) = o_method s.
Proof.
  intros H. destruct c; try (cbn [wact]; destruct (act (o_live s) _) as [v r]; repeat split; reflexivity). exfalso; exact (H t eq_refl).
Qed.
Lemma laplacian_frame s :
  let s' := fst (wact s (Plain (Laplacian (v_lap (o_live s))))) in
  o_lmax s' = o_lmax s /\ o_basis s' = o_basis s /\ o_coh s' = o_coh s /\ o_D s' = o_D s.
Proof.
  cbn zeta. cbn [wact]. unfold whole_laplacian. rewrite (proj2 (lap_eqb_true _ _) eq_refl).
  destruct (live_laplacian _ _) as [v r]. repeat split; reflexivity.
Qed.
Lemma estimate_frame m o s : let s' := fst (whole_estimate m o s) in o_basis s' = o_basis s /\ o_coh s' = o_coh s /\ o_D s' = o_D s.
Proof.
  cbn zeta. unfold whole_estimate. destruct (match o_method s with Some _ => _ | None => _ end); [auto|]. cbn zeta.
  destruct (whole_bound _) as [v ub].
  destruct (String.eqb m "lanczos"); [destruct o as [r| |x]; try (repeat split; reflexivity); destruct ub as [b|x]; [destruct (fle _ _)|]; repeat split; reflexivity|].
  destruct (String.eqb m "bounds"); [destruct ub|]; repeat split; reflexivity.
Qed.
Lemma fourier_skip k o s e U : o_basis s = Some (e, U) ->
  (match k with None => v_n (o_live s) | Some k => k end <= List.length e)%nat -> whole_fourier k o s = (s, Ok tt).
Proof. intros E H. unfold whole_fourier. cbn zeta. rewrite E. rewrite (proj2 (Nat.leb_le _ _) H). reflexivity. Qed.
Lemma compute_D_frame s : let s' := fst (whole_compute_D s) in o_basis s' = o_basis s /\ o_coh s' = o_coh s /\ o_lmax s' = o_lmax s.
Proof.
  cbn zeta. unfold whole_compute_D. destruct (live_edges _) as [v [l|x]]; [|auto].
  destruct (v_lap v); try (repeat split; reflexivity); destruct (live_dw v) as [v1 d]; destruct (live_directed v1) as [v2 b]; auto.
Qed.

Lemma basis_stays G t m s c e U : linv G (o_live s) -> v_lap (o_live s) = t -> o_basis s = Some (e, U) -> List.length e = m ->
  (nrow (gW G) <= m)%nat -> (forall t', c = Plain (Laplacian t') -> t' = t) -> (forall k o, c = Fourier (Some k) o -> (k <= m)%nat) ->
  o_basis (fst (wact s c)) = Some (e, U) /\ o_coh (fst (wact s c)) = o_coh s.
Proof.
  intros I Et Eb Em Hm Hc Hk. pose proof (l_n G _ I) as Hn.
  assert (Hsk : forall o, whole_fourier None o s = (s, Ok tt)) by (intros o; apply (fourier_skip None o s e U Eb); lia).
  destruct c as [c|a o|o|k o|o|o| |].
  - assert (D : (exists t', c = Laplacian t') \/ forall t', c <> Laplacian t')
      by (destruct c; try (right; intros; discriminate); left; eexists; reflexivity).
    destruct D as [(t' & ->)|D].
    + rewrite (Hc t' eq_refl), <- Et. destruct (laplacian_frame s) as (_ & E1 & E2 & _). rewrite E1, E2. auto.
    + destruct (plain_frame s c D) as (_ & E1 & E2 & _). rewrite E1, E2. auto.
  - cbn [wact]. pose proof (estimate_frame a o s) as F. destruct (whole_estimate a o s) as [s' r]. cbn in F. destruct F as (F1 & F2 & _).
    cbn [fst]. rewrite F1. auto.
  - cbn [wact]. unfold whole_lmax. destruct (o_lmax s); [auto|].
    pose proof (estimate_frame "lanczos" o s) as F. destruct (whole_estimate "lanczos" o s) as [s' r]. cbn in F. destruct F as (F1 & F2 & _).
    cbn [fst]. rewrite F1. auto.
  - cbn [wact]. rewrite (fourier_skip k o s e U Eb); [auto|]. destruct k as [k|]; [|lia]. rewrite Em. apply (Hk k o eq_refl).
  - cbn [wact]. unfold whole_basis. rewrite Eb. auto.
  - cbn [wact]. unfold whole_coherence. destruct (o_coh s) eqn:Ec; [cbn; auto|]. rewrite Hsk. cbn. auto.
  - cbn [wact]. pose proof (compute_D_frame s) as F. destruct (whole_compute_D s) as [s' r]. cbn in F. destruct F as (F1 & F2 & _). cbn [fst]. rewrite F1. auto.
  - cbn [wact]. unfold whole_D. destruct (o_D s); [auto|].
    pose proof (compute_D_frame s) as F. destruct (whole_compute_D s) as [s' r]. cbn in F. destruct F as (F1 & F2 & _). cbn [fst]. rewrite F1. auto.
Qed.

Lemma wrun_app s cs cs' : wrun s (cs ++ cs') = wrun (wrun s cs) cs'.
Proof. apply fold_left_app. Qed.
Lemma wrun_cons s c cs : wrun s (c :: cs) = wrun (fst (wact s c)) cs.
Proof. reflexivity. Qed.
Lemma live_step G s c : linv G (o_live s) -> linv G (o_live (fst (wact s c))).
Proof. intros I. rewrite (wact_live G s c I). destruct c; try exact I. apply (step_inv G _ _ I). Qed.
Lemma lap_step G s c t : linv G (o_live s) -> v_lap (o_live s) = t -> (forall t', c = Plain (Laplacian t') -> t' = t) ->
  v_lap (o_live (fst (wact s c))) = t.
Proof.
  intros I Et Hc. rewrite (wact_live G s c I). destruct c as [c|m o|o|k o|o|o| |]; try exact Et.
  destruct (act_frame G (o_live s) c I) as (_ & _ & _ & F).
  destruct c; try (rewrite (proj1 (F ltac:(intros; discriminate))); exact Et).
  rewrite (Hc _ eq_refl). cbn [act]. unfold live_laplacian.
  assert (I' : linv G (put_lap (o_live s) t (v_L (o_live s)))) by (destruct I; constructor; assumption).
  rewrite (directed_reached G _ I'), (dw_reached G _ I'). destruct t; reflexivity.
Qed.

(** A full basis, once there, is what U, e and coherence answer from for ever, through writes into W and through
    compute_laplacian, as long as the type asked for is the one the graph has. *)
Theorem C102_basis_ignores_writes :
  forall G cs0 cs o e U, built G ->
    wanswers (wfresh G) cs0 (Basis o) = Ok (Spectral (OutBasis (Some (e, U)))) -> (g_n_vertices G <= List.length e)%nat ->
    keeps_type (last_type G (plain cs0)) cs -> (forall k o', In (Fourier (Some k) o') cs -> (k <= List.length e)%nat) ->
    (forall o', wanswers (wfresh G) (cs0 ++ Basis o :: cs) (Basis o') = Ok (Spectral (OutBasis (Some (e, U))))) /\
    (forall o1 o2, wanswers (wfresh G) (cs0 ++ Basis o :: cs) (Coherence o1) = wanswers (wfresh G) (cs0 ++ [Basis o]) (Coherence o2)).
Proof.
  intros G cs0 cs o e U HG Ha Hn Hk Hf. unfold wanswers in *.
  destruct (built_good G HG) as (_ & Hnr & _). rewrite Hnr in Hn.
  pose proof (type_reached G cs0 HG) as Et. destruct (wreached G cs0 HG) as (_ & I).
  set (s0 := wrun (wfresh G) cs0) in *. rewrite !wrun_app. fold s0. rewrite !wrun_cons.
  assert (E1 : o_basis (fst (wact s0 (Basis o))) = Some (e, U)).
  { cbn [wact] in Ha |- *. unfold whole_basis in *. destruct (o_basis s0) as [b|] eqn:Eb.
    - cbn in Ha |- *. injection Ha as ->. exact Eb.
    - destruct (whole_fourier None o s0) as [s' [u|x]]; cbn in Ha |- *; [|discriminate]. injection Ha as ->. reflexivity. }
  set (s1 := fst (wact s0 (Basis o))) in *.
  assert (I1 : linv G (o_live s1)) by (apply live_step, I).
  assert (Et1 : v_lap (o_live s1) = last_type G (plain cs0)) by (apply (lap_step G); [exact I|exact Et|intros; discriminate]).
  assert (H : o_basis (wrun s1 cs) = Some (e, U) /\ o_coh (wrun s1 cs) = o_coh s1 /\ linv G (o_live (wrun s1 cs))).
  { clear Ha. revert E1 I1 Et1. generalize s1 as s. clear s1. induction cs as [|c cs IH]; intros s E1 I1 Et1; [auto|].
    destruct (basis_stays G _ _ s c e U I1 Et1 E1 eq_refl Hn) as (B1 & B2).
    - intros t' ->. apply Hk. left. reflexivity.
    - intros k o' ->. apply (Hf k o'). left. reflexivity.
    - rewrite wrun_cons. rewrite <- B2. apply IH.
      + intros t' H. apply Hk. right. exact H.
      + intros k o' H. apply (Hf k o'). right. exact H.
      + exact B1.
      + apply live_step, I1.
      + apply (lap_step G); [exact I1|exact Et1|]. intros t' ->. apply Hk. left. reflexivity. }
  destruct H as (H1 & H2 & I2). split.
  - intros o'. cbn [wact]. unfold whole_basis. rewrite H1. reflexivity.
  - intros o1 o2. cbn [wact wrun fold_left]. unfold whole_coherence. rewrite H2.
    destruct (o_coh s1) eqn:Ec; [reflexivity|].
    rewrite (fourier_skip None o1 _ e U H1) by (rewrite (l_n G _ I2); exact Hn).
    rewrite (fourier_skip None o2 _ e U E1) by (rewrite (l_n G _ I1); exact Hn). cbn. rewrite H2, Ec. reflexivity.
Qed.

(** D, once computed, is what D, grad and div use until the type changes or compute_differential_operator is called. *)
Lemma D_stays s c D : o_D s = Some D -> c <> ComputeD -> (forall t', c = Plain (Laplacian t') -> t' = v_lap (o_live s)) ->
  o_D (fst (wact s c)) = Some D.
Proof.
  intros ED Hc Ht.
  assert (FF : forall k o, o_D (fst (whole_fourier k o s)) = o_D s).
  { intros k o. unfold whole_fourier. cbn zeta. destruct (match o_basis s with Some _ => _ | None => _ end); [reflexivity|].
    destruct o as [[|e0 es] U|x]; try reflexivity. destruct (_ && _)%bool; [|reflexivity].
    destruct (whole_bound _) as [v [b|x]]; [|reflexivity]. destruct (fle _ _); [|reflexivity]. destruct (forallb _ _); [|reflexivity].
    destruct (Nat.eqb _ _); reflexivity. }
  destruct c as [c|a o|o|k o|o|o| |].
  - assert (X : (exists t', c = Laplacian t') \/ forall t', c <> Laplacian t')
      by (destruct c; try (right; intros; discriminate); left; eexists; reflexivity).
    destruct X as [(t' & ->)|X].
    + rewrite (Ht t' eq_refl). destruct (laplacian_frame s) as (_ & _ & _ & E2). rewrite E2. exact ED.
    + destruct (plain_frame s c X) as (_ & _ & _ & E2 & _). rewrite E2. exact ED.
  - cbn [wact]. pose proof (estimate_frame a o s) as F. destruct (whole_estimate a o s) as [s' r]. cbn in F. destruct F as (_ & _ & F). cbn [fst]. congruence.
  - cbn [wact]. unfold whole_lmax. destruct (o_lmax s); [exact ED|].
    pose proof (estimate_frame "lanczos" o s) as F. destruct (whole_estimate "lanczos" o s) as [s' r]. cbn in F. destruct F as (_ & _ & F). cbn [fst]. congruence.
  - cbn [wact]. pose proof (FF k o) as F. destruct (whole_fourier k o s) as [s' r]. cbn [fst] in *. congruence.
  - cbn [wact]. unfold whole_basis. destruct (o_basis s); [exact ED|]. pose proof (FF None o) as F. destruct (whole_fourier None o s) as [s' r]. cbn [fst] in *. congruence.
  - cbn [wact]. unfold whole_coherence. destruct (o_coh s); [exact ED|]. pose proof (FF None o) as F. destruct (whole_fourier None o s) as [s' r]. cbn [fst] in *. congruence.
  - contradiction.
  - cbn [wact]. unfold whole_D. rewrite ED. exact ED.
Qed.
Theorem C102_D_ignores_writes :
  forall G cs0 cs D, built G -> wanswers (wfresh G) cs0 ReadD = Ok (Spectral (OutD (Some D))) ->
    keeps_type (last_type G (plain cs0)) cs -> ~ In ComputeD cs ->
    wanswers (wfresh G) (cs0 ++ ReadD :: cs) ReadD = Ok (Spectral (OutD (Some D))).
Proof.
  intros G cs0 cs D HG Ha Hk Hc. unfold wanswers in *.
  pose proof (type_reached G cs0 HG) as Et. destruct (wreached G cs0 HG) as (_ & I).
  set (s0 := wrun (wfresh G) cs0) in *. rewrite wrun_app. fold s0. rewrite wrun_cons.
  assert (E1 : o_D (fst (wact s0 ReadD)) = Some D).
  { cbn [wact] in Ha |- *. unfold whole_D in *. destruct (o_D s0) as [b|] eqn:Eb.
    - cbn in Ha |- *. injection Ha as ->. exact Eb.
    - destruct (whole_compute_D s0) as [s' [u|x]]; cbn in Ha |- *; [|discriminate]. injection Ha as ->. reflexivity. }
  assert (I1 : linv G (o_live (fst (wact s0 ReadD)))) by (apply live_step, I).
  assert (Et1 : v_lap (o_live (fst (wact s0 ReadD))) = last_type G (plain cs0)) by (apply (lap_step G); [exact I|exact Et|intros; discriminate]).
  assert (H : o_D (wrun (fst (wact s0 ReadD)) cs) = Some D).
  { clear Ha. revert E1 I1 Et1. generalize (fst (wact s0 ReadD)) as s. induction cs as [|c cs IH]; intros s E1 I1 Et1; [exact E1|].
    rewrite wrun_cons. apply IH.
    - intros t' H. apply Hk. right. exact H.
    - intros H. apply Hc. right. exact H.
    - apply (D_stays s c D E1).
      + intros ->. apply Hc. left. reflexivity.
      + intros t' ->. rewrite Et1. apply Hk. left. reflexivity.
    - apply live_step, I1.
    - apply (lap_step G); [exact I1|exact Et1|]. intros t' ->. apply Hk. left. reflexivity. }
  revert H. generalize (wrun (fst (wact s0 ReadD)) cs) as s2. intros s2 H. cbn [wact]. unfold whole_D. rewrite H. reflexivity.
Qed.

(** lmax, once there, stays until the type changes or another estimate or a full basis is asked for. *)
Theorem C102_lmax_ignores_writes :
  forall G cs0 cs o v, built G -> wanswers (wfresh G) cs0 (Lmax o) = Ok (Spectral (OutLmax (Some v))) ->
    keeps_type (last_type G (plain cs0)) cs ->
    (forall c, In c cs -> (exists c', c = Plain c') \/ (exists o', c = Lmax o') \/ c = ComputeD \/ c = ReadD) ->
    forall o', wanswers (wfresh G) (cs0 ++ Lmax o :: cs) (Lmax o') = Ok (Spectral (OutLmax (Some v))).
Proof.
  intros G cs0 cs o v HG Ha Hk Hc o'. unfold wanswers in *.
  pose proof (type_reached G cs0 HG) as Et. destruct (wreached G cs0 HG) as (_ & I).
  set (s0 := wrun (wfresh G) cs0) in *. rewrite wrun_app. fold s0. rewrite wrun_cons.
  assert (E1 : o_lmax (fst (wact s0 (Lmax o))) = Some v).
  { cbn [wact] in Ha |- *. unfold whole_lmax in *. destruct (o_lmax s0) as [b|] eqn:Eb.
    - cbn in Ha |- *. injection Ha as ->. exact Eb.
    - destruct (whole_estimate _ o s0) as [s' [u|x]]; cbn in Ha |- *; [|discriminate]. injection Ha as ->. reflexivity. }
  assert (I1 : linv G (o_live (fst (wact s0 (Lmax o))))) by (apply live_step, I).
  assert (Et1 : v_lap (o_live (fst (wact s0 (Lmax o)))) = last_type G (plain cs0)) by (apply (lap_step G); [exact I|exact Et|intros; discriminate]).
  assert (H : o_lmax (wrun (fst (wact s0 (Lmax o))) cs) = Some v).
  { clear Ha. revert E1 I1 Et1. generalize (fst (wact s0 (Lmax o))) as s. induction cs as [|c cs IH]; intros s E1 I1 Et1; [exact E1|].
    rewrite wrun_cons.
    assert (Hk' : forall t', c = Plain (Laplacian t') -> t' = last_type G (plain cs0)) by (intros t' ->; apply Hk; left; reflexivity).
    apply IH.
    - intros t' H. apply Hk. right. exact H.
    - intros c' H. apply Hc. right. exact H.
    - destruct (Hc c (or_introl eq_refl)) as [(c' & ->)|[(oo & ->)|[-> | ->]]].
      + assert (X : (exists t', c' = Laplacian t') \/ forall t', c' <> Laplacian t')
          by (destruct c'; try (right; intros; discriminate); left; eexists; reflexivity).
        destruct X as [(t' & ->)|X].
        * rewrite (Hk' t' eq_refl), <- Et1. destruct (laplacian_frame s) as (E2 & _). rewrite E2. exact E1.
        * destruct (plain_frame s c' X) as (E2 & _). rewrite E2. exact E1.
      + cbn [wact]. unfold whole_lmax. rewrite E1. exact E1.
      + cbn [wact]. pose proof (compute_D_frame s) as F. destruct (whole_compute_D s) as [s' r]. cbn in F. destruct F as (_ & _ & F). cbn [fst]. congruence.
      + cbn [wact]. unfold whole_D. destruct (o_D s); [exact E1|].
        pose proof (compute_D_frame s) as F. destruct (whole_compute_D s) as [s' r]. cbn in F. destruct F as (_ & _ & F). cbn [fst]. congruence.
    - apply live_step, I1.
    - apply (lap_step G); [exact I1|exact Et1|exact Hk']. }
  revert H. generalize (wrun (fst (wact s0 (Lmax o))) cs) as s2. intros s2 H. cbn [wact]. unfold whole_lmax. rewrite H. reflexivity.
Qed.

(** Another type drops them: the next read asks the solver again, about the L of that moment. *)
Theorem C102_another_type_recomputes :
  forall G cs t e U e' U', built G -> t = Combinatorial \/ t = Normalized -> t <> last_type G (plain cs) ->
    wanswers (wfresh G) (cs ++ [Plain (Laplacian t)]) (Basis (EigOk e U)) = Ok (Spectral (OutBasis (Some (e', U')))) ->
    U' = U /\ stored_eigs e e'.
Proof.
  intros G cs t e U e' U' HG Ht Hne Ha. unfold wanswers in Ha. rewrite wrun_app in Ha. cbn [wrun fold_left] in Ha.
  pose proof (type_reached G cs HG) as Et. destruct (wreached G cs HG) as (_ & I).
  change (fold_left (fun s c => fst (wact s c)) cs (wfresh G)) with (wrun (wfresh G) cs) in Ha.
  set (s := wrun (wfresh G) cs) in *.
  assert (Eb : o_basis (fst (wact s (Plain (Laplacian t)))) = None).
  { cbn [wact]. unfold whole_laplacian. destruct (lap_eqb t (v_lap (o_live s))) eqn:E.
    - apply lap_eqb_true in E. congruence.
    - cbn [with_D with_coh with_basis with_lmax o_live]. destruct (live_laplacian t (o_live s)) as [v r]. reflexivity. }
  set (s1 := fst (wact s (Plain (Laplacian t)))) in *. clearbody s1. cbn [wact] in Ha. unfold whole_basis in Ha. rewrite Eb in Ha.
  unfold whole_fourier in Ha. cbn zeta in Ha. rewrite Eb in Ha.
  destruct e as [|e0 es]; [discriminate|]. destruct (_ && _)%bool; [|discriminate].
  destruct (whole_bound _) as [v [b|x]]; [|discriminate].
  destruct (fle _ _); [|discriminate]. destruct (forallb _ _); [|discriminate].
  destruct (Nat.eqb _ _); cbn in Ha; injection Ha as <- <-; (split; [reflexivity|]); right; exists e0, es; auto.
Qed.

(** ** After writes *)
Definition only_plain (cs : list wcall) : Prop := forall c, In c cs -> exists c', c = Plain c'.
Lemma plain_run_none G cs : only_plain cs ->
  let s := wrun (wfresh G) cs in o_lmax s = None /\ o_method s = None /\ o_basis s = None /\ o_coh s = None /\ o_D s = None.
Proof.
  cbn zeta. intros Hp.
  assert (H : forall s, o_lmax s = None /\ o_method s = None /\ o_basis s = None /\ o_coh s = None /\ o_D s = None ->
    o_lmax (wrun s cs) = None /\ o_method (wrun s cs) = None /\ o_basis (wrun s cs) = None /\ o_coh (wrun s cs) = None /\ o_D (wrun s cs) = None).
  { induction cs as [|c cs IH]; intros s (A & B & C & D & E); [auto|]. rewrite wrun_cons. apply IH.
    - intros c' H. apply Hp. right. exact H.
    - destruct (Hp c (or_introl eq_refl)) as (c' & ->).
      assert (X : (exists t', c' = Laplacian t') \/ forall t', c' <> Laplacian t')
        by (destruct c'; try (right; intros; discriminate); left; eexists; reflexivity).
      destruct X as [(t' & ->)|X].
      + cbn [wact]. unfold whole_laplacian. destruct (lap_eqb _ _).
        * destruct (live_laplacian t' (o_live s)) as [v r]. auto.
        * cbn [with_D with_coh with_basis with_lmax o_live]. destruct (live_laplacian t' (o_live s)) as [v r]. cbn. auto.
      + destruct (plain_frame s c' X) as (F1 & F2 & F3 & F4 & F5). rewrite F1, F2, F3, F4, F5. auto. }
  apply H. auto.
Qed.

Lemma edges_written G cs G' : built G -> built G' -> gW G' = weights G (plain cs) -> (undirected G <-> undirected G') ->
  exists l, get_edge_list (gW G') = Ok l /\
    snd (live_edges (o_live (wrun (wfresh G) cs))) = if Nat.eqb (g_n_edges G) (g_n_edges G') then Ok l else Raise AssertionError.
Proof.
  intros HG HG' EW Hu. destruct (C90_edge_list_after_writes G (plain cs) G' HG HG' EW Hu) as (l & El & E). exists l. split; [exact El|].
  rewrite (proj1 (wreached G cs HG)). unfold answers in E. cbn [act] in E. destruct (live_edges _) as [v r]. cbn [snd] in *.
  destruct (Nat.eqb _ _); destruct r as [l'|x]; cbn [bindr] in E; try discriminate; [injection E as ->|injection E as ->]; reflexivity.
Qed.

Lemma bound_written G cs G' : built G -> built G' -> gW G' = weights G (plain cs) -> (undirected G <-> undirected G') ->
  g_n_edges G <> g_n_edges G' -> (0 < g_n_edges G)%nat -> g_n_vertices G' = g_n_vertices G ->
  last_type G (plain cs) = Combinatorial ->
  snd (whole_bound (o_live (wrun (wfresh G) cs))) = Raise AssertionError.
Proof.
  intros HG HG' EW Hu Hne Hpos Hnv Ht. destruct (edges_written G cs G' HG HG' EW Hu) as (l & _ & El).
  pose proof (type_reached G cs HG) as Et. rewrite Ht in Et. destruct (wreached G cs HG) as (HR & I).
  destruct (reached G (plain cs) HG) as (_ & EWr). rewrite <- HR in EWr.
  set (v := o_live (wrun (wfresh G) cs)) in *. unfold whole_bound. rewrite Et, (dw_reached G v I), (directed_reached G v I). cbn [snd].
  destruct (built_good G HG) as (Hg & Hn & He & _). destruct (built_good G' HG') as (Hg' & Hn' & _).
  assert (H0 : (0 < nrow (gW G))%nat).
  { destruct (C04_edge_list_enumerates_every_edge_once G HG) as (lg & Eg & Hlen & _ & Hin). rewrite <- Hn.
    destruct lg as [|[[a b] w] lg]; [cbn in Hlen; lia|]. destruct (proj1 (Hin a b w) (or_introl eq_refl)) as (Hb & _). lia. }
  assert (H0' : (0 < nrow (gW G'))%nat) by lia.
  destruct (max_weight_ok (gW G') Hg' H0') as (mw & Emw & _). rewrite EWr, <- EW, Emw. cbn [bindr].
  destruct (np_max_fin (map (dw (gW G)) (seq 0 (v_n v)))) as (md & Emd & _).
  { rewrite (l_n G v I). destruct (nrow (gW G)); [lia|discriminate]. }
  rewrite map_map in Emd. rewrite Emd. cbn [bindr].
  rewrite (l_ne G v I), <- He. rewrite (proj2 (Nat.ltb_lt _ _) Hpos). rewrite El.
  rewrite (proj2 (Nat.eqb_neq _ _) Hne). reflexivity.
Qed.

(** When the writes changed the number of edges of a graph with combinatorial Laplacian, every first computation of
    a spectral attribute raises AssertionError; but the e and U of the failed decomposition are kept. *)
Theorem C102_changed_edges_break_every_estimate :
  forall G cs G', built G -> built G' -> gW G' = weights G (plain cs) -> (undirected G <-> undirected G') ->
    g_n_edges G <> g_n_edges G' -> (0 < g_n_edges G)%nat -> g_n_vertices G' = g_n_vertices G ->
    last_type G (plain cs) = Combinatorial -> only_plain cs ->
    wanswers (wfresh G) cs ComputeD = Raise AssertionError /\ wanswers (wfresh G) cs ReadD = Raise AssertionError /\
    (forall o, wanswers (wfresh G) cs (Estimate "bounds" o) = Raise AssertionError) /\
    (forall r, wanswers (wfresh G) cs (Lmax (LanOk r)) = Raise AssertionError) /\
    (forall x es U, -/ 10 ^ 5 < x < / 10 ^ 5 ->
       wanswers (wfresh G) cs (Fourier None (EigOk (x :: es) U)) = Raise AssertionError /\
       ((g_n_vertices G <= S (List.length es))%nat -> forall o,
        wanswers (wfresh G) (cs ++ [Fourier None (EigOk (x :: es) U)]) (Basis o) = Ok (Spectral (OutBasis (Some (0 :: es, U)))) /\
        wanswers (wfresh G) (cs ++ [Fourier None (EigOk (x :: es) U)]) (Fourier None o) = Ok (Spectral OutUnit))).
Proof.
  intros G cs G' HG HG' EW Hu Hne Hpos Hnv Ht Hp.
  pose proof (bound_written G cs G' HG HG' EW Hu Hne Hpos Hnv Ht) as HB.
  destruct (edges_written G cs G' HG HG' EW Hu) as (l & _ & El). rewrite (proj2 (Nat.eqb_neq _ _) Hne) in El.
  destruct (plain_run_none G cs Hp) as (N1 & N2 & N3 & N4 & N5). destruct (wreached G cs HG) as (_ & I).
  destruct (built_good G HG) as (_ & Hn & _).
  unfold wanswers. set (s := wrun (wfresh G) cs) in *.
  assert (HD : exists s', whole_compute_D s = (s', Raise AssertionError)).
  { unfold whole_compute_D. destruct (live_edges (o_live s)) as [v r]. cbn [snd] in El. rewrite El. eexists. reflexivity. }
  destruct HD as (sD & HD). pose proof (bound_live G _ I) as HBL.
  destruct (whole_bound (o_live s)) as [v ub] eqn:EB. cbn [fst snd] in HB, HBL. subst v ub.
  assert (HF : forall x es U, - / 10 ^ 5 < x < / 10 ^ 5 ->
    whole_fourier None (EigOk (x :: es) U) s = (with_live (with_basis s (Some (0 :: es, U))) (o_live s), Raise AssertionError)).
  { intros x es U (Hx1 & Hx2). unfold whole_fourier. cbn zeta. rewrite N3.
    rewrite (proj2 (Rltb_true _ _) Hx1), (proj2 (Rltb_true _ _) Hx2). cbn [andb].
    change (o_live (with_basis s (Some (0 :: es, U)))) with (o_live s). rewrite EB. reflexivity. }
  split; [cbn [wact]; rewrite HD; reflexivity|]. split; [cbn [wact]; unfold whole_D; rewrite N5, HD; reflexivity|].
  split; [|split].
  - intros o. cbn [wact]. unfold whole_estimate. rewrite N2. cbn zeta. cbn [String.eqb Ascii.eqb Bool.eqb].
    change (o_live (with_method s (Some "bounds"%string))) with (o_live s). rewrite EB. reflexivity.
  - intros r. cbn [wact]. unfold whole_lmax. rewrite N1. unfold whole_estimate. rewrite N2. cbn zeta. cbn [String.eqb Ascii.eqb Bool.eqb].
    change (o_live (with_method s (Some "lanczos"%string))) with (o_live s). rewrite EB. reflexivity.
  - intros x es U Hx. split; [cbn [wact]; rewrite (HF x es U Hx); reflexivity|]. intros Hlen o.
    rewrite wrun_app. fold s. cbn [wrun fold_left]. 
    assert (E1 : fst (wact s (Fourier None (EigOk (x :: es) U))) = with_live (with_basis s (Some (0 :: es, U))) (o_live s))
      by (cbn [wact]; rewrite (HF x es U Hx); reflexivity).
    rewrite E1. split; [reflexivity|]. cbn [wact].
    rewrite (fourier_skip None o (with_live (with_basis s (Some (0 :: es, U))) (o_live s)) (0 :: es) U eq_refl); [reflexivity|].
    cbn [with_live with_basis o_live List.length]. rewrite (l_n G _ I), <- Hn. exact Hlen.
Qed.

(** D computed after writes is the D of the current weights (D D^T is their combinatorial Laplacian) while L keeps
    the degrees of construction: they agree exactly when no weighted degree changed. *)
Theorem C102_D_after_writes :
  forall G cs G' L, built G -> undirected G -> built G' -> undirected G' -> nonneg_weights G' ->
    gW G' = weights G (plain cs) -> g_n_vertices G' = g_n_vertices G -> g_n_edges G' = g_n_edges G ->
    known (plain cs) ->
    wanswers (wfresh G) (cs ++ [Plain (Laplacian Combinatorial); ComputeD]) (Plain ReadL) = Ok (Attr (AnsL L)) ->
    exists D, wanswers (wfresh G) (cs ++ [Plain (Laplacian Combinatorial); ComputeD]) ReadD = Ok (Spectral (OutD (Some D))) /\
      (forall i j, (i < g_n_vertices G)%nat -> (j < g_n_vertices G)%nat ->
         \sum_(k < g_n_edges G) (D i k * D j k) = lap_comb (gW G') i j) /\
      ((forall i j, (i < g_n_vertices G)%nat -> (j < g_n_vertices G)%nat -> \sum_(k < g_n_edges G) (D i k * D j k) = L i j) <->
       (forall i, (i < g_n_vertices G)%nat -> \sum_(j < g_n_vertices G) wt G i j = \sum_(j < g_n_vertices G) wt G' i j)).
Proof.
  intros G cs G' L HG Hu HG' Hu' Hp EW Hnv Hne Hk HL.
  destruct (built_good G HG) as (Hg & Hn & He & _). destruct (built_good G' HG') as (Hg' & Hn' & He' & _).
  pose proof (nonneg_W G' HG' Hp) as HpW.
  destruct (diff_op_factor (gW G') Combinatorial (lap_comb (gW G')) Hg' HpW eq_refl) as (D0 & ED0 & HD0).
  destruct (edge_list_ok (gW G') Hg') as (l & El & _).
  rewrite (diff_unwritten G' Combinatorial l El (or_introl eq_refl)) in ED0. injection ED0 as ED0.
  assert (Ed : is_directed (gW G) = false).
  { destruct (is_directed (gW G)) eqn:E; [|reflexivity]. apply (C03_is_directed_iff_not_symmetric G HG) in E. contradiction. }
  assert (Ed' : is_directed (gW G') = false).
  { destruct (is_directed (gW G')) eqn:E; [|reflexivity]. apply (C03_is_directed_iff_not_symmetric G' HG') in E. contradiction. }
  assert (HLc : answers (fresh G) (plain cs ++ [Laplacian Combinatorial]) ReadL = Ok (AnsL L)).
  { rewrite (C102_spectral_calls_change_no_other_attribute G _ ReadL HG) in HL by (intros; discriminate).
    assert (EP : plain (cs ++ [Plain (Laplacian Combinatorial); ComputeD]) = plain cs ++ [Laplacian Combinatorial])
      by (unfold plain; rewrite flat_map_app; reflexivity).
    rewrite EP in HL. destruct (answers _ _ ReadL) as [a|x]; cbn [bindr] in HL; [|discriminate]. injection HL as ->. reflexivity. }
  destruct (C90_rows_after_writes G (plain cs) G' L HG Hu Hk HG' Hu' EW Hnv HLc) as (_ & Hiff).
  assert (HD : wanswers (wfresh G) (cs ++ [Plain (Laplacian Combinatorial); ComputeD]) ReadD = Ok (Spectral (OutD (Some D0)))).
  { clear HL HLc Hiff.
    change [Plain (Laplacian Combinatorial); ComputeD] with ([Plain (Laplacian Combinatorial)] ++ [ComputeD]). rewrite app_assoc.
    unfold wanswers. rewrite wrun_app.
    assert (EP : plain (cs ++ [Plain (Laplacian Combinatorial)]) = plain cs ++ [Laplacian Combinatorial])
      by (unfold plain; rewrite flat_map_app; reflexivity).
    assert (EW' : gW G' = weights G (plain (cs ++ [Plain (Laplacian Combinatorial)]))).
    { rewrite EP. unfold weights. rewrite fold_left_app. exact EW. }
    destruct (edges_written G _ G' HG HG' EW' ltac:(tauto)) as (l' & El' & Ee). rewrite El in El'. injection El' as <-.
    rewrite Hne, Nat.eqb_refl in Ee.
    pose proof (type_reached G (cs ++ [Plain (Laplacian Combinatorial)]) HG) as Et. rewrite EP in Et. unfold last_type in Et. rewrite fold_left_app in Et.
    cbn [fold_left] in Et. destruct (wreached G (cs ++ [Plain (Laplacian Combinatorial)]) HG) as (_ & I).
    set (s := wrun (wfresh G) (cs ++ [Plain (Laplacian Combinatorial)])) in *.
    assert (E1 : o_D (fst (wact s ComputeD)) = Some D0).
    { cbn [wact]. unfold whole_compute_D.
      assert (Ef : live_edges (o_live s) = (o_live s, Ok l)).
      { rewrite <- Ee. unfold live_edges. rewrite (directed_reached G _ I). reflexivity. }
      rewrite Ef, Et, (dw_reached G _ I), (directed_reached G _ I). cbn [fst o_D with_D]. f_equal. rewrite <- ED0.
      rewrite Ed, Ed'. apply functional_extensionality. intros i. apply functional_extensionality. intros k.
      destruct (nth k l _) as [[a b] w]. reflexivity. }
    cbn [wrun fold_left]. revert E1. generalize (fst (wact s ComputeD)) as s2. intros s2 E1. cbn [wact]. unfold whole_D. rewrite E1. reflexivity. }
  exists D0. split; [exact HD|].
  assert (HDD : forall i j, (i < g_n_vertices G)%nat -> (j < g_n_vertices G)%nat ->
    \sum_(k < g_n_edges G) (D0 i k * D0 j k) = lap_comb (gW G') i j).
  { intros i j Hi Hj. rewrite <- Hne, He'. apply HD0; lia. }
  split; [exact HDD|]. rewrite <- Hiff. split; intros H i j Hi Hj.
  - rewrite <- (H i j Hi Hj). apply HDD; assumption.
  - rewrite (HDD i j Hi Hj). symmetry. apply H; assumption.
Qed.

(** [m] is the largest of the numbers with property P. *)
Definition largest (P : R -> Prop) (m : R) : Prop := P m /\ forall x, P x -> x <= m.
Lemma largest_of (P : R -> Prop) l : l <> [] -> (forall x, In x l <-> P x) -> exists m, np_max (map Fin l) = Ok (Fin m) /\ largest P m.
Proof. intros Hl H. destruct (np_max_fin l Hl) as (m & E & Hin & Hm). exists m. split; [exact E|]. split; [apply H, Hin|]. intros x Hx. apply Hm, H, Hx. Qed.

(** The bound computed after writes is the minimum of the same four numbers as at construction, but the weights are the
    current ones while the degrees, and whether the graph is directed, are those of construction: it is then a bound of
    neither matrix in particular. *)
Theorem C102_bound_after_writes :
  forall G cs G' w o o' r, built G -> built G' -> gW G' = weights G (plain cs) -> g_n_vertices G' = g_n_vertices G ->
    let n := g_n_vertices G in let d := dw (gW G) in
    (undirected G -> forall i j, (i < n)%nat -> (j < n)%nat -> w i j = wt G' i j) ->
    (~ undirected G -> forall i j, (i < n)%nat -> (j < n)%nat -> w i j = (wt G' i j + wt G' j i) / 2) ->
    (forall i, (i < n)%nat -> d i <> 0) -> (0 < g_n_edges G)%nat -> last_type G (plain cs) = Combinatorial -> only_plain cs ->
    wanswers (wfresh G) cs (Estimate "bounds" o) = Ok r ->
    exists m1 m2 m3 m4,
      largest (fun x => exists i j, (i < n)%nat /\ (j < n)%nat /\ x = wt G' i j) m1 /\
      largest (fun x => exists i, (i < n)%nat /\ x = d i) m2 /\
      largest (fun x => exists i j, (i < n)%nat /\ (j < n)%nat /\ (undirected G -> (i <= j)%nat) /\ wt G' i j <> 0 /\ x = d i + d j) m3 /\
      largest (fun x => exists i, (i < n)%nat /\ x = d i + (\sum_(j < n) (w i j * d j)) / d i) m4 /\
      wanswers (wfresh G) (cs ++ [Estimate "bounds" o]) (Lmax o') = Ok (Spectral (OutLmax (Some (Fin (Rmin (Rmin (Rmin (INR n * m1) (2 * m2)) m3) m4))))).
Proof.
  intros G cs G' w o o' r HG HG' EW Hnv n d Hwu Hwd Hd Hpos Ht Hp HE.
  pose proof (type_reached G cs HG) as Et. rewrite Ht in Et. destruct (wreached G cs HG) as (HR & I).
  destruct (reached G (plain cs) HG) as (_ & EWr). rewrite <- HR, <- EW in EWr.
  destruct (plain_run_none G cs Hp) as (N1 & N2 & N3 & N4 & N5).
  destruct (built_good G HG) as (Hg & Hn & He & _). destruct (built_good G' HG') as (Hg' & Hn' & _). fold n in Hn.
  assert (H0 : (0 < n)%nat).
  { destruct (C04_edge_list_enumerates_every_edge_once G HG) as (lg & Eg & Hlen & _ & Hin).
    destruct lg as [|[[a b] w0] lg]; [cbn in Hlen; lia|]. destruct (proj1 (Hin a b w0) (or_introl eq_refl)) as (Hb & _). unfold n. lia. }
  unfold wanswers in HE |- *. rewrite wrun_app. set (s := wrun (wfresh G) cs) in *.
  pose proof (bound_live G _ I) as HBL. destruct (whole_bound (o_live s)) as [v ub] eqn:EB. cbn [fst] in HBL. subst v.
  assert (Est : whole_estimate "bounds" o s = match ub with Ok b => (with_lmax (with_live (with_method s (Some "bounds"%string)) (o_live s)) (Some b), Ok tt) | Raise x => (with_live (with_method s (Some "bounds"%string)) (o_live s), Raise x) end).
  { unfold whole_estimate. rewrite N2. cbn zeta. cbn [String.eqb Ascii.eqb Bool.eqb].
    change (o_live (with_method s (Some "bounds"%string))) with (o_live s). rewrite EB. reflexivity. }
  cbn [wact] in HE. rewrite Est in HE.
  assert (Eu : exists b, ub = Ok b) by (destruct ub as [b|x]; [eexists; reflexivity|discriminate]). destruct Eu as (b & ->).
  assert (EL : snd (wact (wrun s [Estimate "bounds" o]) (Lmax o')) = Ok (Spectral (OutLmax (Some b)))).
  { rewrite wrun_cons. assert (E1 : o_lmax (fst (wact s (Estimate "bounds" o))) = Some b) by (cbn [wact]; rewrite Est; reflexivity).
    revert E1. generalize (fst (wact s (Estimate "bounds" o))). intros s2 E1. cbn [wrun fold_left wact]. unfold whole_lmax. rewrite E1. reflexivity. }
  rewrite EL. clear EL HE Est.
  assert (Hund : is_directed (gW G) = false -> undirected G).
  { intros Ed. apply NNPP. intros Hu. apply (C03_is_directed_iff_not_symmetric G HG) in Hu. congruence. }
  unfold whole_bound in EB. rewrite Et, (dw_reached G _ I), (directed_reached G _ I), EWr, (l_n G _ I), (l_ne G _ I), <- Hn, <- He in EB.
  apply pair_equal_spec in EB. destruct EB as (_ & EB). rewrite (proj2 (Nat.ltb_lt _ _) Hpos) in EB.
  destruct (max_weight_ok (gW G') Hg' ltac:(lia)) as (m1 & E1 & M1 & M1'). rewrite E1 in EB. cbn [bindr] in EB.
  destruct (largest_of (fun x => exists i, (i < n)%nat /\ x = d i) (map d (seq 0 n))) as (m2 & E2 & M2).
  { destruct n; [lia|discriminate]. }
  { intros x. rewrite in_map_iff. split; [intros (i & <- & Hi); apply in_seq in Hi; exists i; split; [lia|reflexivity]|intros (i & Hi & ->); exists i; split; [reflexivity|apply in_seq; lia]]. }
  rewrite map_map in E2. fold d in EB. rewrite E2 in EB. cbn [bindr] in EB.
  set (l := if is_directed (gW G) then stored (gW G') else filter (fun t => Nat.leb (fst (fst t)) (snd (fst t))) (stored (gW G'))).
  assert (Ee : snd (live_edges (o_live s)) = if Nat.eqb (v_ne (o_live s)) (List.length l) then Ok l else Raise AssertionError).
  { unfold live_edges. rewrite (directed_reached G _ I), EWr. reflexivity. }
  rewrite Ee in EB. destruct (Nat.eqb (v_ne (o_live s)) (List.length l)) eqn:Ene; [|discriminate]. cbn [bindr] in EB.
  apply Nat.eqb_eq in Ene. rewrite (l_ne G _ I), <- He in Ene.
  assert (Hl : forall i j v, In (i, j, v) l <-> (i < n)%nat /\ (j < n)%nat /\ v = wt G' i j /\ v <> 0 /\ (undirected G -> (i <= j)%nat)).
  { intros i j v. unfold l. destruct (is_directed (gW G)) eqn:Ed.
    - rewrite (good_entry _ i j v Hg'), <- Hn', Hnv. fold n. split; [intros (A & B & C & D); repeat split; try assumption; [rewrite C; exact D|]|intros (A & B & C & D & _); repeat split; try assumption; rewrite C in D; exact D].
      intros Hu. apply (C03_is_directed_iff_not_symmetric G HG) in Ed. contradiction.
    - rewrite filter_In, (good_entry _ i j v Hg'), <- Hn', Hnv. cbn [fst snd]. rewrite Nat.leb_le. fold n.
      split; [intros ((A & B & C & D) & E); repeat split; try assumption; [rewrite C; exact D|intros _; exact E]|intros (A & B & C & D & E); repeat split; try assumption; [rewrite C in D; exact D|apply E, Hund; reflexivity]]. }
  destruct (largest_of (fun x => exists i j, (i < n)%nat /\ (j < n)%nat /\ (undirected G -> (i <= j)%nat) /\ wt G' i j <> 0 /\ x = d i + d j) (map (fun e => d (fst (fst e)) + d (snd (fst e))) l)) as (m3 & E3 & M3).
  { destruct l; [cbn in Ene; lia|discriminate]. }
  { intros x. rewrite in_map_iff. split.
    - intros ([[i j] v] & <- & Hi). apply Hl in Hi. destruct Hi as (A & B & C & D & E). exists i, j. cbn [fst snd]. subst v. auto.
    - intros (i & j & A & B & C & D & ->). exists (i, j, wt G' i j). split; [reflexivity|]. apply Hl. auto. }
  rewrite map_map in E3. rewrite E3 in EB. cbn [bindr] in EB.
  assert (Em : map (merris_as (is_directed (gW G)) d n (gW G')) (seq 0 n) = map Fin (map (fun i => d i + (\sum_(j < n) (w i j * d j)) / d i) (seq 0 n))).
  { rewrite map_map. apply map_ext_in. intros i Hi. apply in_seq in Hi. unfold merris_as, xdiv. rewrite (proj2 (Reqb_false _ _) (Hd i ltac:(lia))). cbn [xadd]. do 3 f_equal.
    apply rsum_ext. intros j Hj. f_equal. unfold wlap_as. destruct (is_directed (gW G)) eqn:Ed; symmetry.
    - apply Hwd; [|lia|lia]. apply (C03_is_directed_iff_not_symmetric G HG). exact Ed.
    - apply Hwu; [|lia|lia]. apply Hund; reflexivity. }
  rewrite Em in EB.
  destruct (largest_of (fun x => exists i, (i < n)%nat /\ x = d i + (\sum_(j < n) (w i j * d j)) / d i) (map (fun i => d i + (\sum_(j < n) (w i j * d j)) / d i) (seq 0 n))) as (m4 & E4 & M4).
  { destruct n; [lia|discriminate]. }
  { intros x. rewrite in_map_iff. split; [intros (i & <- & Hi); apply in_seq in Hi; exists i; split; [lia|reflexivity]|intros (i & Hi & ->); exists i; split; [reflexivity|apply in_seq; lia]]. }
  rewrite E4 in EB. cbn [bindr app] in EB. exists m1, m2, m3, m4. split; [|split; [exact M2|split; [exact M3|split; [exact M4|]]]].
  - split; [destruct M1' as (i & j & A & B & C); exists i, j; repeat split; [lia|lia|exact C]|]. intros x (i & j & A & B & ->). apply M1; lia.
  - injection EB as <-. cbn [fold_left xscale py_min xlt].
    assert (F : forall x m, (if xlt (Fin x) (Fin m) then Fin x else Fin m) = Fin (Rmin m x)).
    { intros x m. cbn [xlt]. destruct (Rltb x m) eqn:E; [apply Rltb_true in E; rewrite Rmin_right by lra; reflexivity|apply Rltb_false in E; rewrite Rmin_left by lra; reflexivity]. }
    cbn [xlt] in F. rewrite !F. reflexivity.
Qed.

(** ** Findings *)
Lemma fourier_done e0 es U s s' : whole_fourier None (EigOk (e0 :: es) U) s = (s', Ok tt) -> o_basis s = None ->
  o_basis s' = Some (0 :: es, U) /\ o_lmax s' = Some (Fin (last (0 :: es) 0)).
Proof.
  intros E Hb. unfold whole_fourier in E. cbn zeta in E. rewrite Hb in E. destruct (_ && _)%bool in E; [|discriminate].
  destruct (whole_bound _) as [v [b|x]]; [|discriminate]. destruct (fle _ _); [|discriminate]. destruct (forallb _ _); [|discriminate].
  rewrite Nat.eqb_refl in E. apply pair_equal_spec in E. destruct E as (<- & _). split; reflexivity.
Qed.

Lemma written_pair : exists G G', built G /\ undirected G /\ nonneg_weights G /\ g_lap_type G = Combinatorial /\ g_n_vertices G = 2%nat /\
  built G' /\ undirected G' /\ nonneg_weights G' /\ g_n_vertices G' = 2%nat /\ g_n_edges G' = g_n_edges G /\
  (forall i, (i < 2)%nat -> dw (gW G) i = 1) /\ is_directed (gW G) = false /\
  (forall i j, (i < 2)%nat -> (j < 2)%nat -> get (gW G') i j = if Nat.eqb i j then 0 else 2) /\
  exact_eig 2 (gL G) 2 [0; 2] k2U.
Proof.
  destruct (finite_entry_built 2 [0; 1; 1; 0] Combinatorial None eq_refl (or_introl eq_refl)) as (G & _ & HG & Hn & Ht & _ & Hw).
  destruct (finite_entry_built 2 [0; 2; 2; 0] Combinatorial None eq_refl (or_introl eq_refl)) as (G' & _ & HG' & Hn' & _ & _ & Hw').
  destruct (k2_lap G HG Hn Hw) as (Hp & Hu & L00 & L11 & L01 & L10).
  assert (W2 : forall i j, (i < 2)%nat -> (j < 2)%nat -> wt G' i j = if Nat.eqb i j then 0 else 2).
  { intros i j Hi Hj. rewrite (Hw' i j Hi Hj). destruct i as [|[|i]]; try lia; destruct j as [|[|j]]; try lia; reflexivity. }
  assert (Hu' : undirected G').
  { intros i j Hi Hj. rewrite Hn' in Hi, Hj. rewrite !W2 by assumption. rewrite Nat.eqb_sym. reflexivity. }
  assert (Hp' : nonneg_weights G').
  { intros i j Hi Hj. rewrite Hn' in Hi, Hj. rewrite W2 by assumption. destruct (Nat.eqb i j); lra. }
  exists G, G'. do 9 (split; [assumption|]). split; [|split; [|split; [|split]]].
  - pose proof (C02_n_edges_undirected G HG Hu) as C1. pose proof (C02_n_edges_undirected G' HG' Hu') as C2.
    symmetry. eapply card_unique; [exact C1|]. destruct C2 as (l & Nd & Hin & Hl). exists l. split; [exact Nd|]. split; [|exact Hl].
    intros [i j]. rewrite Hin. cbn [fst snd]. rewrite Hn, Hn'.
    split; intros (A & B & C); (split; [exact A|split; [exact B|]]); rewrite ?W2, ?Hw in * by lia;
      destruct i as [|[|i]]; try lia; destruct j as [|[|j]]; try lia; cbn in *; lra.
  - intros i Hi. rewrite (proj2 (C08_weighted_degree G i HG ltac:(lia)) Hu), Hn. cbn [rsum]. rewrite !Hw by lia.
    destruct i as [|[|i]]; try lia; cbn; lra.
  - destruct (is_directed (gW G)) eqn:E; [|reflexivity]. apply (C03_is_directed_iff_not_symmetric G HG) in E. contradiction.
  - exact W2.
  - apply k2_exact; assumption.
Qed.

(** One edge whose weight is changed from 1 to 2 in place.  After compute_laplacian() of the same type L is no longer
    what e and U decompose: the first eigenpair fails, and L has an eigenvalue above lmax.  Nothing raises. *)
Theorem C102_stale_spectrum_refuted :
  exists G W, built G /\ undirected G /\ exact_eig 2 (gL G) 2 [0; 2] k2U /\
    let cs := [Basis (EigOk [0; 2] k2U); Plain (WriteW W); Plain (Laplacian Combinatorial)] in
    exists L, wanswers (wfresh G) cs (Plain ReadL) = Ok (Attr (AnsL L)) /\
      (forall o, wanswers (wfresh G) cs (Basis o) = Ok (Spectral (OutBasis (Some ([0; 2], k2U))))) /\
      (forall o, wanswers (wfresh G) cs (Lmax o) = Ok (Spectral (OutLmax (Some (Fin 2))))) /\
      (forall i, (i < 2)%nat -> mulv 2 L (fun j => k2U j 0%nat) i = - k2U i 0%nat /\ k2U i 0%nat <> 0) /\
      (forall i, (i < 2)%nat -> mulv 2 L (fun j => k2U j 1%nat) i = 3 * k2U i 1%nat).
Proof.
  destruct written_pair as (G & G' & HG & Hu & Hp & Ht & Hn & HG' & Hu' & Hp' & Hn' & He & Hdw & Hd & W2 & HE).
  exists G, (gW G'). split; [exact HG|]. split; [exact Hu|]. split; [exact HE|]. cbn zeta.
  set (cs := [Basis (EigOk [0; 2] k2U); Plain (WriteW (gW G')); Plain (Laplacian Combinatorial)]).
  destruct (C90_laplacian_after_writes G [WriteW (gW G')] HG) as (L & HL & EL); [intros t [H|[]]; discriminate|].
  exists L.
  assert (HLw : wanswers (wfresh G) cs (Plain ReadL) = Ok (Attr (AnsL L))).
  { rewrite (C102_spectral_calls_change_no_other_attribute G cs ReadL HG) by (intros; discriminate).
    unfold cs. cbn [plain flat_map app] in *. rewrite HL. reflexivity. }
  split; [exact HLw|].
  destruct (C16_basis_computation_never_fails G [] (cache_init G) None [0; 2] k2U HG Hp ltac:(lia)) as (s' & e' & U' & Ef & _).
  { intros t []. } { constructor. } { cbn. rewrite Hn. exact HE. }
  destruct (fresh_ok G HG) as (I & EW & Et & EL0 & _ & _ & Ec).
  assert (E0 : view_cache (wfresh G) = cache_init G).
  { apply (C102_unwritten_objects_match_the_caches G [] HG). intros W []. }
  destruct (step_fourier G None (EigOk [0; 2] k2U) (wfresh G) I EW) as (_ & Hs). rewrite E0, Ef in Hs. cbn [snd] in Hs.
  destruct (whole_fourier None (EigOk [0; 2] k2U) (wfresh G)) as [s1 r1] eqn:E1. cbn [snd] in Hs. subst r1.
  destruct (fourier_done _ _ _ _ _ E1 eq_refl) as (B1 & B2).
  assert (Hread : wanswers (wfresh G) [] (Basis (EigOk [0; 2] k2U)) = Ok (Spectral (OutBasis (Some ([0; 2], k2U))))).
  { unfold wanswers. cbn [wrun fold_left wact]. unfold whole_basis. change (o_basis (wfresh G)) with (@None (list R * mat)).
    rewrite E1. cbn [bindr snd]. rewrite B1. reflexivity. }
  assert (Hl : fst (wact (wfresh G) (Basis (EigOk [0; 2] k2U))) = s1).
  { cbn [wact]. unfold whole_basis. change (o_basis (wfresh G)) with (@None (list R * mat)). rewrite E1. reflexivity. }
  split; [|split; [|split]].
  - intros o. destruct (C102_basis_ignores_writes G [] [Plain (WriteW (gW G')); Plain (Laplacian Combinatorial)] (EigOk [0; 2] k2U) [0; 2] k2U HG Hread) as (H & _).
    + rewrite Hn. cbn. lia.
    + intros t' [H|[H|[]]]; [discriminate|injection H as <-]. symmetry. exact Ht.
    + intros k o' [H|[H|[]]]; discriminate.
    + exact (H o).
  - intros o. change cs with ([Basis (EigOk [0; 2] k2U)] ++ [Plain (WriteW (gW G')); Plain (Laplacian Combinatorial)]).
    assert (Hr : wanswers (wfresh G) [Basis (EigOk [0; 2] k2U)] (Lmax o) = Ok (Spectral (OutLmax (Some (Fin 2))))).
    { unfold wanswers. cbn [wrun fold_left]. rewrite Hl. cbn [wact]. unfold whole_lmax. rewrite B2. reflexivity. }
    pose proof (C102_lmax_ignores_writes G [Basis (EigOk [0; 2] k2U)] [Plain (WriteW (gW G')); Plain (Laplacian Combinatorial)] o (Fin 2) HG Hr) as H.
    specialize (H ltac:(intros t' [X|[X|[]]]; [discriminate|injection X as <-; symmetry; exact Ht])).
    specialize (H ltac:(intros c [<-|[<-|[]]]; left; eexists; reflexivity) o).
    unfold wanswers in H |- *. rewrite wrun_app in H. rewrite wrun_cons in H.
    assert (Hs1 : fst (wact (wrun (wfresh G) [Basis (EigOk [0; 2] k2U)]) (Lmax o)) = wrun (wfresh G) [Basis (EigOk [0; 2] k2U)]).
    { cbn [wrun fold_left]. rewrite Hl. cbn [wact]. unfold whole_lmax. rewrite B2. reflexivity. }
    rewrite Hs1 in H. rewrite wrun_app. exact H.
  - intros i Hi. assert (H0 : / sqrt 2 <> 0) by (apply Rinv_neq_0_compat; apply Rgt_not_eq; apply sqrt_lt_R0; lra).
    unfold mulv. cbn [rsum]. rewrite !EL, Hd. change (weights G [WriteW (gW G')]) with (gW G'). rewrite !W2 by lia.
    destruct i as [|[|i]]; try lia; cbn; rewrite Hdw by lia; (split; [ring|exact H0]).
  - intros i Hi. unfold mulv. cbn [rsum]. rewrite !EL, Hd. change (weights G [WriteW (gW G')]) with (gW G'). rewrite !W2 by lia.
    destruct i as [|[|i]]; try lia; cbn; rewrite Hdw by lia; ring.
Qed.

Lemma np_max_ok l : l <> [] -> exists m, np_max l = Ok m.
Proof. destruct l; [congruence|]. intros _. eexists. reflexivity. Qed.
(** When the writes kept the number of edges and the symmetry the estimate succeeds. *)
Lemma bound_succeeds G cs G' : built G -> built G' -> gW G' = weights G (plain cs) -> (undirected G <-> undirected G') ->
  g_n_edges G = g_n_edges G' -> (0 < g_n_edges G)%nat -> g_n_vertices G' = g_n_vertices G -> (0 < g_n_vertices G)%nat ->
  last_type G (plain cs) = Combinatorial -> exists b, snd (whole_bound (o_live (wrun (wfresh G) cs))) = Ok b.
Proof.
  intros HG HG' EW Hu Hne Hpos Hnv H0 Ht. destruct (edges_written G cs G' HG HG' EW Hu) as (l & Eg & El). rewrite (proj2 (Nat.eqb_eq _ _) Hne) in El.
  pose proof (type_reached G cs HG) as Et. rewrite Ht in Et. destruct (wreached G cs HG) as (HR & I).
  destruct (reached G (plain cs) HG) as (_ & EWr). rewrite <- HR in EWr. destruct (built_good G HG) as (_ & Hn & He & _). destruct (built_good G' HG') as (Hg' & Hn' & _).
  set (v := o_live (wrun (wfresh G) cs)) in *. unfold whole_bound. rewrite Et, (dw_reached G v I), (directed_reached G v I). cbn [snd].
  destruct (max_weight_ok (gW G') Hg' ltac:(lia)) as (mw & Emw & _). rewrite EWr, <- EW, Emw. cbn [bindr]. rewrite (l_n G v I), <- Hn.
  destruct (g_n_vertices G) as [|n] eqn:En; [lia|].
  destruct (np_max_ok (map (fun i => Fin (dw (gW G) i)) (seq 0 (S n)))) as (md & Emd); [discriminate|]. rewrite Emd. cbn [bindr].
  rewrite (l_ne G v I), <- He, (proj2 (Nat.ltb_lt _ _) Hpos), El. cbn [bindr].
  destruct (C04_edge_list_enumerates_every_edge_once G' HG') as (l' & El' & Hlen & _). assert (l' = l) by congruence. subst l'.
  destruct (np_max_ok (map (fun e => Fin (dw (gW G) (fst (fst e)) + dw (gW G) (snd (fst e)))) l)) as (m3 & E3); [destruct l; [cbn in Hlen; lia|discriminate]|]. rewrite E3. cbn [bindr].
  destruct (np_max_ok (map (merris_as (is_directed (gW G)) (dw (gW G)) (S n) (gW G')) (seq 0 (S n)))) as (m4 & E4); [discriminate|]. rewrite E4. cbn [bindr app py_min]. eexists. reflexivity.
Qed.
(** Finding: one edge whose weight is changed from 1 to 2 in place.  Even a first estimate by "bounds" made afterwards (2) is below an eigenvalue
    (3) of the L that compute_laplacian() gives. *)
Theorem C102_bound_after_writes_refuted :
  exists G W, built G /\ undirected G /\
    let cs := [Plain (WriteW W); Plain (Laplacian Combinatorial)] in
    (forall o, wanswers (wfresh G) cs (Estimate "bounds" o) = Ok (Spectral OutUnit) /\
       forall o', wanswers (wfresh G) (cs ++ [Estimate "bounds" o]) (Lmax o') = Ok (Spectral (OutLmax (Some (Fin 2))))) /\
    exists L x, wanswers (wfresh G) cs (Plain ReadL) = Ok (Attr (AnsL L)) /\ x 0%nat <> 0 /\ forall i, (i < 2)%nat -> mulv 2 L x i = 3 * x i.
Proof.
  destruct written_pair as (G & G' & HG & Hu & Hp & Ht & Hn & HG' & Hu' & Hp' & Hn' & He & Hdw & Hd & W2 & HE).
  exists G, (gW G'). split; [exact HG|]. split; [exact Hu|]. cbn zeta. set (cs := [Plain (WriteW (gW G')); Plain (Laplacian Combinatorial)]).
  assert (Hpl : only_plain cs) by (intros c [<-|[<-|[]]]; eexists; reflexivity).
  assert (Hpos : (0 < g_n_edges G)%nat).
  { destruct (C04_edge_list_enumerates_every_edge_once G' HG') as (l & _ & Hlen & _ & Hin). rewrite <- He.
    assert (X : In (0%nat, 1%nat, 2) l). { apply Hin. rewrite Hn'. split; [lia|]. split; [lia|]. unfold wt. rewrite W2 by lia. cbn. repeat split; try lra; lia. }
    destruct l; [destruct X|cbn in Hlen; lia]. }
  split.
  - intros o.
    assert (HO : wanswers (wfresh G) cs (Estimate "bounds" o) = Ok (Spectral OutUnit)).
    { destruct (bound_succeeds G cs G' HG HG' eq_refl ltac:(tauto) ltac:(congruence) Hpos ltac:(congruence) ltac:(lia) eq_refl) as (b & Eb).
      destruct (plain_run_none G cs Hpl) as (_ & N2 & _). unfold wanswers. set (s := wrun (wfresh G) cs) in *. cbn [wact]. unfold whole_estimate. rewrite N2. cbn zeta. cbn [String.eqb Ascii.eqb Bool.eqb].
      change (o_live (with_method s (Some "bounds"%string))) with (o_live s). destruct (whole_bound (o_live s)) as [v ub]. cbn [snd] in Eb. subst ub. reflexivity. }
    split; [exact HO|]. intros o'.
    destruct (C102_bound_after_writes G cs G' (wt G') o o' (Spectral OutUnit) HG HG' eq_refl ltac:(congruence)) as (m1 & m2 & m3 & m4 & M1 & M2 & M3 & M4 & E);
      [intros _ i j _ _; reflexivity|intros Hnu; contradiction|intros i Hi; rewrite Hdw by lia; lra|exact Hpos|reflexivity|exact Hpl|exact HO|].
    rewrite E. do 4 f_equal. rewrite Hn in *.
    assert (m1 = 2). { destruct M1 as ((i & j & Hi & Hj & E1) & Hm). assert (2 <= m1) by (apply Hm; exists 0%nat, 1%nat; split; [lia|]; split; [lia|]; unfold wt; rewrite W2 by lia; reflexivity). unfold wt in E1. rewrite W2 in E1 by lia. destruct (Nat.eqb i j); lra. }
    assert (m2 = 1). { destruct M2 as ((i & Hi & ->) & _). apply Hdw, Hi. }
    assert (m3 = 2). { destruct M3 as ((i & j & Hi & Hj & _ & _ & ->) & _). rewrite !Hdw by lia. ring. }
    assert (m4 = 3). { destruct M4 as ((i & Hi & ->) & _). unfold wt. cbn [rsum]. rewrite !Hdw, !W2 by lia. destruct i as [|[|i]]; try lia; cbn; field. }
    subst. f_equal. cbn [INR]. unfold Rmin. repeat destruct (Rle_dec _ _); lra.
  - destruct (C90_laplacian_after_writes G [WriteW (gW G')] HG) as (L & HL & EL); [intros t [H|[]]; discriminate|].
    exists L, (fun i => if Nat.eqb i 0 then 1 else -1). split; [|split; [cbn; lra|]].
    + rewrite (C102_spectral_calls_change_no_other_attribute G cs ReadL HG) by (intros; discriminate). unfold cs. cbn [plain flat_map app] in *. rewrite HL. reflexivity.
    + intros i Hi. unfold mulv. cbn [rsum]. rewrite !EL, Hd. change (weights G [WriteW (gW G')]) with (gW G'). rewrite !W2 by lia.
      destruct i as [|[|i]]; try lia; cbn; rewrite Hdw by lia; ring.
Qed.

(** The hypotheses of the theorems above are met: a history with a write that keeps the edges ... *)
Example C102_ex : exists G G' cs L, built G /\ undirected G /\ built G' /\ undirected G' /\ nonneg_weights G' /\ gW G' = weights G (plain cs) /\
  g_n_vertices G' = g_n_vertices G /\ g_n_edges G' = g_n_edges G /\ known (plain cs) /\
  wanswers (wfresh G) (cs ++ [Plain (Laplacian Combinatorial); ComputeD]) (Plain ReadL) = Ok (Attr (AnsL L)) /\ gW G' <> gW G.
Proof.
  destruct written_pair as (G & G' & HG & Hu & Hp & Ht & Hn & HG' & Hu' & Hp' & Hn' & He & Hdw & Hd & W2 & HE).
  exists G, G', [Lmax LanNoConvergence; Plain ReadA; Plain (WriteW (gW G')); Plain (Laplacian Normalized)]. eexists.
  do 5 (split; [assumption|]). split; [reflexivity|]. split; [congruence|]. split; [exact He|]. split.
  { intros t [H|[H|[H|[]]]]; try discriminate. injection H as <-. right. reflexivity. }
  split; [reflexivity|]. intros E. pose proof (Hdw 0%nat ltac:(lia)) as H1.
  rewrite (proj2 (C08_weighted_degree G 0 HG ltac:(lia)) Hu), Hn in H1. cbn [rsum] in H1. unfold wt in H1. rewrite <- E in H1.
  rewrite !W2 in H1 by lia. cbn in H1. lra.
Qed.

(** ... and one that adds an edge. *)
Example C102_edges_ex : exists G G' cs, built G /\ built G' /\ gW G' = weights G (plain cs) /\ (undirected G <-> undirected G') /\
  g_n_edges G <> g_n_edges G' /\ (0 < g_n_edges G)%nat /\ g_n_vertices G' = g_n_vertices G /\
  last_type G (plain cs) = Combinatorial /\ only_plain cs.
Proof.
  destruct (finite_entry_built 3 [0; 1; 0; 1; 0; 0; 0; 0; 0] Combinatorial None eq_refl (or_introl eq_refl)) as (G & _ & HG & Hn & Ht & _ & Hw).
  destruct (finite_entry_built 3 [0; 1; 0; 1; 0; 1; 0; 1; 0] Combinatorial None eq_refl (or_introl eq_refl)) as (G' & _ & HG' & Hn' & _ & _ & Hw').
  assert (Hu : undirected G).
  { intros i j Hi Hj. rewrite Hn in Hi, Hj. rewrite !Hw by assumption. destruct i as [|[|[|i]]]; try lia; destruct j as [|[|[|j]]]; try lia; reflexivity. }
  assert (Hu' : undirected G').
  { intros i j Hi Hj. rewrite Hn' in Hi, Hj. rewrite !Hw' by assumption. destruct i as [|[|[|i]]]; try lia; destruct j as [|[|[|j]]]; try lia; reflexivity. }
  assert (E1 : g_n_edges G = 1%nat).
  { eapply card_unique; [exact (C02_n_edges_undirected G HG Hu)|]. exists [(0, 1)%nat]. split; [repeat constructor; intros []|]. split; [|reflexivity].
    intros [i j]. cbn [fst snd]. rewrite Hn. split.
    - intros [E|[]]. injection E as <- <-. split; [lia|]. split; [lia|]. rewrite Hw by lia. cbn. lra.
    - intros (A & B & C). rewrite Hw in C by lia. destruct i as [|[|[|i]]]; try lia; destruct j as [|[|[|j]]]; try lia; cbn in C; try (exfalso; lra). left. reflexivity. }
  assert (E2 : g_n_edges G' = 2%nat).
  { eapply card_unique; [exact (C02_n_edges_undirected G' HG' Hu')|]. exists [(0, 1)%nat; (1, 2)%nat].
    split; [repeat constructor; cbn; try tauto; intros [E|[]]; discriminate|]. split; [|reflexivity].
    intros [i j]. cbn [fst snd]. rewrite Hn'. split.
    - intros [E|[E|[]]]; injection E as <- <-; (split; [lia|]; split; [lia|]; rewrite Hw' by lia; cbn; lra).
    - intros (A & B & C). rewrite Hw' in C by lia. destruct i as [|[|[|i]]]; try lia; destruct j as [|[|[|j]]]; try lia; cbn in C; try (exfalso; lra); cbn; auto. }
  exists G, G', [Plain (WriteW (gW G'))]. repeat split; try assumption; try lia; try tauto.
  intros c [<-|[]]. eexists. reflexivity.
Qed.
