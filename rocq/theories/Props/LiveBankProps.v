(** C97: filter banks over the life of their graph. *)
From Coq Require Import Reals Lra Lia List Arith Bool String ZArith.
From Verif.Base Require Import RSum Prelude LinAlg Spectral.
From Verif.Spec Require Import Matrix GraphSpec CacheSpec NdArray FilterSpec LiveSpec.
From Verif.Model Require Import Sparse Graph Difference Bounds Traverse Cache Filter Kernels LiveBanks.
From Verif.Proofs Require Import InitFacts CacheFacts SpectralFacts FilterFacts.
From Verif.Proofs Require Import LapFacts BoundFacts SubgraphFacts.
From Verif.Props Require Import Core Laplacian Caching Filtering Banks Frames.
Import ListNotations.
Open Scope R_scope.

(** ** Programs and what they read *)
Section Env.
  Variable lm : nat -> R.
  Variable ev : nat -> list R.
  Fixpoint plug {A} (p : prog A) : res A :=
    match p with Done r => r | GetLmax g k => plug (k (lm g)) | GetE g k => plug (k (ev g)) end.

  Lemma plug_bind {A B} (p : prog A) (f : A -> prog B) : plug (bindp p f) = bindr (plug p) (fun a => plug (f a)).
  Proof. induction p as [[a|x]|g k IH|g k IH]; cbn; auto. Qed.
  Lemma plug_map {A B} (f : A -> prog B) l : plug (mapp f l) = mapr (fun a => plug (f a)) l.
  Proof.
    induction l as [|a l IH]; [reflexivity|]. cbn [mapp mapr]. rewrite plug_bind. destruct (plug (f a)) as [b|x]; [|reflexivity].
    cbn [bindr]. rewrite plug_bind, IH. destruct (mapr _ l); reflexivity.
  Qed.
  Definition plugk (k : lkernel) : kernel := fun x => plug (k x).
  Lemma plug_evaluate ks x : plug (evaluate_l ks x) = evaluate (map plugk ks) x.
  Proof.
    unfold evaluate_l, evaluate. rewrite plug_map. induction ks as [|k ks IH]; [reflexivity|].
    cbn [map mapr]. rewrite plug_bind. unfold plugk at 1. destruct (plug (k x)) as [y|e]; cbn [bindr]; [|reflexivity].
    destruct (Nat.eqb _ _); cbn [plug bindr]; [rewrite IH|]; reflexivity.
  Qed.
End Env.

Inductive reads {A} (PL PE : nat -> Prop) : prog A -> Prop :=
| reads_done r : reads PL PE (Done r)
| reads_lmax g k : PL g -> (forall l, reads PL PE (k l)) -> reads PL PE (GetLmax g k)
| reads_e g k : PE g -> (forall e, reads PL PE (k e)) -> reads PL PE (GetE g k).

Lemma reads_bind {A B} PL PE (p : prog A) (f : A -> prog B) : reads PL PE p -> (forall a, reads PL PE (f a)) -> reads PL PE (bindp p f).
Proof.
  intros H Hf. induction H as [r|g k Hg Hk IH|g k Hg Hk IH]; cbn [bindp].
  - destruct r; [apply Hf|constructor].
  - constructor; auto.
  - constructor; auto.
Qed.
Lemma reads_map {A B} PL PE (f : A -> prog B) l : (forall a, In a l -> reads PL PE (f a)) -> reads PL PE (mapp f l).
Proof.
  induction l as [|a l IH]; intros H; cbn [mapp]; [constructor|].
  apply reads_bind; [apply H; left; reflexivity|]. intros b. apply reads_bind; [apply IH; intros; apply H; right; assumption|].
  intros bs. constructor.
Qed.
Lemma reads_evaluate PL PE ks x : (forall k, In k ks -> reads PL PE (k x)) -> reads PL PE (evaluate_l ks x).
Proof.
  intros H. apply reads_map. intros k Hk. apply reads_bind; [apply H; exact Hk|]. intros y. destruct (Nat.eqb _ _); constructor.
Qed.

(** Reading attributes that are already there gives them and changes nothing. *)
Lemma run_settled lan eig {A} PL PE lm ev (p : prog A) : reads PL PE p -> forall h,
  (forall g, PL g -> c_lmax (h g) = Some (Fin (lm g))) -> (forall g, PE g -> exists U, c_basis (h g) = Some (ev g, U)) ->
  snd (run lan eig h p) = Some (plug lm ev p) /\ same_heap (fst (run lan eig h p)) h.
Proof.
  induction 1 as [r|g k Hg Hk IH|g k Hg Hk IH]; intros h Hl He; cbn [run plug].
  - split; [reflexivity|intros i; reflexivity].
  - unfold read_lmax. rewrite (Hl g Hg).
    assert (E : forall i, upd h g (h g) i = h i) by (intros i; unfold upd; destruct (Nat.eqb_spec i g) as [->|]; reflexivity).
    destruct (IH (lm g) (upd h g (h g))) as (H1 & H2).
    + intros j Hj. rewrite E. apply Hl, Hj.
    + intros j Hj. rewrite E. apply He, Hj.
    + split; [exact H1|]. intros i. rewrite H2. apply E.
  - unfold read_basis. destruct (He g Hg) as (U & EU). rewrite EU.
    assert (E : forall i, upd h g (h g) i = h i) by (intros i; unfold upd; destruct (Nat.eqb_spec i g) as [->|]; reflexivity).
    destruct (IH (ev g) (upd h g (h g))) as (H1 & H2).
    + intros j Hj. rewrite E. apply Hl, Hj.
    + intros j Hj. rewrite E. apply He, Hj.
    + split; [exact H1|]. intros i. rewrite H2. apply E.
Qed.

Lemma read_lmax_stays o s s' v : read_lmax o s = (s', Ok (Some v)) -> c_lmax s' = Some v.
Proof.
  unfold read_lmax. destruct (c_lmax s) as [u|] eqn:E.
  - intros H. apply pair_equal_spec in H. destruct H as (<- & H). injection H as <-. exact E.
  - destruct (estimate_lmax _ _ _) as [t [[]|x]]; intros H; apply pair_equal_spec in H; destruct H as (<- & H); [|discriminate].
    injection H as H. exact H.
Qed.

(** A computation that reads nothing but lmax of g: the first read may run the estimation, the others
    find the value. *)
Lemma run_lmax lan eig {A} g (p : prog A) l s h ev : reads (eq g) (fun _ => False) p ->
  read_lmax (lan g (h g)) (h g) = (s, Ok (Some (Fin l))) ->
  snd (run lan eig h p) = Some (plug (fun _ => l) ev p) /\
  (same_heap (fst (run lan eig h p)) h \/ same_heap (fst (run lan eig h p)) (upd h g s)).
Proof.
  intros Hp Er. destruct Hp as [r|g' k <- Hk|g' k [] _]; cbn [run plug].
  - split; [reflexivity|left; intros i; reflexivity].
  - rewrite Er. destruct (run_settled lan eig (eq g) (fun _ => False) (fun _ => l) ev (k l) (Hk l) (upd h g s)) as (H1 & H2).
    + intros j <-. unfold upd. rewrite Nat.eqb_refl. apply (read_lmax_stays _ _ _ _ Er).
    + intros j [].
    + split; [exact H1|right; exact H2].
Qed.

(** ** The banks *)
Definition agree (k : kernel) (k' : kernel) : Prop := forall x, k x = k' x.
Lemma evaluate_agree ks ks' x : Forall2 agree ks ks' -> evaluate ks x = evaluate ks' x.
Proof. unfold evaluate. induction 1 as [|k k' r r' Hk Hr IH]; [reflexivity|]. cbn [mapr]. rewrite (Hk x), IH. reflexivity. Qed.

Lemma agree_length ks ks' : Forall2 agree ks ks' -> List.length ks = List.length ks'.
Proof. induction 1; cbn; congruence. Qed.
Lemma agree_refl ks : Forall2 agree ks ks.
Proof. induction ks; constructor; [intros x; reflexivity|assumption]. Qed.
Lemma agree_map {A} (f f' : A -> kernel) l : (forall a, In a l -> agree (f a) (f' a)) -> Forall2 agree (map f l) (map f' l).
Proof. induction l as [|a l IH]; intros H; constructor; [apply H; left; reflexivity|apply IH; intros; apply H; right; assumption]. Qed.

Lemma plug_at_lmax lm ev g f : agree (plugk lm ev (at_lmax g f)) (pw (f (lm g))).
Proof. intros x. reflexivity. Qed.
Lemma plug_complement lm ev ks fb : agree (plugk lm ev (complement_l ks fb)) (hd (fun _ => Raise IndexError) (complement (map (plugk lm ev) ks) fb)).
Proof.
  intros x. unfold plugk at 1, complement_l. rewrite plug_bind, plug_evaluate. unfold complement. cbn [hd].
  destruct (evaluate _ x); reflexivity.
Qed.
Lemma pair_agree lm ev g f : Forall2 agree (map (plugk lm ev) (pair_l g f)) (with_complement (lm g) f).
Proof.
  unfold pair_l, with_complement. cbn [app map complement]. constructor; [apply plug_at_lmax|]. constructor; [|constructor].
  intros x. rewrite plug_complement. unfold complement. cbn [hd map].
  rewrite (evaluate_agree _ [pw (fun x => f (x * 2 / lm g))] x); [reflexivity|]. repeat constructor.
Qed.
Lemma expwin_agree lm ev g a b s : agree (plugk lm ev (expwin_l g a b s)) (pw (expwin_fun (lm g) s a b)).
Proof. intros x. destruct a, b; reflexivity. Qed.
Lemma rect_agree lm ev g a b : agree (plugk lm ev (rect_l g a b)) (pw (rect_fun (lm g) a b)).
Proof. intros x. destruct a, b; reflexivity. Qed.
Lemma wave_bank l t s : Wave l t s = bindr (wave_pairs t s) (fun ps => Ok (map (fun p => pw (wave_fun l (fst p) (snd p))) ps)).
Proof.
  unfold Wave, wave_pairs. destruct (if Nat.eqb _ _ then _ else _) as [ts|]; [|reflexivity]. cbn [bindr]. destruct (existsb _ _); reflexivity.
Qed.

Lemma heat_build_false g sc : exists ls, (forall lm ev, plug lm ev (heat_build g sc false) = Ok ls) /\
  ls = map (fun s => at_lmax g (fun l x => heat_fun l s x / 1)) (pvals sc) /\ heat_build g sc false = Done (Ok ls).
Proof.
  exists (map (fun s => at_lmax g (fun l x => heat_fun l s x / 1)) (pvals sc)).
  assert (E : heat_build g sc false = Done (Ok (map (fun s => at_lmax g (fun l x => heat_fun l s x / 1)) (pvals sc)))).
  { unfold heat_build. cbn [bindp]. induction (pvals sc) as [|s r IH]; [reflexivity|]. cbn [mapp bindp map]. rewrite IH. reflexivity. }
  split; [intros; rewrite E; reflexivity|]. auto.
Qed.

(** A bank that follows its graph: building reads nothing, the kernels read only lmax of the graph, and
    with lmax = l they are the bank for l. *)
Lemma follows_shape junk g k : follows k ->
  exists r, build junk g k = Done r /\
    (forall x, r = Raise x -> forall F, fresh junk F k = Raise x) /\
    (forall ls, r = Ok ls -> (forall q x, In q ls -> reads (eq g) (fun _ => False) (q x)) /\
       forall lm ev F, v_lmax F = lm g -> exists ks, fresh junk F k = Ok ks /\ Forall2 agree (map (plugk lm ev) ls) ks).
Proof.
  assert (Hat : forall f x, reads (eq g) (fun _ => False) (at_lmax g f x)) by (intros; constructor; [reflexivity|intros; constructor]).
  assert (Hpair : forall f q x, In q (pair_l g f) -> reads (eq g) (fun _ => False) (q x)).
  { intros f q x [<-|[<-|[]]]; [apply Hat|]. unfold complement_l. apply reads_bind.
    - apply reads_evaluate. intros k' [<-|[]]. apply Hat.
    - intros y. constructor. }
  destruct 1 as [sc|t s|a b s|a b|a|a|a|d]; cbn [build].
  - destruct (heat_build_false g sc) as (ls & _ & El & E). exists (Ok ls). split; [exact E|]. split; [discriminate|].
    intros ls' H. injection H as <-. subst ls. split.
    + intros q x Hq. apply in_map_iff in Hq. destruct Hq as (s & <- & _). apply Hat.
    + intros lm ev F HF. eexists. split; [reflexivity|]. unfold Heat. rewrite map_map. apply agree_map. intros s _. rewrite HF. apply plug_at_lmax.
  - eexists. split; [reflexivity|]. split.
    + intros x Hx F. cbn [fresh]. rewrite wave_bank. destruct (wave_pairs t s); [discriminate|]. injection Hx as ->. reflexivity.
    + intros ls Hls. destruct (wave_pairs t s) as [ps|] eqn:Ep; [|discriminate]. injection Hls as <-. split.
      * intros q x Hq. apply in_map_iff in Hq. destruct Hq as (p & <- & _). apply Hat.
      * intros lm ev F HF. cbn [fresh]. rewrite wave_bank, Ep. eexists. split; [reflexivity|]. rewrite map_map, HF. apply agree_map. intros p _. apply plug_at_lmax.
  - eexists. split; [reflexivity|]. split; [discriminate|]. intros ls H. injection H as <-. split.
    + intros q x [<-|[]]. destruct a, b; repeat constructor.
    + intros lm ev F HF. eexists. split; [reflexivity|]. rewrite HF. constructor; [apply expwin_agree|constructor].
  - eexists. split; [reflexivity|]. split; [discriminate|]. intros ls H. injection H as <-. split.
    + intros q x [<-|[]]. destruct a, b; repeat constructor.
    + intros lm ev F HF. eexists. split; [reflexivity|]. rewrite HF. constructor; [apply rect_agree|constructor].
  - eexists. split; [reflexivity|]. split; [discriminate|]. intros ls H. apply (f_equal (fun r => match r with Ok u => u | Raise _ => [] end)) in H. cbn in H. subst ls. split; [apply Hpair|].
    intros lm ev F HF. eexists. split; [reflexivity|]. rewrite HF. apply pair_agree.
  - eexists. split; [reflexivity|]. split; [discriminate|]. intros ls H. apply (f_equal (fun r => match r with Ok u => u | Raise _ => [] end)) in H. cbn in H. subst ls. split; [apply Hpair|].
    intros lm ev F HF. eexists. split; [reflexivity|]. rewrite HF. apply pair_agree.
  - eexists. split; [reflexivity|]. split; [discriminate|]. intros ls H. apply (f_equal (fun r => match r with Ok u => u | Raise _ => [] end)) in H. cbn in H. subst ls. split; [apply Hpair|].
    intros lm ev F HF. eexists. split; [reflexivity|]. rewrite HF. apply pair_agree.
  - eexists. split; [reflexivity|]. split; [discriminate|]. intros ls H. apply (f_equal (fun r => match r with Ok u => u | Raise _ => [] end)) in H. cbn in H. subst ls. split; [apply Hpair|].
    intros lm ev F HF. eexists. split; [reflexivity|]. rewrite HF. apply pair_agree.
Qed.

Lemma built_shape junk g k : settled_at_build k ->
  reads (eq g) (fun _ => False) (build junk g k) /\
  forall lm ev F, v_lmax F = lm g -> plug lm ev (build junk g k) = bindr (fresh junk F k) (fun ks => Ok (map fixed ks)).
Proof.
  destruct 1 as [n s|n s|n o|n|n l s z|n l s a0 a1 a2 a3 x]; cbn [build fresh].
  - split; [destruct s; repeat constructor|]. intros lm ev F HF. destruct s; cbn [plug]; [reflexivity|]. rewrite HF. reflexivity.
  - split; [destruct s as [[|? ?]|]; repeat constructor|]. intros lm ev F HF. destruct s as [[|? ?]|]; cbn [plug]; rewrite ?HF; reflexivity.
  - split; [repeat constructor|]. intros lm ev F HF. cbn [plug]. rewrite HF. reflexivity.
  - split; [destruct (Nat.leb n 2); repeat constructor|]. intros lm ev F HF. unfold HalfCosine. destruct (Nat.leb n 2) eqn:E; cbn [plug]; [reflexivity|].
    rewrite HF. reflexivity.
  - split; [repeat constructor|]. intros lm ev F HF. cbn [plug]. rewrite HF. reflexivity.
  - split; [repeat constructor|]. intros lm ev F HF. cbn [plug]. rewrite HF. reflexivity.
Qed.
Lemma run_fixed lan eig h ks x : run lan eig h (evaluate_l (map fixed ks) x) = (h, Some (evaluate ks x)).
Proof.
  assert (E : evaluate_l (map fixed ks) x = Done (evaluate ks x)).
  { unfold evaluate_l, evaluate. induction ks as [|k ks IH]; [reflexivity|]. cbn [map mapp mapr]. unfold fixed at 1.
    destruct (k x) as [y|e]; cbn [bindp bindr]; [|reflexivity]. destruct (Nat.eqb _ _); cbn [bindp bindr]; [|reflexivity].
    rewrite IH. match goal with |- context [mapr ?f ks] => destruct (mapr f ks) end; reflexivity. }
  rewrite E. reflexivity.
Qed.

(** ** C97 *)

(** Heat (not normalized), Wave, Expwin, Rectangular, Held, Simoncelli, Papadakis, Regular: building the
    bank reads nothing of the graph and cannot depend on it.  Whenever it is evaluated afterwards, in any
    memory, the answer is the one of a bank built for the lmax that G.lmax returns at that moment; the
    only possible effect is the one of reading G.lmax. *)
Theorem C97_live_banks_follow_the_graph :
  forall junk lan eig g k, follows k ->
    exists r, (forall h0, run lan eig h0 (build junk g k) = (h0, Some r)) /\
      match r with
      | Raise x => forall F, fresh junk F k = Raise x
      | Ok ls => forall h s l x F, read_lmax (lan g (h g)) (h g) = (s, Ok (Some (Fin l))) -> v_lmax F = l ->
          exists ks h', fresh junk F k = Ok ks /\ run lan eig h (evaluate_l ls x) = (h', Some (evaluate ks x)) /\
            (same_heap h' h \/ same_heap h' (upd h g s))
      end.
Proof.
  intros junk lan eig g k Hk. destruct (follows_shape junk g k Hk) as (r & E & Hr & Ho). exists r.
  split; [intros h0; rewrite E; reflexivity|]. destruct r as [ls|x]; [|intros F; apply Hr; reflexivity].
  intros h s l x F Er HF. destruct (Ho ls eq_refl) as (Hreads & Hag).
  destruct (Hag (fun _ => l) (fun _ => []) F HF) as (ks & Ek & Hf).
  destruct (run_lmax lan eig g (evaluate_l ls x) l s h (fun _ => []) (reads_evaluate _ _ _ _ (fun q Hq => Hreads q x Hq)) Er) as (H1 & H2).
  exists ks, (fst (run lan eig h (evaluate_l ls x))). split; [exact Ek|]. split; [|exact H2].
  rewrite (surjective_pairing (run lan eig h (evaluate_l ls x))) at 1. rewrite H1, plug_evaluate, (evaluate_agree _ ks x Hf). reflexivity.
Qed.

(** Meyer, SimpleTight, Itersine, HalfCosine, MexicanHat, Abspline: building may read lmax, and fixes the
    bank; from then on it evaluates to the same values in every memory, whatever has happened to the graph,
    and evaluating it never touches a graph. *)
Theorem C97_other_banks_are_settled_when_built :
  forall junk lan eig g k h0 s l F, settled_at_build k ->
    read_lmax (lan g (h0 g)) (h0 g) = (s, Ok (Some (Fin l))) -> v_lmax F = l ->
    exists h' r, run lan eig h0 (build junk g k) = (h', Some r) /\
      (same_heap h' h0 \/ same_heap h' (upd h0 g s)) /\
      match fresh junk F k with
      | Raise x => r = Raise x
      | Ok ks => exists ls, r = Ok ls /\ List.length ls = List.length ks /\
          forall h x, run lan eig h (evaluate_l ls x) = (h, Some (evaluate ks x))
      end.
Proof.
  intros junk lan eig g k h0 s l F Hk Er HF. destruct (built_shape junk g k Hk) as (Hreads & Hp).
  destruct (run_lmax lan eig g _ l s h0 (fun _ => []) Hreads Er) as (H1 & H2).
  rewrite (Hp (fun _ => l) (fun _ => []) F HF) in H1.
  exists (fst (run lan eig h0 (build junk g k))). eexists. split; [rewrite <- H1; apply surjective_pairing|]. split; [exact H2|].
  destruct (fresh junk F k) as [ks|x]; [|reflexivity]. exists (map fixed ks). split; [reflexivity|]. split; [apply map_length|].
  intros h x. apply run_fixed.
Qed.

(** In a memory where the graph shows the view F (its basis and lmax are computed), every bank, built and
    evaluated there, is the bank of Model.Kernels for F, and nothing in memory changes: the theorems about
    those banks are about what the constructors return. *)
Theorem C97_building_and_evaluating_now :
  forall junk lan eig g k h F, view_of (h g) = Some F ->
    exists h' r, run lan eig h (build junk g k) = (h', Some r) /\ same_heap h' h /\
      match fresh junk F k with
      | Raise x => r = Raise x
      | Ok ks => exists ls, r = Ok ls /\ List.length ls = List.length ks /\
          forall x, exists h'', run lan eig h' (evaluate_l ls x) = (h'', Some (evaluate ks x)) /\ same_heap h'' h
      end.
Proof.
  intros junk lan eig g k h F HF.
  assert (Hv : c_lmax (h g) = Some (Fin (v_lmax F)) /\ exists U, c_basis (h g) = Some (v_e F, U)).
  { unfold view_of in HF. destruct (c_basis (h g)) as [[e U]|]; [|discriminate]. destruct (c_lmax (h g)) as [[l| | |]|]; try discriminate.
    injection HF as <-. split; [reflexivity|eexists; reflexivity]. }
  destruct Hv as (Hl & HE).
  assert (Er : forall h', same_heap h' h -> read_lmax (lan g (h' g)) (h' g) = (h' g, Ok (Some (Fin (v_lmax F))))).
  { intros h' Hh. unfold read_lmax. rewrite (Hh g), Hl. reflexivity. }
  assert (Hid : forall h', same_heap h' h -> forall h'', same_heap h'' h' \/ same_heap h'' (upd h' g (h' g)) -> same_heap h'' h).
  { intros h' Hh h'' [H|H] i; rewrite H; [apply Hh|]. unfold upd. destruct (Nat.eqb_spec i g) as [->|]; apply Hh. }
  assert (Hrefl : same_heap h h) by (intros i; reflexivity).
  assert (Hfo : follows k \/ settled_at_build k \/ exists sc, k = KHeat sc true).
  { destruct k as [sc [|]| | | | | | | | | | | | |]; try (left; constructor); try (right; left; constructor).
    right; right. eexists. reflexivity. }
  destruct Hfo as [Hk|[Hk|(sc & ->)]].
  - destruct (C97_live_banks_follow_the_graph junk lan eig g k Hk) as (r & E & Hr). exists h, r. split; [apply E|]. split; [exact Hrefl|].
    destruct r as [ls|x]; [|rewrite Hr; reflexivity].
    destruct (follows_shape junk g k Hk) as (r' & E' & _ & Ho). specialize (E h). rewrite E' in E. cbn in E. injection E as ->.
    destruct (Ho ls eq_refl) as (_ & Hag). destruct (Hag (fun _ => v_lmax F) (fun _ => []) F eq_refl) as (ks & Ek & Hf). rewrite Ek.
    exists ls. split; [reflexivity|]. split; [apply agree_length in Hf; rewrite map_length in Hf; exact Hf|].
    intros x. destruct (Hr h (h g) (v_lmax F) x F (Er h Hrefl) eq_refl) as (ks' & h'' & Ek' & E2 & H2). rewrite Ek in Ek'. injection Ek' as <-.
    exists h''. split; [exact E2|]. apply (Hid h Hrefl h'' H2).
  - destruct (C97_other_banks_are_settled_when_built junk lan eig g k h (h g) (v_lmax F) F Hk (Er h Hrefl) eq_refl) as (h' & r & E & Hh & Hr).
    exists h', r. split; [exact E|]. pose proof (Hid h Hrefl h' Hh) as Hs. split; [exact Hs|].
    destruct (fresh junk F k) as [ks|x]; [|exact Hr]. destruct Hr as (ls & El & Len & Hx). exists ls. split; [exact El|]. split; [exact Len|].
    intros x. exists h'. split; [apply Hx|exact Hs].
  - set (ls := map (fun s => at_lmax g (fun l x => heat_fun l s x / heat_norm (v_lmax F) (v_e F) s)) (pvals sc)).
    assert (Hb : reads (eq g) (eq g) (heat_build g sc true)).
    { apply reads_map. intros s _. apply reads_bind; [repeat constructor|]. intros n. constructor. }
    assert (Hp : plug (fun _ => v_lmax F) (fun _ => v_e F) (heat_build g sc true) = Ok ls).
    { unfold heat_build, ls. rewrite plug_map. induction (pvals sc) as [|s r IH]; [reflexivity|]. cbn [mapr map]. rewrite IH. reflexivity. }
    destruct (run_settled lan eig (eq g) (eq g) (fun _ => v_lmax F) (fun _ => v_e F) _ Hb h) as (H1 & H2).
    { intros j <-. exact Hl. } { intros j <-. exact HE. }
    rewrite Hp in H1. cbn [build fresh]. exists (fst (run lan eig h (heat_build g sc true))), (Ok ls).
    split; [rewrite <- H1; apply surjective_pairing|]. split; [exact H2|].
    exists ls. split; [reflexivity|]. split; [unfold ls, Heat; rewrite !map_length; reflexivity|]. intros x.
    assert (Hreads : reads (eq g) (eq g) (evaluate_l ls x)).
    { apply reads_evaluate. intros q Hq. apply in_map_iff in Hq. destruct Hq as (s & <- & _). repeat constructor. }
    destruct (run_settled lan eig (eq g) (eq g) (fun _ => v_lmax F) (fun _ => v_e F) _ Hreads (fst (run lan eig h (heat_build g sc true)))) as (H3 & H4).
    { intros j <-. rewrite (H2 g). exact Hl. } { intros j <-. rewrite (H2 g). exact HE. }
    eexists. split; [rewrite surjective_pairing at 1; rewrite H3, plug_evaluate|].
    + f_equal. f_equal. apply evaluate_agree. unfold ls, Heat. rewrite map_map. apply agree_map. intros s _. apply plug_at_lmax.
    + intros i. rewrite H4. apply H2.
Qed.

(** The normalized heat bank is in between: the numerator follows the graph, the norm is the one of the
    graph's spectrum when the bank was built. *)
Theorem C97_normalized_heat_keeps_its_norms :
  forall junk lan eig g scale h0 F0 ls h0', view_of (h0 g) = Some F0 ->
    run lan eig h0 (build junk g (KHeat scale true)) = (h0', Some (Ok ls)) ->
    forall h s l x, read_lmax (lan g (h g)) (h g) = (s, Ok (Some (Fin l))) ->
      snd (run lan eig h (evaluate_l ls x)) =
      Some (Ok (map (fun sc => map (fun t => heat_fun l sc t / heat_norm (v_lmax F0) (v_e F0) sc) x) (pvals scale))).
Proof.
  intros junk lan eig g scale h0 F0 ls h0' HF Eb h s l x Er.
  assert (Hv : c_lmax (h0 g) = Some (Fin (v_lmax F0)) /\ exists U, c_basis (h0 g) = Some (v_e F0, U)).
  { unfold view_of in HF. destruct (c_basis (h0 g)) as [[e U]|]; [|discriminate]. destruct (c_lmax (h0 g)) as [[l0| | |]|]; try discriminate.
    injection HF as <-. split; [reflexivity|eexists; reflexivity]. }
  destruct Hv as (Hl & HE). cbn [build] in Eb.
  assert (Hb : reads (eq g) (eq g) (heat_build g scale true)).
  { apply reads_map. intros q _. apply reads_bind; [repeat constructor|]. intros n. constructor. }
  destruct (run_settled lan eig (eq g) (eq g) (fun _ => v_lmax F0) (fun _ => v_e F0) _ Hb h0) as (H1 & _).
  { intros j <-. exact Hl. } { intros j <-. exact HE. }
  rewrite Eb in H1. cbn [snd] in H1.
  assert (Els : ls = map (fun sc => at_lmax g (fun l x => heat_fun l sc x / heat_norm (v_lmax F0) (v_e F0) sc)) (pvals scale)).
  { assert (Hp : plug (fun _ => v_lmax F0) (fun _ => v_e F0) (heat_build g scale true) =
       Ok (map (fun sc => at_lmax g (fun l x => heat_fun l sc x / heat_norm (v_lmax F0) (v_e F0) sc)) (pvals scale))).
    { unfold heat_build. rewrite plug_map. induction (pvals scale) as [|q r IH]; [reflexivity|]. cbn [mapr map]. rewrite IH. reflexivity. }
    rewrite Hp in H1. apply (f_equal (fun o => match o with Some (Ok u) => u | _ => [] end)) in H1. exact H1. }
  assert (Hreads : reads (eq g) (fun _ => False) (evaluate_l ls x)).
  { apply reads_evaluate. intros q Hq. rewrite Els in Hq. apply in_map_iff in Hq. destruct Hq as (sc & <- & _). repeat constructor. }
  destruct (run_lmax lan eig g (evaluate_l ls x) l s h (fun _ => []) Hreads Er) as (H2 & _).
  rewrite H2, plug_evaluate, Els, map_map. f_equal. unfold evaluate. clear.
  induction (pvals scale) as [|q r IH]; [reflexivity|]. cbn [map mapr]. unfold plugk at 1, at_lmax at 1. cbn [plug bindr].
  rewrite map_length, Nat.eqb_refl. cbn [bindr]. rewrite IH. reflexivity.
Qed.

(** The norms of a normalized heat bank are computed from the eigenvalues, and with the lmax that computing the
    eigenvalues leaves behind: whatever the graph had stored when the bank was built (nothing at all, or an
    estimated lmax), the bank is the one of the graph as it is afterwards. *)
Theorem C97_normalized_heat_is_built_from_the_spectrum :
  forall junk lan eig g scale h s e U F, pvals scale <> [] ->
    read_basis (eig g (h g)) (h g) = (s, Ok (Some (e, U))) -> view_of s = Some F ->
    exists h' ls, run lan eig h (build junk g (KHeat scale true)) = (h', Some (Ok ls)) /\ same_heap h' (upd h g s) /\
      forall x, snd (run lan eig h' (evaluate_l ls x)) =
        Some (Ok (map (fun sc => map (fun t => heat_fun (v_lmax F) sc t / heat_norm (v_lmax F) e sc) x) (pvals scale))).
Proof.
  intros junk lan eig g scale h s e U F Hne Eb HF.
  assert (HE : c_basis s = Some (e, U)).
  { unfold read_basis in Eb. destruct (c_basis (h g)) as [b|] eqn:E0.
    - apply pair_equal_spec in Eb. destruct Eb as (<- & E). rewrite E0. injection E as ->. reflexivity.
    - destruct (compute_fourier_basis None _ _) as [s' [u|]]; apply pair_equal_spec in Eb; destruct Eb as (<- & E); [|discriminate].
      injection E as E. exact E. }
  assert (Hl : c_lmax s = Some (Fin (v_lmax F)) /\ v_e F = e).
  { unfold view_of in HF. rewrite HE in HF. destruct (c_lmax s) as [[l0| | |]|]; try discriminate. injection HF as <-. split; reflexivity. }
  destruct Hl as (Hl & Ee).
  assert (Hs : (forall j, g = j -> c_lmax (upd h g s j) = Some (Fin (v_lmax F))) /\ (forall j, g = j -> exists V, c_basis (upd h g s j) = Some (e, V))).
  { split; intros j <-; unfold upd; rewrite Nat.eqb_refl; [exact Hl|exists U; exact HE]. }
  destruct Hs as (Hs1 & Hs2).
  assert (Hb : reads (eq g) (eq g) (heat_build g scale true)).
  { apply reads_map. intros q _. apply reads_bind; [repeat constructor|]. intros n. constructor. }
  assert (Hp : plug (fun _ => v_lmax F) (fun _ => e) (heat_build g scale true) =
     Ok (map (fun sc => at_lmax g (fun l x => heat_fun l sc x / heat_norm (v_lmax F) e sc)) (pvals scale))).
  { unfold heat_build. rewrite plug_map. induction (pvals scale) as [|q r IH]; [reflexivity|]. cbn [mapr map]. destruct r as [|q' r]; [reflexivity|]. rewrite IH by discriminate. reflexivity. }
  destruct (pvals scale) as [|q r] eqn:Es; [congruence|]. clear Hne.
  unfold heat_build in Hb, Hp. rewrite Es in Hb, Hp. cbn [build]. unfold heat_build. rewrite Es. cbn [mapp] in *. cbn [bindp] in *. cbn [plug] in Hp.
  inversion Hb as [|g' k _ Hk|g' k _ Hk]; subst. clear Hb.
  assert (Run : forall (A : Type) (k : list R -> prog A), run lan eig h (GetE g k) = run lan eig (upd h g s) (k (v_e F))).
  { intros A k. cbn [run]. rewrite Eb. reflexivity. }
  rewrite Run. clear Run. specialize (Hk (v_e F)).
  destruct (run_settled lan eig (eq g) (eq g) (fun _ => v_lmax F) (fun _ => v_e F) _ Hk (upd h g s) Hs1 Hs2) as (H1 & H2).
  cbn [plug] in H1. rewrite Hp in H1.
  eexists. eexists. split; [rewrite surjective_pairing at 1; rewrite H1; reflexivity|]. split; [exact H2|]. intros x.
  match goal with |- snd (run _ _ ?hh (evaluate_l ?ls _)) = _ => set (h' := hh) in *; set (ks := ls) end.
  assert (Hreads : reads (eq g) (eq g) (evaluate_l ks x)).
  { apply reads_evaluate. intros q' Hq. unfold ks in Hq. change (q :: r) with ([q] ++ r) in Hq. apply in_map_iff in Hq. destruct Hq as (sc & <- & _). repeat constructor. }
  destruct (run_settled lan eig (eq g) (eq g) (fun _ => v_lmax F) (fun _ => v_e F) _ Hreads h') as (H3 & _).
  { intros j Hj. rewrite (H2 j). apply Hs1, Hj. } { intros j Hj. rewrite (H2 j). apply Hs2, Hj. }
  rewrite H3, plug_evaluate. unfold ks. rewrite map_map. f_equal. unfold evaluate. clear.
  induction (q :: r) as [|q' r' IH]; [reflexivity|]. cbn [map mapr]. unfold plugk at 1, at_lmax at 1. cbn [plug bindr].
  rewrite map_length, Nat.eqb_refl. cbn [bindr]. rewrite IH. reflexivity.
Qed.

(** When reading lmax returns None (which happens after a change of Laplacian type, C15), evaluating raises
    TypeError. *)
Theorem C97_live_bank_raises_without_lmax :
  forall junk lan eig g k ls h0 h s x, follows k -> needs_lmax k -> run lan eig h0 (build junk g k) = (h0, Some (Ok ls)) -> ls <> [] ->
    read_lmax (lan g (h g)) (h g) = (s, Ok None) ->
    run lan eig h (evaluate_l ls x) = (upd h g s, Some (Raise TypeError)).
Proof.
  intros junk lan eig g k ls h0 h s x Hk Hn Eb Hne Er.
  destruct (follows_shape junk g k Hk) as (r & E & _). rewrite E in Eb. cbn in Eb. injection Eb as ->.
  assert (Hq : forall q qs kk, ls = q :: qs -> q x = GetLmax g kk -> run lan eig h (evaluate_l ls x) = (upd h g s, Some (Raise TypeError))).
  { intros q qs kk -> Hx. unfold evaluate_l. cbn [mapp]. rewrite Hx. cbn [bindp run]. rewrite Er. reflexivity. }
  assert (Hok : forall u v : list lkernel, @Done (list lkernel) (Ok u) = Done (Ok v) -> u = v).
  { intros u v H. apply (f_equal (fun p => match p with Done (Ok w) => w | _ => [] end)) in H. exact H. }
  destruct Hk as [sc|t w|a b w|a b|a|a|a|d]; cbn [build] in E.
  - destruct (heat_build_false g sc) as (ls' & _ & El & E'). rewrite E' in E. apply Hok in E. rewrite E in El.
    destruct (pvals sc) as [|q qs]; cbn [map] in El; [congruence|]. eapply Hq; [exact El|reflexivity].
  - destruct (wave_pairs t w) as [ps|]; [|discriminate]. cbn [bindr] in E. apply Hok in E.
    destruct ps as [|p ps]; cbn [map] in E; [congruence|]. eapply Hq; [symmetry; exact E|reflexivity].
  - apply Hok in E. destruct a, b; cbn in Hn; try contradiction; (eapply Hq; [symmetry; exact E|reflexivity]).
  - apply Hok in E. destruct a, b; cbn in Hn; try contradiction; (eapply Hq; [symmetry; exact E|reflexivity]).
  - apply Hok in E. eapply Hq; [symmetry; exact E|reflexivity].
  - apply Hok in E. eapply Hq; [symmetry; exact E|reflexivity].
  - apply Hok in E. eapply Hq; [symmetry; exact E|reflexivity].
  - apply Hok in E. eapply Hq; [symmetry; exact E|reflexivity].
Qed.

(** Finding: estimate lmax, build a bank, change the Laplacian type: every such bank has stopped working. *)
Theorem C97_type_change_breaks_live_banks_refuted :
  exists G r l s1 s2, built G /\ read_lmax (LanOk r) (cache_init G) = (s1, Ok (Some (Fin l))) /\
    compute_laplacian Normalized s1 = (s2, Ok tt) /\
    forall junk lan eig k ls h0 h x, follows k -> needs_lmax k -> run lan eig h0 (build junk 0 k) = (h0, Some (Ok ls)) -> ls <> [] ->
      (h 0%nat = s1 -> forall F, v_lmax F = l -> exists ks, fresh junk F k = Ok ks /\ snd (run lan eig h (evaluate_l ls x)) = Some (evaluate ks x)) /\
      (h 0%nat = s2 -> snd (run lan eig h (evaluate_l ls x)) = Some (Raise TypeError)).
Proof.
  destruct (ex_graph Combinatorial (or_introl eq_refl)) as (G & Hb & Hn & Ht & Hw).
  destruct (C14_upper_bound_is_upper_bound G Hb (ex_nonneg G Hn Hw) ltac:(lia)) as (b & Eb & _).
  exists G, b. eexists; eexists; eexists. split; [exact Hb|].
  assert (E : fle b (xadd (Fin b) (Fin (/ 10 ^ 12))) = true).
  { cbn. apply Rleb_true. assert (0 < / 10 ^ 12) by (apply Rinv_0_lt_compat; lra). lra. }
  split.
  { unfold read_lmax, estimate_lmax. cbn [cache_init c_lmax c_method String.eqb Ascii.eqb Bool.eqb c_W c_lap].
    rewrite Eb, E. reflexivity. }
  split; [unfold compute_laplacian; cbn; rewrite Ht; reflexivity|].
  intros junk lan eig k ls h0 h x Hk Hnl Ebu Hne. split; intros Hs.
  - destruct (C97_live_banks_follow_the_graph junk lan eig 0%nat k Hk) as (r & Er & Hr). rewrite (Er h0) in Ebu. injection Ebu as ->.
    intros F HF. destruct (Hr h (h 0%nat) _ x F ltac:(unfold read_lmax; rewrite Hs; reflexivity) HF) as (ks & h' & Ek & Ev & _).
    exists ks. split; [exact Ek|]. rewrite Ev. reflexivity.
  - rewrite (C97_live_bank_raises_without_lmax junk lan eig 0%nat k ls h0 h (h 0%nat) x Hk Hnl Ebu Hne); [reflexivity|].
    rewrite Hs. reflexivity.
Qed.

(** ** Filtering with bank objects *)
Lemma rows_evaluate (y : list (list R)) x : (forall r, In r y -> List.length r = List.length x) -> evaluate (map (fun r _ => Ok r) y) x = Ok y.
Proof.
  unfold evaluate. induction y as [|r y IH]; intros H; [reflexivity|]. cbn [map mapr bindr]. rewrite (H r (or_introl eq_refl)), Nat.eqb_refl. cbn [bindr].
  rewrite IH by (intros q Hq; apply H; right; exact Hq). reflexivity.
Qed.
Lemma evaluate_rows ks x y : evaluate ks x = Ok y -> List.length y = List.length ks /\ forall r, In r y -> List.length r = List.length x.
Proof.
  unfold evaluate. revert y. induction ks as [|k ks IH]; intros y E; cbn [mapr] in E.
  - injection E as <-. split; [reflexivity|intros r []].
  - destruct (k x) as [z|]; [|discriminate]. cbn [bindr] in E. destruct (Nat.eqb_spec (List.length z) (List.length x)) as [Hz|]; [|discriminate].
    cbn [bindr] in E. match type of E with context [mapr ?f ks] => destruct (mapr f ks) as [ys|] eqn:Es end; [|discriminate].
    injection E as <-. destruct (IH ys eq_refl) as (Hl & Hr). split; [cbn; rewrite Hl; reflexivity|]. intros r [<-|Hin]; [exact Hz|apply Hr, Hin].
Qed.
Lemma gfilter_rows F ks y s : evaluate ks (v_e F) = Ok y -> gfilter F (map (fun r _ => Ok r) y) Exact s = gfilter F ks Exact s.
Proof.
  intros E. destruct (evaluate_rows _ _ _ E) as (Hl & Hr). unfold gfilter. rewrite map_length, Hl.
  destruct (to_3d _ _ _) as [t|]; [|reflexivity]. cbn [bindr filter3]. unfold filter_exact3.
  rewrite (rows_evaluate y (v_e F) Hr), E, map_length, Hl. reflexivity.
Qed.

(** Filtering (method "exact") a signal of any graph H with a bank built on g that follows g -- g(H), or H = g
    -- is filtering with the bank for the present lmax of g. *)
Theorem C97_exact_filtering_with_a_live_bank :
  forall junk lan eig g k ls h0 h s l F FH sig, follows k -> run lan eig h0 (build junk g k) = (h0, Some (Ok ls)) ->
    read_lmax (lan g (h g)) (h g) = (s, Ok (Some (Fin l))) -> v_lmax F = l ->
    exists ks h', fresh junk F k = Ok ks /\ filter_exact_l lan eig h FH ls sig = (h', Some (gfilter FH ks Exact sig)) /\
      (same_heap h' h \/ same_heap h' (upd h g s)).
Proof.
  intros junk lan eig g k ls h0 h s l F FH sig Hk Eb Er HF.
  destruct (C97_live_banks_follow_the_graph junk lan eig g k Hk) as (r & E & Hr). rewrite (E h0) in Eb. injection Eb as ->.
  destruct (Hr h s l (v_e FH) F Er HF) as (ks & h' & Ek & Ev & Hh). exists ks.
  assert (Hlen : List.length ls = List.length ks).
  { destruct (follows_shape junk g k Hk) as (r' & E' & _ & Ho). specialize (E h0). rewrite E' in E. cbn in E. injection E as ->.
    destruct (Ho ls eq_refl) as (_ & Hag). destruct (Hag (fun _ => l) (fun _ => []) F HF) as (ks' & Ek' & Hf). rewrite Ek in Ek'. injection Ek' as <-.
    apply agree_length in Hf. rewrite map_length in Hf. exact Hf. }
  unfold filter_exact_l. rewrite Hlen. destruct (to_3d (v_N FH) (List.length ks) sig) as [t|x] eqn:Et.
  - rewrite Ev. destruct (evaluate ks (v_e FH)) as [y|x] eqn:Ey.
    + exists h'. split; [exact Ek|]. split; [rewrite (gfilter_rows FH ks y sig Ey); reflexivity|exact Hh].
    + exists h'. split; [exact Ek|]. split; [|exact Hh]. unfold gfilter. rewrite Et. cbn [bindr filter3]. unfold filter_exact3. rewrite Ey. reflexivity.
  - exists h. split; [exact Ek|]. split; [unfold gfilter; rewrite Et; reflexivity|left; intros i; reflexivity].
Qed.

(** Held, Simoncelli, Papadakis, Regular: whatever graph the bank was built on, whatever has happened to that
    graph since (as long as its lmax is positive), and whatever graph the signals live on, analysis preserves
    energy and synthesis gives the signal back. *)
Theorem C97_complement_pairs_stay_tight :
  forall junk lan eig g k ls h0 h l FH x, complement_pair k -> run lan eig h0 (build junk g k) = (h0, Some (Ok ls)) ->
    c_lmax (h g) = Some (Fin l) -> 0 < l -> spectral FH -> (1 < v_N FH)%nat ->
    (forall t, In t (v_e FH) -> 0 <= t <= v_lmax FH) ->
    exists out back h1 h2, filter_exact_l lan eig h FH ls (vec_arr (v_N FH) x) = (h1, Some (Ok out)) /\
      filter_exact_l lan eig h1 FH ls out = (h2, Some (Ok back)) /\ same_heap h2 h /\
      \sum_(f < 2) normsq (v_N FH) (ans FH 2 out f) = normsq (v_N FH) x /\
      forall n, (n < v_N FH)%nat -> rd [v_N FH; 1%nat; 1%nat] back [n; 0%nat; 0%nat] = x n.
Proof.
  intros junk lan eig g k ls h0 h l FH x Hk Eb Hl Hpos HF HN He.
  set (F := mkview 0 (fun _ _ => 0) l [] (fun _ _ => 0)).
  assert (Hfo : follows k) by (destruct Hk; constructor).
  assert (HT : exists ks, fresh junk F k = Ok ks /\ List.length ks = 2%nat /\ tight_bank ks 0 (v_lmax FH) 1).
  { destruct Hk as [a Ha|a Ha|a Ha|d].
    - exists (Held junk l a). repeat (split; [reflexivity|]). apply (C23_held_simoncelli_papadakis_regular junk l a 0 (v_lmax FH) Hpos Ha).
    - exists (Simoncelli junk l a). repeat (split; [reflexivity|]). apply (C23_held_simoncelli_papadakis_regular junk l a 0 (v_lmax FH) Hpos Ha).
    - exists (Papadakis junk l a). repeat (split; [reflexivity|]). apply (C23_held_simoncelli_papadakis_regular junk l a 0 (v_lmax FH) Hpos Ha).
    - exists (Regular l d). repeat (split; [reflexivity|]). apply (C23_held_simoncelli_papadakis_regular junk l 1 d (v_lmax FH) Hpos Rlt_0_1). }
  destruct HT as (ks & Ek & Len & HT).
  destruct (C23_tight_banks_preserve_energy_and_reconstruct FH ks 1 x HF HN ltac:(lia) HT He) as (out & back & Eo & Ebk & Hen & Hrec).
  assert (Hrd : forall h', same_heap h' h -> read_lmax (lan g (h' g)) (h' g) = (h' g, Ok (Some (Fin l)))).
  { intros h' Hh. unfold read_lmax. rewrite (Hh g), Hl. reflexivity. }
  assert (Hid : forall h', same_heap h' h -> forall h'', same_heap h'' h' \/ same_heap h'' (upd h' g (h' g)) -> same_heap h'' h).
  { intros h' Hh h'' [H|H] i; rewrite H; [apply Hh|]. unfold upd. destruct (Nat.eqb_spec i g) as [->|]; apply Hh. }
  assert (Hrefl : same_heap h h) by (intros i; reflexivity).
  destruct (C97_exact_filtering_with_a_live_bank junk lan eig g k ls h0 h (h g) l F FH (vec_arr (v_N FH) x) Hfo Eb (Hrd h Hrefl) eq_refl) as (ks1 & h1 & Ek1 & E1 & H1).
  rewrite Ek in Ek1. injection Ek1 as <-. pose proof (Hid h Hrefl h1 H1) as S1.
  destruct (C97_exact_filtering_with_a_live_bank junk lan eig g k ls h0 h1 (h1 g) l F FH out Hfo Eb (Hrd h1 S1) eq_refl) as (ks2 & h2 & Ek2 & E2 & H2).
  rewrite Ek in Ek2. injection Ek2 as <-. rewrite Eo in E1. rewrite Ebk in E2. rewrite Len in Hen.
  exists out, back, h1, h2. split; [exact E1|]. split; [exact E2|]. split; [apply (Hid h1 S1 h2 H2)|]. split; [lra|].
  intros n Hn. rewrite (Hrec n Hn). ring.
Qed.

(** *** The default method *)
Lemma plug_coeff lm ev H ks m : plug lm ev (cheby_coeff_l H ks m) = compute_cheby_coeff (lm H) (map (plugk lm ev) ks) m None.
Proof.
  unfold cheby_coeff_l, compute_cheby_coeff. destruct ks as [|k0 ks0]; [reflexivity|]. set (ks := k0 :: ks0).
  change (match map (plugk lm ev) ks with [] => Raise IndexError | _ :: _ => mapr (fun k => cheby_coeff1 (lm H) k m None) (map (plugk lm ev) ks) end)
    with (mapr (fun k => cheby_coeff1 (lm H) k m None) (map (plugk lm ev) ks)).
  rewrite plug_map. generalize ks. clear. intros ks. induction ks as [|k ks IH]; [reflexivity|]. cbn [map mapr]. rewrite <- IH.
  cbn [plug]. rewrite plug_bind. unfold cheby_coeff1 at 1, plugk at 1. destruct (plug lm ev (k _)) as [y|e]; reflexivity.
Qed.
Lemma coeff_agree l ks ks' m : Forall2 agree ks ks' -> compute_cheby_coeff l ks m None = compute_cheby_coeff l ks' m None.
Proof.
  intros H. unfold compute_cheby_coeff. assert (E : mapr (fun k => cheby_coeff1 l k m None) ks = mapr (fun k => cheby_coeff1 l k m None) ks').
  { induction H as [|k k' r r' Hk Hr IH]; [reflexivity|]. cbn [mapr]. unfold cheby_coeff1 at 1 3. rewrite (Hk _), IH. reflexivity. }
  destruct H; [reflexivity|exact E].
Qed.
(** The Chebyshev method looks only at N, L and lmax. *)
Lemma cheby_op_view F F' c s : v_N F = v_N F' -> v_L F = v_L F' -> v_lmax F = v_lmax F' -> cheby_op F c s = cheby_op F' c s.
Proof. destruct F, F'. cbn. intros -> -> ->. reflexivity. Qed.
Lemma cheb_view F F' c Nf s : v_N F = v_N F' -> v_L F = v_L F' -> v_lmax F = v_lmax F' ->
  cheb_analysis F c Nf s = cheb_analysis F' c Nf s /\ cheb_synthesis F c s = cheb_synthesis F' c s.
Proof. destruct F, F'. cbn. intros -> -> ->. split; reflexivity. Qed.
Lemma read_lmax_keeps o s : c_N (fst (read_lmax o s)) = c_N s /\ c_L (fst (read_lmax o s)) = c_L s /\
  c_basis (fst (read_lmax o s)) = c_basis s /\ c_lap (fst (read_lmax o s)) = c_lap s.
Proof.
  unfold read_lmax. destruct (c_lmax s); [auto|]. unfold estimate_lmax.
  destruct (match c_method s with Some m' => _ | None => _ end); [cbn; auto|]. cbn [String.eqb Ascii.eqb Bool.eqb].
  destruct o; [|cbn; auto|cbn; auto]. destruct (upper_bound _ _); [|cbn; auto]. destruct (fle _ _); cbn; auto.
Qed.

(** filter() with the default method, on the graph the bank was built on, for banks that follow it: the answer is the
    Chebyshev filter (C20) of the bank for the lmax that G.lmax returns, for any eigendecomposition e, U of L one may
    think of; all it leaves on the graph is the effect of reading G.lmax: the Fourier basis is not computed. *)
Theorem C97_default_filtering_with_a_live_bank :
  forall junk lan eig g k ls h0 h s l F order sig, follows k -> run lan eig h0 (build junk g k) = (h0, Some (Ok ls)) ->
    read_lmax (lan g (h g)) (h g) = (s, Ok (Some (Fin l))) ->
    v_N F = c_N (h g) -> v_L F = c_L (h g) -> v_lmax F = l ->
    exists ks h', fresh junk F k = Ok ks /\
      filter_cheb_l lan eig h g ls order sig = (h', Some (gfilter F ks (Chebyshev order) sig)) /\
      (same_heap h' h \/ same_heap h' (upd h g s)) /\ c_basis (h' g) = c_basis (h g) /\ c_L (h' g) = c_L (h g).
Proof.
  intros junk lan eig g k ls h0 h s l F order sig Hk Eb Er HN HL Hl.
  destruct (follows_shape junk g k Hk) as (r & E & _ & Ho). rewrite E in Eb. cbn in Eb. injection Eb as ->.
  destruct (Ho ls eq_refl) as (Hreads & Hag). destruct (Hag (fun _ => l) (fun _ => []) F Hl) as (ks & Ek & Hf).
  pose proof (agree_length _ _ Hf) as Hlen. rewrite map_length in Hlen.
  destruct (read_lmax_keeps (lan g (h g)) (h g)) as (K1 & K2 & K3 & _). rewrite Er in K1, K2, K3. cbn [fst] in K1, K2, K3.
  assert (Hup : forall h', same_heap h' h \/ same_heap h' (upd h g s) -> c_N (h' g) = c_N (h g) /\ c_L (h' g) = c_L (h g) /\ c_basis (h' g) = c_basis (h g)).
  { intros h' [H|H]; rewrite H; [auto|]. unfold upd. rewrite Nat.eqb_refl. auto. }
  assert (Hc : reads (eq g) (fun _ => False) (cheby_coeff_l g ls order)).
  { unfold cheby_coeff_l. destruct ls as [|q0 qs0]; [constructor|]. apply reads_map. intros q Hq. constructor; [reflexivity|]. intros l'.
    apply reads_bind; [apply Hreads; exact Hq|intros y; constructor]. }
  destruct (run_lmax lan eig g _ l s h (fun _ => []) Hc Er) as (H1 & H2).
  rewrite plug_coeff, (coeff_agree l _ ks order Hf) in H1.
  exists ks. unfold filter_cheb_l. rewrite <- HN, Hlen. destruct (to_3d (v_N F) (List.length ks) sig) as [s3|x] eqn:Et.
  2:{ exists h. split; [exact Ek|]. split; [unfold gfilter; rewrite Et; reflexivity|]. split; [left; intros i; reflexivity|]. auto. }
  rewrite (surjective_pairing (run lan eig h (cheby_coeff_l g ls order))), H1. set (h' := fst (run lan eig h (cheby_coeff_l g ls order))) in *.
  exists h'. split; [exact Ek|]. destruct (Hup h' H2) as (J1 & J2 & J3). split; [|split; [exact H2|split; assumption]].
  destruct (compute_cheby_coeff l ks order None) as [c|x] eqn:Ec.
  - assert (Hm : c_lmax (h' g) = Some (Fin l)).
    { destruct ks as [|k1 ks1]; [discriminate|]. destruct ls as [|q0 qs0]; [discriminate|].
      assert (HH : same_heap h' (upd h g s)).
      { unfold h', cheby_coeff_l. cbn [mapp bindp run]. rewrite Er.
        match goal with |- same_heap (fst (run _ _ _ ?p)) _ => assert (Hp : reads (eq g) (fun _ => False) p) end.
        { unfold cheby_coeff_l in Hc. cbn [mapp bindp] in Hc. inversion Hc as [|? ? _ Hc'|? ? []]; subst. apply Hc'. }
        apply (run_settled lan eig (eq g) (fun _ => False) (fun _ => l) (fun _ => []) _ Hp); [|intros ? []].
        intros j <-. unfold upd. rewrite Nat.eqb_refl. apply (read_lmax_stays _ _ _ _ Er). }
      rewrite HH. unfold upd. rewrite Nat.eqb_refl. apply (read_lmax_stays _ _ _ _ Er). }
    rewrite Hm. f_equal. f_equal. unfold gfilter. rewrite Et. cbn [bindr filter3]. unfold filter_cheb3. rewrite Hl, Ec. cbn [bindr].
    destruct (cheb_view (mkview (c_N (h' g)) (c_L (h' g)) l [] (fun _ _ => 0)) F c (List.length ks) s3) as (A1 & A2); cbn [v_N v_L v_lmax]; try congruence.
    rewrite A1, A2. reflexivity.
  - f_equal. f_equal. unfold gfilter. rewrite Et. cbn [bindr filter3]. unfold filter_cheb3. rewrite Hl, Ec. reflexivity.
Qed.

(** The banks that are settled when built, filtering signals of any graph H in any later state: exactly, or with
    the default method, they act as the bank for the lmax at construction; the spectrum, or the lmax for the
    Chebyshev interval, is the one of H at the time of filtering. *)
Theorem C97_filtering_with_a_settled_bank :
  forall junk lan eig g k h0 s0 l0 F0 ls h0', settled_at_build k ->
    read_lmax (lan g (h0 g)) (h0 g) = (s0, Ok (Some (Fin l0))) -> v_lmax F0 = l0 ->
    run lan eig h0 (build junk g k) = (h0', Some (Ok ls)) ->
    exists ks, fresh junk F0 k = Ok ks /\
      (forall h FH sig, filter_exact_l lan eig h FH ls sig = (h, Some (gfilter FH ks Exact sig))) /\
      (forall h H s l FH order sig, read_lmax (lan H (h H)) (h H) = (s, Ok (Some (Fin l))) ->
         v_N FH = c_N (h H) -> v_L FH = c_L (h H) -> v_lmax FH = l ->
         exists h', filter_cheb_l lan eig h H ls order sig = (h', Some (gfilter FH ks (Chebyshev order) sig)) /\
           (same_heap h' h \/ same_heap h' (upd h H s)) /\ c_basis (h' H) = c_basis (h H)).
Proof.
  intros junk lan eig g k h0 s0 l0 F0 ls h0' Hk Er HF Eb.
  destruct (built_shape junk g k Hk) as (Hreads & Hp).
  destruct (run_lmax lan eig g _ l0 s0 h0 (fun _ => []) Hreads Er) as (H1 & _).
  rewrite (Hp (fun _ => l0) (fun _ => []) F0 HF), Eb in H1. cbn [snd] in H1.
  destruct (fresh junk F0 k) as [ks|]; [|discriminate]. cbn [bindr] in H1.
  apply (f_equal (fun o => match o with Some (Ok u) => u | _ => [] end)) in H1. subst ls. exists ks. split; [reflexivity|]. split.
  - intros h FH sig. unfold filter_exact_l. rewrite map_length, run_fixed. destruct (to_3d _ _ sig) as [t|x] eqn:Et.
    + destruct (evaluate ks (v_e FH)) as [y|x] eqn:Ey.
      * rewrite (gfilter_rows FH ks y sig Ey). reflexivity.
      * unfold gfilter. rewrite Et. cbn [bindr filter3]. unfold filter_exact3. rewrite Ey. reflexivity.
    + unfold gfilter. rewrite Et. reflexivity.
  - intros h H s l FH order sig Eh HN HL Hl.
    assert (Hf : Forall2 agree (map (plugk (fun _ => l) (fun _ => [])) (map fixed ks)) ks).
    { rewrite map_map. clear. induction ks as [|q qs IH]; constructor; [intros x; reflexivity|exact IH]. }
    destruct (read_lmax_keeps (lan H (h H)) (h H)) as (K1 & K2 & K3 & _). rewrite Eh in K1, K2, K3. cbn [fst] in K1, K2, K3.
    assert (Hup : forall h', same_heap h' h \/ same_heap h' (upd h H s) -> c_N (h' H) = c_N (h H) /\ c_L (h' H) = c_L (h H) /\ c_basis (h' H) = c_basis (h H)).
    { intros h' [J|J]; rewrite J; [auto|]. unfold upd. rewrite Nat.eqb_refl. auto. }
    assert (Hq : forall (q : lkernel) x, In q (map fixed ks) -> reads (eq H) (fun _ => False) (q x)).
    { intros q x Hin. apply in_map_iff in Hin. destruct Hin as (q' & <- & _). constructor. }
    assert (Hc : reads (eq H) (fun _ => False) (cheby_coeff_l H (map fixed ks) order)).
    { unfold cheby_coeff_l. destruct (map fixed ks) as [|q0 qs0]; [constructor|]. apply reads_map. intros q Hin. constructor; [reflexivity|]. intros l'.
      apply reads_bind; [apply Hq; exact Hin|intros y; constructor]. }
    destruct (run_lmax lan eig H _ l s h (fun _ => []) Hc Eh) as (J1 & J2).
    rewrite plug_coeff, (coeff_agree l _ ks order Hf) in J1.
    unfold filter_cheb_l. rewrite <- HN, map_length. destruct (to_3d (v_N FH) (List.length ks) sig) as [s3|x] eqn:Et.
    2:{ exists h. split; [unfold gfilter; rewrite Et; reflexivity|]. split; [left; intros i; reflexivity|reflexivity]. }
    rewrite (surjective_pairing (run lan eig h (cheby_coeff_l H (map fixed ks) order))), J1. set (h' := fst (run lan eig h (cheby_coeff_l H (map fixed ks) order))) in *.
    exists h'. destruct (Hup h' J2) as (I1 & I2 & I3). split; [|split; [exact J2|exact I3]].
    destruct (compute_cheby_coeff l ks order None) as [c|x] eqn:Ec.
    + assert (Hm : c_lmax (h' H) = Some (Fin l)).
      { destruct ks as [|k1 ks1]; [discriminate|].
        assert (HH : same_heap h' (upd h H s)).
        { unfold h', cheby_coeff_l. cbn [map mapp bindp run]. rewrite Eh.
          match goal with |- same_heap (fst (run _ _ _ ?p)) _ => assert (Hpp : reads (eq H) (fun _ => False) p) end.
          { unfold cheby_coeff_l in Hc. cbn [map mapp bindp] in Hc. inversion Hc as [|? ? _ Hc'|? ? []]; subst. apply Hc'. }
          apply (run_settled lan eig (eq H) (fun _ => False) (fun _ => l) (fun _ => []) _ Hpp); [|intros ? []].
          intros j <-. unfold upd. rewrite Nat.eqb_refl. apply (read_lmax_stays _ _ _ _ Eh). }
        rewrite HH. unfold upd. rewrite Nat.eqb_refl. apply (read_lmax_stays _ _ _ _ Eh). }
      rewrite Hm. f_equal. f_equal. unfold gfilter. rewrite Et. cbn [bindr filter3]. unfold filter_cheb3. rewrite Hl, Ec. cbn [bindr].
      destruct (cheb_view (mkview (c_N (h' H)) (c_L (h' H)) l [] (fun _ _ => 0)) FH c (List.length ks) s3) as (A1 & A2); cbn [v_N v_L v_lmax]; try congruence.
      rewrite A1, A2. reflexivity.
    + f_equal. f_equal. unfold gfilter. rewrite Et. cbn [bindr filter3]. unfold filter_cheb3. rewrite Hl, Ec. reflexivity.
Qed.

(** Concatenation (a + b): the kernels of a are evaluated, then those of b. *)
Lemma run_bind lan eig {A B} (p : prog A) (f : A -> prog B) h h1 a : run lan eig h p = (h1, Some (Ok a)) ->
  run lan eig h (bindp p f) = run lan eig h1 (f a).
Proof.
  revert h. induction p as [r|g k IH|g k IH]; intros h; cbn [run bindp].
  - intros E. injection E as <- ->. reflexivity.
  - destruct (read_lmax _ _) as [s [[[v| | |]|]|]]; intros E; try discriminate. apply IH, E.
  - destruct (read_basis _ _) as [s [[[e U]|]|]]; intros E; try discriminate. apply IH, E.
Qed.
Lemma run_bind_stop lan eig {A B} (p : prog A) (f : A -> prog B) h h1 r : run lan eig h p = (h1, r) -> (forall a, r <> Some (Ok a)) ->
  forall b, snd (run lan eig h (bindp p f)) <> Some (Ok b).
Proof.
  intros E Hr. revert h E. induction p as [q|g k IH|g k IH]; intros h; cbn [run bindp].
  - intros E. injection E as <- <-. destruct q as [a|e]; [exfalso; apply (Hr a); reflexivity|]. discriminate.
  - destruct (read_lmax _ _) as [s [[[v| | |]|]|]]; intros E b; try discriminate. apply IH, E.
  - destruct (read_basis _ _) as [s [[[e U]|]|]]; intros E b; try discriminate. apply IH, E.
Qed.
Theorem C97_concatenated_banks :
  forall lan eig a b x h h1 h2 ya yb, run lan eig h (evaluate_l (b_kernels a) x) = (h1, Some (Ok ya)) ->
    run lan eig h1 (evaluate_l (b_kernels b) x) = (h2, Some (Ok yb)) ->
    b_graph (add_l a b) = b_graph a /\
    run lan eig h (evaluate_l (b_kernels (add_l a b)) x) = (h2, Some (Ok (ya ++ yb))).
Proof.
  intros lan eig a b x h h1 h2 ya yb Ha Hb. split; [reflexivity|]. cbn [add_l b_kernels].
  revert h ya Ha. induction (b_kernels a) as [|k ks IH]; intros h ya Ha; cbn [app].
  - cbn in Ha. injection Ha as -> <-. exact Hb.
  - unfold evaluate_l in Ha |- *. cbn [mapp] in Ha |- *.
    set (p := bindp (k x) _) in *.
    destruct (run lan eig h p) as [hp [[y|e]|]] eqn:Ep.
    + rewrite (run_bind _ _ _ _ _ _ _ Ep) in Ha. rewrite (run_bind _ _ _ _ _ _ _ Ep).
      fold (evaluate_l ks x) in Ha. fold (evaluate_l (ks ++ b_kernels b) x).
      destruct (run lan eig hp (evaluate_l ks x)) as [hq [[ys|e]|]] eqn:Eq.
      * rewrite (run_bind _ _ _ _ _ _ _ Eq) in Ha. cbn [run] in Ha. injection Ha as -> <-.
        rewrite (run_bind _ _ _ _ _ _ _ (IH hp ys Eq)). reflexivity.
      * exfalso. apply (run_bind_stop lan eig _ (fun bs => Done (Ok (y :: bs))) _ _ _ Eq ltac:(discriminate) ya). rewrite Ha. reflexivity.
      * exfalso. apply (run_bind_stop lan eig _ (fun bs => Done (Ok (y :: bs))) _ _ _ Eq ltac:(discriminate) ya). rewrite Ha. reflexivity.
    + exfalso. eapply (run_bind_stop lan eig p _ _ _ _ Ep ltac:(discriminate) ya). rewrite Ha. reflexivity.
    + exfalso. eapply (run_bind_stop lan eig p _ _ _ _ Ep ltac:(discriminate) ya). rewrite Ha. reflexivity.
Qed.

(** Indexing (a[i]): the i-th kernel alone, on the same graph; its values are the i-th row of the whole bank's. *)
Lemma evaluate_nth ks x ys i k : evaluate ks x = Ok ys -> nth_error ks i = Some k -> evaluate [k] x = Ok [nth i ys []].
Proof.
  revert ys i. induction ks as [|q ks IH]; intros ys i E Hi; [destruct i; discriminate|].
  unfold evaluate in E. cbn [mapr] in E. destruct (q x) as [y|e] eqn:Ey; cbn [bindr] in E; [|discriminate].
  destruct (Nat.eqb (List.length y) (List.length x)) eqn:El; cbn [bindr] in E; [|discriminate].
  fold (evaluate ks x) in E. destruct (evaluate ks x) as [ys'|e] eqn:Es; cbn [bindr] in E; [|discriminate]. injection E as <-.
  destruct i as [|i]; cbn [nth_error nth] in *.
  - injection Hi as ->. unfold evaluate. cbn [mapr]. rewrite Ey. cbn [bindr]. rewrite El. reflexivity.
  - apply (IH ys' i eq_refl Hi).
Qed.
Theorem C97_indexed_banks :
  forall junk lan eig g k ls h0 h s l x ys h1 i, follows k -> run lan eig h0 (build junk g k) = (h0, Some (Ok ls)) ->
    read_lmax (lan g (h g)) (h g) = (s, Ok (Some (Fin l))) -> run lan eig h (evaluate_l ls x) = (h1, Some (Ok ys)) ->
    match get_l (mkbank g ls) i with
    | Ok b => (i < List.length ls)%nat /\ b_graph b = g /\ List.length (b_kernels b) = 1%nat /\
        snd (run lan eig h (evaluate_l (b_kernels b) x)) = Some (Ok [nth i ys []])
    | Raise e => (List.length ls <= i)%nat /\ e = IndexError
    end.
Proof.
  intros junk lan eig g k ls h0 h s l x ys h1 i Hk Eb Er Ev.
  destruct (follows_shape junk g k Hk) as (r & E & _ & Ho). rewrite E in Eb. cbn in Eb. injection Eb as ->.
  destruct (Ho ls eq_refl) as (Hreads & _). unfold get_l. cbn [b_kernels b_graph].
  destruct (nth_error ls i) as [q|] eqn:Eq; cbn [b_kernels b_graph].
  2:{ split; [apply nth_error_None, Eq|reflexivity]. }
  split; [apply nth_error_Some; rewrite Eq; discriminate|]. split; [reflexivity|]. split; [reflexivity|].
  assert (Hq : forall q' y, In q' [q] -> reads (eq g) (fun _ => False) (q' y)).
  { intros q' y [<-|[]]. apply Hreads. apply (nth_error_In _ _ Eq). }
  destruct (run_lmax lan eig g _ l s h (fun _ => []) (reads_evaluate _ _ [q] x (fun q' H => Hq q' x H)) Er) as (H1 & _).
  destruct (run_lmax lan eig g _ l s h (fun _ => []) (reads_evaluate _ _ ls x (fun q' H => Hreads q' x H)) Er) as (H2 & _).
  rewrite H1. rewrite Ev in H2. cbn [snd] in H2. injection H2 as H2. rewrite plug_evaluate in H2 |- *. f_equal.
  apply (evaluate_nth (map (plugk (fun _ => l) (fun _ => [])) ls) x ys i); [symmetry; exact H2|].
  apply map_nth_error, Eq.
Qed.

(** ** A graph whose Laplacian type changes: two vertices, one edge of weight 5 *)
Lemma k2w_lap w G : 0 < w -> built G -> g_n_vertices G = 2%nat ->
  (forall i j, (i < 2)%nat -> (j < 2)%nat -> wt G i j = nth (i * 2 + j) [0; w; w; 0] 0) ->
  nonneg_weights G /\
  (forall i j, (i < 2)%nat -> (j < 2)%nat -> gL G i j = (if Nat.eqb i j then 1 else -1) * match g_lap_type G with Normalized => 1 | _ => w end).
Proof.
  intros Hw0 Hb Hn Hw.
  assert (Hp : nonneg_weights G).
  { intros i j Hi Hj. rewrite Hn in Hi, Hj. rewrite Hw by assumption.
    destruct i as [|[|i]]; try lia; destruct j as [|[|j]]; try lia; cbn; lra. }
  assert (Hu : undirected G).
  { intros i j Hi Hj. rewrite Hn in Hi, Hj. rewrite !Hw by assumption.
    destruct i as [|[|i]]; try lia; destruct j as [|[|j]]; try lia; cbn; lra. }
  split; [exact Hp|].
  destruct (built_valid_lap G Hb) as [Hlt|Hlt].
  - destruct (C09_combinatorial_structure G Hb Hlt) as (_ & Hr & Ho & _). rewrite Hn in *. rewrite Hlt.
    assert (E01 : gL G 0%nat 1%nat = -w) by (rewrite Ho by lia; rewrite !Hw by lia; cbn; lra).
    assert (E10 : gL G 1%nat 0%nat = -w) by (rewrite Ho by lia; rewrite !Hw by lia; cbn; lra).
    pose proof (Hr 0%nat ltac:(lia)) as R0. pose proof (Hr 1%nat ltac:(lia)) as R1. cbn [rsum] in R0, R1.
    intros i j Hi Hj. destruct i as [|[|i]]; try lia; destruct j as [|[|j]]; try lia; cbn [Nat.eqb]; lra.
  - destruct (C11_normalized_entries G Hb Hlt Hp) as (_ & Hd & Ho & _). rewrite Hn in *. rewrite Hlt.
    assert (Ed : forall i, (i < 2)%nat -> dw (gW G) i = w).
    { intros i Hi. rewrite (proj2 (C08_weighted_degree G i Hb ltac:(lia)) Hu). rewrite Hn. cbn [rsum].
      destruct i as [|[|i]]; try lia; rewrite !Hw by lia; cbn; lra. }
    assert (Hs : sqrt w * sqrt w = w) by (apply sqrt_sqrt; lra).
    assert (Hs0 : 0 < sqrt w) by (apply sqrt_lt_R0; lra).
    assert (Hq : forall a, a = w -> a / (sqrt w * sqrt w) = 1) by (intros a ->; rewrite Hs; field; lra).
    assert (D : forall i, (i < 2)%nat -> gL G i i = 1).
    { intros i Hi. rewrite Hd by (try lia; rewrite Ed by lia; lra). rewrite Ed, Hw by lia. destruct i as [|[|i]]; try lia; cbn; field; lra. }
    assert (N : forall i j, (i < 2)%nat -> (j < 2)%nat -> i <> j -> gL G i j = -1).
    { intros i j Hi Hj Hij. rewrite Ho by (try lia; rewrite Ed by lia; lra). rewrite !Ed, !Hw, Hs by lia.
      destruct i as [|[|i]]; try lia; destruct j as [|[|j]]; try lia; cbn [nth Nat.mul Nat.add]; field; lra. }
    intros i j Hi Hj. destruct (Nat.eqb_spec i j) as [->|Hij]; [rewrite D by lia; lra|rewrite N by lia; lra].
Qed.

Lemma k2w_eigh c L : 0 <= c -> (forall i j, (i < 2)%nat -> (j < 2)%nat -> L i j = (if Nat.eqb i j then 1 else -1) * c) ->
  exact_eig 2 L 2 [0; 2 * c] k2U.
Proof.
  intros Hc HL. split; [reflexivity|]. split; [lia|]. exists (fun k => if Nat.eqb k 0 then 0 else 2 * c), k2U.
  split; [|split; [|auto]].
  - assert (Hs : / sqrt 2 * / sqrt 2 = / 2).
    { rewrite <- Rinv_mult. rewrite sqrt_sqrt by lra. reflexivity. }
    constructor.
    + intros k l Hk Hl. destruct k as [|[|k]]; try lia; destruct l as [|[|l]]; try lia; cbn; nra.
    + intros k l Hk Hl. unfold tr. destruct k as [|[|k]]; try lia; destruct l as [|[|l]]; try lia; cbn; nra.
    + intros i k Hi Hk. unfold mulv. cbn [rsum]. destruct i as [|[|i]]; try lia; destruct k as [|[|k]]; try lia; rewrite !HL by lia; cbn; ring.
    + intros k l Hkl Hl. destruct k as [|[|k]]; try lia; destruct l as [|[|l]]; try lia; cbn; lra.
  - intros i Hi. destruct i as [|[|i]]; try lia; reflexivity.
Qed.

(** compute_fourier_basis on such a graph, in a state without a basis. *)
Lemma k2w_basis s m U b : c_basis s = None -> c_N s = 2%nat -> 0 <= m -> upper_bound (c_W s) (c_lap s) = Ok (Fin b) -> m <= b ->
  exists s', compute_fourier_basis None (EigOk [0; m] U) s = (s', Ok tt) /\ view_of s' = Some (mkview 2 (c_L s) m [0; m] U) /\
    c_W s' = c_W s /\ c_lap s' = c_lap s /\ c_N s' = 2%nat.
Proof.
  intros Hb Hn Hm Hu Hmb. unfold compute_fourier_basis. rewrite Hb.
  assert (E1 : (Rltb (- / 10 ^ 5) 0 && Rltb 0 (/ 10 ^ 5))%bool = true).
  { apply andb_true_intro. split; apply Rltb_true; [|apply Rinv_0_lt_compat; lra].
    apply Ropp_lt_gt_0_contravar, Rinv_0_lt_compat. lra. }
  rewrite E1, Hu. cbn [last].
  assert (E2 : fle m (xadd (Fin b) (Fin (/ 10 ^ 5))) = true).
  { cbn [xadd fle]. apply Rleb_true. assert (0 < / 10 ^ 5) by (apply Rinv_0_lt_compat; lra). lra. }
  rewrite E2.
  assert (E3 : forallb (fun x => Rleb x m) [0; m] = true).
  { cbn. rewrite !(proj2 (Rleb_true _ _)); [reflexivity|lra|lra]. }
  rewrite E3, Nat.eqb_refl. eexists. split; [reflexivity|]. cbn. rewrite Hn. auto.
Qed.

(** The graph in its first life (normalized Laplacian, eigenvalues 0 and 2) and in its second (combinatorial,
    eigenvalues 0 and 10); every call succeeds. *)
Lemma two_lives : exists G s1 s2 s3 L1 L2, built G /\ nonneg_weights G /\
  compute_fourier_basis None (EigOk [0; 2] k2U) (cache_init G) = (s1, Ok tt) /\
  compute_laplacian Combinatorial s1 = (s2, Ok tt) /\
  compute_fourier_basis None (EigOk [0; 10] k2U) s2 = (s3, Ok tt) /\
  exact_eig 2 (c_L (cache_init G)) 2 [0; 2] k2U /\ exact_eig 2 (c_L s2) 2 [0; 10] k2U /\
  view_of s1 = Some (mkview 2 L1 2 [0; 2] k2U) /\ view_of s3 = Some (mkview 2 L2 10 [0; 10] k2U) /\ L1 = c_L s1 /\ L2 = c_L s2.
Proof.
  destruct (finite_entry_built 2 [0; 5; 5; 0] Normalized None eq_refl (or_intror eq_refl)) as (G & _ & Hb & Hn & Ht & _ & Hw).
  destruct (k2w_lap 5 G ltac:(lra) Hb Hn Hw) as (Hp & HL). rewrite Ht in HL.
  assert (Ex1 : exact_eig 2 (gL G) 2 [0; 2 * 1] k2U) by (apply k2w_eigh; [lra|exact HL]).
  replace (2 * 1) with 2 in Ex1 by ring.
  destruct (C14_upper_bound_is_upper_bound G Hb Hp ltac:(lia)) as (b & Eb & Hbb).
  assert (Hb2 : 2 <= b).
  { destruct Ex1 as (_ & _ & e & U & He & Hi & HU). apply (Hbb 2 (fun i => U i 1%nat)). rewrite Hn.
    assert (E := Hi 1%nat ltac:(lia)). cbn in E. rewrite E. apply (eigh_eigenpair _ _ _ _ He). lia. }
  destruct (k2w_basis (cache_init G) 2 k2U b eq_refl Hn ltac:(lra) Eb Hb2) as (s1 & E1 & V1 & W1 & T1 & N1).
  assert (Hh : exists s2, compute_laplacian Combinatorial s1 = (s2, Ok tt)) by (eexists; reflexivity).
  destruct Hh as (s2 & E2).
  set (cs := [OpBasis None (EigOk [0; 2] k2U); OpLaplacian Combinatorial]).
  assert (Hk : known_types cs).
  { intros t [E|[E|[]]]; try discriminate. injection E as <-. auto. }
  assert (Hist : history exact_eig ritz (cache_init G) cs s2).
  { apply (history_cons _ _ _ _ s1); [cbn; rewrite Hn; exact Ex1|cbn [step]; unfold lift; rewrite E1; reflexivity|].
    apply (history_cons _ _ _ _ s2); [exact I|cbn [step]; unfold lift; rewrite E2; reflexivity|]. constructor. }
  destruct (current_graph G cs _ _ s2 exact_sized Hb Hk Hist) as (G' & Hb' & HW & HN & Ht' & HL' & IW & IN).
  assert (T2 : c_lap s2 = Combinatorial).
  { unfold compute_laplacian in E2. cbn [laplacian] in E2. injection E2 as <-. reflexivity. }
  assert (B2 : c_basis s2 = None).
  { unfold compute_laplacian in E2. rewrite T1 in E2. cbn [cache_init c_lap] in E2. rewrite Ht in E2. cbn in E2. injection E2 as <-. reflexivity. }
  assert (Hw' : forall i j, (i < 2)%nat -> (j < 2)%nat -> wt G' i j = nth (i * 2 + j) [0; 5; 5; 0] 0).
  { intros i j Hi Hj. rewrite <- Hw by assumption. unfold wt. rewrite HW. reflexivity. }
  destruct (k2w_lap 5 G' ltac:(lra) Hb' ltac:(congruence) Hw') as (Hp' & HLG). rewrite Ht', T2 in HLG.
  assert (Ex2 : exact_eig 2 (c_L s2) 2 [0; 2 * 5] k2U).
  { apply k2w_eigh; [lra|]. intros i j Hi Hj. rewrite <- HL'. apply HLG; assumption. }
  replace (2 * 5) with 10 in Ex2 by ring.
  destruct (C14_upper_bound_is_upper_bound G' Hb' Hp' ltac:(lia)) as (b' & Eb' & Hbb').
  assert (Hb10 : 10 <= b').
  { destruct Ex2 as (_ & _ & e & U & He & Hi & HU). apply (Hbb' 10 (fun i => U i 1%nat)). rewrite HN, Hn, HL'.
    assert (E := Hi 1%nat ltac:(lia)). cbn in E. rewrite E. apply (eigh_eigenpair _ _ _ _ He). lia. }
  rewrite HW, Ht' in Eb'. rewrite <- IW in Eb'.
  destruct (k2w_basis s2 10 k2U b' B2 ltac:(congruence) ltac:(lra) Eb' Hb10) as (s3 & E3 & V3 & _).
  exists G, s1, s2, s3, (c_L (cache_init G)), (c_L s2). repeat (split; [assumption|]). split; [|reflexivity].
  unfold view_of in V1. destruct (c_basis s1) as [[e U]|]; [|discriminate]. destruct (c_lmax s1) as [[v| | |]|]; try discriminate. injection V1 as _ V1 _ _ _. symmetry. exact V1.
Qed.

(** Finding: a tight bank settled in the first life is no frame in the second: all its filters vanish at the
    largest eigenvalue of the graph it belongs to, while the same bank built anew is tight. *)
Theorem C97_settled_bank_after_type_change_refuted :
  exists G s1 s2 s3 F1 F3, built G /\ nonneg_weights G /\
    compute_fourier_basis None (EigOk [0; 2] k2U) (cache_init G) = (s1, Ok tt) /\
    compute_laplacian Combinatorial s1 = (s2, Ok tt) /\
    compute_fourier_basis None (EigOk [0; 10] k2U) s2 = (s3, Ok tt) /\
    view_of s1 = Some F1 /\ view_of s3 = Some F3 /\ v_e F3 = [0; 10] /\
    forall junk lan eig h0 h, h0 0%nat = s1 -> h 0%nat = s3 ->
      exists ls h0' y, run lan eig h0 (build junk 0 (KItersine 6 2)) = (h0', Some (Ok ls)) /\
        run lan eig h (evaluate_l ls (v_e F3)) = (h, Some (Ok y)) /\ List.length y = 6%nat /\
        (forall f, nth 1 (nth f y []) 0 = 0) /\
        exists ks, fresh junk F3 (KItersine 6 2) = Ok ks /\ tight_bank ks 0 (v_lmax F3) 1.
Proof.
  destruct two_lives as (G & s1 & s2 & s3 & L1 & L2 & Hb & Hp & E1 & E2 & E3 & _ & _ & V1 & V3 & _).
  exists G, s1, s2, s3. eexists; eexists. repeat (split; [eassumption|]). split; [reflexivity|].
  intros junk lan eig h0 h H0 H3.
  assert (Er : read_lmax (lan 0%nat (h0 0%nat)) (h0 0%nat) = (h0 0%nat, Ok (Some (Fin 2)))).
  { rewrite H0. unfold read_lmax. unfold view_of in V1. destruct (c_basis s1) as [[e U]|]; [|discriminate].
    destruct (c_lmax s1) as [[v| | |]|]; try discriminate. injection V1 as _ _ Hv _ _. rewrite Hv. reflexivity. }
  destruct (C97_other_banks_are_settled_when_built junk lan eig 0%nat (KItersine 6 2) h0 (h0 0%nat) 2 (mkview 2 L1 2 [0; 2] k2U)
    (sb_itersine 6 2) Er eq_refl) as (h' & r & Eb & _ & Hr).
  cbn [fresh v_lmax] in Hr. destruct Hr as (ls & -> & Len & Hev). exists ls, h'.
  exists (map (fun i => map (itersine_fun 2 6 2 i) [0; 10]) (seq 1 6)). split; [exact Eb|]. split; [rewrite Hev; reflexivity|].
  split; [reflexivity|]. split.
  - assert (Hz : forall i, (1 <= i <= 6)%nat -> itersine_fun 2 6 2 i 10 = 0).
    { intros i Hi. unfold itersine_fun, itersine_kernel.
      assert (Hge : / 2 < 10 / (2 / (INR 6 - INR 2 + 1) * INR 2) - (INR i - INR 2 / 2) / INR 2).
      { assert (INR i <= 6) by (replace 6 with (INR 6) by (cbn; lra); apply le_INR; lia). cbn [INR].
        replace (10 / (2 / (1 + 1 + 1 + 1 + 1 + 1 - (1 + 1) + 1) * (1 + 1))) with (25 / 2) by field. lra. }
      destruct (Rleb_spec (10 / (2 / (INR 6 - INR 2 + 1) * INR 2) - (INR i - INR 2 / 2) / INR 2) (/ 2)) as [H|H]; [lra|].
      rewrite andb_false_r. ring. }
    intros f. destruct (Nat.lt_ge_cases f 6) as [Hf|Hf].
    + rewrite (nth_map_seq _ 6 _ _ f) || idtac. destruct f as [|[|[|[|[|[|f]]]]]]; try lia; cbn [seq map nth]; apply Hz; lia.
    + rewrite (nth_overflow (map _ _)) by (rewrite map_length, seq_length; exact Hf). reflexivity.
  - eexists. split; [reflexivity|]. apply (C23_itersine_even_overlap 10 6 1); [lra|lia|lia].
Qed.

(** Finding: g(H) is not the bank of H.  The heat bank of graph object 0, moved to graph object 1, still scales
    frequencies with the lmax of object 0. *)
Theorem C97_retargeted_bank_reads_its_first_graph_refuted :
  exists G s1 s3, built G /\ c_N s1 = 2%nat /\ c_N s3 = 2%nat /\
    forall junk lan eig h, h 0%nat = s1 -> h 1%nat = s3 ->
      exists l0 l1 y0 y1, run lan eig h (build junk 0 (KHeat (Scalar 1) false)) = (h, Some (Ok l0)) /\
        run lan eig h (build junk 1 (KHeat (Scalar 1) false)) = (h, Some (Ok l1)) /\
        b_graph (retarget (mkbank 0 l0) 1) = 1%nat /\
        snd (run lan eig h (evaluate_l (b_kernels (retarget (mkbank 0 l0) 1)) [10])) = Some (Ok [[y0]]) /\
        snd (run lan eig h (evaluate_l l1 [10])) = Some (Ok [[y1]]) /\ y0 < y1.
Proof.
  destruct two_lives as (G & s1 & s2 & s3 & L1 & L2 & Hb & Hp & E1 & E2 & E3 & _ & _ & V1 & V3 & _).
  exists G, s1, s3. split; [exact Hb|].
  assert (Hv : forall s n L m, view_of s = Some (mkview n L m [0; m] k2U) -> c_N s = n /\ c_lmax s = Some (Fin m)).
  { intros s n L m V. unfold view_of in V. destruct (c_basis s) as [[e U]|]; [|discriminate].
    destruct (c_lmax s) as [[v| | |]|]; try discriminate. injection V as -> _ -> _ _. auto. }
  destruct (Hv _ _ _ _ V1) as (N1 & M1). destruct (Hv _ _ _ _ V3) as (N3 & M3). split; [exact N1|]. split; [exact N3|].
  intros junk lan eig h H0 H1. eexists; eexists. exists (heat_fun 2 1 10 / 1), (heat_fun 10 1 10 / 1).
  split; [reflexivity|]. split; [reflexivity|]. split; [reflexivity|].
  split; [cbn; unfold read_lmax; rewrite H0, M1; reflexivity|].
  split; [cbn; unfold read_lmax; rewrite H1, M3; reflexivity|].
  unfold heat_fun. replace (- (1) * 10 / 2) with (-5) by field. replace (- (1) * 10 / 10) with (-1) by field.
  pose proof (exp_increasing (-5) (-1) ltac:(lra)). pose proof (exp_increasing (-1) 0 ltac:(lra)) as H'. rewrite exp_0 in H'.
  rewrite !Rmin_left by lra. lra.
Qed.

(** ** Gabor and Modulation *)

(** Gabor of a one-filter bank that follows the graph: evaluated when the graph shows F with a full basis, it is
    the Gabor bank of F, whatever the graph was when the bank was built. *)
Theorem C97_gabor_follows_the_graph :
  forall junk lan eig g k ls h0 h F x, follows k -> run lan eig h0 (build junk g k) = (h0, Some (Ok ls)) -> List.length ls = 1%nat ->
    view_of (h g) = Some F -> List.length (v_e F) = v_N F ->
    exists ks gs h', fresh junk F k = Ok ks /\ Gabor F true ks = Ok gs /\
      run lan eig h (evaluate_l (gabor_l g (v_N F) ls) x) = (h', Some (evaluate gs x)) /\ same_heap h' h.
Proof.
  intros junk lan eig g k ls h0 h F x Hk Eb Len HF HN.
  assert (Hv : c_lmax (h g) = Some (Fin (v_lmax F)) /\ exists U, c_basis (h g) = Some (v_e F, U)).
  { unfold view_of in HF. destruct (c_basis (h g)) as [[e U]|]; [|discriminate]. destruct (c_lmax (h g)) as [[l| | |]|]; try discriminate.
    injection HF as <-. split; [reflexivity|eexists; reflexivity]. }
  destruct Hv as (Hl & HE).
  destruct (follows_shape junk g k Hk) as (r & E & _ & Ho). rewrite E in Eb. cbn in Eb. injection Eb as ->.
  destruct (Ho ls eq_refl) as (Hreads & Hag). destruct (Hag (fun _ => v_lmax F) (fun _ => v_e F) F eq_refl) as (ks & Ek & Hf).
  pose proof (agree_length _ _ Hf) as Hlen. rewrite map_length in Hlen.
  exists ks. unfold Gabor. rewrite <- Hlen, Len. cbn [Nat.eqb negb]. eexists.
  assert (Hr : reads (eq g) (eq g) (evaluate_l (gabor_l g (v_N F) ls) x)).
  { apply reads_evaluate. intros q Hq. apply in_map_iff in Hq. destruct Hq as (i & <- & _). constructor; [reflexivity|].
    intros e. destruct (nth_error e i); [|constructor]. apply reads_bind; [|intros; constructor]. apply reads_evaluate. intros q Hq.
    assert (Hw : forall A (p : prog A), reads (eq g) (fun _ => False) p -> reads (eq g) (eq g) p).
    { intros A p. induction 1 as [| |? ? []]; constructor; auto. }
    apply Hw, Hreads, Hq. }
  destruct (run_settled lan eig (eq g) (eq g) (fun _ => v_lmax F) (fun _ => v_e F) _ Hr h) as (H1 & H2).
  { intros j <-. exact Hl. } { intros j <-. exact HE. }
  exists (fst (run lan eig h (evaluate_l (gabor_l g (v_N F) ls) x))). split; [exact Ek|]. split; [reflexivity|]. split; [|exact H2].
  rewrite (surjective_pairing (run _ _ _ _)) at 1. rewrite H1, plug_evaluate. f_equal. f_equal.
  apply evaluate_agree. unfold gabor_l. rewrite map_map. apply agree_map. intros i Hi z. apply in_seq in Hi. unfold plugk. cbn [plug].
  rewrite (nth_error_nth' (v_e F) 0) by lia. rewrite plug_bind, plug_evaluate, (evaluate_agree _ ks _ Hf). destruct (evaluate ks _); reflexivity.
Qed.

(** The constructors that do not read the graph at all: those of the banks that follow it, Meyer and SimpleTight with
    scales, and HalfCosine when it refuses: they leave every graph as it is and end the same way whatever is
    stored and whatever the eigensolvers would do. *)
Theorem C97_constructors_that_read_nothing :
  forall junk g k, follows k \/ (exists Nf s, k = KMeyer Nf (Some s)) \/ (exists Nf s r, k = KSimpleTight Nf (Some (s :: r))) \/
      (exists Nf, (Nf <= 2)%nat /\ k = KHalfCosine Nf) ->
    exists r, forall lan eig h, run lan eig h (build junk g k) = (h, Some r).
Proof.
  intros junk g k [Hk|[(Nf & s & ->)|[(Nf & s & r & ->)|(Nf & HN & ->)]]].
  - destruct (follows_shape junk g k Hk) as (r & E & _). exists r. intros lan eig h. rewrite E. reflexivity.
  - eexists. intros lan eig h. reflexivity.
  - eexists. intros lan eig h. reflexivity.
  - cbn [build]. destruct (Nat.leb_spec Nf 2); [|lia]. eexists. intros lan eig h. reflexivity.
Qed.

(** A Gabor bank (one kernel per vertex) of a graph with a partial Fourier basis cannot be evaluated: IndexError. *)
Theorem C97_gabor_needs_the_whole_basis :
  forall junk lan eig g k ls h0 h l e U N F ks x, follows k -> run lan eig h0 (build junk g k) = (h0, Some (Ok ls)) ->
    c_lmax (h g) = Some (Fin l) -> c_basis (h g) = Some (e, U) -> (List.length e < N)%nat ->
    v_lmax F = l -> fresh junk F k = Ok ks -> (forall z, exists y, evaluate ks z = Ok (y :: nil) /\ List.length y = List.length z) ->
    snd (run lan eig h (evaluate_l (gabor_l g N ls) x)) = Some (Raise IndexError).
Proof.
  intros junk lan eig g k ls h0 h l e U N F ks x Hk Eb Hl HE HN HFl Ek Hev.
  destruct (follows_shape junk g k Hk) as (r & E & _ & Ho). rewrite E in Eb. cbn in Eb. injection Eb as ->.
  destruct (Ho ls eq_refl) as (Hreads & Hag). destruct (Hag (fun _ => l) (fun _ => e) F HFl) as (ks' & Ek' & Hf).
  rewrite Ek in Ek'. injection Ek' as <-.
  assert (Hr : reads (eq g) (eq g) (evaluate_l (gabor_l g N ls) x)).
  { apply reads_evaluate. intros q Hq. apply in_map_iff in Hq. destruct Hq as (i & <- & _). constructor; [reflexivity|].
    intros e'. destruct (nth_error e' i); [|constructor]. apply reads_bind; [|intros; constructor]. apply reads_evaluate. intros q Hq.
    assert (Hw : forall A (p : prog A), reads (eq g) (fun _ => False) p -> reads (eq g) (eq g) p).
    { intros A p. induction 1 as [| |? ? []]; constructor; auto. }
    apply Hw, Hreads, Hq. }
  destruct (run_settled lan eig (eq g) (eq g) (fun _ => l) (fun _ => e) _ Hr h) as (H1 & _).
  { intros j <-. exact Hl. } { intros j <-. exists U. exact HE. }
  rewrite H1, plug_evaluate. f_equal. unfold gabor_l. rewrite map_map. unfold evaluate.
  assert (A : forall m s, (s <= List.length e)%nat -> (List.length e < s + m)%nat ->
    mapr (fun k0 => bindr (k0 x) (fun y => if Nat.eqb (List.length y) (List.length x) then Ok y else Raise ValueError))
      (map (fun i => plugk (fun _ => l) (fun _ => e) (fun x0 => GetE g (fun e0 => match nth_error e0 i with
         | Some a => bindp (evaluate_l ls (map (fun t => t - a) x0)) (fun y => Done (Ok (nth 0 y [])))
         | None => Done (Raise IndexError) end))) (seq s m)) = Raise IndexError).
  { induction m as [|m IH]; intros s Hs Hm; [lia|]. cbn [seq map mapr]. unfold plugk at 1. cbn [plug].
    destruct (nth_error e s) as [a|] eqn:En.
    - rewrite plug_bind, plug_evaluate, (evaluate_agree _ ks _ Hf). destruct (Hev (map (fun t => t - a) x)) as (y & Ey & Ly). rewrite Ey. cbn [bindr plug nth].
      rewrite map_length in Ly. rewrite Ly, Nat.eqb_refl. cbn [bindr]. assert (s < List.length e)%nat by (apply nth_error_Some; congruence).
      rewrite IH by lia. reflexivity.
    - reflexivity. }
  apply A; lia.
Qed.

(** A Modulation bank that has been evaluated once answers with the coefficients of that time, looked up by the
    present eigenvalues; on an unchanged graph all its answers are those of [modulation_evaluate]. *)
Theorem C97_modulation_remembers :
  forall F mother x kept out, modulation_call F mother None x = (kept, out) ->
    out = modulation_evaluate F mother x /\
    (forall co, kept = Some co -> modulation_coefficients F mother = Ok co /\
       forall x', modulation_call F mother kept x' = (kept, modulation_evaluate F mother x')) /\
    (kept = None -> exists e, out = Raise e).
Proof.
  intros F mother x kept out. unfold modulation_call, modulation_evaluate. destruct (modulation_coefficients F mother) as [co|e]; intros E; injection E as <- <-.
  - split; [reflexivity|]. split; [|discriminate]. intros co' H. injection H as <-. split; [reflexivity|]. intros x'. reflexivity.
  - split; [reflexivity|]. split; [discriminate|]. intros _. eexists. reflexivity.
Qed.

(** Finding: after the type change the remembered coefficients are stale: at the eigenvalue 10 of the present
    Laplacian the bank answers 2 where a new one answers 10. *)
Theorem C97_modulation_is_stale_refuted :
  exists G s1 s2 s3 F1 F3 kept out, built G /\
    compute_fourier_basis None (EigOk [0; 2] k2U) (cache_init G) = (s1, Ok tt) /\
    compute_laplacian Combinatorial s1 = (s2, Ok tt) /\
    compute_fourier_basis None (EigOk [0; 10] k2U) s2 = (s3, Ok tt) /\
    view_of s1 = Some F1 /\ view_of s3 = Some F3 /\
    modulation_call F1 [pw (fun t => t)] None (v_e F1) = (kept, Ok out) /\
    exists old new, snd (modulation_call F3 [pw (fun t => t)] kept (v_e F3)) = Ok old /\
      modulation_evaluate F3 [pw (fun t => t)] (v_e F3) = Ok new /\
      nth 1 (nth 0 old []) None = Some 2 /\ nth 1 (nth 0 new []) None = Some 10.
Proof.
  destruct two_lives as (G & s1 & s2 & s3 & L1 & L2 & Hb & Hp & E1 & E2 & E3 & _ & _ & V1 & V3 & _).
  exists G, s1, s2, s3. eexists; eexists.
  assert (Hco : forall L m, exists co, modulation_coefficients (mkview 2 L m [0; m] k2U) [pw (fun t => t)] = Ok co /\ co 1%nat 0%nat = m).
  { intros L m. eexists. split; [reflexivity|]. cbn.
    assert (Hs : sqrt 2 * / sqrt 2 = 1) by (field; assert (0 < sqrt 2) by (apply sqrt_lt_R0; lra); lra).
    assert (Hq : / sqrt 2 * / sqrt 2 = / 2). { rewrite <- Rinv_mult. rewrite sqrt_sqrt by lra. reflexivity. }
    unfold k2U. cbn. set (q := / sqrt 2) in *. replace (1 + 1) with 2 by ring. set (r := sqrt 2) in *.
    transitivity (2 * (r * q) * (q * q) * m); [ring|]. rewrite Hs, Hq. field. }
  destruct (Hco L1 2) as (co1 & C1 & D1). destruct (Hco L2 10) as (co3 & C3 & D3).
  eexists; eexists. repeat (split; [eassumption|]).
  split; [unfold modulation_call; rewrite C1; reflexivity|].
  eexists; eexists. split; [reflexivity|]. split; [unfold modulation_evaluate; rewrite C3; reflexivity|].
  cbn. assert (Q : Reqb 10 0 = false) by (apply Reqb_false; lra). assert (Q' : Reqb 10 10 = true) by (apply Reqb_true; reflexivity).
  rewrite Q, Q'. cbn. rewrite D1, D3. split; reflexivity.
Qed.

(** The hypotheses are met: the graph of the examples shows a view in both lives. *)
Example C97_ex : exists h F, view_of (h 0%nat) = Some F /\ spectral F /\ (1 < v_N F)%nat /\ (forall t, In t (v_e F) -> 0 <= t <= v_lmax F) /\
  0 < v_lmax F /\ c_lmax (h 0%nat) = Some (Fin (v_lmax F)) /\ List.length (v_e F) = v_N F /\ follows (KHeld (2 / 3)) /\ complement_pair (KHeld (2 / 3)).
Proof.
  destruct two_lives as (G & s1 & s2 & s3 & L1 & L2 & Hb & Hp & E1 & E2 & E3 & X1 & X2 & V1 & V3 & EL1 & EL2).
  exists (fun _ => s3), (mkview 2 L2 10 [0; 10] k2U). split; [exact V3|]. split; [apply exact_eig_spectral; rewrite EL2; exact X2|].
  split; [cbn; lia|]. split; [intros t [<-|[<-|[]]]; cbn; lra|]. split; [cbn; lra|].
  split.
  { unfold view_of in V3. destruct (c_basis s3) as [[e U]|]; [|discriminate]. destruct (c_lmax s3) as [[v| | |]|]; try discriminate. injection V3 as _ _ -> _ _. reflexivity. }
  split; [reflexivity|]. split; constructor. lra.
Qed.

(** And those of the normalized heat bank on a graph with nothing computed yet. *)
Example C97_heat_ex : exists h s F, c_basis (h 0%nat) = None /\ read_basis (EigOk [0; 2] k2U) (h 0%nat) = (s, Ok (Some ([0; 2], k2U))) /\ view_of s = Some F.
Proof.
  destruct two_lives as (G & s1 & s2 & s3 & L1 & L2 & Hb & Hp & E1 & E2 & E3 & X1 & X2 & V1 & V3 & EL1 & EL2).
  exists (fun _ => cache_init G), s1. eexists. split; [reflexivity|]. split; [|exact V1].
  unfold read_basis. change (c_basis (cache_init G)) with (@None (list R * mat)). rewrite E1.
  unfold view_of in V1. destruct (c_basis s1) as [[e U]|]; [|discriminate]. destruct (c_lmax s1) as [[v| | |]|]; try discriminate.
  apply (f_equal (fun o => match o with Some W => (v_e W, v_U W) | None => ([], U) end)) in V1. cbn [v_e v_U] in V1. rewrite V1. reflexivity.
Qed.

(** Such a graph and such a mother: the first of two eigenvectors computed, and an unnormalized heat kernel. *)
Example C97_gabor_ex : exists junk g k ls h l e U F ks, follows k /\ (forall lan eig, run lan eig h (build junk g k) = (h, Some (Ok ls))) /\
  c_lmax (h g) = Some (Fin l) /\ c_basis (h g) = Some (e, U) /\ (List.length e < c_N (h g))%nat /\
  v_lmax F = l /\ fresh junk F k = Ok ks /\ (forall z, exists y, evaluate ks z = Ok (y :: nil) /\ List.length y = List.length z).
Proof.
  destruct two_lives as (G & s1 & s2 & s3 & L1 & L2 & Hb & Hp & E1 & E2 & E3 & X1 & X2 & V1 & V3 & EL1 & EL2).
  set (s := set_basis (set_lmax s1 (Some (Fin 2))) (Some ([0], k2U))).
  exists 0, 0%nat, (KHeat (Scalar 3) false). eexists. exists (fun _ => s), 2, [0], k2U, (mkview 2 L1 2 [0] k2U). eexists.
  split; [constructor|]. split; [intros; reflexivity|]. split; [reflexivity|]. split; [reflexivity|]. split.
  { assert (Hn : c_N s = c_N s1) by reflexivity. rewrite Hn. unfold view_of in V1. destruct (c_basis s1) as [[e U]|]; [|discriminate]. destruct (c_lmax s1) as [[v| | |]|]; try discriminate.
    apply (f_equal (fun o => match o with Some W => v_N W | None => 0%nat end)) in V1. cbn [v_N] in V1. rewrite V1. cbn. lia. }
  split; [reflexivity|]. split; [reflexivity|]. intros z. unfold Heat. cbn [pvals map]. cbv zeta.
  exists (map (fun x => heat_fun 2 3 x / 1) z). split; [|apply map_length].
  exact (evaluate_pw [fun x => heat_fun 2 3 x / 1] z).
Qed.
