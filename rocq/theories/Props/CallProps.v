(** C73: which keyword arguments the graph classes accept and where they end up.  C74: functions that cannot succeed. *)
From Coq Require Import List Arith Bool String Lia.
From Verif.Base Require Import Prelude.
From Verif.Model Require Import PyCall.
From Verif.Spec Require Import CallSpec.
Import ListNotations.
Open Scope string_scope.
Open Scope list_scope.

Lemma mem_in x l : mem x l = true <-> In x l.
Proof.
  unfold mem. rewrite existsb_exists. split.
  - intros (y & Hy & E). apply String.eqb_eq in E. subst. exact Hy.
  - intros H. exists x. split; [exact H|apply String.eqb_refl].
Qed.
Lemma mem_notin x l : mem x l = false <-> ~ In x l.
Proof. rewrite <- mem_in. destruct (mem x l); split; congruence. Qed.
Lemma distinct_nodup l : distinct l = true <-> NoDup l.
Proof.
  induction l as [|x l IH]; cbn; [split; [constructor|reflexivity]|]. rewrite andb_true_iff, negb_true_iff, mem_notin, IH.
  split; [intros (A & B); constructor; assumption|intros H; inversion H; auto].
Qed.
Lemma names_app {V} (a b : list (string * V)) : names (a ++ b) = names a ++ names b.
Proof. apply map_app. Qed.
Lemma names_first {V} n (l : list (string * V)) : names (firstn n l) = firstn n (names l).
Proof. symmetry. apply firstn_map. Qed.
Lemma names_skip {V} n (l : list (string * V)) : names (skipn n l) = skipn n (names l).
Proof. symmetry. apply skipn_map. Qed.
Lemma names_filter {V} (f : string -> bool) (l : list (string * V)) : names (filter (fun kv => f (fst kv)) l) = filter f (names l).
Proof. unfold names. induction l as [|x l IH]; cbn; [reflexivity|]. destruct (f (fst x)); cbn; rewrite IH; reflexivity. Qed.
Lemma existsb_false {A} (f : A -> bool) l : existsb f l = false <-> forall x, In x l -> f x = false.
Proof.
  rewrite <- not_true_iff_false, existsb_exists. split.
  - intros H x Hx. apply not_true_iff_false. intros E. apply H. eauto.
  - intros H (x & Hx & E). rewrite (H x Hx) in E. discriminate.
Qed.
Lemma call_names {V} (b : list (string * option (option V))) kws : names (call_args b kws) = names kws.
Proof. unfold names, call_args. rewrite map_map. reflexivity. Qed.

(** ** One call *)
Definition needed (s : signature) (n : nat) : list string := map fst (filter (fun p => negb (snd p)) (skipn n (sg_params s))).
Definition fits {V} (s : signature) (pos : list V) (kws : list (string * V)) : Prop :=
  (List.length pos <= List.length (sg_params s))%nat /\ NoDup (names kws) /\
  (forall k, In k (names kws) -> ~ In k (firstn (List.length pos) (names (sg_params s)))) /\
  (sg_kwargs s = false -> incl (names kws) (names (sg_params s))) /\
  incl (needed s (List.length pos)) (names kws).
Definition bound {V} (s : signature) (pos : list V) (kws : list (string * V)) : list (string * option V) :=
  combine (names (firstn (List.length pos) (sg_params s))) (map Some pos) ++
  map (fun p => (fst p, assoc (fst p) kws)) (skipn (List.length pos) (sg_params s)).
Definition extras {V} (s : signature) (kws : list (string * V)) : list (string * V) :=
  filter (fun kv => negb (mem (fst kv) (names (sg_params s)))) kws.

Lemma bind_spec {V} (s : signature) (pos : list V) kws :
  (fits s pos kws /\ py_bind s pos kws = Ok (bound s pos kws, extras s kws)) \/ (~ fits s pos kws /\ py_bind s pos kws = Raise TypeError).
Proof.
  unfold py_bind, fits. destruct (Nat.ltb_spec (List.length (sg_params s)) (List.length pos)) as [H|H].
  { right. split; [intros (A & _); lia|reflexivity]. }
  destruct (distinct (names kws)) eqn:D; cbn [negb].
  2:{ right. split; [|reflexivity]. intros (_ & A & _). apply distinct_nodup in A. congruence. }
  apply distinct_nodup in D.
  destruct (existsb (fun k => mem k (names (firstn (List.length pos) (sg_params s)))) (names kws)) eqn:E1.
  { right. split; [|reflexivity]. intros (_ & _ & A & _). apply existsb_exists in E1. destruct E1 as (k & Hk & M). apply mem_in in M.
    rewrite names_first in M. exact (A k Hk M). }
  assert (A1 : forall k, In k (names kws) -> ~ In k (firstn (List.length pos) (names (sg_params s)))).
  { intros k Hk. rewrite <- names_first. apply mem_notin. exact (proj1 (existsb_false _ _) E1 k Hk). }
  destruct (negb (sg_kwargs s) && existsb (fun k => negb (mem k (names (sg_params s)))) (names kws))%bool eqn:E2.
  { right. split; [|reflexivity]. intros (_ & _ & _ & A & _). apply andb_true_iff in E2. destruct E2 as (B & C). apply negb_true_iff in B.
    apply existsb_exists in C. destruct C as (k & Hk & M). apply negb_true_iff, mem_notin in M. exact (M (A B k Hk)). }
  assert (A2 : sg_kwargs s = false -> incl (names kws) (names (sg_params s))).
  { intros B k Hk. rewrite B in E2. cbn in E2. pose proof (proj1 (existsb_false _ _) E2 k Hk) as M. apply negb_false_iff, mem_in in M. exact M. }
  destruct (existsb (fun p => (negb (snd p) && negb (mem (fst p) (names kws)))%bool) (skipn (List.length pos) (sg_params s))) eqn:E3.
  { right. split; [|reflexivity]. intros (_ & _ & _ & _ & A). apply existsb_exists in E3. destruct E3 as (p & Hp & M). apply andb_true_iff in M.
    destruct M as (M1 & M2). apply negb_true_iff, mem_notin in M2. apply M2, A. apply in_map. apply filter_In. auto. }
  left. split; [|reflexivity]. split; [exact H|]. split; [exact D|]. split; [exact A1|]. split; [exact A2|].
  intros k Hk. unfold needed in Hk. apply in_map_iff in Hk. destruct Hk as (p & <- & Hp). apply filter_In in Hp. destruct Hp as (Hp & B).
  pose proof (proj1 (existsb_false _ _) E3 p Hp) as M. cbv beta in M. rewrite B in M. cbn in M. apply negb_false_iff, mem_in in M. exact M.
Qed.

Lemma extras_names {V} s (kws : list (string * V)) : names (extras s kws) = filter (fun k => negb (mem k (names (sg_params s)))) (names kws).
Proof. apply (names_filter (fun k => negb (mem k (names (sg_params s))))). Qed.

(** ** Chains of calls *)
Fixpoint accept (c : cls) (n : nat) : list string :=
  match c with
  | Root s => names (skipn n (sg_params s))
  | Class s base bpos bkws =>
      names (skipn n (sg_params s)) ++
      filter (fun k => (negb (mem k (names (sg_params s))) && negb (mem k (names bkws)))%bool) (accept base (List.length bpos))
  | Both s other opos okws _ _ _ =>
      names (skipn n (sg_params s)) ++
      filter (fun k => (negb (mem k (names (sg_params s))) && negb (mem k (names okws)))%bool) (accept other (List.length opos))
  end.
Definition subl (a b : list string) : bool := forallb (fun x => mem x b) a.
Definition call_wf (base : cls) (acc : list string) (bpos : list superarg) (bkws : list (string * superarg)) : bool :=
  (Nat.leb (List.length bpos) (List.length (sg_params (sig_of base))) && distinct (names bkws) && subl (names bkws) acc &&
   subl (needed (sig_of base) (List.length bpos)) (names bkws))%bool.
Definition own_wf (s : signature) (l : list superarg) : bool := forallb (fun a => match a with Made => true | Own p => mem p (names (sg_params s)) end) l.
Fixpoint cls_wf (c : cls) : bool :=
  match c with
  | Root s => (distinct (names (sg_params s)) && negb (sg_kwargs s))%bool
  | Class s base bpos bkws =>
      (distinct (names (sg_params s)) && sg_kwargs s && cls_wf base && call_wf base (accept base (List.length bpos)) bpos bkws &&
       own_wf s bpos && own_wf s (map snd bkws))%bool
  | Both s other opos okws base bpos bkws =>
      (distinct (names (sg_params s)) && sg_kwargs s && cls_wf other && call_wf other (accept other (List.length opos)) opos okws &&
       cls_wf base && call_wf base (accept base (List.length bpos)) bpos bkws && own_wf s bpos && own_wf s (map snd bkws))%bool
  end.
Lemma subl_incl a b : subl a b = true <-> incl a b.
Proof.
  unfold subl. rewrite forallb_forall. split; intros H x Hx; [apply mem_in|apply mem_in]; apply H; exact Hx.
Qed.
Definition callable {V} (c : cls) (pos : list V) (kws : list (string * V)) : Prop :=
  (List.length pos <= List.length (sg_params (sig_of c)))%nat /\ NoDup (names kws) /\
  incl (names kws) (accept c (List.length pos)) /\ incl (needed (sig_of c) (List.length pos)) (names kws).

Lemma skip_in_names {V} n (l : list (string * V)) k : In k (names (skipn n l)) -> In k (names l).
Proof. rewrite names_skip. intros H. rewrite <- (firstn_skipn n (names l)). apply in_or_app. auto. Qed.
Lemma nodup_skip n (l : list string) k : NoDup l -> In k (skipn n l) -> ~ In k (firstn n l).
Proof.
  intros H Hk Hf. rewrite <- (firstn_skipn n l) in H. revert H Hf. generalize (firstn n l) as a. intros a H Hf.
  induction a as [|x a IH]; [destruct Hf|]. cbn in H. inversion H; subst. destruct Hf as [->|Hf]; [|exact (IH H3 Hf)].
  apply H2. apply in_or_app. auto.
Qed.
Lemma in_first_or_skip n (l : list string) k : In k l -> In k (firstn n l) \/ In k (skipn n l).
Proof. intros H. rewrite <- (firstn_skipn n l) in H. apply in_app_or in H. exact H. Qed.

(** The keywords handed to the base are right exactly when the left-over ones are. *)
Lemma hand_iff {V} (base : cls) (bpos : list superarg) bkws (b : list (string * option (option V))) (ex : list (string * option V)) :
  call_wf base (accept base (List.length bpos)) bpos bkws = true -> NoDup (names ex) ->
  (callable base (map (superval b) bpos) (call_args b bkws ++ ex) <->
   (forall k, In k (names ex) -> In k (accept base (List.length bpos)) /\ ~ In k (names bkws))).
Proof.
  intros W Hex. unfold call_wf in W. rewrite !andb_true_iff in W. destruct W as (((W1 & W2) & W3) & W4).
  apply Nat.leb_le in W1. apply distinct_nodup in W2. apply subl_incl in W3, W4.
  unfold callable. rewrite map_length, names_app, call_names. split.
  - intros (_ & ND & I & _) k Hk. split; [apply I, in_or_app; auto|]. intros Hb. revert ND Hb Hk. generalize (names bkws), (names ex). clear.
    intros a c ND Ha Hc. induction a as [|x a IH]; [destruct Ha|]. cbn in ND. inversion ND; subst. destruct Ha as [->|Ha].
    + apply H1, in_or_app. auto.
    + exact (IH H2 Ha).
  - intros H. split; [exact W1|]. split; [|split].
    + apply NoDup_app_disj; [exact W2|exact Hex|]. intros k Hb Hk. exact (proj2 (H k Hk) Hb).
    + intros k Hk. apply in_app_or in Hk. destruct Hk as [Hk|Hk]; [apply W3; exact Hk|exact (proj1 (H k Hk))].
    + intros k Hk. apply in_or_app. left. apply W4. exact Hk.
Qed.

Lemma fits_own {V} (s : signature) (pos : list V) kws acc (bk : list string) :
  NoDup (names (sg_params s)) -> sg_kwargs s = true ->
  ((List.length pos <= List.length (sg_params s))%nat /\ NoDup (names kws) /\
   incl (names kws) (names (skipn (List.length pos) (sg_params s)) ++ filter (fun k => (negb (mem k (names (sg_params s))) && negb (mem k bk))%bool) acc) /\
   incl (needed s (List.length pos)) (names kws)) <->
  (fits s pos kws /\ forall k, In k (names (extras s kws)) -> In k acc /\ ~ In k bk).
Proof.
  intros ND KW. rewrite extras_names. unfold fits. split.
  - intros (A & B & C & D). split.
    + split; [exact A|]. split; [exact B|]. split; [|split; [congruence|exact D]].
      intros k Hk Hf. apply C in Hk. apply in_app_or in Hk. destruct Hk as [Hk|Hk].
      * rewrite names_skip in Hk. exact (nodup_skip _ _ _ ND Hk Hf).
      * apply filter_In in Hk. destruct Hk as (_ & M). apply andb_true_iff in M. destruct M as (M & _). apply negb_true_iff, mem_notin in M.
        apply M. rewrite <- (firstn_skipn (List.length pos) (names (sg_params s))). apply in_or_app. auto.
    + intros k Hk. apply filter_In in Hk. destruct Hk as (Hk & M). apply C in Hk. apply in_app_or in Hk. destruct Hk as [Hk|Hk].
      * apply skip_in_names in Hk. apply negb_true_iff, mem_notin in M. contradiction.
      * apply filter_In in Hk. destruct Hk as (Hk & M'). apply andb_true_iff in M'. destruct M' as (_ & M'). apply negb_true_iff, mem_notin in M'. auto.
  - intros ((A & B & C & _ & D) & E). split; [exact A|]. split; [exact B|]. split; [|exact D].
    intros k Hk. apply in_or_app. destruct (mem k (names (sg_params s))) eqn:M.
    + left. apply mem_in in M. rewrite names_skip. destruct (in_first_or_skip (List.length pos) _ _ M) as [Hf|Hf]; [exfalso; exact (C k Hk Hf)|exact Hf].
    + right. apply filter_In. assert (Hx : In k (filter (fun k => negb (mem k (names (sg_params s)))) (names kws))) by (apply filter_In; rewrite M; auto).
      destruct (E k Hx) as (E1 & E2). split; [exact E1|]. rewrite M. cbn. apply negb_true_iff, mem_notin. exact E2.
Qed.

Lemma extras_nodup {V} s (kws : list (string * V)) : NoDup (names kws) -> NoDup (names (extras s kws)).
Proof. intros H. rewrite extras_names. apply NoDup_filter. exact H. Qed.
Lemma extras_nil_nodup {V} (l : list (string * V)) : NoDup (names (@nil (string * V))).
Proof. constructor. Qed.

Lemma construct_iff {V} (c : cls) : cls_wf c = true -> forall (pos : list (option V)) kws,
  (callable c pos kws /\ exists b, construct c pos kws = Ok b) \/ (~ callable c pos kws /\ construct c pos kws = Raise TypeError).
Proof.
  induction c as [s|s base IH bpos bkws|s other IHo opos okws base IH bpos bkws]; intros W pos kws; cbn [cls_wf] in W; rewrite !andb_true_iff in W.
  - destruct W as (W1 & W2). apply distinct_nodup in W1. apply negb_true_iff in W2. cbn [construct].
    assert (EQ : callable (Root s) pos kws <-> fits s pos kws).
    { unfold callable, fits. cbn [sig_of accept]. split.
      - intros (A & B & C & D). split; [exact A|]. split; [exact B|]. split; [|split; [|exact D]].
        + intros k Hk. apply C in Hk. rewrite names_skip in Hk. exact (nodup_skip _ _ _ W1 Hk).
        + intros _ k Hk. apply skip_in_names with (n := List.length pos). apply C. exact Hk.
      - intros (A & B & C & D & E). split; [exact A|]. split; [exact B|]. split; [|exact E]. intros k Hk. rewrite names_skip.
        destruct (in_first_or_skip (List.length pos) _ _ (D W2 k Hk)) as [H|H]; [exfalso; exact (C k Hk H)|exact H]. }
    destruct (bind_spec s pos kws) as [(F & ->)|(F & ->)]; cbn [bindr]; [left|right]; rewrite EQ; eauto.
  - destruct W as (((((W1 & W2) & W3) & W4) & _) & _). apply distinct_nodup in W1. cbn [construct].
    assert (EQ : callable (Class s base bpos bkws) pos kws <->
      fits s pos kws /\ forall k, In k (names (extras s kws)) -> In k (accept base (List.length bpos)) /\ ~ In k (names bkws)).
    { unfold callable. cbn [sig_of accept]. apply fits_own; assumption. }
    destruct (bind_spec s pos kws) as [(F & ->)|(F & ->)]; cbn [bindr fst snd].
    2:{ right. rewrite EQ. split; [tauto|reflexivity]. }
    pose proof (extras_nodup s kws (proj1 (proj2 F))) as NX.
    destruct (IH W3 (map (superval (bound s pos kws)) bpos) (call_args (bound s pos kws) bkws ++ extras s kws)) as [(C & E)|(C & E)];
      rewrite (hand_iff base bpos bkws _ _ W4 NX) in C; [left|right]; rewrite EQ; tauto.
  - destruct W as (((((((W1 & W2) & W3) & W4) & W5) & W6) & _) & _). apply distinct_nodup in W1. cbn [construct].
    assert (EQ : callable (Both s other opos okws base bpos bkws) pos kws <->
      fits s pos kws /\ forall k, In k (names (extras s kws)) -> In k (accept other (List.length opos)) /\ ~ In k (names okws)).
    { unfold callable. cbn [sig_of accept]. apply fits_own; assumption. }
    destruct (bind_spec s pos kws) as [(F & ->)|(F & ->)]; cbn [bindr fst snd].
    2:{ right. rewrite EQ. split; [tauto|reflexivity]. }
    pose proof (extras_nodup s kws (proj1 (proj2 F))) as NX.
    destruct (IHo W3 (map (superval (bound s pos kws)) opos) (call_args (bound s pos kws) okws ++ extras s kws)) as [(C & b & E)|(C & E)];
      rewrite (hand_iff other opos okws _ _ W4 NX) in C; rewrite E; cbn [bindr]; [left|right]; rewrite EQ; [|tauto].
    split; [tauto|].
    destruct (IH W5 (map (superval (bound s pos kws)) bpos) (call_args (bound s pos kws) bkws)) as [(C' & E')|(C' & E')]; [exact E'|].
    exfalso. apply C'. rewrite <- (app_nil_r (call_args _ _)). apply (hand_iff base bpos bkws _ [] W6); [constructor|intros k []].
Qed.

(** ** Where the values end up *)
Lemma position_none p l : position p l = None <-> ~ In p l.
Proof.
  induction l as [|x l IH]; cbn; [tauto|]. destruct (String.eqb_spec p x) as [->|H].
  - split; [discriminate|intros N; exfalso; apply N; auto].
  - destruct (position p l); cbn; split; intros E; try discriminate; try reflexivity.
    + exfalso. apply E. right. destruct IH as (_ & IH). destruct (in_dec string_dec p l) as [I|I]; [exact I|]. specialize (IH I). discriminate.
    + intros [<-|I]; [congruence|]. exact (proj1 IH eq_refl I).
Qed.
Lemma assoc_app {V} p (a b : list (string * V)) : assoc p (a ++ b) = match assoc p a with Some v => Some v | None => assoc p b end.
Proof. induction a as [|(k, v) a IH]; cbn; [reflexivity|]. destruct (String.eqb p k); [reflexivity|exact IH]. Qed.
Lemma assoc_none {V} p (l : list (string * V)) : assoc p l = None <-> ~ In p (names l).
Proof.
  induction l as [|(k, v) l IH]; cbn; [tauto|]. destruct (String.eqb_spec p k) as [->|H].
  - split; [discriminate|intros N; exfalso; apply N; auto].
  - rewrite IH. split; [intros N [<-|I]; [congruence|contradiction]|intros N I; apply N; auto].
Qed.
Lemma assoc_combine {V} p (ns : list string) (l : list V) : List.length ns = List.length l ->
  assoc p (combine ns (map Some l)) = match position p ns with Some i => Some (nth_error l i) | None => None end.
Proof.
  revert l. induction ns as [|x ns IH]; intros [|v l] H; cbn in *; try discriminate; [reflexivity|]. destruct (String.eqb p x); [reflexivity|].
  rewrite IH by lia. destruct (position p ns); reflexivity.
Qed.
Lemma assoc_params {V} p (ps : list (string * bool)) (f : string -> option V) : In p (names ps) -> assoc p (map (fun q => (fst q, f (fst q))) ps) = Some (f p).
Proof.
  induction ps as [|q ps IH]; cbn; [tauto|]. intros H. destruct (String.eqb_spec p (fst q)) as [->|N]; [reflexivity|].
  apply IH. destruct H as [H|H]; [congruence|exact H].
Qed.
Lemma bound_given {V} s (pos : list V) kws p : (List.length pos <= List.length (sg_params s))%nat -> In p (names (sg_params s)) ->
  assoc p (bound s pos kws) = Some (given (names (sg_params s)) pos kws p).
Proof.
  intros H Hp. unfold bound, given. rewrite assoc_app, assoc_combine.
  2:{ unfold names. rewrite map_length, firstn_length. lia. }
  rewrite names_first. destruct (position p (firstn (List.length pos) (names (sg_params s)))) as [i|] eqn:E; [reflexivity|].
  apply (assoc_params p _ (fun k => assoc k kws)). apply position_none in E. rewrite names_skip.
  destruct (in_first_or_skip (List.length pos) _ _ Hp) as [H1|H1]; [contradiction|exact H1].
Qed.

(** The caller's value for p or the default of Graph; the caller's value for p or the default of the class; a value the class chose; the default of Graph. *)
Inductive flow := FUser (p : string) | FOwn (p : string) | FClass | FDefault.
Definition handed (base : cls) (bpos : list superarg) (bkws : list (string * superarg)) (p : string) : option superarg :=
  match position p (firstn (List.length bpos) (names (sg_params (sig_of base)))) with Some i => nth_error bpos i | None => assoc p bkws end.
Definition via (s : signature) (fwd : bool) (base : cls) (bpos : list superarg) (bkws : list (string * superarg)) (f : flow) : flow :=
  let src a := match a with Made => FClass | Own p => FOwn p end in
  match f with
  | FUser p => match handed base bpos bkws p with
               | Some a => src a
               | None => if (negb fwd || mem p (names (sg_params s)))%bool then FDefault else FUser p
               end
  | FOwn p => match handed base bpos bkws p with
              | Some a => src a
              | None => if (negb fwd || mem p (names (sg_params s)))%bool then FClass else FOwn p
              end
  | FClass => FClass
  | FDefault => FDefault
  end.
Fixpoint flow_of (c : cls) (q : string) : flow :=
  match c with
  | Root _ => FUser q
  | Class s base bpos bkws => via s true base bpos bkws (flow_of base q)
  | Both s _ _ _ base bpos bkws => via s false base bpos bkws (flow_of base q)
  end.
Definition flow_val {V} (g : string -> option (option V)) (f : flow) : option (option V) :=
  match f with
  | FUser p => g p
  | FOwn p => Some (match g p with Some v => v | None => None end)
  | FClass => Some None
  | FDefault => None
  end.
Fixpoint root_of (c : cls) : signature := match c with Root s => s | Class _ base _ _ => root_of base | Both _ _ _ _ base _ _ => root_of base end.

Lemma assoc_filter {V} p (f : string -> bool) (l : list (string * V)) :
  assoc p (filter (fun kv => f (fst kv)) l) = if f p then assoc p l else None.
Proof.
  induction l as [|(k, v) l IH]; cbn; [destruct (f p); reflexivity|]. destruct (f k) eqn:E; cbn; rewrite IH; destruct (String.eqb_spec p k) as [->|N]; try reflexivity.
  - rewrite E. reflexivity.
  - rewrite E. reflexivity.
Qed.
Lemma assoc_call {V} p (b : list (string * option (option V))) bkws : assoc p (call_args b bkws) = option_map (superval b) (assoc p bkws).
Proof. induction bkws as [|(k, a) l IH]; cbn; [reflexivity|]. destruct (String.eqb p k); [reflexivity|exact IH]. Qed.

Lemma given_hand {V} (base : cls) bpos bkws (b : list (string * option (option V))) ex p :
  given (names (sg_params (sig_of base))) (map (superval b) bpos) (call_args b bkws ++ ex) p =
  match handed base bpos bkws p with Some a => Some (superval b a) | None => match position p (firstn (List.length bpos) (names (sg_params (sig_of base)))) with Some _ => None | None => assoc p ex end end.
Proof.
  unfold given, handed. rewrite map_length. destruct (position p _) as [i|].
  - rewrite nth_error_map. destruct (nth_error bpos i); reflexivity.
  - rewrite assoc_app, assoc_call. destruct (assoc p bkws); reflexivity.
Qed.
Lemma position_lt p l i : position p l = Some i -> (i < List.length l)%nat.
Proof.
  revert i. induction l as [|x l IH]; cbn; intros i H; [discriminate|]. destruct (String.eqb p x); [injection H as <-; lia|].
  destruct (position p l) as [j|]; cbn in H; [|discriminate]. injection H as <-. specialize (IH j eq_refl). lia.
Qed.
Lemma handed_none base bpos bkws p : handed base bpos bkws p = None ->
  position p (firstn (List.length bpos) (names (sg_params (sig_of base)))) = None.
Proof.
  unfold handed. destruct (position p _) as [i|] eqn:E; [|reflexivity]. intros H. apply nth_error_None in H.
  apply position_lt in E. rewrite firstn_length in E. lia.
Qed.

Lemma via_val {V} s (fwd : bool) (pos : list (option V)) kws base bpos bkws f :
  (List.length pos <= List.length (sg_params s))%nat -> own_wf s bpos = true -> own_wf s (map snd bkws) = true ->
  flow_val (given (names (sg_params (sig_of base))) (map (superval (bound s pos kws)) bpos) (call_args (bound s pos kws) bkws ++ (if fwd then extras s kws else []))) f =
  flow_val (given (names (sg_params s)) pos kws) (via s fwd base bpos bkws f).
Proof.
  intros Hl O1 O2.
  assert (SRC : forall p a, handed base bpos bkws p = Some a ->
    Some (superval (bound s pos kws) a) = flow_val (given (names (sg_params s)) pos kws) (match a with Made => FClass | Own q => FOwn q end)).
  { intros p a H. destruct a as [|q]; [reflexivity|]. cbn [superval flow_val]. rewrite bound_given; [destruct (given _ _ _ q); reflexivity|exact Hl|].
    assert (I : In (Own q) bpos \/ In (Own q) (map snd bkws)).
    { unfold handed in H. destruct (position p _); [left; eapply nth_error_In; exact H|right].
      clear -H. induction bkws as [|(k, a) l IH]; cbn in H; [discriminate|]. destruct (String.eqb p k); [left; cbn; congruence|right; apply IH; exact H]. }
    unfold own_wf in O1, O2. rewrite forallb_forall in O1, O2. apply mem_in. destruct I as [I|I]; [exact (O1 _ I)|exact (O2 _ I)]. }
  assert (EX : forall p, assoc p (if fwd then extras s kws else []) = if (negb fwd || mem p (names (sg_params s)))%bool then None else assoc p kws).
  { intros p. destruct fwd; cbn [negb orb]; [|reflexivity]. unfold extras. rewrite (assoc_filter p (fun k => negb (mem k (names (sg_params s))))).
    destruct (mem p (names (sg_params s))); reflexivity. }
  assert (GV : forall p, mem p (names (sg_params s)) = false -> given (names (sg_params s)) pos kws p = assoc p kws).
  { intros p M. unfold given. apply mem_notin in M. assert (N : position p (firstn (List.length pos) (names (sg_params s))) = None).
    { apply position_none. intros I. apply M. rewrite <- (firstn_skipn (List.length pos) (names (sg_params s))). apply in_or_app. auto. }
    rewrite N. reflexivity. }
  destruct f as [p|p| |]; cbn [via]; try reflexivity.
  - cbn [flow_val]. rewrite given_hand. destruct (handed base bpos bkws p) as [a|] eqn:E; [apply (SRC p a E)|].
    rewrite (handed_none _ _ _ _ E), EX. destruct fwd; cbn [negb orb flow_val]; [|reflexivity].
    destruct (mem p (names (sg_params s))) eqn:M; cbn [flow_val]; [reflexivity|]. symmetry. apply GV. exact M.
  - cbn [flow_val]. rewrite given_hand. destruct (handed base bpos bkws p) as [a|] eqn:E; [apply (SRC p a E)|].
    rewrite (handed_none _ _ _ _ E), EX. destruct fwd; cbn [negb orb flow_val]; [|reflexivity].
    destruct (mem p (names (sg_params s))) eqn:M; cbn [flow_val]; [reflexivity|]. rewrite GV by exact M. reflexivity.
Qed.

Lemma construct_flow {V} (c : cls) : cls_wf c = true -> forall (pos : list (option V)) kws b q,
  construct c pos kws = Ok b -> In q (names (sg_params (root_of c))) ->
  assoc q b = Some (flow_val (given (names (sg_params (sig_of c))) pos kws) (flow_of c q)).
Proof.
  induction c as [s|s base IH bpos bkws|s other IHo opos okws base IH bpos bkws]; intros W pos kws b q E Hq; cbn [cls_wf] in W; rewrite !andb_true_iff in W.
  - cbn [construct] in E. destruct (bind_spec s pos kws) as [(F & B)|(F & B)]; rewrite B in E; cbn in E; [|discriminate]. injection E as <-.
    cbn [flow_of flow_val sig_of]. apply bound_given; [exact (proj1 F)|exact Hq].
  - destruct W as (((((W1 & W2) & W3) & W4) & W5) & W6). cbn [construct] in E.
    destruct (bind_spec s pos kws) as [(F & B)|(F & B)]; rewrite B in E; cbn [bindr fst snd] in E; [|discriminate].
    rewrite (IH W3 _ _ _ q E Hq). cbn [flow_of sig_of]. f_equal. apply (via_val s true pos kws base bpos bkws); [exact (proj1 F)|exact W5|exact W6].
  - destruct W as (((((((W1 & W2) & W3) & W4) & W5) & W6) & W7) & W8). cbn [construct] in E.
    destruct (bind_spec s pos kws) as [(F & B)|(F & B)]; rewrite B in E; cbn [bindr fst snd] in E; [|discriminate].
    destruct (construct other _ _) as [x|]; cbn [bindr] in E; [|discriminate].
    rewrite <- (app_nil_r (call_args _ _)) in E. rewrite (IH W5 _ _ _ q E Hq). cbn [flow_of sig_of]. f_equal.
    apply (via_val s false pos kws base bpos bkws); [exact (proj1 F)|exact W7|exact W8].
Qed.

(** ** C73 *)

(** A call by the user: positional values and distinct keywords. *)
Definition user_call {V} (c : cls) (pos : list V) (kws : list (string * V)) : res (list (string * option (option V))) :=
  construct c (map Some pos) (map (fun kv => (fst kv, Some (snd kv))) kws).
Lemma user_names {V} (kws : list (string * V)) : names (map (fun kv => (fst kv, Some (snd kv))) kws) = names kws.
Proof. unfold names. rewrite map_map. reflexivity. Qed.

Definition table_ok (r : row) : bool :=
  (cls_wf (r_class r) &&
   forallb (fun ab => String.eqb (fst ab) (snd ab)) (combine (names (sg_params (sig_of (r_class r)))) (r_params r)) &&
   Nat.eqb (List.length (names (sg_params (sig_of (r_class r))))) (List.length (r_params r)) &&
   forallb (fun n => (subl (accept (r_class r) n) (skipn n (r_params r) ++ r_more r) && subl (skipn n (r_params r) ++ r_more r) (accept (r_class r) n))%bool)
     (seq 0 (S (List.length (r_params r)))) &&
   forallb (fun n => (subl (needed (sig_of (r_class r)) n) (r_required r) &&
                      forallb (fun p => (mem p (firstn n (r_params r)) || mem p (needed (sig_of (r_class r)) n))%bool) (r_required r) &&
                      forallb (fun p => negb (mem p (firstn n (r_params r)))) (needed (sig_of (r_class r)) n))%bool)
     (seq 0 (S (List.length (r_params r)))))%bool.
Lemma table_checked : forallb table_ok class_table = true.
Proof. vm_compute. reflexivity. Qed.
Lemma pairwise_eq a b : forallb (fun ab => String.eqb (fst ab) (snd ab)) (combine a b) = true -> List.length a = List.length b -> a = b.
Proof.
  revert b. induction a as [|x a IH]; intros [|y b] H L; cbn in *; try discriminate; [reflexivity|]. apply andb_true_iff in H. destruct H as (H1 & H2).
  apply String.eqb_eq in H1. f_equal; [exact H1|]. apply IH; [exact H2|lia].
Qed.

(** A call is accepted exactly when the positional arguments are not too many, every keyword is a parameter not already given
    or one of the further keywords of the table, and the parameters without default are given.  Otherwise it is a TypeError. *)
Theorem C73_keywords {V} : forall r (pos : list V) kws, In r class_table -> NoDup (names kws) ->
  let good := (List.length pos <= List.length (r_params r))%nat /\
    (forall k, In k (names kws) -> In k (skipn (List.length pos) (r_params r)) \/ In k (r_more r)) /\
    (forall p, In p (r_required r) -> In p (firstn (List.length pos) (r_params r)) \/ In p (names kws)) in
  (good -> exists b, user_call (r_class r) pos kws = Ok b) /\ (~ good -> user_call (r_class r) pos kws = Raise TypeError).
Proof.
  intros r pos kws Hr ND good.
  pose proof (proj1 (forallb_forall _ _) table_checked r Hr) as T. unfold table_ok in T. rewrite !andb_true_iff in T.
  destruct T as ((((T1 & T2) & T3) & T4) & T5). apply Nat.eqb_eq in T3. pose proof (pairwise_eq _ _ T2 T3) as EP.
  rewrite forallb_forall in T4, T5.
  assert (EQ : callable (r_class r) (map Some pos) (map (fun kv => (fst kv, Some (snd kv))) kws) <-> good).
  { assert (LP : List.length (r_params r) = List.length (sg_params (sig_of (r_class r)))) by (rewrite <- T3; unfold names; apply map_length).
    unfold callable, good. rewrite map_length, user_names, LP.
    assert (IS : (List.length pos <= List.length (sg_params (sig_of (r_class r))))%nat -> In (List.length pos) (seq 0 (S (List.length (r_params r))))).
    { intros H. apply in_seq. lia. }
    split.
    - intros (A & _ & B & C). specialize (T4 _ (IS A)). specialize (T5 _ (IS A)). cbv beta in T4, T5. rewrite !andb_true_iff in T4. rewrite !andb_true_iff in T5.
      destruct T4 as (T4 & T4'). destruct T5 as ((T5 & T5') & _). apply subl_incl in T4, T4', T5. rewrite forallb_forall in T5'.
      split; [exact A|]. split.
      + intros k Hk. apply in_app_or. apply T4, B. exact Hk.
      + intros p Hp. specialize (T5' p Hp). apply orb_true_iff in T5'. destruct T5' as [H|H]; apply mem_in in H; [left; exact H|right; apply C; exact H].
    - intros (A & B & C). specialize (T4 _ (IS A)). specialize (T5 _ (IS A)). cbv beta in T4, T5. rewrite !andb_true_iff in T4. rewrite !andb_true_iff in T5.
      destruct T4 as (T4 & T4'). destruct T5 as ((T5 & _) & T5''). apply subl_incl in T4, T4', T5. rewrite forallb_forall in T5''.
      split; [exact A|]. split; [exact ND|]. split.
      + intros k Hk. apply T4', in_or_app. exact (B k Hk).
      + intros p Hp. specialize (T5'' p Hp). apply negb_true_iff, mem_notin in T5''. destruct (C p (T5 p Hp)) as [H|H]; [contradiction|exact H]. }
  unfold user_call. destruct (construct_iff (r_class r) T1 (map Some pos) (map (fun kv => (fst kv, Some (snd kv))) kws)) as [(C & E)|(C & E)]; rewrite EQ in C.
  - split; [intros _; exact E|contradiction].
  - split; [contradiction|intros _; exact E].
Qed.

Lemma assoc_user {V} p (kws : list (string * V)) : assoc p (map (fun kv => (fst kv, Some (snd kv))) kws) = option_map Some (assoc p kws).
Proof. induction kws as [|(k, v) l IH]; cbn; [reflexivity|]. destruct (String.eqb p k); [reflexivity|exact IH]. Qed.
Lemma given_user {V} ps (pos : list V) kws p : given ps (map Some pos) (map (fun kv => (fst kv, Some (snd kv))) kws) p = option_map Some (given ps pos kws p).
Proof. unfold given. rewrite map_length. destruct (position p _) as [i|]; [apply nth_error_map|apply assoc_user]. Qed.
Definition is_both (c : cls) : bool := match c with Both _ _ _ _ _ _ _ => true | _ => false end.
Definition is_root (c : cls) : bool := match c with Root _ => true | _ => false end.
Lemma table_flow {V} r (pos : list V) kws b q : In r class_table -> user_call (r_class r) pos kws = Ok b ->
  In q ["adjacency"; "lap_type"; "coords"; "plotting"] ->
  assoc q b = Some (flow_val (fun p => option_map Some (given (r_params r) pos kws p)) (flow_of (r_class r) q)).
Proof.
  intros Hr E Hq. pose proof (proj1 (forallb_forall _ _) table_checked r Hr) as T. unfold table_ok in T. rewrite !andb_true_iff in T.
  destruct T as ((((T1 & T2) & T3) & _) & _). apply Nat.eqb_eq in T3. pose proof (pairwise_eq _ _ T2 T3) as EP.
  assert (RT : names (sg_params (root_of (r_class r))) = ["adjacency"; "lap_type"; "coords"; "plotting"]).
  { assert (A : forallb (fun r => if list_eq_dec string_dec (names (sg_params (root_of (r_class r)))) ["adjacency"; "lap_type"; "coords"; "plotting"] then true else false) class_table = true)
      by (vm_compute; reflexivity).
    rewrite forallb_forall in A. specialize (A r Hr). cbv beta in A. destruct (list_eq_dec _ _ _) as [e|]; [exact e|discriminate]. }
  rewrite <- RT in Hq. unfold user_call in E. rewrite (construct_flow (r_class r) T1 _ _ b q E Hq), EP. f_equal.
  destruct (flow_of (r_class r) q); cbn [flow_val]; rewrite ?given_user; reflexivity.
Qed.

(** lap_type given to any class (except Grid2dImgPatches) is the lap_type of the graph; otherwise it is Graph's default. *)
Theorem C73_lap_type {V} : forall r (pos : list V) kws b, In r class_table -> r_class r <> Grid2dImgPatches_c -> user_call (r_class r) pos kws = Ok b ->
  assoc "lap_type" b = Some (option_map Some (given (r_params r) pos kws "lap_type")).
Proof.
  intros r pos kws b Hr Hn E. rewrite (table_flow r pos kws b "lap_type" Hr E) by (cbn; auto).
  assert (A : forallb (fun r => match flow_of (r_class r) "lap_type" with FUser p => String.eqb p "lap_type" | _ => is_both (r_class r) end) class_table = true) by (vm_compute; reflexivity).
  assert (B : forallb (fun r => (negb (is_both (r_class r)) || (if list_eq_dec string_dec (r_params r) ["img"; "aggregate"] then true else false))%bool) class_table = true) by (vm_compute; reflexivity).
  assert (C : is_both (r_class r) = false).
  { clear -Hr Hn. unfold class_table in Hr. cbn [In] in Hr. repeat (destruct Hr as [<-|Hr]; [first [reflexivity|exfalso; apply Hn; reflexivity]|]). destruct Hr. }
  rewrite forallb_forall in A. specialize (A r Hr). cbv beta in A. rewrite C in A.
  destruct (flow_of (r_class r) "lap_type"); try discriminate. apply String.eqb_eq in A. subst. reflexivity.
Qed.

(** The coordinates of the graph are the caller's when the class takes coords, and the class's own otherwise.  (Path and Ring replace them later.) *)
Theorem C73_coords {V} : forall r (pos : list V) kws b, In r class_table -> user_call (r_class r) pos kws = Ok b ->
  assoc "coords" b = Some (if mem "coords" (r_params r ++ r_more r) then option_map Some (given (r_params r) pos kws "coords") else Some None).
Proof.
  intros r pos kws b Hr E. rewrite (table_flow r pos kws b "coords" Hr E) by (cbn; auto).
  assert (A : forallb (fun r => match flow_of (r_class r) "coords" with FUser p => (String.eqb p "coords" && mem "coords" (r_params r ++ r_more r))%bool
    | FClass => negb (mem "coords" (r_params r ++ r_more r)) | _ => false end) class_table = true) by (vm_compute; reflexivity).
  rewrite forallb_forall in A. specialize (A r Hr). cbv beta in A.
  destruct (flow_of (r_class r) "coords"); try discriminate.
  - apply andb_true_iff in A. destruct A as (A1 & A2). apply String.eqb_eq in A1. subst. rewrite A2. reflexivity.
  - apply negb_true_iff in A. rewrite A. reflexivity.
Qed.

(** Plotting options given by the caller reach the graph. *)
Theorem C73_plotting {V} : forall r (pos : list V) kws b v, In r class_table -> r_class r <> Grid2dImgPatches_c -> user_call (r_class r) pos kws = Ok b ->
  given (r_params r) pos kws "plotting" = Some v -> assoc "plotting" b = Some (Some (Some v)).
Proof.
  intros r pos kws b v Hr Hn E Hv. rewrite (table_flow r pos kws b "plotting" Hr E) by (cbn; auto).
  assert (A : forallb (fun r => match flow_of (r_class r) "plotting" with FUser p | FOwn p => String.eqb p "plotting"
    | _ => (is_both (r_class r) || negb (mem "plotting" (r_params r ++ r_more r)))%bool end) class_table = true) by (vm_compute; reflexivity).
  assert (C : is_both (r_class r) = false).
  { clear -Hr Hn. unfold class_table in Hr. cbn [In] in Hr. repeat (destruct Hr as [<-|Hr]; [first [reflexivity|exfalso; apply Hn; reflexivity]|]). destruct Hr. }
  rewrite forallb_forall in A. specialize (A r Hr). cbv beta in A. rewrite C in A. cbn [orb] in A.
  assert (OUT : mem "plotting" (r_params r ++ r_more r) = true).
  { assert (P : In "plotting" (r_params r) \/ In "plotting" (names kws)).
    { unfold given in Hv. destruct (position "plotting" (firstn (List.length pos) (r_params r))) as [i|] eqn:Ei.
      - left. destruct (in_dec string_dec "plotting" (firstn (List.length pos) (r_params r))) as [I|I].
        + rewrite <- (firstn_skipn (List.length pos) (r_params r)). apply in_or_app. auto.
        + apply position_none in I. congruence.
      - right. destruct (in_dec string_dec "plotting" (names kws)) as [I|I]; [exact I|]. apply assoc_none in I. congruence. }
    apply mem_in, in_or_app. destruct P as [P|P]; [auto|].
    destruct (distinct (names kws)) eqn:D.
    - apply distinct_nodup in D. destruct (C73_keywords r pos kws Hr D) as (_ & K).
      destruct (Nat.le_gt_cases (List.length pos) (List.length (r_params r))) as [L|L].
      2:{ rewrite K in E; [discriminate|]. intros (X & _). lia. }
      destruct (in_dec string_dec "plotting" (r_params r)) as [I|I]; [auto|]. destruct (in_dec string_dec "plotting" (r_more r)) as [J|J]; [auto|].
      exfalso. rewrite K in E; [discriminate|]. intros (_ & X & _). destruct (X _ P) as [Y|Y]; [|contradiction].
      apply I. rewrite <- (firstn_skipn (List.length pos) (r_params r)). apply in_or_app. auto.
    - exfalso. unfold user_call in E. pose proof (proj1 (forallb_forall _ _) table_checked r Hr) as T. unfold table_ok in T. rewrite !andb_true_iff in T.
      destruct T as ((((T1 & _) & _) & _) & _).
      destruct (construct_iff (r_class r) T1 (map Some pos) (map (fun kv => (fst kv, Some (snd kv))) kws)) as [((_ & X & _) & _)|(_ & X)]; [|congruence].
      rewrite user_names in X. apply distinct_nodup in X. congruence. }
  rewrite OUT in A. destruct (flow_of (r_class r) "plotting"); try discriminate; apply String.eqb_eq in A; subst; cbn [flow_val]; rewrite Hv; reflexivity.
Qed.
(** The adjacency matrix is always the class's own. *)
Theorem C73_adjacency {V} : forall r (pos : list V) kws b, In r class_table -> r_class r <> Graph_c -> user_call (r_class r) pos kws = Ok b ->
  assoc "adjacency" b = Some (Some None).
Proof.
  intros r pos kws b Hr Hn E. rewrite (table_flow r pos kws b "adjacency" Hr E) by (cbn; auto).
  assert (F : flow_of (r_class r) "adjacency" = FClass).
  { clear -Hr Hn. unfold class_table in Hr. cbn [In] in Hr. repeat (destruct Hr as [<-|Hr]; [first [reflexivity|exfalso; apply Hn; reflexivity]|]). destruct Hr. }
  rewrite F. reflexivity.
Qed.
(** Grid2dImgPatches accepts lap_type and plotting, but they configure the auxiliary graph of patches: the graph itself has the default
    Laplacian type. *)
Theorem C73_grid2dimgpatches_drops_lap_type_refuted {V} : forall (img lt : V),
  exists b, user_call Grid2dImgPatches_c [img] [("lap_type", lt)] = Ok b /\ assoc "lap_type" b = Some None.
Proof. intros img lt. eexists. split; [reflexivity|]. reflexivity. Qed.
(** Keywords one would expect to be overridable are not: each class that fixes k, plotting or coords refuses them. *)
Theorem C73_fixed_keywords_refuted {V} : forall v : V,
  user_call Cube_c [] [("k", v)] = Raise TypeError /\ user_call Sphere_c [] [("k", v)] = Raise TypeError /\ user_call TwoMoons_c [] [("k", v)] = Raise TypeError /\
  user_call Ring_c [] [("plotting", v)] = Raise TypeError /\ user_call Star_c [] [("plotting", v)] = Raise TypeError /\
  user_call Grid2d_c [] [("coords", v)] = Raise TypeError.
Proof. intros v. repeat split. Qed.
(** A probability matrix given to ErdosRenyi is accepted (and used instead of p). *)
Example C73_erdos_renyi_M : exists b, user_call ErdosRenyi_c [64; 1]%nat [("M", 0%nat)] = Ok b.
Proof. eexists. reflexivity. Qed.
Example C73_ex : exists b, user_call Sensor_c [64; 6]%nat [("lap_type", 7%nat); ("seed", 1%nat)] = Ok b /\ assoc "lap_type" b = Some (Some (Some 7%nat)).
Proof. eexists. split; reflexivity. Qed.

(** ** What a class hands to the class it derives from *)
Lemma parent_ok {V} (c : cls) (pos : list (option V)) kws b : is_root c = false -> construct c pos kws = Ok b -> exists b', parent_call c pos kws = Ok b'.
Proof.
  assert (H : forall c (pos : list (option V)) kws b, construct c pos kws = Ok b -> exists be, py_bind (sig_of c) pos kws = Ok be).
  { intros c' pos' kws' b' E. destruct c'; cbn [construct sig_of] in *; destruct (py_bind _ pos' kws') as [be|]; try discriminate; eauto. }
  intros R E. destruct c as [s|s base bpos bkws|s other opos okws base bpos bkws]; [discriminate| |]; cbn [construct parent_call] in *.
  - destruct (py_bind s pos kws) as [be|]; cbn [bindr] in *; [|discriminate]. destruct (H _ _ _ _ E) as (be' & ->). cbn. eauto.
  - destruct (py_bind s pos kws) as [be|]; cbn [bindr] in *; [|discriminate]. destruct (construct other _ _) as [x|] eqn:Eo; cbn [bindr] in E; [|discriminate].
    destruct (H _ _ _ _ Eo) as (be' & ->). cbn. eauto.
Qed.
Definition parent_of (c : cls) : cls := match c with Root s => Root s | Class _ base _ _ => base | Both _ other _ _ _ _ _ => other end.
Definition parent_flow (c : cls) (q : string) : flow :=
  match c with
  | Root s => FUser q
  | Class s base bpos bkws => via s true base bpos bkws (FUser q)
  | Both s other opos okws _ _ _ => via s true other opos okws (FUser q)
  end.
Definition parent_wf (c : cls) : bool :=
  match c with
  | Root _ => false
  | Class s _ bpos bkws => (own_wf s bpos && own_wf s (map snd bkws))%bool
  | Both s _ opos okws _ _ _ => (own_wf s opos && own_wf s (map snd okws))%bool
  end.
Lemma parent_flow_ok {V} (c : cls) (pos : list (option V)) kws b q : parent_wf c = true -> parent_call c pos kws = Ok b -> In q (names (sg_params (sig_of (parent_of c)))) ->
  assoc q b = Some (flow_val (given (names (sg_params (sig_of c))) pos kws) (parent_flow c q)).
Proof.
  intros W E Hq. destruct c as [s|s base bpos bkws|s other opos okws base bpos bkws]; [discriminate| |]; cbn [parent_wf parent_call parent_of parent_flow sig_of] in *;
    apply andb_true_iff in W; destruct W as (W1 & W2); (destruct (bind_spec s pos kws) as [(F & B)|(F & B)]; rewrite B in E; cbn [bindr fst snd] in E; [|discriminate]);
    match type of E with context [py_bind ?s' ?p ?k] => destruct (bind_spec s' p k) as [(F' & B')|(F' & B')]; rewrite B' in E; cbn [bindr fst snd] in E; [|discriminate] end;
    injection E as <-; rewrite (bound_given _ _ _ _ (proj1 F') Hq); f_equal.
  - exact (via_val s true pos kws base bpos bkws (FUser q) (proj1 F) W1 W2).
  - exact (via_val s true pos kws other opos okws (FUser q) (proj1 F) W1 W2).
Qed.
Definition source_flow (f : source) : flow := match f with Chosen => FClass | From p => FOwn p | Users q => FUser q end.
Definition flow_eqb (a b : flow) : bool :=
  match a, b with FUser p, FUser q | FOwn p, FOwn q => String.eqb p q | FClass, FClass | FDefault, FDefault => true | _, _ => false end.
Definition heir_ok (h : heir) : bool :=
  (parent_wf (r_class (h_row h)) && negb (is_root (r_class (h_row h))) &&
   (if list_eq_dec string_dec (names (sg_params (sig_of (parent_of (r_class (h_row h)))))) (h_params h) then true else false) &&
   (if list_eq_dec string_dec (names (sg_params (sig_of (r_class (h_row h))))) (r_params (h_row h)) then true else false) &&
   forallb (fun q => flow_eqb (parent_flow (r_class (h_row h)) q) (source_flow (h_source h q))) (h_params h))%bool.
Lemma heirs_checked : forallb heir_ok heir_table = true.
Proof. vm_compute. reflexivity. Qed.
(** Each class built on another one calls the constructor of the latter with the values of the table: the ones it chooses itself, those of its own
    parameters (the caller's or their default), and for all other parameters the caller's keyword of that name, or else the default of the parent. *)
Theorem C73_parent_arguments {V} : forall h (pos : list V) kws b, In h heir_table -> user_call (r_class (h_row h)) pos kws = Ok b ->
  let caller p := given (r_params (h_row h)) pos kws p in
  exists b', parent_call (r_class (h_row h)) (map Some pos) (map (fun kv => (fst kv, Some (snd kv))) kws) = Ok b' /\
    forall q, In q (h_params h) -> assoc q b' = Some (match h_source h q with Chosen => Some None | From p => Some (caller p) | Users p => option_map Some (caller p) end).
Proof.
  intros h pos kws b Hh E caller. pose proof (proj1 (forallb_forall _ _) heirs_checked h Hh) as T. unfold heir_ok in T. rewrite !andb_true_iff in T. destruct T as ((((T1 & T2) & T3) & T4) & T5).
  apply negb_true_iff in T2. unfold user_call in E. destruct (parent_ok _ _ _ _ T2 E) as (b' & Eb). exists b'. split; [exact Eb|]. intros q Hq.
  destruct (list_eq_dec _ _ (h_params h)) as [P|]; [|discriminate]. destruct (list_eq_dec _ _ (r_params (h_row h))) as [P'|]; [|discriminate].
  rewrite (parent_flow_ok _ _ _ _ q T1 Eb) by (rewrite P; exact Hq). f_equal. rewrite P'. rewrite forallb_forall in T5. specialize (T5 q Hq).
  destruct (h_source h q) as [|p|p]; cbn [source_flow] in T5; destruct (parent_flow (r_class (h_row h)) q) as [p'|p'| |]; try discriminate T5; cbn [flow_val]; try reflexivity;
    apply String.eqb_eq in T5; subst p'; rewrite given_user; [|reflexivity]. unfold caller. destruct (given _ pos kws p); reflexivity.
Qed.
Example C73_parent_ex : exists b b', user_call Sensor_c [64; 6]%nat [("epsilon", 3%nat)] = Ok b /\ parent_call Sensor_c (map Some [64; 6]%nat) [("epsilon", Some 3%nat)] = Ok b' /\
  assoc "k" b' = Some (Some (Some 6%nat)) /\ assoc "epsilon" b' = Some (Some (Some 3%nat)) /\ assoc "rescale" b' = Some (Some None) /\ assoc "sigma" b' = Some None.
Proof. eexists. eexists. repeat split. Qed.

(** ** C74: functions of the public API that raise whatever they are given *)
(** tree_multiresolution calls Graph with a keyword it does not have: whatever the rest of the code does. *)
Theorem C74_tree_multiresolution_refuted {T U} : forall full basis (depths : res T) (levels : T -> res U),
  tree_multiresolution full basis depths levels =
  match (if full : bool then basis else Ok tt) with Ok _ => Raise TypeError | Raise e => Raise e end.
Proof. intros full basis depths levels. unfold tree_multiresolution. destruct full; [destruct basis|]; reflexivity. Qed.
(** prox_tv uses the name verbose, which is bound nowhere. *)
Theorem C74_prox_tv_refuted {T} : forall lmax pyunlocbox (norm_l1 : res T),
  prox_tv lmax pyunlocbox norm_l1 =
  match lmax, pyunlocbox with Raise e, _ => Raise e | Ok _, Raise e => Raise e | Ok _, Ok _ => Raise NameError end.
Proof. intros [[]|e] [[]|e'] n; reflexivity. Qed.
(** lanczos_op reads the attribute g, which no filter has. *)
Theorem C74_lanczos_op_refuted {T} : forall extra (rest : res T), ~ In "g" extra -> lanczos_op_call extra rest = Raise AttributeError.
Proof.
  intros extra rest H. unfold lanczos_op_call.
  assert (E1 : py_attr (filter_attributes ++ extra) "G" = Ok tt) by reflexivity.
  assert (E2 : py_attr (filter_attributes ++ extra) "g" = Raise AttributeError).
  { unfold py_attr. assert (M : mem "g" (filter_attributes ++ extra) = false).
    { apply mem_notin. intros I. apply in_app_or in I. destruct I as [I|I]; [|contradiction]. apply mem_in in I. vm_compute in I. discriminate. }
    rewrite M. reflexivity. }
  rewrite E1. cbn [bindr]. rewrite E2. reflexivity.
Qed.
Example C74_ex : ~ In "g" ["lpfactor"; "scales"; "normalize"].
Proof. cbn. intuition discriminate. Qed.
