(** Facts on the IO model: dictionaries, names, breaking and joining. *)
From Coq Require Import Reals Lra Lia List Arith Bool String Ascii Permutation Decimal DecimalString DecimalNat.
From Coq Require Import List.
From Verif.Base Require Import RSum Prelude.
From Verif.Spec Require Import Matrix GraphSpec IOSpec.
From Verif.Model Require Import Sparse Graph IO.
From Verif.Proofs Require Import SparseFacts InitFacts EdgeFacts.
Import ListNotations.
Open Scope list_scope.

(** ** Dictionaries *)
Lemma dget_set {V} k (v : V) d q : dict_get q (dict_set k v d) = if String.eqb k q then Some v else dict_get q d.
Proof.
  induction d as [|[k' v'] d IH]; cbn; [reflexivity|]. destruct (String.eqb_spec k' k) as [->|N]; cbn.
  - destruct (String.eqb k q); reflexivity.
  - destruct (String.eqb_spec k' q) as [->|N']; [|exact IH]. destruct (String.eqb_spec k q); [subst; congruence|reflexivity].
Qed.
Lemma dget_none {V} k (d : list (string * V)) : dict_get k d = None <-> ~ In k (map fst d).
Proof.
  induction d as [|[k' v] d IH]; cbn; [tauto|]. destruct (String.eqb_spec k' k) as [->|N].
  - split; [discriminate|]. intros H. exfalso. apply H. left. reflexivity.
  - rewrite IH. tauto.
Qed.
Lemma dget_in {V} k (v : V) d : dict_get k d = Some v -> In (k, v) d.
Proof.
  induction d as [|[k' v'] d IH]; cbn; [discriminate|]. destruct (String.eqb_spec k' k) as [->|N].
  - intros [= ->]. left. reflexivity.
  - intros H. right. exact (IH H).
Qed.
Lemma in_dget {V} k (v : V) d : NoDup (map fst d) -> In (k, v) d -> dict_get k d = Some v.
Proof.
  induction d as [|[k' v'] d IH]; cbn; [tauto|]. intros H [E|E]; inversion H as [|? ? N D]; subst.
  - injection E as -> ->. rewrite String.eqb_refl. reflexivity.
  - destruct (String.eqb_spec k' k) as [->|_]; [|exact (IH D E)]. exfalso. apply N. apply (in_map fst) in E. exact E.
Qed.
Lemma dget_app {V} k (d e : list (string * V)) : dict_get k (d ++ e) = match dict_get k d with Some v => Some v | None => dict_get k e end.
Proof. induction d as [|[k' v'] d IH]; cbn; [reflexivity|]. destruct (String.eqb k' k); [reflexivity|exact IH]. Qed.
Lemma dget_filter {V} k (d : list (string * V)) q :
  dict_get q (filter (fun p => negb (String.eqb (fst p) k)) d) = if String.eqb q k then None else dict_get q d.
Proof.
  induction d as [|[k' v'] d IH]; cbn; [destruct (String.eqb q k); reflexivity|]. destruct (String.eqb_spec k' k) as [->|N]; cbn.
  - rewrite IH. destruct (String.eqb_spec q k) as [E|N]; [reflexivity|]. destruct (String.eqb_spec k q); [congruence|reflexivity].
  - rewrite IH. destruct (String.eqb_spec k' q) as [E|]; [|reflexivity]. rewrite <- E. destruct (String.eqb_spec k' k); [congruence|reflexivity].
Qed.
Lemma dset_fresh {V} k (v : V) d : ~ In k (map fst d) -> dict_set k v d = d ++ [(k, v)].
Proof.
  induction d as [|[k' v'] d IH]; cbn; [reflexivity|]. intros H. destruct (String.eqb_spec k' k) as [->|N]; [tauto|].
  rewrite IH; [reflexivity|tauto].
Qed.
Lemma dset_last {V} k (v w : V) d : ~ In k (map fst d) -> dict_set k v (d ++ [(k, w)]) = d ++ [(k, v)].
Proof.
  induction d as [|[k' v'] d IH]; cbn; [rewrite String.eqb_refl; reflexivity|]. intros H.
  destruct (String.eqb_spec k' k) as [->|N]; [tauto|]. rewrite IH; [reflexivity|tauto].
Qed.
Lemma fold_left_map {A B C} (f : A -> B -> A) (g : C -> B) l a : fold_left f (map g l) a = fold_left (fun a c => f a (g c)) l a.
Proof. revert a. induction l as [|c l IH]; intros a; cbn; [reflexivity|apply IH]. Qed.
Lemma fold_set_fresh {V} (l d : list (string * V)) : NoDup (map fst l) -> (forall k, In k (map fst l) -> ~ In k (map fst d)) ->
  fold_left (fun d p => dict_set (fst p) (snd p) d) l d = d ++ l.
Proof.
  revert d. induction l as [|[k v] l IH]; intros d D H; cbn; [rewrite app_nil_r; reflexivity|]. inversion D as [|? ? N D']; subst.
  rewrite dset_fresh by (apply H; left; reflexivity). rewrite IH; [rewrite <- app_assoc; reflexivity|exact D'|].
  intros q Hq. rewrite map_app, in_app_iff. cbn. intros [E|[E|[]]].
  - apply (H q); [right; exact Hq|exact E].
  - subst. exact (N Hq).
Qed.
Lemma filter_all {A} (p : A -> bool) l : (forall x, In x l -> p x = true) -> filter p l = l.
Proof.
  induction l as [|a l IH]; intros H; cbn; [reflexivity|]. rewrite (H a) by (left; reflexivity). f_equal. apply IH.
  intros x Hx. apply H. right. exact Hx.
Qed.
Lemma del_absent {V} k (d : list (string * V)) : ~ In k (map fst d) -> filter (fun p => negb (String.eqb (fst p) k)) d = d.
Proof.
  intros H. apply filter_all. intros x Hx. destruct (String.eqb_spec (fst x) k) as [<-|]; [|reflexivity].
  exfalso. apply H. apply in_map. exact Hx.
Qed.

(** ** Names *)
Lemma before_last_app a b : before_last b = None -> before_last (a ++ String "_" b) = Some a.
Proof. intros H. induction a as [|c a IH]; cbn; [rewrite H; reflexivity|rewrite IH; reflexivity]. Qed.
Lemma before_last_none s : before_last s = None <-> ~ In "_"%char (list_ascii_of_string s).
Proof.
  induction s as [|c s IH]; cbn; [tauto|]. destruct (before_last s).
  - split; [discriminate|]. intros H. exfalso. assert (N : ~ In "_"%char (list_ascii_of_string s)) by tauto.
    apply IH in N. discriminate.
  - destruct (Ascii.eqb_spec c "_"%char) as [->|N]; [split; [discriminate|tauto]|].
    split; [intros _|reflexivity]. intros [E|E]; [congruence|]. apply (proj1 IH); [reflexivity|exact E].
Qed.
Lemma before_last_some s r : before_last s = Some r -> exists t, s = (r ++ "_" ++ t)%string /\ ~ In "_"%char (list_ascii_of_string t).
Proof.
  revert r. induction s as [|c s IH]; cbn; intros r H; [discriminate|]. destruct (before_last s) as [r'|] eqn:E.
  - injection H as <-. destruct (IH r' eq_refl) as (t & -> & Ht). exists t. split; [reflexivity|exact Ht].
  - destruct (Ascii.eqb_spec c "_"%char) as [->|]; [|discriminate]. injection H as <-. exists s. split; [reflexivity|].
    apply before_last_none. exact E.
Qed.
Lemma rsplit_stem s : stem s (rsplit s).
Proof.
  unfold rsplit. destruct (before_last s) as [r|] eqn:E; [left; apply before_last_some; exact E|].
  right. split; [reflexivity|]. apply before_last_none. exact E.
Qed.
Lemma stem_rsplit s b : stem s b -> b = rsplit s.
Proof.
  unfold rsplit. intros [(t & -> & Ht)|[-> Hs]].
  - apply before_last_none in Ht. change ("_" ++ t)%string with (String "_" t). rewrite before_last_app by exact Ht. reflexivity.
  - apply before_last_none in Hs. rewrite Hs. reflexivity.
Qed.
Lemma digits_no_us d : before_last (NilEmpty.string_of_uint d) = None.
Proof. induction d; cbn; try rewrite IHd; reflexivity. Qed.
Lemma str_no_us i : before_last (str i) = None.
Proof. unfold str, NilZero.string_of_uint. destruct (Nat.to_uint i); [reflexivity|..]; apply digits_no_us. Qed.
Lemma rsplit_col name i : rsplit (col_name name i) = name.
Proof.
  unfold rsplit, col_name. change ("_" ++ str i)%string with (String "_" (str i)). rewrite before_last_app; [reflexivity|apply str_no_us].
Qed.
Lemma str_inj i j : str i = str j -> i = j.
Proof.
  assert (H : forall i, match NilZero.uint_of_string (str i) with Some d => Nat.of_uint d | None => 0%nat end = i).
  { intros k. unfold str. destruct (uint_eq_dec (Nat.to_uint k) Nil) as [E|E].
    - rewrite E. cbn. rewrite <- (Unsigned.of_to k), E. reflexivity.
    - rewrite NilZero.usu by exact E. apply Unsigned.of_to. }
  intros E. rewrite <- (H i), <- (H j), E. reflexivity.
Qed.
Lemma append_inj a b c : (a ++ b)%string = (a ++ c)%string -> b = c.
Proof. induction a as [|x a IH]; cbn; [tauto|]. intros [= E]. exact (IH E). Qed.
Lemma col_name_inj name i j : col_name name i = col_name name j -> i = j.
Proof. unfold col_name. intros H. apply append_inj in H. apply str_inj. injection H as H. exact H. Qed.
Lemma append_length a b : String.length (a ++ b) = (String.length a + String.length b)%nat.
Proof. induction a as [|x a IH]; cbn; [reflexivity|rewrite IH; reflexivity]. Qed.
Lemma col_name_ne name i : col_name name i <> name.
Proof. intros H. apply (f_equal String.length) in H. unfold col_name in H. rewrite append_length in H. cbn in H. lia. Qed.
Lemma col_name_stem a b i j : col_name a i = col_name b j -> a = b.
Proof. intros H. rewrite <- (rsplit_col a i), H. apply rsplit_col. Qed.

(** ** Sorting strings *)
Lemma sinsert_perm x l : Permutation (sinsert x l) (x :: l).
Proof.
  induction l as [|y l IH]; cbn; [apply Permutation_refl|]. destruct (String.leb x y); [apply Permutation_refl|].
  eapply perm_trans; [apply perm_skip, IH|apply perm_swap].
Qed.
Lemma ssort_perm l : Permutation (ssort l) l.
Proof. induction l as [|x l IH]; cbn; [apply perm_nil|]. eapply perm_trans; [apply sinsert_perm|apply perm_skip, IH]. Qed.
Lemma ssort_sorted_id l : (forall i, (S i < List.length l)%nat -> String.leb (nth i l ""%string) (nth (S i) l ""%string) = true) -> ssort l = l.
Proof.
  induction l as [|x l IH]; intros H; [reflexivity|]. change (ssort (x :: l)) with (sinsert x (ssort l)). rewrite IH.
  - destruct l as [|y l]; [reflexivity|]. cbn. specialize (H 0%nat). cbn in H. rewrite H by lia. reflexivity.
  - intros i Hi. apply (H (S i)). cbn. lia.
Qed.
Lemma sinsert_sorted x l : (forall i, (S i < List.length l)%nat -> String.leb (nth i l ""%string) (nth (S i) l ""%string) = true) ->
  forall i, (S i < List.length (sinsert x l))%nat -> String.leb (nth i (sinsert x l) ""%string) (nth (S i) (sinsert x l) ""%string) = true.
Proof.
  revert x. induction l as [|y l IH]; intros x H i Hi; cbn in *; [lia|]. destruct (String.leb x y) eqn:E.
  - destruct i as [|i]; [exact E|]. apply H. cbn in Hi. lia.
  - assert (E' : String.leb y x = true) by (destruct (String.leb_total y x) as [T|T]; [exact T|congruence]).
    destruct i as [|i].
    + cbn. destruct l as [|z l]; cbn; [exact E'|]. destruct (String.leb x z); [exact E'|]. apply (H 0%nat). cbn. lia.
    + cbn in Hi. apply (IH x); [|lia]. intros j Hj. apply (H (S j)). lia.
Qed.
Lemma ssort_sorted l i : (S i < List.length (ssort l))%nat -> String.leb (nth i (ssort l) ""%string) (nth (S i) (ssort l) ""%string) = true.
Proof. revert i. induction l as [|x l IH]; intros i; [cbn; lia|]. change (ssort (x :: l)) with (sinsert x (ssort l)). apply sinsert_sorted. exact IH. Qed.
Lemma compare_app a b c : String.compare (a ++ b) (a ++ c) = String.compare b c.
Proof.
  induction a as [|x a IH]; cbn; [reflexivity|]. unfold Ascii.compare. rewrite N.compare_refl. exact IH.
Qed.
Lemma col_name_leb name i j : (i < 10)%nat -> (j < 10)%nat -> (i <= j)%nat -> String.leb (col_name name i) (col_name name j) = true.
Proof.
  intros Hi Hj H. unfold String.leb, col_name. rewrite !compare_app.
  do 10 (destruct i as [|i]; [do 10 (destruct j as [|j]; [first [reflexivity|lia]|]); lia|]). lia.
Qed.
Lemma sorted_names name k : (k <= 10)%nat -> ssort (map (col_name name) (seq 0 k)) = map (col_name name) (seq 0 k).
Proof.
  intros H. apply ssort_sorted_id. rewrite map_length, seq_length. intros i Hi.
  rewrite !(nth_indep _ ""%string (col_name name 0)) by (rewrite map_length, seq_length; lia). rewrite !map_nth, !seq_nth by lia.
  apply col_name_leb; lia.
Qed.

(** ** Breaking *)
Definition is2 (p : string * nd) : bool := match nd_dims (snd p) with [_] => true | _ => false end.
Definition width (p : string * nd) : nat := match nd_dims (snd p) with [k] => k | _ => 0%nat end.
Definition images (p : string * nd) : sigs := map (fun i => (col_name (fst p) i, nd_col (snd p) i)) (seq 0 (width p)).
Definition broken (S : sigs) : sigs := filter (fun p => negb (is2 p)) S ++ flat_map images (filter is2 S).

Lemma is2_two_d p : is2 p = true <-> two_d (snd p).
Proof.
  unfold is2, two_d. destruct (nd_dims (snd p)) as [|k [|k' l]]; split; try discriminate; try (intros (k0 & H); discriminate).
  - intros _. exists k. reflexivity.
  - reflexivity.
Qed.
Lemma is2_dims p : is2 p = true -> nd_dims (snd p) = [width p].
Proof. unfold is2, width. destruct (nd_dims (snd p)) as [|k [|k' l]]; try discriminate. reflexivity. Qed.
Lemma in_images p q : In q (map fst (images p)) <-> exists i, (i < width p)%nat /\ q = col_name (fst p) i.
Proof.
  unfold images. rewrite map_map. cbn. rewrite in_map_iff. split.
  - intros (i & <- & Hi). apply in_seq in Hi. exists i. split; [lia|reflexivity].
  - intros (i & Hi & ->). exists i. split; [reflexivity|]. apply in_seq. lia.
Qed.
Lemma images_nodup p : NoDup (map fst (images p)).
Proof.
  unfold images. rewrite map_map. cbn. apply FinFun.Injective_map_NoDup; [|apply seq_NoDup].
  intros i j. apply col_name_inj.
Qed.

Lemma joined_is2 p : is2 p = true -> joined_name p (fst p).
Proof. intros H. left. split; [apply is2_two_d; exact H|reflexivity]. Qed.
Lemma joined_not2 p : is2 p = false -> joined_name p (rsplit (fst p)).
Proof. intros H. right. split; [rewrite <- is2_two_d, H; discriminate|apply rsplit_stem]. Qed.

Section Break.
Variable Sg : sigs.
Hypothesis Hnd : NoDup (map fst Sg).
Hypothesis Hn : names_ok Sg.

Lemma image_fresh p i : In p Sg -> is2 p = true -> (i < width p)%nat -> ~ In (col_name (fst p) i) (map fst Sg).
Proof.
  intros Hp H2 Hi H. apply in_map_iff in H as (q & E & Hq). destruct (is2 q) eqn:Eq.
  - apply (proj2 Hn p q (width p) i Hp Hq (is2_dims p H2)); [apply is2_two_d; exact Eq|exact Hi|symmetry; exact E].
  - assert (p = q).
    { apply (proj1 Hn p q (fst p) Hp Hq); [apply joined_is2; exact H2|]. replace (fst p) with (rsplit (fst q)); [apply joined_not2; exact Eq|].
      rewrite E. apply rsplit_col. }
    subst q. congruence.
Qed.
Lemma images_disjoint p q k : In k (map fst (images p)) -> In k (map fst (images q)) -> fst p = fst q.
Proof.
  rewrite !in_images. intros (i & _ & ->) (j & _ & E). exact (col_name_stem _ _ _ _ E).
Qed.
Lemma key_inj p q : In p Sg -> In q Sg -> fst p = fst q -> p = q.
Proof.
  destruct p as [a x], q as [b y]. cbn. intros Hp Hq <-. apply (in_dget a x Sg Hnd) in Hp. apply (in_dget a y Sg Hnd) in Hq. congruence.
Qed.
Lemma images_keys (l : sigs) k : incl l Sg -> In k (map fst (flat_map images (filter is2 l))) <->
  exists p i, In p l /\ is2 p = true /\ (i < width p)%nat /\ k = col_name (fst p) i.
Proof.
  intros Hl. rewrite in_map_iff. split.
  - intros (e & <- & He). apply in_flat_map in He as (p & Hp & He). apply filter_In in Hp as [Hp H2].
    apply (in_map fst) in He. apply in_images in He as (i & Hi & ->). exists p, i. auto.
  - intros (p & i & Hp & H2 & Hi & ->). exists (col_name (fst p) i, nd_col (snd p) i). split; [reflexivity|]. apply in_flat_map. exists p.
    split; [apply filter_In; auto|]. unfold images. apply in_map_iff. exists i. split; [reflexivity|]. apply in_seq. lia.
Qed.

Lemma break_step pre p rest : Sg = pre ++ p :: rest ->
  break_one (Ok (filter (fun p => negb (is2 p)) pre ++ (p :: rest) ++ flat_map images (filter is2 pre))) (fst p) =
  Ok (filter (fun p => negb (is2 p)) (pre ++ [p]) ++ rest ++ flat_map images (filter is2 (pre ++ [p]))).
Proof.
  intros E. assert (Ip : In p Sg) by (rewrite E; apply in_or_app; right; left; reflexivity).
  assert (Ipre : incl pre Sg) by (intros x Hx; rewrite E; apply in_or_app; left; exact Hx).
  assert (Irest : incl rest Sg) by (intros x Hx; rewrite E; apply in_or_app; right; right; exact Hx).
  assert (Npre : ~ In (fst p) (map fst pre)).
  { rewrite E, map_app in Hnd. cbn in Hnd. apply NoDup_remove_2 in Hnd. rewrite in_app_iff in Hnd. tauto. }
  assert (Nrest : ~ In (fst p) (map fst rest)).
  { rewrite E, map_app in Hnd. cbn in Hnd. apply NoDup_remove_2 in Hnd. rewrite in_app_iff in Hnd. tauto. }
  assert (Nf : ~ In (fst p) (map fst (filter (fun p => negb (is2 p)) pre))).
  { intros H. apply Npre. apply in_map_iff in H as (x & Ex & Hx). apply filter_In in Hx. rewrite <- Ex. apply in_map. tauto. }
  assert (NI : ~ In (fst p) (map fst (flat_map images (filter is2 pre)))).
  { intros H. apply images_keys in H; [|exact Ipre]. destruct H as (q & i & Hq & H2 & Hi & Eq).
    apply (image_fresh q i (Ipre q Hq) H2 Hi). rewrite <- Eq. apply in_map. exact Ip. }
  unfold break_one. cbn [bindr]. rewrite dget_app, (proj2 (dget_none _ _) Nf). cbn [app dict_get]. destruct p as [k s]. cbn [fst snd] in *.
  rewrite String.eqb_refl. rewrite !filter_app, flat_map_app. cbn [filter].
  destruct (is2 (k, s)) eqn:H2.
  - cbn [negb]. rewrite app_nil_r. pose proof (is2_dims _ H2) as Hd. cbn [snd] in Hd. rewrite Hd. cbn [flat_map]. rewrite app_nil_r.
    remember (width (k, s)) as w eqn:Hw.
    assert (EI : images (k, s) = map (fun i => (col_name k i, nd_col s i)) (seq 0 w)) by (unfold images; rewrite <- Hw; reflexivity).
    assert (Fs : forall d, (forall q, In q (map fst (images (k, s))) -> ~ In q (map fst d)) ->
              fold_left (fun d i => dict_set (col_name k i) (nd_col s i) d) (seq 0 w) d = d ++ images (k, s)).
    { intros d Hd'. rewrite <- (fold_set_fresh (images (k, s)) d (images_nodup (k, s)) Hd'). rewrite EI, fold_left_map. reflexivity. }
    rewrite Fs; clear Fs.
    2:{ intros q Hq Hin. apply in_images in Hq as (i & Hi & ->). cbn [fst] in *. rewrite map_app, in_app_iff in Hin. cbn [map fst] in Hin.
        pose proof (image_fresh (k, s) i Ip H2 Hi) as Fr. cbn [fst] in Fr.
        destruct Hin as [Hin|[Hin|Hin]].
        - apply Fr. apply in_map_iff in Hin as (x & Ex & Hx). apply filter_In in Hx. rewrite <- Ex. apply in_map. apply Ipre. tauto.
        - apply (col_name_ne k i). symmetry. exact Hin.
        - rewrite map_app, in_app_iff in Hin. destruct Hin as [Hin|Hin].
          + apply Fr. apply in_map_iff in Hin as (x & Ex & Hx). rewrite <- Ex. apply in_map. apply Irest. exact Hx.
          + apply images_keys in Hin; [|exact Ipre]. destruct Hin as (q & j & Hq & Hq2 & Hj & Eq). apply col_name_stem in Eq.
            apply Npre. rewrite Eq. apply in_map. exact Hq. }
    assert (Nim : ~ In k (map fst (images (k, s)))).
    { intros H. apply in_images in H as (i & _ & H). symmetry in H. exact (col_name_ne k i H). }
    unfold dict_del. rewrite !dget_app, (proj2 (dget_none _ _) Nf). cbn [dict_get]. rewrite String.eqb_refl.
    rewrite !filter_app. cbn [filter fst]. rewrite String.eqb_refl. cbn [negb]. rewrite filter_app.
    rewrite !del_absent by assumption. f_equal. rewrite !app_assoc. reflexivity.
  - cbn [negb]. replace (match nd_dims s with [k0] => _ | _ => Ok ((filter (fun p => negb (is2 p)) pre ++ (k, s) :: rest ++ flat_map images (filter is2 pre))) end)
      with (Ok (filter (fun p => negb (is2 p)) pre ++ (k, s) :: rest ++ flat_map images (filter is2 pre))).
    + cbn [flat_map]. rewrite app_nil_r, <- app_assoc. reflexivity.
    + unfold is2 in H2. cbn [snd] in H2. destruct (nd_dims s) as [|a [|b l]]; [reflexivity|discriminate|reflexivity].
Qed.

Lemma break_eq : break_signals Sg = Ok (broken Sg).
Proof.
  unfold break_signals, broken.
  assert (G : forall rest pre, Sg = pre ++ rest ->
    fold_left break_one (map fst rest) (Ok (filter (fun p => negb (is2 p)) pre ++ rest ++ flat_map images (filter is2 pre))) =
    Ok (filter (fun p => negb (is2 p)) Sg ++ flat_map images (filter is2 Sg))).
  { induction rest as [|p rest IH]; intros pre E.
    - rewrite app_nil_r in E. subst pre. reflexivity.
    - cbn [map fold_left]. rewrite (break_step pre p rest E). apply IH. rewrite <- app_assoc. exact E. }
  specialize (G Sg [] eq_refl). cbn in G. rewrite app_nil_r in G. exact G.
Qed.

Lemma broken_keys_nodup : NoDup (map fst (broken Sg)).
Proof.
  unfold broken. rewrite map_app. apply NoDup_app_disj.
  - clear Hn. induction Sg as [|p l IH]; cbn; [constructor|]. inversion Hnd as [|? ? N D]; subst. destruct (is2 p); cbn; [exact (IH D)|].
    constructor; [|exact (IH D)]. intros H. apply N. apply in_map_iff in H as (x & Ex & Hx). apply filter_In in Hx. rewrite <- Ex. apply in_map. tauto.
  - assert (G : forall l, NoDup (map fst l) -> NoDup (map fst (flat_map images l))).
    { induction l as [|p l IH]; cbn; [constructor|]. intros D. inversion D as [|? ? N D']; subst. rewrite map_app. apply NoDup_app_disj.
      - apply images_nodup.
      - exact (IH D').
      - intros x Hx Hy. apply in_map_iff in Hy as (e & <- & He). apply in_flat_map in He as (q & Hq & He). apply (in_map fst) in He.
        apply N. rewrite (images_disjoint p q (fst e) Hx He). apply in_map. exact Hq. }
    apply G. clear -Hnd. induction Sg as [|p l IH]; cbn; [constructor|]. inversion Hnd as [|? ? N D]; subst. destruct (is2 p); cbn; [|exact (IH D)].
    constructor; [|exact (IH D)]. intros H. apply N. apply in_map_iff in H as (x & Ex & Hx). apply filter_In in Hx. rewrite <- Ex. apply in_map. tauto.
  - intros x Hx Hy. apply images_keys in Hy; [|apply incl_refl]. destruct Hy as (q & i & Hq & H2 & Hi & ->).
    apply (image_fresh q i Hq H2 Hi). apply in_map_iff in Hx as (e & <- & He). apply filter_In in He. apply in_map. tauto.
Qed.
End Break.

(** ** Grouping *)
Lemma group_one b ns l j : ~ In b (map fst j) -> (forall n, In n ns -> rsplit n = b) ->
  fold_left (fun j name => let b := rsplit name in
    dict_set b (match dict_get b j with Some l => l | None => [] end ++ [name]) j) ns (j ++ [(b, l)]) = j ++ [(b, l ++ ns)].
Proof.
  intros Hj. revert l. induction ns as [|n ns IH]; intros l H; cbn [fold_left]; [rewrite app_nil_r; reflexivity|].
  cbv zeta. rewrite (H n) by (left; reflexivity). rewrite dget_app, (proj2 (dget_none _ _) Hj). cbn [dict_get]. rewrite String.eqb_refl.
  rewrite dset_last by exact Hj. cbv zeta in IH. rewrite IH; [rewrite <- app_assoc; reflexivity|]. intros m Hm. apply H. right. exact Hm.
Qed.
Lemma group_blocks (blocks : list (string * list string)) j : NoDup (map fst blocks) ->
  (forall b, In b blocks -> snd b <> [] /\ forall n, In n (snd b) -> rsplit n = fst b) ->
  (forall b, In b (map fst blocks) -> ~ In b (map fst j)) ->
  fold_left (fun j name => let b := rsplit name in
    dict_set b (match dict_get b j with Some l => l | None => [] end ++ [name]) j) (flat_map snd blocks) j = j ++ blocks.
Proof.
  revert j. induction blocks as [|[b ns] blocks IH]; intros j D H Hj; cbn [flat_map fold_left]; [rewrite app_nil_r; reflexivity|].
  inversion D as [|? ? N D']; subst. destruct (H (b, ns)) as [Hne Hr]; [left; reflexivity|]. cbn [fst snd] in *.
  destruct ns as [|n ns]; [congruence|]. rewrite fold_left_app. cbn [fold_left]. cbv zeta. rewrite (Hr n) by (left; reflexivity).
  assert (Nb : ~ In b (map fst j)) by (apply Hj; left; reflexivity).
  rewrite (proj2 (dget_none b j) Nb). rewrite dset_fresh by exact Nb. pose proof (group_one b ns ([] ++ [n]) j Nb) as G1. cbv zeta in G1.
  rewrite G1; clear G1; [|intros m Hm; apply Hr; right; exact Hm]. cbv zeta in IH. rewrite IH.
  - rewrite <- app_assoc. reflexivity.
  - exact D'.
  - intros c Hc. apply H. right. exact Hc.
  - intros c Hc. rewrite map_app, in_app_iff. cbn. intros [E|[E|[]]]; [apply (Hj c); [right; exact Hc|exact E]|]. subst. exact (N Hc).
Qed.

Definition block (p : string * nd) : string * list string :=
  if is2 p then (fst p, map (col_name (fst p)) (seq 0 (width p))) else (rsplit (fst p), [fst p]).
Lemma block_joined p : joined_name p (fst (block p)).
Proof. unfold block. destruct (is2 p) eqn:E; [apply joined_is2; exact E|apply joined_not2; exact E]. Qed.

Lemma NoDup_map_inj {A B} (f : A -> B) l : NoDup l -> (forall x y, In x l -> In y l -> f x = f y -> x = y) -> NoDup (map f l).
Proof.
  induction l as [|a l IH]; cbn; intros D H; [constructor|]. inversion D as [|? ? N D']; subst. constructor.
  - intros E. apply in_map_iff in E as (x & Ex & Hx). apply N. replace a with x; [exact Hx|]. apply H; [right; exact Hx|left; reflexivity|exact Ex].
  - apply IH; [exact D'|]. intros x y Hx Hy. apply H; right; assumption.
Qed.

(** ** Joining one group *)
Lemma del_all (names : list string) (d : sigs) : NoDup names -> (forall n, In n names -> In n (map fst d)) ->
  exists d', fold_left (fun d n => bindr d (dict_del n)) names (Ok d) = Ok d' /\
    forall q, dict_get q d' = if in_dec string_dec q names then None else dict_get q d.
Proof.
  revert d. induction names as [|n names IH]; intros d D H; cbn [fold_left].
  - exists d. split; [reflexivity|]. intros q. destruct (in_dec string_dec q []) as [[]|]; reflexivity.
  - inversion D as [|? ? N D']; subst. cbn [bindr]. unfold dict_del at 2. destruct (dict_get n d) as [v|] eqn:E.
    2:{ exfalso. apply dget_none in E. apply E. apply H. left. reflexivity. }
    destruct (IH (filter (fun p => negb (String.eqb (fst p) n)) d) D') as (d' & F & G).
    { intros m Hm. destruct (dict_get m (filter (fun p => negb (String.eqb (fst p) n)) d)) as [w|] eqn:Em.
      - apply dget_in in Em. apply (in_map fst) in Em. exact Em.
      - exfalso. rewrite dget_filter in Em. destruct (String.eqb_spec m n); [congruence|]. apply dget_none in Em. apply Em. apply H. right. exact Hm. }
    exists d'. split; [exact F|]. intros q. rewrite G, dget_filter.
    destruct (in_dec string_dec q (n :: names)) as [I|I], (in_dec string_dec q names) as [I'|I']; try reflexivity.
    + destruct I as [->|I]; [rewrite String.eqb_refl; reflexivity|contradiction].
    + exfalso. apply I. right. exact I'.
    + destruct (String.eqb_spec q n) as [->|]; [|reflexivity]. exfalso. apply I. left. reflexivity.
Qed.
Lemma lookup_map (d : sigs) (f : nat -> string) (g : nat -> nd) l : (forall i, In i l -> dict_get (f i) d = Some (g i)) ->
  lookup_all d (map f l) = Ok (map g l).
Proof.
  induction l as [|i l IH]; intros H; cbn; [reflexivity|]. rewrite (H i) by (left; reflexivity). rewrite IH; [reflexivity|].
  intros k Hk. apply H. right. exact Hk.
Qed.
Lemma stack_cols s (l : list nat) k : l <> [] -> List.length l = k -> nd_dims s = [k] -> stack1 (map (nd_col s) l) = Ok (reorder l s).
Proof.
  intros Hl Hk Hd. destruct l as [|i0 l]; [congruence|]. unfold stack1. cbn [map].
  replace (forallb _ _) with true.
  - unfold reorder. rewrite Hd. cbn [nd_col nd_dims nd_rows]. change (nd_col s i0 :: map (nd_col s) l) with (map (nd_col s) (i0 :: l)).
    change (mknd [] (map (cell_nth i0) (nd_rows s)) :: map (nd_col s) l) with (map (nd_col s) (i0 :: l)). rewrite map_length, Hk. f_equal. f_equal. rewrite map_length. apply nth_ext with (d := Leaf NaN) (d' := Leaf NaN).
    + rewrite !map_length, seq_length. reflexivity.
    + rewrite map_length, seq_length. intros v Hv. rewrite (nth_map_seq _ _ _ _ Hv).
      transitivity (Node (map (fun i => cell_nth i (nth v (nd_rows s) (Leaf NaN))) (i0 :: l))).
      * f_equal. rewrite map_map. change (map (fun x => nth v (nd_rows (nd_col s x)) (Leaf NaN)) (i0 :: l) = map (fun i => cell_nth i (nth v (nd_rows s) (Leaf NaN))) (i0 :: l)).
        apply map_ext. intros i. unfold nd_col. cbn [nd_rows].
        rewrite (nth_indep _ (Leaf NaN) (cell_nth i (Leaf NaN))) by (rewrite map_length; exact Hv). apply map_nth.
      * symmetry. generalize (i0 :: l). intros L. pose (f := fun c => Node (map (fun i => cell_nth i c) L)). fold f.
        change (nth v (map f (nd_rows s)) (Leaf NaN) = f (nth v (nd_rows s) (Leaf NaN))).
        rewrite (nth_indep _ (Leaf NaN) (f (Leaf NaN))) by (rewrite map_length; exact Hv). apply map_nth.
  - symmetry. apply forallb_forall. intros x Hx. change (nd_col s i0 :: map (nd_col s) l) with (map (nd_col s) (i0 :: l)) in Hx.
    apply in_map_iff in Hx as (i & <- & _). unfold same_shape, nd_col. cbn. rewrite !map_length, Nat.eqb_refl. reflexivity.
Qed.

Definition col_order (name : string) (k : nat) (p : list nat) : Prop :=
  Permutation p (seq 0 k) /\
  forall i, (S i < k)%nat -> String.leb (nth i (map (col_name name) p) ""%string) (nth (S i) (map (col_name name) p) ""%string) = true.

Lemma order_exists name k : exists p, ssort (map (col_name name) (seq 0 k)) = map (col_name name) p /\ col_order name k p.
Proof.
  destruct (Permutation_map_inv (col_name name) _ (ssort_perm (map (col_name name) (seq 0 k)))) as (p & E & P).
  exists p. split; [exact E|]. split; [symmetry; exact P|]. intros i Hi. rewrite <- E. apply ssort_sorted.
  rewrite (Permutation_length (ssort_perm _)), map_length, seq_length. exact Hi.
Qed.
Lemma order_unique name k p : (k <= 10)%nat -> ssort (map (col_name name) (seq 0 k)) = map (col_name name) p -> p = seq 0 k.
Proof.
  intros Hk E. rewrite (sorted_names name k Hk) in E. symmetry. clear Hk. revert p E. generalize (seq 0 k). intros l.
  induction l as [|a l IH]; intros [|b p] E; try discriminate; [reflexivity|]. injection E as E1 E2. apply col_name_inj in E1. rewrite E1, (IH p E2). reflexivity.
Qed.

Lemma join_step p (d : sigs) : is2 p = true -> (2 <= width p)%nat ->
  (forall i, (i < width p)%nat -> dict_get (col_name (fst p) i) d = Some (nd_col (snd p) i)) ->
  exists d' o, join_one (Ok d) (block p) = Ok d' /\ ssort (map (col_name (fst p)) (seq 0 (width p))) = map (col_name (fst p)) o /\
    col_order (fst p) (width p) o /\
    dict_get (fst p) d' = Some (reorder o (snd p)) /\
    (forall i, (i < width p)%nat -> dict_get (col_name (fst p) i) d' = None) /\
    (forall q, q <> fst p -> (forall i, (i < width p)%nat -> q <> col_name (fst p) i) -> dict_get q d' = dict_get q d).
Proof.
  intros H2 Hw H. destruct (order_exists (fst p) (width p)) as (o & Eo & Po). unfold join_one, block. rewrite H2. cbn [bindr fst snd].
  rewrite map_length, seq_length. destruct (Nat.ltb_spec 1 (width p)); [|lia]. rewrite Eo.
  rewrite (lookup_map d (col_name (fst p)) (nd_col (snd p)) o).
  2:{ intros i Hi. apply H. apply (Permutation_in _ (proj1 Po)) in Hi. apply in_seq in Hi. lia. }
  assert (Ho : List.length o = width p) by (rewrite (Permutation_length (proj1 Po)), seq_length; reflexivity).
  cbn [bindr]. rewrite (stack_cols (snd p) o (width p)); [|intros ->; cbn in Ho; lia|exact Ho|apply is2_dims; exact H2]. cbn [bindr].
  destruct (del_all (map (col_name (fst p)) o) (dict_set (fst p) (reorder o (snd p)) d)) as (d' & F & G).
  - apply NoDup_map_inj; [|intros x y _ _; apply col_name_inj]. apply (Permutation_NoDup (Permutation_sym (proj1 Po))). apply seq_NoDup.
  - intros n Hn. apply in_map_iff in Hn as (i & <- & Hi). apply (Permutation_in _ (proj1 Po)) in Hi. apply in_seq in Hi.
    destruct (dict_get (col_name (fst p) i) (dict_set (fst p) (reorder o (snd p)) d)) as [w|] eqn:E.
    + apply dget_in in E. apply (in_map fst) in E. exact E.
    + rewrite dget_set in E. destruct (String.eqb (fst p) (col_name (fst p) i)); [discriminate|]. rewrite (H i) in E by lia. discriminate.
  - exists d', o. split; [exact F|]. split; [reflexivity|]. split; [exact Po|]. split; [|split].
    + rewrite G, dget_set, String.eqb_refl. destruct (in_dec string_dec (fst p) (map (col_name (fst p)) o)) as [I|]; [|reflexivity].
      exfalso. apply in_map_iff in I as (i & E & _). exact (col_name_ne _ _ E).
    + intros i Hi. rewrite G. destruct (in_dec string_dec (col_name (fst p) i) (map (col_name (fst p)) o)) as [|N]; [reflexivity|].
      exfalso. apply N. apply in_map. apply (Permutation_in _ (Permutation_sym (proj1 Po))). apply in_seq. lia.
    + intros q N1 N2. rewrite G, dget_set. destruct (in_dec string_dec q (map (col_name (fst p)) o)) as [I|_].
      * exfalso. apply in_map_iff in I as (i & E & Hi). apply (Permutation_in _ (proj1 Po)) in Hi. apply in_seq in Hi. apply (N2 i); [lia|symmetry; exact E].
      * destruct (String.eqb_spec (fst p) q) as [E|]; [congruence|reflexivity].
Qed.

Section Join.
Variable Sg : sigs.
Hypothesis Hnd : NoDup (map fst Sg).
Hypothesis Hn : names_ok Sg.
Hypothesis Hw : forall p, In p Sg -> is2 p = true -> (2 <= width p)%nat.

Lemma groups_eq : group_names (map fst (broken Sg)) = map block (filter (fun p => negb (is2 p)) Sg ++ filter is2 Sg).
Proof.
  set (L := filter (fun p => negb (is2 p)) Sg ++ filter is2 Sg).
  assert (IL : forall p, In p L -> In p Sg).
  { intros p Hp. apply in_app_or in Hp as [Hp|Hp]; apply filter_In in Hp; tauto. }
  assert (EL : map fst (broken Sg) = flat_map snd (map block L)).
  { unfold broken, L. rewrite map_app, map_app, flat_map_app. f_equal.
    - clear. induction Sg as [|p l IH]; cbn; [reflexivity|]. destruct (is2 p) eqn:E; cbn; [exact IH|]. unfold block at 1. rewrite E. cbn. f_equal. exact IH.
    - clear. induction Sg as [|p l IH]; cbn; [reflexivity|]. destruct (is2 p) eqn:E; cbn; [|exact IH]. unfold block at 1. rewrite E. cbn [snd].
      rewrite map_app, IH. f_equal. unfold images. rewrite map_map. reflexivity. }
  unfold group_names. rewrite EL. apply (group_blocks (map block L) []).
  - rewrite map_map. apply NoDup_map_inj.
    + unfold L. apply NoDup_app_disj.
      * apply NoDup_filter. apply NoDup_map_inv in Hnd. exact Hnd.
      * apply NoDup_filter. apply NoDup_map_inv in Hnd. exact Hnd.
      * intros x Hx Hy. apply filter_In in Hx as [_ Hx]. apply filter_In in Hy as [_ Hy]. rewrite Hy in Hx. discriminate.
    + intros p q Hp Hq E. apply (proj1 Hn p q (fst (block p)) (IL p Hp) (IL q Hq)); [apply block_joined|]. rewrite E. apply block_joined.
  - intros b Hb. apply in_map_iff in Hb as (p & <- & Hp). unfold block. destruct (is2 p) eqn:E; cbn [fst snd].
    + pose proof (Hw p (IL p Hp) E). split; [destruct (width p); [lia|discriminate]|]. intros n Hin. apply in_map_iff in Hin as (i & <- & _). apply rsplit_col.
    + split; [discriminate|]. intros n [<-|[]]. reflexivity.
  - intros b _ [].
Qed.

Lemma join_singles (l : sigs) d : (forall p, In p l -> is2 p = false) -> fold_left join_one (map block l) (Ok d) = Ok d.
Proof.
  induction l as [|p l IH]; intros H; cbn [map fold_left]; [reflexivity|]. unfold join_one at 2. unfold block. rewrite (H p) by (left; reflexivity).
  cbn [bindr fst snd List.length]. destruct (Nat.ltb_spec 1 1); [lia|]. apply IH. intros q Hq. apply H. right. exact Hq.
Qed.

Definition joined_as (p : string * nd) (D : sigs) : Prop :=
  exists o, ssort (map (col_name (fst p)) (seq 0 (width p))) = map (col_name (fst p)) o /\ col_order (fst p) (width p) o /\
            dict_get (fst p) D = Some (reorder o (snd p)).

Lemma join_many (l d : sigs) : NoDup (map fst l) -> (forall p, In p l -> In p Sg /\ is2 p = true) ->
  (forall p i, In p l -> (i < width p)%nat -> dict_get (col_name (fst p) i) d = Some (nd_col (snd p) i)) ->
  exists D, fold_left join_one (map block l) (Ok d) = Ok D /\
    (forall p, In p l -> joined_as p D) /\
    (forall p i, In p l -> (i < width p)%nat -> dict_get (col_name (fst p) i) D = None) /\
    (forall q, ~ In q (map fst l) -> (forall p i, In p l -> (i < width p)%nat -> q <> col_name (fst p) i) -> dict_get q D = dict_get q d).
Proof.
  revert d. induction l as [|p l IH]; intros d D H Hd; cbn [map fold_left].
  - exists d. split; [reflexivity|]. split; [intros p []|]. split; [intros p i []|]. reflexivity.
  - inversion D as [|? ? N D']; subst. destruct (H p) as [Hp H2]; [left; reflexivity|].
    destruct (join_step p d H2 (Hw p Hp H2)) as (d' & o & F & Eo & Po & G1 & G2 & G3); [intros i Hi; apply Hd; [left; reflexivity|exact Hi]|].
    rewrite F. destruct (IH d' D') as (E & FE & J1 & J2 & J3).
    + intros q Hq. apply H. right. exact Hq.
    + intros q i Hq Hi. rewrite G3; [apply Hd; [right; exact Hq|exact Hi]| |].
      * apply (proj2 Hn q p (width q) i); [apply H; right; exact Hq|exact Hp|apply is2_dims, H; right; exact Hq|apply is2_two_d; exact H2|exact Hi].
      * intros j Hj E. apply col_name_stem in E. apply N. rewrite <- E. apply in_map. exact Hq.
    + exists E. split; [exact FE|]. split; [|split].
      * intros q [<-|Hq]; [|exact (J1 q Hq)]. exists o. split; [exact Eo|]. split; [exact Po|]. rewrite J3; [exact G1|exact N|].
        intros q i Hq Hi Ec. apply (proj2 Hn q p (width q) i); [apply H; right; exact Hq|exact Hp|apply is2_dims, H; right; exact Hq|apply is2_two_d; exact H2|exact Hi|].
        symmetry. exact Ec.
      * intros q i [<-|Hq] Hi; [|exact (J2 q i Hq Hi)]. rewrite J3; [exact (G2 i Hi)| |].
        -- intros Hin. apply in_map_iff in Hin as (q & Eq & Hq).
           apply (proj2 Hn p q (width p) i Hp); [apply H; right; exact Hq|apply is2_dims; exact H2|apply is2_two_d, H; right; exact Hq|exact Hi|symmetry; exact Eq].
        -- intros q j Hq Hj Ec. apply col_name_stem in Ec. apply N. rewrite Ec. apply in_map. exact Hq.
      * intros q Nq Hq. rewrite J3.
        -- apply G3; [intros ->; apply Nq; left; reflexivity|]. intros i Hi. apply Hq; [left; reflexivity|exact Hi].
        -- intros Hin. apply Nq. right. exact Hin.
        -- intros r i Hr Hi. apply Hq; [right; exact Hr|exact Hi].
Qed.

Lemma nodup_filter_keys (f : string * nd -> bool) : NoDup (map fst (filter f Sg)).
Proof.
  clear Hn Hw. induction Sg as [|p l IH]; cbn; [constructor|]. inversion Hnd as [|? ? N D]; subst. destruct (f p); cbn; [|exact (IH D)].
  constructor; [|exact (IH D)]. intros H. apply N. apply in_map_iff in H as (x & Ex & Hx). apply filter_In in Hx. rewrite <- Ex. apply in_map. tauto.
Qed.

Theorem join_broken : exists D, join_signals (broken Sg) = Ok D /\
  (forall p, In p Sg -> is2 p = true -> joined_as p D) /\
  (forall p, In p Sg -> is2 p = false -> dict_get (fst p) D = Some (snd p)) /\
  (forall q, ~ In q (map fst Sg) -> dict_get q D = None).
Proof.
  unfold join_signals. rewrite groups_eq, map_app, fold_left_app.
  rewrite join_singles by (intros p Hp; apply filter_In in Hp as [_ Hp]; destruct (is2 p); [discriminate|reflexivity]).
  destruct (join_many (filter is2 Sg) (broken Sg)) as (D & F & J1 & J2 & J3).
  - apply nodup_filter_keys.
  - intros p Hp. apply filter_In in Hp. exact Hp.
  - intros p i Hp Hi. apply filter_In in Hp as Hp'. apply in_dget; [apply broken_keys_nodup; assumption|]. unfold broken. apply in_or_app. right.
    apply in_flat_map. exists p. split; [exact Hp|]. unfold images. apply in_map_iff. exists i. split; [reflexivity|]. apply in_seq. lia.
  - exists D. split; [exact F|]. split; [|split].
    + intros p Hp H2. apply J1. apply filter_In. auto.
    + intros p Hp H2. rewrite J3.
      * apply in_dget; [apply broken_keys_nodup; assumption|]. unfold broken. apply in_or_app. left. rewrite <- surjective_pairing. apply filter_In. rewrite H2. auto.
      * intros Hin. apply in_map_iff in Hin as (q & E & Hq). apply filter_In in Hq as [Hq Hq2]. rewrite (key_inj Sg Hnd q p Hq Hp E) in Hq2. congruence.
      * intros q i Hq Hi E. apply filter_In in Hq as [Hq Hq2]. apply (image_fresh Sg Hn q i Hq Hq2 Hi). rewrite <- E. apply in_map. exact Hp.
    + intros q Nq.
      destruct (in_dec string_dec q (map fst (flat_map images (filter is2 Sg)))) as [I|I].
      * apply (images_keys Sg) in I; [|apply incl_refl]. destruct I as (p & i & Hp & H2 & Hi & ->). apply J2; [apply filter_In; auto|exact Hi].
      * rewrite J3.
        -- apply dget_none. unfold broken. rewrite map_app, in_app_iff. intros [E|E]; [|exact (I E)]. apply Nq.
           apply in_map_iff in E as (x & <- & Hx). apply filter_In in Hx. apply in_map. tauto.
        -- intros E. apply Nq. apply in_map_iff in E as (x & <- & Hx). apply filter_In in Hx. apply in_map. tauto.
        -- intros p i Hp Hi ->. apply I. apply (images_keys Sg); [apply incl_refl|]. apply filter_In in Hp. exists p, i. tauto.
Qed.
End Join.

(** ** NetworkX *)
Lemma same_edge_true b e u v : same_edge b e (u, v) = true <-> joins b e u v.
Proof.
  unfold same_edge, joins. destruct e as [x y]. cbn [fst snd]. destruct b; cbn [negb andb orb].
  - rewrite orb_false_r, andb_true_iff, !Nat.eqb_eq. split; [intros [-> ->]; left; reflexivity|]. intros [[= -> ->]|[H _]]; [auto|discriminate].
  - rewrite orb_true_iff, !andb_true_iff, !Nat.eqb_eq. split.
    + intros [[-> ->]|[-> ->]]; [left; reflexivity|right; split; reflexivity].
    + intros [[= -> ->]|[_ [= -> ->]]]; auto.
Qed.
Lemma position_nth l v : In v l -> (position v l < List.length l)%nat /\ nth (position v l) l 0%nat = v.
Proof.
  induction l as [|a l IH]; [intros []|]. intros H. cbn. destruct (Nat.eqb_spec a v) as [->|N]; [split; [lia|reflexivity]|].
  destruct H as [E|H]; [congruence|]. destruct (IH H). split; [lia|assumption].
Qed.
Lemma position_of_nth l i : NoDup l -> (i < List.length l)%nat -> position (nth i l 0%nat) l = i.
Proof.
  intros D Hi. assert (I : In (nth i l 0%nat) l) by (apply nth_In; exact Hi). destruct (position_nth l _ I) as [P E].
  apply (proj1 (NoDup_nth l 0%nat) D); assumption.
Qed.
Lemma position_inj l u v : In u l -> In v l -> position u l = position v l -> u = v.
Proof. intros Hu Hv E. rewrite <- (proj2 (position_nth l u Hu)), <- (proj2 (position_nth l v Hv)), E. reflexivity. Qed.

Definition xweight (e : nat * nat * xval) : R := xreal (snd e).

Lemma xsum_fin l : (forall v, In v l -> exists r, v = Fin r) -> xsum l = Fin (lsum (map xreal l)).
Proof. intros H. destruct (proj2 (xsum_finite l) H) as (r & E). rewrite E. f_equal. rewrite <- (xsum_real l H), E. reflexivity. Qed.

Lemma here_sum (L : list (nat * nat * xval)) i j : (forall e, In e L -> exists r, snd e = Fin r) ->
  xsum (coo_here i j L) = Fin (lsum (map (fun e => if (Nat.eqb (fst (fst e)) i && Nat.eqb (snd (fst e)) j)%bool then xweight e else 0%R) L)).
Proof.
  intros H. rewrite xsum_fin.
  - f_equal. unfold coo_here. rewrite map_map. apply (lsum_filter (fun t => (Nat.eqb (fst (fst t)) i && Nat.eqb (snd (fst t)) j)%bool) xweight).
  - intros v Hv. unfold coo_here in Hv. apply in_map_iff in Hv as (e & <- & He). apply filter_In in He. apply H. tauto.
Qed.

Open Scope R_scope.
(** The total weight the exported coordinates give to position (i, j): that of the edges joining the two nodes. *)
Lemma nx_entry g i j : nx_ok g ->
  let P := fun v => position v (map fst (nx_nodes g)) in
  xsum (coo_here i j (nx_coo g)) =
  Fin (lsum (map (fun e => if same_edge (nx_directed g) (P (fst (fst e)), P (snd (fst e))) (i, j) then xweight e else 0) (nx_edges g))).
Proof.
  intros (D & HE & _ & _) P. rewrite here_sum.
  2:{ assert (Hf : forall e, In e (nx_edges g) -> exists r, snd e = Fin r).
      { intros [[u v] w] He. destruct (HE u v w He) as (_ & _ & r & ->). exists r. reflexivity. }
      intros e He. unfold nx_coo in He. cbv zeta in He.
      assert (Hi : forall e, In e (map (fun e => (position (fst (fst e)) (map fst (nx_nodes g)), position (snd (fst e)) (map fst (nx_nodes g)), snd e)) (nx_edges g)) ->
                exists r, snd e = Fin r).
      { intros f Hf'. apply in_map_iff in Hf' as (f0 & <- & Hf0). cbn. exact (Hf f0 Hf0). }
      destruct (nx_directed g); [exact (Hi e He)|].
      apply in_app_or in He as [He|He]; [exact (Hi e He)|]. apply in_app_or in He as [He|He].
      - apply in_map_iff in He as (f & <- & Hf'). cbn. exact (Hi f Hf').
      - apply in_map_iff in He as (f & <- & Hf'). apply filter_In in Hf' as [Hf' _]. cbn. destruct (Hi f Hf') as (r & ->). exists (- r). reflexivity. }
  f_equal. unfold nx_coo. cbv zeta.
  change (map (fun e => (position (fst (fst e)) (map fst (nx_nodes g)), position (snd (fst e)) (map fst (nx_nodes g)), snd e)) (nx_edges g))
    with (map (fun e : nat * nat * xval => (P (fst (fst e)), P (snd (fst e)), snd e)) (nx_edges g)).
  set (idx := map (fun e : nat * nat * xval => (P (fst (fst e)), P (snd (fst e)), snd e)) (nx_edges g)).
  replace (lsum (map (fun e => if same_edge (nx_directed g) (P (fst (fst e)), P (snd (fst e))) (i, j) then xweight e else 0) (nx_edges g)))
    with (lsum (map (fun e => if same_edge (nx_directed g) (fst e) (i, j) then xweight e else 0) idx)).
  2:{ unfold idx. rewrite map_map. apply lsum_map_ext. intros e _. reflexivity. }
  assert (Hfin : forall e, In e idx -> exists r, snd e = Fin r).
  { intros e He. unfold idx in He. apply in_map_iff in He as ([[u v] w] & <- & He). destruct (HE u v w He) as (_ & _ & r & ->). exists r. reflexivity. }
  clearbody idx. destruct (nx_directed g).
  - apply lsum_map_ext. intros e _. unfold same_edge. cbn [negb andb fst snd]. rewrite orb_false_r. reflexivity.
  - rewrite !map_app, !lsum_app, !map_map, (lsum_filter (fun e => Nat.eqb (fst (fst e)) (snd (fst e)))), <- !lsum_map_plus. apply lsum_map_ext.
    intros [[u v] w] He. destruct (Hfin _ He) as (r & Er). cbn [snd] in Er. subst w. unfold same_edge, xweight. cbn [fst snd negb andb xopp xreal].
    destruct (Nat.eqb_spec u i) as [E1|N1], (Nat.eqb_spec v j) as [E2|N2], (Nat.eqb_spec u j) as [E3|N3], (Nat.eqb_spec v i) as [E4|N4], (Nat.eqb_spec u v) as [E5|N5];
      cbn; try lra; exfalso; congruence.
Qed.

Lemma unique_sum (l : list (nat * nat * xval)) (p : nat * nat -> bool) e : In e l -> p (fst e) = true ->
  NoDup (map fst l) -> (forall f, In f l -> p (fst f) = true -> fst f = fst e) ->
  lsum (map (fun e => if p (fst e) then xweight e else 0) l) = xweight e.
Proof.
  induction l as [|a l IH]; [intros []|]. intros He Hp D U. inversion D as [|? ? N D']; subst. cbn [map]. rewrite lsum_cons. destruct He as [->|He].
  - rewrite Hp. rewrite (lsum_map_0 l); [lra|]. intros f Hf. destruct (p (fst f)) eqn:E; [|reflexivity]. exfalso. apply N.
    rewrite <- (U f (or_intror Hf) E). apply in_map. exact Hf.
  - rewrite (IH He Hp D'); [|intros f Hf; apply U; right; exact Hf]. destruct (p (fst a)) eqn:E; [|lra].
    exfalso. apply N. rewrite (U a (or_introl eq_refl) E). apply in_map. exact He.
Qed.
Lemma none_sum (l : list (nat * nat * xval)) (p : nat * nat -> bool) : (forall f, In f l -> p (fst f) = false) ->
  lsum (map (fun e => if p (fst e) then xweight e else 0) l) = 0.
Proof. intros H. apply lsum_map_0. intros f Hf. rewrite (H f Hf). reflexivity. Qed.

(** The weight of the edge between two nodes, as networkx answers. *)
Lemma nx_entry_value g u v : nx_ok g -> In u (map fst (nx_nodes g)) -> In v (map fst (nx_nodes g)) ->
  let P := fun v => position v (map fst (nx_nodes g)) in
  (forall e w, In (e, Fin w) (nx_edges g) -> joins (nx_directed g) e u v -> xsum (coo_here (P u) (P v) (nx_coo g)) = Fin w) /\
  ((forall e w, In (e, w) (nx_edges g) -> ~ joins (nx_directed g) e u v) -> xsum (coo_here (P u) (P v) (nx_coo g)) = Fin 0).
Proof.
  intros Hg Hu Hv P. pose proof (nx_entry g (P u) (P v) Hg) as En. cbv zeta in En. fold P in En. rewrite En. destruct Hg as (D & HE & ND & HS).
  assert (K : forall e w, In (e, w) (nx_edges g) -> same_edge (nx_directed g) (P (fst e), P (snd e)) (P u, P v) = true <-> joins (nx_directed g) e u v).
  { intros [x y] w He. destruct (HE x y w He) as (Hx & Hy & _). rewrite same_edge_true. unfold joins. cbn [fst snd]. split.
    - intros [E|[B E]]; apply pair_equal_spec in E; destruct E as [E1 E2]; apply position_inj in E1, E2; try assumption; subst; [left; reflexivity|right; split; [exact B|reflexivity]].
    - intros [E|[B E]]; apply pair_equal_spec in E; destruct E as [E1 E2]; subst; [left; reflexivity|right; split; [exact B|reflexivity]]. }
  split.
  - intros e w He J. f_equal.
    pose proof (unique_sum (nx_edges g) (fun f => same_edge (nx_directed g) (P (fst f), P (snd f)) (P u, P v)) (e, Fin w) He) as U. cbn [fst] in U. rewrite U.
    + reflexivity.
    + apply (K e (Fin w) He). exact J.
    + exact ND.
    + intros [f wf] Hf Ef. cbn [fst] in *. apply (K f wf Hf) in Ef. destruct e as [x y].
      destruct J as [J|[B J]], Ef as [F|[B' F]]; [congruence| | |congruence].
      * injection J as -> ->. subst f. assert (u = v) by exact (HS B' u v _ _ He Hf). subst. reflexivity.
      * injection J as -> ->. subst f. assert (u = v) by exact (HS B u v _ _ Hf He). subst. reflexivity.
  - intros H. f_equal. apply (none_sum (nx_edges g) (fun f => same_edge (nx_directed g) (P (fst f), P (snd f)) (P u, P v))).
    intros [f wf] Hf. cbn [fst]. destruct (same_edge _ _ _) eqn:E; [|reflexivity]. exfalso. apply (H f wf Hf). apply (K f wf Hf). exact E.
Qed.

(** Adding distinct edges between known nodes appends them. *)
Lemma nx_put_fresh b e l : (forall f, In f l -> same_edge b (fst e) (fst f) = false) -> nx_put b e l = l ++ [e].
Proof.
  induction l as [|f l IH]; intros H; cbn; [reflexivity|]. rewrite (H f) by (left; reflexivity). rewrite IH; [reflexivity|].
  intros x Hx. apply H. right. exact Hx.
Qed.
Lemma nx_add_edges b nodes l : (forall e, In e l -> In (fst (fst e)) (map fst nodes) /\ In (snd (fst e)) (map fst nodes)) ->
  forall acc, ForallOrdPairs (fun f e => same_edge b (fst e) (fst f) = false) (acc ++ l) ->
  fold_left nx_add_edge l (mknx b nodes acc) = mknx b nodes (acc ++ l).
Proof.
  intros H. induction l as [|e l IH]; intros acc F; cbn [fold_left]; [rewrite app_nil_r; reflexivity|].
  assert (A : forall v acc, In v (map fst nodes) -> nx_add_node (mknx b nodes acc) v = mknx b nodes acc).
  { intros v a Hv. unfold nx_add_node. cbn [nx_nodes]. replace (existsb _ _) with true; [reflexivity|]. symmetry. apply existsb_exists.
    apply in_map_iff in Hv as (p & <- & Hp). exists p. split; [exact Hp|apply Nat.eqb_refl]. }
  unfold nx_add_edge at 2. destruct (H e (or_introl eq_refl)) as [H1 H2]. rewrite !A by assumption. cbn [nx_directed nx_nodes nx_edges].
  rewrite nx_put_fresh.
  - rewrite IH; [rewrite <- app_assoc; reflexivity| |rewrite <- app_assoc; exact F]. intros f Hf. apply H. right. exact Hf.
  - intros f Hf. clear -F Hf. induction acc as [|a acc IHa]; [destruct Hf|]. cbn in F. inversion F as [|? ? Fa Fr]; subst.
    destruct Hf as [->|Hf]; [|exact (IHa Fr Hf)]. rewrite Forall_forall in Fa. apply Fa. apply in_or_app. right. left. reflexivity.
Qed.

(** ** Reading node attributes *)
Lemma upd_length {A} i (a : A) l : List.length (upd i a l) = List.length l.
Proof. revert i. induction l as [|x l IH]; intros [|i]; cbn; [reflexivity..|]. f_equal. apply IH. Qed.
Lemma upd_prefix (l : list xval) i n : (i < n)%nat -> List.length l = n ->
  upd i (nth i l NaN) (firstn i l ++ repeat NaN (n - i)) = firstn (S i) l ++ repeat NaN (n - S i).
Proof.
  revert i n. induction l as [|x l IH]; intros i n Hi Hl; cbn in Hl; [lia|]. destruct n as [|n]; [lia|]. destruct i as [|i].
  - cbn. rewrite Nat.sub_0_r. reflexivity.
  - cbn [firstn nth app upd]. f_equal. rewrite !Nat.sub_succ. apply IH; lia.
Qed.

Section Read.
Variable n : nat.
Variable B : list (string * list xval).
Hypothesis HB : NoDup (map fst B).
Hypothesis HL : forall p, In p B -> List.length (snd p) = n.
Definition attrs_at (i : nat) : list (string * xval) := map (fun p => (fst p, nth i (snd p) NaN)) B.

Lemma read_first d : NoDup (map fst B) -> (forall k, In k (map fst B) -> ~ In k (map fst d)) ->
  fold_left (nx_read_attr n 0) (attrs_at 0) d = d ++ map (fun p => (fst p, upd 0 (nth 0 (snd p) NaN) (repeat NaN n))) B.
Proof.
  unfold attrs_at. clear HL HB. revert d. induction B as [|p l IH]; intros d D H; cbn [map fold_left]; [rewrite app_nil_r; reflexivity|].
  inversion D as [|? ? N D']; subst. unfold nx_read_attr at 2. cbn [fst snd].
  assert (Np : ~ In (fst p) (map fst d)) by (apply H; left; reflexivity).
  rewrite (proj2 (dget_none _ _) Np), dset_fresh by exact Np. rewrite IH; [rewrite <- app_assoc; reflexivity|exact D'|].
  intros k Hk. rewrite map_app, in_app_iff. cbn. intros [E|[E|[]]]; [apply (H k); [right; exact Hk|exact E]|]. subst k. exact (N Hk).
Qed.
Lemma dget_mid {V} k (v : V) d e : ~ In k (map fst d) -> dict_get k (d ++ (k, v) :: e) = Some v.
Proof. intros H. rewrite dget_app, (proj2 (dget_none _ _) H). cbn. rewrite String.eqb_refl. reflexivity. Qed.
Lemma dset_mid {V} k (v w : V) d e : ~ In k (map fst d) -> dict_set k w (d ++ (k, v) :: e) = d ++ (k, w) :: e.
Proof.
  induction d as [|[k' v'] d IH]; cbn; intros H; [rewrite String.eqb_refl; reflexivity|].
  destruct (String.eqb_spec k' k) as [->|]; [tauto|]. rewrite IH; [reflexivity|tauto].
Qed.
Lemma read_next i (w : string * list xval -> list xval) l d : NoDup (map fst d ++ map fst l) ->
  fold_left (nx_read_attr n i) (map (fun p => (fst p, nth i (snd p) NaN)) l) (d ++ map (fun p => (fst p, w p)) l) =
  d ++ map (fun p => (fst p, upd i (nth i (snd p) NaN) (w p))) l.
Proof.
  revert d. induction l as [|p l IH]; intros d D; cbn [map fold_left]; [reflexivity|].
  assert (Np : ~ In (fst p) (map fst d)). { cbn in D. apply NoDup_remove_2 in D. rewrite in_app_iff in D. tauto. }
  unfold nx_read_attr at 2. cbn [fst snd]. rewrite dget_mid, dset_mid by exact Np.
  change (d ++ (fst p, upd i (nth i (snd p) NaN) (w p)) :: map (fun p => (fst p, w p)) l)
    with (d ++ [(fst p, upd i (nth i (snd p) NaN) (w p))] ++ map (fun p => (fst p, w p)) l). rewrite app_assoc, IH.
  - rewrite <- app_assoc. reflexivity.
  - rewrite map_app, <- app_assoc. exact D.
Qed.
Lemma read_all : (1 <= n)%nat -> nx_read n (map attrs_at (seq 0 n)) = B.
Proof.
  intros Hn. unfold nx_read.
  assert (E : combine (seq 0 n) (map attrs_at (seq 0 n)) = map (fun i => (i, attrs_at i)) (seq 0 n)).
  { generalize (seq 0 n). intros l. induction l as [|a l IH]; cbn; [reflexivity|]. rewrite IH. reflexivity. }
  rewrite E, fold_left_map. cbn [fst snd].
  assert (G : forall i, (S i <= n)%nat -> fold_left (fun S i => fold_left (nx_read_attr n i) (attrs_at i) S) (seq 0 (S i)) [] =
    map (fun p => (fst p, firstn (S i) (snd p) ++ repeat NaN (n - S i))) B).
  { induction i as [|i IH]; intros Hi.
    - cbn [seq fold_left]. rewrite read_first; [|exact HB|intros k _ []]. cbn [app]. apply map_ext_in. intros p Hp. f_equal.
      rewrite <- (upd_prefix (snd p) 0 n); [|lia|exact (HL p Hp)]. cbn [firstn app]. rewrite Nat.sub_0_r. reflexivity.
    - rewrite seq_S, fold_left_app, IH by lia. cbn [fold_left Nat.add]. pose proof (read_next (S i) (fun p => firstn (S i) (snd p) ++ repeat NaN (n - S i)) B []) as R.
      cbn [map app] in R. unfold attrs_at. rewrite R by exact HB. apply map_ext_in. intros p Hp. f_equal. apply upd_prefix; [lia|exact (HL p Hp)]. }
  destruct n as [|m]; [lia|]. rewrite (G m) by lia. rewrite Nat.sub_diag. rewrite <- (map_id B) at 2. apply map_ext_in. intros [k l] Hp. cbn [fst snd repeat].
  specialize (HL (k, l) Hp). cbn in HL. rewrite <- HL, firstn_all, app_nil_r. reflexivity.
Qed.
End Read.

Lemma mapres_ok {A C} (f : A -> res C) (g : A -> C) l : (forall a, In a l -> f a = Ok (g a)) -> mapres f l = Ok (map g l).
Proof.
  induction l as [|a l IH]; intros H; cbn; [reflexivity|]. rewrite (H a) by (left; reflexivity). cbn. rewrite IH; [reflexivity|].
  intros x Hx. apply H. right. exact Hx.
Qed.

(** The numbers of a 1-D signal. *)
Definition lx (s : nd) : list xval := map (fun c => match c with Leaf x => x | Node _ => NaN end) (nd_rows s).
Lemma lx_leaf n s : nd_ok n s -> nd_dims s = [] -> s = mknd [] (map Leaf (lx s)) /\ List.length (lx s) = n.
Proof.
  intros [Hl Hf] Hd. destruct s as [ds rs]. cbn in *. subst ds. unfold lx. cbn. rewrite map_length, map_map. split; [|exact Hl]. f_equal.
  rewrite <- (map_id rs) at 1. apply map_ext_in. intros c Hc. rewrite Forall_forall in Hf. specialize (Hf c Hc). destruct c; [reflexivity|destruct Hf].
Qed.
Lemma broken_1d n S : sigs_ok n S -> (forall p, In p S -> (List.length (nd_dims (snd p)) <= 1)%nat) ->
  forall p, In p (broken S) -> nd_ok n (snd p) /\ nd_dims (snd p) = [].
Proof.
  intros [_ Hok] H p Hp. rewrite Forall_forall in Hok. unfold broken in Hp. apply in_app_or in Hp as [Hp|Hp].
  - apply filter_In in Hp as [Hp H2]. split; [exact (Hok p Hp)|]. specialize (H p Hp). unfold is2 in H2. destruct (nd_dims (snd p)) as [|k [|k' l]]; [reflexivity|discriminate|cbn in H; lia].
  - apply in_flat_map in Hp as (q & Hq & Hp). apply filter_In in Hq as [Hq H2]. unfold images in Hp. apply in_map_iff in Hp as (i & <- & Hi). apply in_seq in Hi.
    cbn [snd]. specialize (Hok q Hq). destruct Hok as [Hl Hf]. rewrite (is2_dims q H2) in Hf. split; [|reflexivity]. unfold nd_col. split; cbn [nd_rows nd_dims].
    + rewrite map_length. exact Hl.
    + apply Forall_forall. intros c Hc. apply in_map_iff in Hc as (c0 & <- & Hc0). rewrite Forall_forall in Hf. specialize (Hf c0 Hc0).
      destruct c0 as [x|l]; cbn in Hf; [destruct Hf|]. destruct Hf as [Ll Fl]. cbn [cell_nth]. rewrite Forall_forall in Fl. apply Fl. apply nth_In. lia.
Qed.

(** ** Exporting to and reading back from NetworkX *)
Definition flatB (B : sigs) : list (string * list xval) := map (fun p => (fst p, lx (snd p))) B.

Lemma export_attrs n B v : (forall p, In p B -> nd_ok n (snd p) /\ nd_dims (snd p) = []) -> (v < n)%nat ->
  nx_attrs B v = Ok (attrs_at (flatB B) v).
Proof.
  intros H Hv. unfold nx_attrs. rewrite (mapres_ok _ (fun p => (fst p, nth v (lx (snd p)) NaN))).
  - unfold attrs_at, flatB. rewrite map_map. reflexivity.
  - intros p Hp. destruct (H p Hp) as [Ok1 Hd]. destruct (lx_leaf n _ Ok1 Hd) as [E L]. rewrite E at 1. cbn [nd_rows].
    rewrite nth_error_map. rewrite (nth_error_nth' (lx (snd p)) NaN) by (rewrite L; exact Hv). reflexivity.
Qed.

Lemma FOP_of_nodup {A} (Rel : A -> A -> Prop) l : NoDup l -> (forall a b, In a l -> In b l -> a <> b -> Rel a b) -> ForallOrdPairs Rel l.
Proof.
  induction l as [|a l IH]; intros D H; constructor.
  - inversion D; subst. apply Forall_forall. intros b Hb. apply H; [left; reflexivity|right; exact Hb|]. intros ->. contradiction.
  - inversion D; subst. apply IH; [assumption|]. intros x y Hx Hy. apply H; right; assumption.
Qed.

Section Export.
Variable G : graph.
Hypothesis HG : built G.
Variable Sg : sigs.
Hypothesis HS : sigs_ok (g_n_vertices G) Sg.
Hypothesis HN : names_ok Sg.
Hypothesis H1 : forall p, In p Sg -> (List.length (nd_dims (snd p)) <= 1)%nat.
Let n := g_n_vertices G.
Let B := broken Sg.

Definition exported (l : list (nat * nat * R)) : nxgraph :=
  mknx (is_directed (gW G)) (map (fun v => (v, attrs_at (flatB (broken Sg)) v)) (seq 0 (g_n_vertices G))) (map (fun e => (fst e, Fin (snd e))) l).

Lemma exported_nodes l : map fst (nx_nodes (exported l)) = seq 0 n.
Proof. cbn. rewrite map_map. apply map_id. Qed.

Lemma export_eq l : get_edge_list (gW G) = Ok l -> to_networkx G Sg = Ok (exported l, B).
Proof.
  intros El. unfold to_networkx. rewrite (break_eq Sg (proj1 HS) HN). cbn [bindr]. fold B.
  rewrite (mapres_ok _ (fun v => (v, attrs_at (flatB B) v))).
  2:{ intros v Hv. apply in_seq in Hv. rewrite (export_attrs n); [reflexivity| |unfold n; lia]. exact (broken_1d n Sg HS H1). }
  cbn [bindr]. rewrite El. cbn [bindr]. f_equal. f_equal.
  destruct (built_good G HG) as (Hg & Hn & _). pose proof (edge_list_nodup _ _ Hg El) as ND.
  pose proof (fun i j w => edge_list_in (gW G) l i j w Hg El) as IN.
  rewrite nx_add_edges; [reflexivity| |].
  - intros e He. apply in_map_iff in He as ([[i j] w] & <- & He). cbn [fst snd]. rewrite map_map. cbn [fst]. rewrite map_id.
    apply IN in He. rewrite <- Hn in He. split; apply in_seq; lia.
  - cbn [app]. apply FOP_of_nodup.
    + apply (NoDup_map_inv fst). rewrite map_map. cbn [fst]. exact ND.
    + intros a b Ha Hb Nab. apply in_map_iff in Ha as ([[i j] w] & <- & Ha). apply in_map_iff in Hb as ([[i' j'] w'] & <- & Hb). cbn [fst snd] in *.
      destruct (same_edge _ _ _) eqn:E; [|reflexivity]. exfalso. apply Nab. apply same_edge_true in E.
      apply IN in Ha, Hb. destruct Ha as (_ & _ & -> & _ & Hu). destruct Hb as (_ & _ & -> & _ & Hu').
      destruct E as [E|[Bd E]]; apply pair_equal_spec in E; destruct E as [-> ->]; [reflexivity|]. specialize (Hu Bd). specialize (Hu' Bd).
      assert (i = j) by lia. subst. reflexivity.
Qed.

Lemma exported_ok l : get_edge_list (gW G) = Ok l -> nx_ok (exported l).
Proof.
  intros El. destruct (built_good G HG) as (Hg & Hn & _). pose proof (edge_list_nodup _ _ Hg El) as ND.
  pose proof (fun i j w => edge_list_in (gW G) l i j w Hg El) as IN. split; [rewrite exported_nodes; apply seq_NoDup|]. rewrite exported_nodes. split; [|split].
  - intros u v w Hw. cbn in Hw. apply in_map_iff in Hw as ([[i j] x] & E & He). cbn in E. injection E as <- <- <-. apply IN in He. rewrite <- Hn in He.
    split; [apply in_seq; unfold n; lia|]. split; [apply in_seq; unfold n; lia|]. eexists; reflexivity.
  - cbn. rewrite map_map. exact ND.
  - intros Bd u v w w' Ha Hb. cbn in *. apply in_map_iff in Ha as ([[i j] x] & E & Ha). cbn in E. injection E as <- <- _.
    apply in_map_iff in Hb as ([[i' j'] x'] & E & Hb). cbn in E. injection E as -> -> _. apply IN in Ha, Hb.
    destruct Ha as (_ & _ & _ & _ & Hu). destruct Hb as (_ & _ & _ & _ & Hu'). specialize (Hu Bd). specialize (Hu' Bd). lia.
Qed.
End Export.

(** from_networkx: the weights. *)
Lemma position_seq n v : (v < n)%nat -> position v (seq 0 n) = v.
Proof.
  intros H. pose proof (position_of_nth (seq 0 n) v (seq_NoDup n 0)) as P. rewrite seq_length, seq_nth in P by exact H. exact (P H).
Qed.

Lemma nx_graph g : nx_ok g -> exists G, graph_init (InCSR (csr_of_coo (List.length (nx_nodes g)) (List.length (nx_nodes g)) (nx_coo g))) Combinatorial None = Ok G /\
  built G /\ g_n_vertices G = List.length (nx_nodes g) /\ g_lap_type G = Combinatorial /\ g_coords G = None /\
  (forall i j, (i < g_n_vertices G)%nat -> (j < g_n_vertices G)%nat ->
     xsum (coo_here i j (nx_coo g)) = Fin (wt G i j)).
Proof.
  intros Hok. set (m := List.length (nx_nodes g)). set (inp := InCSR (csr_of_coo m m (nx_coo g))).
  assert (Hwf : wf_input inp) by (cbn; apply coo_wf).
  assert (Hfin : forall i j, finite_x (xsum (coo_here i j (nx_coo g)))).
  { intros i j. rewrite (nx_entry g i j Hok). eexists; reflexivity. }
  destruct (proj2 (init_accepts inp Combinatorial None Hwf)) as (G & HG).
  { split; [left; reflexivity|]. exists m. split; [reflexivity|]. intros i j Hi Hj. cbn. apply (getx_coo m m (nx_coo g) i j Hi Hj). apply Hfin. }
  exists G. split; [exact HG|]. split; [exact (built_init _ _ _ _ Hwf HG)|].
  destruct (init_preserves inp _ _ G Hwf HG) as (Hs & Hw & _).
  assert (En : g_n_vertices G = m) by (cbn in Hs; inversion Hs; congruence).
  split; [exact En|]. destruct (init_inv inp _ _ G Hwf HG) as (n' & L & _ & _ & _ & EG).
  split; [rewrite EG; reflexivity|]. split; [rewrite EG; reflexivity|].
  intros i j Hi Hj. specialize (Hw i j Hi Hj). change (getx (csr_of_coo m m (nx_coo g)) i j = Fin (wt G i j)) in Hw. rewrite En in Hi, Hj. destruct (getx_coo m m (nx_coo g) i j Hi Hj) as [E _].
  destruct (Hfin i j) as (r & Er). rewrite Er in *. f_equal. rewrite Hw in E. cbn in E. symmetry. exact E.
Qed.

(** The general reader: attribute [k] of node number [j], NaN if it has none. *)
Definition attr_of (nodes : list (list (string * xval))) (k : string) (j : nat) : xval :=
  match dict_get k (nth j nodes []) with Some x => x | None => NaN end.

Lemma read_attr_get n i attrs : NoDup (map fst attrs) -> forall d k,
  dict_get k (fold_left (nx_read_attr n i) attrs d) =
  match dict_get k attrs with
  | Some x => Some (upd i x (match dict_get k d with Some s => s | None => repeat NaN n end))
  | None => dict_get k d
  end.
Proof.
  induction attrs as [|[a x] l IH]; intros D d k; [reflexivity|]. inversion D as [|? ? N D']; subst. cbn [fold_left]. rewrite (IH D').
  unfold nx_read_attr. cbn [fst snd]. rewrite dget_set. cbn [dict_get]. destruct (String.eqb_spec a k) as [->|Ne].
  - rewrite (proj2 (dget_none k l) N). reflexivity.
  - reflexivity.
Qed.

Lemma upd_nth {A} i (x d : A) l j : (i < List.length l)%nat -> nth j (upd i x l) d = if Nat.eqb j i then x else nth j l d.
Proof.
  revert i j. induction l as [|a l IH]; intros i j Hi; [cbn in Hi; lia|]. destruct i as [|i], j as [|j]; cbn; try reflexivity.
  apply IH. cbn in Hi. lia.
Qed.

Lemma nx_read_get n nodes : List.length nodes = n -> Forall (fun a => NoDup (map fst a)) nodes -> forall k,
  dict_get k (nx_read n nodes) =
  if existsb (fun a => match dict_get k a with Some _ => true | None => false end) nodes
  then Some (map (attr_of nodes k) (seq 0 n)) else None.
Proof.
  intros Hl Hd k.
  assert (G : forall i, (i <= n)%nat ->
    dict_get k (fold_left (fun S p => fold_left (nx_read_attr n (fst p)) (snd p) S) (map (fun i => (i, nth i nodes [])) (seq 0 i)) []) =
    if existsb (fun a => match dict_get k a with Some _ => true | None => false end) (firstn i nodes)
    then Some (map (fun j => if Nat.ltb j i then attr_of nodes k j else NaN) (seq 0 n)) else None).
  { induction i as [|i IH]; intros Hi; [reflexivity|]. rewrite seq_S, map_app, fold_left_app. cbn [map fold_left Nat.add fst snd].
    assert (Hin : In (nth i nodes []) nodes) by (apply nth_In; lia).
    rewrite read_attr_get by (rewrite Forall_forall in Hd; apply Hd; exact Hin). rewrite IH by lia.
    assert (Ef : firstn (S i) nodes = firstn i nodes ++ [nth i nodes []]).
    { clear -Hi Hl. revert i Hi. revert n Hl. induction nodes as [|a l IHl]; intros n Hl i Hi; [cbn in Hl; lia|]. destruct i as [|i]; [reflexivity|].
      cbn [firstn app nth]. f_equal. destruct n; [cbn in Hl; lia|]. apply (IHl n); cbn in Hl; lia. }
    rewrite Ef, existsb_app. cbn [existsb]. rewrite orb_false_r.
    destruct (dict_get k (nth i nodes [])) as [x|] eqn:Ex.
    - rewrite orb_true_r. f_equal. set (prev := match _ with Some s => s | None => _ end).
      assert (Ep : prev = map (fun j => if Nat.ltb j i then attr_of nodes k j else NaN) (seq 0 n)).
      { unfold prev. destruct (existsb _ (firstn i nodes)) eqn:Eb; [reflexivity|].
        transitivity (map (fun _ : nat => NaN) (seq 0 n)).
        - clear. generalize 0%nat. induction n as [|m IHm]; intros s; cbn; [reflexivity|]. f_equal. apply IHm.
        - apply map_ext_in. intros j Hj. apply in_seq in Hj. destruct (Nat.ltb_spec j i) as [Lt|]; [|reflexivity]. unfold attr_of.
          destruct (dict_get k (nth j nodes [])) eqn:Ej; [|reflexivity]. exfalso. apply not_true_iff_false in Eb. apply Eb. apply existsb_exists.
          exists (nth j nodes []). split; [|rewrite Ej; reflexivity].
          replace (nth j nodes []) with (nth j (firstn i nodes) []); [apply nth_In; rewrite firstn_length; lia|].
          rewrite <- (firstn_skipn i nodes) at 2. rewrite app_nth1; [reflexivity|rewrite firstn_length; lia]. }
      rewrite Ep. apply nth_ext with (d := NaN) (d' := NaN); [rewrite upd_length, !map_length; reflexivity|].
      rewrite upd_length, map_length, seq_length. intros j Hj. rewrite upd_nth by (rewrite map_length, seq_length; lia).
      rewrite !nth_map_seq by exact Hj. destruct (Nat.eqb_spec j i) as [->|Ne].
      + replace (Nat.ltb i (S i)) with true by (symmetry; apply Nat.ltb_lt; lia). unfold attr_of. rewrite Ex. reflexivity.
      + destruct (Nat.ltb_spec j i), (Nat.ltb_spec j (S i)); try reflexivity; lia.
    - rewrite orb_false_r. destruct (existsb _ (firstn i nodes)); [|reflexivity]. f_equal. apply map_ext_in. intros j _.
      destruct (Nat.ltb_spec j i), (Nat.ltb_spec j (S i)); try reflexivity; try lia. assert (j = i) by lia. subst. unfold attr_of. rewrite Ex. reflexivity. }
  unfold nx_read.
  assert (E : combine (seq 0 n) nodes = map (fun i => (i, nth i nodes [])) (seq 0 n)).
  { apply nth_ext with (d := (0%nat, [])) (d' := (0%nat, [])); [rewrite combine_length, map_length, seq_length; lia|].
    rewrite combine_length, seq_length. intros j Hj. rewrite combine_nth by (rewrite seq_length; lia). rewrite seq_nth by lia.
    rewrite nth_map_seq by lia. reflexivity. }
  rewrite E, (G n (le_n n)), <- Hl, firstn_all, Hl. destruct (existsb _ nodes); [|reflexivity]. f_equal. apply map_ext_in. intros j Hj. apply in_seq in Hj.
  replace (Nat.ltb j n) with true by (symmetry; apply Nat.ltb_lt; lia). reflexivity.
Qed.

(** ** graph-tool *)
Lemma edge_total_sum l u v : edge_total l u v = lsum (map (fun e => if (Nat.eqb (fst (fst e)) u && Nat.eqb (snd (fst e)) v)%bool then xweight e else 0) l).
Proof. unfold edge_total. apply (lsum_filter (fun t => (Nat.eqb (fst (fst t)) u && Nat.eqb (snd (fst t)) v)%bool) xweight). Qed.

Lemma gt_coo_in loops g e : In e (coo_transpose (gt_adjacency loops g)) ->
  exists f, In f (gt_edges g) /\ snd e = snd f /\ (fst e = fst f \/ fst e = (snd (fst f), fst (fst f))).
Proof.
  intros H. unfold coo_transpose in H. apply in_map_iff in H as (e1 & <- & H). cbn [fst snd].
  assert (T : forall e, In e (map (fun e : nat * nat * xval => (snd (fst e), fst (fst e), snd e)) (gt_edges g)) ->
             exists f, In f (gt_edges g) /\ e = (snd (fst f), fst (fst f), snd f)).
  { intros x Hx. apply in_map_iff in Hx as (f & <- & Hf). exists f. auto. }
  assert (C : exists f, In f (gt_edges g) /\ (e1 = f \/ e1 = (snd (fst f), fst (fst f), snd f))).
  { unfold gt_adjacency in H. cbv zeta in H. destruct (gt_directed g).
    - destruct (T _ H) as (f & Hf & ->). exists f. auto.
    - apply in_app_or in H as [H|H].
      + apply filter_In in H as [H _]. apply in_app_or in H as [H|H].
        * destruct (T _ H) as (f & Hf & ->). exists f. auto.
        * exists e1. auto.
      + apply in_flat_map in H as (x & Hx & H). apply repeat_spec in H. subst x. apply filter_In in Hx as [Hx _]. destruct (T _ Hx) as (f & Hf & ->). exists f. auto. }
  destruct C as (f & Hf & [-> | ->]); exists f; destruct f as [[u v] w]; cbn; auto.
Qed.

Lemma repeat_lsum {A} (F : A -> R) (e : A) k : lsum (map F (repeat e k)) = INR k * F e.
Proof. induction k as [|k IH]; [cbn; lra|]. cbn [repeat map]. rewrite lsum_cons, IH, S_INR. lra. Qed.

Lemma flat_lsum {A} (F : A -> R) k l : lsum (map F (flat_map (fun e => repeat e k) l)) = INR k * lsum (map F l).
Proof.
  induction l as [|e l IH]; [cbn; lra|]. cbn [flat_map]. rewrite map_app, lsum_app, repeat_lsum, IH. cbn [map]. rewrite lsum_cons. lra.
Qed.

Lemma gt_entry loops g i j : (forall e, In e (gt_edges g) -> exists r, snd e = Fin r) ->
  xsum (coo_here i j (coo_transpose (gt_adjacency loops g))) =
  Fin (if gt_directed g then edge_total (gt_edges g) i j
       else if Nat.eqb i j then INR loops * edge_total (gt_edges g) i i
       else edge_total (gt_edges g) i j + edge_total (gt_edges g) j i).
Proof.
  intros Hf. rewrite here_sum.
  2:{ intros e He. destruct (gt_coo_in _ _ _ He) as (f & Hf' & -> & _). exact (Hf f Hf'). }
  f_equal. unfold coo_transpose. rewrite map_map. cbn [fst snd]. rewrite !edge_total_sum. unfold gt_adjacency. cbv zeta.
  destruct (gt_directed g).
  - rewrite map_map. apply lsum_map_ext. intros [[u v] w] _. reflexivity.
  - rewrite map_app, lsum_app, flat_lsum, (lsum_filter (fun e => negb (Nat.eqb (fst (fst e)) (snd (fst e))))), (lsum_filter (fun e => Nat.eqb (fst (fst e)) (snd (fst e)))).
    rewrite map_app, lsum_app, !map_map. cbn [fst snd]. destruct (Nat.eqb_spec i j) as [<-|Ne].
    + rewrite (lsum_map_0 (gt_edges g)), (lsum_map_0 (gt_edges g)).
      * rewrite Rplus_0_l, Rplus_0_l. f_equal. apply lsum_map_ext. intros [[u v] w] _. unfold xweight. cbn [fst snd].
        destruct (Nat.eqb_spec u i), (Nat.eqb_spec v i), (Nat.eqb_spec v u); cbn; try reflexivity; congruence.
      * intros [[u v] w] _. unfold xweight. cbn [fst snd]. destruct (Nat.eqb_spec u v), (Nat.eqb_spec u i), (Nat.eqb_spec v i); cbn; try reflexivity; congruence.
      * intros [[u v] w] _. unfold xweight. cbn [fst snd]. destruct (Nat.eqb_spec v u), (Nat.eqb_spec u i), (Nat.eqb_spec v i); cbn; try reflexivity; congruence.
    + rewrite (lsum_map_0 (gt_edges g) (fun e => if Nat.eqb (snd (fst e)) (fst (fst e)) then _ else _)).
      * rewrite Rmult_0_r, Rplus_0_r. f_equal; apply lsum_map_ext; intros [[u v] w] _; unfold xweight; cbn [fst snd].
        -- destruct (Nat.eqb_spec v u), (Nat.eqb_spec u i), (Nat.eqb_spec v j); cbn; try reflexivity; congruence.
        -- destruct (Nat.eqb_spec u v), (Nat.eqb_spec u j), (Nat.eqb_spec v i); cbn; try reflexivity; congruence.
      * intros [[u v] w] _. unfold xweight. cbn [fst snd]. destruct (Nat.eqb_spec v u), (Nat.eqb_spec u i), (Nat.eqb_spec v j); cbn; try reflexivity; congruence.
Qed.

Lemma gt_graph loops g : gt_ok g -> exists G, graph_init (InCOO (gt_n g) (gt_n g) (coo_transpose (gt_adjacency loops g))) Combinatorial None = Ok G /\
  built G /\ g_n_vertices G = gt_n g /\ g_lap_type G = Combinatorial /\ g_coords G = None /\
  (forall i j, (i < g_n_vertices G)%nat -> (j < g_n_vertices G)%nat ->
     wt G i j = if gt_directed g then edge_total (gt_edges g) i j
       else if Nat.eqb i j then INR loops * edge_total (gt_edges g) i i
       else edge_total (gt_edges g) i j + edge_total (gt_edges g) j i).
Proof.
  intros (HE & _ & _). set (m := gt_n g). set (inp := InCOO m m (coo_transpose (gt_adjacency loops g))).
  assert (Hfin : forall e, In e (gt_edges g) -> exists r, snd e = Fin r).
  { intros [[u v] w] He. destruct (HE u v w He) as (_ & _ & r & ->). exists r. reflexivity. }
  assert (Hwf : wf_input inp).
  { cbn. intros t Ht. destruct (gt_coo_in _ _ _ Ht) as ([[u v] w] & Hf & _ & Hd). destruct (HE u v w Hf) as (Hu & Hv & _). fold m in Hu, Hv.
    destruct Hd as [-> | ->]; cbn; auto. }
  destruct (proj2 (init_accepts inp Combinatorial None Hwf)) as (G & HG).
  { split; [left; reflexivity|]. exists m. split; [reflexivity|]. intros i j Hi Hj.
    change (finite_x (xsum (coo_here i j (coo_transpose (gt_adjacency loops g))))). rewrite (gt_entry loops g i j Hfin). eexists; reflexivity. }
  exists G. split; [exact HG|]. split; [exact (built_init _ _ _ _ Hwf HG)|].
  destruct (init_preserves inp _ _ G Hwf HG) as (Hs & Hw & _).
  assert (En : g_n_vertices G = m) by (cbn in Hs; inversion Hs; congruence).
  split; [exact En|]. destruct (init_inv inp _ _ G Hwf HG) as (n' & L & _ & _ & _ & EG).
  split; [rewrite EG; reflexivity|]. split; [rewrite EG; reflexivity|].
  intros i j Hi Hj. specialize (Hw i j Hi Hj). change (xsum (coo_here i j (coo_transpose (gt_adjacency loops g))) = Fin (wt G i j)) in Hw.
  rewrite (gt_entry loops g i j Hfin) in Hw. injection Hw as <-. reflexivity.
Qed.

Lemma fold_max_bound l a m : fold_left Nat.max l a = m -> (a <= m)%nat /\ (forall x, In x l -> (x <= m)%nat) /\ (m = a \/ In m l).
Proof.
  revert a. induction l as [|x l IH]; intros a H; cbn in H; [subst; split; [lia|split; [intros x []|left; reflexivity]]|].
  destruct (IH _ H) as (A & B & C). split; [lia|]. split.
  - intros y [->|Hy]; [lia|apply B; exact Hy].
  - destruct C as [C|C]; [|right; right; exact C]. destruct (Nat.max_spec a x) as [[_ E]|[_ E]]; rewrite E in C; [right; left; congruence|left; exact C].
Qed.

Lemma gt_vertices G l : built G -> get_edge_list (gW G) = Ok l ->
  edge_bound G (fold_left Nat.max (map (fun e => (Nat.max (fst (fst e)) (snd (fst e)) + 1)%nat) l) 0%nat).
Proof.
  intros HG El. destruct (built_good G HG) as (Hg & Hn & _). pose proof (fun i j w => edge_list_in (gW G) l i j w Hg El) as IN. rewrite <- Hn in IN.
  remember (fold_left _ _ _) as m eqn:Em. symmetry in Em. destruct (fold_max_bound _ _ _ Em) as (_ & B & C).
  assert (Sy : is_directed (gW G) = false -> forall a b, (a < g_n_vertices G)%nat -> (b < g_n_vertices G)%nat -> wt G a b = wt G b a).
  { intros Bd. rewrite is_directed_false, <- Hn in Bd. exact Bd. }
  split; [|split].
  - destruct C as [-> |C]; [lia|]. apply in_map_iff in C as ([[a b] w] & <- & He). apply IN in He. cbn. lia.
  - intros i j Hi Hj NZ.
    assert (X : forall a b, (a < g_n_vertices G)%nat -> (b < g_n_vertices G)%nat -> wt G a b <> 0 -> (is_directed (gW G) = false -> (a <= b)%nat) -> (a < m)%nat /\ (b < m)%nat).
    { intros a b Ha Hb N O. assert (He : In (a, b, wt G a b) l) by (apply IN; repeat split; auto).
      specialize (B (Nat.max a b + 1)%nat). assert (Nat.max a b + 1 <= m)%nat; [|lia]. apply B. apply in_map_iff. exists (a, b, wt G a b). split; [reflexivity|exact He]. }
    destruct (is_directed (gW G)) eqn:Bd; [apply X; auto; discriminate|]. destruct (Nat.le_ge_cases i j) as [L|L]; [apply X; auto|].
    destruct (X j i Hj Hi); auto. rewrite (Sy eq_refl) by assumption. exact NZ.
  - destruct C as [C|C]; [left; exact C|right]. apply in_map_iff in C as ([[a b] w] & E & He). cbn in E. apply IN in He as (Ha & Hb & _ & N & _).
    destruct (Nat.max_spec a b) as [[_ M]|[_ M]]; rewrite M in E.
    + exists a. split; [exact Ha|]. right. replace (m - 1)%nat with b by lia. exact N.
    + exists b. split; [exact Hb|]. left. replace (m - 1)%nat with a by lia. exact N.
Qed.
Lemma edge_bound_unique G m m' : edge_bound G m -> edge_bound G m' -> m = m'.
Proof.
  assert (H : forall m m', edge_bound G m -> edge_bound G m' -> (m <= m')%nat).
  { intros a b (La & _ & [->|(j & Hj & N)]) (_ & B & _); [lia|]. destruct a as [|a]; [lia|]. replace (S a - 1)%nat with a in N by lia.
    destruct N as [N|N]; [destruct (B a j)|destruct (B j a)]; auto; lia. }
  intros A B. apply Nat.le_antisymm; apply H; assumption.
Qed.

(** The weight listed for a pair of vertices. *)
Lemma list_total G l i j : built G -> get_edge_list (gW G) = Ok l -> (i < g_n_vertices G)%nat -> (j < g_n_vertices G)%nat ->
  edge_total (map (fun e => (fst e, Fin (snd e))) l) i j = if (is_directed (gW G) || Nat.leb i j)%bool then wt G i j else 0.
Proof.
  intros HG El Hi Hj. destruct (built_good G HG) as (Hg & Hn & _). pose proof (fun i j w => edge_list_in (gW G) l i j w Hg El) as IN. rewrite <- Hn in IN.
  rewrite edge_total_sum, map_map. cbn [fst snd].
  destruct (Req_dec (wt G i j) 0) as [Z|NZ].
  - rewrite (lsum_map_0 l); [destruct (_ || _)%bool; [symmetry; exact Z|reflexivity]|]. intros [[a b] w] He. cbn [fst snd].
    destruct (Nat.eqb_spec a i), (Nat.eqb_spec b j); cbn; try reflexivity. subst. unfold xweight. cbn. apply IN in He as (_ & _ & -> & _). exact Z.
  - destruct (is_directed (gW G) || Nat.leb i j)%bool eqn:Eo.
    + assert (He : In (i, j, wt G i j) l).
      { apply IN. repeat split; auto. intros Bd. rewrite Bd in Eo. cbn in Eo. apply Nat.leb_le. exact Eo. }
      pose proof (unique_sum (map (fun e => (fst e, Fin (snd e))) l) (fun e => (Nat.eqb (fst e) i && Nat.eqb (snd e) j)%bool) ((i, j), Fin (wt G i j))) as U.
      rewrite map_map in U. cbn [fst snd] in U. unfold xweight in U at 2. cbn [snd xreal] in U. etransitivity; [|apply U].
      * rewrite map_map. reflexivity.
      * apply in_map_iff. exists (i, j, wt G i j). split; [reflexivity|exact He].
      * rewrite !Nat.eqb_refl. reflexivity.
      * exact (edge_list_nodup _ _ Hg El).
      * intros [f w] _ Hf. cbn [fst] in *. apply andb_true_iff in Hf as [F1 F2]. apply Nat.eqb_eq in F1, F2. destruct f; cbn in *; congruence.
    + apply lsum_map_0. intros [[a b] w] He. cbn [fst snd]. destruct (Nat.eqb_spec a i) as [->|], (Nat.eqb_spec b j) as [->|]; cbn; try reflexivity.
      apply IN in He as (_ & _ & _ & _ & O). apply orb_false_iff in Eo as [Bd Le]. specialize (O Bd). apply Nat.leb_gt in Le. lia.
Qed.
