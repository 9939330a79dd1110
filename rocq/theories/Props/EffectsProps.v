(** C66: what the constructors do to the arrays of the caller. *)
From Coq Require Import Reals Lra Lia List Arith Bool String Sorted Permutation FunctionalExtensionality.
From Verif.Base Require Import RSum Prelude.
From Verif.Spec Require Import Matrix GraphSpec.
From Verif.Model Require Import Sparse Graph Random Ring NNGraph IO Effects.
From Verif.Proofs Require Import SparseFacts InitFacts.
From Verif.Props Require Import RingProps NNProps.
Import ListNotations.
Open Scope R_scope.
Open Scope list_scope.

(** ** Lists *)
Lemma upd_len {A} (i : nat) (a : A) l : List.length (upd i a l) = List.length l.
Proof. revert i. induction l as [|x l IH]; intros [|i]; cbn; auto. Qed.
Lemma upd_nth {A} (i j : nat) (a d : A) l : (i < List.length l)%nat ->
  nth j (upd i a l) d = if Nat.eqb j i then a else nth j l d.
Proof.
  revert i j. induction l as [|x l IH]; intros [|i] [|j] H; cbn in *; try lia; try reflexivity. apply IH. lia.
Qed.
Lemma upd_skipn {A} (i s : nat) (a : A) l : (i < s)%nat -> skipn s (upd i a l) = skipn s l.
Proof.
  revert i s. induction l as [|x l IH]; intros [|i] [|s] H; cbn; try lia; try reflexivity. apply IH. lia.
Qed.
Lemma upd_firstn {A} (i s : nat) (a : A) l : (s <= i)%nat -> firstn s (upd i a l) = firstn s l.
Proof.
  revert i s. induction l as [|x l IH]; intros [|i] [|s] H; cbn; try lia; try reflexivity. f_equal. apply IH. lia.
Qed.
Lemma upd_snoc {A} (k : nat) (a : A) l : (k < List.length l)%nat -> firstn (S k) (upd k a l) = firstn k l ++ [a].
Proof.
  revert k. induction l as [|x l IH]; intros [|k] H; cbn [List.length] in H; try lia; [reflexivity|].
  cbn [upd]. change (firstn (S (S k)) (x :: upd k a l)) with (x :: firstn (S k) (upd k a l)). rewrite IH by lia. reflexivity.
Qed.
Lemma upd_same {A} (k : nat) (d : A) l : upd k (nth k l d) l = l.
Proof. revert k. induction l as [|x l IH]; intros [|k]; cbn; try reflexivity. f_equal. apply IH. Qed.
Lemma skipn_cons {A} (k : nat) (d : A) l : (k < List.length l)%nat -> skipn k l = nth k l d :: skipn (S k) l.
Proof.
  revert k. induction l as [|x l IH]; intros [|k] H; cbn [List.length] in H; try lia; [reflexivity|]. cbn. apply IH. lia.
Qed.
Lemma slice_nil {A} (s r : nat) (l : list A) : (r <= s)%nat -> slice s r l = [].
Proof. intros H. unfold slice. replace (r - s)%nat with 0%nat by lia. reflexivity. Qed.
Lemma slice_cons {A} (s r : nat) (d : A) l : (s < r)%nat -> (r <= List.length l)%nat ->
  slice s r l = nth s l d :: slice (S s) r l.
Proof.
  intros H1 H2. unfold slice. rewrite (skipn_cons s d l) by lia. replace (r - s)%nat with (S (r - S s)) by lia. reflexivity.
Qed.
Lemma slice_len {A} (s r : nat) (l : list A) : (r <= List.length l)%nat -> List.length (slice s r l) = (r - s)%nat.
Proof. intros H. unfold slice. rewrite firstn_length, skipn_length. lia. Qed.
Lemma skipn_add {A} (a b : nat) (l : list A) : skipn a (skipn b l) = skipn (a + b) l.
Proof. revert l. induction b as [|b IH]; intros l; [rewrite Nat.add_0_r; reflexivity|]. rewrite Nat.add_succ_r. destruct l; [rewrite !skipn_nil; reflexivity|]. cbn. apply IH. Qed.
Lemma slice_skip {A} (s r t : nat) (l m : list A) : skipn t l = skipn t m -> (t <= s)%nat -> slice s r l = slice s r m.
Proof.
  intros E H. unfold slice. replace s with ((s - t) + t)%nat by lia. rewrite <- !skipn_add. rewrite E. reflexivity.
Qed.
Lemma slice_first {A} (s r t : nat) (l m : list A) : firstn t l = firstn t m -> (r <= t)%nat -> slice s r l = slice s r m.
Proof.
  intros E H. unfold slice. destruct (Nat.le_gt_cases s r) as [Hs|Hs].
  - rewrite !firstn_skipn_comm. replace (s + (r - s))%nat with r by lia.
    replace r with (Nat.min r t) by lia. rewrite <- !firstn_firstn, E. reflexivity.
  - replace (r - s)%nat with 0%nat by lia. reflexivity.
Qed.
Lemma firstn_le {A} (s t : nat) (l m : list A) : firstn t l = firstn t m -> (s <= t)%nat -> firstn s l = firstn s m.
Proof. intros E H. replace s with (Nat.min s t) by lia. rewrite <- !firstn_firstn, E. reflexivity. Qed.
Lemma skipn_le {A} (s t : nat) (l m : list A) : skipn t l = skipn t m -> (t <= s)%nat -> skipn s l = skipn s m.
Proof. intros E H. replace s with ((s - t) + t)%nat by lia. rewrite <- !skipn_add, E. reflexivity. Qed.

(** ** The in-place loops *)

(** The in-place treatment of a row computes the list function [g]. *)
Definition computes (op : rowop) (g : list entry -> list entry) (ok : list entry -> Prop) : Prop :=
  forall re s e k, (k <= s)%nat -> (s <= re)%nat -> (re <= List.length e)%nat -> ok (slice s re e) ->
    List.length (fst (op re s e k)) = List.length e /\
    snd (op re s e k) = (k + List.length (g (slice s re e)))%nat /\
    (snd (op re s e k) <= re)%nat /\
    firstn (snd (op re s e k)) (fst (op re s e k)) = firstn k e ++ g (slice s re e) /\
    skipn re (fst (op re s e k)) = skipn re e.

Definition nonzero_entries (l : list entry) : list entry := filter (fun cv => negb (xiszero (snd cv))) l.

Lemma elim_computes : computes elim_row nonzero_entries (fun _ => True).
Proof.
  intros re s e k Hk Hs Hre _. unfold elim_row.
  remember (re - s)%nat as c eqn:Ec. revert s e k Hk Hs Hre Ec. induction c as [|c IH]; intros s e k Hk Hs Hre Ec.
  - cbn [elim_from fst snd]. rewrite slice_nil by lia. cbn. rewrite app_nil_r. repeat split; lia.
  - cbn [elim_from]. rewrite (slice_cons s re dent e) by lia. cbn [nonzero_entries filter].
    destruct (xiszero (snd (nth s e dent))) eqn:Ez; cbn [negb].
    + apply IH; lia.
    + pose (x := nth s e dent). fold x in Ez |- *.
      destruct (IH (S s) (upd k x e) (S k)) as (H1 & H2 & H3 & H4 & H5); [lia|lia|rewrite upd_len; lia|lia|].
      rewrite (slice_skip (S s) re (S s) (upd k x e) e) in H2, H4 by (try apply upd_skipn; lia).
      fold (nonzero_entries (slice (S s) re e)). rewrite upd_len in H1.
      split; [exact H1|]. split; [rewrite H2; cbn [List.length]; lia|]. split; [exact H3|]. split.
      * rewrite H4, upd_snoc by lia. rewrite <- app_assoc. reflexivity.
      * rewrite H5. apply upd_skipn. lia.
Qed.

Lemma loop_computes op g ok : computes op g ok -> forall cnt i row_end p e k,
  (k <= row_end)%nat -> nth i p 0%nat = k -> List.length p = S (i + cnt) ->
  (row_end <= List.length e)%nat ->
  (forall a, (i < a <= i + cnt)%nat -> (row_end <= nth a p 0 <= List.length e)%nat) ->
  (forall a b, (i < a)%nat -> (a <= b <= i + cnt)%nat -> (nth a p 0 <= nth b p 0)%nat) ->
  (forall a, (i <= a < i + cnt)%nat -> ok (slice (if Nat.eqb a i then row_end else nth a p 0%nat) (nth (S a) p 0%nat) e)) ->
  let r := csr_loop op cnt i row_end p e k in
  List.length (fst r) = List.length p /\ List.length (snd r) = List.length e /\
  (forall a, (a <= i)%nat -> nth a (fst r) 0%nat = nth a p 0%nat) /\
  firstn k (snd r) = firstn k e /\
  (forall a, (i <= a < i + cnt)%nat ->
     mem_row (fst r) (snd r) a = g (slice (if Nat.eqb a i then row_end else nth a p 0%nat) (nth (S a) p 0%nat) e)) /\
  (forall a b, (i <= a)%nat -> (a <= b <= i + cnt)%nat -> (nth a (fst r) 0 <= nth b (fst r) 0)%nat) /\
  (forall a, (i <= a <= i + cnt)%nat -> (nth a (fst r) 0 <= (if Nat.eqb a i then row_end else nth a p 0))%nat).
Proof.
  intros Hop. induction cnt as [|cnt IH]; intros i row_end p e k Hk Hi Hp Hre Hr Hm Hok r.
  - subst r. cbn [csr_loop fst snd]. split; [reflexivity|]. split; [reflexivity|]. split; [reflexivity|]. split; [reflexivity|].
    split; [intros a Ha; lia|]. split; [intros a b H1 H2; replace b with a by lia; lia|].
    intros a Ha. replace a with i by lia. rewrite Nat.eqb_refl. lia.
  - subst r. cbn [csr_loop]. set (re := nth (S i) p 0%nat).
    assert (H0 : (row_end <= re <= List.length e)%nat) by (apply Hr; lia).
    assert (Hok0 : ok (slice row_end re e)).
    { specialize (Hok i ltac:(lia)). rewrite Nat.eqb_refl in Hok. exact Hok. }
    destruct (Hop re row_end e k Hk ltac:(lia) ltac:(lia) Hok0) as (H1 & H2 & H3 & H4 & H5).
    destruct (op re row_end e k) as [e1 k1] eqn:Eop. cbn [fst snd] in *.
    set (p1 := upd (S i) k1 p).
    assert (Hp1 : forall a, nth a p1 0%nat = if Nat.eqb a (S i) then k1 else nth a p 0%nat) by (intros a; apply upd_nth; lia).
    assert (Hp2 : forall a, a <> S i -> nth a p1 0%nat = nth a p 0%nat).
    { intros a Ha. rewrite Hp1. apply Nat.eqb_neq in Ha. rewrite Ha. reflexivity. }
    assert (Hst : forall a, (S i <= a)%nat -> (if Nat.eqb a (S i) then re else nth a p1 0%nat) = nth a p 0%nat).
    { intros a Ha. destruct (Nat.eqb_spec a (S i)) as [->|Hne]; [reflexivity|apply Hp2; exact Hne]. }
    assert (Hsl : forall a b, (S i <= a <= i + S cnt)%nat -> slice (nth a p 0%nat) b e1 = slice (nth a p 0%nat) b e).
    { intros a b Ha. apply (slice_skip _ _ re); [exact H5|]. apply Hm; lia. }
    destruct (IH (S i) re p1 e1 k1) as (J1 & J2 & J3 & J4 & J5 & J6 & J7).
    { exact H3. }
    { rewrite Hp1, Nat.eqb_refl. reflexivity. }
    { unfold p1. rewrite upd_len. lia. }
    { lia. }
    { intros a Ha. rewrite Hp2 by lia. rewrite H1. split; [apply Hm; lia|apply Hr; lia]. }
    { intros a b Ha Hb. rewrite !Hp2 by lia. apply Hm; lia. }
    { intros a Ha. rewrite Hst by lia. rewrite Hp2 by lia. rewrite Hsl by lia. specialize (Hok a ltac:(lia)).
      replace (Nat.eqb a i) with false in Hok by (symmetry; apply Nat.eqb_neq; lia). exact Hok. }
    assert (Ki : nth i (fst (csr_loop op cnt (S i) re p1 e1 k1)) 0%nat = k) by (rewrite J3, Hp2 by lia; exact Hi).
    assert (KSi : nth (S i) (fst (csr_loop op cnt (S i) re p1 e1 k1)) 0%nat = k1) by (rewrite J3, Hp1, Nat.eqb_refl by lia; reflexivity).
    assert (Kk : (k <= k1)%nat) by lia.
    split; [rewrite J1; apply upd_len|]. split; [congruence|]. split; [|split; [|split; [|split]]].
    + intros a Ha. rewrite J3 by lia. apply Hp2. lia.
    + rewrite (firstn_le k k1 _ e1 J4 Kk). replace k with (Nat.min k k1) at 1 by lia. rewrite <- firstn_firstn, H4.
      rewrite firstn_app, firstn_firstn, firstn_length. replace (k - Nat.min k (List.length e))%nat with 0%nat by lia.
      cbn [firstn]. rewrite app_nil_r, Nat.min_id. reflexivity.
    + intros a Ha. destruct (Nat.eqb_spec a i) as [->|Hne].
      * unfold mem_row. rewrite Ki, KSi. rewrite (slice_first k k1 k1 _ e1 J4) by lia.
        unfold slice. rewrite firstn_skipn_comm. replace (k + (k1 - k))%nat with k1 by lia. rewrite H4.
        rewrite skipn_app, skipn_all2 by (rewrite firstn_length; lia). rewrite firstn_length.
        replace (k - Nat.min k (List.length e))%nat with 0%nat by lia. reflexivity.
      * rewrite J5 by lia. rewrite Hst by lia. rewrite Hp2 by lia. rewrite Hsl by lia. reflexivity.
    + intros a b Ha Hb. destruct (Nat.eq_dec a i) as [->|Hne]; [|apply J6; lia].
      destruct (Nat.eq_dec b i) as [->|Hne']; [lia|]. rewrite Ki.
      specialize (J6 (S i) b ltac:(lia) ltac:(lia)). rewrite KSi in J6. lia.
    + intros a Ha. destruct (Nat.eqb_spec a i) as [->|Hne]; [rewrite Ki; exact Hk|].
      specialize (J7 a ltac:(lia)). rewrite Hst in J7 by lia. exact J7.
Qed.

(** ** Well-formed arrays *)
Definition wf_mem (A : csr_mem) : Prop :=
  List.length (m_ptr A) = S (m_nrow A) /\ nth 0 (m_ptr A) 0%nat = 0%nat /\
  (forall a b, (a <= b <= m_nrow A)%nat -> (nth a (m_ptr A) 0 <= nth b (m_ptr A) 0)%nat) /\
  (nth (m_nrow A) (m_ptr A) 0 <= List.length (m_ent A))%nat /\
  forall i cv, (i < m_nrow A)%nat -> In cv (mem_row (m_ptr A) (m_ent A) i) -> (fst cv < m_ncol A)%nat.

Lemma loop_all op g ok n p e : computes op g ok ->
  List.length p = S n -> nth 0 p 0%nat = 0%nat ->
  (forall a b, (a <= b <= n)%nat -> (nth a p 0 <= nth b p 0)%nat) ->
  (nth n p 0 <= List.length e)%nat ->
  (forall a, (a < n)%nat -> ok (mem_row p e a)) ->
  let r := csr_loop op n 0 0 p e 0 in
  List.length (fst r) = S n /\ List.length (snd r) = List.length e /\ nth 0 (fst r) 0%nat = 0%nat /\
  (forall a, (a < n)%nat -> mem_row (fst r) (snd r) a = g (mem_row p e a)) /\
  (forall a b, (a <= b <= n)%nat -> (nth a (fst r) 0 <= nth b (fst r) 0)%nat) /\
  (forall a, (a <= n)%nat -> (nth a (fst r) 0 <= nth a p 0)%nat).
Proof.
  intros Hop Hl H0 Hm Hn Hok r.
  assert (Hst : forall a, (if Nat.eqb a 0 then 0%nat else nth a p 0%nat) = nth a p 0%nat).
  { intros a. destruct (Nat.eqb_spec a 0) as [->|]; congruence. }
  destruct (loop_computes op g ok Hop n 0 0 p e 0) as (J1 & J2 & J3 & J4 & J5 & J6 & J7); try lia.
  - intros a Ha. specialize (Hm a n ltac:(lia)). lia.
  - intros a b Ha Hb. apply Hm. lia.
  - intros a Ha. rewrite Hst. apply Hok. lia.
  - split; [unfold r; rewrite J1; exact Hl|]. split; [exact J2|]. split; [unfold r; rewrite J3 by lia; exact H0|]. split; [|split].
    + intros a Ha. unfold r. rewrite J5 by lia. rewrite Hst. reflexivity.
    + intros a b Hab. apply J6; lia.
    + intros a Ha. specialize (J7 a ltac:(lia)). rewrite Hst in J7. exact J7.
Qed.

(** ** Summing duplicates *)
Fixpoint merge_with (j : nat) (x : xval) (l : list entry) : list entry :=
  match l with
  | [] => [(j, x)]
  | (j', y) :: l' => if Nat.eqb j' j then merge_with j (xadd x y) l' else (j, x) :: merge_with j' y l'
  end.
Definition merge (l : list entry) : list entry := match l with [] => [] | (j, x) :: l' => merge_with j x l' end.

Lemma merge_with_len j x l : (1 <= List.length (merge_with j x l) <= S (List.length l))%nat.
Proof.
  revert j x. induction l as [|[j' y] l IH]; intros j x; cbn; [lia|].
  destruct (Nat.eqb j' j); cbn; [specialize (IH j (xadd x y))|specialize (IH j' y)]; lia.
Qed.
Lemma merge_len l : (List.length (merge l) <= List.length l)%nat.
Proof. destruct l as [|[j x] l]; cbn; [lia|]. apply merge_with_len. Qed.

Lemma absorb_spec e re : (re <= List.length e)%nat -> forall c jj j x, (jj + c = re)%nat ->
  (jj <= fst (dup_absorb c jj j x e) <= re)%nat /\
  merge_with j x (slice jj re e) = (j, snd (dup_absorb c jj j x e)) :: merge (slice (fst (dup_absorb c jj j x e)) re e).
Proof.
  intros Hre. induction c as [|c IH]; intros jj j x Hc.
  - cbn [dup_absorb fst snd]. rewrite slice_nil by lia. cbn. split; [lia|reflexivity].
  - cbn [dup_absorb]. rewrite (slice_cons jj re dent e) by lia. destruct (nth jj e dent) as [j' y] eqn:En. cbn [fst snd merge_with].
    destruct (Nat.eqb_spec j' j) as [->|Hne].
    + destruct (IH (S jj) j (xadd x y)) as (H1 & H2); [lia|]. split; [lia|exact H2].
    + cbn [fst snd]. split; [lia|]. rewrite (slice_cons jj re dent e), En by lia. reflexivity.
Qed.

Lemma dup_from_spec re f : forall s e k, (re - s <= f)%nat -> (k <= s)%nat -> (s <= re)%nat -> (re <= List.length e)%nat ->
    List.length (fst (dup_from f s re e k)) = List.length e /\
    snd (dup_from f s re e k) = (k + List.length (merge (slice s re e)))%nat /\
    (snd (dup_from f s re e k) <= re)%nat /\
    firstn (snd (dup_from f s re e k)) (fst (dup_from f s re e k)) = firstn k e ++ merge (slice s re e) /\
    skipn re (fst (dup_from f s re e k)) = skipn re e.
Proof.
  induction f as [|f IH]; intros s e k Hf Hk Hs Hre.
  - cbn [dup_from fst snd]. rewrite slice_nil by lia. cbn. rewrite app_nil_r. repeat split; lia.
  - cbn [dup_from]. destruct (Nat.ltb_spec s re) as [Hlt|Hge].
    2:{ cbn [fst snd]. rewrite slice_nil by lia. cbn. rewrite app_nil_r. repeat split; lia. }
    rewrite (slice_cons s re dent e) by lia. destruct (nth s e dent) as [j x] eqn:En. cbn [fst snd].
    destruct (absorb_spec e re Hre (re - S s) (S s) j x) as (A1 & A2); [lia|].
    destruct (dup_absorb (re - S s) (S s) j x e) as [jj x'] eqn:Ea. cbn [fst snd] in *.
    destruct (IH jj (upd k (j, x') e) (S k)) as (H1 & H2 & H3 & H4 & H5); [lia|lia|lia|rewrite upd_len; lia|].
    rewrite (slice_skip jj re jj (upd k (j, x') e) e) in H2, H4 by (try apply upd_skipn; lia).
    rewrite upd_len in H1. cbn [merge]. rewrite A2.
    split; [exact H1|]. split; [rewrite H2; cbn [List.length]; lia|]. split; [exact H3|]. split.
    + rewrite H4, upd_snoc by lia. rewrite <- app_assoc. reflexivity.
    + rewrite H5. apply upd_skipn. lia.
Qed.

Lemma dup_computes : computes dup_row merge (fun _ => True).
Proof. intros re s e k Hk Hs Hre _. apply dup_from_spec; lia. Qed.

Lemma xadd_comm a b : xadd a b = xadd b a.
Proof. destruct a, b; cbn; try reflexivity. f_equal. lra. Qed.
Lemma xadd_assoc a b c : xadd (xadd a b) c = xadd a (xadd b c).
Proof. destruct a, b, c; cbn; try reflexivity. f_equal. lra. Qed.
Lemma xadd_0 a : xadd a (Fin 0) = a.
Proof. destruct a; cbn; try reflexivity. f_equal. lra. Qed.
Lemma xsum_cons a l : xsum (a :: l) = xadd a (xsum l). Proof. reflexivity. Qed.
Lemma xsum_perm l l' : Permutation l l' -> xsum l = xsum l'.
Proof.
  induction 1; [reflexivity|rewrite !xsum_cons; congruence| |congruence].
  rewrite !xsum_cons, <- !xadd_assoc, (xadd_comm y x). reflexivity.
Qed.

Definition here (j : nat) (l : list entry) : list xval := map snd (filter (fun cv => Nat.eqb (fst cv) j) l).
(** the canonical form of a row: for each stored column in order, the sum of its values *)
Definition canon_row (l : list entry) (s : list nat) : list entry :=
  map (fun j => (j, xsum (here j l))) (filter (fun j => negb (Nat.eqb (List.length (here j l)) 0)) s).

Lemma here_cons j c v l : here j ((c, v) :: l) = if Nat.eqb c j then v :: here j l else here j l.
Proof. unfold here. cbn [filter fst]. destruct (Nat.eqb c j); reflexivity. Qed.
Lemma here_perm j l l' : Permutation l l' -> Permutation (here j l) (here j l').
Proof.
  intros H. unfold here. apply Permutation_map. induction H as [|x l l' H IH|x y l|l l' l'' H1 IH1 H2 IH2]; cbn.
  - constructor.
  - destruct (Nat.eqb (fst x) j); [constructor|]; exact IH.
  - destruct (Nat.eqb (fst x) j), (Nat.eqb (fst y) j); try constructor; apply Permutation_refl.
  - eapply Permutation_trans; eauto.
Qed.
Lemma canon_ext l l' s : (forall j, In j s -> xsum (here j l) = xsum (here j l') /\
    (List.length (here j l) = 0%nat <-> List.length (here j l') = 0%nat)) -> canon_row l s = canon_row l' s.
Proof.
  unfold canon_row. induction s as [|j s IH]; intros H; [reflexivity|]. cbn [filter].
  destruct (H j (or_introl eq_refl)) as (H1 & H2). specialize (IH (fun k Hk => H k (or_intror Hk))).
  assert (E : Nat.eqb (List.length (here j l)) 0 = Nat.eqb (List.length (here j l')) 0).
  { destruct (Nat.eqb_spec (List.length (here j l)) 0), (Nat.eqb_spec (List.length (here j l')) 0); tauto. }
  rewrite E. destruct (negb _); cbn [map]; rewrite IH, ?H1; reflexivity.
Qed.
Lemma canon_perm l l' s : Permutation l l' -> canon_row l s = canon_row l' s.
Proof.
  intros H. apply canon_ext. intros j _. pose proof (here_perm j l l' H) as P. split; [apply xsum_perm; exact P|].
  rewrite (Permutation_length P). tauto.
Qed.
Lemma canon_app l s t : canon_row l (s ++ t) = canon_row l s ++ canon_row l t.
Proof. unfold canon_row. rewrite filter_app, map_app. reflexivity. Qed.
Lemma canon_none l s : (forall j, In j s -> here j l = []) -> canon_row l s = [].
Proof.
  unfold canon_row. induction s as [|j s IH]; intros H; [reflexivity|]. cbn [filter]. rewrite (H j (or_introl eq_refl)). cbn.
  apply IH. intros k Hk. apply H. right; exact Hk.
Qed.
Lemma here_none j l : (forall cv, In cv l -> fst cv <> j) -> here j l = [].
Proof.
  unfold here. induction l as [|x l IH]; intros H; [reflexivity|]. cbn [filter].
  destruct (Nat.eqb_spec (fst x) j) as [E|_]; [exfalso; exact (H x (or_introl eq_refl) E)|]. apply IH. intros cv Hc. apply H. right; exact Hc.
Qed.

Lemma canon_one j x l : here j l = [x] -> canon_row l [j] = [(j, x)].
Proof.
  intros E. unfold canon_row. cbn [filter]. rewrite E. cbn [List.length Nat.eqb negb map]. rewrite E, xsum_cons.
  change (xsum []) with (Fin 0). rewrite xadd_0. reflexivity.
Qed.

Definition by_col (a b : entry) : Prop := (fst a <= fst b)%nat.
Lemma merge_with_canon l : forall j x b, StronglySorted by_col ((j, x) :: l) -> (forall cv, In cv ((j, x) :: l) -> (fst cv < b)%nat) ->
  merge_with j x l = canon_row ((j, x) :: l) (seq j (b - j)).
Proof.
  induction l as [|[j' y] l IH]; intros j x b Hs Hb.
  - cbn [merge_with]. specialize (Hb (j, x) (or_introl eq_refl)). cbn in Hb. destruct (b - j)%nat as [|c] eqn:Ec; [lia|].
    change (seq j (S c)) with ([j] ++ seq (S j) c). rewrite canon_app, (canon_none _ (seq (S j) c)).
    + rewrite app_nil_r. symmetry. apply canon_one. rewrite here_cons, Nat.eqb_refl. reflexivity.
    + intros k Hk. apply in_seq in Hk. apply here_none. intros cv [<-|[]]. cbn. lia.
  - cbn [merge_with]. inversion Hs as [|? ? Hs1 Hs2]; subst. inversion Hs2 as [|? ? Hjj Hs3]; subst. unfold by_col in Hjj; cbn in Hjj.
    destruct (Nat.eqb_spec j' j) as [->|Hne].
    + rewrite (IH j (xadd x y) b).
      * apply canon_ext. intros k _. rewrite !here_cons. destruct (Nat.eqb j k); [|tauto].
        rewrite !xsum_cons, xadd_assoc. cbn. split; [reflexivity|lia].
      * inversion Hs1 as [|? ? Ha Hc]; subst. constructor; [exact Ha|exact Hc].
      * intros cv [<-|Hin]; [apply (Hb (j, x)); left; reflexivity|apply Hb; right; right; exact Hin].
    + rewrite (IH j' y b Hs1) by (intros cv Hin; apply Hb; right; exact Hin).
      assert (Hj' : (j' < b)%nat) by (apply (Hb (j', y)); right; left; reflexivity).
      assert (Hgt : forall cv, In cv ((j', y) :: l) -> (j < fst cv)%nat).
      { intros cv [<-|Hin]; [cbn; lia|]. inversion Hs1 as [|? ? Ha Hc]; subst. rewrite Forall_forall in Hc.
        specialize (Hc cv Hin). unfold by_col in Hc. cbn in Hc. lia. }
      replace (b - j)%nat with (1 + ((j' - j - 1) + (b - j')))%nat by lia. rewrite seq_app, seq_app, !canon_app.
      replace (j + 1 + (j' - j - 1))%nat with j' by lia.
      rewrite (canon_none _ (seq (j + 1) (j' - j - 1))).
      2:{ intros k Hk. apply in_seq in Hk. apply here_none. intros cv [<-|[<-|Hin]]; cbn; try lia.
          inversion Hs1 as [|? ? Ha Hc]; subst. rewrite Forall_forall in Hc. specialize (Hc cv Hin). unfold by_col in Hc. cbn in Hc. lia. }
      change (seq j 1) with [j]. rewrite (canon_one j x).
      2:{ rewrite here_cons, Nat.eqb_refl, (here_none j ((j', y) :: l)); [reflexivity|]. intros cv Hin. specialize (Hgt cv Hin). lia. }
      cbn [app]. f_equal.
      apply canon_ext. intros k Hk. apply in_seq in Hk. rewrite (here_cons k j x).
        destruct (Nat.eqb_spec j k); [lia|]. tauto.
Qed.
Lemma merge_canon l b : StronglySorted by_col l -> (forall cv, In cv l -> (fst cv < b)%nat) -> merge l = canon_row l (seq 0 b).
Proof.
  destruct l as [|[j x] l]; intros Hs Hb; [rewrite canon_none; reflexivity|]. cbn [merge]. rewrite (merge_with_canon l j x b Hs Hb).
  pose proof (Hb (j, x) (or_introl eq_refl)) as Hj. cbn in Hj. replace b with (j + (b - j))%nat at 2 by lia.
  rewrite seq_app, canon_app, (canon_none _ (seq 0 j)); [reflexivity|].
  intros k Hk. apply in_seq in Hk. apply here_none. intros cv [<-|Hin]; cbn; [lia|].
  inversion Hs as [|? ? Ha Hc]; subst. rewrite Forall_forall in Hc. specialize (Hc cv Hin). unfold by_col in Hc. cbn in Hc. lia.
Qed.

Lemma increasing_sorted l : increasing l = true <-> StronglySorted lt l.
Proof.
  split.
  - intros H. apply Sorted_StronglySorted; [intros a b c; lia|]. induction l as [|a [|b l] IH]; [constructor|repeat constructor|].
    cbn [increasing] in H. apply andb_prop in H. destruct H as (H1 & H2). apply Nat.ltb_lt in H1. constructor; [apply IH, H2|constructor; exact H1].
  - intros H. apply StronglySorted_Sorted in H. induction l as [|a [|b l] IH]; [reflexivity|reflexivity|].
    inversion H as [|? ? H1 H2]; subst. inversion H2; subst. cbn [increasing]. rewrite (proj2 (Nat.ltb_lt a b)) by assumption. apply IH, H1.
Qed.
Lemma increasing_by_col l : increasing (map fst l) = true -> StronglySorted by_col l.
Proof.
  intros H. apply increasing_sorted in H. induction l as [|a l IH]; [constructor|]. cbn in H. inversion H as [|? ? H1 H2]; subst.
  constructor; [apply IH, H1|]. apply Forall_forall. intros x Hx. rewrite Forall_forall in H2. unfold by_col.
  apply Nat.lt_le_incl, H2, in_map, Hx.
Qed.
Lemma merge_increasing l : increasing (map fst l) = true -> merge l = l.
Proof.
  destruct l as [|[j x] l]; [reflexivity|]. cbn [merge]. revert j x. induction l as [|[j' y] l IH]; intros j x H; [reflexivity|].
  cbn [map fst increasing] in H. apply andb_prop in H. destruct H as (H1 & H2). apply Nat.ltb_lt in H1.
  cbn [merge_with]. destruct (Nat.eqb_spec j' j); [lia|]. rewrite IH by exact H2. reflexivity.
Qed.

Lemma esort_perm l : Permutation (esort l) l.
Proof.
  assert (Hi : forall x l, Permutation (einsert x l) (x :: l)).
  { intros x. induction l0 as [|y l0 IH]; [apply Permutation_refl|]. cbn [einsert]. destruct (Nat.ltb (fst y) (fst x)); [|apply Permutation_refl].
    eapply Permutation_trans; [apply perm_skip, IH|apply perm_swap]. }
  induction l as [|x l IH]; [apply Permutation_refl|]. cbn. eapply Permutation_trans; [apply Hi|apply perm_skip, IH].
Qed.
Lemma esort_sorted l : StronglySorted by_col (esort l).
Proof.
  assert (Hi : forall x l, StronglySorted by_col l -> StronglySorted by_col (einsert x l)).
  { intros x. induction 1 as [|y l0 Hl IH Hf]; [repeat constructor|]. cbn [einsert]. destruct (Nat.ltb_spec (fst y) (fst x)) as [Hlt|Hge].
    - constructor; [exact IH|]. apply Forall_forall. intros z Hz.
      assert (Hz' : In z (x :: l0)).
      { assert (P : Permutation (einsert x l0) (x :: l0)).
        { clear. induction l0 as [|y l0 IH]; [apply Permutation_refl|]. cbn [einsert]. destruct (Nat.ltb (fst y) (fst x)); [|apply Permutation_refl].
          eapply Permutation_trans; [apply perm_skip, IH|apply perm_swap]. }
        eapply Permutation_in; eauto. }
      rewrite Forall_forall in Hf. unfold by_col. destruct Hz' as [<-|Hz']; [lia|apply Hf, Hz'].
    - constructor; [constructor; assumption|]. constructor; [exact Hge|]. apply Forall_forall. intros z Hz.
      rewrite Forall_forall in Hf. specialize (Hf z Hz). unfold by_col in *. lia. }
  induction l as [|x l IH]; [constructor|]. cbn. apply Hi, IH.
Qed.

(** Sorting the rows in place. *)
Lemma sort_row_spec p e i : let s := nth i p 0%nat in let r := nth (S i) p 0%nat in
  (s <= r <= List.length e)%nat ->
  List.length (sort_row p e i) = List.length e /\ firstn s (sort_row p e i) = firstn s e /\
  skipn r (sort_row p e i) = skipn r e /\ slice s r (sort_row p e i) = esort (slice s r e).
Proof.
  intros s r H. assert (El : List.length (esort (slice s r e)) = (r - s)%nat).
  { rewrite (Permutation_length (esort_perm _)). apply slice_len. lia. }
  unfold sort_row. fold s r. split; [rewrite !app_length, firstn_length, skipn_length, El; lia|]. split; [|split].
  - rewrite firstn_app, firstn_firstn, firstn_length. replace (s - Nat.min s (List.length e))%nat with 0%nat by lia.
    rewrite Nat.min_id. cbn. apply app_nil_r.
  - rewrite app_assoc. rewrite skipn_app, skipn_all2 by (rewrite app_length, firstn_length, El; lia).
    rewrite app_length, firstn_length, El. replace (r - (Nat.min s (List.length e) + (r - s)))%nat with 0%nat by lia. reflexivity.
  - unfold slice at 1. rewrite skipn_app, skipn_all2 by (rewrite firstn_length; lia). rewrite firstn_length.
    replace (s - Nat.min s (List.length e))%nat with 0%nat by lia. cbn [skipn app].
    rewrite firstn_app, El. replace (r - s - (r - s))%nat with 0%nat by lia. cbn [firstn]. rewrite app_nil_r. apply firstn_all2. lia.
Qed.
Lemma sort_rows_spec N p : (forall a b, (a <= b <= N)%nat -> (nth a p 0 <= nth b p 0)%nat) -> forall n e, (n <= N)%nat ->
  (nth N p 0 <= List.length e)%nat ->
  List.length (sort_rows n p e) = List.length e /\
  forall a, (a < N)%nat -> mem_row p (sort_rows n p e) a = if Nat.ltb a n then esort (mem_row p e a) else mem_row p e a.
Proof.
  intros Hm. induction n as [|n IH]; intros e Hn Hl; [split; reflexivity|].
  unfold sort_rows. rewrite seq_S, fold_left_app. cbn [fold_left]. rewrite Nat.add_0_l. fold (sort_rows n p e).
  destruct (IH e ltac:(lia) Hl) as (I1 & I2).
  pose proof (Hm n (S n) ltac:(lia)) as M1. pose proof (Hm (S n) N ltac:(lia)) as M2.
  destruct (sort_row_spec p (sort_rows n p e) n) as (S1 & S2 & S3 & S4); [lia|].
  split; [congruence|]. intros a Ha. destruct (Nat.lt_trichotomy a n) as [Hlt|[->|Hgt]].
  - rewrite (proj2 (Nat.ltb_lt a (S n))) by lia. specialize (I2 a Ha). rewrite (proj2 (Nat.ltb_lt a n)) in I2 by lia. rewrite <- I2.
    unfold mem_row. apply (slice_first _ _ (nth n p 0%nat)); [exact S2|]. apply Hm; lia.
  - rewrite (proj2 (Nat.ltb_lt n (S n))) by lia. specialize (I2 n Ha). rewrite Nat.ltb_irrefl in I2. rewrite <- I2. exact S4.
  - specialize (I2 a Ha). rewrite (proj2 (Nat.ltb_ge a n)) in I2 by lia. rewrite (proj2 (Nat.ltb_ge a (S n))) by lia. rewrite <- I2.
    unfold mem_row. apply (slice_skip _ _ (nth (S n) p 0%nat)); [exact S3|]. apply Hm; lia.
Qed.

(** ** The graph's matrix *)
Definition op_ok (n : nat) (g : list entry -> list entry) (p : list nat) (e : list entry) (p' : list nat) (e' : list entry) : Prop :=
  List.length p' = S n /\ List.length e' = List.length e /\ nth 0 p' 0%nat = 0%nat /\
  (forall a, (a < n)%nat -> mem_row p' e' a = g (mem_row p e a)) /\
  (forall a b, (a <= b <= n)%nat -> (nth a p' 0 <= nth b p' 0)%nat) /\
  (forall a, (a <= n)%nat -> (nth a p' 0 <= nth a p 0)%nat).
Definition st_mem (n : nat) (st : shared) : csr_mem := mkmem n n (s_ptr st) (g_ent st).

Lemma elim_ok n p e : wf_mem (mkmem n n p e) ->
  let r := csr_loop elim_row n 0 0 p e 0 in op_ok n nonzero_entries p e (fst r) (snd r).
Proof.
  intros (H1 & H2 & H3 & H4 & _). cbn in *. apply (loop_all elim_row nonzero_entries (fun _ => True)); auto. apply elim_computes.
Qed.
Lemma dup_ok n p e : wf_mem (mkmem n n p e) ->
  let r := csr_loop dup_row n 0 0 p (sort_rows n p e) 0 in op_ok n (fun l => merge (esort l)) p e (fst r) (snd r).
Proof.
  intros (H1 & H2 & H3 & H4 & _) r. cbn in *.
  destruct (sort_rows_spec n p H3 n e (le_n n) H4) as (S1 & S2).
  destruct (loop_all dup_row merge (fun _ => True) n p (sort_rows n p e)) as (J1 & J2 & J3 & J4 & J5 & J6); auto.
  - apply dup_computes.
  - lia.
  - split; [exact J1|]. split; [rewrite <- S1; exact J2|]. split; [exact J3|]. split; [|split; assumption].
    intros a Ha. unfold r. rewrite J4, S2 by exact Ha. rewrite (proj2 (Nat.ltb_lt a n)) by exact Ha. reflexivity.
Qed.

Lemma prune_facts n st : (forall a, (a <= n)%nat -> (nth a (s_ptr st) 0 <= nth n (s_ptr st) 0)%nat) ->
  s_ptr (prune n st) = s_ptr st /\ s_ent (prune n st) = s_ent st /\
  (forall a, (a < n)%nat -> mem_row (s_ptr st) (g_ent (prune n st)) a = mem_row (s_ptr st) (g_ent st) a) /\
  ((nth n (s_ptr st) 0 <= List.length (g_ent st))%nat -> (nth n (s_ptr st) 0 <= List.length (g_ent (prune n st)))%nat).
Proof.
  intros Hm. assert (Hf : forall (e : list entry) a, (a < n)%nat ->
    mem_row (s_ptr st) (firstn (nth n (s_ptr st) 0%nat) e) a = mem_row (s_ptr st) e a).
  { intros e a Ha. unfold mem_row. apply (slice_first _ _ (nth n (s_ptr st) 0%nat)); [|apply Hm; lia].
    rewrite firstn_firstn, Nat.min_id. reflexivity. }
  unfold prune. destruct (s_own st) as [e|] eqn:Eo.
  - cbn. unfold g_ent. rewrite Eo. split; [reflexivity|]. split; [reflexivity|]. split; [intros a Ha; apply Hf, Ha|].
    intros H. rewrite firstn_length. lia.
  - destruct (Nat.ltb _ _).
    + cbn. unfold g_ent. rewrite Eo. split; [reflexivity|]. split; [reflexivity|]. split; [intros a Ha; apply Hf, Ha|].
      intros H. rewrite firstn_length. lia.
    + auto.
Qed.

Lemma in_place_spec n g f st : wf_mem (st_mem n st) ->
  op_ok n g (s_ptr st) (g_ent st) (fst (f (s_ptr st) (g_ent st))) (snd (f (s_ptr st) (g_ent st))) ->
  (forall l, (forall cv, In cv l -> (fst cv < n)%nat) -> forall cv, In cv (g l) -> (fst cv < n)%nat) ->
  let st' := in_place n f st in
  wf_mem (st_mem n st') /\ s_ptr st' = fst (f (s_ptr st) (g_ent st)) /\
  s_ent st' = (match s_own st with Some _ => s_ent st | None => snd (f (s_ptr st) (g_ent st)) end) /\
  (forall a, (a < n)%nat -> mem_row (s_ptr st') (g_ent st') a = g (mem_row (s_ptr st) (g_ent st) a)) /\
  (s_own st <> None -> s_own st' <> None).
Proof.
  intros (W1 & W2 & W3 & W4 & W5) (O1 & O2 & O3 & O4 & O5 & O6) Hg st'. cbn [st_mem m_ptr m_ent m_nrow m_ncol] in *.
  set (pe := f (s_ptr st) (g_ent st)) in *.
  set (s1 := match s_own st with
           | Some _ => mkshared (fst pe) (s_ent st) (Some (snd pe))
           | None => mkshared (fst pe) (snd pe) None
           end).
  assert (E1 : s_ptr s1 = fst pe) by (unfold s1; destruct (s_own st); reflexivity).
  assert (E2 : g_ent s1 = snd pe) by (unfold s1; destruct (s_own st); reflexivity).
  assert (E3 : s_ent s1 = match s_own st with Some _ => s_ent st | None => snd pe end) by (unfold s1; destruct (s_own st); reflexivity).
  destruct (prune_facts n s1) as (P1 & P2 & P3 & P4).
  { intros a Ha. rewrite E1. apply O5. lia. }
  change (prune n s1) with st' in *. rewrite E1 in *. rewrite E2 in *.
  assert (R : forall a, (a < n)%nat -> mem_row (s_ptr st') (g_ent st') a = g (mem_row (s_ptr st) (g_ent st) a)).
  { intros a Ha. rewrite P1, P3, O4 by exact Ha. reflexivity. }
  split; [|split; [exact P1|split; [congruence|split; [exact R|]]]].
  - unfold wf_mem. cbn [st_mem m_ptr m_ent m_nrow m_ncol]. rewrite P1. split; [exact O1|]. split; [exact O3|]. split; [exact O5|]. split.
    + apply P4. rewrite O2. specialize (O6 n (le_n n)). lia.
    + intros a cv Ha. rewrite <- P1. rewrite R by exact Ha. apply Hg. intros c Hc. exact (W5 a c Ha Hc).
  - intros Ho. subst st'. unfold in_place, prune. destruct (s_own st); [cbn; discriminate|congruence].
Qed.

Lemma sum_dup_rows (A : csr xval) :
  rows (sum_duplicates A) = map (fun i => canon_row (row A i) (seq 0 (ncol A))) (seq 0 (nrow A)).
Proof.
  unfold sum_duplicates, csr_of_coo. cbn [rows]. apply map_ext_in. intros i Hi. apply in_seq in Hi.
  assert (E : forall j, coo_here i j (stored A) = here j (row A i)) by (intros j; apply coo_here_stored; lia).
  unfold canon_row.
  rewrite (filter_ext (fun j => negb (Nat.eqb (List.length (coo_here i j (stored A))) 0)) (fun j => negb (Nat.eqb (List.length (here j (row A i))) 0)))
    by (intros j; rewrite E; reflexivity).
  apply map_ext. intros j. rewrite E. reflexivity.
Qed.
Lemma row_mem (A : csr_mem) i : (i < m_nrow A)%nat -> row (mem_csr A) i = mem_row (m_ptr A) (m_ent A) i.
Proof. intros Hi. unfold row, mem_csr. cbn [rows]. apply nth_map_seq. exact Hi. Qed.
Lemma csr_eq {V} (A B : csr V) : nrow A = nrow B -> ncol A = ncol B -> rows A = rows B -> A = B.
Proof. destruct A, B. cbn. intros -> -> ->. reflexivity. Qed.

Lemma canon_in l s cv : In cv (canon_row l s) -> In (fst cv) s.
Proof. unfold canon_row. intros H. apply in_map_iff in H. destruct H as (j & <- & Hj). apply filter_In in Hj. apply Hj. Qed.
Lemma merge_esort l b : (forall cv, In cv l -> (fst cv < b)%nat) -> merge (esort l) = canon_row l (seq 0 b).
Proof.
  intros Hb. rewrite (merge_canon (esort l) b (esort_sorted l)).
  - apply canon_perm, esort_perm.
  - intros cv Hin. apply Hb. apply (Permutation_in _ (esort_perm l) Hin).
Qed.
Lemma canon_id l b : increasing (map fst l) = true -> (forall cv, In cv l -> (fst cv < b)%nat) -> canon_row l (seq 0 b) = l.
Proof. intros Hi Hb. rewrite <- (merge_canon l b (increasing_by_col l Hi) Hb). apply merge_increasing, Hi. Qed.

Lemma nnz_mem A : wf_mem A -> nnz (mem_csr A) = nth (m_nrow A) (m_ptr A) 0%nat.
Proof.
  intros (W1 & W2 & W3 & W4 & _). unfold nnz, stored. rewrite flat_map_length_sum.
  change (nrow (mem_csr A)) with (m_nrow A).
  assert (E : forall n, (n <= m_nrow A)%nat ->
    list_sum (map (fun i => List.length (map (fun cv : nat * xval => (i, fst cv, snd cv)) (row (mem_csr A) i))) (seq 0 n)) = nth n (m_ptr A) 0%nat).
  { induction n as [|n IH]; intros Hn; [cbn; congruence|]. rewrite seq_S, map_app, list_sum_app, IH by lia. cbn [map list_sum fold_right].
    rewrite Nat.add_0_l, map_length, row_mem by lia. unfold mem_row. specialize (W3 n (S n) ltac:(lia)) as W6.
    specialize (W3 (S n) (m_nrow A) ltac:(lia)) as W7. rewrite slice_len by lia. lia. }
  apply E. lia.
Qed.

Lemma sum_dup_mem A : wf_mem A -> canonical_format (m_nrow A) (m_ptr A) (m_ent A) = true -> sum_duplicates (mem_csr A) = mem_csr A.
Proof.
  intros W C. apply csr_eq; [reflexivity|reflexivity|]. rewrite sum_dup_rows. cbn [nrow ncol mem_csr].
  change (rows (mem_csr A)) with (map (mem_row (m_ptr A) (m_ent A)) (seq 0 (m_nrow A))). apply map_ext_in. intros i Hi.
  apply in_seq in Hi. rewrite (row_mem A i) by lia. unfold canonical_format in C. rewrite forallb_forall in C.
  apply canon_id; [apply C; apply in_seq; lia|]. intros cv Hc. destruct W as (_ & _ & _ & _ & W5). apply (W5 i cv); [lia|exact Hc].
Qed.

(** one in-place operation, on the graph's side and (when the arrays are shared) on the caller's *)
Lemma in_place_shared n g f st : wf_mem (st_mem n st) -> s_own st = None ->
  op_ok n g (s_ptr st) (g_ent st) (fst (f (s_ptr st) (g_ent st))) (snd (f (s_ptr st) (g_ent st))) ->
  (forall l, (forall cv, In cv l -> (fst cv < n)%nat) -> forall cv, In cv (g l) -> (fst cv < n)%nat) ->
  let st' := in_place n f st in
  wf_mem (mkmem n n (s_ptr st') (s_ent st')) /\ List.length (s_ent st') = List.length (s_ent st) /\
  (forall a, (a < n)%nat -> mem_row (s_ptr st') (s_ent st') a = g (mem_row (s_ptr st) (s_ent st) a)) /\
  ((List.length (s_ent st) / 2 <= nth n (s_ptr st') 0)%nat -> s_own st' = None).
Proof.
  intros W Ho O Hg st'. destruct (in_place_spec n g f st W O Hg) as (_ & E1 & E2 & _ & _). fold st' in E1, E2.
  rewrite Ho in E2. assert (Eg : g_ent st = s_ent st) by (unfold g_ent; rewrite Ho; reflexivity).
  destruct W as (W1 & W2 & W3 & W4 & W5). destruct O as (O1 & O2 & O3 & O4 & O5 & O6). cbn [st_mem m_ptr m_ent m_nrow m_ncol] in *.
  rewrite Eg in *. rewrite E1, E2.
  split; [|split; [exact O2|split; [exact O4|]]].
  - unfold wf_mem. cbn [m_ptr m_ent m_nrow m_ncol]. split; [exact O1|]. split; [exact O3|]. split; [exact O5|]. split.
    + rewrite O2. specialize (O6 n (le_n n)). lia.
    + intros a cv Ha. rewrite O4 by exact Ha. apply Hg. intros c Hc. exact (W5 a c Ha Hc).
  - intros H. unfold st', in_place, prune. rewrite Ho. cbn [s_own s_ptr s_ent]. rewrite Eg, O2.
    rewrite (proj2 (Nat.ltb_ge _ _) H). reflexivity.
Qed.

Lemma nonzero_bound n l : (forall cv, In cv l -> (fst cv < n)%nat) -> forall cv, In cv (nonzero_entries l) -> (fst cv < n)%nat.
Proof. intros H cv Hin. apply filter_In in Hin. apply H, Hin. Qed.
Lemma merge_bound n l : (forall cv, In cv l -> (fst cv < n)%nat) -> forall cv, In cv (merge (esort l)) -> (fst cv < n)%nat.
Proof. intros H cv Hin. rewrite (merge_esort l n H) in Hin. apply canon_in, in_seq in Hin. lia. Qed.

(** sum_duplicates and eliminate_zeros together, row by row *)
Lemma final_rows A : wf_mem A -> m_nrow A = m_ncol A -> forall B, m_nrow B = m_nrow A -> m_ncol B = m_ncol A ->
  (forall a, (a < m_nrow A)%nat -> mem_row (m_ptr B) (m_ent B) a =
     nonzero_entries (canon_row (mem_row (m_ptr A) (m_ent A) a) (seq 0 (m_ncol A)))) ->
  mem_csr B = eliminate_zeros_x (sum_duplicates (mem_csr A)).
Proof.
  intros W Hsq B Hn Hm H. apply csr_eq; [exact Hn|exact Hm|]. unfold eliminate_zeros_x. cbn [rows]. rewrite sum_dup_rows, map_map.
  unfold mem_csr at 1. cbn [rows nrow ncol]. rewrite Hn. apply map_ext_in. intros a Ha. apply in_seq in Ha.
  change (nrow (mem_csr A)) with (m_nrow A) in Ha. rewrite H by lia. rewrite (row_mem A) by lia. reflexivity.
Qed.

Lemma settle_spec n st : wf_mem (st_mem n st) ->
  let st' := settle n st in
  wf_mem (st_mem n st') /\ mem_csr (st_mem n st') = eliminate_zeros_x (sum_duplicates (mem_csr (st_mem n st))) /\
  (s_own st <> None -> s_ent st' = s_ent st) /\
  (s_own st = None -> (List.length (s_ent st) / 2 <= nnz (sum_duplicates (mem_csr (st_mem n st))))%nat ->
     let B := mkmem n n (s_ptr st') (s_ent st') in
     wf_mem B /\ mem_csr B = eliminate_zeros_x (sum_duplicates (mem_csr (st_mem n st))) /\
     List.length (s_ent st') = List.length (s_ent st)).
Proof.
  intros W. unfold settle. pose proof W as (_ & _ & _ & _ & W5). cbn [st_mem m_ptr m_ent m_nrow m_ncol] in W5.
  destruct (canonical_format n (s_ptr st) (g_ent st)) eqn:C; cbv zeta.
  - assert (Hrow : forall a, (a < n)%nat -> canon_row (mem_row (s_ptr st) (g_ent st) a) (seq 0 n) = mem_row (s_ptr st) (g_ent st) a).
    { intros a Ha. unfold canonical_format in C. rewrite forallb_forall in C. apply canon_id; [apply C, in_seq; lia|]. intros cv Hc. exact (W5 a cv Ha Hc). }
    pose proof (elim_ok n (s_ptr st) (g_ent st) W) as O. cbv zeta in O.
    destruct (in_place_spec n nonzero_entries (fun p e => csr_loop elim_row n 0 0 p e 0) st W O (nonzero_bound n)) as (I1 & I2 & I3 & I4 & I5).
    split; [exact I1|]. split; [|split].
    + apply (final_rows (st_mem n st) W eq_refl); [reflexivity|reflexivity|]. cbn [st_mem m_ptr m_ent m_nrow m_ncol]. intros a Ha.
      rewrite I4, Hrow by exact Ha. reflexivity.
    + intros Ho. rewrite I3. destruct (s_own st); [reflexivity|congruence].
    + intros Ho Hl. destruct (in_place_shared n nonzero_entries (fun p e => csr_loop elim_row n 0 0 p e 0) st W Ho O (nonzero_bound n)) as (J1 & J2 & J3 & _).
      split; [exact J1|]. split; [|exact J2].
      apply (final_rows (st_mem n st) W eq_refl); [reflexivity|reflexivity|]. cbn [st_mem m_ptr m_ent m_nrow m_ncol]. intros a Ha.
      rewrite Hrow, J3 by exact Ha. unfold g_ent. rewrite Ho. reflexivity.
  - pose proof (dup_ok n (s_ptr st) (g_ent st) W) as O. cbv zeta in O.
    set (f := fun p e => csr_loop dup_row n 0 0 p (sort_rows n p e) 0) in *.
    change (csr_loop dup_row n 0 0 (s_ptr st) (sort_rows n (s_ptr st) (g_ent st)) 0) with (f (s_ptr st) (g_ent st)) in O.
    assert (Hrow : forall a, (a < n)%nat -> merge (esort (mem_row (s_ptr st) (g_ent st) a)) = canon_row (mem_row (s_ptr st) (g_ent st) a) (seq 0 n)).
    { intros a Ha. apply merge_esort. intros cv Hc. exact (W5 a cv Ha Hc). }
    destruct (in_place_spec n _ f st W O (merge_bound n)) as (I1 & I2 & I3 & I4 & I5).
    set (s1 := in_place n f st) in *.
    pose proof (elim_ok n (s_ptr s1) (g_ent s1) I1) as O'. cbv zeta in O'.
    destruct (in_place_spec n nonzero_entries (fun p e => csr_loop elim_row n 0 0 p e 0) s1 I1 O' (nonzero_bound n)) as (K1 & K2 & K3 & K4 & K5).
    assert (Edup : mem_csr (st_mem n s1) = sum_duplicates (mem_csr (st_mem n st))).
    { apply csr_eq; [reflexivity|reflexivity|]. rewrite sum_dup_rows. unfold mem_csr at 1. cbn [rows st_mem m_ptr m_ent m_nrow m_ncol].
      apply map_ext_in. intros a Ha. apply in_seq in Ha. change (nrow (mem_csr (st_mem n st))) with n in Ha. rewrite (row_mem (st_mem n st)) by (cbn; lia).
      cbn [st_mem m_ptr m_ent m_nrow m_ncol ncol mem_csr]. rewrite I4, Hrow by lia. reflexivity. }
    split; [exact K1|]. split; [|split].
    + apply (final_rows (st_mem n st) W eq_refl); [reflexivity|reflexivity|]. cbn [st_mem m_ptr m_ent m_nrow m_ncol]. intros a Ha.
      rewrite K4, I4, Hrow by exact Ha. reflexivity.
    + intros Ho. rewrite K3. specialize (I5 Ho). destruct (s_own s1); [|congruence]. rewrite I3. destruct (s_own st); [reflexivity|congruence].
    + intros Ho Hl. destruct (in_place_shared n _ f st W Ho O (merge_bound n)) as (J1 & J2 & J3 & J4). fold s1 in J1, J2, J3, J4.
      rewrite <- Edup, (nnz_mem _ I1) in Hl. cbn [st_mem m_nrow m_ptr] in Hl. specialize (J4 Hl).
      destruct (in_place_shared n nonzero_entries (fun p e => csr_loop elim_row n 0 0 p e 0) s1 I1 J4 O' (nonzero_bound n)) as (L1 & L2 & L3 & _).
      split; [exact L1|]. split; [|congruence].
      apply (final_rows (st_mem n st) W eq_refl); [reflexivity|reflexivity|]. cbn [st_mem m_ptr m_ent m_nrow m_ncol]. intros a Ha.
      rewrite L3, J3 by exact Ha. rewrite <- Hrow by exact Ha. unfold g_ent. rewrite Ho. reflexivity.
Qed.

(** ** C66, Graph *)
Lemma nnz_dups A : wf_mem A -> (nnz (sum_duplicates (mem_csr A)) <= nnz (mem_csr A))%nat.
Proof.
  intros W. unfold nnz, stored. rewrite !flat_map_length_sum. change (nrow (sum_duplicates (mem_csr A))) with (nrow (mem_csr A)).
  assert (H : forall l, (forall a, In a l -> (a < m_nrow A)%nat) ->
    (list_sum (map (fun a => List.length (map (fun cv : nat * xval => (a, fst cv, snd cv)) (row (sum_duplicates (mem_csr A)) a))) l) <=
     list_sum (map (fun a => List.length (map (fun cv : nat * xval => (a, fst cv, snd cv)) (row (mem_csr A) a))) l))%nat).
  { induction l as [|a l IH]; intros Hl; [cbn; lia|]. cbn [map list_sum fold_right]. rewrite !map_length.
    specialize (IH (fun b Hb => Hl b (or_intror Hb))). unfold list_sum in IH. specialize (Hl a (or_introl eq_refl)).
    assert (E : row (sum_duplicates (mem_csr A)) a = merge (esort (row (mem_csr A) a))).
    { unfold row at 1. rewrite sum_dup_rows. rewrite nth_map_seq by exact Hl. symmetry. apply merge_esort.
      rewrite row_mem by exact Hl. intros cv Hc. destruct W as (_ & _ & _ & _ & W5). exact (W5 a cv Hl Hc). }
    rewrite E. pose proof (merge_len (esort (row (mem_csr A) a))) as M. rewrite (Permutation_length (esort_perm _)) in M. lia. }
  apply H. intros a Ha. apply in_seq in Ha. cbn in Ha. lia.
Qed.
Lemma getx_elim (B : csr xval) i j : getx (eliminate_zeros_x B) i j = getx B i j.
Proof.
  unfold getx. rewrite row_elim_x. induction (row B i) as [|[c v] l IH]; [reflexivity|]. cbn [filter snd].
  destruct (xiszero v) eqn:Ez; cbn [negb filter fst].
  - rewrite IH. destruct (Nat.eqb c j); [|reflexivity]. cbn [map snd]. rewrite xsum_cons.
    destruct v as [r| | |]; try discriminate Ez. cbn in Ez. destruct (Reqb_spec r 0) as [->|]; [|discriminate Ez]. rewrite xadd_comm, xadd_0. reflexivity.
  - destruct (Nat.eqb c j); [|exact IH]. cbn [map snd]. rewrite !xsum_cons, IH. reflexivity.
Qed.

(** the state in which the constructor computes, after [csr_matrix(adjacency, copy=False)] *)
Definition start (A : csr_mem) : shared := prune (m_nrow A) (mkshared (m_ptr A) (m_ent A) None).
Lemma start_spec A : wf_mem A -> m_nrow A = m_ncol A ->
  wf_mem (st_mem (m_nrow A) (start A)) /\ mem_csr (st_mem (m_nrow A) (start A)) = mem_csr A /\
  s_ptr (start A) = m_ptr A /\ s_ent (start A) = m_ent A /\
  ((List.length (m_ent A) / 2 <= nth (m_nrow A) (m_ptr A) 0)%nat -> s_own (start A) = None) /\
  ((nth (m_nrow A) (m_ptr A) 0 < List.length (m_ent A) / 2)%nat -> s_own (start A) <> None).
Proof.
  intros (W1 & W2 & W3 & W4 & W5) Hsq.
  destruct (prune_facts (m_nrow A) (mkshared (m_ptr A) (m_ent A) None)) as (P1 & P2 & P3 & P4).
  { cbn. intros a Ha. apply W3. lia. }
  fold (start A) in *. cbn [s_ptr s_ent g_ent s_own] in *. split; [|split; [|split; [exact P1|split; [exact P2|split]]]].
  - unfold wf_mem. cbn [st_mem m_ptr m_ent m_nrow m_ncol]. rewrite P1. split; [exact W1|]. split; [exact W2|]. split; [exact W3|].
    split; [exact (P4 W4)|]. intros a cv Ha. rewrite P3 by exact Ha. rewrite Hsq in *. intros Hc. apply (W5 a cv Ha Hc).
  - apply csr_eq; [reflexivity|exact Hsq|]. unfold mem_csr. cbn [rows st_mem m_ptr m_ent m_nrow m_ncol]. rewrite P1.
    apply map_ext_in. intros a Ha. apply in_seq in Ha. apply P3. lia.
  - intros H. unfold start, prune. cbn [s_own s_ptr s_ent]. rewrite (proj2 (Nat.ltb_ge _ _) H). reflexivity.
  - intros H. unfold start, prune. cbn [s_own s_ptr s_ent]. rewrite (proj2 (Nat.ltb_lt _ _) H). discriminate.
Qed.

Lemma call_unfold A lap coords : wf_mem A -> m_nrow A = m_ncol A ->
  (forall v, In v (data (mem_csr A)) -> exists r, v = Fin r) ->
  snd (graph_call A lap coords) = settle (m_nrow A) (start A).
Proof.
  intros W Hsq Hf. destruct (start_spec A W Hsq) as (_ & E & _).
  unfold graph_call. rewrite <- Hsq, Nat.eqb_refl. cbn [negb]. fold (start A). fold (st_mem (m_nrow A) (start A)). rewrite E.
  apply xsum_finite in Hf. apply xfinite_dec in Hf. destruct Hf as (F1 & F2). rewrite F1, F2. reflexivity.
Qed.

(** The graph is the one of the model of the other properties: whatever happens to the memory, it
    is built from the matrix the arrays stood for at the time of the call. *)
Theorem C66_graph_is_of_the_argument :
  forall A lap coords, wf_mem A -> fst (graph_call A lap coords) = graph_init (InCSR (mem_csr A)) lap coords.
Proof.
  intros A lap coords W. unfold graph_call, graph_init. cbn [in_shape List.length nth nrow ncol mem_csr Nat.eqb andb].
  destruct (Nat.eqb_spec (m_nrow A) (m_ncol A)) as [Hsq|Hne]; cbn [negb]; [|reflexivity]. cbn [to_csr].
  destruct (start_spec A W Hsq) as (W' & E & _ & _ & _). fold (start A). fold (st_mem (m_nrow A) (start A)). rewrite E.
  destruct (xisnan _); [reflexivity|]. destruct (xisinf _); [reflexivity|]. cbv zeta. cbn [fst].
  destruct (settle_spec (m_nrow A) (start A) W') as (_ & S2 & _). cbv zeta in S2. rewrite E in S2.
  unfold st_mem in S2 at 1. rewrite S2. reflexivity.
Qed.

(** A CSR argument given with arrays of reasonable size (at least half of them stored positions, duplicates
    merged): the caller's matrix keeps its entries; only its explicit zeros, its duplicates and the order of its columns are
    gone, and the graph's W is that same matrix.  The arrays keep their lengths. *)
Theorem C66_graph_keeps_the_matrix :
  forall A lap coords, wf_mem A -> m_nrow A = m_ncol A ->
    (forall i j, (i < m_nrow A)%nat -> (j < m_nrow A)%nat -> exists r, getx (mem_csr A) i j = Fin r) ->
    (List.length (m_ent A) / 2 <= nnz (sum_duplicates (mem_csr A)))%nat ->
    let A' := caller A (snd (graph_call A lap coords)) in
    wf_mem A' /\ List.length (m_ent A') = List.length (m_ent A) /\ List.length (m_ptr A') = List.length (m_ptr A) /\
    (forall i j, (i < m_nrow A)%nat -> (j < m_nrow A)%nat -> getx (mem_csr A') i j = getx (mem_csr A) i j) /\
    (forall i j v, In (i, j, v) (stored (mem_csr A')) -> v <> Fin 0) /\
    (forall i, (i < m_nrow A)%nat -> StronglySorted lt (map fst (row (mem_csr A') i))) /\
    (forall G, fst (graph_call A lap coords) = Ok G -> gW G = cmap xreal (mem_csr A')).
Proof.
  intros A lap coords W Hsq Hfin Hl A'.
  assert (Wc : wf_csr (mem_csr A)).
  { split; [cbn; rewrite map_length, seq_length; reflexivity|]. intros i Hi cv Hin. rewrite row_mem in Hin by exact Hi.
    destruct W as (_ & _ & _ & _ & W5). exact (W5 i cv Hi Hin). }
  assert (Hf : forall v, In v (data (mem_csr A)) -> exists r, v = Fin r).
  { apply (data_finite (mem_csr A) Wc). cbn [nrow ncol mem_csr]. rewrite <- Hsq. exact Hfin. }
  destruct (start_spec A W Hsq) as (W' & E & E1 & E2 & E3 & _).
  pose proof (settle_spec (m_nrow A) (start A) W') as S. cbv zeta in S. destruct S as (_ & S2 & _ & S4). rewrite E in S2, S4.
  pose proof (call_unfold A lap coords W Hsq Hf) as EA.
  assert (Ho : s_own (start A) = None).
  { apply E3. rewrite <- (nnz_mem A W). pose proof (nnz_dups A W). lia. }
  rewrite E2 in S4. specialize (S4 Ho Hl). destruct S4 as (B1 & B2 & B3).
  assert (EB : mem_csr A' = eliminate_zeros_x (sum_duplicates (mem_csr A))).
  { unfold A', caller. rewrite EA. rewrite <- Hsq. exact B2. }
  split; [|split; [|split; [|split; [|split; [|split]]]]].
  - unfold A', caller. rewrite EA, <- Hsq. exact B1.
  - unfold A', caller. rewrite EA. exact B3.
  - unfold A', caller. rewrite EA. cbn [m_ptr]. destruct B1 as (L & _). destruct W as (L' & _). transitivity (S (m_nrow A)); [exact L|symmetry; exact L'].
  - intros i j Hi Hj. rewrite EB, getx_elim.
    destruct (getx_dups (mem_csr A) i j) as (D1 & D2); [exact Hi|cbn [ncol mem_csr]; lia|].
    pose proof (Hfin i j Hi Hj) as F. apply D2 in F. destruct F as (r & Er). destruct (Hfin i j Hi Hj) as (r' & Er').
    rewrite Er, Er' in *. cbn in D1. congruence.
  - intros i j v Hin. rewrite EB in Hin. apply in_stored in Hin. destruct Hin as (_ & Hin). rewrite row_elim_x in Hin.
    apply filter_In in Hin. destruct Hin as (_ & Hz). intros ->. cbn in Hz. rewrite Reqb_refl in Hz. discriminate.
  - intros i Hi. rewrite EB, row_elim_x. apply map_fst_filter. unfold sum_duplicates. apply coo_sorted. exact Hi.
  - intros G HG. rewrite (C66_graph_is_of_the_argument A lap coords W) in HG.
    destruct (init_inv (InCSR (mem_csr A)) lap coords G Wc HG) as (n & L & _ & _ & _ & ->). cbn [gW to_csr]. rewrite EB. reflexivity.
Qed.

(** Arrays in canonical format without explicit zero are left alone, bit by bit. *)
Lemma elim_from_id c : forall s e, (forall t, (s <= t < s + c)%nat -> xiszero (snd (nth t e dent)) = false) ->
  elim_from c s e s = (e, (s + c)%nat).
Proof.
  induction c as [|c IH]; intros s e H; cbn [elim_from]; [f_equal; lia|].
  rewrite (H s) by lia. rewrite upd_same, IH by (intros t Ht; apply H; lia). f_equal. lia.
Qed.
Lemma elim_loop_id cnt : forall i p e, List.length p = S (i + cnt) ->
  (forall a b, (a <= b <= i + cnt)%nat -> (nth a p 0 <= nth b p 0)%nat) ->
  (forall t, (t < nth (i + cnt) p 0)%nat -> xiszero (snd (nth t e dent)) = false) ->
  csr_loop elim_row cnt i (nth i p 0%nat) p e (nth i p 0%nat) = (p, e).
Proof.
  induction cnt as [|cnt IH]; intros i p e Hl Hm Hz; [reflexivity|]. cbn [csr_loop]. unfold elim_row.
  pose proof (Hm i (S i) ltac:(lia)) as M1. pose proof (Hm (S i) (i + S cnt)%nat ltac:(lia)) as M2.
  rewrite elim_from_id by (intros t Ht; apply Hz; lia). cbn [fst snd].
  replace (nth i p 0 + (nth (S i) p 0 - nth i p 0))%nat with (nth (S i) p 0%nat) by lia. rewrite upd_same. fold elim_row.
  apply IH; [lia| |].
  - intros a b Hab. apply Hm. lia.
  - intros t Ht. apply Hz. rewrite Nat.add_succ_r. exact Ht.
Qed.

Lemma nth_skip {A} (s t : nat) (l : list A) d : nth t (skipn s l) d = nth (s + t) l d.
Proof. revert l. induction s as [|s IH]; intros l; [reflexivity|]. destruct l; [destruct t; reflexivity|]. cbn. apply IH. Qed.
Lemma nth_first {A} (k t : nat) (l : list A) d : (t < k)%nat -> nth t (firstn k l) d = nth t l d.
Proof. revert t l. induction k as [|k IH]; intros t l H; [lia|]. destruct l; [reflexivity|]. destruct t; [reflexivity|]. cbn. apply IH. lia. Qed.
Lemma nth_slice {A} (s r t : nat) (l : list A) d : (s <= t < r)%nat -> (r <= List.length l)%nat -> In (nth t l d) (slice s r l).
Proof.
  intros H1 H2. replace (nth t l d) with (nth (t - s) (slice s r l) d).
  - apply nth_In. rewrite slice_len; lia.
  - unfold slice. rewrite nth_first by lia. rewrite nth_skip. f_equal. lia.
Qed.
Lemma find_row p n t : nth 0 p 0%nat = 0%nat -> (t < nth n p 0)%nat -> exists i, (i < n)%nat /\ (nth i p 0 <= t < nth (S i) p 0)%nat.
Proof.
  intros H0. induction n as [|n IH]; intros Ht; [lia|]. destruct (Nat.lt_ge_cases t (nth n p 0%nat)) as [H|H].
  - destruct (IH H) as (i & Hi & Hr). exists i. split; [lia|exact Hr].
  - exists n. split; [lia|]. lia.
Qed.

Theorem C66_graph_leaves_canonical_arrays :
  forall A lap coords, wf_mem A ->
    (forall i, (i < m_nrow A)%nat -> StronglySorted lt (map fst (row (mem_csr A) i))) ->
    (forall i j v, In (i, j, v) (stored (mem_csr A)) -> v <> Fin 0) ->
    caller A (snd (graph_call A lap coords)) = A.
Proof.
  intros A lap coords W Hs Hz.
  assert (EA : forall st, s_ptr st = m_ptr A -> s_ent st = m_ent A -> caller A st = A).
  { intros st E1 E2. unfold caller. rewrite E1, E2. destruct A; reflexivity. }
  unfold graph_call. destruct (Nat.eqb_spec (m_nrow A) (m_ncol A)) as [Hsq|Hne]; cbn [negb]; [|apply EA; reflexivity].
  fold (start A). destruct (start_spec A W Hsq) as (W' & E & E1 & E2 & _).
  destruct (xisnan _); [apply EA; assumption|]. destruct (xisinf _); [apply EA; assumption|]. cbv zeta. cbn [snd].
  set (n := m_nrow A) in *.
  assert (C : canonical_format n (s_ptr (start A)) (g_ent (start A)) = true).
  { apply forallb_forall. intros i Hi. apply in_seq in Hi. apply increasing_sorted.
    change (mem_row (s_ptr (start A)) (g_ent (start A)) i) with (mem_row (m_ptr (st_mem n (start A))) (m_ent (st_mem n (start A))) i).
    rewrite <- row_mem by (cbn; lia). rewrite E. apply Hs. lia. }
  unfold settle. rewrite C. cbv zeta.
  assert (Hnz : forall t, (t < nth n (s_ptr (start A)) 0)%nat -> xiszero (snd (nth t (g_ent (start A)) dent)) = false).
  { intros t Ht. pose proof W' as (W1 & W2 & W3 & W4 & W5). cbn [st_mem m_ptr m_ent m_nrow] in W1, W2, W3, W4.
    destruct (find_row _ n t W2 Ht) as (i & Hi & Hr).
    pose proof (W3 (S i) n ltac:(lia)) as M.
    pose proof (nth_slice (nth i (s_ptr (start A)) 0%nat) (nth (S i) (s_ptr (start A)) 0%nat) t (g_ent (start A)) dent Hr ltac:(lia)) as Hin.
    change (slice (nth i (s_ptr (start A)) 0%nat) (nth (S i) (s_ptr (start A)) 0%nat) (g_ent (start A))) with
      (mem_row (m_ptr (st_mem n (start A))) (m_ent (st_mem n (start A))) i) in Hin.
    rewrite <- row_mem in Hin by exact Hi. rewrite E in Hin. destruct (nth t (g_ent (start A)) dent) as [c v]. cbn [snd].
    specialize (Hz i c v). rewrite in_stored in Hz. specialize (Hz (conj Hi Hin)).
    destruct v as [r| | |]; try reflexivity. cbn. apply Reqb_false. intros ->. apply Hz. reflexivity. }
  assert (EL : csr_loop elim_row n 0 0 (s_ptr (start A)) (g_ent (start A)) 0 = (s_ptr (start A), g_ent (start A))).
  { destruct W' as (W1 & W2 & W3 & W4 & W5). cbn [st_mem m_ptr m_ent m_nrow] in *.
    pose proof (elim_loop_id n 0 (s_ptr (start A)) (g_ent (start A)) W1 W3 Hnz) as L. rewrite W2 in L. exact L. }
  unfold in_place. rewrite EL. cbn [fst snd].
  destruct (s_own (start A)) as [o|] eqn:Eo.
  - apply EA; cbn; assumption.
  - unfold prune. cbn [s_own s_ptr s_ent]. assert (Eg : g_ent (start A) = m_ent A) by (unfold g_ent; rewrite Eo; exact E2).
    destruct (Nat.ltb _ _); apply EA; cbn; assumption.
Qed.

(** A rejected argument is left alone when the matrix is the reason ... *)
Theorem C66_graph_rejected_matrix_untouched :
  forall A lap coords, wf_mem A ->
    (m_nrow A <> m_ncol A \/ exists i j, (i < m_nrow A)%nat /\ (j < m_ncol A)%nat /\ ~ exists r, getx (mem_csr A) i j = Fin r) ->
    fst (graph_call A lap coords) = Raise ValueError /\ caller A (snd (graph_call A lap coords)) = A.
Proof.
  intros A lap coords W H.
  assert (EA : forall st, s_ptr st = m_ptr A -> s_ent st = m_ent A -> caller A st = A).
  { intros st E1 E2. unfold caller. rewrite E1, E2. destruct A; reflexivity. }
  unfold graph_call. destruct (Nat.eqb_spec (m_nrow A) (m_ncol A)) as [Hsq|Hne]; cbn [negb]; [|split; [reflexivity|apply EA; reflexivity]].
  destruct H as [H|(i & j & Hi & Hj & H)]; [contradiction|].
  fold (start A). fold (st_mem (m_nrow A) (start A)). destruct (start_spec A W Hsq) as (W' & E & E1 & E2 & _). rewrite E.
  assert (Wc : wf_csr (mem_csr A)).
  { split; [cbn; rewrite map_length, seq_length; reflexivity|]. intros a Ha cv Hin. rewrite row_mem in Hin by exact Ha.
    destruct W as (_ & _ & _ & _ & W5). exact (W5 a cv Ha Hin). }
  destruct (xisnan _) eqn:N1; [split; [reflexivity|apply EA; assumption]|].
  destruct (xisinf _) eqn:N2; [split; [reflexivity|apply EA; assumption]|].
  exfalso. apply H. apply (proj1 (data_finite (mem_csr A) Wc)); [|exact Hi|exact Hj].
  apply xsum_finite, xfinite_dec. auto.
Qed.

(** ... but not when only lap_type is: the effect on the arrays does not depend on it. *)
Theorem C66_graph_effect_without_graph :
  forall A lap lap' coords coords', snd (graph_call A lap coords) = snd (graph_call A lap' coords').
Proof.
  intros A lap lap' coords coords'. unfold graph_call. destruct (negb _); [reflexivity|]. destruct (xisnan _); [reflexivity|].
  destruct (xisinf _); reflexivity.
Qed.

(** When less than half of the arrays is in use, the graph takes a copy of indices and data but still shares (and overwrites) indptr:
    the caller is left with the graph's indptr over its own, unmoved, indices and data. *)
Theorem C66_graph_half_copied :
  forall A lap coords, wf_mem A -> m_nrow A = m_ncol A ->
    (forall i j, (i < m_nrow A)%nat -> (j < m_nrow A)%nat -> exists r, getx (mem_csr A) i j = Fin r) ->
    (nth (m_nrow A) (m_ptr A) 0 < List.length (m_ent A) / 2)%nat ->
    let A' := caller A (snd (graph_call A lap coords)) in
    m_ent A' = m_ent A /\
    forall i, (i <= m_nrow A)%nat ->
      nth i (m_ptr A') 0%nat = list_sum (map (fun a => List.length (row (eliminate_zeros_x (sum_duplicates (mem_csr A))) a)) (seq 0 i)).
Proof.
  intros A lap coords W Hsq Hfin Hl A'.
  assert (Wc : wf_csr (mem_csr A)).
  { split; [cbn; rewrite map_length, seq_length; reflexivity|]. intros i Hi cv Hin. rewrite row_mem in Hin by exact Hi.
    destruct W as (_ & _ & _ & _ & W5). exact (W5 i cv Hi Hin). }
  assert (Hf : forall v, In v (data (mem_csr A)) -> exists r, v = Fin r).
  { apply (data_finite (mem_csr A) Wc). cbn [nrow ncol mem_csr]. rewrite <- Hsq. exact Hfin. }
  destruct (start_spec A W Hsq) as (W' & E & E1 & E2 & _ & E4).
  pose proof (settle_spec (m_nrow A) (start A) W') as S. cbv zeta in S. destruct S as (S1 & S2 & S3 & _). rewrite E in S2.
  pose proof (call_unfold A lap coords W Hsq Hf) as EA.
  split; [unfold A', caller; rewrite EA; cbn [m_ent]; rewrite (S3 (E4 Hl)); exact E2|].
  intros i Hi. unfold A', caller. rewrite EA. cbn [m_ptr]. rewrite <- S2.
  destruct S1 as (V1 & V2 & V3 & V4 & _). cbn [st_mem m_ptr m_ent m_nrow] in V1, V2, V3, V4.
  set (st := settle (m_nrow A) (start A)) in *. clearbody st. induction i as [|i IH]; [exact V2|].
  rewrite seq_S, map_app, list_sum_app, <- IH by lia. cbn [map list_sum fold_right]. rewrite Nat.add_0_l, row_mem by (cbn; lia).
  cbn [st_mem m_ptr m_ent]. unfold mem_row. pose proof (V3 i (S i) ltac:(lia)). pose proof (V3 (S i) (m_nrow A) ltac:(lia)).
  rewrite slice_len by lia. lia.
Qed.

(** *** Two ways to lose entries of the caller's matrix *)
Lemma xz0 : xiszero (Fin 0) = true. Proof. cbn. apply Reqb_refl. Qed.
Lemma xz1 : xiszero (Fin 1) = false. Proof. cbn. apply Reqb_false. lra. Qed.

Ltac wf_memory :=
  split; [reflexivity|]; split; [reflexivity|]; split;
  [let a := fresh in let b := fresh in let H := fresh in intros a b H; destruct a as [|[|[|[|a]]]]; destruct b as [|[|[|[|b]]]]; cbn in H |- *; lia|];
  split; [cbn; lia|];
  let i := fresh in let cv := fresh in let Hi := fresh in let Hin := fresh in
  intros i cv Hi Hin; destruct i as [|[|[|i]]]; cbn in Hi; try lia; cbn in Hin; intuition (subst; cbn; lia).
Ltac finite_values :=
  let v := fresh in let Hv := fresh in intros v Hv; cbn in Hv; intuition (subst; eexists; reflexivity).

(** the edge 0-1 of a graph of three vertices, stored with four explicit zeros *)
Definition slack_A0 : csr_mem := mkmem 3 3 [0; 2; 4; 6]%nat
  [(0, Fin 0); (1, Fin 1); (0, Fin 1); (1, Fin 0); (0, Fin 0); (2, Fin 0)]%nat.
Definition write_data (A : csr_mem) (t : nat) (v : xval) : csr_mem :=
  mkmem (m_nrow A) (m_ncol A) (m_ptr A) (upd t (fst (nth t (m_ent A) dent), v) (m_ent A)).

Lemma slack_call lap coords : caller slack_A0 (snd (graph_call slack_A0 lap coords)) =
  mkmem 3 3 [0; 1; 2; 2]%nat [(1, Fin 1); (0, Fin 1); (0, Fin 1); (1, Fin 0); (0, Fin 0); (2, Fin 0)]%nat.
Proof.
  rewrite (call_unfold slack_A0 lap coords).
  - unfold settle. change (canonical_format _ _ _) with true. cbv iota zeta.
    change (start slack_A0) with (mkshared (m_ptr slack_A0) (m_ent slack_A0) None).
    unfold in_place. cbn [s_ptr g_ent s_own s_ent slack_A0 m_ptr m_ent m_nrow].
    assert (E : csr_loop elim_row 3 0 0 [0; 2; 4; 6]%nat [(0, Fin 0); (1, Fin 1); (0, Fin 1); (1, Fin 0); (0, Fin 0); (2, Fin 0)]%nat 0 =
      ([0; 1; 2; 2]%nat, [(1, Fin 1); (0, Fin 1); (0, Fin 1); (1, Fin 0); (0, Fin 0); (2, Fin 0)]%nat)).
    { repeat (cbn -[xiszero]; rewrite ?xz0, ?xz1). reflexivity. }
    rewrite E. reflexivity.
  - wf_memory.
  - reflexivity.
  - finite_values.
Qed.
Definition slack_A2 : csr_mem := write_data (caller slack_A0 (snd (graph_call slack_A0 Combinatorial None))) 0 (Fin 0).
Lemma slack_A2_eq : slack_A2 = mkmem 3 3 [0; 1; 2; 2]%nat [(1, Fin 0); (0, Fin 1); (0, Fin 1); (1, Fin 0); (0, Fin 0); (2, Fin 0)]%nat.
Proof. unfold slack_A2. rewrite slack_call. reflexivity. Qed.

(** A user builds a graph from a CSR matrix with explicit zeros, then sets one of the remaining weights to zero
    (A.data[0] = 0) and builds a second graph: the second graph is right, but the matrix A[1,0] = 1 of the user reads 0 afterwards. *)
Theorem C66_graph_corrupts_a_reused_matrix_refuted :
  exists A0 A2 A3, wf_mem A0 /\ List.length (m_ent A0) = nth (m_nrow A0) (m_ptr A0) 0%nat /\
    A2 = write_data (caller A0 (snd (graph_call A0 Combinatorial None))) 0 (Fin 0) /\ wf_mem A2 /\
    (exists G, fst (graph_call A2 Combinatorial None) = Ok G) /\
    A3 = caller A2 (snd (graph_call A2 Combinatorial None)) /\
    getx (mem_csr A2) 1 0 = Fin 1 /\ getx (mem_csr A3) 1 0 = Fin 0.
Proof.
  exists slack_A0, slack_A2, (caller slack_A2 (snd (graph_call slack_A2 Combinatorial None))).
  assert (W2 : wf_mem slack_A2) by (rewrite slack_A2_eq; wf_memory).
  assert (F2 : forall v, In v (data (mem_csr slack_A2)) -> exists r, v = Fin r) by (rewrite slack_A2_eq; finite_values).
  split; [wf_memory|]. split; [reflexivity|]. split; [reflexivity|]. split; [exact W2|]. split; [|split; [reflexivity|split]].
  - rewrite (C66_graph_is_of_the_argument _ _ _ W2). rewrite slack_A2_eq in *.
    match goal with |- exists G, graph_init ?inp _ _ = _ => assert (Wi : wf_input inp) end.
    { split; [reflexivity|]. intros i Hi cv Hin. rewrite row_mem in Hin by exact Hi. destruct W2 as (_ & _ & _ & _ & W5). exact (W5 i cv Hi Hin). }
    apply (init_accepts _ _ _ Wi). split; [left; reflexivity|]. exists 3%nat. split; [reflexivity|]. intros i j Hi Hj.
    apply (proj1 (data_finite _ Wi) F2); assumption.
  - rewrite slack_A2_eq. cbn. f_equal. lra.
  - rewrite (call_unfold slack_A2 Combinatorial None W2 eq_refl F2). rewrite slack_A2_eq.
    set (A := mkmem 3 3 [0; 1; 2; 2]%nat [(1, Fin 0); (0, Fin 1); (0, Fin 1); (1, Fin 0); (0, Fin 0); (2, Fin 0)]%nat).
    assert (ES : settle (m_nrow A) (start A) = mkshared [0; 0; 1; 1]%nat (m_ent A) (Some [(0%nat, Fin 1)])).
    { unfold settle. change (canonical_format _ _ _) with true. cbv iota zeta.
      change (start A) with (mkshared (m_ptr A) (m_ent A) (Some (firstn 2 (m_ent A)))).
      unfold in_place. cbn [s_ptr g_ent s_own s_ent A m_ptr m_ent m_nrow firstn].
      assert (E : csr_loop elim_row 3 0 0 [0; 1; 2; 2]%nat [(1, Fin 0); (0, Fin 1)]%nat 0 = ([0; 0; 1; 1]%nat, [(0, Fin 1); (0, Fin 1)]%nat)).
      { repeat (cbn -[xiszero]; rewrite ?xz0, ?xz1). reflexivity. }
      rewrite E. reflexivity. }
    rewrite ES. cbn. reflexivity.
Qed.

(** The same happens without any history to a matrix with many duplicates, one of which sums to zero. *)
Theorem C66_graph_corrupts_duplicates_refuted :
  exists A, wf_mem A /\ List.length (m_ent A) = nth (m_nrow A) (m_ptr A) 0%nat /\
    (exists G, fst (graph_call A Combinatorial None) = Ok G) /\
    getx (mem_csr A) 1 1 = Fin 1 /\ getx (mem_csr (caller A (snd (graph_call A Combinatorial None)))) 1 1 = Fin 0.
Proof.
  pose (A := mkmem 2 2 [0; 5; 6]%nat [(0, Fin 0); (0, Fin 0); (0, Fin 0); (0, Fin 0); (0, Fin 0); (1, Fin 1)]%nat).
  assert (W : wf_mem A).
  { split; [reflexivity|]; split; [reflexivity|]; split; [intros a b H; destruct a as [|[|[|a]]]; destruct b as [|[|[|b]]]; cbn in *; lia|].
    split; [cbn; lia|]. intros i cv Hi Hin; destruct i as [|[|i]]; cbn in Hi; try lia; cbn in Hin; intuition (subst; cbn; lia). }
  assert (F : forall v, In v (data (mem_csr A)) -> exists r, v = Fin r) by finite_values.
  exists A. split; [exact W|]. split; [reflexivity|]. split; [|split].
  - rewrite (C66_graph_is_of_the_argument _ _ _ W).
    assert (Wi : wf_input (InCSR (mem_csr A))).
    { split; [reflexivity|]. intros i Hi cv Hin. rewrite row_mem in Hin by exact Hi. destruct W as (_ & _ & _ & _ & W5). exact (W5 i cv Hi Hin). }
    apply (init_accepts _ _ _ Wi). split; [left; reflexivity|]. exists 2%nat. split; [reflexivity|]. intros i j Hi Hj.
    apply (proj1 (data_finite _ Wi) F); assumption.
  - cbn. f_equal. lra.
  - rewrite (call_unfold A Combinatorial None W eq_refl F).
    assert (Ez : 0 + 0 = 0) by lra.
    assert (ES : settle (m_nrow A) (start A) =
      mkshared [0; 0; 1]%nat [(0, Fin 0); (1, Fin 1); (0, Fin 0); (0, Fin 0); (0, Fin 0); (1, Fin 1)]%nat (Some [(1%nat, Fin 1)])).
    { unfold settle. change (canonical_format (m_nrow A) (s_ptr (start A)) (g_ent (start A))) with false. cbv iota zeta.
      change (start A) with (mkshared (m_ptr A) (m_ent A) None).
      unfold in_place at 2. cbn [s_ptr g_ent s_own s_ent A m_ptr m_ent m_nrow].
      assert (E : csr_loop dup_row 2 0 0 [0; 5; 6]%nat (sort_rows 2 [0; 5; 6]%nat [(0, Fin 0); (0, Fin 0); (0, Fin 0); (0, Fin 0); (0, Fin 0); (1, Fin 1)]%nat) 0 =
        ([0; 1; 2]%nat, [(0, Fin 0); (1, Fin 1); (0, Fin 0); (0, Fin 0); (0, Fin 0); (1, Fin 1)]%nat)).
      { cbn. rewrite !Ez. reflexivity. }
      rewrite E. cbn [fst snd].
      change (prune 2 (mkshared [0; 1; 2]%nat [(0, Fin 0); (1, Fin 1); (0, Fin 0); (0, Fin 0); (0, Fin 0); (1, Fin 1)]%nat None)) with
        (mkshared [0; 1; 2]%nat [(0, Fin 0); (1, Fin 1); (0, Fin 0); (0, Fin 0); (0, Fin 0); (1, Fin 1)]%nat (Some [(0, Fin 0); (1, Fin 1)]%nat)).
      unfold in_place. cbn [s_ptr g_ent s_own s_ent].
      assert (E' : csr_loop elim_row 2 0 0 [0; 1; 2]%nat [(0, Fin 0); (1, Fin 1)]%nat 0 = ([0; 0; 1]%nat, [(1, Fin 1); (1, Fin 1)]%nat)).
      { repeat (cbn -[xiszero]; rewrite ?xz0, ?xz1). reflexivity. }
      rewrite E'. reflexivity. }
    rewrite ES. cbn. reflexivity.
Qed.

(** Otherwise the graph's W stays a window on the caller's arrays: writing A.data[t] afterwards changes G.W
    but not G.L, so that L is no longer the Laplacian of W. *)
Theorem C66_graph_shares_weights :
  forall A lap coords t v, wf_mem A -> m_nrow A = m_ncol A ->
    (forall i j, (i < m_nrow A)%nat -> (j < m_nrow A)%nat -> exists r, getx (mem_csr A) i j = Fin r) ->
    let st := snd (graph_call A lap coords) in
    let e := upd t (fst (nth t (s_ent st) dent), Fin v) (s_ent st) in
    (forall G, fst (graph_call A lap coords) = Ok G ->
       gW G = graph_W (m_nrow A) st (s_ent st) /\ laplacian (graph_W (m_nrow A) st (s_ent st)) lap = Ok (gL G)) /\
    (s_own st <> None -> graph_W (m_nrow A) st e = graph_W (m_nrow A) st (s_ent st)) /\
    (s_own st = None -> forall i, (i < m_nrow A)%nat -> (nth i (s_ptr st) 0 <= t < nth (S i) (s_ptr st) 0)%nat ->
       get (graph_W (m_nrow A) st e) i (fst (nth t (s_ent st) dent)) = v).
Proof.
  intros A lap coords t v W Hsq Hfin st e.
  assert (Wc : wf_csr (mem_csr A)).
  { split; [cbn; rewrite map_length, seq_length; reflexivity|]. intros i Hi cv Hin. rewrite row_mem in Hin by exact Hi.
    destruct W as (_ & _ & _ & _ & W5). exact (W5 i cv Hi Hin). }
  assert (Hf : forall v, In v (data (mem_csr A)) -> exists r, v = Fin r).
  { apply (data_finite (mem_csr A) Wc). cbn [nrow ncol mem_csr]. rewrite <- Hsq. exact Hfin. }
  destruct (start_spec A W Hsq) as (W' & E & E1 & E2 & _ & _).
  pose proof (settle_spec (m_nrow A) (start A) W') as S. cbv zeta in S. destruct S as (S1 & S2 & _ & _). rewrite E in S2.
  pose proof (call_unfold A lap coords W Hsq Hf) as EA. fold st in EA. rewrite <- EA in S1, S2. clear EA.
  split.
  { intros G HG. rewrite (C66_graph_is_of_the_argument A lap coords W) in HG.
    destruct (init_inv (InCSR (mem_csr A)) lap coords G Wc HG) as (n & L & _ & _ & HL & ->). cbn [gW gL to_csr] in *.
    assert (EW : graph_W (m_nrow A) st (s_ent st) = finalW (mem_csr A)).
    { unfold graph_W. change (match s_own st with Some o => o | None => s_ent st end) with (g_ent st).
      change (mkmem (m_nrow A) (m_nrow A) (s_ptr st) (g_ent st)) with (st_mem (m_nrow A) st). rewrite S2. reflexivity. }
    rewrite EW. split; [reflexivity|exact HL]. }
  split; [intros Ho; unfold graph_W; destruct (s_own st); [reflexivity|congruence]|].
  intros Ho i Hi Ht. set (n := m_nrow A) in *. unfold graph_W. rewrite Ho. set (M := mkmem n n (s_ptr st) e).
  assert (Eg : g_ent st = s_ent st) by (unfold g_ent; rewrite Ho; reflexivity).
  unfold st_mem in S1, S2. rewrite Eg in S1, S2. destruct S1 as (V1 & V2 & V3 & V4 & _). cbn [m_ptr m_ent m_nrow m_ncol] in V1, V2, V3, V4.
  pose proof (V3 (S i) n ltac:(lia)) as V6.
  assert (Efst : map fst e = map fst (s_ent st)).
  { unfold e. clear. generalize (s_ent st) as l. revert t. intros t l. revert t. induction l as [|x l IH]; intros [|t]; cbn; try reflexivity. f_equal. apply IH. }
  assert (Hcan : forall a, (a < n)%nat -> map fst (row (mem_csr M) a) = map fst (row (mem_csr (mkmem n n (s_ptr st) (s_ent st))) a)).
  { intros a Ha. rewrite !row_mem by exact Ha. unfold M, mem_row, slice. cbn [m_ptr m_ent].
    rewrite <- !firstn_map, <- !skipn_map, Efst. reflexivity. }
  apply get_in.
  - intros a Ha. cbn [nrow cmap mem_csr M m_nrow] in Ha. rewrite row_cmap, map_map. cbn [fst].
    change (map (fun x : nat * xval => fst x) (row (mem_csr M) a)) with (map fst (row (mem_csr M) a)). rewrite (Hcan a Ha), S2, row_elim_x.
    apply NoDup_map_fst_filter. apply coo_canonical. exact Ha.
  - exact Hi.
  - rewrite row_cmap. apply in_map_iff. exists (fst (nth t (s_ent st) dent), Fin v). split; [reflexivity|].
    rewrite row_mem by exact Hi. unfold M, mem_row. cbn [m_ptr m_ent].
    replace (fst (nth t (s_ent st) dent), Fin v) with (nth t e dent).
    + apply nth_slice; [exact Ht|]. unfold e. rewrite upd_len. lia.
    + unfold e. rewrite upd_nth by lia. rewrite Nat.eqb_refl. reflexivity.
Qed.


(** The edge 0-1: its arrays are canonical, shared, and A.data[0] = 5 makes G.W[0,1] = 5. *)
Definition k2_mem : csr_mem := mkmem 2 2 [0; 1; 2]%nat [(1, Fin 1); (0, Fin 1)]%nat.
Example C66_graph_ex : wf_mem k2_mem /\ m_nrow k2_mem = m_ncol k2_mem /\
  (forall i j, (i < m_nrow k2_mem)%nat -> (j < m_nrow k2_mem)%nat -> exists r, getx (mem_csr k2_mem) i j = Fin r) /\
  (List.length (m_ent k2_mem) / 2 <= nnz (sum_duplicates (mem_csr k2_mem)))%nat /\
  (forall i, (i < m_nrow k2_mem)%nat -> StronglySorted lt (map fst (row (mem_csr k2_mem) i))) /\
  (forall i j v, In (i, j, v) (stored (mem_csr k2_mem)) -> v <> Fin 0) /\
  (exists G, fst (graph_call k2_mem Combinatorial None) = Ok G) /\
  let st := snd (graph_call k2_mem Combinatorial None) in
  s_own st = None /\ get (graph_W 2 st (s_ent st)) 0 1 = 1 /\
  get (graph_W 2 st (upd 0 (1%nat, Fin 5) (s_ent st))) 0 1 = 5.
Proof.
  assert (W : wf_mem k2_mem).
  { split; [reflexivity|]; split; [reflexivity|]; split; [intros a b H; destruct a as [|[|[|a]]]; destruct b as [|[|[|b]]]; cbn in *; lia|].
    split; [cbn; lia|]. intros i cv Hi Hin; destruct i as [|[|i]]; cbn in Hi; try lia; cbn in Hin; intuition (subst; cbn; lia). }
  assert (F : forall v, In v (data (mem_csr k2_mem)) -> exists r, v = Fin r) by finite_values.
  assert (Fx : forall i j, (i < 2)%nat -> (j < 2)%nat -> exists r, getx (mem_csr k2_mem) i j = Fin r).
  { intros [|[|i]] [|[|j]] Hi Hj; try lia; cbn; eexists; reflexivity. }
  assert (Wi : wf_input (InCSR (mem_csr k2_mem))).
  { split; [reflexivity|]. intros i Hi cv Hin. rewrite row_mem in Hin by exact Hi. destruct W as (_ & _ & _ & _ & W5). exact (W5 i cv Hi Hin). }
  assert (EC : settle (m_nrow k2_mem) (start k2_mem) = mkshared [0; 1; 2]%nat [(1, Fin 1); (0, Fin 1)]%nat None).
  { unfold settle. change (canonical_format _ _ _) with true. cbv iota zeta.
    change (start k2_mem) with (mkshared (m_ptr k2_mem) (m_ent k2_mem) None).
    unfold in_place. cbn [s_ptr g_ent s_own s_ent k2_mem m_ptr m_ent m_nrow].
    assert (E : csr_loop elim_row 2 0 0 [0; 1; 2]%nat [(1, Fin 1); (0, Fin 1)]%nat 0 = ([0; 1; 2]%nat, [(1, Fin 1); (0, Fin 1)]%nat)).
    { repeat (cbn -[xiszero]; rewrite ?xz0, ?xz1). reflexivity. }
    rewrite E. reflexivity. }
  split; [exact W|]. split; [reflexivity|]. split; [exact Fx|]. split; [cbn; lia|]. split; [|split; [|split]].
  - intros [|[|i]] Hi; cbn in Hi; try lia; cbn; repeat constructor.
  - intros i j v Hin. cbn in Hin. destruct Hin as [E|[E|[]]]; inversion E; subst; intros E'; injection E' as E'; lra.
  - rewrite (C66_graph_is_of_the_argument _ _ _ W). apply (init_accepts _ _ _ Wi). split; [left; reflexivity|]. exists 2%nat. split; [reflexivity|exact Fx].
  - rewrite (call_unfold k2_mem Combinatorial None W eq_refl F), EC. cbv zeta. split; [reflexivity|].
    split; unfold get, row; cbn; lra.
Qed.

(** ** C66, StochasticBlockModel *)
Lemma diag_index k i j : (i < k)%nat -> (j < k)%nat -> ((i * k + j) / k = i /\ (i * k + j) mod k = j)%nat.
Proof.
  intros Hi Hj. split.
  - rewrite Nat.div_add_l by lia. rewrite Nat.div_small by lia. lia.
  - rewrite Nat.add_comm, Nat.mod_add by lia. apply Nat.mod_small. lia.
Qed.
Lemma write_diag_entry k pv q i j : (i < k)%nat -> (j < k)%nat ->
  nth (i * k + j) (a_data (write_diag k pv q)) 0 =
  if Nat.eqb i j then (if a_int q then trunc (pv i) else pv i) else nth (i * k + j) (a_data q) 0.
Proof.
  intros Hi Hj. unfold write_diag. cbn [a_data]. rewrite nth_map_seq by nia.
  destruct (diag_index k i j Hi Hj) as (-> & ->). reflexivity.
Qed.

(** An ndarray q of shape (k, k), k >= 2, has its diagonal overwritten with p (truncated towards zero if q has an integer dtype); nothing
    else of it changes.  This does not depend on the outcome of the call. *)
Theorem C66_sbm_overwrites_q :
  forall k p pv q, (2 <= k)%nat -> a_shape q = [k; k] -> sbm_p k p = Ok pv ->
    exists q', sbm_q_after k None p (Some (ByRef q)) = Some (ByRef q') /\
      a_shape q' = [k; k] /\ a_int q' = a_int q /\ List.length (a_data q') = (k * k)%nat /\
      (forall i, (i < k)%nat -> nth (i * k + i) (a_data q') 0 = if a_int q then trunc (pv i) else pv i) /\
      (forall i j, (i < k)%nat -> (j < k)%nat -> i <> j -> nth (i * k + j) (a_data q') 0 = nth (i * k + j) (a_data q) 0).
Proof.
  intros k p pv q Hk Hs Hp. exists (write_diag k pv q). unfold sbm_q_after. rewrite Hp. cbn [arg_val].
  assert (Ea : Nat.eqb (a_size q) 1 = false) by (apply Nat.eqb_neq; unfold a_size; rewrite Hs; cbn [fold_right]; nia).
  assert (Eb : shape_eqb (a_shape q) [k; k] = true) by (unfold shape_eqb; destruct (list_eq_dec _ _ _); [reflexivity|contradiction]).
  rewrite Ea, Eb. cbn [negb andb arg_upd]. split; [reflexivity|]. split; [exact Hs|]. split; [reflexivity|].
  split; [unfold write_diag; cbn; rewrite map_length, seq_length; reflexivity|]. split.
  - intros i Hi. rewrite write_diag_entry by lia. rewrite Nat.eqb_refl. reflexivity.
  - intros i j Hi Hj Hne. rewrite write_diag_entry by lia. apply Nat.eqb_neq in Hne. rewrite Hne. reflexivity.
Qed.

(** Calling again with the array left behind gives the same probabilities. *)
Theorem C66_sbm_repeatable :
  forall k p pv q q' m, (2 <= k)%nat -> a_shape q = [k; k] -> sbm_p k p = Ok pv ->
    sbm_q_after k None p (Some (ByRef q)) = Some (ByRef q') -> sbm_M k p (Some q) = Ok m ->
    exists m', sbm_M k p (Some q') = Ok m' /\ forall i j, (i < k)%nat -> (j < k)%nat -> m' i j = m i j.
Proof.
  intros k p pv q q' m Hk Hs Hp Hq Hm.
  destruct (C66_sbm_overwrites_q k p pv q Hk Hs Hp) as (q2 & E & S1 & S2 & _ & S4 & S5). rewrite E in Hq. injection Hq as <-.
  unfold sbm_M in *. rewrite Hp in *. cbn [bindr] in *.
  assert (Ea : forall x, a_shape x = [k; k] -> Nat.eqb (a_size x) 1 = false) by (intros x Hx; apply Nat.eqb_neq; unfold a_size; rewrite Hx; cbn [fold_right]; nia).
  assert (Eb : forall x, a_shape x = [k; k] -> shape_eqb (a_shape x) [k; k] = true) by (intros x Hx; unfold shape_eqb; destruct (list_eq_dec _ _ _); [reflexivity|contradiction]).
  rewrite (Ea q Hs), (Eb q Hs) in Hm. injection Hm as <-. rewrite (Ea q2 S1), (Eb q2 S1). eexists. split; [reflexivity|].
  intros i j Hi Hj. cbv beta. rewrite S2. destruct (Nat.eqb_spec i j) as [->|Hne]; [reflexivity|]. apply S5; assumption.
Qed.

(** The array is the attribute M of the graph as well: a second model built on the same q with another p
    rewrites the M of the first. *)
Theorem C66_sbm_second_call_changes_first_M_refuted :
  forall k p1 p2 v1 v2 q q1 q2, (2 <= k)%nat -> a_shape q = [k; k] -> a_int q = false -> sbm_p k p1 = Ok v1 -> sbm_p k p2 = Ok v2 ->
    sbm_q_after k None p1 (Some (ByRef q)) = Some (ByRef q1) ->
    sbm_q_after k None p2 (Some (ByRef q1)) = Some (ByRef q2) ->
    forall i, (i < k)%nat -> nth (i * k + i) (a_data q1) 0 = v1 i /\ nth (i * k + i) (a_data q2) 0 = v2 i.
Proof.
  intros k p1 p2 v1 v2 q q1 q2 Hk Hs Hint H1 H2 E1 E2 i Hi.
  destruct (C66_sbm_overwrites_q k p1 v1 q Hk Hs H1) as (x & F1 & S1 & S2 & _ & S4 & _). rewrite F1 in E1. injection E1 as <-.
  destruct (C66_sbm_overwrites_q k p2 v2 x Hk S1 H2) as (y & F2 & _ & _ & _ & T4 & _). rewrite F2 in E2. injection E2 as <-.
  rewrite S4, T4, S2, Hint by exact Hi. auto.
Qed.

(** The overwriting happens even if the probabilities are then rejected. *)
Theorem C66_sbm_overwrites_on_failure_refuted :
  exists p q q', sbm_probs 2 None p (Some q) = Raise ValueError /\ sbm_q_after 2 None p (Some (ByRef q)) = Some (ByRef q') /\
    nth 0 (a_data q) 0 = 0 /\ nth 0 (a_data q') 0 = 2.
Proof.
  exists (scalar 2), (mkarr [2; 2]%nat [0; 0; 0; 0] false), (mkarr [2; 2]%nat [2; 0; 0; 2] false). split; [|split; [reflexivity|split; reflexivity]].
  unfold sbm_probs, sbm_M, sbm_p. cbn [a_size scalar a_shape fold_right Nat.mul Nat.add Nat.eqb bindr a_data].
  unfold shape_eqb. destruct (list_eq_dec _ _ _) as [_|n]; [|exfalso; apply n; reflexivity]. cbn [a_int bindr].
  assert (E : Rltb 1 2 = true) by (apply Rltb_true; lra).
  cbn. rewrite E, orb_true_r. reflexivity.
Qed.

(** In every other case q is left alone. *)
Theorem C66_sbm_leaves_q :
  forall k M p q,
    M <> None \/ (exists a, q = Some (ByValue a)) \/ (exists a, q = Some (ByRef a) /\ (a_size a = 1%nat \/ a_shape a <> [k; k])) \/ sbm_p k p = Raise ValueError ->
    sbm_q_after k M p q = q.
Proof.
  intros k M p q H. unfold sbm_q_after. destruct M as [M|]; [reflexivity|]. destruct q as [q|]; [|reflexivity].
  destruct H as [H|[(a & E)|[(a & E & H)|H]]]; [congruence| | |rewrite H; reflexivity].
  - injection E as ->. destruct (sbm_p k p); [|reflexivity]. destruct (_ && _)%bool; reflexivity.
  - injection E as ->. destruct (sbm_p k p); [|reflexivity]. cbn [arg_val]. destruct H as [H|H].
    + rewrite H. reflexivity.
    + unfold shape_eqb. destruct (list_eq_dec _ _ _); [contradiction|]. rewrite andb_false_r. reflexivity.
Qed.
Example C66_sbm_ex : (2 <= 2)%nat /\ a_shape (mkarr [2; 2]%nat [0.1; 0.2; 0.2; 0.1] false) = [2; 2]%nat /\ sbm_p 2 (scalar 0.9) = Ok (fun _ => 0.9).
Proof. split; [lia|]. split; reflexivity. Qed.

(** ** C66, RandomRing *)
Lemma rinsert_min x l : StronglySorted Rle (x :: l) -> rinsert x l = x :: l.
Proof.
  intros H. inversion H as [|? ? _ Hf]; subst. destruct l as [|y l]; [reflexivity|]. cbn. inversion Hf; subst.
  destruct (Rltb_spec y x); [lra|reflexivity].
Qed.
Lemma rsort_id l : StronglySorted Rle l -> rsort l = l.
Proof. induction 1 as [|x l Hl IH Hf]; [reflexivity|]. change (rsort (x :: l)) with (rinsert x (rsort l)). rewrite IH. apply rinsert_min. constructor; assumption. Qed.

(** An ndarray of angles is sorted in place, whatever the outcome; a list is left alone.  The graph is the same for the sorted angles. *)
Theorem C66_ring_sorts_angles :
  forall l, exists l', ring_angles_after (Some (ByRef l)) = Some (ByRef l') /\ StronglySorted Rle l' /\ Permutation l' l /\
    ring_angles_after (Some (ByValue l)) = Some (ByValue l) /\
    (forall N draws lap, RandomRing N (Some l') draws lap = RandomRing N (Some l) draws lap).
Proof.
  intros l. exists (rsort l). split; [reflexivity|]. split; [apply rsort_sorted|]. split; [apply rsort_perm|]. split; [reflexivity|].
  intros N draws lap. unfold RandomRing. rewrite (rsort_id (rsort l) (rsort_sorted l)), (Permutation_length (rsort_perm l)). reflexivity.
Qed.
(** ... and rejected angles are sorted too *)
Example C66_ring_ex : RandomRing 0 (Some [1; 9]) [] Combinatorial = Raise ValueError.
Proof.
  unfold RandomRing. cbn [rsort fold_right rinsert].
  assert (E1 : Rltb 9 1 = false) by (destruct (Rltb_spec 9 1); [lra|reflexivity]). rewrite E1. cbn [existsb].
  assert (E2 : Rltb 9 (2 * PI) = false) by (destruct (Rltb_spec 9 (2 * PI)); [pose proof PI_4; lra|reflexivity]).
  rewrite E2. cbn [negb]. rewrite !orb_true_r. reflexivity.
Qed.

(** ** C66, NNGraph *)
Lemma scaled_once N d X X' : Reqb (nn_radius N d X) 0 = false -> X' = (fun i c => X i c * (nn_scale N d / nn_radius N d X)) ->
  nn_radius N d X' = nn_scale N d /\ forall i c, X' i c * (nn_scale N d / nn_radius N d X') = X' i c.
Proof.
  intros Hr ->. assert (H : nn_points N d false true X = Ok (fun i c => X i c * (nn_scale N d / nn_radius N d X))).
  { unfold nn_points. cbn [nn_center]. cbv zeta. rewrite Hr. reflexivity. }
  apply nn_points_mult in H. destruct H as (f & _ & _ & E). split; [exact E|]. intros i c. rewrite E.
  pose proof (scale_pos N d) as Hs. unfold Rdiv at 2. rewrite Rinv_r by (apply Rgt_not_eq; exact Hs). ring.
Qed.

(** With center=False, rescale=True the caller's points are multiplied in place; the result is already rescaled, so that a second call
    changes nothing more and builds the same graph. *)
Theorem C66_nn_rescales_points :
  forall N d k X, (k < N)%nat -> nn_radius N d X <> 0 ->
    exists X', nn_points_after N d k false true (ByRef X) = ByRef (Some X') /\
      (forall i c, X' i c = X i c * (nn_scale N d / nn_radius N d X)) /\
      nn_points_after N d k false true (ByRef X') = ByRef (Some X') /\
      forall nntype sigma eps sym t NN lap,
        NNGraph N d X' nntype false true k sigma eps sym t NN lap = NNGraph N d X nntype false true k sigma eps sym t NN lap.
Proof.
  intros N d k X Hk Hr. pose (X' := fun i c => X i c * (nn_scale N d / nn_radius N d X)).
  assert (Er : Reqb (nn_radius N d X) 0 = false) by (apply Reqb_false; exact Hr).
  destruct (scaled_once N d X X' Er eq_refl) as (R1 & R2).
  assert (Er' : Reqb (nn_radius N d X') 0 = false) by (apply Reqb_false; rewrite R1; pose proof (scale_pos N d); lra).
  assert (EX : (fun i c => X' i c * (nn_scale N d / nn_radius N d X')) = X').
  { apply functional_extensionality. intros i. apply functional_extensionality. intros c. apply R2. }
  exists X'. unfold nn_points_after. rewrite (proj2 (Nat.leb_gt N k)) by exact Hk. cbn [negb andb]. rewrite Er, Er', EX.
  split; [reflexivity|]. split; [reflexivity|]. split; [reflexivity|].
  intros. unfold NNGraph. rewrite (proj2 (Nat.leb_gt N k)) by exact Hk.
  assert (E : nn_points N d false true X' = nn_points N d false true X).
  { unfold nn_points. cbn [nn_center]. cbv zeta. rewrite Er, Er', EX. reflexivity. }
  rewrite E. reflexivity.
Qed.
(** When all the points coincide the call fails and destroys the caller's array (NaN or infinities). *)
Theorem C66_nn_destroys_points_refuted :
  forall N d k X nntype sigma eps sym t NN lap, (k < N)%nat -> nn_radius N d X = 0 ->
    NNGraph N d X nntype false true k sigma eps sym t NN lap = Raise ValueError /\ nn_points_after N d k false true (ByRef X) = ByRef None.
Proof.
  intros. unfold NNGraph, nn_points_after, nn_points. rewrite (proj2 (Nat.leb_gt N k)) by assumption. cbn [negb andb nn_center]. cbv zeta.
  rewrite H0, Reqb_refl. auto.
Qed.
(** In every other case (centred, not rescaled, too many neighbours, not an ndarray) the points are left alone. *)
Theorem C66_nn_leaves_points :
  forall N d k center rescale X, center = true \/ rescale = false \/ (N <= k)%nat -> nn_points_after N d k center rescale (ByRef X) = ByRef (Some X).
Proof.
  intros N d k center rescale X H. unfold nn_points_after. destruct (Nat.leb_spec N k); [reflexivity|].
  destruct H as [->|[->|H]]; [reflexivity|rewrite andb_false_r; reflexivity|lia].
Qed.
