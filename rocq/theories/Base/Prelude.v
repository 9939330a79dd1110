(** Small shared vocabulary: results with exceptions, boolean tests on reals,
    list facts.  General mathematics and the shape of Python outcomes. *)
From Coq Require Import Reals Lra Lia List Arith Permutation Bool.
From Verif.Base Require Import RSum.
Import ListNotations.
Open Scope R_scope.

(** The exceptions the modelled code can raise (class only, not the message). *)
Inductive exn :=
| ValueError | TypeError | NotImplementedError | AssertionError | IndexError
| AttributeError | KeyError | ImportError | NameError | RuntimeError | OSError
| UnboundLocalError | NetworkXError.

(** Outcome of a call: a value, or a raised exception. *)
Inductive res (A : Type) :=
| Ok (a : A)
| Raise (e : exn).
Arguments Ok {A} a.
Arguments Raise {A} e.

Definition bindr {A B} (m : res A) (f : A -> res B) : res B :=
  match m with Ok a => f a | Raise e => Raise e end.

Definition is_ok {A} (m : res A) : Prop := exists a, m = Ok a.

Definition Reqb (x y : R) : bool := if Req_EM_T x y then true else false.
Definition Rltb (x y : R) : bool := if Rlt_dec x y then true else false.
Definition Rleb (x y : R) : bool := if Rle_dec x y then true else false.

Lemma Reqb_spec x y : reflect (x = y) (Reqb x y).
Proof. unfold Reqb; destruct (Req_EM_T x y); constructor; assumption. Qed.
Lemma Rltb_spec x y : reflect (x < y) (Rltb x y).
Proof. unfold Rltb; destruct (Rlt_dec x y); constructor; assumption. Qed.
Lemma Rleb_spec x y : reflect (x <= y) (Rleb x y).
Proof. unfold Rleb; destruct (Rle_dec x y); constructor; assumption. Qed.

Lemma Reqb_true x y : Reqb x y = true <-> x = y.
Proof. destruct (Reqb_spec x y); split; congruence. Qed.
Lemma Reqb_false x y : Reqb x y = false <-> x <> y.
Proof. destruct (Reqb_spec x y); split; congruence. Qed.
Lemma Reqb_refl x : Reqb x x = true.
Proof. apply Reqb_true; reflexivity. Qed.
Lemma Rltb_true x y : Rltb x y = true <-> x < y.
Proof. destruct (Rltb_spec x y); split; congruence. Qed.
Lemma Rltb_false x y : Rltb x y = false <-> y <= x.
Proof. destruct (Rltb_spec x y); split; intros; try discriminate; lra. Qed.
Lemma Rleb_true x y : Rleb x y = true <-> x <= y.
Proof. destruct (Rleb_spec x y); split; congruence. Qed.
Lemma Rleb_false x y : Rleb x y = false <-> y < x.
Proof. destruct (Rleb_spec x y); split; intros; try discriminate; lra. Qed.

(** Boolean quantification over [0..n-1] (used for "np.any", "np.all" over index ranges). *)
Definition nexists (n : nat) (p : nat -> bool) : bool := existsb p (seq 0 n).
Definition nforall (n : nat) (p : nat -> bool) : bool := forallb p (seq 0 n).

Lemma nexists_true n p : nexists n p = true <-> exists i, (i < n)%nat /\ p i = true.
Proof.
  unfold nexists. rewrite existsb_exists. split.
  - intros (i & Hi & Hp). apply in_seq in Hi. exists i; split; [lia|exact Hp].
  - intros (i & Hi & Hp). exists i; split; [apply in_seq; lia|exact Hp].
Qed.

Lemma nexists_false n p : nexists n p = false <-> forall i, (i < n)%nat -> p i = false.
Proof.
  split.
  - intros H i Hi. destruct (p i) eqn:E; [|reflexivity].
    assert (nexists n p = true) by (apply nexists_true; eauto). congruence.
  - intros H. destruct (nexists n p) eqn:E; [|reflexivity].
    apply nexists_true in E. destruct E as (i & Hi & Hp). rewrite H in Hp by assumption. discriminate.
Qed.

Lemma nforall_true n p : nforall n p = true <-> forall i, (i < n)%nat -> p i = true.
Proof.
  unfold nforall. rewrite forallb_forall. split.
  - intros H i Hi. apply H, in_seq. lia.
  - intros H i Hi. apply in_seq in Hi. apply H. lia.
Qed.

(** List facts. *)
Lemma NoDup_map_inj {A B} (f : A -> B) (l : list A) :
  (forall x y, In x l -> In y l -> f x = f y -> x = y) -> NoDup l -> NoDup (map f l).
Proof.
  induction l as [|a l IH]; intros Hinj Hnd; cbn; [constructor|].
  inversion Hnd as [|? ? Hni Hnd']; subst. constructor.
  - intros Hin. apply in_map_iff in Hin. destruct Hin as (b & Hb & Hbl).
    apply Hni. rewrite <- (Hinj b a); [exact Hbl|right; exact Hbl|left; reflexivity|exact Hb].
  - apply IH; [|exact Hnd']. intros x y Hx Hy; apply Hinj; right; assumption.
Qed.

Lemma NoDup_filter' {A} (p : A -> bool) l : NoDup l -> NoDup (filter p l).
Proof. apply NoDup_filter. Qed.

Lemma NoDup_app_disj {A} (l1 l2 : list A) :
  NoDup l1 -> NoDup l2 -> (forall x, In x l1 -> ~ In x l2) -> NoDup (l1 ++ l2).
Proof.
  induction l1 as [|a l1 IH]; intros H1 H2 Hd; cbn; [exact H2|].
  inversion H1; subst. constructor.
  - rewrite in_app_iff. intros [Hin|Hin]; [contradiction|]. apply (Hd a); [left; reflexivity|exact Hin].
  - apply IH; auto. intros x Hx; apply Hd; right; exact Hx.
Qed.

Lemma NoDup_flat_map {A B} (f : A -> list B) (l : list A) :
  NoDup l -> (forall a, In a l -> NoDup (f a)) ->
  (forall a a' b, In a l -> In a' l -> In b (f a) -> In b (f a') -> a = a') ->
  NoDup (flat_map f l).
Proof.
  induction l as [|a l IH]; intros Hl Hf Hd; cbn; [constructor|].
  inversion Hl; subst. apply NoDup_app_disj.
  - apply Hf; left; reflexivity.
  - apply IH; auto.
    + intros; apply Hf; right; assumption.
    + intros a0 a' b H1' H2'; apply Hd; right; assumption.
  - intros b Hb Hb'. apply in_flat_map in Hb'. destruct Hb' as (a' & Ha' & Hb').
    assert (a = a') by (apply (Hd a a' b); [left; reflexivity|right; exact Ha'|exact Hb|exact Hb']).
    subst a'. contradiction.
Qed.

Lemma flat_map_length_sum {A B} (f : A -> list B) (l : list A) :
  length (flat_map f l) = list_sum (map (fun a => length (f a)) l).
Proof. induction l as [|a l IH]; cbn; [reflexivity|]. rewrite app_length, IH. reflexivity. Qed.

Lemma NoDup_length_le {A} (l l' : list A) : NoDup l -> incl l l' -> (length l <= length l')%nat.
Proof. intros; apply NoDup_incl_length; assumption. Qed.

Lemma NoDup_same_length {A} (l l' : list A) :
  NoDup l -> NoDup l' -> (forall x, In x l <-> In x l') -> length l = length l'.
Proof.
  intros H1 H2 H. apply Nat.le_antisymm; apply NoDup_incl_length; auto; intros x Hx; apply H; exact Hx.
Qed.

Lemma NoDup_same_perm {A} (l l' : list A) :
  NoDup l -> NoDup l' -> (forall x, In x l <-> In x l') -> Permutation l l'.
Proof. intros H1 H2 H. apply NoDup_Permutation; assumption. Qed.

Lemma lsum_flat_map {A} (f : A -> list R) (l : list A) :
  lsum (flat_map f l) = lsum (map (fun a => lsum (f a)) l).
Proof.
  induction l as [|a l IH]; [reflexivity|]. cbn [flat_map map].
  rewrite lsum_app, IH. reflexivity.
Qed.

Lemma lsum_cons x l : lsum (x :: l) = x + lsum l.
Proof. reflexivity. Qed.

Lemma map_flat_map {A B C} (g : B -> C) (f : A -> list B) l :
  map g (flat_map f l) = flat_map (fun a => map g (f a)) l.
Proof. induction l as [|a l IH]; cbn; [reflexivity|]. rewrite map_app, IH. reflexivity. Qed.

Lemma nth_map_seq {A} (f : nat -> A) n i d : (i < n)%nat -> nth i (map f (seq 0 n)) d = f i.
Proof.
  intros H. rewrite (nth_indep _ d (f O)) by (rewrite map_length, seq_length; exact H).
  rewrite map_nth, seq_nth by exact H. reflexivity.
Qed.

Definition b2n (b : bool) : nat := if b then 1%nat else 0%nat.
Definition b2R (b : bool) : R := if b then 1 else 0.

Lemma sqrt_sqr_nonneg x : 0 <= x -> sqrt x * sqrt x = x.
Proof. apply sqrt_sqrt. Qed.
