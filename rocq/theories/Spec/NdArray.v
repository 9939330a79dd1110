(** Numpy arrays of reals: a shape and a function of multi-indices; the index bookkeeping of
    numpy's expand_dims / squeeze / transpose / reshape (C order).  Models no pygsp code. *)
From Coq Require Import Reals Lra Lia List Arith Bool.
From Verif.Base Require Import RSum Prelude.
From Verif.Spec Require Import Matrix.
Import ListNotations.
Open Scope R_scope.

Record arr := Arr { shape : list nat; aget : list nat -> R }.

(** valid multi-index *)
Definition inb (sh idx : list nat) : Prop := Forall2 lt idx sh.
(** equality of arrays: same shape, same entries *)
Definition aeq (a b : arr) : Prop :=
  shape a = shape b /\ forall idx, inb (shape a) idx -> aget a idx = aget b idx.

(** the vector found along the first axis at the given remaining indices *)
Definition col (a : arr) (rest : list nat) : vec := fun i => aget a (i :: rest).
Definition vec_arr (n : nat) (x : vec) : arr := Arr [n] (fun idx => x (hd 0%nat idx)).
Definition mat_arr (n m : nat) (x : mat) : arr := Arr [n; m] (fun idx => x (nth 0 idx 0%nat) (nth 1 idx 0%nat)).

(** drop the axes of length one, from a shape and from an index of that shape *)
Definition drop1 (sh : list nat) : list nat := filter (fun d => negb (Nat.eqb d 1)) sh.
Fixpoint sqidx (sh idx : list nat) : list nat :=
  match sh, idx with
  | d :: sh', i :: idx' => if Nat.eqb d 1 then sqidx sh' idx' else i :: sqidx sh' idx'
  | _, _ => []
  end.
Fixpoint unsqidx (sh idx : list nat) : list nat :=
  match sh with
  | [] => []
  | d :: sh' => if Nat.eqb d 1 then 0%nat :: unsqidx sh' idx
                else match idx with i :: idx' => i :: unsqidx sh' idx' | [] => [] end
  end.
(** Entry [idx] of the array of shape [sh] whose squeezed form is [a]. *)
Definition rd (sh : list nat) (a : arr) (idx : list nat) : R := aget a (sqidx sh idx).

(** numpy.squeeze *)
Definition squeeze (a : arr) : arr := Arr (drop1 (shape a)) (fun idx => aget a (unsqidx (shape a) idx)).
(** numpy.expand_dims(a, -1) and (a, 1) *)
Definition expand_last (a : arr) : arr := Arr (shape a ++ [1%nat]) (fun idx => aget a (removelast idx)).
Definition expand_1 (a : arr) : arr :=
  Arr (match shape a with d :: sh => d :: 1%nat :: sh | [] => [1%nat] end)
      (fun idx => aget a (match idx with i :: _ :: rest => i :: rest | _ => [] end)).
(** a.T *)
Definition atrans (a : arr) : arr := Arr (rev (shape a)) (fun idx => aget a (rev idx)).

Fixpoint prodl (sh : list nat) : nat := match sh with [] => 1 | d :: sh' => d * prodl sh' end%nat.
(** C order *)
Fixpoint ravel (sh idx : list nat) : nat :=
  match sh, idx with
  | _ :: sh', i :: idx' => i * prodl sh' + ravel sh' idx'
  | _, _ => 0
  end%nat.
Fixpoint unravel (sh : list nat) (k : nat) : list nat :=
  match sh with
  | [] => []
  | _ :: sh' => Nat.div k (prodl sh') :: unravel sh' (Nat.modulo k (prodl sh'))
  end.
(** a.reshape(sh) *)
Definition reshape (sh : list nat) (a : arr) : res arr :=
  if Nat.eqb (prodl sh) (prodl (shape a))
  then Ok (Arr sh (fun idx => aget a (unravel (shape a) (ravel sh idx))))
  else Raise ValueError.
(** a.reshape(-1, d) *)
Definition reshape_cols (d : nat) (a : arr) : res arr :=
  if Nat.eqb d 0 then Raise ValueError
  else reshape [Nat.div (prodl (shape a)) d; d] a.

(** ** facts *)
Lemma inb_length sh idx : inb sh idx -> length idx = length sh.
Proof. induction 1; cbn; congruence. Qed.

Lemma sq_unsq sh idx : inb (drop1 sh) idx -> sqidx sh (unsqidx sh idx) = idx.
Proof.
  revert idx. induction sh as [|d sh IH]; intros idx H; cbn in *.
  - inversion H; reflexivity.
  - destruct (Nat.eqb d 1) eqn:E; cbn in *; [apply IH; exact H|].
    inversion H as [|i ? idx' ? Hlt Hr]; subst. f_equal. apply IH; exact Hr.
Qed.

Lemma unsq_sq sh idx : inb sh idx -> unsqidx sh (sqidx sh idx) = idx.
Proof.
  induction 1 as [|i d idx sh Hlt Hr IH]; cbn; [reflexivity|].
  destruct (Nat.eqb d 1) eqn:E; [|f_equal; exact IH].
  apply Nat.eqb_eq in E. subst. f_equal; [lia|exact IH].
Qed.

Lemma sq_inb sh idx : inb sh idx -> inb (drop1 sh) (sqidx sh idx).
Proof.
  induction 1 as [|i d idx sh Hlt Hr IH]; cbn; [constructor|].
  destruct (Nat.eqb d 1); cbn; [exact IH|constructor; assumption].
Qed.

Lemma unsq_inb sh idx : inb (drop1 sh) idx -> inb sh (unsqidx sh idx).
Proof.
  revert idx. induction sh as [|d sh IH]; intros idx H; cbn in *.
  - constructor.
  - destruct (Nat.eqb d 1) eqn:E; cbn in *.
    + apply Nat.eqb_eq in E. subst. constructor; [lia|apply IH; exact H].
    + inversion H as [|i ? idx' ? Hlt Hr]; subst. constructor; [exact Hlt|apply IH; exact Hr].
Qed.

Lemma rd_squeeze a idx : inb (shape a) idx -> rd (shape a) (squeeze a) idx = aget a idx.
Proof. intros H. unfold rd, squeeze; cbn. rewrite unsq_sq by exact H. reflexivity. Qed.

Lemma ravel_lt sh idx : inb sh idx -> (ravel sh idx < prodl sh)%nat.
Proof.
  induction 1 as [|i d idx sh Hlt Hr IH]; cbn; [lia|].
  assert (S i * prodl sh <= d * prodl sh)%nat by (apply Nat.mul_le_mono_r; lia). lia.
Qed.

Lemma unravel_ravel sh idx : inb sh idx -> unravel sh (ravel sh idx) = idx.
Proof.
  induction 1 as [|i d idx sh Hlt Hr IH]; cbn; [reflexivity|].
  pose proof (ravel_lt sh idx Hr) as Hl. f_equal.
  - rewrite Nat.div_add_l by lia. rewrite Nat.div_small by exact Hl. lia.
  - rewrite Nat.add_comm, Nat.mod_add by lia. rewrite Nat.mod_small by exact Hl. exact IH.
Qed.

Lemma prodl_drop1 sh : prodl (drop1 sh) = prodl sh.
Proof.
  induction sh as [|d sh IH]; cbn; [reflexivity|]. fold (drop1 sh). destruct (Nat.eqb d 1) eqn:E; cbn; fold (drop1 sh); rewrite IH; [|reflexivity].
  apply Nat.eqb_eq in E. subst. lia.
Qed.

Lemma unsq_unravel sh k : (k < prodl sh)%nat -> unsqidx sh (unravel (drop1 sh) k) = unravel sh k.
Proof.
  revert k. induction sh as [|d sh IH]; intros k Hk; cbn in *; [reflexivity|].
  fold (drop1 sh). destruct (Nat.eqb d 1) eqn:E; cbn; fold (drop1 sh).
  - apply Nat.eqb_eq in E. subst. rewrite Nat.div_small, Nat.mod_small by lia. f_equal. apply IH. lia.
  - rewrite prodl_drop1. f_equal. apply IH. apply Nat.mod_upper_bound. destruct (prodl sh); lia.
Qed.

Lemma drop1_rev sh : drop1 (rev sh) = rev (drop1 sh).
Proof.
  induction sh as [|d sh IH]; cbn; [reflexivity|]. unfold drop1 in *. rewrite filter_app, IH. cbn.
  destruct (negb (Nat.eqb d 1)); cbn; [reflexivity|apply app_nil_r].
Qed.
Lemma prodl_app l1 l2 : prodl (l1 ++ l2) = (prodl l1 * prodl l2)%nat.
Proof. induction l1 as [|d l IH]; cbn; [lia|rewrite IH; lia]. Qed.
Lemma prodl_rev l : prodl (rev l) = prodl l.
Proof. induction l as [|d l IH]; cbn; [reflexivity|rewrite prodl_app, IH; cbn; lia]. Qed.

Lemma unravel_inb sh k : (k < prodl sh)%nat -> inb sh (unravel sh k).
Proof.
  revert k. induction sh as [|d sh IH]; intros k Hk; cbn in *; constructor.
  - apply Nat.div_lt_upper_bound; [destruct (prodl sh); lia|lia].
  - apply IH. apply Nat.mod_upper_bound. destruct (prodl sh); lia.
Qed.
