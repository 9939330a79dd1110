(** Cardinality of a finite set given by a predicate. Models no code. *)
From Coq Require Import List Arith Lia.
Import ListNotations.

(** The set {x | P x} is finite and has exactly k elements. *)
Definition card {A : Type} (P : A -> Prop) (k : nat) : Prop :=
  exists l, NoDup l /\ (forall x, In x l <-> P x) /\ length l = k.

Lemma card_unique {A} (P : A -> Prop) k k' : card P k -> card P k' -> k = k'.
Proof.
  intros (l & Hl & Hin & <-) (l' & Hl' & Hin' & <-).
  apply Nat.le_antisymm; apply NoDup_incl_length; auto; intros x Hx.
  - apply Hin', Hin, Hx.
  - apply Hin, Hin', Hx.
Qed.

Lemma card_iff {A} (P Q : A -> Prop) k : (forall x, P x <-> Q x) -> card P k -> card Q k.
Proof.
  intros H (l & Hl & Hin & E). exists l. repeat split; auto.
  - intros Hx. apply H, Hin, Hx.
  - intros Hq. apply Hin, H, Hq.
Qed.
