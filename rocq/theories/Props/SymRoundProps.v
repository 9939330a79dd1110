(** C92: how accurate symmetrize is in floating point. *)
From Coq Require Import Reals Lra Lia List Arith Bool String ZArith.
From Flocq Require Import Core.
From Coq Require Import List.
From Verif.Base Require Import RSum Prelude.
From Verif.Spec Require Import Matrix Rounding.
From Verif.Model Require Import Sparse Graph Utils Rounded.
From Verif.Props Require Import RoundProps.
Import ListNotations.
Open Scope R_scope.
Open Scope list_scope.

Lemma b2r_mul b x : b2r b * x = if b then x else 0. Proof. destruct b; cbn; ring. Qed.

(** "maximum", "tril" and "triu" commit no error at all; "average" commits one relative rounding error u (and eta for the division by
    two, which is an underflow of the smallest numbers: see below), and so does "fill" on non-negative weights. *)
Theorem C92_symmetrize_is_accurate : forall F rnd u eta W method S, rounding F rnd u ->
  (forall x, F x -> Rabs (rnd (x / 2) - x / 2) <= eta) -> (forall i j, F (m_get W i j)) -> symmetrize W method = Ok S ->
  exists M, r_symmetrize rnd W method = Ok M /\
    (method = "maximum" \/ method = "tril" \/ method = "triu" -> forall i j, M i j = S i j)%string /\
    (method = "average"%string \/ (forall i j, 0 <= m_get W i j) -> forall i j, Rabs (M i j - S i j) <= u * Rabs (S i j) + eta).
Proof.
  intros F rnd u eta W method S0 Hr Hh HF H. unfold symmetrize in H. unfold r_symmetrize. destruct (negb _); [discriminate|].
  assert (E0 : rnd 0 = 0) by (apply (r_id _ _ _ Hr), (r_zero _ _ _ Hr)). pose proof (r_unit _ _ _ Hr) as U0.
  assert (Eta : 0 <= eta) by (eapply Rle_trans; [apply Rabs_pos|apply (Hh 0), (r_zero _ _ _ Hr)]).
  assert (Mx : forall sp V, (forall i j, F (V i j)) -> forall i j, r_maximum rnd sp V i j = sym_maximum sp V i j).
  { intros sp V HV i j. unfold r_maximum, sym_maximum. destruct sp; [|reflexivity]. cbv zeta.
    destruct (Rltb (V i j) (V j i)); cbn [b2r].
    - rewrite Rminus_eq_0, E0, Rplus_0_l, (r_id _ _ _ Hr _ (HV j i)). ring.
    - rewrite Rminus_0_r, (r_id _ _ _ Hr _ (HV i j)), Rplus_0_r, (r_id _ _ _ Hr _ (HV i j)). ring. }
  assert (Av : forall V, (forall i j, F (V i j)) -> forall i j, Rabs (r_average rnd V i j - sym_average V i j) <= u * Rabs (sym_average V i j) + eta).
  { intros V HV i j. unfold r_average, sym_average. set (a := V i j + V j i). pose proof (r_plus _ _ _ Hr _ _ (HV i j) (HV j i)) as P. fold a in P.
    pose proof (Hh _ (r_in _ _ _ Hr a)) as Q. replace (rnd (rnd a / 2) - a / 2) with ((rnd (rnd a / 2) - rnd a / 2) + (rnd a - a) * / 2) by field.
    eapply Rle_trans; [apply Rabs_triang|]. unfold Rdiv at 3. rewrite !Rabs_mult, (Rabs_pos_eq (/ 2)) by lra. lra. }
  assert (Ft : forall i j, F (tril (m_get W) i j)) by (intros i j; unfold tril; destruct (Nat.leb j i); [apply HF|apply (r_zero _ _ _ Hr)]).
  assert (Fu : forall i j, F (triu (m_get W) i j)) by (intros i j; unfold triu; destruct (Nat.leb i j); [apply HF|apply (r_zero _ _ _ Hr)]).
  assert (Z : forall a b, a = b -> Rabs (a - b) <= u * Rabs b + eta).
  { intros a b ->. rewrite Rminus_eq_0, Rabs_R0. pose proof (Rmult_le_pos _ _ U0 (Rabs_pos b)). lra. }
  destruct (String.eqb_spec method "average") as [->|N1].
  { injection H as <-. eexists. split; [reflexivity|]. split; [intros [D|[D|D]]; discriminate D|]. intros _. apply Av. exact HF. }
  destruct (String.eqb_spec method "maximum") as [->|N2].
  { injection H as <-. eexists. split; [reflexivity|]. split; [intros _; apply Mx; exact HF|]. intros _ i j. apply Z, Mx. exact HF. }
  destruct (String.eqb_spec method "fill") as [->|N3].
  { injection H as <-. eexists. split; [reflexivity|]. split; [intros [D|[D|D]]; discriminate D|]. intros [D|Hp] i j; [discriminate D|].
    unfold r_fill, sym_fill. set (V := fun i j => m_get W i j + b2r (sym_fill_mask (m_sparse W) (m_get W) i j) * m_get W j i).
    assert (EV : forall i j, V i j = if sym_fill_mask (m_sparse W) (m_get W) i j then m_get W j i else m_get W i j).
    { intros i' j'. unfold V. rewrite b2r_mul. destruct (sym_fill_mask _ _ i' j') eqn:Em; [|ring].
      assert (m_get W i' j' = 0); [|lra]. specialize (Hp i' j'). unfold sym_fill_mask in Em.
      destruct (Rltb_spec 0 (m_get W i' j')) as [L|L]; [|lra]. exfalso. destruct (m_sparse W); [rewrite andb_false_r in Em|rewrite orb_true_l in Em]; discriminate Em. }
    assert (FV : forall i j, F (V i j)) by (intros i' j'; rewrite EV; destruct (sym_fill_mask _ _ i' j'); apply HF).
    replace (r_average rnd (fun i j => rnd (m_get W i j + (if sym_fill_mask (m_sparse W) (m_get W) i j then m_get W j i else 0))) i j) with (r_average rnd V i j); [apply Av; exact FV|].
    unfold r_average. rewrite <- !b2r_mul. fold (V i j) (V j i). rewrite !(r_id _ _ _ Hr) with (x := V _ _) by apply FV. reflexivity. }
  destruct (String.eqb_spec method "tril") as [->|N4].
  { injection H as <-. eexists. split; [reflexivity|]. split; [intros _; apply Mx; exact Ft|]. intros _ i j. apply Z, Mx. exact Ft. }
  destruct (String.eqb_spec method "triu") as [->|N5]; [|discriminate].
  injection H as <-. eexists. split; [reflexivity|]. split; [intros _; apply Mx; exact Fu|]. intros _ i j. apply Z, Mx. exact Fu.
Qed.

(** Binary64: halving is exact except for the multiples of 2^-1074 that are below 2^-1021, where it is off by at most 2^-1075. *)
Lemma b64_halving x : b64_format x -> Rabs (b64_round (x / 2) - x / 2) <= bpow radix2 (-1075).
Proof.
  intros Hx. pose proof b64_valid as V. assert (HP : Prec_gt_0 53) by exact eq_refl.
  apply FLT_format_generic in Hx; [|exact HP]. destruct Hx as [f E B1 B2].
  destruct (Z_lt_le_dec (-1074) (Fexp f)) as [L|L].
  - assert (Hf : b64_format (x / 2)).
    { apply generic_format_FLT. exists (Float radix2 (Fnum f) (Fexp f + -1)); cbn [Fnum Fexp].
      - rewrite E. unfold F2R. cbn [Fnum Fexp]. rewrite (bpow_plus radix2 (Fexp f) (-1)). change (bpow radix2 (-1)) with (/ 2). field.
      - exact B1.
      - lia. }
    rewrite (r_id _ _ _ b64_rounding _ Hf), Rminus_eq_0, Rabs_R0. apply bpow_ge_0.
  - assert (Ef : Fexp f = (-1074)%Z) by lia.
    assert (Hs : Rabs (x / 2) < bpow radix2 (-1074 + 53)).
    { rewrite E. unfold F2R. rewrite Ef. unfold Rdiv. rewrite !Rabs_mult, (Rabs_pos_eq (bpow _ _)), (Rabs_pos_eq (/ 2)), <- abs_IZR by (try apply bpow_ge_0; lra).
      rewrite (Z.add_comm (-1074) 53), bpow_plus. pose proof (bpow_gt_0 radix2 (-1074)) as P.
      assert (IZR (Z.abs (Fnum f)) < bpow radix2 53) by (change (bpow radix2 53) with (IZR (2 ^ 53)); apply IZR_lt; exact B1).
      assert (0 <= IZR (Z.abs (Fnum f))) by (apply IZR_le; lia). nra. }
    eapply Rle_trans; [apply error_le_half_ulp; exact V|]. unfold b64_exp. rewrite (ulp_FLT_small radix2 (-1074) 53 (x / 2) Hs).
    right. change (/ 2) with (bpow radix2 (-1)). rewrite <- bpow_plus. reflexivity.
Qed.
Theorem C92_symmetrize_double : forall W method S, (forall i j, b64_format (m_get W i j)) -> symmetrize W method = Ok S ->
  exists M, r_symmetrize b64_round W method = Ok M /\
    (method = "maximum" \/ method = "tril" \/ method = "triu" -> forall i j, M i j = S i j)%string /\
    (method = "average"%string \/ (forall i j, 0 <= m_get W i j) -> forall i j, Rabs (M i j - S i j) <= / 2 ^ 53 * Rabs (S i j) + bpow radix2 (-1075)).
Proof. intros W method S0 HF H. exact (C92_symmetrize_is_accurate _ _ _ _ W method S0 b64_rounding b64_halving HF H). Qed.

(** A directed weight matrix of doubles. *)
Example C92_symmetrize_ex :
  let W := mkmarg false 2 2 (fun i j => if (Nat.eqb i 0 && Nat.eqb j 1)%bool then 1 else 0) in
  (forall i j, b64_format (m_get W i j)) /\ (forall i j, 0 <= m_get W i j) /\
  exists S, symmetrize W "average" = Ok S /\ S 0%nat 1%nat = / 2 /\ S 1%nat 0%nat = / 2.
Proof.
  cbv zeta. split; [|split].
  - intros i j. cbn [m_get]. destruct (Nat.eqb i 0 && Nat.eqb j 1)%bool; [apply b64_one|apply (r_zero _ _ _ b64_rounding)].
  - intros i j. cbn [m_get]. destruct (Nat.eqb i 0 && Nat.eqb j 1)%bool; lra.
  - eexists. split; [reflexivity|]. unfold sym_average. cbn. split; lra.
Qed.
