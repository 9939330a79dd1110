(** Invariants of the cache machine. *)
From Coq Require Import Reals Lra Lia List Arith Bool String.
From Verif.Base Require Import RSum Prelude.
From Verif.Spec Require Import Matrix GraphSpec CacheSpec.
From Verif.Model Require Import Sparse Graph Difference Bounds Traverse Cache.
From Verif.Proofs Require Import SparseFacts InitFacts EdgeFacts TraverseFacts.
Import ListNotations.
Open Scope R_scope.

Lemma lap_eqb_true a b : lap_eqb a b = true <-> a = b.
Proof.
  destruct a, b; cbn; split; try congruence; try discriminate.
  - intros H. apply String.eqb_eq in H. congruence.
  - intros H. injection H as ->. apply String.eqb_refl.
Qed.

Section Inv.
  Variable Eig : nat -> mat -> nat -> list R -> mat -> Prop.
  Variable Lan : nat -> mat -> R -> Prop.
  Hypothesis Eig_len : forall n L k e U, Eig n L k e U -> List.length e = k /\ (k <= n)%nat.

  Record inv (W : csr R) (n : nat) (s : cache) : Prop := {
    inv_W : c_W s = W;
    inv_N : c_N s = n;
    inv_L : laplacian W (c_lap s) = Ok (c_L s);
    inv_basis : forall e U, c_basis s = Some (e, U) ->
      exists k e0, Eig n (c_L s) k e0 U /\ stored_eigs e0 e /\ List.length e = k;
    inv_coh : forall c, c_coh s = Some c ->
      exists e U, c_basis s = Some (e, U) /\ List.length e = n /\ c = maxabs n n U;
    inv_D : forall D, c_D s = Some D -> diff_op W (c_lap s) = Ok D;
    inv_lmax : forall v, c_lmax s = Some v -> lmax_for Eig Lan W (c_lap s) n (c_L s) v;
    inv_dir : forall b, c_dir s = Some b -> b = is_directed W;
    inv_conn : forall b, c_conn s = Some b ->
      forall p p', pop_ok p -> pop_ok p' -> is_connected p p' W = Some (Ok b) }.

  Lemma stored_len e0 e : stored_eigs e0 e -> List.length e = List.length e0.
  Proof. intros [->|(x & l & -> & ->)]; reflexivity. Qed.

  Lemma inv_estimate W n s m o : inv W n s -> lan_legal Lan s o -> inv W n (fst (estimate_lmax m o s)).
  Proof.
    intros I Hl. destruct I as [IW IN IL IB IC ID IM IDir IConn]. unfold estimate_lmax.
    destruct (match c_method s with Some m' => String.eqb m m' | None => false end); [constructor; assumption|].
    assert (I1 : inv W n (set_method s (Some m))) by (constructor; assumption).
    destruct (String.eqb m "lanczos").
    - destruct o as [r| |x]; try exact I1. destruct (upper_bound (c_W s) (c_lap s)) as [b|x]; [|exact I1].
      destruct (fle r _); [|exact I1]. cbn [fst].
      constructor; cbn; try assumption. intros v E. injection E as <-. right; right. exists r.
      cbn in Hl. rewrite IN in Hl. split; [exact Hl|reflexivity].
    - destruct (String.eqb m "bounds"); [|exact I1].
      destruct (upper_bound (c_W s) (c_lap s)) as [b|x] eqn:Eb; [|exact I1]. cbn [fst].
      constructor; cbn; try assumption. intros v E. injection E as <-. right; left. rewrite <- IW. exact Eb.
  Qed.

  Lemma inv_basis_step W n s k o : inv W n s ->
    eig_legal Eig s (match k with None => c_N s | Some k => k end) o ->
    inv W n (fst (compute_fourier_basis k o s)).
  Proof.
    intros I Hl. unfold compute_fourier_basis. set (kk := match k with None => c_N s | Some k => k end) in *.
    destruct (match c_basis s with Some (e, _) => Nat.leb kk (List.length e) | None => false end) eqn:Eearly; [exact I|].
    destruct o as [e U|x]; [|exact I]. cbn in Hl.
    pose proof I as I0. destruct I as [IW IN IL IB IC ID IM IDir IConn]. rewrite IN in Hl.
    destruct (Eig_len _ _ _ _ _ Hl) as (Hlen & Hle).
    assert (Hnc : c_coh s = None).
    { destruct (c_coh s) as [c|] eqn:Ec; [|reflexivity]. exfalso.
      destruct (IC c eq_refl) as (e2 & U2 & Eb & El & _). rewrite Eb in Eearly.
      apply Nat.leb_gt in Eearly. lia. }
    assert (Hset : forall e', stored_eigs e e' -> inv W n (set_basis s (Some (e', U)))).
    { intros e' Hse. constructor; cbn; try assumption.
      - intros e2 U2 E. injection E as <- <-. exists kk, e. split; [exact Hl|]. split; [exact Hse|].
        rewrite (stored_len _ _ Hse). exact Hlen.
      - intros c Ec. congruence. }
    destruct e as [|e0 es]; [apply Hset; left; reflexivity|].
    destruct (Rltb (- / 10 ^ 5) e0 && Rltb e0 (/ 10 ^ 5))%bool; [|apply Hset; left; reflexivity].
    assert (Hse : stored_eigs (e0 :: es) (0 :: es)) by (right; exists e0, es; auto).
    assert (I2 := Hset _ Hse).
    destruct (upper_bound (c_W s) (c_lap s)) as [b|x]; [|exact I2].
    destruct (fle _ _); [|exact I2]. destruct (forallb _ _); [|exact I2].
    destruct (Nat.eqb_spec kk (c_N s)) as [Ek|Ek]; [|exact I2]. cbn [fst].
    constructor; cbn -[last maxabs]; try assumption.
    - intros e2 U2 E. injection E as <- <-. exists kk, (e0 :: es). auto.
    - intros c Ec. injection Ec as <-. exists (0 :: es), U. rewrite IN in *. cbn in *. repeat split; congruence.
    - intros v E. injection E as <-. left. exists (e0 :: es), (0 :: es), U. split; [|split; [exact Hse|reflexivity]].
      rewrite Ek, IN in Hl. exact Hl.
  Qed.

  Lemma inv_step W n s c : inv W n s -> n = nrow W ->
    (forall i j, (i < n)%nat -> (j < n)%nat -> is_directed W = false -> get W i j = get W j i) ->
    legal Eig Lan s c -> (forall t, c = OpLaplacian t -> t = Combinatorial \/ t = Normalized) ->
    inv W n (fst (step s c)).
  Proof.
    intros I Hn Hsym Hl Ht. destruct c as [t|m o|o|k o|o|o| | | |p p']; cbn [step legal] in *.
    - pose proof I as [IW IN IL IB IC ID IM IDir IConn]. unfold compute_laplacian, lift. cbn [fst].
      destruct (lap_eqb t (c_lap s)) eqn:Et.
      + apply lap_eqb_true in Et. subst t. rewrite IW, IL. cbn [fst]. constructor; cbn; assumption.
      + rewrite IW. destruct (laplacian W t) as [L|x] eqn:EL.
        * cbn [fst]. constructor; cbn; try assumption; discriminate.
        * destruct (Ht t eq_refl) as [->| ->]; discriminate.
    - apply inv_estimate; assumption.
    - cbn. unfold read_lmax. destruct (c_lmax s); [exact I|].
      pose proof (inv_estimate W n s "lanczos" o I Hl) as H. destruct (estimate_lmax "lanczos" o s) as [s' [u|x]]; exact H.
    - apply inv_basis_step; assumption.
    - cbn. unfold read_basis. destruct (c_basis s); [exact I|].
      pose proof (inv_basis_step W n s None o I Hl) as H. destruct (compute_fourier_basis None o s) as [s' [u|x]]; exact H.
    - cbn. unfold read_coherence. destruct (c_coh s); [exact I|].
      pose proof (inv_basis_step W n s None o I Hl) as H. destruct (compute_fourier_basis None o s) as [s' [u|x]]; exact H.
    - cbn. pose proof I as [IW IN IL IB IC ID IM IDir IConn]. unfold compute_D.
      destruct (diff_op (c_W s) (c_lap s)) as [D|x] eqn:ED; [|exact I]. cbn.
      constructor; cbn; try assumption. intros D' E. injection E as <-. rewrite <- IW. exact ED.
    - cbn. pose proof I as [IW IN IL IB IC ID IM IDir IConn]. unfold read_D. destruct (c_D s); [exact I|]. unfold compute_D.
      destruct (diff_op (c_W s) (c_lap s)) as [D|x] eqn:ED; [|exact I]. cbn.
      constructor; cbn; try assumption. intros D' E. injection E as <-. rewrite <- IW. exact ED.
    - cbn. pose proof I as [IW IN IL IB IC ID IM IDir IConn]. unfold read_directed. destruct (c_dir s) eqn:E; [exact I|].
      cbn. constructor; cbn; try assumption. intros b Eb. injection Eb as <-. rewrite IW. reflexivity.
    - pose proof I as [IW IN IL IB IC ID IM IDir IConn]. unfold read_connected. destruct (c_conn s) eqn:E; [exact I|].
      destruct Hl as (Hp & Hp').
      destruct (is_connected p p' (c_W s)) as [[b|x]|] eqn:Ec; cbn; try exact I.
      constructor; cbn; try assumption. intros b' Eb. injection Eb as <-. intros q q' Hq Hq'. rewrite IW in Ec.
      destruct (Nat.eq_dec (nrow W) 0) as [E0|E0].
      + unfold is_connected in Ec. rewrite E0 in Ec. cbn in Ec. discriminate.
      + destruct (is_connected_spec p p' W Hp Hp') as (b1 & E1 & H1); [lia|intros; apply Hsym; auto; lia|].
        destruct (is_connected_spec q q' W Hq Hq') as (b2 & E2 & H2); [lia|intros; apply Hsym; auto; lia|].
        rewrite E2. do 2 f_equal. assert (E3 : b = b1) by congruence. rewrite E3.
        destruct b1, b2; try reflexivity; [apply H2, H1; reflexivity|symmetry; apply H1, H2; reflexivity].
  Qed.

  Lemma inv_history W n cs : n = nrow W ->
    (forall i j, (i < n)%nat -> (j < n)%nat -> is_directed W = false -> get W i j = get W j i) ->
    forall s s', inv W n s -> known_types cs -> history Eig Lan s cs s' -> inv W n s'.
  Proof.
    intros Hn Hsym s s' I Hk Hh. induction Hh as [s|s c s1 cs s2 Hl Hs Hh IH]; [exact I|].
    apply IH.
    - subst s1. apply inv_step; auto. intros t ->. apply Hk. left; reflexivity.
    - intros t Hin. apply Hk. right; exact Hin.
  Qed.

  Lemma inv_init G : built G -> inv (gW G) (g_n_vertices G) (cache_init G).
  Proof.
    intros Hb. destruct (built_good G Hb) as (Hg & Hn & _ & HL). constructor; cbn; try discriminate; auto.
    intros b E. congruence.
  Qed.

  Lemma inv_reach G cs s : built G -> known_types cs -> history Eig Lan (cache_init G) cs s ->
    inv (gW G) (g_n_vertices G) s.
  Proof.
    intros Hb Hk Hh. destruct (built_good G Hb) as (Hg & Hn & _ & _).
    eapply inv_history; [exact Hn| |apply inv_init, Hb|exact Hk|exact Hh].
    rewrite Hn. intros i j Hi Hj Hd. apply is_directed_false; assumption.
  Qed.
End Inv.
