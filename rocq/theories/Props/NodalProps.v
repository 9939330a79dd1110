(** C105: the two sides of the second Fourier mode of a connected graph are connected (Fiedler). *)
From Coq Require Import Reals Lra Lia List Arith Bool String ZArith Classical.
From Verif.Base Require Import RSum Prelude LinAlg Spectral.
From Verif.Spec Require Import Matrix NdArray GraphSpec FilterSpec CacheSpec Reach HopSpec LapSpec.
From Verif.Model Require Import Sparse Graph Traverse Bounds Cache Filter Kernels Generators.
From Verif.Proofs Require Import SparseFacts InitFacts EdgeFacts LapFacts SpectralFacts SpectrumFacts FilterFacts GenFacts.
From Verif.Props Require Import Core Laplacian Traversal Caching Filtering UtilsProps ReductionProps SpectrumProps TransformProps SpectraProps LocalityProps SmoothProps CutProps PartProps.
Import ListNotations.
Open Scope R_scope.
Open Scope list_scope.

Section Fiedler.
  Variables (n : nat) (L : mat) (p : vec) (e : vec) (U : mat) (x : vec) (r : R).
  Let lam := e 1%nat.
  Let z : vec := fun i => x i + r * p i.
  Hypothesis HU : eigh_ok n L e U.
  Hypothesis Hn : (1 < n)%nat.
  Hypothesis Hs : symmetric n L.
  Hypothesis Hoff : forall i j, (i < n)%nat -> (j < n)%nat -> i <> j -> L i j <= 0.
  Hypothesis Hp : forall i, (i < n)%nat -> 0 < p i.
  Hypothesis Hpk : forall i, (i < n)%nat -> mulv n L p i = 0.
  Hypothesis Hlam : 0 < lam.
  Hypothesis Hx : forall i, (i < n)%nat -> mulv n L x i = lam * x i.
  Hypothesis Hr : 0 <= r.
  (** no proper set of vertices is closed *)
  Hypothesis Hconn : forall (C : nat -> Prop) a b, (a < n)%nat -> (b < n)%nat -> C a ->
    (forall i j, (i < n)%nat -> (j < n)%nat -> C i -> i <> j -> L i j <> 0 -> C j) -> C b.

  Lemma kernel_coef k : (1 <= k < n)%nat -> coef n U p k = 0.
  Proof using HU Hn Hpk Hlam.
    intros Hk. pose proof (coef_mulv n L e U HU p k ltac:(lia)) as E.
    assert (Z : coef n U (mulv n L p) k = 0) by (unfold coef; apply rsum_0; intros i Hi; rewrite (Hpk i Hi); ring).
    rewrite Z in E. pose proof (eigh_sort n L e U HU 1%nat k ltac:(lia) ltac:(lia)) as S. fold lam in S.
    symmetry in E. apply Rmult_integral in E. destruct E as [E|E]; [lra|exact E].
  Qed.
  Lemma orth_coef y : dot n p y = 0 -> coef n U y 0%nat = 0.
  Proof using HU Hn Hpk Hlam Hp.
    intros H. rewrite <- (coef_dot n L e U HU) in H. unfold dot in H.
    rewrite (rsum_single n _ 0%nat) in H; [|lia|intros k Hk Hne; rewrite kernel_coef by lia; ring].
    apply Rmult_integral in H. destruct H as [H|H]; [exfalso|exact H].
    pose proof (eigh_expand n L e U HU p 0%nat ltac:(lia)) as E. rewrite (rsum_single n _ 0%nat) in E; [|lia|intros k Hk Hne; rewrite kernel_coef by lia; ring].
    rewrite H in E. pose proof (Hp 0%nat ltac:(lia)). lra.
  Qed.
  Lemma second_quad y : dot n p y = 0 -> lam * normsq n y <= quad n L y.
  Proof using HU Hn Hpk Hlam Hp.
    intros H. apply (above n L e U 1%nat y HU Hn). intros l Hl. assert (l = 0%nat) as -> by lia. apply orth_coef, H.
  Qed.
  Lemma second_eigen y : dot n p y = 0 -> quad n L y <= lam * normsq n y -> forall i, (i < n)%nat -> mulv n L y i = lam * y i.
  Proof using HU Hn Hpk Hlam Hp.
    intros H HQ. pose proof (orth_coef y H) as C0.
    assert (T : forall k, (k < n)%nat -> (e k - lam) * (coef n U y k * coef n U y k) = 0).
    { apply rsum_zero_all.
      - intros k Hk. destruct (Nat.eq_dec k 0) as [->|Hne]; [rewrite C0; lra|].
        pose proof (eigh_sort n L e U HU 1%nat k ltac:(lia) ltac:(lia)) as S. fold lam in S. apply Rmult_le_pos; [lra|apply Rle_0_sqr].
      - apply Rle_antisym.
        + rewrite (eigh_quad n L e U HU y), <- (coef_normsq n L e U HU y) in HQ. unfold normsq, dot in HQ. rewrite <- rsum_scal_l in HQ.
          rewrite (rsum_ext n _ (fun k => e k * (coef n U y k * coef n U y k) - lam * (coef n U y k * coef n U y k))) by (intros; ring). rewrite rsum_minus.
          apply Rle_minus in HQ. eapply Rle_trans; [|exact HQ]. apply Req_le. reflexivity.
        + apply rsum_nonneg. intros k Hk. destruct (Nat.eq_dec k 0) as [->|Hne]; [rewrite C0; lra|].
          pose proof (eigh_sort n L e U HU 1%nat k ltac:(lia) ltac:(lia)) as S. fold lam in S. apply Rmult_le_pos; [lra|apply Rle_0_sqr]. }
    intros i Hi. rewrite (eigh_mulv n L e U HU y i Hi). rewrite <- (eigh_expand n L e U HU y i Hi). rewrite <- rsum_scal_l. apply rsum_ext.
    intros k Hk. specialize (T k Hk). apply Rmult_integral in T. destruct T as [T|T]; [replace (e k) with lam by lra; ring|].
    assert (coef n U y k = 0) as -> by nra. ring.
  Qed.

  (** a set of non-negative vertices with no edge to the other non-negative ones *)
  Section Side.
    Variables (C : nat -> Prop) (c : vec).
    Hypothesis Hc : forall i, (i < n)%nat -> (C i /\ c i = 1) \/ (~ C i /\ c i = 0).
    Hypothesis Hpos : forall i, (i < n)%nat -> C i -> 0 <= z i.
    Hypothesis Hsep : forall i j, (i < n)%nat -> (j < n)%nat -> C i -> ~ C j -> 0 <= z j -> L i j = 0.
    Let zc : vec := fun i => c i * z i.
    Let rest (i : nat) : R := lam * r * p i + \sum_(j < n) (L i j * ((1 - c j) * z j)).

    Lemma rest_terms i j : (i < n)%nat -> (j < n)%nat -> C i -> 0 <= L i j * ((1 - c j) * z j).
    Proof using Hc Hoff Hsep.
      intros Hi Hj Ci. destruct (Hc j Hj) as [(_ & ->)|(Nj & ->)]; [lra|]. destruct (Rle_dec 0 (z j)) as [P|P].
      - rewrite (Hsep i j Hi Hj Ci Nj P). lra.
      - assert (i <> j) by (intros ->; contradiction). pose proof (Hoff i j Hi Hj ltac:(assumption)). nra.
    Qed.
    Lemma rest_nonneg i : (i < n)%nat -> C i -> 0 <= rest i.
    Proof using Hc Hoff Hsep Hlam Hr Hp.
      intros Hi Ci. unfold rest. apply Rplus_le_le_0_compat.
      - pose proof (Hp i Hi). apply Rmult_le_pos; [apply Rmult_le_pos; lra|lra].
      - apply rsum_nonneg. intros j Hj. apply rest_terms; assumption.
    Qed.
    Lemma rest_zero i j : (i < n)%nat -> (j < n)%nat -> C i -> rest i = 0 -> ~ C j -> L i j = 0.
    Proof using Hc Hoff Hsep Hlam Hr Hp.
      intros Hi Hj Ci R0 Nj. destruct (Rle_dec 0 (z j)) as [P|P]; [apply Hsep; assumption|].
      assert (S0 : \sum_(j < n) (L i j * ((1 - c j) * z j)) = 0).
      { assert (0 <= lam * r * p i) by (pose proof (Hp i Hi); apply Rmult_le_pos; [apply Rmult_le_pos; lra|lra]).
        assert (0 <= \sum_(j < n) (L i j * ((1 - c j) * z j))) by (apply rsum_nonneg; intros; apply rest_terms; assumption). unfold rest in R0. lra. }
      pose proof (rsum_zero_all n (fun j => L i j * ((1 - c j) * z j)) (fun j Hj0 => rest_terms i j Hi Hj0 Ci) S0 j Hj) as T. cbn beta in T.
      destruct (Hc j Hj) as [(Q & _)|(_ & E)]; [contradiction|]. rewrite E in T. apply Rmult_integral in T. destruct T as [T|T]; [exact T|]. exfalso. lra.
    Qed.
    Lemma side_apply i : (i < n)%nat -> mulv n L zc i = lam * x i - \sum_(j < n) (L i j * ((1 - c j) * z j)).
    Proof using Hx Hpk.
      intros Hi. assert (E : mulv n L z i = lam * x i).
      { unfold mulv, z. rewrite (rsum_ext n _ (fun j => L i j * x j + r * (L i j * p j))) by (intros; ring). rewrite rsum_plus, rsum_scal_l.
        change (\sum_(j < n) (L i j * p j)) with (mulv n L p i). rewrite (Hpk i Hi), <- (Hx i Hi). unfold mulv. ring. }
      rewrite <- E. unfold mulv, zc. rewrite <- rsum_minus. apply rsum_ext. intros j Hj. ring.
    Qed.
    Lemma side_on i : (i < n)%nat -> C i -> mulv n L zc i = lam * z i - rest i.
    Proof using Hx Hpk. intros Hi Ci. rewrite (side_apply i Hi). unfold rest, z. ring. Qed.
    Lemma side_quad : quad n L zc = lam * normsq n zc - \sum_(i < n) (c i * (z i * rest i)).
    Proof using Hx Hpk Hc.
      unfold quad, normsq, dot. rewrite <- rsum_scal_l, <- rsum_minus. apply rsum_ext. intros i Hi.
      destruct (Hc i Hi) as [(Ci & E)|(_ & E)]; [rewrite (side_on i Hi Ci)|]; unfold zc; rewrite E; ring.
    Qed.
    Lemma side_slack : 0 <= \sum_(i < n) (c i * (z i * rest i)).
    Proof using Hc Hpos Hoff Hsep Hlam Hr Hp.
      apply rsum_nonneg. intros i Hi. destruct (Hc i Hi) as [(Ci & ->)|(_ & ->)]; [|lra].
      pose proof (Hpos i Hi Ci). pose proof (rest_nonneg i Hi Ci). apply Rmult_le_pos; [lra|apply Rmult_le_pos; assumption].
    Qed.
    (** a side where the mode vanishes is closed *)
    Lemma side_null : (forall i, (i < n)%nat -> C i -> z i = 0) -> forall i j, (i < n)%nat -> (j < n)%nat -> C i -> i <> j -> L i j <> 0 -> C j.
    Proof using Hc Hoff Hsep Hlam Hr Hp Hx Hpk.
      intros H0 i j Hi Hj Ci _ HL. apply NNPP. intros Nj. apply HL, (rest_zero i j Hi Hj Ci); [|exact Nj].
      assert (E : mulv n L zc i = 0).
      { unfold mulv. apply rsum_0. intros k Hk. unfold zc. destruct (Hc k Hk) as [(Ck & _)|(_ & ->)]; [rewrite (H0 k Hk Ck)|]; ring. }
      rewrite (side_on i Hi Ci), (H0 i Hi Ci) in E. lra.
    Qed.
    Lemma side_weight : (exists i, (i < n)%nat /\ C i /\ z i <> 0) -> 0 < dot n p zc.
    Proof using Hc Hpos Hp.
      intros (i & Hi & Ci & Ni). unfold dot. apply (rsum_pos n (fun i => p i * zc i) i).
      - intros j Hj. unfold zc. pose proof (Hp j Hj). destruct (Hc j Hj) as [(Cj & ->)|(_ & ->)]; [pose proof (Hpos j Hj Cj); nra|lra].
      - exact Hi.
      - cbv beta. unfold zc. pose proof (Hp i Hi). pose proof (Hpos i Hi Ci). destruct (Hc i Hi) as [(_ & ->)|(N & _)]; [|contradiction]. assert (0 < z i) by lra. nra.
    Qed.
  End Side.

  Definition joined_side (i j : nat) : Prop := (i < n)%nat /\ (j < n)%nat /\ i <> j /\ L i j <> 0 /\ 0 <= z i /\ 0 <= z j.

  Lemma quad_two (y1 y2 : vec) a b : dot n y1 (mulv n L y2) = 0 -> quad n L (fun i => a * y1 i - b * y2 i) = a * a * quad n L y1 + b * b * quad n L y2.
  Proof using Hs.
    intros H0. assert (H0' : dot n y2 (mulv n L y1) = 0).
    { rewrite <- H0. rewrite (dot_comm n y1). apply (dot_mulv_sym n L). exact Hs. }
    unfold quad. rewrite (dot_ext n _ (fun i => a * y1 i - b * y2 i) _ (fun i => a * mulv n L y1 i - b * mulv n L y2 i)).
    - unfold dot in *. rewrite (rsum_ext n _ (fun i => a * a * (y1 i * mulv n L y1 i) + b * b * (y2 i * mulv n L y2 i) + (- (a * b)) * (y1 i * mulv n L y2 i) + (- (a * b)) * (y2 i * mulv n L y1 i))) by (intros; ring).
      rewrite !rsum_plus, !rsum_scal_l, H0, H0'. ring.
    - intros i Hi. reflexivity.
    - intros i Hi. unfold mulv. rewrite <- !rsum_scal_l, <- rsum_minus. apply rsum_ext. intros j Hj. ring.
  Qed.

  Lemma positive_side a b : (a < n)%nat -> (b < n)%nat -> 0 <= z a -> 0 <= z b -> reach joined_side a b.
  Proof using All.
    intros Ha Hb Za Zb. apply NNPP. intros HN.
    set (A := fun i => reach joined_side a i). set (B := fun i => 0 <= z i /\ ~ A i).
    destruct (indicator A n) as (ca & Hca). destruct (indicator B n) as (cb & Hcb).
    assert (ZA : forall i, (i < n)%nat -> A i -> 0 <= z i).
    { intros i Hi R. unfold A in R. inversion R as [u E|u v w R' J E1 E2]; subst; [exact Za|]. apply J. }
    assert (SA : forall i j, (i < n)%nat -> (j < n)%nat -> A i -> ~ A j -> 0 <= z j -> L i j = 0).
    { intros i j Hi Hj Ai Nj Zj. apply NNPP. intros NL. apply Nj. unfold A. eapply reach_step; [exact Ai|]. repeat split; try assumption.
      - intros ->. contradiction.
      - apply ZA; assumption. }
    assert (ZB : forall i, (i < n)%nat -> B i -> 0 <= z i) by (intros i _ H; apply H).
    assert (SB : forall i j, (i < n)%nat -> (j < n)%nat -> B i -> ~ B j -> 0 <= z j -> L i j = 0).
    { intros i j Hi Hj (Zi & Ni) Nj Zj. rewrite (Hs i j Hi Hj). unfold tr. apply SA; try assumption. apply NNPP. intros N. apply Nj. split; assumption. }
    assert (Aa : A a) by apply reach_refl. assert (Bb : B b) by (split; assumption).
    assert (NA : exists i, (i < n)%nat /\ A i /\ z i <> 0).
    { apply NNPP. intros N. apply HN, (Hconn A a b Ha Hb Aa). apply (side_null A ca Hca SA).
      intros i Hi Ci. apply NNPP. intros Nz. apply N. exists i. auto. }
    assert (NB : exists i, (i < n)%nat /\ B i /\ z i <> 0).
    { apply NNPP. intros N. assert (Ba : B a); [|apply (proj2 Ba), Aa]. apply (Hconn B b a Hb Ha Bb). apply (side_null B cb Hcb SB).
      intros i Hi Ci. apply NNPP. intros Nz. apply N. exists i. auto. }
    set (za := fun i => ca i * z i). set (zb := fun i => cb i * z i).
    pose proof (side_weight A ca Hca ZA NA) as WA. pose proof (side_weight B cb Hcb ZB NB) as WB. change (0 < dot n p za) in WA. change (0 < dot n p zb) in WB.
    pose proof (side_quad A ca Hca) as QA. pose proof (side_quad B cb Hcb) as QB. change (fun i => ca i * z i) with za in QA. change (fun i => cb i * z i) with zb in QB.
    pose proof (side_slack A ca Hca ZA SA) as KA. pose proof (side_slack B cb Hcb ZB SB) as KB.
    set (ra := fun i => lam * r * p i + \sum_(j < n) (L i j * ((1 - ca j) * z j))) in *.
    set (rb := fun i => lam * r * p i + \sum_(j < n) (L i j * ((1 - cb j) * z j))) in *.
    set (sa := \sum_(i < n) (ca i * (z i * ra i))) in *. set (sb := \sum_(i < n) (cb i * (z i * rb i))) in *.
    set (al := dot n p zb) in *. set (be := dot n p za) in *. set (y := fun i => al * za i - be * zb i).
    assert (Disj : forall i j, (i < n)%nat -> (j < n)%nat -> A i -> B j -> L i j = 0).
    { intros i j Hi Hj Ai Bj. apply SA; try assumption; apply Bj. }
    assert (ApplyB : forall i, (i < n)%nat -> A i -> mulv n L zb i = 0).
    { intros i Hi Ai. unfold mulv. apply rsum_0. intros j Hj. unfold zb. destruct (Hcb j Hj) as [(Bj & _)|(_ & ->)]; [rewrite (Disj i j Hi Hj Ai Bj)|]; ring. }
    assert (Cross : dot n za (mulv n L zb) = 0).
    { unfold dot. apply rsum_0. intros i Hi. unfold za. destruct (Hca i Hi) as [(Ai & _)|(_ & ->)]; [rewrite (ApplyB i Hi Ai)|]; ring. }
    assert (Ez : forall i, (i < n)%nat -> za i * zb i = 0).
    { intros i Hi. unfold za, zb. destruct (Hca i Hi) as [(Ai & _)|(_ & ->)]; [|ring]. destruct (Hcb i Hi) as [((_ & Q) & _)|(_ & ->)]; [contradiction|ring]. }
    assert (Oy : dot n p y = 0).
    { unfold y, dot. rewrite (rsum_ext n _ (fun i => al * (p i * za i) - be * (p i * zb i))) by (intros; ring). rewrite rsum_minus, !rsum_scal_l.
      change (al * be - be * al = 0). ring. }
    assert (Ny : normsq n y = al * al * normsq n za + be * be * normsq n zb).
    { unfold normsq, dot. rewrite <- !rsum_scal_l, <- rsum_plus. apply rsum_ext. intros i Hi. unfold y. specialize (Ez i Hi).
      replace ((al * za i - be * zb i) * (al * za i - be * zb i)) with (al * al * (za i * za i) + be * be * (zb i * zb i) - 2 * al * be * (za i * zb i)) by ring. rewrite Ez. ring. }
    assert (Qy : quad n L y = lam * normsq n y - (al * al * sa + be * be * sb)).
    { unfold y at 1. rewrite (quad_two za zb al be Cross), QA, QB, Ny. ring. }
    pose proof (second_quad y Oy) as Low.
    assert (P1 : 0 <= al * al * sa) by (apply Rmult_le_pos; [apply Rle_0_sqr|exact KA]). assert (P2 : 0 <= be * be * sb) by (apply Rmult_le_pos; [apply Rle_0_sqr|exact KB]).
    assert (Sa : sa = 0).
    { assert (E : al * al * sa = 0) by lra. apply Rmult_integral in E. destruct E as [E|E]; [exfalso; apply Rmult_integral in E; lra|exact E]. }
    pose proof (second_eigen y Oy ltac:(lra)) as Ey.
    (* the vertices of A where the mode is positive form a closed set *)
    assert (Ra : forall i, (i < n)%nat -> A i -> 0 < z i -> ra i = 0).
    { intros i Hi Ai Zi. pose proof (rsum_zero_all n (fun i => ca i * (z i * ra i))) as T. cbn beta in T.
      assert (T1 : ca i * (z i * ra i) = 0).
      { apply T; [|exact Sa|exact Hi]. intros j Hj. destruct (Hca j Hj) as [(Aj & ->)|(_ & ->)]; [|lra].
        pose proof (ZA j Hj Aj). pose proof (rest_nonneg A ca Hca SA j Hj Aj) as Q. change (0 <= ra j) in Q. apply Rmult_le_pos; [lra|apply Rmult_le_pos; assumption]. }
      destruct (Hca i Hi) as [(_ & E)|(N & _)]; [|contradiction]. rewrite E, Rmult_1_l in T1. apply Rmult_integral in T1. destruct T1; [lra|assumption]. }
    destruct NA as (i0 & Hi0 & A0 & Z0). assert (Z0' : 0 < z i0) by (pose proof (ZA i0 Hi0 A0); lra).
    assert (Fin : A b /\ 0 < z b); [|apply HN, (proj1 Fin)].
    apply (Hconn (fun i => A i /\ 0 < z i) i0 b Hi0 Hb (conj A0 Z0')). intros i j Hi Hj (Ai & Zi) Hne HL.
    assert (Aj : A j).
    { apply NNPP. intros Nj. apply HL, (rest_zero A ca Hca SA i j Hi Hj Ai (Ra i Hi Ai Zi) Nj). }
    split; [exact Aj|]. pose proof (ZA j Hj Aj) as Zj. destruct (Req_dec (z j) 0) as [E0|N0]; [exfalso|lra].
    assert (Yj : y j = 0) by (unfold y, za, zb; rewrite E0; ring).
    assert (Lj : mulv n L za j = 0).
    { pose proof (Ey j Hj) as E. rewrite Yj, Rmult_0_r in E. assert (E2 : mulv n L y j = al * mulv n L za j - be * mulv n L zb j).
      { unfold mulv, y. rewrite <- !rsum_scal_l, <- rsum_minus. apply rsum_ext. intros k Hk. ring. }
      rewrite E2, (ApplyB j Hj Aj) in E. assert (E3 : al * mulv n L za j = 0) by lra. apply Rmult_integral in E3. destruct E3; [lra|assumption]. }
    assert (T : L j i * za i = 0).
    { assert (T : - (L j i * za i) = 0); [|lra].
      apply (rsum_zero_all n (fun k => - (L j k * za k))); [| |exact Hi].
      - intros k Hk. unfold za. destruct (Nat.eq_dec j k) as [<-|Hjk]; [rewrite E0; lra|]. pose proof (Hoff j k Hj Hk Hjk).
        destruct (Hca k Hk) as [(Ak & ->)|(_ & ->)]; [pose proof (ZA k Hk Ak); nra|lra].
      - rewrite rsum_opp. change (- mulv n L za j = 0). lra. }
    unfold za in T. destruct (Hca i Hi) as [(_ & E)|(N & _)]; [|contradiction]. rewrite E, Rmult_1_l in T.
    apply Rmult_integral in T. destruct T as [T|T]; [|lra]. apply HL. rewrite (Hs i j Hi Hj). exact T.
  Qed.
End Fiedler.

(** The kernel of the Laplacian of a connected graph: the constant signal, or the square roots of the degrees. *)
Definition flat (G : graph) (i : nat) : R := match g_lap_type G with Normalized => sqrt (dw (gW G) i) | _ => 1 end.

(** Everything [positive_side] needs, from the code's graph. *)
Lemma mode_facts G m e U s : built G -> nonneg_weights G -> connected G ->
  let n := g_n_vertices G in (1 < m)%nat -> exact_eig n (gL G) m e U -> (s = 1 \/ s = -1) ->
  exists e' U', eigh_ok n (gL G) e' U' /\ (1 < n)%nat /\ symmetric n (gL G) /\
    (forall i j, (i < n)%nat -> (j < n)%nat -> i <> j -> gL G i j <= 0) /\
    (forall i, (i < n)%nat -> 0 < flat G i) /\ (forall i, (i < n)%nat -> mulv n (gL G) (flat G) i = 0) /\ 0 < e' 1%nat /\
    (forall i, (i < n)%nat -> mulv n (gL G) (fun i => s * U i 1%nat) i = e' 1%nat * (s * U i 1%nat)) /\
    (forall (C : nat -> Prop) a b, (a < n)%nat -> (b < n)%nat -> C a ->
      (forall i j, (i < n)%nat -> (j < n)%nat -> C i -> i <> j -> gL G i j <> 0 -> C j) -> C b).
Proof.
  intros Hb Hp HC n Hm HE Hs. destruct (C103_connected_graphs_have_a_gap G m e U Hb Hp HC Hm HE) as (Hd & Hgap). fold n in Hd.
  destruct HE as (Hl & Hmn & e' & U' & HU & He & HUU). assert (Hn : (1 < n)%nat) by lia. rewrite He in Hgap by lia.
  exists e', U'. split; [exact HU|]. split; [exact Hn|].
  assert (Hv : valid_lap (g_lap_type G)) by (apply (laplacian_ok (gW G)); destruct (built_good G Hb) as (_ & _ & _ & HL); eauto).
  assert (Sq : forall i, (i < n)%nat -> 0 < sqrt (dw (gW G) i)) by (intros i Hi; apply sqrt_lt_R0, Hd, Hi).
  assert (Entry : symmetric n (gL G) /\ forall i j, (i < n)%nat -> (j < n)%nat -> i <> j -> exists t, 0 < t /\ gL G i j = - ((wt G i j + wt G j i) / 2) * t).
  { destruct Hv as [E|E].
    - destruct (C09_combinatorial_structure G Hb E) as (H1 & _ & H3 & _). split; [exact H1|]. intros i j Hi Hj Hne. exists 1. split; [lra|]. rewrite H3 by assumption. lra.
    - destruct (C11_normalized_entries G Hb E Hp) as (H1 & _ & H3 & _). split; [exact H1|]. intros i j Hi Hj Hne.
      exists (/ (sqrt (dw (gW G) i) * sqrt (dw (gW G) j))). split; [apply Rinv_0_lt_compat, Rmult_lt_0_compat; apply Sq; assumption|].
      rewrite H3; [reflexivity|assumption|assumption|assumption|pose proof (Hd i Hi); lra|pose proof (Hd j Hj); lra]. }
  destruct Entry as (Sy & Entry). split; [exact Sy|].
  split; [intros i j Hi Hj Hne; destruct (Entry i j Hi Hj Hne) as (t & Ht & ->); pose proof (Hp i j Hi Hj); pose proof (Hp j i Hj Hi); nra|].
  split; [intros i Hi; unfold flat; destruct (g_lap_type G); try lra; apply Sq, Hi|].
  split.
  { intros i Hi. unfold flat. destruct Hv as [E|E]; rewrite E.
    - destruct (C09_combinatorial_structure G Hb E) as (_ & H2 & _). unfold mulv. rewrite <- (H2 i Hi). apply rsum_ext. intros j Hj. ring.
    - apply (C11_sqrt_degree_in_kernel G i Hb E Hp Hi). }
  split; [exact Hgap|]. split.
  { intros i Hi. unfold mulv. rewrite (rsum_ext n _ (fun j => s * (gL G i j * U' j 1%nat))).
    - rewrite rsum_scal_l. change (\sum_(j < n) (gL G i j * U' j 1%nat)) with (mulv n (gL G) (fun j => U' j 1%nat) i).
      rewrite (eigh_eig n (gL G) e' U' HU i 1%nat Hi Hn), (HUU i 1%nat Hi Hm). ring.
    - intros j Hj. rewrite (HUU j 1%nat Hj Hm). ring. }
  intros C a b Ha Hb0 Ca Hcl. pose proof (HC a b Ha Hb0) as R. clear - R Ca Hcl Entry Hp.
  induction R as [u|u v w R IH (A1 & A2 & A3)]; [exact Ca|]. specialize (IH Ca). destruct (Nat.eq_dec v w) as [<-|Hne]; [exact IH|].
  apply (Hcl v w A1 A2 IH Hne). destruct (Entry v w A1 A2 Hne) as (t & Ht & ->). pose proof (Hp v w A1 A2). pose proof (Hp w v A2 A1).
  assert (0 < (wt G v w + wt G w v) / 2 * t) by (apply Rmult_lt_0_compat; lra). lra.
Qed.

(** On a connected graph the vertices where the second column of U is non-negative - more generally above any threshold - r p with r >= 0, p the
    constant signal (the square roots of the degrees for the normalized Laplacian) - are joined by paths that stay among them; so are those where it
    is non-positive (s = -1). *)
Theorem C105_sides_of_the_second_mode_are_connected :
  forall G m e U s r a b, built G -> nonneg_weights G -> connected G ->
    (1 < m)%nat -> exact_eig (g_n_vertices G) (gL G) m e U -> (s = 1 \/ s = -1) -> 0 <= r ->
    let side i := 0 <= s * U i 1%nat + r * flat G i in
    (a < g_n_vertices G)%nat -> (b < g_n_vertices G)%nat -> side a -> side b ->
    reach (fun i j => linked G i j /\ side i /\ side j) a b.
Proof.
  intros G m e U s r a b Hb Hp HC Hm HE Hs Hr side Ha Hb0 Sa Sb.
  destruct (mode_facts G m e U s Hb Hp HC Hm HE Hs) as (e' & U' & HU & Hn & Sy & Off & Pos & Ker & Gap & Eig & Irr).
  pose proof (positive_side _ (gL G) (flat G) e' U' (fun i => s * U i 1%nat) r HU Hn Sy Off Pos Ker Gap Eig Hr Irr a b Ha Hb0 Sa Sb) as R.
  clear - R Hb. induction R as [u|u v w R IH (J1 & J2 & J3 & J4 & J5 & J6)]; [apply reach_refl|]. eapply reach_step; [exact IH|].
  split; [|split; assumption]. apply NNPP. intros N. apply J4, (lap_linked G v w Hb J1 J2 J3 N).
Qed.

(** In terms of the library: on an undirected connected graph, subgraph(U[:, 1] >= - r p) and subgraph(U[:, 1] <= r p) are not empty and
    is_connected answers True on them. *)
Theorem C105_clusters_of_the_second_mode :
  forall G m e U s r pop pop', built G -> nonneg_weights G -> undirected G -> connected G ->
    (forall c, g_coords G = Some c -> List.length c = g_n_vertices G) -> pop_ok pop -> pop_ok pop' ->
    (1 < m)%nat -> exact_eig (g_n_vertices G) (gL G) m e U -> (s = 1 \/ s = -1) -> 0 <= r ->
    let mask := map (fun i => Rleb 0 (s * U i 1%nat + r * flat G i)) (seq 0 (g_n_vertices G)) in
    exists G', subgraph G (VMask mask) = Ok G' /\ (0 < g_n_vertices G')%nat /\ is_connected pop pop' (gW G') = Some (Ok true).
Proof.
  intros G m e U s r pop pop' Hb Hp Hu HC Hco Hpop Hpop' Hm HE Hs Hr mask. set (n := g_n_vertices G) in *.
  assert (Hlen : List.length mask = n) by (unfold mask; rewrite map_length, seq_length; reflexivity).
  assert (Hmask : forall i, (i < n)%nat -> nth i mask false = Rleb 0 (s * U i 1%nat + r * flat G i)).
  { intros i Hi. unfold mask. rewrite (nth_indep _ false (Rleb 0 (s * U 0%nat 1%nat + r * flat G 0%nat))) by (rewrite map_length, seq_length; exact Hi).
    rewrite (map_nth (fun i => Rleb 0 (s * U i 1%nat + r * flat G i))), seq_nth by exact Hi. reflexivity. }
  assert (Hd : exists v, denotes n (VMask mask) v).
  { unfold denotes. exists (filter (fun i => nth i mask false) (seq 0 n)). split; [exact Hlen|]. split; [apply filter_sorted, seq_sorted|].
    intros i. rewrite filter_In, in_seq. intuition lia. }
  destruct Hd as (v & Hd). pose proof Hd as (_ & Hsort & Hv).
  destruct (C07_subgraph_restricts G _ v Hb Hd Hco) as (G' & Es & Hb' & Hn' & Hw & _). exists G'. split; [exact Es|].
  assert (Hin : forall i, In i v <-> (i < n)%nat /\ 0 <= s * U i 1%nat + r * flat G i).
  { intros i. rewrite Hv. split; intros (H1 & H2); (split; [exact H1|]).
    - rewrite (Hmask i H1) in H2. apply Rleb_true. exact H2.
    - rewrite (Hmask i H1). apply Rleb_true. exact H2. }
  assert (Hne : v <> []).
  { destruct (mode_facts G m e U s Hb Hp HC Hm HE Hs) as (e' & U' & HU & Hn & Sy & Off & Pos & Ker & Gap & Eig & Irr). fold n in HU, Hn, Sy, Pos, Ker, Eig.
    intros E0. assert (Neg : forall i, (i < n)%nat -> s * U i 1%nat < 0).
    { intros i Hi. apply Rnot_le_lt. intros Q. assert (In i v) as I; [|rewrite E0 in I; destruct I]. apply Hin. split; [exact Hi|]. pose proof (Pos i Hi). nra. }
    assert (Z : e' 1%nat * dot n (flat G) (fun i => s * U i 1%nat) = 0).
    { rewrite <- (dot_scal_r n). rewrite <- (dot_ext n (flat G) (flat G) (mulv n (gL G) (fun i => s * U i 1%nat))) by (intros i Hi; first [reflexivity|apply Eig, Hi]).
      rewrite (dot_mulv_sym n (gL G)) by exact Sy. unfold dot. apply rsum_0. intros i Hi. rewrite (Ker i Hi). ring. }
    apply Rmult_integral in Z. destruct Z as [Z|Z]; [lra|].
    assert (0 < - dot n (flat G) (fun i => s * U i 1%nat)); [|lra]. unfold dot. rewrite <- rsum_opp.
    apply (rsum_pos n _ 0%nat); [intros i Hi; cbv beta; pose proof (Pos i Hi); pose proof (Neg i Hi); nra|lia|cbv beta; pose proof (Pos 0%nat ltac:(lia)); pose proof (Neg 0%nat ltac:(lia)); nra]. }
  assert (H0 : (0 < g_n_vertices G')%nat) by (rewrite Hn'; destruct v; [contradiction|cbn; lia]). split; [exact H0|].
  destruct (C05_is_connected_decides_connectivity G' pop pop' Hb' Hpop Hpop' H0) as (bb & Eb & Hbb). rewrite Eb. do 2 f_equal. apply Hbb.
  intros a b Ha Hb0. rewrite Hn' in Ha, Hb0.
  assert (Ia : In (nth a v 0%nat) v) by (apply nth_In, Ha). assert (Ib : In (nth b v 0%nat) v) by (apply nth_In, Hb0).
  apply Hin in Ia. apply Hin in Ib.
  pose proof (C105_sides_of_the_second_mode_are_connected G m e U s r _ _ Hb Hp HC Hm HE Hs Hr (proj1 Ia) (proj1 Ib) (proj2 Ia) (proj2 Ib)) as R.
  assert (Hnd : NoDup v) by (clear - Hsort; induction Hsort as [|x v S IH F]; constructor; [intros Hx; rewrite Forall_forall in F; specialize (F x Hx); lia|exact IH]).
  assert (K : forall x y, reach (fun i j => linked G i j /\ 0 <= s * U i 1%nat + r * flat G i /\ 0 <= s * U j 1%nat + r * flat G j) x y ->
    forall a, (a < List.length v)%nat -> x = nth a v 0%nat -> exists c, (c < List.length v)%nat /\ y = nth c v 0%nat /\ reach (has_arc G') a c).
  { clear - Hin Hw Hn' Hu Hb. intros x y R. induction R as [u|u w y R IH (L & S1 & S2)]; intros a Ha Ea; [exists a; split; [exact Ha|split; [exact Ea|apply reach_refl]]|].
    destruct (IH a Ha Ea) as (c & Hc & Ec & Rc). destruct L as (L1 & L2 & L3).
    assert (Iy : In y v) by (apply Hin; split; assumption). destruct (In_nth v y 0%nat Iy) as (d & Hd & Ed).
    exists d. split; [exact Hd|]. split; [symmetry; exact Ed|]. eapply reach_step; [exact Rc|]. split; [rewrite Hn'; exact Hc|]. split; [rewrite Hn'; exact Hd|].
    rewrite Hw by assumption. rewrite <- Ec, Ed. pose proof (Hu w y L1 L2) as E. destruct L3 as [Q|Q]; [exact Q|rewrite E; exact Q]. }
  destruct (K _ _ R a Ha eq_refl) as (c & Hc & Ec & Rc). assert (b = c) as ->; [|exact Rc].
  apply (proj1 (NoDup_nth v 0%nat) Hnd); assumption.
Qed.

(** The Fourier basis of the path 0 - 1 - 2: (1, 1, 1), (1, 0, -1), (1, -2, 1), normalised. *)
Definition p3c (k : nat) : R := nth k [3; 2; 6] 1.
Definition p3U : mat := fun i k => / sqrt (p3c k) * nth (i * 3 + k) [1; 1; 1; 1; 0; -2; 1; -1; 1] 0.
Lemma p3_eigh L : meq 3 3 L (fun i j => nth (i * 3 + j) [1; -1; 0; -1; 2; -1; 0; -1; 1] 0) -> exact_eig 3 L 3 [0; 1; 3] p3U.
Proof.
  intros HL. split; [reflexivity|]. split; [lia|]. exists (fun k => nth k [0; 1; 3] 0), p3U. split; [|split; auto].
  assert (S : forall k, (k < 3)%nat -> / sqrt (p3c k) * / sqrt (p3c k) = / p3c k).
  { intros k Hk. rewrite <- Rinv_mult. rewrite sqrt_sqrt; [reflexivity|]. destruct k as [|[|[|k]]]; try lia; cbn; lra. }
  constructor.
  - intros k l Hk Hl. destruct (Nat.eqb_spec k l) as [<-|Hne].
    + rewrite (rsum_ext 3 _ (fun i => / p3c k * (nth (i * 3 + k) [1; 1; 1; 1; 0; -2; 1; -1; 1] 0 * nth (i * 3 + k) [1; 1; 1; 1; 0; -2; 1; -1; 1] 0))).
      * destruct k as [|[|[|k]]]; try lia; cbn; lra.
      * intros i Hi. unfold p3U. rewrite <- (S k Hk). ring.
    + rewrite (rsum_ext 3 _ (fun i => / sqrt (p3c k) * / sqrt (p3c l) * (nth (i * 3 + k) [1; 1; 1; 1; 0; -2; 1; -1; 1] 0 * nth (i * 3 + l) [1; 1; 1; 1; 0; -2; 1; -1; 1] 0))).
      * rewrite rsum_scal_l. replace (\sum_(i < 3) _) with 0; [ring|]. destruct k as [|[|[|k]]]; try lia; destruct l as [|[|[|l]]]; try lia; cbn; lra.
      * intros i Hi. unfold p3U. ring.
  - intros i j Hi Hj. unfold tr.
    rewrite (rsum_ext 3 _ (fun k => / p3c k * (nth (i * 3 + k) [1; 1; 1; 1; 0; -2; 1; -1; 1] 0 * nth (j * 3 + k) [1; 1; 1; 1; 0; -2; 1; -1; 1] 0))).
    + destruct i as [|[|[|i]]]; try lia; destruct j as [|[|[|j]]]; try lia; cbn; lra.
    + intros k Hk. unfold p3U. rewrite <- (S k Hk). ring.
  - intros i k Hi Hk. unfold mulv. rewrite (rsum_ext 3 _ (fun j => / sqrt (p3c k) * (nth (i * 3 + j) [1; -1; 0; -1; 2; -1; 0; -1; 1] 0 * nth (j * 3 + k) [1; 1; 1; 1; 0; -2; 1; -1; 1] 0))).
    + rewrite rsum_scal_l. unfold p3U. transitivity (/ sqrt (p3c k) * (nth k [0; 1; 3] 0 * nth (i * 3 + k) [1; 1; 1; 1; 0; -2; 1; -1; 1] 0)); [|ring]. f_equal.
      destruct i as [|[|[|i]]]; try lia; destruct k as [|[|[|k]]]; try lia; cbn; lra.
    + intros j Hj. rewrite (HL i j Hi Hj). unfold p3U. ring.
  - intros k l Hkl Hl. destruct k as [|[|[|k]]]; try lia; destruct l as [|[|[|l]]]; try lia; cbn; lra.
Qed.

(** The path meets the hypotheses; and the statement is false of the third mode: its non-negative side is made of the two ends. *)
Example C105_third_mode_refuted : exists G, built G /\ nonneg_weights G /\ undirected G /\ connected G /\
  (forall c, g_coords G = Some c -> List.length c = g_n_vertices G) /\ exact_eig (g_n_vertices G) (gL G) 3 [0; 1; 3] p3U /\
  let side i := 0 <= p3U i 2%nat in side 0%nat /\ side 2%nat /\ ~ reach (fun i j => linked G i j /\ side i /\ side j) 0 2.
Proof.
  destruct (p3_weights None) as (G & (Hb & Hn & Ht & Hc & Hp & Hu & HC & HL) & HW). exists G. repeat (split; [assumption|]).
  split; [rewrite Hc; discriminate|]. rewrite Hn. split; [apply p3_eigh; exact HL|]. intros side.
  assert (P : 0 < / sqrt (p3c 2)) by (apply Rinv_0_lt_compat, sqrt_lt_R0; cbn; lra).
  assert (S0 : side 0%nat) by (unfold side, p3U; cbn; cbn in P; lra). assert (S2 : side 2%nat) by (unfold side, p3U; cbn; cbn in P; lra).
  assert (N1 : ~ side 1%nat) by (unfold side, p3U; cbn; cbn in P; lra).
  split; [exact S0|]. split; [exact S2|].
  assert (N : forall x y, linked G x y /\ side x /\ side y -> x = 0%nat -> y = 0%nat).
  { intros x y ((L1 & L2 & L3) & _ & Sy) ->. rewrite Hn in *. destruct y as [|[|[|y]]]; [reflexivity|contradiction| |lia]. exfalso.
    rewrite !HW in L3 by lia. cbn in L3. destruct L3; lra. }
  assert (K : forall a b, reach (fun i j => linked G i j /\ side i /\ side j) a b -> a = 0%nat -> b = 0%nat).
  { clear - N. intros a b R. induction R as [u|u x y R IH L]; [auto|]. intros Eu. apply (N x y L), IH, Eu. }
  intros R. specialize (K 0%nat 2%nat R eq_refl). discriminate.
Qed.
