(** Property C70, continued: the operators on Filter objects, with the containers the kernels come in. *)
From Coq Require Import Reals Lra Lia List Arith Bool String ZArith.
From Verif.Base Require Import RSum Prelude LinAlg.
From Verif.Spec Require Import Matrix NdArray FilterSpec.
From Verif.Model Require Import Sparse Graph Traverse Cache Filter Operators.
From Verif.Proofs Require Import SpectralFacts FilterFacts ChebFacts.
From Verif.Props Require Import Caching Filtering Banks.
Import ListNotations.
Open Scope R_scope.

(** Filter(G, kernels) accepts a kernel, a list or a tuple, and then holds exactly those kernels on that
    graph; a generator is refused. *)
Theorem C70_construct : forall G ks,
  (forall k, ks = OneKernel k -> exists g, new_filter G ks = Ok g /\ b_graph g = G /\ b_kernels g = [k] /\ n_filters g = 1%nat) /\
  (forall l, ks = ListOf l \/ ks = TupleOf l -> exists g, new_filter G ks = Ok g /\ b_graph g = G /\ b_kernels g = l /\ n_filters g = List.length l) /\
  (forall l, ks = IteratorOf l -> new_filter G ks = Raise TypeError).
Proof.
  intros G ks. split; [|split].
  - intros k ->. eexists. split; [reflexivity|]. repeat split.
  - intros l [-> | ->]; eexists; (split; [reflexivity|]); repeat split.
  - intros l ->. reflexivity.
Qed.

(** g[key] lives on the graph of g and holds the kernels C70_getitem_* describe; a slice can be added to g. *)
Theorem C70_index_keeps_the_graph : forall g key l, getitem (b_kernels g) key = Ok l ->
  exists h, index g key = Ok h /\ b_graph h = b_graph g /\ b_kernels h = l /\
    (forall a b, key = KSlice a b -> exists s, plus g (OFilter h) = Ok s /\ b_kernels s = b_kernels g ++ l).
Proof.
  intros g key l E. unfold index. rewrite E. cbn [bindr]. destruct key as [i|a b].
  - assert (Hl : exists k, l = [k]).
    { cbn [getitem] in E. destruct (norm_index (List.length (b_kernels g)) i) as [j|]; cbn [bindr] in E; [|discriminate].
      destruct (nth_error (b_kernels g) j); [|discriminate]. injection E as <-. eexists. reflexivity. }
    destruct Hl as (k & ->). eexists. split; [reflexivity|]. split; [reflexivity|]. split; [reflexivity|]. intros a b H. discriminate.
  - destruct g as [G c ks]. destruct c; eexists; (split; [reflexivity|]); (split; [reflexivity|]); (split; [reflexivity|]);
      intros ? ? _; eexists; (split; reflexivity).
Qed.

(** g + h succeeds iff both are banks whose kernels come in the same kind of container; it then lives on the
    graph of g and evaluates to the rows of g followed by those of h. *)
Theorem C70_add : forall g o, (exists s, plus g o = Ok s) <-> exists h, o = OFilter h /\ b_kind h = b_kind g.
Proof.
  intros g o. split.
  - intros (s & E). destruct o as [h|]; [|discriminate]. exists h. split; [reflexivity|]. unfold plus in E.
    destruct (b_kind g), (b_kind h); try discriminate; reflexivity.
  - intros (h & -> & K). unfold plus. rewrite K. destruct (b_kind g); eexists; reflexivity.
Qed.

Theorem C70_add_result : forall g h s, plus g (OFilter h) = Ok s ->
  b_graph s = b_graph g /\ n_filters s = (n_filters g + n_filters h)%nat /\
  (forall x y1 y2, evaluate (b_kernels g) x = Ok y1 -> evaluate (b_kernels h) x = Ok y2 -> evaluate (b_kernels s) x = Ok (y1 ++ y2)).
Proof.
  intros g h s E. assert (H : b_graph s = b_graph g /\ b_kernels s = b_kernels g ++ b_kernels h).
  { unfold plus in E. destruct (b_kind g), (b_kind h); try discriminate; injection E as <-; split; reflexivity. }
  destruct H as (HG & HK). split; [exact HG|]. unfold n_filters. rewrite HK. split; [apply app_length|].
  intros x y1 y2 E1 E2. apply C70_evaluate_sum_is_concatenation; assumption.
Qed.

(** The bank built from a tuple of kernels cannot be added to the bank of one kernel (stored in a list),
    although both are valid banks on the same graph. *)
Theorem C70_add_mixed_containers_refuted : forall G l k, exists g h,
  new_filter G (TupleOf l) = Ok g /\ new_filter G (OneKernel k) = Ok h /\
  plus g (OFilter h) = Raise TypeError /\ plus h (OFilter g) = Raise TypeError.
Proof. intros G l k. eexists. eexists. repeat split. Qed.

Theorem C70_add_something_else_refused : forall g, plus g OOther = Raise TypeError.
Proof. reflexivity. Qed.

(** g(x) is g.evaluate(x); g(G2) is the same bank of functions on G2: evaluations agree, and a second
    re-targeting forgets the first. *)
Theorem C70_call : forall g,
  (forall x y, evaluate (b_kernels g) x = Ok y -> call g (CValues x) = Ok (RValues y)) /\
  (forall x e, evaluate (b_kernels g) x = Raise e -> call g (CValues x) = Raise e) /\
  (forall G, exists h, call g (CGraph G) = Ok (RBank h) /\ b_graph h = G /\ n_filters h = n_filters g /\
     (forall x, call h (CValues x) = call g (CValues x)) /\
     (forall G', call h (CGraph G') = call g (CGraph G'))) /\
  call g (CGraph (b_graph g)) = Ok (RBank g).
Proof.
  intros [G0 c ks]. split; [|split; [|split]].
  - intros x y E. cbn [call b_kernels] in *. rewrite E. reflexivity.
  - intros x e E. cbn [call b_kernels] in *. rewrite E. reflexivity.
  - intros G. destruct c; eexists; (split; [reflexivity|]); repeat split.
  - destruct c; reflexivity.
Qed.

(** Adding a bank designed on another graph re-targets it: (g + h) @ s is the answer of g followed by the
    answer of h(graph of g). *)
Theorem C70_add_retargets : forall g h s h' H1 H2 x o1 o2,
  plus g (OFilter h) = Ok s -> call h (CGraph (b_graph g)) = Ok (RBank h') ->
  spectral (b_graph g) -> response (b_graph g) (b_kernels g) default_method H1 -> response (b_graph g) (b_kernels h) default_method H2 ->
  matmul g (vec_arr (v_N (b_graph g)) x) = Ok o1 -> matmul h' (vec_arr (v_N (b_graph g)) x) = Ok o2 ->
  exists o, matmul s (vec_arr (v_N (b_graph g)) x) = Ok o /\
    (forall f n, (f < n_filters g)%nat -> (n < v_N (b_graph g))%nat ->
       ans (b_graph g) (n_filters s) o f n = ans (b_graph g) (n_filters g) o1 f n) /\
    (forall f n, (f < n_filters h)%nat -> (n < v_N (b_graph g))%nat ->
       ans (b_graph g) (n_filters s) o (n_filters g + f) n = ans (b_graph g) (n_filters h) o2 f n).
Proof.
  intros g h s h' H1 H2 x o1 o2 E Eh HF R1 R2 E1 E2.
  assert (H : b_graph s = b_graph g /\ b_kernels s = b_kernels g ++ b_kernels h).
  { unfold plus in E. destruct (b_kind g), (b_kind h); try discriminate; injection E as <-; split; reflexivity. }
  assert (H' : b_graph h' = b_graph g /\ b_kernels h' = b_kernels h).
  { unfold call in Eh. destruct (b_kind h); cbn in Eh; injection Eh as <-; split; reflexivity. }
  destruct H as (HG & HK), H' as (HG' & HK'). unfold matmul, filter_of, n_filters in *. rewrite HG, HK in *. rewrite HG', HK' in E2.
  rewrite app_length. apply (C70_filter_sum_is_concatenation _ _ _ _ H1 H2 x o1 o2); assumption.
Qed.

(** g.toarray() is the matrix of s |-> g @ s, one block of rows per filter (one filter per vertex excepted, see C26). *)
Theorem C70_toarray_is_the_matrix_of_matmul : forall g H, spectral (b_graph g) -> response (b_graph g) (b_kernels g) default_method H ->
  (0 < v_N (b_graph g))%nat -> (v_N (b_graph g) <> n_filters g \/ v_N (b_graph g) = 1)%nat ->
  exists A, toarray g = Ok A /\ shape A = [(n_filters g * v_N (b_graph g))%nat; v_N (b_graph g)] /\
    forall x out f n, matmul g (vec_arr (v_N (b_graph g)) x) = Ok out -> (f < n_filters g)%nat -> (n < v_N (b_graph g))%nat ->
      \sum_(j < v_N (b_graph g)) (aget A [(f * v_N (b_graph g) + n)%nat; j] * x j) = ans (b_graph g) (n_filters g) out f n.
Proof. intros g H HF HR HN Hs. apply (C26_compute_frame_is_the_analysis_operator _ _ _ H HF HR HN Hs). Qed.

(** Three kernels in a list, sliced, added and re-targeted. *)
Example C70_operators_example : forall G G' k0 k1 k2, exists g h s r,
  new_filter G (ListOf [k0; k1; k2]) = Ok g /\ index g (KSlice (Some (-2)%Z) None) = Ok h /\ plus g (OFilter h) = Ok s /\
  call s (CGraph G') = Ok (RBank r) /\ b_graph r = G' /\ b_kernels r = [k0; k1; k2; k1; k2] /\ n_filters r = 5%nat.
Proof. intros. do 4 eexists. repeat split. Qed.
