(** Properties C04 and C05. *)
From Coq Require Import Sorting.Sorted Sorting.Permutation.
From Verif Require Import Common GroupedIdx GroupedIdxFacts.

(** A group assignment: one group number per element, non-decreasing, below the number of groups. *)
Definition grouping (d : list nat) (n : nat) : Prop :=
  (forall i j x y, i <= j -> nth_error d i = Some x -> nth_error d j = Some y -> x <= y) /\
  (forall x, In x d -> x < n).
(** A list of offsets: starts at 0, non-decreasing. *)
Definition offsets (p : list nat) : Prop :=
  nth_error p 0 = Some 0 /\
  (forall i j x y, i <= j -> nth_error p i = Some x -> nth_error p j = Some y -> x <= y).

Example grouping_ex : grouping [0; 1; 1; 4] 6.
Proof.
  split.
  - intros i j x y Hij Hi Hj.
    do 4 (destruct i as [|i]; [do 4 (destruct j as [|j]; [simpl in *; lia || (injection Hi as <-; injection Hj as <-; lia)|]);
      destruct j; discriminate|]). destruct i; discriminate.
  - simpl. intros x H. intuition lia.
Qed.
Example offsets_ex : sparse_encode [0; 1; 1; 4] 6 = [0; 1; 3; 3; 3; 4; 4] /\
                     sparse_decode [0; 1; 3; 3; 3; 4; 4] = [0; 1; 1; 4].
Proof. split; reflexivity. Qed.

(** C04: encoding and decoding are inverse. *)
Theorem C04_decode_encode : forall d n, grouping d n -> sparse_decode (sparse_encode d n) = d.
Proof. intros d n [H1 H2]. apply decode_encode; auto. now apply sorted_of_nth. Qed.

Theorem C04_encode_decode : forall p, offsets p -> sparse_encode (sparse_decode p) (length p - 1) = p.
Proof. intros p [H1 H2]. apply encode_decode; auto. now apply sorted_of_nth. Qed.

(** C04: both representations of one grouping report the same sizes, the same range of elements for every group -
    exactly the elements that are assigned to the group - and the group of every element. *)
Theorem C04_same_ranges : forall d n g, grouping d n -> g < n ->
  exists lo hi, sparse_range (sparse_from_dense d n) g = Some (lo, hi) /\ dense_range (mkDense n d) g = (lo, hi) /\
    forall e, lo <= e < hi <-> nth_error d e = Some g.
Proof.
  intros d n g [H1 H2] Hg. assert (Hs := sorted_of_nth d H1).
  exists (fst (dense_range (mkDense n d) g)), (snd (dense_range (mkDense n d) g)).
  rewrite (sparse_range_dense d n g Hs Hg). rewrite <- surjective_pairing. split; [auto|split; [auto|]].
  intros e. exact (dense_range_spec (mkDense n d) g e Hs).
Qed.

Theorem C04_same_sizes : forall d n, grouping d n ->
  sparse_size (sparse_from_dense d n) = dense_size (mkDense n d) /\
  sparse_element_size (sparse_from_dense d n) = dense_element_size (mkDense n d).
Proof.
  intros d n [H1 H2]. split.
  - unfold sparse_size, dense_size, sparse_from_dense. rewrite sparse_encode_spec. simpl.
    rewrite map_length, seq_length. lia.
  - unfold sparse_element_size, dense_element_size, sparse_from_dense. apply encode_last; auto.
Qed.

Theorem C04_same_group_of_element : forall d n e g, grouping d n -> nth_error d e = Some g ->
  sparse_group (sparse_from_dense d n) e = g /\ dense_group (mkDense n d) e = Some g.
Proof. intros d n e g [H1 H2] He. split; auto. apply sparse_group_spec; auto. now apply sorted_of_nth. Qed.

(** C04: converting from offsets to a dense grouping and back keeps the offsets. *)
Theorem C04_dense_from_sparse : forall p, offsets p ->
  grouping (d_vec (dense_from_sparse p)) (d_num (dense_from_sparse p)) /\
  sparse_from_dense (d_vec (dense_from_sparse p)) (d_num (dense_from_sparse p)) = p.
Proof.
  intros p [H1 H2]. assert (Hs := sorted_of_nth p H2). unfold dense_from_sparse; simpl. split.
  - split.
    + intros i j x y. apply sorted_nth. now apply decode_sorted.
    + intros x Hx. now apply decode_bound.
  - unfold sparse_from_dense. rewrite encode_decode by auto. destruct p; [discriminate|reflexivity].
Qed.

(** C04: walking over the groups of the dense representation in any way - ++, --, jumps forward and back - always
    shows the range of the current group. *)
Inductive walk := W_inc | W_dec | W_fwd (n : nat) | W_back (n : nat).
Definition do_walk (d : dense) (i : giter) (w : walk) : giter :=
  match w with
  | W_inc => it_increment d i
  | W_dec => it_decrement d i
  | W_fwd n => it_advance d i n
  | W_back n => it_retreat d i n
  end.
(** a step is legal when it does not leave the groups on the left; jumps are over a positive distance *)
Definition legal (i : giter) (w : walk) : Prop :=
  match w with
  | W_inc => True
  | W_dec => 0 < it_group i
  | W_fwd n => 0 < n
  | W_back n => 0 < n <= it_group i
  end.
Inductive walks (d : dense) : giter -> Prop :=
| walks_begin : walks d (dense_begin d)
| walks_step i w : walks d i -> legal i w -> walks d (do_walk d i w).
Theorem C04_iterator_shows_group : forall d n i, grouping d n -> walks (mkDense n d) i ->
  forall e, it_lo i <= e < it_hi i <-> nth_error d e = Some (it_group i).
Proof.
  intros d n i [H1 H2] HW e. assert (Hs := sorted_of_nth d H1).
  assert (HV : it_valid (mkDense n d) i).
  { induction HW as [|i w HW IH HL].
    - apply it_begin_valid.
    - destruct w; simpl in *; [apply it_increment_valid|apply it_decrement_valid|apply it_advance_valid|apply it_retreat_valid]; auto. }
  unfold it_valid in HV. assert (HR := dense_range_spec (mkDense n d) (it_group i) e Hs). rewrite <- HV in HR. exact HR.
Qed.

(** ** C05 *)
(** [reorder] lists the objects sorted by group, keeping the original order inside a group. *)
Definition stable_grouping (l : list nat) (reorder : list nat) : Prop :=
  Permutation reorder (seq 0 (length l)) /\
  forall p q i j, p < q -> nth_error reorder p = Some i -> nth_error reorder q = Some j ->
    nth i l 0 < nth j l 0 \/ (nth i l 0 = nth j l 0 /\ i < j).

Lemma stable_order_stable l n : (forall x, In x l -> x < n) -> stable_grouping l (stable_order l n).
Proof.
  intros H. split; [now apply stable_perm|].
  intros p q i j Hpq Hp Hq.
  assert (HS := stable_pairs_sorted l n).
  assert (HL : forall P Q x y, P < Q -> nth_error (stable_pairs l n) P = Some x -> nth_error (stable_pairs l n) Q = Some y -> lex_le x y).
  { clear - HS. induction HS as [|a r HS IH Ha]; intros [|P] [|Q] x y HPQ Hx Hy; simpl in *; try discriminate; try lia.
    - injection Hx as <-. rewrite Forall_forall in Ha. apply Ha. eapply nth_error_In; eauto.
    - eapply IH; [|eauto|eauto]; lia. }
  specialize (HL p q (nth i l 0, i) (nth j l 0, j) Hpq). unfold stable_pairs in HL.
  rewrite !nth_error_map, Hp, Hq in HL. specialize (HL eq_refl eq_refl). unfold lex_le in HL. simpl in HL.
  destruct HL as [HL|[HL1 HL2]]; auto. right. split; auto.
  assert (i <> j); [|lia]. intros ->.
  assert (p = q); [|lia]. eapply NoDup_nth_error; [apply (stable_NoDup l n)| |congruence].
  apply nth_error_Some; congruence.
Qed.

(** The result of the sparse mapping: the reordering is the stable grouping, and the offsets delimit the groups. *)
Theorem C05_sparse_mapping : forall l n, (forall x, In x l -> x < n) ->
  let (indptr, reorder) := build_sparse_mapping l n in
  stable_grouping l reorder /\ length indptr = S n /\ nth_error indptr 0 = Some 0 /\
  forall g lo hi, nth_error indptr g = Some lo -> nth_error indptr (S g) = Some hi ->
    forall p, lo <= p < hi <-> exists i, nth_error reorder p = Some i /\ nth i l 0 = g.
Proof.
  intros l n H. rewrite sparse_mapping_spec by auto.
  split; [now apply stable_order_stable|]. split; [simpl; now rewrite map_length, seq_length|]. split; [reflexivity|].
  intros g lo hi Hlo Hhi p.
  assert (Hg : S g <= n).
  { assert (S g < length (0 :: map (fun v => offs l (S v)) (seq 0 n))) by (apply nth_error_Some; congruence).
    simpl in H0. rewrite map_length, seq_length in H0. lia. }
  assert (HR := decode_ranges (0 :: map (fun v => offs l (S v)) (seq 0 n)) p g (indptr_sorted l n) eq_refl).
  rewrite decode_indptr in HR by auto. rewrite nth_error_map in HR.
  split.
  - intros Hp. destruct HR as [_ HR]. specialize (HR (ex_intro _ lo (ex_intro _ hi (conj Hlo (conj Hhi Hp))))).
    destruct (nth_error (stable_order l n) p) as [i|]; [|discriminate]. simpl in HR. injection HR as HR. eauto.
  - intros (i & Hi & Hgi). destruct HR as [HR _]. rewrite Hi in HR. cbn [option_map] in HR. rewrite Hgi in HR.
    destruct (HR eq_refl) as (lo' & hi' & E1 & E2 & E3). rewrite Hlo in E1. rewrite Hhi in E2.
    injection E1 as ->. injection E2 as ->. auto.
Qed.

(** What std::sort guarantees on pairs. *)
Definition sort_contract (sort : list (nat * nat) -> list (nat * nat)) : Prop :=
  forall l, StronglySorted lex_le (sort l) /\ Permutation l (sort l).

(** The dense mapping is the stable grouping, and neither the algorithm nor the sort implementation is observable. *)
Theorem C05_dense_mapping : forall sort criterion l n, sort_contract sort -> (forall x, In x l -> x < n) ->
  let (values, reorder) := build_dense_mapping sort criterion l n in
  stable_grouping l reorder /\ values = map (fun i => nth i l 0) reorder.
Proof.
  intros sort criterion l n HC H. unfold build_dense_mapping.
  destruct (criterion (length l) n).
  - rewrite counting_spec by auto. split; auto. now apply stable_order_stable.
  - rewrite (comparison_spec sort (fun x => proj1 (HC x)) (fun x => proj2 (HC x)) l n) by auto.
    split; auto. now apply stable_order_stable.
Qed.

Theorem C05_algorithm_choice_not_observable : forall sort1 sort2 c1 c2 l n,
  sort_contract sort1 -> sort_contract sort2 -> (forall x, In x l -> x < n) ->
  build_dense_mapping sort1 c1 l n = build_dense_mapping sort2 c2 l n.
Proof.
  intros sort1 sort2 c1 c2 l n H1 H2 H. unfold build_dense_mapping.
  assert (E1 := comparison_spec sort1 (fun x => proj1 (H1 x)) (fun x => proj2 (H1 x)) l n H).
  assert (E2 := comparison_spec sort2 (fun x => proj1 (H2 x)) (fun x => proj2 (H2 x)) l n H).
  assert (E3 := counting_spec l n H).
  destruct (c1 (length l) n), (c2 (length l) n); congruence.
Qed.

(** The sort contract can be met: insertion sort. *)
Fixpoint ins (x : nat * nat) (l : list (nat * nat)) : list (nat * nat) :=
  match l with
  | [] => [x]
  | y :: l' => if (fst x <? fst y) || ((fst x =? fst y) && (snd x <=? snd y)) then x :: y :: l' else y :: ins x l'
  end.
Definition isort (l : list (nat * nat)) : list (nat * nat) := fold_right ins [] l.
Lemma isort_contract : sort_contract isort.
Proof.
  assert (Hin : forall x l, Permutation (x :: l) (ins x l)).
  { intros x l. induction l as [|y l IH]; simpl; auto. destruct (_ || _); auto.
    eapply Permutation_trans; [apply perm_swap|]. now constructor. }
  intros l. induction l as [|x l [IH1 IH2]]; simpl; [split; constructor|]. split.
  - clear IH2. induction IH1 as [|y r Hr IH Hy]; simpl; [repeat constructor|].
    destruct ((fst x <? fst y) || ((fst x =? fst y) && (snd x <=? snd y))) eqn:E.
    + assert (Hxy : lex_le x y) by (unfold lex_le; lia).
      repeat (constructor; auto). rewrite Forall_forall in *. intros z Hz. apply Hy in Hz.
      unfold lex_le in *. lia.
    + assert (Hyx : lex_le y x) by (unfold lex_le; lia). constructor; auto.
      rewrite Forall_forall in *. intros z Hz. eapply Permutation_in in Hz; [|apply Permutation_sym, Hin].
      destruct Hz as [<-|Hz]; auto.
  - eapply Permutation_trans; [constructor; exact IH2|]. apply Hin.
Qed.
Example mapping_ex : build_dense_mapping isort (fun _ _ => false) [3; 5; 2; 1; 1; 2] 7
                     = ([1; 1; 2; 2; 3; 5], [3; 4; 2; 5; 0; 1]) /\
                     build_sparse_mapping [3; 5; 2; 1; 1; 2] 7 = ([0; 0; 2; 4; 5; 5; 6; 6], [3; 4; 2; 5; 0; 1]).
Proof. split; reflexivity. Qed.

Print Assumptions C04_decode_encode.
Print Assumptions C04_encode_decode.
Print Assumptions C04_same_ranges.
Print Assumptions C04_same_sizes.
Print Assumptions C04_same_group_of_element.
Print Assumptions C04_dense_from_sparse.
Print Assumptions C04_iterator_shows_group.
Print Assumptions C05_sparse_mapping.
Print Assumptions C05_dense_mapping.
Print Assumptions C05_algorithm_choice_not_observable.
