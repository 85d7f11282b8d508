(** C18: the elimination order is a permutation of the buses with a complete fill-in list. *)
From Verif Require Import Common NatMap SparseOrdering SparseOrderingSpec SparseOrderingFacts SparseOrderingLoop.

Lemma given_G d v w : msorted d -> given d v w <-> G d v w.
Proof.
  intros HS. unfold given, G. split; intros (l & H1 & H2); exists l; split; auto; [now apply In_mfind|now apply mfind_In].
Qed.

Lemma push_all_spec k l : forall d,
  let d' := fold_left (fun acc e => push e k acc) l d in
  (msorted d -> msorted d') /\ (forall v w, G d' v w <-> G d v w \/ (In v l /\ w = k)) /\ (forall x, V d' x <-> V d x \/ In x l).
Proof.
  induction l as [|e l IH]; intros d; cbn zeta.
  { simpl. refine (conj (fun H => H) (conj _ _)); intros; tauto. }
  cbn [fold_left]. destruct (IH (push e k d)) as (A1 & A2 & A3). refine (conj _ (conj _ _)).
  - intros H. apply A1. now apply msorted_mset.
  - intros v w. rewrite A2, push_G. simpl. intuition congruence.
  - intros x. rewrite A3, push_V. simpl. intuition congruence.
Qed.

Lemma make_symmetric_spec d : msorted d ->
  msorted (make_symmetric d) /\ (forall v w, G (make_symmetric d) v w <-> G d v w \/ G d w v) /\
  (forall x, V (make_symmetric d) x <-> V d x \/ exists k, G d k x).
Proof.
  intros HS. unfold make_symmetric.
  assert (X : forall (m : graph) acc, let d' := fold_left (fun acc ka => fold_left (fun acc e => push e (fst ka) acc) (snd ka) acc) m acc in
    (msorted acc -> msorted d') /\ (forall v w, G d' v w <-> G acc v w \/ given m w v) /\ (forall x, V d' x <-> V acc x \/ exists k, given m k x)).
  { induction m as [|[k l] m IH]; intros acc; cbn zeta.
    { simpl. refine (conj (fun H => H) (conj _ _)).
      - intros v w. split; auto. intros [H|(? & [] & _)]; auto.
      - intros x. split; auto. intros [H|(? & ? & [] & _)]; auto. }
    cbn [fold_left fst snd]. destruct (push_all_spec k l acc) as (P1 & P2 & P3).
    destruct (IH (fold_left (fun acc e => push e k acc) l acc)) as (A1 & A2 & A3).
    assert (Hgiv : forall v w, given ((k, l) :: m) v w <-> (v = k /\ In w l) \/ given m v w).
    { intros v w. unfold given. simpl. split.
      - intros (l0 & [[= <- <-]|H] & H2); eauto.
      - intros [[-> H]|(l0 & H & H2)]; eauto. }
    refine (conj _ (conj _ _)).
    - auto.
    - intros v w. rewrite A2, P2, Hgiv. tauto.
    - intros x. rewrite A3, P3. split.
      + intros [[H|H]|(k' & H)]; auto; right; [exists k|exists k']; apply Hgiv; auto.
      + intros [H|(k' & H)]; auto. apply Hgiv in H as [[-> H]|H]; eauto. }
  destruct (X d d) as (A1 & A2 & A3). refine (conj (A1 HS) (conj _ _)).
  - intros v w. rewrite A2. now rewrite given_G by auto.
  - intros x. rewrite A3. setoid_rewrite given_G; auto. tauto.
Qed.

Lemma unique_find d x : mfind x (unique_sorted d) = option_map sset (mfind x d).
Proof. unfold unique_sorted. induction d as [|[k l] d IH]; simpl; auto. destruct (x =? k); auto. Qed.

Lemma prepared d : msorted d -> (forall v, ~ given d v v) ->
  let s := unique_sorted (make_symmetric d) in
  wf s /\ (forall v w, G s v w <-> pattern d v w) /\ (forall x, V s x <-> In x (map fst d) \/ exists w, pattern d x w).
Proof.
  intros HS HI. cbn zeta. destruct (make_symmetric_spec d HS) as (A1 & A2 & A3).
  assert (HG : forall v w, G (unique_sorted (make_symmetric d)) v w <-> pattern d v w).
  { intros v w. unfold pattern. rewrite !given_G, <- A2 by auto. unfold G. setoid_rewrite unique_find.
    destruct (mfind v (make_symmetric d)) as [l|]; simpl; split; intros (l' & H1 & H2); try discriminate; injection H1 as <-.
    - exists l. split; auto. now apply sset_In.
    - eexists. split; [reflexivity|]. now apply sset_In. }
  refine (conj _ (conj HG _)).
  - constructor.
    + unfold msorted, unique_sorted, keys. rewrite map_map. exact A1.
    + intros v w. rewrite !HG. unfold pattern. tauto.
    + intros v. rewrite HG. unfold pattern. intros [H|H]; now apply (HI v).
    + intros v l. rewrite unique_find. destruct (mfind v (make_symmetric d)); [|discriminate]. intros [= <-]. apply sorted_NoDup, sset_sorted.
  - intros x. assert (Ek : keys (unique_sorted (make_symmetric d)) = keys (make_symmetric d)).
    { unfold keys, unique_sorted. rewrite map_map. reflexivity. }
    assert (Ev : V (unique_sorted (make_symmetric d)) x <-> V (make_symmetric d) x) by (unfold V; rewrite Ek; tauto).
    rewrite Ev, A3. unfold V, keys, pattern. setoid_rewrite given_G; auto. split; [intros [H|(k & H)]; eauto|].
    intros [H|(w & [H|H])]; eauto. left. exact (G_V _ _ _ H).
Qed.

(** For every graph without self-loops that has an edge (or at most one vertex) the ordering terminates without
    undefined behaviour; the order lists every vertex once and the fill-ins are exactly the new entries of the
    elimination pattern. *)
Theorem C18_ordering (d : list (nat * list nat)) :
  StronglySorted lt (map fst d) -> (forall v, ~ given d v v) ->
  (exists v w, given d v w) \/ length d <= 1 ->
  exists order fills, minimum_degree_ordering d = Some (order, fills) /\
    NoDup order /\ (forall v, In v order <-> In v (map fst d) \/ exists w, pattern d v w) /\
    complete_fill_in (pattern d) order fills.
Proof.
  intros HS HI HE. unfold minimum_degree_ordering. destruct (prepared d HS HI) as (HW & HG & HV).
  set (s := unique_sorted (make_symmetric d)) in *. set (V0 := V s).
  assert (I0 : inv (pattern d) V0 s [] []).
  { constructor; auto.
    - constructor.
    - intros x. simpl. unfold V0. tauto.
    - intros v w _ _. unfold F. simpl. rewrite HG. tauto.
    - intros [|? ?] u l2 v w E; discriminate.
    - intros v w [H|[[]|[]]]. now apply fil_edge.
    - split; [constructor|intros v w []].
    - intros v w []. }
  assert (es : forall v w, pattern d v w -> pattern d w v) by (unfold pattern; tauto).
  assert (ei : forall v, ~ pattern d v v) by (intros v; rewrite <- HG; apply wf_irr; auto).
  assert (eV : forall v w, pattern d v w -> V0 v) by (intros v w H; apply HG in H; now apply G_V in H).
  destruct (loop_spec (pattern d) V0 es ei eV (length s) s (degrees_of s) [] []) as (order & fills & -> & [_ HN HD HA _ HC HSound HO HNew]).
  - exact I0.
  - now apply degrees_of_ok.
  - lia.
  - intros ->. auto.
  - destruct HE as [(v & w & H)|H].
    + left. exists v, w. apply HG. left; auto.
    + destruct d as [|[k l] [|? ?]]; simpl in H; [right; simpl; lia| |lia]. destruct l as [|e l].
      * right. simpl. lia.
      * left. exists k, e. apply HG. left. exists (e :: l). simpl; auto.
  - exists order, fills. split; [reflexivity|]. split; [exact HN|].
    assert (HA' : forall x, V0 x <-> In x order) by (intros x; rewrite HA; unfold V; simpl; tauto).
    split; [intros v; rewrite <- HA'; apply HV|].
    assert (Hb : forall x y, bef V0 order x y -> before order x y).
    { intros x y (l1 & l2 & E & H1 & H2). exists l1, l2. split; auto. apply HA' in H2. rewrite E in H2. apply in_app_iff in H2.
      rewrite in_app_iff in H1. simpl in *. intuition. }
    constructor.
    + intros v w. split.
      * induction 1 as [v w H|u v w (l1 & l2 & E1 & E2) (m1 & m2 & M1 & M2) Hn _ IH1 _ IH2]; [auto|].
        assert (m1 = l1 /\ m2 = l2) as [-> ->].
        { clear - HN E1 M1. rewrite E1 in M1. rewrite E1 in HN. clear E1 order. revert m1 M1. induction l1 as [|y l1 IH]; intros [|z m1] E; simpl in *; injection E.
          - auto.
          - intros -> <-. inversion HN; subst. exfalso. apply H1. apply in_or_app. right. left; auto.
          - intros <- ->. inversion HN; subst. exfalso. apply H1. apply in_or_app. right. left; auto.
          - intros E' ->. inversion HN; subst. destruct (IH H2 _ E') as [-> ->]. auto. }
        assert (Hlate : forall y, In y l2 -> ~ In y (l1 ++ [u])).
        { intros y Hy Hy'. rewrite E1 in HN. replace (l1 ++ u :: l2) with ((l1 ++ [u]) ++ l2) in HN by (rewrite <- app_assoc; auto).
          clear - HN Hy Hy'. induction (l1 ++ [u]) as [|z l IH]; simpl in *; [auto|]. inversion HN; subst.
          destruct Hy' as [->|Hy']; [apply H1; apply in_or_app; auto|auto]. }
        apply (HC l1 u l2 v w E1 Hn (Hlate _ E2) (Hlate _ M2) IH1 IH2).
      * intros H. apply HSound in H. induction H; [now apply filled_edge|]. apply filled_fill with u; auto.
    + intros v w H. now apply HNew in H.
    + destruct HO as [HO1 HO2]. auto.
Qed.

(** The hypotheses are met by a ring of five buses with a chord, given in one direction only; it needs fill-ins. *)
Example C18_demo :
  let d := [(0, [1; 4]); (1, [2]); (2, [3; 4]); (3, [4]); (5, [0; 2])] in
  minimum_degree_ordering d = Some ([1; 3; 4; 0; 5; 2], [(0, 2)]) /\
  StronglySorted lt (map fst d) /\ (forall v, ~ given d v v) /\ exists v w, given d v w.
Proof.
  cbn zeta. refine (conj _ (conj _ (conj _ _))).
  - vm_compute. reflexivity.
  - repeat constructor; simpl; lia.
  - intros v (l & H1 & H2). simpl in H1. repeat (destruct H1 as [[= <- <-]|H1]; [simpl in H2; intuition congruence|]). destruct H1.
  - exists 0, 1, [1; 4]. simpl. auto.
Qed.

(** Without any edge, two remaining vertices make the code read the first element of an empty vector
    (sparse_ordering.hpp 208; the assert of 206 is not active in a release build). *)
Theorem C18_two_isolated_refuted :
  minimum_degree_ordering [(0, []); (1, [])] = None /\ minimum_degree_ordering [(3, []); (5, []); (8, [])] = None.
Proof. split; reflexivity. Qed.

Print Assumptions C18_ordering.
