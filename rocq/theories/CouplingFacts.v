(** Facts about the coupling of components. *)
From Coq Require Import Sorting.Permutation.
From Verif Require Import Common NatMap SparseOrdering GroupedIdx GroupedIdxFacts GroupedIdxProps Topology TopologySpec TopologyDfs TopologyFacts Coupling CouplingSpec.

(** ** objects *)
Section Objects.
Variable sort : list (nat * nat) -> list (nat * nat).
Variable criterion : nat -> nat -> bool.
Hypothesis sort_ok : sort_contract sort.

Lemma make_grouped_spec sp obj n : (forall x, In x obj -> x < n) ->
  exists gr reorder, make_grouped sort criterion sp obj n = (gr, reorder) /\ Permutation reorder (seq 0 (length obj)) /\
    element_size gr = length obj /\ forall q, group_at gr q = option_map (fun i => nth i obj 0) (nth_error reorder q).
Proof.
  intros H. unfold make_grouped. destruct sp.
  - rewrite sparse_mapping_spec by auto. eexists _, _. refine (conj eq_refl (conj (stable_perm obj n H) _)).
    set (d := map (fun i => nth i obj 0) (stable_order obj n)).
    assert (HP : sparse_of_indptr (0 :: map (fun v => offs obj (S v)) (seq 0 n)) = sparse_from_dense d n).
    { unfold sparse_from_dense. unfold d. rewrite <- decode_indptr by auto.
      replace n with (length (0 :: map (fun v => offs obj (S v)) (seq 0 n)) - 1) at 3 by (simpl; rewrite map_length, seq_length; lia).
      rewrite encode_decode; auto. apply indptr_sorted. }
    rewrite HP.
    assert (Hd : forall x, In x d -> x < n).
    { intros x Hx. apply in_map_iff in Hx as (i & <- & Hi). apply H, nth_In. now apply stable_in in Hi. }
    assert (Hs : sorted d).
    { unfold d. rewrite <- decode_indptr by auto. apply decode_sorted; [apply indptr_sorted|reflexivity]. }
    assert (HL : sparse_element_size (sparse_from_dense d n) = length d).
    { unfold sparse_element_size, sparse_from_dense. rewrite sparse_encode_spec. cbn [sparse_of_indptr]. rewrite <- sparse_encode_spec. now apply encode_last. }
    split.
    + cbn [element_size]. rewrite HL. unfold d. rewrite map_length. rewrite (Permutation_length (stable_perm obj n H)). apply seq_length.
    + intros q. cbn [group_at]. rewrite HL. replace (option_map (fun i => nth i obj 0) (nth_error (stable_order obj n) q)) with (nth_error d q) by (apply nth_error_map).
      destruct (Nat.ltb_spec q (length d)) as [Hq|Hq].
      * destruct (nth_error d q) as [g|] eqn:Eg; [|apply nth_error_None in Eg; lia]. f_equal. now apply sparse_group_spec.
      * symmetry. now apply nth_error_None.
  - pose proof (C05_dense_mapping sort criterion obj n sort_ok H) as HM. destruct (build_dense_mapping sort criterion obj n) as [vec reorder].
    destruct HM as [[HP _] ->]. eexists _, _. refine (conj eq_refl (conj HP (conj _ _))).
    + cbn [element_size dense_element_size d_vec]. unfold dense_element_size. simpl. rewrite map_length, (Permutation_length HP). apply seq_length.
    + intros q. cbn [group_at]. unfold dense_group. simpl. apply nth_error_map.
Qed.

Section Couple.
Variable find : nat -> idx2d.
Variable include : nat -> bool.

Definition entry (g k : nat) : list (nat * nat) :=
  if include k then match find k with Some (g', p) => if g' =? g then [(p, k)] else [] | None => [] end else [].
Lemma collect_spec n g : collect find include n g = flat_map (entry g) (seq 0 n).
Proof.
  unfold collect. assert (X : forall l acc, fold_left (fun acc k => if include k then match find k with Some (g, p) => fupd g (acc g ++ [(p, k)]) acc | None => acc end else acc) l acc g
    = acc g ++ flat_map (entry g) l).
  { induction l as [|k l IH]; intros acc; simpl; [now rewrite app_nil_r|]. rewrite IH. unfold entry at 2. destruct (include k); [|reflexivity].
    destruct (find k) as [[g' p]|]; [|reflexivity]. destruct (Nat.eqb_spec g' g) as [->|Hn].
    - rewrite fupd_eq, <- app_assoc. reflexivity.
    - rewrite fupd_neq; auto. }
  apply X.
Qed.
Lemma collect_In n g p k : In (p, k) (collect find include n g) <-> k < n /\ include k = true /\ find k = Some (g, p).
Proof.
  rewrite collect_spec, in_flat_map. split.
  - intros (x & Hx & H). apply in_seq in Hx. unfold entry in H. destruct (include x) eqn:Ei; [|destruct H]. destruct (find x) as [[g' p']|] eqn:Ef; [|destruct H].
    destruct (Nat.eqb_spec g' g); [|destruct H]. destruct H as [[= -> ->]|[]]. subst. split; [lia|auto].
  - intros (H1 & H2 & H3). exists k. split; [apply in_seq; lia|]. unfold entry. rewrite H2, H3, Nat.eqb_refl. left; auto.
Qed.
Lemma collect_nodup n g : NoDup (map snd (collect find include n g)).
Proof.
  rewrite collect_spec. generalize 0 as s. induction n as [|n IH]; intros s; simpl; [constructor|]. rewrite map_app. unfold entry at 1.
  assert (X : forall x, In x (map snd (flat_map (entry g) (seq (S s) n))) -> s < x).
  { intros x Hx. apply in_map_iff in Hx as ([p k] & <- & H). apply in_flat_map in H as (y & Hy & H). apply in_seq in Hy. unfold entry in H.
    destruct (include y); [|destruct H]. destruct (find y) as [[? ?]|]; [|destruct H]. destruct (_ =? _); [|destruct H]. destruct H as [[= <- <-]|[]]. simpl. lia. }
  destruct (include s); [|exact (IH (S s))]. destruct (find s) as [[g' p]|]; [|exact (IH (S s))]. destruct (g' =? g); [|exact (IH (S s))].
  simpl. constructor; [intros H; apply X in H; lia|exact (IH (S s))].
Qed.

(** storing the coupling of one math model *)
Lemma store_spec g oc reorder cp : NoDup (map snd oc) -> NoDup reorder -> (forall i, In i reorder -> i < length oc) ->
  (forall q i p k, nth_error reorder q = Some i -> nth_error oc i = Some (p, k) -> store g oc reorder cp k = Some (g, q)) /\
  (forall k, ~ In k (map snd oc) -> store g oc reorder cp k = cp k).
Proof.
  intros HN HR HL. unfold store.
  assert (X : forall l s cp, NoDup l -> (forall i, In i l -> i < length oc) ->
    (forall q i p k, nth_error l q = Some i -> nth_error oc i = Some (p, k) ->
       fold_left (fun cp no => fupd (snd (nth (snd no) oc (0, 0))) (Some (g, fst no)) cp) (combine (seq s (length l)) l) cp k = Some (g, s + q)) /\
    (forall k, (forall i, In i l -> snd (nth i oc (0, 0)) <> k) ->
       fold_left (fun cp no => fupd (snd (nth (snd no) oc (0, 0))) (Some (g, fst no)) cp) (combine (seq s (length l)) l) cp k = cp k)).
  { clear HR HL reorder cp. induction l as [|x l IH]; intros s cp HR HL; simpl; [split; [intros [|q]; discriminate|auto]|].
    inversion HR; subst. destruct (IH (S s) (fupd (snd (nth x oc (0, 0))) (Some (g, s)) cp) H2 (fun i Hi => HL i (or_intror Hi))) as [A B]. split.
    - intros [|q] i p k Hq Hi; simpl in Hq.
      + injection Hq as ->. rewrite B.
        * rewrite (nth_error_nth _ _ (0, 0) Hi). cbn [snd]. rewrite fupd_eq. f_equal. f_equal. lia.
        * intros j Hj E. apply H1. replace i with j; auto.
          apply (proj1 (NoDup_nth_error (map snd oc)) HN j i).
          { rewrite map_length. apply HL. right; auto. }
          rewrite !nth_error_map, Hi. rewrite (nth_error_nth' oc (0, 0)) by (apply HL; right; auto). cbn [option_map snd]. congruence.
      + rewrite (A q i p k Hq Hi). f_equal. f_equal. lia.
    - intros k Hk. rewrite B by (intros; apply Hk; auto). apply fupd_neq. apply not_eq_sym. apply Hk. auto. }
  destruct (X reorder 0 cp HR HL) as [A B]. split; [exact A|]. intros k Hk. apply B. intros i Hi E. apply Hk. rewrite <- E.
  apply in_map. apply nth_In. auto.
Qed.

Lemma couple_spec sp n_topo n_obj n cp0 :
  (forall k g p, k < n -> include k = true -> find k = Some (g, p) -> g < n_topo /\ p < n_obj g) ->
  (forall k, k < n -> include k = true -> cp0 k = None) ->
  let r := couple_objects sort criterion sp n_topo n_obj find include n cp0 in
  attached n_topo n (fun k => include k = true) find (fst r) (snd r) /\
  (forall k, ~ (k < n /\ include k = true) -> snd r k = cp0 k).
Proof.
  intros HF H0 r.
  (* after the math models below m *)
  assert (X : forall m, m <= n_topo -> let r := fold_left (fun st g =>
      let (gr, reorder) := make_grouped sort criterion sp (map fst (collect find include n g)) (n_obj g) in
      (fupd g gr (fst st), store g (collect find include n g) reorder (snd st))) (seq 0 m) (fun _ => G_dense (mkDense 0 []), cp0) in
    (forall g, g < m -> exists reorder, Permutation reorder (seq 0 (length (collect find include n g))) /\
        element_size (fst r g) = length reorder /\
        (forall q, group_at (fst r g) q = option_map (fun i => nth i (map fst (collect find include n g)) 0) (nth_error reorder q)) /\
        (forall q i p k, nth_error reorder q = Some i -> nth_error (collect find include n g) i = Some (p, k) -> snd r k = Some (g, q))) /\
    (forall k, (forall g p, g < m -> ~ In (p, k) (collect find include n g)) -> snd r k = cp0 k)).
  { clear r. induction m as [|m IH]; intros Hm; cbn zeta; [simpl; split; auto; intros; lia|].
    rewrite seq_S, fold_left_app. cbn [fold_left Nat.add]. specialize (IH (Nat.lt_le_incl _ _ Hm)). cbn zeta in IH.
    set (st := fold_left _ (seq 0 m) _) in *. destruct IH as [IH1 IH2]. set (oc := collect find include n m).
    destruct (make_grouped_spec sp (map fst oc) (n_obj m)) as (gr & reorder & -> & HP & HS & HG).
    { intros x Hx. apply in_map_iff in Hx as ([p k] & <- & Hin). apply collect_In in Hin as (A & B & C). apply (HF k m p A B C). }
    rewrite map_length in *.
    assert (HR1 : NoDup reorder) by (apply (Permutation_NoDup (Permutation_sym HP)), seq_NoDup).
    assert (HR2 : forall i, In i reorder -> i < length oc) by (intros i Hi; apply (Permutation_in _ HP) in Hi; apply in_seq in Hi; lia).
    destruct (store_spec m oc reorder (snd st) (collect_nodup n m) HR1 HR2) as [S1 S2]. cbn [fst snd]. split.
    - intros g Hg. destruct (Nat.eq_dec g m) as [->|Hn].
      + exists reorder. rewrite fupd_eq. refine (conj HP (conj _ (conj HG S1))). rewrite HS, (Permutation_length HP). now rewrite seq_length.
      + destruct (IH1 g) as (ro & P1 & P2 & P3 & P4); [lia|]. exists ro. rewrite fupd_neq by auto. refine (conj P1 (conj P2 (conj P3 _))).
        intros q i p k Hq Hi. rewrite S2; [eauto|]. intros Hk. apply in_map_iff in Hk as ([p' k'] & E & Hin). simpl in E. subst k'.
        apply collect_In in Hin as (_ & _ & E1). apply nth_error_In in Hi. apply collect_In in Hi as (_ & _ & E2). congruence.
    - intros k Hk. rewrite S2.
      + apply IH2. intros g p Hg. apply Hk. lia.
      + intros Hin. apply in_map_iff in Hin as ([p' k'] & E & Hin). simpl in E. subst k'. apply (Hk m p'); auto. }
  destruct (X n_topo (le_n _)) as [X1 X2]. clear X. change (fold_left _ (seq 0 n_topo) _) with r in X1, X2.
  (* positions *)
  assert (POS : forall g, g < n_topo -> forall k p, In (p, k) (collect find include n g) -> exists q, snd r k = Some (g, q) /\ group_at (fst r g) q = Some p).
  { intros g Hg k p Hin. destruct (X1 g Hg) as (ro & P1 & P2 & P3 & P4). apply In_nth_error in Hin as [i Hi].
    assert (Hi' : In i ro). { apply (Permutation_in _ (Permutation_sym P1)). apply in_seq. split; [lia|]. simpl. apply nth_error_Some. congruence. }
    apply In_nth_error in Hi' as [q Hq]. exists q. split; [eauto|]. rewrite P3, Hq. cbn [option_map]. f_equal.
    apply nth_error_nth. rewrite nth_error_map, Hi. reflexivity. }
  assert (REV : forall k g q, k < n -> include k = true -> snd r k = Some (g, q) -> g < n_topo /\ exists p, find k = Some (g, p) /\
    forall ro, Permutation ro (seq 0 (length (collect find include n g))) ->
     (forall q i p k, nth_error ro q = Some i -> nth_error (collect find include n g) i = Some (p, k) -> snd r k = Some (g, q)) ->
     exists i, nth_error ro q = Some i /\ nth_error (collect find include n g) i = Some (p, k)).
  { intros k g q Hk Hi Hr. destruct (find k) as [[g' p]|] eqn:Ef.
    - destruct (HF k g' p Hk Hi Ef) as [Hg Hp]. assert (Hin : In (p, k) (collect find include n g')) by (apply collect_In; auto).
      destruct (POS g' Hg k p Hin) as (q' & E & _). rewrite E in Hr. injection Hr as -> ->. split; auto. exists p. split; auto.
      intros ro HP Hro. apply In_nth_error in Hin as [i Hin].
      assert (Hi' : In i ro). { apply (Permutation_in _ (Permutation_sym HP)). apply in_seq. split; [lia|]. simpl. apply nth_error_Some. congruence. }
      apply In_nth_error in Hi' as [q2 Hq]. exists i. split; auto. pose proof (Hro q2 i p k Hq Hin) as E2. rewrite E in E2. injection E2 as ->. auto.
    - rewrite X2 in Hr; [rewrite H0 in Hr by auto; discriminate|]. intros g' p' _ Hin. apply collect_In in Hin as (_ & _ & E). congruence. }
  split; [constructor|].
  - intros k g p Hk Hi Hf. apply POS; [apply (HF k g p); auto|]. apply collect_In. auto.
  - intros k Hk Hi Hf. rewrite X2; [auto|]. intros g p _ Hin. apply collect_In in Hin as (_ & _ & E). congruence.
  - intros k k' [g q] Hk Hk' Hi Hi' E E'. destruct (REV k g q Hk Hi E) as (Hg & p & _ & R). destruct (REV k' g q Hk' Hi' E') as (_ & p' & _ & R').
    destruct (X1 g Hg) as (ro & P1 & _ & _ & P4). destruct (R ro P1 P4) as (i & A1 & A2). destruct (R' ro P1 P4) as (i' & A1' & A2'). congruence.
  - intros g q Hg. destruct (X1 g Hg) as (ro & P1 & P2 & P3 & P4). rewrite P2. split.
    + intros Hq. destruct (nth_error ro q) as [i|] eqn:Eq; [|apply nth_error_None in Eq; lia].
      assert (Hi : i < length (collect find include n g)). { assert (In i (seq 0 (length (collect find include n g)))) as Hin by (apply (Permutation_in _ P1); eapply nth_error_In; eauto). apply in_seq in Hin. lia. }
      destruct (nth_error (collect find include n g) i) as [[p k]|] eqn:Ek; [|apply nth_error_None in Ek; lia].
      pose proof (nth_error_In _ _ Ek) as Hin. apply collect_In in Hin as (A & B & C). exists k. refine (conj A (conj B _)). eauto.
    + intros (k & Hk & Hi & E). destruct (REV k g q Hk Hi E) as (_ & p & _ & R). destruct (R ro P1 P4) as (i & A1 & _). apply nth_error_Some. congruence.
  - intros k Hk. apply X2. intros g p _ Hin. apply collect_In in Hin. tauto.
Qed.
End Couple.
End Objects.

(** ** branches *)
Section Owners.
Variable B : branch_owner -> nat -> branch_buses -> Prop.
Definition side3_dec (a b : side3) : {a = b} + {a <> b}. Proof. decide equality. Defined.
Definition owner_dec (a b : branch_owner) : {a = b} + {a <> b}. Proof. decide equality; auto using Nat.eq_dec, side3_dec. Defined.

Definition owners_ok (bb : nat -> list branch_buses) (op : branch_owner -> option (nat * nat)) : Prop :=
  (forall o g q, op o = Some (g, q) -> exists x, nth_error (bb g) q = Some x /\ B o g x) /\
  (forall o o' gp, op o = Some gp -> op o' = Some gp -> o = o') /\
  (forall g q, q < length (bb g) -> exists o, op o = Some (g, q)).

Lemma owners_ext bb op op' : (forall o, op o = op' o) -> owners_ok bb op -> owners_ok bb op'.
Proof.
  intros H (A & C & D). refine (conj _ (conj _ _)).
  - intros o g q Ho. apply A. now rewrite H.
  - intros o o' gp Ho Ho'. apply (C o o' gp); now rewrite H.
  - intros g q Hq. destruct (D g q Hq) as [o Ho]. exists o. now rewrite <- H.
Qed.
Lemma owners_add bb op o g x : owners_ok bb op -> op o = None -> B o g x ->
  owners_ok (fupd g (bb g ++ [x]) bb) (fun o' => if owner_dec o' o then Some (g, length (bb g)) else op o').
Proof.
  intros (A & C & D) Ho HB. refine (conj _ (conj _ _)).
  - intros o' g' q. destruct (owner_dec o' o) as [->|Hn].
    + intros [= <- <-]. rewrite fupd_eq. exists x. rewrite nth_error_app2, Nat.sub_diag by lia. auto.
    + intros H. apply A in H as (y & Hy & HBy). exists y. split; auto. destruct (Nat.eq_dec g' g) as [->|Hg]; [|now rewrite fupd_neq].
      rewrite fupd_eq, nth_error_app1; auto. apply nth_error_Some. congruence.
  - intros o1 o2 gp. destruct (owner_dec o1 o) as [->|H1], (owner_dec o2 o) as [->|H2]; auto.
    + intros [= <-] H. apply A in H as (y & Hy & _). assert (length (bb g) < length (bb g)) by (apply nth_error_Some; congruence). lia.
    + intros H [= <-]. apply A in H as (y & Hy & _). assert (length (bb g) < length (bb g)) by (apply nth_error_Some; congruence). lia.
    + apply C.
  - intros g' q Hq. destruct (Nat.eq_dec g' g) as [->|Hg].
    + rewrite fupd_eq, app_length in Hq. simpl in Hq. destruct (Nat.eq_dec q (length (bb g))) as [->|Hn].
      * exists o. destruct (owner_dec o o); congruence.
      * destruct (D g q) as [o' Ho']; [lia|]. exists o'. destruct (owner_dec o' o); [congruence|auto].
    + rewrite fupd_neq in Hq by auto. destruct (D g' q Hq) as [o' Ho']. exists o'. destruct (owner_dec o' o); [congruence|auto].
Qed.
End Owners.

Section Branches.
Context {P : Type} (node : nat -> idx2d) (t : comp_topo) (c : comp_conn (P := P)).
Notation item2 := (nat * ((nat * nat) * (bool * bool)))%type.
Notation item3 := (nat * (nat * ((nat * nat * nat) * (bool * bool * bool))))%type.

Definition group2 (b : (nat * nat) * (bool * bool)) : option nat :=
  or_else (group_if (fst (snd b)) (node (fst (fst b)))) (group_if (snd (snd b)) (node (snd (fst b)))).
Definition group3 (ns : nat * nat * nat) (cs : bool * bool * bool) : option nat :=
  or_else (group_if (snd cs) (node (snd ns))) (or_else (group_if (snd (fst cs)) (node (snd (fst ns)))) (group_if (fst (fst cs)) (node (fst (fst ns))))).

Definition B (o : branch_owner) (g : nat) (x : branch_buses) : Prop :=
  match o with
  | From_branch k => exists i j si sj, nth_error (branch_node_idx t) k = Some (i, j) /\ nth_error (branch_connected c) k = Some (si, sj) /\
      group2 ((i, j), (si, sj)) = Some g /\ x = (pos_if si (node i), pos_if sj (node j))
  | From_branch3 k s => exists ns cs, nth_error (branch3_node_idx t) k = Some ns /\ nth_error (branch3_connected c) k = Some cs /\
      group3 ns cs = Some g /\ x = (pos_if (of_side s cs) (node (of_side s ns)), option_map snd (node (n_node t + k)))
  end.

Lemma fold2_spec l : forall s, NoDup (map fst l) ->
  (forall k b, In (k, b) l -> branch_coupling s k = None /\ nth_error (branch_node_idx t) k = Some (fst b) /\ nth_error (branch_connected c) k = Some (snd b)) ->
  owners_ok B (branch_bus_idx s) (owner_pos s) ->
  let s' := fold_left (couple_branch2 node) l s in
  owners_ok B (branch_bus_idx s') (owner_pos s') /\ branch3_coupling s' = branch3_coupling s /\
  (forall k, ~ In k (map fst l) -> branch_coupling s' k = branch_coupling s k) /\
  (forall k b, In (k, b) l -> (branch_coupling s' k = None <-> group2 b = None)).
Proof.
  induction l as [|[k b] l IH]; intros s HN HL HO; cbn zeta; [simpl; refine (conj HO (conj eq_refl (conj _ _))); tauto|].
  inversion HN as [|? ? Hk HN']; subst. cbn [fold_left]. set (s1 := couple_branch2 node s (k, b)).
  destruct (HL k b (or_introl eq_refl)) as (Hk0 & HB1 & HB2).
  assert (ST : owners_ok B (branch_bus_idx s1) (owner_pos s1) /\ branch3_coupling s1 = branch3_coupling s /\
    (forall k', k' <> k -> branch_coupling s1 k' = branch_coupling s k') /\ (branch_coupling s1 k = None <-> group2 b = None)).
  { unfold s1, couple_branch2. destruct b as [[i j] [si sj]]. cbn [fst snd] in *.
    change (or_else (group_if si (node i)) (group_if sj (node j))) with (group2 ((i, j), (si, sj))).
    destruct (group2 ((i, j), (si, sj))) as [g|] eqn:Eg.
    - cbn [branch_bus_idx push_branch branch_coupling branch3_coupling]. refine (conj _ (conj eq_refl (conj _ _))).
      + eapply owners_ext; [|apply (owners_add B (branch_bus_idx s) (owner_pos s) (From_branch k) g (pos_if si (node i), pos_if sj (node j))); auto].
        * intros [k'|k' s']; cbn [owner_pos branch_coupling branch3_coupling].
          { destruct (owner_dec (From_branch k') (From_branch k)) as [[= ->]|Hn]; [now rewrite fupd_eq|]. rewrite fupd_neq; congruence. }
          { destruct (owner_dec (From_branch3 k' s') (From_branch k)); [discriminate|reflexivity]. }
        * exists i, j, si, sj. auto.
      + intros k' Hn. now rewrite fupd_neq.
      + rewrite fupd_eq. split; discriminate.
    - refine (conj HO (conj eq_refl (conj (fun _ _ => eq_refl) _))). tauto. }
  destruct ST as (S1 & S2 & S3 & S4). destruct (IH s1 HN') as (I1 & I2 & I3 & I4); auto.
  { intros k' b' Hin. assert (k' <> k) by (intros ->; apply Hk; apply in_map_iff; exists (k, b'); auto). rewrite S3 by auto. apply HL. right; auto. }
  refine (conj I1 (conj _ (conj _ _))).
  - now rewrite I2.
  - intros k' Hn. simpl in Hn. rewrite I3 by tauto. apply S3. intros ->. tauto.
  - intros k' b' [[= <- <-]|Hin]; [|now apply I4]. now rewrite I3.
Qed.

Lemma fold3_spec l : forall s, NoDup (map fst l) ->
  (forall k j b, In (k, (j, b)) l -> branch3_coupling s k = None /\ j = n_node t + k /\ nth_error (branch3_node_idx t) k = Some (fst b) /\ nth_error (branch3_connected c) k = Some (snd b)) ->
  owners_ok B (branch_bus_idx s) (owner_pos s) ->
  let s' := fold_left (couple_branch3 node) l s in
  owners_ok B (branch_bus_idx s') (owner_pos s') /\ branch_coupling s' = branch_coupling s /\
  (forall k, ~ In k (map fst l) -> branch3_coupling s' k = branch3_coupling s k) /\
  (forall k j b, In (k, (j, b)) l -> (branch3_coupling s' k = None <-> group3 (fst b) (snd b) = None)).
Proof.
  induction l as [|[k [j b]] l IH]; intros s HN HL HO; cbn zeta; [simpl; refine (conj HO (conj eq_refl (conj _ _))); tauto|].
  inversion HN as [|? ? Hk HN']; subst. cbn [fold_left]. set (s1 := couple_branch3 node s (k, (j, b))).
  destruct (HL k j b (or_introl eq_refl)) as (Hk0 & -> & HB1 & HB2).
  assert (ST : owners_ok B (branch_bus_idx s1) (owner_pos s1) /\ branch_coupling s1 = branch_coupling s /\
    (forall k', k' <> k -> branch3_coupling s1 k' = branch3_coupling s k') /\ (branch3_coupling s1 k = None <-> group3 (fst b) (snd b) = None)).
  { unfold s1, couple_branch3. destruct b as [[[i1 i2] i3] [[c1 c2] c3]]. cbn [fst snd] in *.
    change (or_else (group_if c3 (node i3)) (or_else (group_if c2 (node i2)) (group_if c1 (node i1)))) with (group3 ((i1, i2), i3) ((c1, c2), c3)).
    destruct (group3 ((i1, i2), i3) ((c1, c2), c3)) as [g|] eqn:Eg.
    - cbn [branch_bus_idx push_branch branch_coupling branch3_coupling]. refine (conj _ (conj eq_refl (conj _ _))).
      + assert (HBs : forall sd, B (From_branch3 k sd) g (pos_if (of_side sd ((c1, c2), c3)) (node (of_side sd ((i1, i2), i3))), option_map snd (node (n_node t + k)))).
        { intros sd. exists ((i1, i2), i3), ((c1, c2), c3). auto. }
        assert (Hn0 : forall sd, owner_pos s (From_branch3 k sd) = None) by (intros sd; cbn [owner_pos]; now rewrite Hk0).
        pose proof (owners_add B _ _ (From_branch3 k Side1) g _ HO (Hn0 Side1) (HBs Side1)) as O1.
        assert (E2 : (fun o' => if owner_dec o' (From_branch3 k Side1) then Some (g, length (branch_bus_idx s g)) else owner_pos s o') (From_branch3 k Side2) = None).
        { cbn beta. destruct (owner_dec _ _); [discriminate|apply Hn0]. }
        pose proof (owners_add B _ _ (From_branch3 k Side2) g _ O1 E2 (HBs Side2)) as O2. clear E2 O1.
        match type of O2 with owners_ok _ _ ?op => assert (E3 : op (From_branch3 k Side3) = None) end.
        { cbn beta. destruct (owner_dec _ _); [discriminate|]. destruct (owner_dec _ _); [discriminate|apply Hn0]. }
        pose proof (owners_add B _ _ (From_branch3 k Side3) g _ O2 E3 (HBs Side3)) as O3. clear E3 O2.
        cbn [of_side fst snd] in O3. eapply owners_ext; [|exact O3].
        intros o. cbn beta. rewrite !fupd_eq, !app_length. cbn [length].
        destruct (owner_dec o (From_branch3 k Side3)) as [->|N3].
        { cbn [owner_pos branch3_coupling of_side fst snd]. rewrite fupd_eq. f_equal. f_equal. simpl. lia. }
        destruct (owner_dec o (From_branch3 k Side2)) as [->|N2].
        { cbn [owner_pos branch3_coupling of_side fst snd]. rewrite fupd_eq. f_equal. f_equal. simpl. lia. }
        destruct (owner_dec o (From_branch3 k Side1)) as [->|N1].
        { cbn [owner_pos branch3_coupling of_side fst snd]. now rewrite fupd_eq. }
        destruct o as [k'|k' sd]; cbn [owner_pos branch_coupling branch3_coupling]; auto.
        rewrite fupd_neq; auto. intros ->. destruct sd; congruence.
      + intros k' Hn. now rewrite fupd_neq.
      + rewrite fupd_eq. split; discriminate.
    - refine (conj HO (conj eq_refl (conj (fun _ _ => eq_refl) _))). tauto. }
  destruct ST as (S1 & S2 & S3 & S4). destruct (IH s1 HN') as (I1 & I2 & I3 & I4); auto.
  { intros k' j' b' Hin. assert (k' <> k) by (intros ->; apply Hk; apply in_map_iff; exists (k, (j', b')); auto). rewrite S3 by auto. apply HL. right; auto. }
  refine (conj I1 (conj _ (conj _ _))).
  - now rewrite I2.
  - intros k' Hn. simpl in Hn. rewrite I3 by tauto. apply S3. intros ->. tauto.
  - intros k' j' b' [[= <- <- <-]|Hin]; [|now apply (I4 k' j' b')]. now rewrite I3.
Qed.

Lemma combine_seq_fst {A} (l : list A) : forall s n, NoDup (map fst (combine (seq s n) l)).
Proof.
  induction l as [|x l IH]; intros s [|n]; simpl; try constructor; auto.
  intros H. apply in_map_iff in H as ([a b] & E & H). simpl in E. subst. apply in_combine_l in H. apply in_seq in H. lia.
Qed.

Lemma couple_branch_spec : let s := couple_branch node t c in
  owners_ok B (branch_bus_idx s) (owner_pos s) /\
  (forall k b, nth_error (branch_node_idx t) k = Some (fst b) -> nth_error (branch_connected c) k = Some (snd b) -> (branch_coupling s k = None <-> group2 b = None)) /\
  (forall k b, nth_error (branch3_node_idx t) k = Some (fst b) -> nth_error (branch3_connected c) k = Some (snd b) -> (branch3_coupling s k = None <-> group3 (fst b) (snd b) = None)).
Proof.
  unfold couple_branch. cbn zeta. set (l2 := combine (seq 0 _) (combine (branch_node_idx t) _)). set (l3 := combine (seq 0 _) (combine (seq (n_node t) _) _)).
  assert (H2 : forall k b, In (k, b) l2 <-> nth_error (branch_node_idx t) k = Some (fst b) /\ nth_error (branch_connected c) k = Some (snd b)).
  { intros k [b1 b2]. unfold l2. cbn [fst snd]. split.
    - intros H. apply In_nth_error in H as [q H]. apply nth_combine in H as [H1 H]. apply nth_seq in H1 as [_ ->]. now apply nth_combine in H.
    - intros [H1 H2]. apply (nth_error_In _ k). apply nth_combine. split; [apply nth_seq; split; auto; apply nth_error_Some; congruence|]. now apply nth_combine. }
  assert (H3 : forall k j b, In (k, (j, b)) l3 <-> j = n_node t + k /\ nth_error (branch3_node_idx t) k = Some (fst b) /\ nth_error (branch3_connected c) k = Some (snd b)).
  { intros k j [b1 b2]. unfold l3. cbn [fst snd]. split.
    - intros H. apply In_nth_error in H as [q H]. apply nth_combine in H as [H1 H]. apply nth_combine in H as [H4 H]. apply nth_seq in H1 as [_ ->]. apply nth_seq in H4 as [_ ->].
      split; auto. now apply nth_combine in H.
    - intros (-> & H4 & H5). assert (k < length (branch3_node_idx t)) by (apply nth_error_Some; congruence). apply (nth_error_In _ k). apply nth_combine. split; [now apply nth_seq|].
      apply nth_combine. split; [now apply nth_seq|]. now apply nth_combine. }
  destruct (fold2_spec l2 (mkBranchState (fun _ => []) (fun _ => None) (fun _ => None))) as (A1 & A2 & A3 & A4).
  { apply combine_seq_fst. }
  { intros k b H. apply H2 in H. auto. }
  { refine (conj _ (conj _ _)); cbn; [intros [|]; discriminate|intros [|]; discriminate|intros; lia]. }
  set (s1 := fold_left (couple_branch2 node) l2 _) in *.
  destruct (fold3_spec l3 s1) as (C1 & C2 & C3 & C4); auto.
  { apply combine_seq_fst. }
  { intros k j b H. apply H3 in H. rewrite A2. auto. }
  refine (conj C1 (conj _ _)).
  - intros k b Ha Hb. rewrite C2. apply A4. apply H2. auto.
  - intros k b Ha Hb. apply (C4 k (n_node t + k) b). apply H3. auto.
Qed.

(** with buses that belong to the topology *)
Hypothesis same2 : forall k i j, nth_error (branch_node_idx t) k = Some (i, j) -> nth_error (branch_connected c) k = Some (true, true) -> option_map fst (node i) = option_map fst (node j).
Hypothesis same3 : forall k ns cs s, nth_error (branch3_node_idx t) k = Some ns -> nth_error (branch3_connected c) k = Some cs -> of_side s cs = true ->
  option_map fst (node (of_side s ns)) = option_map fst (node (n_node t + k)).

Lemma end_ok g s i : (s = true -> option_map fst (node i) = Some g) -> branch_end node g s i (pos_if s (node i)).
Proof.
  unfold branch_end, pos_if. destruct s; auto. intros H. specialize (H eq_refl). destruct (node i) as [[g' p]|]; [|discriminate]. injection H as ->. eauto.
Qed.
Lemma group2_None i j si sj : group2 ((i, j), (si, sj)) = None <-> ~ ((si = true /\ node i <> None) \/ (sj = true /\ node j <> None)).
Proof.
  unfold group2, or_else, group_if. cbn [fst snd]. destruct si, sj, (node i) as [[? ?]|], (node j) as [[? ?]|]; cbn; intuition (congruence || discriminate).
Qed.
Lemma group3_None ns cs : group3 ns cs = None <-> forall s, of_side s cs = true -> node (of_side s ns) = None.
Proof.
  destruct ns as [[i1 i2] i3], cs as [[c1 c2] c3]. unfold group3, or_else, group_if. cbn [fst snd]. split.
  - intros H s. revert H. destruct s; cbn [of_side fst snd]; destruct c1, c2, c3, (node i1) as [[? ?]|], (node i2) as [[? ?]|], (node i3) as [[? ?]|]; cbn; congruence.
  - intros H. pose proof (H Side1) as A. pose proof (H Side2) as B'. pose proof (H Side3) as C. cbn [of_side fst snd] in *.
    destruct c1; [rewrite A by auto|]; (destruct c2; [rewrite B' by auto|]); (destruct c3; [rewrite C by auto|]); reflexivity.
Qed.
Lemma group3_Some ns cs g : group3 ns cs = Some g -> exists s, of_side s cs = true /\ option_map fst (node (of_side s ns)) = Some g.
Proof.
  destruct ns as [[i1 i2] i3], cs as [[c1 c2] c3]. unfold group3, or_else, group_if. cbn [fst snd]. intros H.
  destruct c3; [destruct (option_map fst (node i3)) eqn:E; [exists Side3; injection H as <-; auto|]|];
  (destruct c2; [destruct (option_map fst (node i2)) eqn:E2; [exists Side2; injection H as <-; auto|]|]);
  (destruct c1; [destruct (option_map fst (node i1)) eqn:E1; [exists Side1; injection H as <-; auto|]|]); discriminate.
Qed.

Lemma branches_ok : branches_attached node t c (couple_branch node t c).
Proof.
  destruct couple_branch_spec as ((O1 & O2 & O3) & HN2 & HN3). set (s := couple_branch node t c) in *. constructor.
  - intros k i j si sj H1 H2 Hon. destruct (branch_coupling s k) as [[g q]|] eqn:Eb.
    + destruct (O1 (From_branch k) g q Eb) as ([ei ej] & Hx & i' & j' & si' & sj' & A1 & A2 & A3 & [= -> ->]).
      rewrite H1 in A1. injection A1 as <- <-. rewrite H2 in A2. injection A2 as <- <-.
      exists g, q, (pos_if si (node i)), (pos_if sj (node j)). refine (conj eq_refl (conj Hx _)).
      assert (HG : (si = true -> option_map fst (node i) = Some g) /\ (sj = true -> option_map fst (node j) = Some g)).
      { unfold group2, or_else, group_if in A3. cbn [fst snd] in A3. pose proof (same2 k i j H1) as S2. rewrite H2 in S2.
        destruct si, sj; try discriminate; cbn in A3.
        - specialize (S2 eq_refl). rewrite <- S2 in *. destruct (option_map fst (node i)); split; intros; congruence.
        - split; [|discriminate]. destruct (option_map fst (node i)); congruence.
        - split; [discriminate|auto]. }
      destruct HG. split; now apply end_ok.
    + exfalso. apply (HN2 k ((i, j), (si, sj)) H1 H2) in Eb. now apply group2_None in Eb.
  - intros k i j si sj H1 H2 Hoff. apply (HN2 k ((i, j), (si, sj)) H1 H2). now apply group2_None.
  - intros k ns cs s0 H1 H2 Hc Hb. destruct (branch3_coupling s k) as [[g ps]|] eqn:Eb.
    + assert (HS : forall sd, exists e, nth_error (branch_bus_idx s g) (of_side sd ps) = Some (e, option_map snd (node (n_node t + k))) /\ e = pos_if (of_side sd cs) (node (of_side sd ns)) /\ group3 ns cs = Some g).
      { intros sd. destruct (O1 (From_branch3 k sd) g (of_side sd ps)) as (x & Hx & ns' & cs' & A1 & A2 & A3 & ->).
        { cbn [owner_pos]. now rewrite Eb. }
        rewrite H1 in A1. injection A1 as <-. rewrite H2 in A2. injection A2 as <-. eauto. }
      destruct (HS Side1) as (_ & _ & _ & HG). destruct (group3_Some _ _ _ HG) as (s1 & Hs1 & Hg1).
      assert (HJ : option_map fst (node (n_node t + k)) = Some g) by (rewrite <- Hg1; symmetry; exact (same3 k ns cs s1 H1 H2 Hs1)).
      destruct (node (n_node t + k)) as [[g' pj]|] eqn:Ej; [|discriminate]. injection HJ as ->. exists g, pj, ps. refine (conj eq_refl (conj eq_refl _)).
      intros sd. destruct (HS sd) as (e & He & -> & _). exists (pos_if (of_side sd cs) (node (of_side sd ns))). split; auto.
      apply end_ok. intros Hsd. rewrite (same3 k ns cs sd H1 H2 Hsd), Ej. reflexivity.
    + exfalso. apply (HN3 k (ns, cs) H1 H2) in Eb. cbn [fst snd] in Eb. pose proof (proj1 (group3_None ns cs) Eb s0 Hc). auto.
  - intros k ns cs H1 H2 Hoff. apply (HN3 k (ns, cs) H1 H2). now apply group3_None.
  - exact O2.
  - intros g q. split; [apply O3|]. intros [o Ho]. apply O1 in Ho as (x & Hx & _). apply nth_error_Some. congruence.
Qed.
End Branches.
