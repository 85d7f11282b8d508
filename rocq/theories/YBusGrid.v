(** Proofs that the elements of a sub-grid give a well formed structure. *)
From Verif Require Import Common NatMap GroupedIdx GroupedIdxFacts YBus YBusSpec YBusFacts YBusScan.

Lemma nth_combine_seq {A} (l : list A) k x : nth_error (enumerate l) k = Some x <-> fst x = k /\ nth_error l k = Some (snd x).
Proof.
  unfold enumerate. assert (X : forall s k, nth_error (combine (seq s (length l)) l) k = Some x <-> fst x = s + k /\ nth_error l k = Some (snd x)).
  { clear k. induction l as [|a l IH]; intros s [|k]; simpl; [split; [discriminate|intros [_ ?]; discriminate]| | |].
    - split; [discriminate|intros [_ ?]; discriminate].
    - split; [intros [= <-]; simpl; split; auto; lia|intros [H1 [= ->]]; destruct x; simpl in *; f_equal; f_equal; lia].
    - rewrite IH. split; intros [? ?]; split; auto; lia. }
  apply X.
Qed.
Lemma enumerate_In {A} (l : list A) k x : In (k, x) (enumerate l) <-> nth_error l k = Some x.
Proof.
  split.
  - intros H. apply In_nth_error in H as [n H]. apply nth_combine_seq in H as [H1 H2]. simpl in *. now subst.
  - intros H. apply (nth_error_In _ k). now apply nth_combine_seq.
Qed.

Inductive fill_member (t : math_topo) : element -> nat -> nat -> Prop :=
| fm_ft k i j : nth_error (mt_fill_in t) k = Some (i, j) -> fill_member t (mkElement E_fill_ft k) i j
| fm_tf k i j : nth_error (mt_fill_in t) k = Some (i, j) -> fill_member t (mkElement E_fill_tf k) j i.

Lemma element_at_In a b ty k e : In e (element_at a b ty k) <-> exists i j, a = Some i /\ b = Some j /\ e = mkMap (i, j) (mkElement ty k).
Proof.
  unfold element_at. destruct a as [i|]; [|split; [intros []|intros (? & ? & ? & _); discriminate]].
  destruct b as [j|]; [|split; [intros []|intros (? & ? & _ & ? & _); discriminate]].
  simpl. split; [intros [<-|[]]; eauto|intros (i' & j' & [= <-] & [= <-] & ->); auto].
Qed.

Section Grid.
Variable t : math_topo.
Hypothesis ok : sub_grid_ok t.
Notation n := (mt_n_bus t).
Notation vec := (elements t).

Lemma elements_In i j c : In (mkMap (i, j) c) vec <-> member t c i j \/ fill_member t c i j.
Proof.
  unfold elements. rewrite !in_app_iff, !in_flat_map. split.
  - intros [H|[H|H]].
    + destruct H as ([k [f o]] & Hk & H). apply enumerate_In in Hk. left. unfold branch_elements in H. rewrite !in_app_iff, !element_at_In in H.
      destruct H as [H|[H|[H|H]]]; destruct H as (a & b & -> & E & [= -> -> ->]); try (injection E as ->); try subst.
      * econstructor; eauto.
      * econstructor; eauto.
      * econstructor; eauto.
      * econstructor; eauto.
    + destruct H as (b & Hb & H). left. unfold shunt_elements in H. destruct (dense_range (mt_shunt t) b) as [lo hi] eqn:Er.
      apply in_flat_map in H as (s & Hs & H). apply element_at_In in H as (i' & j' & [= <-] & [= <-] & [= -> -> ->]). apply in_seq in Hs.
      apply m_shunt. apply (dense_range_spec _ b s (go_shunt_sorted t ok)). rewrite Er. simpl. lia.
    + destruct H as ([k [f o]] & Hk & H). apply enumerate_In in Hk. right. unfold fill_elements in H. rewrite in_app_iff, !element_at_In in H.
      destruct H as [(a & b & [= <-] & [= <-] & [= -> -> ->])|(a & b & [= <-] & [= <-] & [= -> -> ->])]; econstructor; eauto.
  - intros [H|H].
    + inversion H as [k f o Hk|k f o Hk|k f o Hk|k f o Hk|k b Hk]; subst.
      1-4: left; eexists (k, _); (split; [apply enumerate_In; exact Hk|]); unfold branch_elements; rewrite !in_app_iff, !element_at_In.
      * left. eauto.
      * right; left. eauto.
      * right; right; left. eauto 6.
      * right; right; right. eauto.
      * right; left. exists j. split; [apply in_seq; unfold dense_size; rewrite (go_shunt_num t ok); split; [lia|apply (go_shunt t ok), (nth_error_In _ _ Hk)]|].
        unfold shunt_elements. destruct (dense_range (mt_shunt t) j) as [lo hi] eqn:Er. apply in_flat_map. exists k. split; [|simpl; auto].
        apply (dense_range_spec _ j k (go_shunt_sorted t ok)) in Hk. rewrite Er in Hk. simpl in Hk. apply in_seq. lia.
    + inversion H as [k i' j' Hk|k i' j' Hk]; subst; right; right; eexists (k, _); (split; [apply enumerate_In; exact Hk|]); simpl; auto.
Qed.
Lemma vec_In e : In e vec <-> member t (el e) (fst (el_pos e)) (snd (el_pos e)) \/ fill_member t (el e) (fst (el_pos e)) (snd (el_pos e)).
Proof. destruct e as [[i j] c]. apply elements_In. Qed.
Lemma bucket_elements i j e : In e (bucket vec (i, j)) <-> el_pos e = (i, j) /\ (member t (el e) i j \/ fill_member t (el e) i j).
Proof. rewrite bucket_In, vec_In. split; [intros [H E]; rewrite E in H; auto|intros [E H]; rewrite E; auto]. Qed.

Lemma member_fun c i j i' j' : member t c i j -> member t c i' j' -> i = i' /\ j = j'.
Proof. intros H1 H2; inversion H1; subst; inversion H2; subst; split; congruence. Qed.
Lemma fill_member_fun c i j i' j' : fill_member t c i j -> fill_member t c i' j' -> i = i' /\ j = j'.
Proof. intros H1 H2; inversion H1; subst; inversion H2; subst; split; congruence. Qed.
Lemma member_fill c i j : member t c i j -> match el_type c with E_fill_ft | E_fill_tf => False | _ => True end.
Proof. intros H; inversion H; simpl; auto. Qed.
Lemma fill_member_fill c i j : fill_member t c i j -> match el_type c with E_fill_ft | E_fill_tf => True | _ => False end.
Proof. intros H; inversion H; simpl; auto. Qed.
Lemma member_range c i j : member t c i j -> i < n /\ j < n.
Proof.
  intros H. inversion H as [k f o Hk|k f o Hk|k f o Hk|k f o Hk|k b Hk]; subst;
    try (destruct (go_branch t ok _ _ Hk) as [H1 H2]; simpl in H1, H2; split; auto).
  apply nth_error_In, (go_shunt t ok) in Hk. auto.
Qed.
Lemma fill_member_filled c i j : fill_member t c i j -> filled t i j.
Proof. intros H; inversion H as [k ? ? Hk|k ? ? Hk]; subst; apply nth_error_In in Hk; unfold filled; auto. Qed.
Lemma filled_fill_member i j : filled t i j -> exists c, fill_member t c i j.
Proof. intros [H|H]; apply In_nth_error in H as [k H]; eexists; [apply fm_ft|apply fm_tf]; eauto. Qed.
Lemma fill_member_range c i j : fill_member t c i j -> i < n /\ j < n /\ i <> j.
Proof. intros H; inversion H as [k ? ? Hk|k ? ? Hk]; subst; apply nth_error_In, (go_fill t ok) in Hk; repeat split; try tauto; intros ->; tauto. Qed.
Lemma fill_member_unique c c' i j : fill_member t c i j -> fill_member t c' i j -> c = c'.
Proof.
  intros H1 H2. assert (Hn := fill_member_range c i j H1).
  inversion H1 as [k ? ? Hk|k ? ? Hk]; subst; inversion H2 as [k' ? ? Hk'|k' ? ? Hk']; subst;
    assert (k = k') as <- by (eapply (go_fill_once t ok); eauto); auto; exfalso; rewrite Hk in Hk'; injection Hk'; intros; subst; tauto.
Qed.

Lemma vec_range e : In e vec -> fst (el_pos e) < n /\ snd (el_pos e) < n.
Proof. intros H. apply vec_In in H as [H|H]; [now apply member_range in H|apply fill_member_range in H; tauto]. Qed.
Lemma is_fill_spec e i j : In e (bucket vec (i, j)) -> (is_fill e = false <-> member t (el e) i j) /\ (is_fill e = true <-> fill_member t (el e) i j).
Proof.
  intros H. apply bucket_elements in H as [_ [H|H]]; unfold is_fill.
  - assert (Hf := member_fill _ _ _ H). destruct (el_type (el e)) eqn:E; try tauto; (split; [tauto|split; [discriminate|intros Hf'; apply fill_member_fill in Hf'; rewrite E in Hf'; tauto]]).
  - assert (Hf := fill_member_fill _ _ _ H). destruct (el_type (el e)) eqn:E; try tauto; (split; [split; [discriminate|intros Hf'; apply member_fill in Hf'; rewrite E in Hf'; tauto]|tauto]).
Qed.
(** a cell holds matrix elements only, or one fill-in *)
Lemma same_kind i j e e' : In e (bucket vec (i, j)) -> In e' (bucket vec (i, j)) -> is_fill e = is_fill e'.
Proof.
  intros H H'. destruct (is_fill_spec e i j H) as [A1 A2], (is_fill_spec e' i j H') as [B1 B2].
  destruct (is_fill e), (is_fill e'); auto; exfalso.
  - apply (go_fill_new t ok i j (el e')); [eapply fill_member_filled, A2; auto|now apply B1].
  - apply (go_fill_new t ok i j (el e)); [eapply fill_member_filled, B2; auto|now apply A1].
Qed.

Lemma NoDup_element_at a b ty k : NoDup (element_at a b ty k).
Proof. destruct a, b; simpl; repeat constructor; simpl; tauto. Qed.
Lemma NoDup_app2 {A} (l1 l2 : list A) : NoDup l1 -> NoDup l2 -> (forall x, In x l1 -> ~ In x l2) -> NoDup (l1 ++ l2).
Proof.
  intros H1 H2 HD. induction H1 as [|a l1 Ha H1 IH]; simpl; auto. constructor.
  - rewrite in_app_iff. intros [H|H]; [auto|apply (HD a); simpl; auto].
  - apply IH. intros x Hx. apply HD. simpl. auto.
Qed.
Lemma NoDup_flat_map_in {A B} (f : A -> list B) l : NoDup l -> (forall x, In x l -> NoDup (f x)) ->
  (forall x y e, In x l -> In y l -> In e (f x) -> In e (f y) -> x = y) -> NoDup (flat_map f l).
Proof.
  intros HN H1 H2. apply NoDup_flat_map_intro; auto. intros n1 n2 x1 x2 y E1 E2 Hy1 Hy2.
  assert (x1 = x2) by (apply (H2 x1 x2 y); eauto using nth_error_In). subst x2.
  apply (proj1 (NoDup_nth_error l) HN); [apply nth_error_Some|]; congruence.
Qed.
Lemma NoDup_enumerate {A} (l : list A) : NoDup (enumerate l).
Proof. apply NoDup_nth_error. intros a b Ha Hab. destruct (nth_error (enumerate l) a) as [x|] eqn:E; [|apply nth_error_None in E; lia]. symmetry in Hab. apply nth_combine_seq in E as [<- _]. now apply nth_combine_seq in Hab as [<- _]. Qed.
Lemma vec_el : forall e e', In e vec -> In e' vec -> el e = el e' -> e = e'.
Proof.
  intros [[i j] c] [[i' j'] c'] H H' E. simpl in E. subst c'. apply elements_In in H as [H|H]; apply elements_In in H' as [H'|H'].
  - destruct (member_fun _ _ _ _ _ H H') as [-> ->]. reflexivity.
  - apply member_fill in H. apply fill_member_fill in H'. destruct (el_type c); tauto.
  - apply member_fill in H'. apply fill_member_fill in H. destruct (el_type c); tauto.
  - destruct (fill_member_fun _ _ _ _ _ H H') as [-> ->]. reflexivity.
Qed.
Lemma branch_elements_idx k b e : In e (branch_elements (k, b)) -> el_idx (el e) = k /\ In (el_type (el e)) [E_bff; E_bft; E_btf; E_btt].
Proof. destruct b as [f o]. simpl. rewrite !in_app_iff, !element_at_In. intros [H|[H|[H|H]]]; destruct H as (a & b & _ & _ & ->); simpl; auto 6. Qed.
Lemma vec_NoDup : NoDup vec.
Proof.
  unfold elements. apply NoDup_app2; [|apply NoDup_app2|].
  - apply NoDup_flat_map_in; [apply NoDup_enumerate| |].
    + intros [k [f o]] _. simpl. apply NoDup_app2; [apply NoDup_element_at|apply NoDup_app2; [apply NoDup_element_at|apply NoDup_app2; try apply NoDup_element_at|]|].
      * intros x. rewrite !element_at_In. intros (? & ? & _ & _ & ->) (? & ? & _ & _ & ?). discriminate.
      * intros x. rewrite in_app_iff, !element_at_In. intros (? & ? & _ & _ & ->) [(? & ? & _ & _ & ?)|(? & ? & _ & _ & ?)]; discriminate.
      * intros x. rewrite !in_app_iff, !element_at_In. intros (? & ? & _ & _ & ->) [(? & ? & _ & _ & ?)|[(? & ? & _ & _ & ?)|(? & ? & _ & _ & ?)]]; discriminate.
    + intros [k b] [k' b'] e H1 H2 H3 H4. apply branch_elements_idx in H3 as [H3 _]. apply branch_elements_idx in H4 as [H4 _]. subst k k'. apply enumerate_In in H1, H2. congruence.
  - apply NoDup_flat_map_in; [apply seq_NoDup| |].
    + intros b _. unfold shunt_elements. destruct (dense_range (mt_shunt t) b) as [lo hi]. apply NoDup_flat_map_in; [apply seq_NoDup|intros; apply NoDup_element_at|].
      intros x y e _ _ H3 H4. apply element_at_In in H3 as (? & ? & _ & _ & ->). apply element_at_In in H4 as (? & ? & _ & _ & [= _ _ ->]). reflexivity.
    + intros x y e _ _ H3 H4. unfold shunt_elements in *. destruct (dense_range (mt_shunt t) x), (dense_range (mt_shunt t) y).
      apply in_flat_map in H3 as (? & _ & H3). apply in_flat_map in H4 as (? & _ & H4).
      apply element_at_In in H3 as (? & ? & [= <-] & _ & ->). apply element_at_In in H4 as (? & ? & [= <-] & _ & [= -> _ _]). reflexivity.
  - apply NoDup_flat_map_in; [apply NoDup_enumerate| |].
    + intros [k [f o]] _. simpl. repeat constructor; simpl; [intros [?|[]]; discriminate|tauto].
    + intros [k [a b]] [k' [a' b']] e H1 H2 H3 H4. apply enumerate_In in H1, H2. simpl in H3, H4.
      assert (k = k') by (destruct H3 as [<-|[<-|[]]], H4 as [?|[?|[]]]; congruence). subst k'. congruence.
  - intros e H1 H2. apply in_flat_map in H1 as (b & _ & H1). apply in_flat_map in H2 as ([k [i j]] & _ & H2). unfold shunt_elements in H1.
    destruct (dense_range (mt_shunt t) b). apply in_flat_map in H1 as (? & _ & H1). apply element_at_In in H1 as (? & ? & _ & _ & ->). simpl in H2. destruct H2 as [|[|[]]]; discriminate.
  - intros e H1 H2. apply in_flat_map in H1 as ([k b] & _ & H1). apply branch_elements_idx in H1 as [_ H1]. apply in_app_iff in H2 as [H2|H2]; apply in_flat_map in H2 as (x & _ & H2).
    + unfold shunt_elements in H2. destruct (dense_range (mt_shunt t) x). apply in_flat_map in H2 as (? & _ & H2). apply element_at_In in H2 as (? & ? & _ & _ & ->).
      simpl in H1. intuition discriminate.
    + destruct x as [k' [i j]]. simpl in H2. destruct H2 as [<-|[<-|[]]]; simpl in H1; intuition discriminate.
Qed.
Lemma bucket_NoDup c : NoDup (bucket vec c).
Proof. apply NoDup_filter, vec_NoDup. Qed.

(** transposition *)
Definition flip_type (ty : element_type) : element_type :=
  match ty with E_bft => E_btf | E_btf => E_bft | E_fill_ft => E_fill_tf | E_fill_tf => E_fill_ft | ty => ty end.
Definition flip (e : element_map) : element_map := mkMap (snd (el_pos e), fst (el_pos e)) (mkElement (flip_type (el_type (el e))) (el_idx (el e))).
Lemma filter_none {A} (f : A -> bool) l : (forall x, In x l -> f x = false) -> filter f l = [].
Proof. induction l as [|x l IH]; simpl; auto. intros H. rewrite (H x (or_introl eq_refl)). apply IH. auto. Qed.
Lemma map_flat_map {A B C} (f : B -> C) (g : A -> list B) l : map f (flat_map g l) = flat_map (fun x => map f (g x)) l.
Proof. induction l as [|x l IH]; simpl; auto. now rewrite map_app, IH. Qed.
Lemma pos_eqb_neq a b : a <> b -> pos_eqb a b = false.
Proof. intros H. destruct (pos_eqb a b) eqn:E; auto. now apply pos_eqb_eq in E. Qed.
Lemma pos_eqb_swap a b i j : pos_eqb (b, a) (j, i) = pos_eqb (a, b) (i, j).
Proof. unfold pos_eqb. simpl. apply andb_comm. Qed.
Lemma bucket_flip i j : i <> j -> bucket vec (j, i) = map flip (bucket vec (i, j)).
Proof.
  intros Hn. unfold bucket, elements. rewrite !filter_app, !map_app. f_equal; [|f_equal].
  - rewrite !filter_flat_map, map_flat_map. apply flat_map_ext. intros [k [f o]]. simpl.
    assert (D : forall a ty k, (forall i j, i <> j -> filter (fun e => pos_eqb (el_pos e) (i, j)) (element_at a a ty k) = [])).
    { intros a ty k' i' j' H. destruct a; simpl; auto. rewrite pos_eqb_neq; auto. congruence. }
    rewrite !filter_app, !D by auto. simpl. rewrite !app_nil_r.
    destruct f as [f|], o as [o|]; simpl; auto. rewrite (pos_eqb_swap o f i j), (pos_eqb_swap f o i j).
    destruct (pos_eqb (f, o) (i, j)) eqn:E1, (pos_eqb (o, f) (i, j)) eqn:E2; simpl; auto.
    apply pos_eqb_eq in E1, E2. congruence.
  - assert (D : forall i j, i <> j -> filter (fun e => pos_eqb (el_pos e) (i, j)) (flat_map (shunt_elements (mt_shunt t)) (seq 0 (dense_size (mt_shunt t)))) = []).
    { intros i' j' Hn'. apply filter_none. intros e H. apply in_flat_map in H as (b & _ & H). unfold shunt_elements in H. destruct (dense_range (mt_shunt t) b).
      apply in_flat_map in H as (? & _ & H). apply element_at_In in H as (? & ? & [= <-] & [= <-] & ->). simpl. apply pos_eqb_neq. congruence. }
    rewrite !D by auto. reflexivity.
  - rewrite !filter_flat_map, map_flat_map. apply flat_map_ext. intros [k [f o]]. simpl. rewrite (pos_eqb_swap o f i j), (pos_eqb_swap f o i j).
    destruct (pos_eqb (f, o) (i, j)) eqn:E1, (pos_eqb (o, f) (i, j)) eqn:E2; simpl; auto. apply pos_eqb_eq in E1, E2. congruence.
Qed.

(** the elements at a bus pair, in order *)
Lemma sorted_lt_ext l l' : StronglySorted lt l -> StronglySorted lt l' -> (forall x, In x l <-> In x l') -> l = l'.
Proof.
  intros H. revert l'. induction H as [|a l HS IH HF]; intros l' H' E.
  - destruct l' as [|b l']; auto. exfalso. apply (proj2 (E b)). simpl. auto.
  - inversion H' as [|b l2 HS2 HF2]; subst; [exfalso; apply (proj1 (E a)); simpl; auto|].
    rewrite Forall_forall in HF, HF2.
    assert (a = b) as <-.
    { destruct (proj1 (E a) (or_introl eq_refl)) as [->|Ha]; auto. destruct (proj2 (E b) (or_introl eq_refl)) as [->|Hb]; auto.
      specialize (HF b Hb). specialize (HF2 a Ha). lia. }
    f_equal. apply IH; auto. intros x. specialize (E x). simpl in E. split; intros Hx.
    + destruct (proj1 E (or_intror Hx)) as [->|]; auto. specialize (HF x Hx). lia.
    + destruct (proj2 E (or_intror Hx)) as [->|]; auto. specialize (HF2 x Hx). lia.
Qed.
Lemma flat_map_single_filter {A B} (f : A -> bool) (g : A -> B) l : flat_map (fun x => if f x then [g x] else []) l = map g (filter f l).
Proof. induction l as [|x l IH]; simpl; auto. destruct (f x); simpl; now rewrite IH. Qed.
Lemma seq_sorted a m : StronglySorted lt (seq a m).
Proof. revert a. induction m as [|m IH]; intros a; simpl; constructor; auto. apply Forall_forall. intros x Hx. apply in_seq in Hx. lia. Qed.
Lemma enumerate_fst {A} (l : list A) : map fst (enumerate l) = seq 0 (length l).
Proof. unfold enumerate. generalize 0. induction l as [|a l IH]; intros s; simpl; auto. now rewrite IH. Qed.
Lemma map_fst_filter_sorted {A} (f : nat * A -> bool) l : StronglySorted lt (map fst l) -> StronglySorted lt (map fst (filter f l)).
Proof.
  induction l as [|x l IH]; simpl; intros HS; [constructor|]. inversion HS as [|? ? HS' HF]; subst. destruct (f x); simpl; auto. constructor; auto.
  apply Forall_forall. intros y Hy. apply in_map_iff in Hy as (z & <- & Hz). apply filter_In in Hz as [Hz _]. rewrite Forall_forall in HF. now apply HF, in_map.
Qed.

Lemma bucket_incident i j : (forall e, In e (bucket vec (i, j)) -> is_fill e = false) -> i < n -> map el (bucket vec (i, j)) = incident t i j.
Proof.
  intros Hf Hi. unfold incident, bucket, elements. rewrite !filter_app, !map_app, !filter_flat_map, !map_flat_map. f_equal.
  - apply flat_map_ext. intros [k [f o]]. simpl. rewrite !filter_app, !map_app. unfold pos_eqb. f_equal; [|f_equal; [|f_equal]].
    + destruct f as [f|]; simpl; auto. destruct ((f =? i) && (f =? j)); auto.
    + destruct f as [f|], o as [o|]; simpl; auto. destruct ((f =? i) && (o =? j)); auto.
    + destruct f as [f|], o as [o|]; simpl; auto. destruct ((o =? i) && (f =? j)); auto.
    + destruct o as [o|]; simpl; auto. destruct ((o =? i) && (o =? j)); auto.
  - assert (E3 : flat_map (fun x => map el (filter (fun e => pos_eqb (el_pos e) (i, j)) (fill_elements x))) (enumerate (mt_fill_in t)) = []).
    { assert (X : forall x, In x (enumerate (mt_fill_in t)) -> map el (filter (fun e => pos_eqb (el_pos e) (i, j)) (fill_elements x)) = []).
      { intros [k [a b]] Hx. rewrite filter_none; auto. intros e He. destruct (pos_eqb (el_pos e) (i, j)) eqn:Ep; auto. exfalso. apply pos_eqb_eq in Ep.
        assert (He' : In e (bucket vec (i, j))).
        { apply bucket_In. split; auto. unfold elements. rewrite !in_app_iff. right; right. apply in_flat_map. eauto. }
        apply Hf in He'. simpl in He. destruct He as [<-|[<-|[]]]; discriminate. }
      induction (enumerate (mt_fill_in t)) as [|x l IH]; simpl; auto. rewrite X by (simpl; auto). apply IH. intros y Hy. apply X. simpl. auto. }
    rewrite E3, app_nil_r. destruct (Nat.eqb_spec i j) as [<-|Hn]; cbn [andb].
    + rewrite flat_map_single_filter. rewrite <- (map_map fst (fun k => mkElement E_shunt k)).
      assert (E4 : flat_map (fun x => map el (filter (fun e => pos_eqb (el_pos e) (i, i)) (shunt_elements (mt_shunt t) x))) (seq 0 (dense_size (mt_shunt t))) =
        map el (shunt_elements (mt_shunt t) i)).
      { assert (X : forall x, map el (filter (fun e => pos_eqb (el_pos e) (i, i)) (shunt_elements (mt_shunt t) x)) = if x =? i then map el (shunt_elements (mt_shunt t) i) else []).
        { intros x. destruct (Nat.eqb_spec x i) as [->|Hx].
          - unfold shunt_elements. destruct (dense_range (mt_shunt t) i) as [lo hi]. f_equal. rewrite filter_flat_map. apply flat_map_ext. intros s. simpl.
            now rewrite (proj2 (pos_eqb_eq _ _) eq_refl).
          - rewrite filter_none; auto. intros e He. unfold shunt_elements in He. destruct (dense_range (mt_shunt t) x). apply in_flat_map in He as (? & _ & He).
            apply element_at_In in He as (? & ? & [= <-] & [= <-] & ->). simpl. apply pos_eqb_neq. congruence. }
        rewrite (flat_map_ext _ _ X). unfold dense_size. rewrite (go_shunt_num t ok).
        assert (Y : forall m s, s <= i < s + m -> flat_map (fun x => if x =? i then map el (shunt_elements (mt_shunt t) i) else []) (seq s m) = map el (shunt_elements (mt_shunt t) i)).
        { induction m as [|m IH]; intros s Hs; [lia|]. simpl. destruct (Nat.eqb_spec s i) as [->|Hs'].
          - assert (Z : forall m s, i < s -> flat_map (fun x => if x =? i then map el (shunt_elements (mt_shunt t) i) else []) (seq s m) = []).
            { clear. induction m as [|m IH]; intros s Hs; simpl; auto. replace (s =? i) with false by lia. simpl. apply IH. lia. }
            rewrite Z by lia. apply app_nil_r.
          - apply IH. lia. }
        apply Y. lia. }
      rewrite E4. unfold shunt_elements. destruct (dense_range (mt_shunt t) i) as [lo hi] eqn:Er. rewrite map_flat_map. simpl.
      assert (E5 : flat_map (fun x => [mkElement E_shunt x]) (seq lo (hi - lo)) = map (fun k => mkElement E_shunt k) (seq lo (hi - lo))).
      { clear. induction (seq lo (hi - lo)); simpl; auto. }
      rewrite E5. f_equal. apply sorted_lt_ext; [apply seq_sorted|apply map_fst_filter_sorted; rewrite enumerate_fst; apply seq_sorted|].
      intros s. assert (Hs := dense_range_spec (mt_shunt t) i s (go_shunt_sorted t ok)). rewrite Er in Hs. simpl in Hs.
      assert (Hs' : In s (seq lo (hi - lo)) <-> nth_error (d_vec (mt_shunt t)) s = Some i) by (rewrite in_seq, <- Hs; lia). rewrite Hs'. split.
      * intros H. apply in_map_iff. exists (s, i). split; auto. apply filter_In. split; [now apply enumerate_In|]. simpl. apply Nat.eqb_refl.
      * intros H. apply in_map_iff in H as ([s' b] & <- & H). apply filter_In in H as [H1 H2]. simpl in *. apply Nat.eqb_eq in H2. subst b. now apply enumerate_In in H1.
    + rewrite <- map_flat_map, <- filter_flat_map, filter_none.
      * simpl. clear. induction (enumerate (d_vec (mt_shunt t))); simpl; auto.
      * intros e He. apply in_flat_map in He as (x & _ & He). unfold shunt_elements in He. destruct (dense_range (mt_shunt t) x). apply in_flat_map in He as (? & _ & He).
        apply element_at_In in He as (? & ? & [= <-] & [= <-] & ->). simpl. apply pos_eqb_neq. congruence.
Qed.
End Grid.
