(** Facts about the minimum degree ordering. *)
From Verif Require Import Common NatMap SparseOrdering SparseOrderingSpec.

Definition G (d : graph) (v w : nat) : Prop := exists l, mfind v d = Some l /\ In w l.
Definition V (d : graph) (v : nat) : Prop := In v (keys d).
Record wf (d : graph) : Prop := mkWf {
  wf_sorted : msorted d;
  wf_sym : forall v w, G d v w -> G d w v;
  wf_irr : forall v, ~ G d v v;
  wf_nodup : forall v l, mfind v d = Some l -> NoDup l }.

Lemma G_V d v w : G d v w -> V d v.
Proof. intros (l & H & _). apply mfind_keys. congruence. Qed.
Lemma G_V2 d v w : wf d -> G d v w -> V d w.
Proof. intros HW H. eapply G_V, wf_sym; eauto. Qed.
Lemma V_find d v : V d v <-> exists l, mfind v d = Some l.
Proof.
  unfold V. rewrite <- mfind_keys. destruct (mfind v d) as [l|]; [split; eauto; discriminate|].
  split; [congruence|intros [? ?]; discriminate].
Qed.
Lemma G_find d v l w : mfind v d = Some l -> G d v w <-> In w l.
Proof. intros H. unfold G. rewrite H. split; [intros (l' & [= <-] & ?); auto|eauto]. Qed.
Lemma G_adj d v w : G d v w <-> In w (adj_or_new v d).
Proof.
  unfold G, adj_or_new. destruct (mfind v d); [split; [intros (l' & [= <-] & ?); auto|eauto]|].
  split; [intros (? & ? & ?); discriminate|intros []].
Qed.
Lemma adj_nodup d v : wf d -> NoDup (adj_or_new v d).
Proof. intros HW. unfold adj_or_new. destruct (mfind v d) eqn:E; [eapply wf_nodup; eauto|constructor]. Qed.
Lemma erase_all_In x y l : In y (erase_all x l) <-> In y l /\ y <> x.
Proof. exact (serase_In x y l). Qed.
Lemma erase_all_NoDup x l : NoDup l -> NoDup (erase_all x l).
Proof. apply NoDup_filter. Qed.
Lemma fold_merase_find {A} xs : forall (d : list (nat * A)) y,
  mfind y (fold_left (fun d x => merase x d) xs d) = if existsb (Nat.eqb y) xs then None else mfind y d.
Proof.
  induction xs as [|x xs IH]; intros d y; simpl; auto. rewrite IH. destruct (Nat.eqb_spec y x); simpl.
  - subst. rewrite mfind_merase_eq. now destruct (existsb _ _).
  - now rewrite mfind_merase_neq by auto.
Qed.
Lemma fold_merase_sorted {A} xs : forall (d : list (nat * A)), msorted d -> msorted (fold_left (fun d x => merase x d) xs d).
Proof. induction xs as [|x xs IH]; intros d H; simpl; auto. apply IH. now apply msorted_merase. Qed.
Lemma existsb_In x l : existsb (Nat.eqb x) l = true <-> In x l.
Proof. rewrite existsb_exists. split; [intros (y & H & E); apply Nat.eqb_eq in E; now subst|intros H; exists x; split; auto; apply Nat.eqb_refl]. Qed.
Lemma existsb_nIn x l : existsb (Nat.eqb x) l = false <-> ~ In x l.
Proof. rewrite <- existsb_In. destruct (existsb _ _); intuition congruence. Qed.

(** ** removal of one vertex *)
Section RemoveOne.
Variable uu : nat.
Let stepf := fun (del : graph * list nat) e =>
  let a := erase_all uu (adj_or_new e (fst del)) in
  (mset e a (fst del), if match a with [] => true | _ => false end then snd del ++ [e] else snd del).

Lemma unlink_spec es : NoDup es -> ~ In uu es -> forall d el,
  let r := fold_left stepf es (d, el) in
  (forall x, mfind x (fst r) = if existsb (Nat.eqb x) es then Some (erase_all uu (adj_or_new x d)) else mfind x d) /\
  (forall x, In x (snd r) <-> In x el \/ (In x es /\ erase_all uu (adj_or_new x d) = [])) /\
  (msorted d -> msorted (fst r)).
Proof.
  induction es as [|e es IH]; intros HN Hu d el; cbn zeta.
  { simpl. refine (conj _ (conj _ _)); auto. intros; tauto. }
  inversion HN; subst. cbn [fold_left].
  assert (Hu' : ~ In uu es) by (intros ?; apply Hu; right; auto).
  set (a := erase_all uu (adj_or_new e d)).
  set (el1 := if match a with [] => true | _ => false end then el ++ [e] else el).
  assert (Es : stepf (d, el) e = (mset e a d, el1)) by reflexivity. rewrite Es.
  destruct (IH H2 Hu' (mset e a d) el1) as (A1 & A2 & A3). refine (conj _ (conj _ _)).
  - intros x. rewrite A1. simpl. destruct (Nat.eqb_spec x e) as [->|Hn]; simpl.
    + replace (existsb (Nat.eqb e) es) with false by (symmetry; now apply existsb_nIn). now rewrite mfind_mset_eq.
    + unfold adj_or_new. now rewrite mfind_mset_neq by auto.
  - intros x. rewrite A2. unfold el1. fold a. simpl.
    assert (X : In x es -> adj_or_new x (mset e a d) = adj_or_new x d).
    { intros Hx. unfold adj_or_new. rewrite mfind_mset_neq; auto. intros ->. auto. }
    destruct a eqn:Ea.
    + rewrite in_app_iff. simpl. split.
      * intros [[Hx|[<-|[]]]|[Hx Hy]]; auto. rewrite X in Hy; auto.
      * intros [Hx|[[<-|Hx] Hy]]; auto. right. rewrite X; auto.
    + split.
      * intros [Hx|[Hx Hy]]; auto. rewrite X in Hy; auto.
      * intros [Hx|[[<-|Hx] Hy]]; auto; [fold a in Hy; congruence|]. right. rewrite X; auto.
  - intros HS. apply A3. now apply msorted_mset.
Qed.

Lemma remove_one_find d : wf d -> forall x,
  mfind x (remove_one uu d) =
  if x =? uu then None
  else match mfind x d with
       | None => None
       | Some l => if existsb (Nat.eqb uu) l then match erase_all uu l with [] => None | l' => Some l' end else Some l
       end.
Proof.
  intros HW x. unfold remove_one. rewrite fold_merase_find.
  set (es := adj_or_new uu d). assert (HN : NoDup es) by (now apply adj_nodup).
  assert (Hu : ~ In uu es). { intros H. apply (wf_irr d HW uu). now apply G_adj. }
  change (unlink uu es (mset uu es d)) with (fold_left stepf es (mset uu es d, [])).
  destruct (unlink_spec es HN Hu (mset uu es d) []) as (A1 & A2 & _).
  destruct (Nat.eqb_spec x uu) as [->|Hn].
  { destruct (existsb (Nat.eqb uu) _) eqn:E; auto. apply existsb_nIn in E. exfalso. apply E. apply in_or_app. right. left. auto. }
  assert (Ea : adj_or_new x (mset uu es d) = adj_or_new x d) by (unfold adj_or_new; now rewrite mfind_mset_neq by auto).
  destruct (existsb (Nat.eqb x) _) eqn:E.
  - apply existsb_In in E. apply in_app_iff in E as [E|[E|[]]]; [|congruence].
    apply A2 in E as [[]|[E1 E2]]. rewrite Ea in E2. apply G_adj in E1. apply wf_sym in E1; auto. destruct E1 as (l & E1 & E3).
    unfold adj_or_new in E2. rewrite E1 in *. assert (existsb (Nat.eqb uu) l = true) as -> by (now apply existsb_In). now rewrite E2.
  - apply existsb_nIn in E. rewrite A1. destruct (existsb (Nat.eqb x) es) eqn:E1.
    + rewrite Ea. apply existsb_In in E1. pose proof E1 as E1'. apply G_adj in E1. apply wf_sym in E1; auto. destruct E1 as (l & E2 & E3).
      unfold adj_or_new. rewrite E2. assert (existsb (Nat.eqb uu) l = true) as -> by (now apply existsb_In).
      destruct (erase_all uu l) eqn:E4; auto. exfalso. apply E. apply in_or_app. left. apply A2. right. split; auto. rewrite Ea.
      unfold adj_or_new. now rewrite E2.
    + rewrite mfind_mset_neq by auto. destruct (mfind x d) as [l|] eqn:E2; auto.
      destruct (existsb (Nat.eqb uu) l) eqn:E3; auto. exfalso. apply existsb_nIn in E1. apply E1. apply G_adj. apply wf_sym; auto.
      exists l. split; auto. now apply existsb_In.
Qed.

Lemma remove_one_sorted d : wf d -> msorted (remove_one uu d).
Proof.
  intros HW. unfold remove_one. apply fold_merase_sorted.
  set (es := adj_or_new uu d). assert (HN : NoDup es) by (now apply adj_nodup).
  assert (Hu : ~ In uu es). { intros H. apply (wf_irr d HW uu). now apply G_adj. }
  change (unlink uu es (mset uu es d)) with (fold_left stepf es (mset uu es d, [])).
  apply (unlink_spec es HN Hu (mset uu es d) []). apply msorted_mset. apply wf_sorted; auto.
Qed.

Lemma remove_one_G d : wf d -> forall v w, G (remove_one uu d) v w <-> G d v w /\ v <> uu /\ w <> uu.
Proof.
  intros HW v w. unfold G at 1. rewrite remove_one_find by auto. destruct (Nat.eqb_spec v uu) as [->|Hn].
  { split; [intros (? & ? & ?); discriminate|tauto]. }
  unfold G. destruct (mfind v d) as [l|] eqn:E; [|split; [intros (? & ? & ?); discriminate|intros ((? & ? & ?) & _); discriminate]].
  destruct (existsb (Nat.eqb uu) l) eqn:E1.
  - pose proof (erase_all_In uu w l) as HI. destruct (erase_all uu l) as [|y l'] eqn:E2.
    + split; [intros (? & ? & ?); discriminate|]. intros ((l0 & [= <-] & H) & _ & Hw). destruct HI as [_ HI]. destruct (HI (conj H Hw)).
    + split.
      * intros (l0 & [= <-] & H). apply HI in H as [H1 H2]. eauto 6.
      * intros ((l0 & [= <-] & H) & _ & Hw). exists (y :: l'). split; auto. now apply HI.
  - apply existsb_nIn in E1. split.
    + intros (l0 & [= <-] & H). repeat split; eauto. congruence.
    + intros ((l0 & [= <-] & H) & _ & Hw). eauto.
Qed.

Lemma remove_one_V d : wf d -> forall x,
  V (remove_one uu d) x <-> V d x /\ x <> uu /\ (G d x uu -> exists w, G d x w /\ w <> uu).
Proof.
  intros HW x. rewrite !V_find. rewrite remove_one_find by auto. destruct (Nat.eqb_spec x uu) as [->|Hn].
  { split; [intros (? & ?); discriminate|tauto]. }
  destruct (mfind x d) as [l|] eqn:E; [|split; [intros (? & ?); discriminate|intros ((? & ?) & _); discriminate]].
  setoid_rewrite (fun w => G_find d x l w E). destruct (existsb (Nat.eqb uu) l) eqn:E1.
  - apply existsb_In in E1. destruct (erase_all uu l) as [|y l'] eqn:E2.
    + split; [intros (? & ?); discriminate|]. intros (_ & _ & H). destruct (H E1) as (w & H1 & H2).
      assert (In w (erase_all uu l)) by (apply erase_all_In; auto). rewrite E2 in H0. destruct H0.
    + split; eauto. intros _. refine (conj (ex_intro _ l eq_refl) (conj Hn _)). intros _. exists y. apply erase_all_In. rewrite E2. left; auto.
  - apply existsb_nIn in E1. split; eauto. intros _. refine (conj (ex_intro _ l eq_refl) (conj Hn _)). tauto.
Qed.

Lemma remove_one_wf d : wf d -> wf (remove_one uu d).
Proof.
  intros HW. constructor.
  - now apply remove_one_sorted.
  - intros v w. rewrite !remove_one_G by auto. intros (H & ? & ?). split; auto. now apply wf_sym.
  - intros v. rewrite remove_one_G by auto. intros (H & _). now apply (wf_irr d HW v).
  - intros v l. rewrite remove_one_find by auto. destruct (v =? uu); [discriminate|]. destruct (mfind v d) as [l0|] eqn:E; [|discriminate].
    pose proof (wf_nodup d HW v l0 E) as HN. destruct (existsb _ _); [|intros [= <-]; auto].
    pose proof (erase_all_NoDup uu l0 HN) as HN'. destruct (erase_all uu l0); [discriminate|intros [= <-]; auto].
Qed.
End RemoveOne.

Lemma remove_all_spec R : forall d, wf d ->
  let d' := fold_left (fun d uu => remove_one uu d) R d in
  wf d' /\ (forall v w, G d' v w <-> G d v w /\ ~ In v R /\ ~ In w R) /\
  (forall x, V d' x -> V d x /\ ~ In x R) /\
  (forall x, V d x -> ~ In x R -> (forall r, In r R -> ~ G d x r) \/ (exists w, G d x w /\ ~ In w R) -> V d' x).
Proof.
  induction R as [|r R IH]; intros d HW; cbn zeta.
  { simpl. refine (conj HW (conj _ (conj _ _))); auto; intros; tauto. }
  cbn [fold_left]. destruct (IH (remove_one r d) (remove_one_wf r d HW)) as (B1 & B2 & B3 & B4).
  refine (conj B1 (conj _ (conj _ _))).
  - intros v w. rewrite B2, remove_one_G by auto. simpl. intuition congruence.
  - intros x Hx. apply B3 in Hx as [Hx1 Hx2]. apply remove_one_V in Hx1; auto. simpl. intuition congruence.
  - intros x Hx Hn Hc. simpl in Hn. apply B4; [|tauto|].
    + apply remove_one_V; auto. refine (conj Hx (conj (fun E => Hn (or_introl (eq_sym E))) _)). intros Hg.
      destruct Hc as [Hc|(w & Hw1 & Hw2)]; [destruct (Hc r (or_introl eq_refl) Hg)|]. exists w. split; auto. intros ->. apply Hw2. left; auto.
    + destruct Hc as [Hc|(w & Hw1 & Hw2)].
      * left. intros s Hs. rewrite remove_one_G by auto. intros (H & _). apply (Hc s); auto. right; auto.
      * right. exists w. rewrite remove_one_G by auto. simpl in Hw2. intuition.
Qed.

(** ** cliques *)
Lemma push_find k e d x : mfind x (push k e d) = if x =? k then Some (adj_or_new k d ++ [e]) else mfind x d.
Proof. unfold push. destruct (Nat.eqb_spec x k); [subst; apply mfind_mset_eq|now apply mfind_mset_neq]. Qed.
Lemma in_graph_G k e d : in_graph k e d = true <-> G d k e.
Proof.
  unfold in_graph, G. destruct (mfind k d) as [l|].
  - rewrite existsb_In. split; eauto. intros (l' & [= <-] & H); auto.
  - split; [discriminate|intros (? & ? & ?); discriminate].
Qed.
Lemma push_G k e d v w : G (push k e d) v w <-> G d v w \/ (v = k /\ w = e).
Proof.
  rewrite !G_adj. unfold adj_or_new at 1. rewrite push_find. destruct (Nat.eqb_spec v k) as [->|Hn].
  - rewrite in_app_iff. simpl. intuition congruence.
  - fold (adj_or_new v d). intuition congruence.
Qed.
Lemma push_V k e d x : V (push k e d) x <-> x = k \/ V d x.
Proof. apply keys_mset. Qed.

Lemma add_fill_spec d fills k e : wf d -> k <> e -> V d k -> V d e ->
  let r := add_fill k (d, fills) e in
  wf (fst r) /\ (forall x, V (fst r) x <-> V d x) /\
  (forall v w, G (fst r) v w <-> G d v w \/ (v = k /\ w = e) \/ (v = e /\ w = k)) /\
  exists F, snd r = fills ++ F /\ ((F = [] /\ G d k e) \/ (F = [(k, e)] /\ ~ G d k e)).
Proof.
  intros HW Hn Hk He. unfold add_fill. cbn [fst snd]. destruct (in_graph k e d) eqn:E; cbn zeta; cbn [fst snd].
  - apply in_graph_G in E. refine (conj HW (conj _ (conj _ _))); [tauto| |].
    + intros v w. split; auto. intros [?|[[-> ->]|[-> ->]]]; auto. now apply wf_sym.
    + exists []. rewrite app_nil_r. auto.
  - assert (Hng : ~ G d k e) by (rewrite <- in_graph_G; congruence).
    assert (HG : forall v w, G (push e k (push k e d)) v w <-> G d v w \/ (v = k /\ w = e) \/ (v = e /\ w = k)).
    { intros v w. rewrite !push_G. tauto. }
    refine (conj _ (conj _ (conj HG _))).
    + constructor.
      * do 2 apply msorted_mset. now apply wf_sorted.
      * intros v w. rewrite !HG. intros [H|[[-> ->]|[-> ->]]]; auto. left. now apply wf_sym.
      * intros v. rewrite HG. intros [H|[[? ?]|[? ?]]]; [now apply (wf_irr d HW v)|congruence|congruence].
      * intros v l. rewrite push_find. destruct (Nat.eqb_spec v e) as [->|Hv].
        -- intros [= <-]. unfold adj_or_new. rewrite push_find. destruct (Nat.eqb_spec e k); [congruence|]. fold (adj_or_new e d).
           apply NoDup_app_one; [now apply adj_nodup|]. rewrite <- G_adj. intros H. apply Hng. now apply wf_sym.
        -- rewrite push_find. destruct (Nat.eqb_spec v k) as [->|Hv'].
           ++ intros [= <-]. apply NoDup_app_one; [now apply adj_nodup|]. now rewrite <- G_adj.
           ++ apply wf_nodup; auto.
    + intros x. rewrite !push_V. intuition congruence.
    + exists [(k, e)]. auto.
Qed.

Definition unordered_once (F : list (nat * nat)) : Prop := NoDup F /\ forall v w, In (v, w) F -> ~ In (w, v) F.

Lemma add_pairs_spec ps : forall d fills, wf d -> (forall k e, In (k, e) ps -> k <> e /\ V d k /\ V d e) ->
  let r := fold_left (fun df p => add_fill (fst p) df (snd p)) ps (d, fills) in
  wf (fst r) /\ (forall x, V (fst r) x <-> V d x) /\
  (forall v w, G (fst r) v w <-> G d v w \/ In (v, w) ps \/ In (w, v) ps) /\
  exists F, snd r = fills ++ F /\ unordered_once F /\ (forall k e, In (k, e) F -> In (k, e) ps /\ ~ G d k e) /\
    (forall v w, G (fst r) v w <-> G d v w \/ In (v, w) F \/ In (w, v) F).
Proof.
  induction ps as [|[k e] ps IH]; intros d fills HW HP; cbn zeta.
  { simpl. refine (conj HW (conj _ (conj _ _))); try tauto. exists []. rewrite app_nil_r. simpl.
    refine (conj eq_refl (conj _ (conj _ _))); try tauto. split; [constructor|simpl; auto]. }
  cbn [fold_left fst snd]. destruct (HP k e (or_introl eq_refl)) as (Hn & Hk & He).
  destruct (add_fill_spec d fills k e HW Hn Hk He) as (A1 & A2 & A3 & F & A4 & A5).
  destruct (add_fill k (d, fills) e) as [d1 fills1] eqn:Ed. cbn [fst snd] in *.
  destruct (IH d1 fills1 A1) as (B1 & B2 & B3 & F' & B4 & B5 & B6 & B7).
  { intros k' e' H. rewrite !A2. apply HP. right; auto. }
  refine (conj B1 (conj _ (conj _ _))).
  - intros x. rewrite B2. apply A2.
  - intros v w. rewrite B3, A3. simpl. intuition congruence.
  - exists (F ++ F'). split; [rewrite B4, A4, app_assoc; reflexivity|].
    destruct A5 as [(-> & Hg)|(-> & Hg)]; cbn [app In].
    + refine (conj B5 (conj _ _)).
      * intros k' e' H. apply B6 in H as [H1 H2]. split; auto. intros H3. apply H2. rewrite A3. auto.
      * intros v w. rewrite B7, A3. split; [|tauto]. intros [[H|[[-> ->]|[-> ->]]]|H]; auto. left. now apply wf_sym.
    + assert (N1 : forall k' e', In (k', e') F' -> ~ (k' = k /\ e' = e) /\ ~ (k' = e /\ e' = k)).
      { intros k' e' H. apply B6 in H as [_ H]. rewrite A3 in H. tauto. }
      refine (conj _ (conj _ _)).
      * destruct B5 as [B5 B5']. split.
        -- constructor; auto. intros H. apply N1 in H. tauto.
        -- intros v w [[= <- <-]|H] [H'|H']; try congruence.
           ++ apply N1 in H'. tauto.
           ++ injection H' as <- <-. apply N1 in H. tauto.
           ++ now apply (B5' v w).
      * intros k' e' [[= <- <-]|H]; auto. apply B6 in H as [H1 H2]. split; auto. intros H3. apply H2. rewrite A3. auto.
      * intros v w. rewrite B7, A3. intuition congruence.
Qed.

Lemma add_clique_flat dd : forall df, add_clique dd df =
  fold_left (fun df p => add_fill (fst p) df (snd p)) (flat_map (fun ka => map (pair (fst ka)) (snd ka)) dd) df.
Proof.
  induction dd as [|[k l] dd IH]; intros df; simpl; auto. rewrite fold_left_app, <- IH. unfold add_clique. f_equal.
  clear. revert df. induction l as [|e l IH]; intros df; simpl; auto.
Qed.

Lemma make_clique_find l x : mfind x (make_clique l) = if existsb (Nat.eqb x) l then Some (erase_all x l) else None.
Proof.
  unfold make_clique. assert (X : forall m (acc : graph), mfind x (fold_left (fun d y => mset y (erase_all y l) d) m acc) =
    if existsb (Nat.eqb x) m then Some (erase_all x l) else mfind x acc).
  { induction m as [|y m IH]; intros acc; simpl; auto. rewrite IH. destruct (existsb (Nat.eqb x) m).
    - now rewrite orb_true_r.
    - rewrite orb_false_r. destruct (Nat.eqb_spec x y); [subst; apply mfind_mset_eq|now apply mfind_mset_neq]. }
  apply X.
Qed.
Lemma make_clique_sorted l : msorted (make_clique l).
Proof.
  unfold make_clique. assert (X : forall m (acc : graph), msorted acc -> msorted (fold_left (fun d y => mset y (erase_all y l) d) m acc)).
  { induction m as [|y m IH]; intros acc H; simpl; auto. apply IH. now apply msorted_mset. }
  apply X. constructor.
Qed.
Lemma clique_pairs l k e : In (k, e) (flat_map (fun ka => map (pair (fst ka)) (snd ka)) (make_clique l)) <-> In k l /\ In e l /\ k <> e.
Proof.
  rewrite in_flat_map. split.
  - intros ((k' & a) & H1 & H2). apply in_map_iff in H2 as (e' & H2 & H3). cbn [fst snd] in *. injection H2 as -> ->.
    apply In_mfind in H1; [|apply make_clique_sorted]. rewrite make_clique_find in H1. destruct (existsb _ _) eqn:E; [|discriminate].
    injection H1 as <-. apply existsb_In in E. apply erase_all_In in H3 as [H3 H4]. auto.
  - intros (H1 & H2 & H3). exists (k, erase_all k l). split.
    + apply mfind_In. rewrite make_clique_find. now replace (existsb (Nat.eqb k) l) with true by (symmetry; now apply existsb_In).
    + apply in_map_iff. exists e. split; auto. apply erase_all_In. auto.
Qed.

Lemma add_clique_spec l d fills : wf d -> (forall k, In k l -> V d k) ->
  let r := add_clique (make_clique l) (d, fills) in
  wf (fst r) /\ (forall x, V (fst r) x <-> V d x) /\
  (forall v w, G (fst r) v w <-> G d v w \/ (In v l /\ In w l /\ v <> w)) /\
  exists F, snd r = fills ++ F /\ unordered_once F /\ (forall k e, In (k, e) F -> In k l /\ In e l /\ k <> e /\ ~ G d k e) /\
    (forall v w, G (fst r) v w <-> G d v w \/ In (v, w) F \/ In (w, v) F).
Proof.
  intros HW HV. cbn zeta. rewrite add_clique_flat.
  destruct (add_pairs_spec (flat_map (fun ka => map (pair (fst ka)) (snd ka)) (make_clique l)) d fills HW) as (A1 & A2 & A3 & F & A4 & A5 & A6 & A7).
  { intros k e H. apply clique_pairs in H as (H1 & H2 & H3). auto. }
  refine (conj A1 (conj A2 (conj _ _))).
  - intros v w. rewrite A3, !clique_pairs. intuition.
  - exists F. refine (conj A4 (conj A5 (conj _ A7))). intros k e H. apply A6 in H as [H1 H2]. apply clique_pairs in H1. intuition.
Qed.

(** ** degrees *)
Record lk_ok (g : lookup) : Prop := {
  lk_sorted : msorted (d2v g);
  lk_nonempty : forall deg s, mfind deg (d2v g) = Some s -> s <> [];
  lk_iff : forall deg u, (exists s, mfind deg (d2v g) = Some s /\ In u s) <-> mfind u (v2d g) = Some deg }.

Lemma remove_degree_find u deg m x :
  mfind x (remove_degree u deg m) =
  if x =? deg then match mfind deg m with None => None | Some s => match serase u s with [] => None | s' => Some s' end end else mfind x m.
Proof.
  unfold remove_degree. destruct (Nat.eqb_spec x deg) as [->|Hn]; destruct (mfind deg m) eqn:E; auto; destruct (serase u l).
  - apply mfind_merase_eq.
  - apply mfind_mset_eq.
  - now apply mfind_merase_neq.
  - now apply mfind_mset_neq.
Qed.
Lemma remove_degree_sorted u deg m : msorted m -> msorted (remove_degree u deg m).
Proof. unfold remove_degree. destruct (mfind deg m); auto. destruct (serase u l); intros; [now apply msorted_merase|now apply msorted_mset]. Qed.
Lemma insert_degree_find u deg m x :
  mfind x (insert_degree u deg m) =
  if x =? deg then Some (sinsert u (match mfind deg m with Some s => s | None => [] end)) else mfind x m.
Proof. unfold insert_degree. destruct (Nat.eqb_spec x deg) as [->|Hn]; [apply mfind_mset_eq|now apply mfind_mset_neq]. Qed.

Lemma lk_erase_spec u g : lk_ok g -> lk_ok (lk_erase u g) /\ forall x, mfind x (v2d (lk_erase u g)) = if x =? u then None else mfind x (v2d g).
Proof.
  intros [S N I]. unfold lk_erase. destruct (mfind u (v2d g)) as [deg|] eqn:E.
  - cbn [v2d d2v]. assert (HD : forall x, mfind x (merase u (v2d g)) = if x =? u then None else mfind x (v2d g)).
    { intros x. destruct (Nat.eqb_spec x u); [subst; apply mfind_merase_eq|now apply mfind_merase_neq]. }
    split; [|exact HD]. constructor; cbn [v2d d2v].
    + now apply remove_degree_sorted.
    + intros d0 s. rewrite remove_degree_find. destruct (Nat.eqb_spec d0 deg).
      * destruct (mfind deg (d2v g)); [|discriminate]. destruct (serase u l); [discriminate|]. intros [= <-]. discriminate.
      * apply N.
    + intros d0 x. rewrite HD, remove_degree_find. destruct (Nat.eqb_spec d0 deg) as [->|Hn].
      * destruct (mfind deg (d2v g)) as [s|] eqn:Es.
        -- pose proof (serase_In u x s) as HI. pose proof (proj1 (I deg x)) as I1. pose proof (proj2 (I deg x)) as I2. rewrite Es in I1, I2.
           destruct (Nat.eqb_spec x u) as [->|Hx].
           ++ split; [|discriminate]. intros (s' & H1 & H2). destruct (serase u s); [discriminate|]. injection H1 as <-. apply HI in H2. tauto.
           ++ split.
              ** intros (s' & H1 & H2). apply I1. exists s. split; auto. destruct (serase u s); [discriminate|]. injection H1 as <-. now apply HI.
              ** intros H. destruct (I2 H) as (s' & [= <-] & H2). destruct (serase u s) as [|y l].
                 --- destruct HI as [_ HI]. destruct (HI (conj H2 Hx)).
                 --- exists (y :: l). split; auto. now apply HI.
        -- pose proof (proj2 (I deg u) E) as (s & H & _). congruence.
      * rewrite I. destruct (Nat.eqb_spec x u) as [->|Hx]; [|tauto]. split; [congruence|discriminate].
  - split; [constructor; auto|]. intros x. destruct (Nat.eqb_spec x u); [subst; auto|auto].
Qed.

Lemma lk_insert_ok u deg g : lk_ok g -> mfind u (v2d g) = None -> lk_ok (mkLookup (mset u deg (v2d g)) (insert_degree u deg (d2v g))).
Proof.
  intros [S N I] E. constructor; cbn [v2d d2v].
  - unfold insert_degree. now apply msorted_mset.
  - intros d0 s. rewrite insert_degree_find. destruct (d0 =? deg); [|apply N]. intros [= <-] H.
    assert (In u []) as []. rewrite <- H. apply sinsert_In. auto.
  - intros d0 x. rewrite insert_degree_find. destruct (Nat.eq_dec x u) as [->|Hx].
    + rewrite mfind_mset_eq. destruct (Nat.eqb_spec d0 deg) as [->|Hn].
      * split; auto. intros _. eexists; split; [reflexivity|]. apply sinsert_In; auto.
      * rewrite I. split; congruence.
    + rewrite mfind_mset_neq by auto. rewrite <- I. destruct (Nat.eqb_spec d0 deg) as [->|Hn]; [|tauto]. split.
      * intros (s & [= <-] & H). apply sinsert_In in H as [H|H]; [congruence|]. destruct (mfind deg (d2v g)); [eauto|destruct H].
      * intros (s & H1 & H2). rewrite H1. eexists; split; [reflexivity|]. apply sinsert_In; auto.
Qed.

Lemma lk_set_spec u deg g : lk_ok g -> lk_ok (lk_set u deg g) /\ forall x, mfind x (v2d (lk_set u deg g)) = if x =? u then Some deg else mfind x (v2d g).
Proof.
  intros HO.
  assert (HD : forall x m, mfind x (mset u deg m) = if x =? u then Some deg else mfind x m).
  { intros x m. destruct (Nat.eqb_spec x u); [subst; apply mfind_mset_eq|now apply mfind_mset_neq]. }
  unfold lk_set. destruct (mfind u (v2d g)) as [old|] eqn:E; split; try (intros x; cbn [v2d]; apply HD).
  - pose proof (lk_erase_spec u g HO) as [HO' HE]. unfold lk_erase in HO', HE. rewrite E in HO', HE.
    assert (HX : mfind u (v2d (mkLookup (merase u (v2d g)) (remove_degree u old (d2v g)))) = None) by (apply mfind_merase_eq).
    pose proof (lk_insert_ok u deg _ HO' HX) as [S N I]. cbn [v2d d2v] in *. constructor; cbn [v2d d2v]; auto.
    intros d0 x. rewrite I, !HD. destruct (Nat.eqb_spec x u); [tauto|]. rewrite mfind_merase_neq by auto. tauto.
  - now apply lk_insert_ok.
Qed.

Lemma lk_erase_all l : forall g, lk_ok g ->
  let g' := fold_left (fun g uu => lk_erase uu g) l g in
  lk_ok g' /\ forall x, mfind x (v2d g') = if existsb (Nat.eqb x) l then None else mfind x (v2d g).
Proof.
  induction l as [|u l IH]; intros g HO; cbn zeta; [simpl; auto|]. cbn [fold_left]. destruct (lk_erase_spec u g HO) as [A1 A2].
  destruct (IH _ A1) as [B1 B2]. split; auto. intros x. rewrite B2, A2. simpl. destruct (x =? u); simpl; auto. now destruct (existsb _ _).
Qed.
Lemma lk_set_all (f : nat -> nat) l : forall g, lk_ok g ->
  let g' := fold_left (fun g e => lk_set e (f e) g) l g in
  lk_ok g' /\ forall x, mfind x (v2d g') = if existsb (Nat.eqb x) l then Some (f x) else mfind x (v2d g).
Proof.
  induction l as [|u l IH]; intros g HO; cbn zeta; [simpl; auto|]. cbn [fold_left]. destruct (lk_set_spec u (f u) g HO) as [A1 A2].
  destruct (IH _ A1) as [B1 B2]. split; auto. intros x. rewrite B2, A2. simpl. destruct (Nat.eqb_spec x u); simpl; auto.
  subst. now destruct (existsb _ _).
Qed.

(** the lookup holds the degrees of the graph *)
Definition degrees_ok (g : lookup) (d : graph) : Prop := lk_ok g /\ forall u, mfind u (v2d g) = option_map (@length nat) (mfind u d).

Lemma degrees_of_ok d : wf d -> degrees_ok (degrees_of d) d.
Proof.
  intros HW. unfold degrees_of. pose proof (wf_sorted d HW) as HS. clear HW. unfold degrees_ok.
  assert (X : forall m g, lk_ok g -> msorted m ->
    let g' := fold_left (fun g (ka : nat * list nat) => lk_set (fst ka) (length (snd ka)) g) m g in
    lk_ok g' /\ forall u, mfind u (v2d g') = match mfind u m with Some l => Some (length l) | None => mfind u (v2d g) end).
  { clear. induction m as [|[k l] m IH]; intros g HO HS; cbn zeta; [simpl; auto|]. cbn [fold_left fst snd].
    destruct (lk_set_spec k (length l) g HO) as [A1 A2]. inversion HS as [|? ? HS' HF]; subst.
    destruct (IH _ A1 HS') as [B1 B2]. split; auto. intros u. rewrite B2, A2. simpl. destruct (Nat.eqb_spec u k) as [->|Hn]; auto.
    destruct (mfind k m) eqn:E; auto. exfalso. rewrite Forall_forall in HF. assert (In k (keys m)) by (apply mfind_keys; congruence).
    apply HF in H. lia. }
  destruct (X d (mkLookup [] [])) as [A1 A2]; auto.
  { constructor; simpl; [constructor|discriminate|]. intros deg u. split; [intros (? & ? & ?); discriminate|discriminate]. }
Qed.

Lemma min_element_spec g d : degrees_ok g d -> d <> [] ->
  exists u l, min_element g = Some u /\ mfind u d = Some l /\ forall x lx, mfind x d = Some lx -> length l <= length lx.
Proof.
  intros [[S N I] HD] Hd. unfold min_element.
  destruct d as [|[k lk] d0] eqn:Ed; [congruence|]. rewrite <- Ed in *.
  assert (Hk : mfind k d = Some lk) by (subst; simpl; now rewrite Nat.eqb_refl).
  assert (Hk' : mfind k (v2d g) = Some (length lk)) by (rewrite HD, Hk; auto). apply I in Hk' as (s & Hs1 & Hs2).
  destruct (d2v g) as [|[deg s0] m] eqn:Em; [discriminate|].
  assert (Hf : mfind deg (d2v g) = Some s0) by (rewrite Em; simpl; now rewrite Nat.eqb_refl).
  rewrite Em in Hf. destruct s0 as [|u s0]; [exfalso; now apply (N deg [])|].
  assert (Hu : mfind u (v2d g) = Some deg) by (apply I; exists (u :: s0); split; auto; left; auto).
  rewrite Hu. rewrite HD in Hu. destruct (mfind u d) as [l|] eqn:El; [|discriminate]. injection Hu as Hu.
  exists u, l. refine (conj eq_refl (conj El _)). intros x lx Hx. assert (Hx' : mfind x (v2d g) = Some (length lx)) by (rewrite HD, Hx; auto).
  apply I in Hx' as (sx & Hx1 & _). rewrite Hu. apply mfind_In in Hx1. destruct Hx1 as [[= H _]|Hx1]; [lia|].
  unfold msorted in S. simpl in S. inversion S as [|? ? _ HF]; subst. rewrite Forall_forall in HF.
  specialize (HF _ (in_map fst _ _ Hx1)). simpl in HF. lia.
Qed.

(** ** indistinguishable vertices *)
Lemma indist_spec lu d l : (forall v, In v l -> V d v) ->
  exists rl, indistinguishable lu d l = Some rl /\
    (forall v, In v rl <-> In v l /\ exists lv, mfind v d = Some lv /\ lu = sort_idx (lv ++ [v])) /\ (NoDup l -> NoDup rl).
Proof.
  induction l as [|v l IH]; intros HV; simpl.
  { exists []. refine (conj eq_refl (conj _ _)); [simpl; tauto|constructor]. }
  destruct (proj1 (V_find d v) (HV v (or_introl eq_refl))) as [lv Hv]. rewrite Hv.
  destruct IH as (rl & -> & H2 & H3); [intros; apply HV; right; auto|].
  eexists; split; [reflexivity|]. destruct (list_eq_dec Nat.eq_dec lu (sort_idx (lv ++ [v]))) as [E|E]; split.
  - intros x. simpl. rewrite H2. split.
    + intros [<-|[Hx He]]; eauto.
    + intros [[<-|Hx] He]; eauto.
  - intros HN. inversion HN; subst. constructor; auto. rewrite H2. tauto.
  - intros x. simpl. rewrite H2. split; [intros [Hx He]; auto|]. intros [[<-|Hx] He]; auto. destruct He as (lv' & E1 & E2). congruence.
  - intros HN. inversion HN; subst. auto.
Qed.

Lemma indist_nbhd d u l v lv : mfind u d = Some l -> mfind v d = Some lv -> sort_idx (l ++ [u]) = sort_idx (lv ++ [v]) ->
  forall x, G d u x \/ x = u <-> G d v x \/ x = v.
Proof.
  intros Hu Hv E x. rewrite (G_find d u l x Hu), (G_find d v lv x Hv). apply sort_eq_iff in E.
  assert (H : In x (l ++ [u]) <-> In x (lv ++ [v])) by (split; apply Permutation_in; [auto|symmetry; auto]).
  assert (X : forall (m : list nat) y, In x (m ++ [y]) <-> In x m \/ x = y) by (intros; rewrite in_app_iff; simpl; intuition).
  rewrite !X in H. exact H.
Qed.

Lemma fold_erase u rl : forall l x, ~ In u rl ->
  In x (fold_left (fun l uu => if uu =? u then l else erase_all uu l) (rl ++ [u]) l) <-> In x l /\ ~ In x rl.
Proof.
  induction rl as [|r rl IH]; intros l x Hn; simpl.
  - rewrite Nat.eqb_refl. tauto.
  - rewrite IH by (intros ?; apply Hn; right; auto). destruct (Nat.eqb_spec r u) as [->|]; [exfalso; apply Hn; left; auto|].
    rewrite erase_all_In. intuition congruence.
Qed.

(** ** one elimination step *)
Record step_result (u : nat) (d d' : graph) (rl : list nat) (F : list (nat * nat)) : Prop := {
  sr_wf : wf d';
  sr_rl : NoDup rl /\ ~ In u rl;
  sr_twins : forall v, In v rl -> G d u v /\ forall x, G d u x \/ x = u <-> G d v x \/ x = v;
  sr_V : forall x, V d' x <-> V d x /\ x <> u /\ ~ In x rl;
  sr_G : forall v w, G d' v w <-> V d' v /\ V d' w /\ v <> w /\ (G d v w \/ (G d u v /\ G d u w));
  sr_F : unordered_once F /\ forall v w, In (v, w) F -> V d' v /\ V d' w /\ v <> w /\ ~ G d v w /\ G d u v /\ G d u w;
  sr_GF : forall v w, V d' v -> V d' w -> (G d' v w <-> G d v w \/ In (v, w) F \/ In (w, v) F);
  sr_nonisolated : (exists w, G d u w) -> forall v, V d' v -> exists w, G d' v w }.

Lemma step_spec u l d dgd fills : wf d -> degrees_ok dgd d -> mfind u d = Some l ->
  (forall x lx, mfind x d = Some lx -> length l <= length lx) ->
  exists d' dgd' rl F, remove_vertices_update_degrees u d dgd fills = Some (d', dgd', fills ++ F, rl) /\
    degrees_ok dgd' d' /\ step_result u d d' rl F.
Proof.
  intros HW HD Hu Hmin. unfold remove_vertices_update_degrees, check_indistinguishable. rewrite Hu.
  assert (HGu : forall w, G d u w <-> In w l) by (intros; now apply G_find).
  destruct (indist_spec (sort_idx (l ++ [u])) d l) as (rl & -> & Hrl & HrlN).
  { intros v Hv. eapply G_V2; eauto. now apply HGu. }
  assert (HNl : NoDup l) by (eapply wf_nodup; eauto). specialize (HrlN HNl).
  assert (Hul : ~ In u l) by (rewrite <- HGu; apply wf_irr; auto).
  assert (Hurl : ~ In u rl) by (rewrite Hrl; tauto).
  assert (Htw : forall v, In v rl -> G d u v /\ forall x, G d u x \/ x = u <-> G d v x \/ x = v).
  { intros v Hv. apply Hrl in Hv as (Hv & lv & E1 & E2). split; [now apply HGu|]. eapply indist_nbhd; eauto. }
  set (nbs := fold_left _ (rl ++ [u]) l).
  assert (Hnbs : forall x, In x nbs <-> G d u x /\ ~ In x rl). { intros x. unfold nbs. rewrite fold_erase by auto. now rewrite HGu. }
  destruct (remove_all_spec (rl ++ [u]) d HW) as (B1 & B2 & B3 & B4). set (d1 := fold_left _ (rl ++ [u]) d) in *.
  assert (HR : forall x, In x (rl ++ [u]) <-> In x rl \/ x = u) by (intros; rewrite in_app_iff; simpl; intuition).
  (* neighbours of removed vertices are neighbours of u *)
  assert (Hadj : forall x r, In r (rl ++ [u]) -> G d x r -> ~ In x (rl ++ [u]) -> G d u x).
  { intros x r Hr Hg Hx. apply HR in Hr as [Hr| ->]; [|now apply wf_sym]. apply Htw in Hr as [_ Hr].
    assert (G d r x \/ x = r) as Hx' by (left; now apply wf_sym). apply Hr in Hx' as [H| ->]; auto. exfalso. apply Hx. apply HR. auto. }
  (* no remaining vertex disappears *)
  assert (Hkeep : forall x, V d x -> ~ In x (rl ++ [u]) -> G d u x -> exists w, G d x w /\ ~ In w (rl ++ [u])).
  { intros x Hx Hn Hg. apply V_find in Hx as [lx Hx]. 
    destruct (existsb (fun w => negb (existsb (Nat.eqb w) (rl ++ [u]))) lx) eqn:E.
    - apply existsb_exists in E as (w & E1 & E2). exists w. split; [now apply (G_find d x lx w Hx)|]. apply existsb_nIn. now apply negb_true_iff.
    - exfalso. assert (Hsub : incl lx (rl ++ [u])).
      { intros w Hw. apply existsb_In. destruct (existsb (Nat.eqb w) (rl ++ [u])) eqn:E1; auto.
        assert (existsb (fun w => negb (existsb (Nat.eqb w) (rl ++ [u]))) lx = true); [|congruence]. apply existsb_exists. exists w. now rewrite E1. }
      apply Hn. apply HR. left. apply Hrl. split; [now apply HGu|]. exists lx. split; auto. apply sort_eq_iff.
      assert (HNx : NoDup lx) by exact (wf_nodup d HW x lx Hx).
      assert (Hxlx : ~ In x lx) by (rewrite <- (G_find d x lx x Hx); apply wf_irr; auto).
      symmetry. apply NoDup_Permutation_bis.
      + apply NoDup_app_one; auto.
      + rewrite !app_length. simpl. apply Hmin in Hx. lia.
      + intros y Hy. apply in_app_iff in Hy as [Hy|[<-|[]]].
        * apply Hsub in Hy. apply HR in Hy as [Hy| ->]; apply in_app_iff; [left; apply Hrl in Hy; tauto|right; left; auto].
        * apply in_app_iff. left. now apply HGu. }
  assert (HV1 : forall x, V d1 x <-> V d x /\ ~ In x (rl ++ [u])).
  { intros x. split; [apply B3|]. intros [H1 H2]. apply B4; auto.
    destruct (in_dec Nat.eq_dec x l) as [Hx|Hx].
    - right. apply Hkeep; auto. now apply HGu.
    - left. intros r Hr Hg. apply Hx. apply HGu. eapply Hadj; eauto. }
  destruct (add_clique_spec nbs d1 fills B1) as (C1 & C2 & C3 & F & C4 & C5 & C6 & C7).
  { intros k Hk. apply Hnbs in Hk as [Hk1 Hk2]. apply HV1. split; [eapply G_V2; eauto|]. rewrite HR. intros [?| ->]; [auto|now apply (wf_irr d HW u)]. }
  set (df := add_clique (make_clique nbs) (d1, fills)) in *. rewrite C4.
  assert (HVd' : forall x, V (fst df) x <-> V d x /\ x <> u /\ ~ In x rl). { intros x. rewrite C2, HV1, HR. tauto. }
  assert (HGd' : forall v w, G (fst df) v w <-> V (fst df) v /\ V (fst df) w /\ v <> w /\ (G d v w \/ (G d u v /\ G d u w))).
  { intros v w. split.
    - intros H. pose proof (G_V _ _ _ H) as H1. pose proof (G_V2 _ _ _ C1 H) as H2.
      assert (v <> w) by (intros ->; now apply (wf_irr _ C1 w)). refine (conj H1 (conj H2 (conj H0 _))).
      apply C3 in H as [H|(Ha & Hb & _)]; [left; now apply B2 in H|right]. apply Hnbs in Ha, Hb. tauto.
    - intros (H1 & H2 & H3 & H4). apply HVd' in H1, H2. apply C3. destruct H4 as [H4|[H4 H5]].
      + left. apply B2. rewrite !HR. tauto.
      + right. rewrite !Hnbs. tauto. }
  destruct (lk_erase_all (rl ++ [u]) dgd (proj1 HD)) as [D1 D2]. set (dgd1 := fold_left _ (rl ++ [u]) dgd) in *.
  destruct (lk_set_all (fun e => num_adjacent e (fst df)) nbs dgd1 D1) as [E1 E2].
  do 4 eexists. split; [reflexivity|]. split; [split; [exact E1|]|].
  - intros x. rewrite E2. destruct (existsb (Nat.eqb x) nbs) eqn:Ex.
    + apply existsb_In in Ex. unfold num_adjacent. apply Hnbs in Ex as [Ex1 Ex2].
      assert (Hx : V (fst df) x). { apply HVd'. refine (conj (G_V2 _ _ _ HW Ex1) (conj _ Ex2)). intros ->. now apply (wf_irr d HW u). }
      apply V_find in Hx as [lx ->]. reflexivity.
    + apply existsb_nIn in Ex. rewrite D2. destruct (existsb (Nat.eqb x) (rl ++ [u])) eqn:Ey.
      * apply existsb_In in Ey. destruct (mfind x (fst df)) eqn:Ez; auto. exfalso.
        assert (H : V (fst df) x) by (apply V_find; eauto). apply HVd' in H. apply HR in Ey. tauto.
      * apply existsb_nIn in Ey. rewrite (proj2 HD).
        assert (Hxu : ~ G d u x). { intros H. apply Ex. apply Hnbs. split; auto. intros Hr. apply Ey. apply HR. auto. }
        destruct (mfind x d) as [lx|] eqn:Ez.
        -- assert (H : V (fst df) x). { apply HVd'. rewrite HR in Ey. refine (conj _ (conj _ _)); [apply V_find; eauto|tauto|tauto]. }
           apply V_find in H as [lx' Hx']. rewrite Hx'. simpl. f_equal. apply Permutation_length. apply NoDup_Permutation.
           ++ exact (wf_nodup d HW x lx Ez).
           ++ exact (wf_nodup _ C1 x lx' Hx').
           ++ intros y. rewrite <- (G_find _ _ _ y Ez), <- (G_find _ _ _ y Hx'). rewrite HGd'. split.
              ** intros H. refine (conj _ (conj _ (conj _ (or_introl H)))).
                 --- apply V_find; eauto.
                 --- apply HVd'. refine (conj (G_V2 _ _ _ HW H) _). enough (~ (y = u \/ In y rl)) by tauto. intros Hy.
                     apply Hxu. apply (Hadj x y); auto. apply HR. tauto.
                 --- intros ->. now apply (wf_irr d HW y).
              ** intros (_ & _ & _ & [H|[H _]]); tauto.
        -- destruct (mfind x (fst df)) eqn:E; auto. exfalso. assert (H : V (fst df) x) by (apply V_find; eauto). apply HVd' in H as [H _].
           apply V_find in H as [? ?]. congruence.
  - constructor; auto.
    + split; auto. intros v w H. apply C6 in H as (H1 & H2 & H3 & H4). apply Hnbs in H1, H2.
      assert (Hv : V (fst df) v). { apply HVd'. refine (conj (G_V2 _ _ _ HW (proj1 H1)) (conj _ (proj2 H1))). intros ->. now apply (wf_irr d HW u). }
      assert (Hw : V (fst df) w). { apply HVd'. refine (conj (G_V2 _ _ _ HW (proj1 H2)) (conj _ (proj2 H2))). intros ->. now apply (wf_irr d HW u). }
      refine (conj Hv (conj Hw (conj H3 (conj _ (conj (proj1 H1) (proj1 H2)))))). intros H. apply H4. apply B2. rewrite !HR.
      apply HVd' in Hv, Hw. tauto.
    + intros v w Hv Hw. rewrite C7, B2. apply HVd' in Hv, Hw. rewrite !HR. tauto.
    + intros (w0 & Hw0) v Hv. pose proof Hv as Hv'. apply HVd' in Hv' as (Hv1 & Hv2 & Hv3).
      destruct (in_dec Nat.eq_dec v l) as [Hl|Hl].
      * destruct (Hkeep v Hv1) as (w & Hw1 & Hw2); [rewrite HR; tauto|now apply HGu|]. exists w. apply HGd'.
        rewrite HR in Hw2. refine (conj Hv (conj _ (conj _ (or_introl Hw1)))); [|intros ->; now apply (wf_irr d HW w)].
        apply HVd'. refine (conj (G_V2 _ _ _ HW Hw1) _). tauto.
      * apply V_find in Hv1 as [lv Hlv]. pose proof (Hmin _ _ Hlv) as Hm. apply HGu in Hw0. destruct l as [|l0 l']; [destruct Hw0|].
        destruct lv as [|w lv]; [simpl in Hm; lia|]. assert (Hg : G d v w) by (apply (G_find _ _ _ w Hlv); left; auto).
        exists w. apply HGd'. refine (conj Hv (conj _ (conj _ (or_introl Hg)))); [|intros ->; now apply (wf_irr d HW w)].
        apply HVd'. refine (conj (G_V2 _ _ _ HW Hg) _). enough (~ (w = u \/ In w rl)) by tauto. intros Hy. apply Hl. apply HGu. apply (Hadj v w); auto.
        -- apply HR. tauto.
        -- rewrite HR. tauto.
Qed.
