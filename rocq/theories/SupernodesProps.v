(** C24: links that are closed at both ends merge nodes, nothing else does. *)
From Verif Require Import Common Topology TopologySpec TopologyDfs TopologyFacts TopologyProps Supernodes SupernodesSpec SupernodesFacts.

Section Props.
Variable t : user_topo.
Variable conn : list (bool * bool).
Hypothesis wf : links_well_formed t conn.
Notation n := (n_node (ut_graph t)).
Notation links := (ut_links t).
Notation es := (internal_edges links conn).
Notation closed_link := (closed_link t conn).
Notation merged := (merged t conn).

Lemma edges_closed x y : In (x, y) es <-> closed_link x y.
Proof.
  unfold internal_edges. rewrite in_flat_map. split.
  - intros (((a, b), (cf, ct)) & Hin & He). apply In_nth_error in Hin as (k & Hk). apply nth_combine in Hk as [H1 H2].
    unfold link_edges in He. destruct cf, ct; simpl in He; try tauto. exists k. split; auto. destruct He as [[= -> ->]|[[= -> ->]|[]]]; auto.
  - intros (k & Hc & Hl). destruct Hl as [Hl|Hl].
    + exists ((x, y), (true, true)). split; [|left; auto]. apply nth_error_In with k. apply nth_combine. auto.
    + exists ((y, x), (true, true)). split; [|right; left; auto]. apply nth_error_In with k. apply nth_combine. auto.
Qed.
Lemma reach_merged x y : reach es x y <-> merged x y.
Proof.
  split; (induction 1; [constructor|]).
  - apply merged_step with y; auto. now apply edges_closed.
  - apply reach_step with y; auto. now apply edges_closed.
Qed.
Lemma closed_link_sym x y : closed_link x y -> closed_link y x.
Proof. intros (k & H & [H'|H']); exists k; auto. Qed.
Lemma closed_link_lt x y : closed_link x y -> y < n.
Proof. intros (k & _ & [H|H]); apply (lw_ends t conn wf) in H; lia. Qed.
Lemma edges_sym x y : In (x, y) es -> In (y, x) es.
Proof. rewrite !edges_closed. apply closed_link_sym. Qed.
Lemma edges_lt x y : In (x, y) es -> y < n.
Proof. rewrite edges_closed. apply closed_link_lt. Qed.

(** the mapping that the search makes *)
Definition good_mapping (m : node_mapping) : Prop :=
  length (topo_of m) = n /\ (forall x, x < n -> at_node (topo_of m) x < n_topo_nodes m) /\
  (forall x y, x < n -> y < n -> (at_node (topo_of m) x = at_node (topo_of m) y <-> merged x y)) /\
  (forall g, g < n_topo_nodes m -> exists x, x < n /\ at_node (topo_of m) x = g).
Lemma mapping_ok : exists m, find_link_connected_components n links conn = Some m /\ good_mapping m.
Proof.
  unfold find_link_connected_components. destruct (components_ok es n edges_lt edges_sym) as (lab & k & E & [H1 H2 H3 H4 H5]). rewrite E.
  eexists; split; [reflexivity|].
  assert (Hat : forall x, x < n -> exists c, lab x = Some c /\ at_node (map (at_lab lab) (seq 0 n)) x = c).
  { intros x Hx. destruct (lab x) as [c|] eqn:Ex; [|destruct (H1 x Hx Ex)]. exists c. split; auto. unfold at_node. apply nth_error_nth.
    rewrite nth_error_map. rewrite (proj2 (nth_seq 0 n x x)); [|lia]. simpl. unfold at_lab. now rewrite Ex. }
  unfold good_mapping. cbn [topo_of n_topo_nodes]. refine (conj _ (conj _ (conj _ _))).
  - now rewrite map_length, seq_length.
  - intros x Hx. destruct (Hat x Hx) as (c & Ec & ->). now apply (H2 x).
  - intros x y Hx Hy. destruct (Hat x Hx) as (c & Ec & ->), (Hat y Hy) as (d & Ed & ->). split.
    + intros <-. apply reach_merged. now apply (H4 x y c).
    + intros Hm. apply reach_merged in Hm. assert (E1 : lab y = Some c).
      { clear - Hm Ec H3. induction Hm; auto. apply (H3 y z); auto. } congruence.
  - intros g Hg. destruct (H5 g Hg) as (x & Hx). pose proof (H2 x g Hx) as [_ Hlt]. exists x. split; auto. destruct (Hat x Hlt) as (c & Ec & ->). congruence.
Qed.

(** the topological node of a user node, in the result *)
Definition topo (coup : topo_coupling) (x : nat) : option nat := option_map fst (nth_error (user_node_coup coup) x).

Lemma topo_created m : good_mapping m -> forall x, x < n -> topo (create_topological_nodes links conn m) x = Some (at_node (topo_of m) x).
Proof.
  intros (Gl & Gr & Gm & Gu) x Hx.
  assert (Hmp : forall x g, nth_error (topo_of m) x = Some g <-> x < n /\ at_node (topo_of m) x = g).
  { intros y g. unfold at_node. split.
    - intros Hy. split; [rewrite <- Gl; apply nth_error_Some; congruence|now apply nth_error_nth].
    - intros [Hy <-]. apply nth_error_nth'. rewrite Gl. exact Hy. }
  assert (Hmlt : forall x g, nth_error (topo_of m) x = Some g -> g < n_topo_nodes m) by (intros y g Hy; apply Hmp in Hy as [Hy <-]; auto).
  pose proof (nodes_ok (topo_of m) (n_topo_nodes m) Hmlt) as [N1 N2 N3 N4 N5]. unfold topo, create_topological_nodes. cbn [user_node_coup].
  destruct (nth_error (snd (fold_left add_node (combine (seq 0 (length (topo_of m))) (topo_of m)) (repeat (mkTopoNode [] []) (n_topo_nodes m), []))) x) as [[g p]|] eqn:E.
  - destruct (N4 x g p E) as [H _]. apply Hmp in H as [_ <-]. reflexivity.
  - apply nth_error_None in E. rewrite N3, Gl in E. lia.
Qed.

(** C24 *)
Theorem C24_merged : exists t' coup, reduce_topology t conn = Some (t', coup) /\
  (** same topological node iff joined by closed links *)
  (forall x y gx gy, x < n -> y < n -> topo coup x = Some gx -> topo coup y = Some gy -> (gx = gy <-> merged x y)) /\
  (** every node has a place, and the two maps are inverse to each other *)
  (forall x, x < n -> exists g p, nth_error (user_node_coup coup) x = Some (g, p)) /\
  (forall x g p, nth_error (user_node_coup coup) x = Some (g, p) <->
     exists tn, nth_error (topo_nodes coup) g = Some tn /\ nth_error (user_nodes tn) p = Some x) /\
  (forall g tn, nth_error (topo_nodes coup) g = Some tn -> user_nodes tn <> []) /\
  (** everything else is attached to the topological node of its own node *)
  (forall k i j, i < n -> j < n -> nth_error (branch_node_idx (ut_graph t)) k = Some (i, j) ->
     exists gi gj, topo coup i = Some gi /\ topo coup j = Some gj /\ nth_error (branch_node_idx (ut_graph t')) k = Some (gi, gj)) /\
  (forall k b, (forall s, of_side s b < n) -> nth_error (branch3_node_idx (ut_graph t)) k = Some b ->
     exists b', nth_error (branch3_node_idx (ut_graph t')) k = Some b' /\ forall s, topo coup (of_side s b) = Some (of_side s b')) /\
  (forall f, In f [fun u => source_node_idx (ut_graph u); ut_shunt; ut_load_gen; ut_voltage_sensor] ->
     forall k x, x < n -> nth_error (f t) k = Some x -> nth_error (f t') k = topo coup x).
Proof.
  unfold reduce_topology. destruct links as [|l0 ls] eqn:El.
  - (* no links *)
    eexists _, _. split; [reflexivity|]. cbn [user_node_coup topo_nodes].
    set (nt := n_node_total (ut_graph t)). assert (Hnt : n <= nt) by (unfold nt, n_node_total; lia).
    assert (Hc : forall x, nth_error (map (fun x : nat => (x, 0)) (seq 0 nt)) x = if x <? nt then Some (x, 0) else None).
    { intros x. destruct (Nat.ltb_spec x nt).
      - rewrite nth_error_map, (proj2 (nth_seq 0 nt x x)); [reflexivity|lia].
      - apply nth_error_None. now rewrite map_length, seq_length. }
    assert (Ht : forall x, x < n -> topo (mkTopoCoupling (map (fun x => mkTopoNode [x] []) (seq 0 nt)) (map (fun x => (x, 0)) (seq 0 nt)) []) x = Some x).
    { intros x Hx. unfold topo. cbn [user_node_coup]. rewrite Hc. destruct (Nat.ltb_spec x nt); [reflexivity|lia]. }
    assert (Hm : forall x y, merged x y <-> x = y).
    { intros x y. split; [|intros ->; constructor]. induction 1 as [|y z _ _ (k & _ & Hk)]; auto. rewrite El in Hk. destruct k; destruct Hk; discriminate. }
    refine (conj _ (conj _ (conj _ (conj _ (conj _ (conj _ _)))))).
    + intros x y gx gy Hx Hy. rewrite !Ht by auto. intros [= <-] [= <-]. now rewrite Hm.
    + intros x Hx. rewrite Hc. destruct (Nat.ltb_spec x nt); [eauto|lia].
    + intros x g p. rewrite Hc. split.
      * destruct (Nat.ltb_spec x nt); [|discriminate]. intros [= <- <-]. exists (mkTopoNode [x] []). split; [|reflexivity].
        rewrite nth_error_map, (proj2 (nth_seq 0 nt x x)); [reflexivity|lia].
      * intros (tn & Hg & Hp). rewrite nth_error_map in Hg. destruct (nth_error (seq 0 nt) g) as [z|] eqn:Ez; [|discriminate]. apply nth_seq in Ez as [Hz ->].
        injection Hg as <-. destruct p as [|p]; [|destruct p; discriminate]. injection Hp as <-. simpl. destruct (Nat.ltb_spec g nt); [reflexivity|lia].
    + intros g tn Hg. rewrite nth_error_map in Hg. destruct (nth_error (seq 0 nt) g) as [z|]; [|discriminate]. injection Hg as <-. discriminate.
    + intros k i j Hi Hj Hk. exists i, j. rewrite !Ht by auto. auto.
    + intros k b Hb Hk. exists b. split; [exact Hk|]. intros s. now apply Ht.
    + intros f _ k x Hx Hk. now rewrite Ht by auto.
  - rewrite <- El. destruct mapping_ok as (m & Em & Gl & Gr & Gm & Gu). rewrite Em. eexists _, _. split; [reflexivity|].
    set (mp := topo_of m) in *. set (nt := n_topo_nodes m) in *.
    assert (Hmp : forall x g, nth_error mp x = Some g <-> x < n /\ at_node mp x = g).
    { intros x g. unfold at_node. split.
      - intros Hx. split; [rewrite <- Gl; apply nth_error_Some; congruence|now apply nth_error_nth].
      - intros [Hx <-]. apply nth_error_nth'. rewrite Gl. exact Hx. }
    assert (Hmlt : forall x g, nth_error mp x = Some g -> g < nt) by (intros x g Hx; apply Hmp in Hx as [Hx <-]; auto).
    pose proof (nodes_ok mp nt Hmlt) as [N1 N2 N3 N4 N5].
    unfold create_topological_nodes. fold mp. fold nt.
    set (s := fold_left add_node (combine (seq 0 (length mp)) mp) (repeat {| user_nodes := []; user_links := [] |} nt, [])) in *.
    assert (Hall : forall k f g st, nth_error (combine links conn) k = Some ((f, g), st) -> f < length mp /\ g < length mp).
    { intros k f g st Hk. apply nth_combine in Hk as [Hk _]. apply (lw_ends t conn wf) in Hk. rewrite Gl. auto. }
    assert (Hml : forall x, x < length mp -> at_node mp x < nt) by (intros x Hx; apply Gr; lia).
    pose proof (links_ok mp nt (combine links conn) Hml Hall (fst s) N1 N2) as [L1 L2 L3 L4 L5 _ _].
    set (s' := fold_left (add_link mp) (combine links conn) (fst s, [])) in *.
    cbn [user_node_coup topo_nodes].
    assert (Hnode : forall g tn, nth_error (fst s') g = Some tn -> node_of (fst s') g = tn) by (intros g tn Hg; unfold node_of; now apply nth_error_nth).
    assert (Hplace : forall x, x < n -> exists p, nth_error (snd s) x = Some (at_node mp x, p)).
    { intros x Hx. destruct (nth_error (snd s) x) as [[g p]|] eqn:E.
      - destruct (N4 x g p E) as [H _]. apply Hmp in H as [_ <-]. eauto.
      - apply nth_error_None in E. rewrite N3, Gl in E. lia. }
    assert (Ht : forall x, x < n -> topo (mkTopoCoupling (fst s') (snd s) (snd s')) x = Some (at_node mp x)).
    { intros x Hx. destruct (Hplace x Hx) as (p & E). unfold topo. cbn [user_node_coup]. now rewrite E. }
    refine (conj _ (conj _ (conj _ (conj _ (conj _ (conj _ _)))))).
    + intros x y gx gy Hx Hy. rewrite !Ht by auto. intros [= <-] [= <-]. auto.
    + intros x Hx. destruct (Hplace x Hx) as (p & E). eauto.
    + intros x g p. split.
      * intros Hx. destruct (N4 x g p Hx) as [H1 H2]. assert (Hg : g < length (fst s')) by (rewrite L1; eauto).
        destruct (nth_error (fst s') g) as [tn|] eqn:Etn; [|apply nth_error_None in Etn; lia]. exists tn. split; auto.
        rewrite <- (Hnode g tn Etn), L2. auto.
      * intros (tn & Etn & Hp). rewrite <- (Hnode g tn Etn), L2 in Hp. auto.
    + intros g tn Etn. assert (Hg : g < nt) by (rewrite <- L1; apply nth_error_Some; congruence). destruct (Gu g Hg) as (x & Hx & <-).
      destruct (Hplace x Hx) as (p & E). apply N4 in E as [_ E]. rewrite <- L2, (Hnode _ _ Etn) in E. intros E0. rewrite E0 in E. destruct p; discriminate.
    + intros k i j Hi Hj Hk. exists (at_node mp i), (at_node mp j). rewrite !Ht by auto. refine (conj eq_refl (conj eq_refl _)).
      cbn [construct_reduced_topology ut_graph branch_node_idx]. rewrite nth_error_map, Hk. reflexivity.
    + intros k b Hb Hk. cbn [construct_reduced_topology ut_graph branch3_node_idx]. rewrite nth_error_map, Hk. cbn [option_map]. eexists; split; [reflexivity|].
      intros s0. rewrite Ht by auto. destruct s0; reflexivity.
    + intros f Hf k x Hx Hk. rewrite Ht by auto. simpl in Hf.
      destruct Hf as [<-|[<-|[<-|[<-|[]]]]]; cbn [construct_reduced_topology ut_graph source_node_idx ut_shunt ut_load_gen ut_voltage_sensor]; rewrite nth_error_map, Hk; reflexivity.
Qed.

(** C24, links: a link that is closed somewhere is listed once, with its closed ends, in the topological node where its closed ends
    are; a link that is open at both ends is listed nowhere. *)
Theorem C24_links : forall t' coup, reduce_topology t conn = Some (t', coup) ->
  (forall k x y cx cy, nth_error links k = Some (x, y) -> nth_error conn k = Some (cx, cy) ->
    if cx || cy
    then exists g p tn, nth_error (user_link_coup coup) k = Some (Some (g, p)) /\ nth_error (topo_nodes coup) g = Some tn /\
      nth_error (user_links tn) p = Some (if cx then Some x else None, if cy then Some y else None) /\
      (cx = true -> topo coup x = Some g) /\ (cy = true -> topo coup y = Some g)
    else nth_error (user_link_coup coup) k = Some None) /\
  (forall k k' gp, nth_error (user_link_coup coup) k = Some (Some gp) -> nth_error (user_link_coup coup) k' = Some (Some gp) -> k = k') /\
  (forall g tn p u, nth_error (topo_nodes coup) g = Some tn -> nth_error (user_links tn) p = Some u ->
    exists k, nth_error (user_link_coup coup) k = Some (Some (g, p))).
Proof.
  intros t' coup. unfold reduce_topology. destruct links as [|l0 ls] eqn:El.
  { intros [= <- <-]. cbn [user_link_coup topo_nodes]. refine (conj _ (conj _ _)).
    - intros [|k]; discriminate.
    - intros [|k]; discriminate.
    - intros g tn p u Hg Hp. rewrite nth_error_map in Hg. destruct (nth_error (seq 0 (n_node_total (ut_graph t))) g); [|discriminate]. injection Hg as <-. destruct p; discriminate. }
  rewrite <- El. destruct mapping_ok as (m & Em & Gl & Gr & Gm & Gu). rewrite Em. intros [= <- <-].
  set (mp := topo_of m) in *. set (nt := n_topo_nodes m) in *.
  assert (Hmp : forall x g, nth_error mp x = Some g <-> x < n /\ at_node mp x = g).
  { intros x g. unfold at_node. split.
    - intros Hx. split; [rewrite <- Gl; apply nth_error_Some; congruence|now apply nth_error_nth].
    - intros [Hx <-]. apply nth_error_nth'. rewrite Gl. exact Hx. }
  assert (Hmlt : forall x g, nth_error mp x = Some g -> g < nt) by (intros x g Hx; apply Hmp in Hx as [Hx <-]; auto).
  pose proof (nodes_ok mp nt Hmlt) as [N1 N2 N3 N4 N5].
  unfold create_topological_nodes. fold mp. fold nt.
  set (s := fold_left add_node (combine (seq 0 (length mp)) mp) (repeat {| user_nodes := []; user_links := [] |} nt, [])) in *.
  assert (Hall : forall k f g st, nth_error (combine links conn) k = Some ((f, g), st) -> f < length mp /\ g < length mp).
  { intros k f g st Hk. apply nth_combine in Hk as [Hk _]. apply (lw_ends t conn wf) in Hk. rewrite Gl. auto. }
  assert (Hml : forall x, x < length mp -> at_node mp x < nt) by (intros x Hx; apply Gr; lia).
  pose proof (links_ok mp nt (combine links conn) Hml Hall (fst s) N1 N2) as [L1 L2 L3 L4 L5 L6 L7].
  pose proof (place_lt mp nt (combine links conn) Hml Hall) as HPL.
  set (s' := fold_left (add_link mp) (combine links conn) (fst s, [])) in *.
  cbn [user_link_coup topo_nodes].
  assert (Hplace : forall x, x < n -> topo (mkTopoCoupling (fst s') (snd s) (snd s')) x = Some (at_node mp x)).
  { intros x Hx. unfold topo. cbn [user_node_coup]. destruct (nth_error (snd s) x) as [[g p]|] eqn:E.
    - destruct (N4 x g p E) as [H _]. apply Hmp in H as [_ <-]. reflexivity.
    - apply nth_error_None in E. rewrite N3, Gl in E. lia. }
  refine (conj _ (conj L7 _)).
  - intros k x y cx cy Hk Hc. destruct (lw_ends t conn wf _ _ _ Hk) as [Hx Hy].
    assert (Hkc : nth_error (combine links conn) k = Some ((x, y), (cx, cy))) by (apply nth_combine; auto).
    assert (Hlt : k < length (combine links conn)) by (apply nth_error_Some; congruence).
    specialize (L4 k _ Hlt Hkc). specialize (HPL k _ (at_node mp x) Hkc) as HP1.
    destruct (cx || cy) eqn:Eo.
    + assert (Hg : exists g, place mp (x, y, (cx, cy)) = Some g /\ (cx = true -> at_node mp x = g) /\ (cy = true -> at_node mp y = g)).
      { unfold place, link_topo_node, conn_end. destruct cx, cy; simpl in *; try discriminate; eexists; (split; [reflexivity|]); split; try congruence; intros _.
        symmetry. apply Gm; auto. apply merged_step with x; [constructor|]. exists k. auto. }
      destruct Hg as (g & Eg & Hgx & Hgy). rewrite Eg in L4. destruct L4 as (p & E1 & E2).
      assert (Hgl : g < length (fst s')) by (rewrite L1; apply (HPL k _ g Hkc Eg)).
      destruct (nth_error (fst s') g) as [tn|] eqn:Etn; [|apply nth_error_None in Etn; lia].
      exists g, p, tn. unfold node_of in E2. rewrite (nth_error_nth _ _ _ Etn) in E2. refine (conj E1 (conj Etn (conj _ (conj _ _)))).
      * exact E2.
      * intros E. rewrite Hplace by auto. f_equal. auto.
      * intros E. rewrite Hplace by auto. f_equal. auto.
    + destruct cx, cy; try discriminate. exact L4.
  - intros g tn p u Etn Hp. apply (L5 g p u). unfold node_of. now rewrite (nth_error_nth _ _ _ Etn).
Qed.

(** ** with the branches *)
(** [f]: number of a user node or internal node in the reduced network *)
Record quotient (f : nat -> nat) (t' : user_topo) : Prop := {
  qt_node : forall x, x < n -> f x < n_node (ut_graph t');
  qt_internal : forall k, f (n + k) = n_node (ut_graph t') + k;
  qt_merged : forall x y, x < n -> y < n -> (f x = f y <-> merged x y);
  qt_branch : branch_node_idx (ut_graph t') = map (fun b => (f (fst b), f (snd b))) (branch_node_idx (ut_graph t));
  qt_branch3 : branch3_node_idx (ut_graph t') = map (fun b => ((f (fst (fst b)), f (snd (fst b))), f (snd b))) (branch3_node_idx (ut_graph t));
  qt_source : source_node_idx (ut_graph t') = map f (source_node_idx (ut_graph t)) }.
Context {P : Type} (padd : P -> P -> P) (p0 : P) (popp : P -> P).
Variable c : comp_conn (P := P).
Hypothesis wfg : well_formed (ut_graph t) c.

Lemma reduce_quotient t' coup : reduce_topology t conn = Some (t', coup) ->
  exists f, quotient f t' /\ forall x, x < n -> topo coup x = Some (f x).
Proof.
  intros H. destruct C24_merged as (t1 & c1 & E1 & M1 & _). rewrite H in E1. injection E1 as <- <-. revert H.
  unfold reduce_topology. destruct links as [|l0 ls] eqn:El.
  - intros [= <- <-]. exists (fun x => x).
    assert (Ht : forall x, x < n -> topo (snd (dont_reduce_topology t)) x = Some x).
    { intros x Hx. unfold topo. cbn [dont_reduce_topology snd user_node_coup]. rewrite nth_error_map.
      rewrite (proj2 (nth_seq 0 (n_node_total (ut_graph t)) x x)); [reflexivity|]. unfold n_node_total. lia. }
    split; [|exact Ht]. constructor.
    + auto.
    + auto.
    + intros x y Hx Hy. apply M1; auto.
    + clear. induction (branch_node_idx (ut_graph t)) as [|[] l IH]; simpl; congruence.
    + clear. induction (branch3_node_idx (ut_graph t)) as [|[[]] l IH]; simpl; congruence.
    + clear. now rewrite map_id.
  - rewrite <- El. destruct mapping_ok as (m & Em & Gl & Gr & Gm & Gu). rewrite Em. intros [= <- <-].
    exists (fun x => if x <? n then at_node (topo_of m) x else n_topo_nodes m + (x - n)).
    assert (Hb : forall x, x < n -> (if x <? n then at_node (topo_of m) x else n_topo_nodes m + (x - n)) = at_node (topo_of m) x).
    { intros x Hx. apply Nat.ltb_lt in Hx. now rewrite Hx. }
    destruct wfg as [W1 W2 W3 _ _ _]. split; [constructor; cbn [construct_reduced_topology ut_graph n_node branch_node_idx branch3_node_idx source_node_idx]|].
    + intros x Hx. rewrite Hb by auto. auto.
    + intros k. destruct (Nat.ltb_spec (n + k) n); lia.
    + intros x y Hx Hy. rewrite !Hb by auto. auto.
    + apply map_ext_in. intros [i j] Hin. apply In_nth_error in Hin as (k & Hk). destruct (W1 k i j Hk). unfold remap2. cbn [fst snd]. now rewrite !Hb by auto.
    + apply map_ext_in. intros b Hin. apply In_nth_error in Hin as (k & Hk). pose proof (Hb _ (W2 k b Side1 Hk)) as B1. pose proof (Hb _ (W2 k b Side2 Hk)) as B2.
      pose proof (Hb _ (W2 k b Side3 Hk)) as B3. unfold remap3. cbn [of_side] in *. now rewrite B1, B2, B3.
    + apply map_ext_in. intros x Hin. apply In_nth_error in Hin as (k & Hk). now rewrite Hb by eauto.
    + intros x Hx. rewrite Hb by auto. apply topo_created; auto. exact (conj Gl (conj Gr (conj Gm Gu))).
Qed.

Section Quotient.
Variable f : nat -> nat.
Variable t' : user_topo.
Hypothesis qt : quotient f t'.
Notation way := (way t conn popp c).
Lemma way_trans x y z : way x y -> way y z -> way x z.
Proof. intros H. induction 1; auto; [now apply way_link with y0|now apply way_branch with y0 h]. Qed.
Lemma merged_way x y : merged x y -> way x y.
Proof. induction 1; [constructor|now apply way_link with y]. Qed.
Lemma quotient_wf : well_formed (ut_graph t') c.
Proof.
  destruct wfg as [W1 W2 W3 W4 W5 W6], qt as [Q1 Q2 Q3 Q4 Q5 Q6]. constructor; rewrite ?Q4, ?Q5, ?Q6, ?map_length; auto.
  - intros k i j. rewrite nth_error_map. destruct (nth_error (branch_node_idx (ut_graph t)) k) as [[i0 j0]|] eqn:E; [|discriminate]. intros [= <- <-].
    destruct (W1 k i0 j0 E). auto.
  - intros k b s. rewrite nth_error_map. destruct (nth_error (branch3_node_idx (ut_graph t)) k) as [b0|] eqn:E; [|discriminate]. intros [= <-].
    pose proof (W2 k b0 s E). destruct s; cbn [of_side fst snd] in *; auto.
  - intros k i. rewrite nth_error_map. destruct (nth_error (source_node_idx (ut_graph t)) k) as [i0|] eqn:E; [|discriminate]. intros [= <-]. eauto.
Qed.
(** a node mapped below the node count is a user node *)
Lemma node_below x : f x < n_node (ut_graph t') -> x < n.
Proof. intros H. destruct (Nat.lt_ge_cases x n); auto. replace x with (n + (x - n)) in H by lia. rewrite (qt_internal f t' qt) in H. lia. Qed.
Lemma same_node x y : f x = f y -> y < n -> way x y.
Proof.
  intros E Hy. assert (Hx : x < n) by (apply node_below; rewrite E; now apply (qt_node f t' qt)). apply merged_way. now apply (qt_merged f t' qt).
Qed.
Lemma internal_node x k : f x = n_node (ut_graph t') + k -> x = n + k.
Proof.
  intros E. destruct (Nat.lt_ge_cases x n) as [H|H]; [pose proof (qt_node f t' qt x H); lia|]. replace x with (n + (x - n)) in E by lia.
  rewrite (qt_internal f t' qt) in E. lia.
Qed.
Lemma of_side_map s (b : nat * nat * nat) : of_side s ((f (fst (fst b)), f (snd (fst b))), f (snd b)) = f (of_side s b).
Proof. destruct s; reflexivity. Qed.
(** one step in the reduced network *)
Lemma link_lift x gz h : link popp (ut_graph t') c (f x) gz h -> exists z, f z = gz /\ way x z.
Proof.
  pose proof wfg as [W1 W2 W3 _ _ _]. intros H. remember (f x) as gx eqn:Ex. destruct H as [k i j h H1 H2 H3 H4|k i j h H1 H2 H3 H4|k b s cs hs H1 H2 H3 H4|k b s cs hs H1 H2 H3 H4].
  - rewrite (qt_branch f t' qt), nth_error_map in H1. destruct (nth_error (branch_node_idx (ut_graph t)) k) as [[i0 j0]|] eqn:E; [|discriminate]. injection H1 as <- <-. cbn [fst snd] in *.
    destruct (W1 k i0 j0 E) as [Hi Hj]. exists j0. split; auto. apply way_branch with i0 (popp h); [now apply same_node|]. apply link_to with k; auto; intros ->; congruence.
  - rewrite (qt_branch f t' qt), nth_error_map in H1. destruct (nth_error (branch_node_idx (ut_graph t)) k) as [[i0 j0]|] eqn:E; [|discriminate]. injection H1 as <- <-. cbn [fst snd] in *.
    destruct (W1 k i0 j0 E) as [Hi Hj]. exists i0. split; auto. apply way_branch with j0 h; [now apply same_node|]. apply link_from with k; auto; intros ->; congruence.
  - rewrite (qt_branch3 f t' qt), nth_error_map in H1. destruct (nth_error (branch3_node_idx (ut_graph t)) k) as [b0|] eqn:E; [|discriminate]. injection H1 as <-. rewrite of_side_map in Ex.
    pose proof (W2 k b0 s E). exists (n + k). split; [apply (qt_internal f t' qt)|]. apply way_branch with (of_side s b0) (popp (of_side s hs)); [now apply same_node|]. now apply link_in with cs.
  - rewrite (qt_branch3 f t' qt), nth_error_map in H1. destruct (nth_error (branch3_node_idx (ut_graph t)) k) as [b0|] eqn:E; [|discriminate]. injection H1 as <-.
    symmetry in Ex. apply internal_node in Ex as ->. rewrite of_side_map. exists (of_side s b0). split; auto. apply way_branch with (n + k) (of_side s hs); [constructor|]. now apply link_out with cs.
Qed.
Lemma path_lift x gy h : path padd p0 popp (ut_graph t') c (f x) gy h -> exists y, f y = gy /\ way x y.
Proof.
  induction 1 as [|gy gz h h' _ (y & <- & IH) Hl]; [exists x; split; [auto|constructor]|].
  destruct (link_lift y gz h' Hl) as (z & E & Hw). exists z. split; auto. now apply way_trans with y.
Qed.
Lemma way_path x y : way x y -> connected padd p0 popp (ut_graph t') c (f x) (f y).
Proof.
  pose proof wfg as [W1 W2 W3 _ _ _]. induction 1 as [|y z _ IH Hl|y z h _ [h0 IH] Hl].
  - exists p0. constructor.
  - assert (E : f y = f z). { apply (qt_merged f t' qt); [apply closed_link_sym in Hl; now apply closed_link_lt in Hl|now apply closed_link_lt in Hl|]. apply merged_step with y; [constructor|auto]. }
    now rewrite <- E.
  - assert (H : f y = f z \/ exists h', link popp (ut_graph t') c (f y) (f z) h').
    { destruct Hl as [k i j h H1 H2 H3 H4|k i j h H1 H2 H3 H4|k b s cs hs H1 H2 H3 H4|k b s cs hs H1 H2 H3 H4].
      - destruct (Nat.eq_dec (f i) (f j)); auto. right. exists (popp h). apply link_to with k; auto. rewrite (qt_branch f t' qt), nth_error_map, H1. reflexivity.
      - destruct (Nat.eq_dec (f i) (f j)); auto. right. exists h. apply link_from with k; auto. rewrite (qt_branch f t' qt), nth_error_map, H1. reflexivity.
      - right. exists (popp (of_side s hs)). rewrite (qt_internal f t' qt). rewrite <- of_side_map. apply link_in with cs; auto. rewrite (qt_branch3 f t' qt), nth_error_map, H1. reflexivity.
      - right. exists (of_side s hs). rewrite (qt_internal f t' qt). rewrite <- of_side_map. apply link_out with cs; auto. rewrite (qt_branch3 f t' qt), nth_error_map, H1. reflexivity. }
    destruct H as [<-|[h' H]]; [exists h0; auto|]. exists (padd h0 h'). now apply path_step with (f y).
Qed.
End Quotient.

(** C24 with C15: after the reduction, a node is energised exactly when branches, three-winding transformers and links that are
    closed lead from an enabled source to it; two such nodes are in the same sub-grid iff they are connected that way. *)
Theorem C24_energised : exists t' coup st, reduce_topology t conn = Some (t', coup) /\ dfs_search padd p0 popp (ut_graph t') c = Some st /\
  (forall x g, x < n -> topo coup x = Some g -> (bus st g <> None <-> fed t conn popp c x)) /\
  (forall x y gx gy mx px my py, x < n -> y < n -> topo coup x = Some gx -> topo coup y = Some gy ->
     bus st gx = Some (mx, px) -> bus st gy = Some (my, py) -> (mx = my <-> way t conn popp c x y)).
Proof.
  destruct C24_merged as (t' & coup & E & _). destruct (reduce_quotient t' coup E) as (f & qt & Ht).
  destruct (C15_energised padd p0 popp (ut_graph t') c (quotient_wf f t' qt)) as (st & Es & H1 & H2 & _).
  exists t', coup, st. refine (conj E (conj Es (conj _ _))).
  - intros x g Hx Hg. rewrite Ht in Hg by auto. injection Hg as <-. rewrite H1. split.
    + intros (k & gs & [Hc Hs] & h & Hp). rewrite (qt_source f t' qt), nth_error_map in Hs. destruct (nth_error (source_node_idx (ut_graph t)) k) as [s|] eqn:Es'; [|discriminate].
      injection Hs as <-. exists k, s. split; [split; auto|]. destruct (path_lift f t' qt s _ h Hp) as (y & Ey & Hw). apply way_trans with y; auto. now apply (same_node f t' qt).
    + intros (k & s & [Hc Hs] & Hw). exists k, (f s). split; [split; auto|now apply way_path]. rewrite (qt_source f t' qt), nth_error_map, Hs. reflexivity.
  - intros x y gx gy mx px my py Hx Hy Hgx Hgy Hbx Hby. rewrite Ht in Hgx, Hgy by auto. injection Hgx as <-. injection Hgy as <-. rewrite (H2 _ _ _ _ _ _ Hbx Hby). split.
    + intros [h Hp]. destruct (path_lift f t' qt x _ h Hp) as (z & Ez & Hw). apply way_trans with z; auto. now apply (same_node f t' qt).
    + now apply way_path.
Qed.
End Props.

(** A network of 6 nodes, links 1-3, 5-2, 2-1 closed, 0-4 open at one side, 3-5 open at both sides; a three-winding transformer. *)
Definition demo_t : user_topo :=
  mkUserTopo (mkCompTopo 6 [(0, 1); (4, 4)] [((2, 4), 0)] [3]) [(1, 3); (5, 2); (2, 1); (0, 4); (3, 5)] [5] [2; 4] [3].
Definition demo_links : list (bool * bool) := [(true, true); (true, true); (true, true); (true, false); (false, false)].
Example demo_links_wf : links_well_formed demo_t demo_links.
Proof. constructor; [reflexivity|]. intros k x y H. do 5 (destruct k as [|k]; [injection H as <- <-; simpl; lia|simpl in H]). destruct k; discriminate. Qed.
Example demo_reduced : match reduce_topology demo_t demo_links with
  | Some (t', coup) => n_node (ut_graph t') = 3 /\ user_node_coup coup = [(0, 0); (1, 0); (1, 1); (1, 2); (2, 0); (1, 3)] /\
      map user_nodes (topo_nodes coup) = [[0]; [1; 2; 3; 5]; [4]] /\
      user_link_coup coup = [Some (1, 0); Some (1, 1); Some (1, 2); Some (0, 0); None] /\
      branch_node_idx (ut_graph t') = [(0, 1); (2, 2)] /\ branch3_node_idx (ut_graph t') = [((1, 2), 0)]
  | None => False
  end.
Proof. vm_compute. tauto. Qed.
Definition demo_c : comp_conn (P := Z) := mkCompConn [(true, true); (true, true)] [0; 0]%Z [((true, false), true)] [((0, 0), 0)]%Z [true].
Example demo_wf : well_formed (ut_graph demo_t) demo_c.
Proof.
  constructor; auto.
  - intros k i j H. do 2 (destruct k as [|k]; [injection H as <- <-; simpl; lia|simpl in H]). destruct k; discriminate.
  - intros k b s H. destruct k as [|k]; [injection H as <-; destruct s; simpl; lia|destruct k; discriminate].
  - intros k i H. destruct k as [|k]; [injection H as <-; simpl; lia|destruct k; discriminate].
Qed.

Print Assumptions C24_merged.
Print Assumptions C24_links.
Print Assumptions C24_energised.
