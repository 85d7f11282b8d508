(** C15, C16 and C18: sub-grids, bus numbers, phase shifts and fill-ins of a network. *)
From Verif Require Import Common NatMap SparseOrdering SparseOrderingSpec Topology TopologySpec TopologyDfs TopologyReorder TopologyFacts.

(** topology.hpp 243-297: Idx2D of a node, {-1, -1} when it is not energised *)
Definition bus {P} (st : search_state (P := P)) (x : nat) : option (nat * nat) :=
  match group (dfs st) x, position st x with Some g, Some p => Some (g, p) | _, _ => None end.
(** calculation_parameters.hpp 193: MathModelTopology::n_bus *)
Definition n_bus {P} (m : math_graph (P := P)) : nat := length (phase_shift m).

Section Props.
Context {P : Type} (padd : P -> P -> P) (p0 : P) (popp : P -> P).
Variable t : comp_topo.
Variable c : comp_conn (P := P).
Notation link := (link popp t c).
Notation path := (path padd p0 popp t c).
Notation connected := (connected padd p0 popp t c).
Notation energised := (energised padd p0 popp t c).
Notation T := (T padd p0 popp t c).
Notation adj := (adj (build_sparse_graph popp t c)).
Notation sources := (combine (source_connected c) (source_node_idx t)).

Lemma T_bus k0 st nodes : T k0 st nodes -> forall x g p,
  bus st x = Some (g, p) <-> exists l, nth_error nodes g = Some l /\ nth_error l p = Some x.
Proof.
  intros HT x g p. unfold bus. split.
  - destruct (group (dfs st) x) as [g'|] eqn:Eg; [|discriminate]. destruct (position st x) as [p'|] eqn:Ep; [|discriminate]. intros [= -> ->].
    assert (Hlt : g < length (models st)).
    { destruct (colors (dfs st) x) eqn:E.
      - apply (t_white _ _ _ _ _ _ _ _ HT) in E as (E & _). congruence.
      - now apply (t_gray _ _ _ _ _ _ _ _ HT) in E.
      - apply (t_black _ _ _ _ _ _ _ _ HT) in E as (g2 & E & Hl). congruence. }
    destruct (nth_error nodes g) as [l|] eqn:El; [|apply nth_error_None in El; rewrite (t_len _ _ _ _ _ _ _ _ HT) in El; lia].
    destruct (nth_error (models st) g) as [m|] eqn:Em; [|apply nth_error_None in Em; lia].
    destruct (t_model _ _ _ _ _ _ _ _ HT g l m El Em) as [S1 S2 S3 _ _ _]. exists l. split; auto.
    apply S2 in Eg. apply In_nth_error in Eg as [i Hi]. rewrite (S3 i x Hi) in Ep. congruence.
  - intros (l & El & Hp). destruct (nth_error (models st) g) as [m|] eqn:Em.
    + destruct (t_model _ _ _ _ _ _ _ _ HT g l m El Em) as [S1 S2 S3 _ _ _]. rewrite (S3 p x Hp).
      rewrite (proj1 (S2 x)); auto. now apply nth_error_In in Hp.
    + apply nth_error_None in Em. rewrite <- (t_len _ _ _ _ _ _ _ _ HT) in Em. assert (g < length nodes) by (apply nth_error_Some; congruence). lia.
Qed.
Lemma T_bus_group k0 st nodes x : T k0 st nodes -> forall g, group (dfs st) x = Some g <-> exists p, bus st x = Some (g, p).
Proof.
  intros HT g. split.
  - intros Eg. assert (Hlt : g < length (models st)).
    { destruct (colors (dfs st) x) eqn:E.
      - apply (t_white _ _ _ _ _ _ _ _ HT) in E as (E & _). congruence.
      - now apply (t_gray _ _ _ _ _ _ _ _ HT) in E.
      - apply (t_black _ _ _ _ _ _ _ _ HT) in E as (g2 & E & Hl). congruence. }
    destruct (nth_error nodes g) as [l|] eqn:El; [|apply nth_error_None in El; rewrite (t_len _ _ _ _ _ _ _ _ HT) in El; lia].
    destruct (nth_error (models st) g) as [m|] eqn:Em; [|apply nth_error_None in Em; lia].
    destruct (t_model _ _ _ _ _ _ _ _ HT g l m El Em) as [S1 S2 S3 _ _ _]. apply S2 in Eg. apply In_nth_error in Eg as [i Hi].
    exists i. apply (T_bus _ _ _ HT). eauto.
  - intros (p & H). unfold bus in H. destruct (group (dfs st) x); [|discriminate]. destruct (position st x); [|discriminate]. congruence.
Qed.
Lemma T_path k0 st nodes x y h : T k0 st nodes -> path x y h -> group (dfs st) x = group (dfs st) y.
Proof.
  intros HT. induction 1 as [|y z h h' _ IH HL]; auto. rewrite IH. apply (t_group _ _ _ _ _ _ _ _ HT). apply (proj2 (adj_link padd p0 popp t c y z)). now exists h'.
Qed.
Lemma T_model k0 st nodes g m : T k0 st nodes -> nth_error (models st) g = Some m -> exists l, nth_error nodes g = Some l /\ sub_grid padd p0 popp t c k0 st g l m.
Proof.
  intros HT Em. destruct (nth_error nodes g) as [l|] eqn:El.
  - exists l. split; auto. exact (t_model _ _ _ _ _ _ _ _ HT g l m El Em).
  - apply nth_error_None in El. rewrite (t_len _ _ _ _ _ _ _ _ HT) in El. assert (g < length (models st)) by (apply nth_error_Some; congruence). lia.
Qed.
Lemma T_connected k0 st nodes x y g : T k0 st nodes -> group (dfs st) x = Some g -> group (dfs st) y = Some g -> connected x y.
Proof.
  intros HT Hx Hy. pose proof Hx as Hb. apply (T_bus_group _ _ _ _ HT) in Hb as (p & Hb). apply (T_bus _ _ _ HT) in Hb as (l & Hl & _).
  assert (Hm : exists m, nth_error (models st) g = Some m).
  { destruct (nth_error (models st) g) as [m|] eqn:E; eauto. apply nth_error_None in E. rewrite <- (t_len _ _ _ _ _ _ _ _ HT) in E.
    assert (g < length nodes) by (apply nth_error_Some; congruence). lia. }
  destruct Hm as [m Hm]. destruct (t_model _ _ _ _ _ _ _ _ HT g l m Hl Hm) as [_ S2 _ _ _ (r & k & _ & _ & _ & _ & HP)].
  apply S2 in Hx. apply S2 in Hy. apply HP in Hx. apply HP in Hy. apply path_rev in Hx as [h Hx]. exact (path_app padd p0 popp t c x r h Hx y _ Hy).
Qed.

(** C15: the search succeeds; a node gets a bus iff a path of closed components joins it to an enabled source; two nodes get
    buses of one sub-grid iff such a path joins them; bus numbers are not shared, and each sub-grid uses exactly the numbers
    below its bus count. *)
Theorem C15_energised : well_formed t c -> exists st, dfs_search padd p0 popp t c = Some st /\
  (forall x, bus st x <> None <-> energised x) /\
  (forall x y gx px gy py, bus st x = Some (gx, px) -> bus st y = Some (gy, py) -> (gx = gy <-> connected x y)) /\
  (forall x y b, bus st x = Some b -> bus st y = Some b -> x = y) /\
  (forall g p, (exists x, bus st x = Some (g, p)) <-> exists m, nth_error (models st) g = Some m /\ p < n_bus m).
Proof.
  intros wf. destruct (dfs_search_T padd p0 popp t c wf) as (st & nodes & E & HT). exists st. refine (conj E (conj _ (conj _ (conj _ _)))).
  - intros x. split.
    + destruct (bus st x) as [[g p]|] eqn:Eb; [intros _|congruence]. assert (Hg : group (dfs st) x = Some g) by (apply (T_bus_group _ _ _ _ HT); eauto).
      apply (T_bus _ _ _ HT) in Eb as (l & Hl & Hp).
      destruct (nth_error (models st) g) as [m|] eqn:Em.
      * destruct (t_model _ _ _ _ _ _ _ _ HT g l m Hl Em) as [_ S2 _ _ _ (r & k & B1 & _ & _ & _ & HP)]. exists k, r. split; auto.
        exists (phase (dfs st) x). apply HP. now apply S2.
      * apply nth_error_None in Em. rewrite <- (t_len _ _ _ _ _ _ _ _ HT) in Em. assert (g < length nodes) by (apply nth_error_Some; congruence). lia.
    + intros (k & s & Hs & h & Hp).
      assert (Hg : group (dfs st) s <> None).
      { apply (t_done _ _ _ _ _ _ _ _ HT k s); auto. destruct Hs as [H1 H2]. apply nth_error_Some. rewrite (proj2 (nth_combine _ _ k true s)); auto. discriminate. }
      rewrite (T_path _ _ _ _ _ _ HT Hp) in Hg. destruct (group (dfs st) x) as [g|] eqn:Eg; [|congruence].
      apply (T_bus_group _ _ _ _ HT) in Eg as (p & ->). discriminate.
  - intros x y gx px gy py Hx Hy. assert (Gx : group (dfs st) x = Some gx) by (apply (T_bus_group _ _ _ _ HT); eauto).
    assert (Gy : group (dfs st) y = Some gy) by (apply (T_bus_group _ _ _ _ HT); eauto). split.
    + intros <-. exact (T_connected _ _ _ _ _ _ HT Gx Gy).
    + intros [h Hp]. rewrite (T_path _ _ _ _ _ _ HT Hp) in Gx. congruence.
  - intros x y [g p] Hx Hy. apply (T_bus _ _ _ HT) in Hx as (l & H1 & H2). apply (T_bus _ _ _ HT) in Hy as (l' & H3 & H4). congruence.
  - intros g p. unfold n_bus. split.
    + intros (x & Hx). apply (T_bus _ _ _ HT) in Hx as (l & H1 & H2).
      destruct (nth_error (models st) g) as [m|] eqn:Em.
      * exists m. split; auto. destruct (t_model _ _ _ _ _ _ _ _ HT g l m H1 Em) as [_ _ _ -> _ _]. rewrite map_length. apply nth_error_Some. congruence.
      * apply nth_error_None in Em. rewrite <- (t_len _ _ _ _ _ _ _ _ HT) in Em. assert (g < length nodes) by (apply nth_error_Some; congruence). lia.
    + intros (m & Em & Hp). destruct (T_model _ _ _ _ _ HT Em) as (l & H1 & [_ _ _ H4 _ _]). rewrite H4, map_length in Hp.
      destruct (nth_error l p) as [x|] eqn:Ex; [|apply nth_error_None in Ex; lia]. exists x. apply (T_bus _ _ _ HT). eauto.
Qed.

(** C16: the phase shift of a bus is that of a path from the slack bus, where the first enabled source of the sub-grid is. *)
Theorem C16_phase_shift : well_formed t c -> forall st, dfs_search padd p0 popp t c = Some st ->
  forall x g p m, bus st x = Some (g, p) -> nth_error (models st) g = Some m ->
  exists k s h, source_at t c k s /\ bus st s = Some (g, slack_bus m) /\
    (forall k' s', k' < k -> source_at t c k' s' -> ~ connected s' x) /\
    path s x h /\ nth_error (phase_shift m) p = Some h.
Proof.
  intros wf st E x g p m Hb Em. destruct (dfs_search_T padd p0 popp t c wf) as (st' & nodes & E' & HT). assert (st' = st) as -> by congruence.
  assert (Hg : group (dfs st) x = Some g) by (apply (T_bus_group _ _ _ _ HT); eauto).
  apply (T_bus _ _ _ HT) in Hb as (l & Hl & Hp). destruct (t_model _ _ _ _ _ _ _ _ HT g l m Hl Em) as [_ S2 _ S4 _ (r & k & B1 & B2 & B3 & B4 & HP)].
  exists k, r, (phase (dfs st) x). refine (conj B1 (conj _ (conj _ (conj _ _)))).
  - apply (T_bus _ _ _ HT). eauto.
  - intros k' s' Hk Hs [h Hpath]. apply (B4 k' s' Hk Hs). now rewrite (T_path _ _ _ _ _ _ HT Hpath).
  - apply HP. now apply S2.
  - rewrite S4. now apply map_nth_error.
Qed.

(** C18: the fill-ins of a sub-grid are those of eliminating its buses in order. *)
Definition bus_link (st : search_state (P := P)) (g i j : nat) : Prop :=
  exists x y h, bus st x = Some (g, i) /\ bus st y = Some (g, j) /\ link x y h.
Theorem C18_sub_grid_fill_in : well_formed t c -> forall st, dfs_search padd p0 popp t c = Some st ->
  forall g m, nth_error (models st) g = Some m -> complete_fill_in (bus_link st g) (seq 0 (n_bus m)) (fill_in m).
Proof.
  intros wf st E g m Em. destruct (dfs_search_T padd p0 popp t c wf) as (st' & nodes & E' & HT). assert (st' = st) as -> by congruence.
  destruct (T_model _ _ _ _ _ HT Em) as (l & Hl & [_ _ _ S4 S5 _]). unfold n_bus. rewrite S4, map_length.
  revert S5. apply complete_ext; [|tauto]. intros i j. unfold at_pos, bus_link. split.
  - intros (x & y & H1 & H2 & H3). apply (proj1 (adj_link padd p0 popp t c x y)) in H3 as [h H3]. exists x, y, h. rewrite !(T_bus _ _ _ HT). eauto 10.
  - intros (x & y & h & H1 & H2 & H3). apply (T_bus _ _ _ HT) in H1 as (l1 & A1 & A2). apply (T_bus _ _ _ HT) in H2 as (l2 & B1 & B2).
    exists x, y. refine (conj _ (conj _ _)); [congruence|congruence|]. apply (proj2 (adj_link padd p0 popp t c x y)). eauto.
Qed.

(** C16: when the shifts around every loop cancel, the phase shift is the same along every path. *)
Section Group.
Hypothesis assoc : forall a b d, padd a (padd b d) = padd (padd a b) d.
Hypothesis comm : forall a b, padd a b = padd b a.
Hypothesis neutral : forall a, padd a p0 = a.
Hypothesis inverse : forall a, padd a (popp a) = p0.

Lemma opp_opp a : popp (popp a) = a.
Proof. rewrite <- (neutral (popp (popp a))), <- (inverse a), (comm a), assoc, (comm (popp (popp a))), inverse, comm. apply neutral. Qed.
Lemma opp_add a b : popp (padd a b) = padd (popp b) (popp a).
Proof.
  assert (H : padd (padd a b) (padd (popp b) (popp a)) = p0).
  { rewrite assoc, <- (assoc a b), inverse, neutral. apply inverse. }
  rewrite <- (neutral (popp (padd a b))), <- H, assoc, (comm (popp _)), inverse, comm. apply neutral.
Qed.
Lemma path_add x y h1 : path x y h1 -> forall z h2, path y z h2 -> path x z (padd h1 h2).
Proof.
  intros H1 z h2. induction 1 as [|z w h2 h3 _ IH HL]; [now rewrite neutral|]. rewrite assoc. eapply path_step; eauto.
Qed.
Lemma link_opp x y h : link x y h -> link y x (popp h).
Proof. intros []; rewrite ?opp_opp; [eapply link_from|eapply link_to|eapply link_out|eapply link_in]; eauto. Qed.
Lemma path_opp x y h : path x y h -> path y x (popp h).
Proof.
  assert (Z : popp p0 = p0) by (rewrite <- (neutral (popp p0)), comm; apply inverse).
  induction 1 as [|y z h h' _ IH HL]; [rewrite Z; constructor|]. rewrite opp_add.
  assert (H : path z y (popp h')). { replace (popp h') with (padd p0 (popp h')) by (rewrite comm; apply neutral). eapply path_step; [constructor|now apply link_opp]. }
  exact (path_add _ _ _ H _ _ IH).
Qed.

Theorem C16_any_path : well_formed t c -> (forall x h, path x x h -> h = p0) ->
  forall st, dfs_search padd p0 popp t c = Some st ->
  forall x g p m, bus st x = Some (g, p) -> nth_error (models st) g = Some m ->
  forall s h, bus st s = Some (g, slack_bus m) -> path s x h -> nth_error (phase_shift m) p = Some h.
Proof.
  intros wf Hloop st E x g p m Hb Em s h Hs Hp.
  destruct (C16_phase_shift wf st E x g p m Hb Em) as (k & s' & h' & _ & Hs' & _ & Hp' & ->).
  destruct (C15_energised wf) as (st' & E' & _ & _ & Hinj & _). assert (st' = st) as -> by congruence.
  assert (s' = s) as -> by (eapply Hinj; eauto).
  assert (H0 : padd h' (popp h) = p0) by (apply (Hloop s); exact (path_add _ _ _ Hp' _ _ (path_opp _ _ _ Hp))).
  f_equal. rewrite <- (neutral h'), <- (inverse h), (comm h), assoc, H0, comm. apply neutral.
Qed.
End Group.
End Props.

(** ** A network: nodes 0-5 in two loops (0-1-2-3-0, 1-2 twice, 3-4-1) and 5 behind a three-winding transformer (internal node
    9) with phase shifts, node 6 behind an open branch, 7-8 fed by a second source, and a disabled source at 6. *)
Definition demo_topo : comp_topo :=
  mkCompTopo 9 [(0, 1); (1, 2); (2, 1); (2, 3); (3, 0); (3, 4); (4, 1); (5, 6); (7, 8); (8, 8)] [((4, 5), 6)] [6; 3; 8; 0].
Definition demo_conn : comp_conn (P := Z) :=
  mkCompConn [(true, true); (true, true); (true, true); (true, true); (true, true); (true, true); (true, true); (true, false); (true, true); (true, true)]
    [0; 0; 0; 0; 0; 1; -1; 0; 5; 0]%Z [((true, true), false)] [(0, -7, 0)]%Z [false; true; true; true].

Example demo_well_formed : well_formed demo_topo demo_conn.
Proof.
  constructor; simpl; auto.
  - intros k i j H. do 10 (destruct k as [|k]; [injection H as <- <-; lia|simpl in H]). destruct k; discriminate.
  - intros [|k] b s H; [injection H as <-; destruct s; simpl; lia|destruct k; discriminate].
  - intros k i H. do 4 (destruct k as [|k]; [injection H as <-; lia|simpl in H]). destruct k; discriminate.
Qed.
(** the loops cancel: a potential *)
Definition demo_potential (x : nat) : Z := match x with 4 => (-1)%Z | 9 => (-1)%Z | 5 => (-8)%Z | 7 => 5%Z | _ => 0%Z end.
Example demo_loops_cancel : forall x h, path Z.add 0%Z Z.opp demo_topo demo_conn x x h -> h = 0%Z.
Proof.
  assert (HL : forall x y h, link Z.opp demo_topo demo_conn x y h -> demo_potential y = (demo_potential x + h)%Z).
  { intros x y h [k i j s H1 H2 H3 Hn|k i j s H1 H2 H3 Hn|k b s cs hs H1 H2 H3 Hs|k b s cs hs H1 H2 H3 Hs].
    - do 10 (destruct k as [|k]; [injection H1 as <- <-; injection H3 as <-; simpl in H2; try discriminate; try lia; reflexivity|simpl in H1, H2, H3]). destruct k; discriminate.
    - do 10 (destruct k as [|k]; [injection H1 as <- <-; injection H3 as <-; simpl in H2; try discriminate; try lia; reflexivity|simpl in H1, H2, H3]). destruct k; discriminate.
    - destruct k as [|k]; [|destruct k; discriminate]. injection H1 as <-. injection H2 as <-. injection H3 as <-. destruct s; try discriminate; reflexivity.
    - destruct k as [|k]; [|destruct k; discriminate]. injection H1 as <-. injection H2 as <-. injection H3 as <-. destruct s; try discriminate; reflexivity. }
  assert (HP : forall x y h, path Z.add 0%Z Z.opp demo_topo demo_conn x y h -> demo_potential y = (demo_potential x + h)%Z).
  { induction 1 as [|y z h h' _ IH H]; [lia|]. apply HL in H. lia. }
  intros x h H. apply HP in H. lia.
Qed.
Example demo_search :
  match dfs_search Z.add 0%Z Z.opp demo_topo demo_conn with
  | Some st => map (bus st) (seq 0 10) = [Some (0, 2); Some (0, 4); Some (0, 3); Some (0, 6); Some (0, 5); Some (0, 0); None; Some (1, 0); Some (1, 1); Some (0, 1)] /\
      map (fun m => (slack_bus m, is_radial m, phase_shift m, fill_in m)) (models st) =
        [(6, false, [-8; -1; 0; 0; 0; -1; 0]%Z, [(4, 6)]); (1, true, [5; 0]%Z, [])]
  | None => False
  end.
Proof. vm_compute. auto. Qed.

Print Assumptions C15_energised.
Print Assumptions C16_phase_shift.
Print Assumptions C16_any_path.
Print Assumptions C18_sub_grid_fill_in.
