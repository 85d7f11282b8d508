(** C45: every value in the result records belongs to the component it is reported for. *)
From Verif Require Import Common NatMap SparseOrdering GroupedIdxFacts GroupedIdxProps Container ContainerSpec ContainerFacts ContainerProps Topology TopologySpec TopologyFacts TopologyProps
  Coupling CouplingSpec CouplingProps Registration RegistrationSpec RegistrationFacts Output OutputSpec OutputFacts.

Section Props.
Variable ck : ctype -> Z -> cinput -> option exn.
Variable data : ctype -> list (Z * cinput).
Variable c : mcontainer.
Hypothesis Hc : create_model ck data = Ok c.
Hypothesis HL : layouts_ok data.
Context {P LT : Type} (at_ : attributes P LT) (padd : P -> P -> P) (p0 : P) (popp : P -> P).
Variable sort : list (nat * nat) -> list (nat * nat).
Variable criterion : nat -> nat -> bool.
Hypothesis Hsort : sort_contract sort.
Variable s : model_state (P := P) (LT := LT).
Hypothesis Hs : build_state at_ c padd p0 popp sort criterion = Some s.
Context {V R : Type} (vadd : V -> V -> V) (v0 : V).
Variable sol : list (solver_out V R).
Hypothesis SZ : sized s sol.
Variable taps : list (Z * Z).
Notation res := (results vadd v0 c s sol taps).
Notation shows := (OutputSpec.shows res).
Notation number_of := (number_of data).
Notation node_no := (number_of (GExact Node)).
Notation live := (energised padd p0 popp (st_topo s) (st_conn s)).
Notation bus := (bus (st_search s)).
Notation places := (cp_branches (st_coupled s)).
Let OK : state_ok data at_ padd p0 popp s := build_state_sound ck data c Hc HL at_ padd p0 popp sort criterion Hsort s Hs.

(** For each component type there is one record per component, in the order of the input. Current sensors are left out, see below. *)
Theorem C45_records t : t <> SymCurrentSensor -> t <> AsymCurrentSensor -> exists l, res t = Some l /\ map (fun es => (e_id (fst es), e_in (fst es))) l = data t.
Proof. intros H1 H2. eapply res_defined; eauto. destruct t; try reflexivity; congruence. Qed.
(** A component has one result. *)
Theorem C45_unique id a b : shows id a -> shows id b -> a = b.
Proof. eapply shows_unique; eauto. Qed.

Lemma is_on x : live x -> exists g p, bus x = Some (g, p).
Proof. intros H. apply (ok_energised _ _ _ _ _ _ OK) in H. destruct (bus x) as [[g p]|] eqn:E; [eauto|congruence]. Qed.
Lemma is_off x : ~ live x -> bus x = None.
Proof. intros H. destruct (bus x) eqn:E; auto. exfalso. apply H. apply (ok_energised _ _ _ _ _ _ OK). congruence. Qed.
Lemma bus_live x : bus x <> None <-> live x.
Proof. apply (ok_energised _ _ _ _ _ _ OK). Qed.
Lemma record_number g t id inp : derives g t = true -> In (id, inp) (data t) -> exists k, number_of g id k /\ nth_error (components data g) k = Some (mkEntry t id inp).
Proof.
  intros Hd Hin. apply In_nth_error in Hin as [n Hn]. destruct (component_of ck data c Hc g t n _ Hd Hn) as (k & _ & E). exists k. split; auto. eexists. split; eauto.
Qed.

(** Node: voltage at its own bus and the sum of the powers reported for the appliances at the node; nothing when it is not energised. *)
Theorem C45_nodes id inp : In (id, inp) (data Node) -> exists k, node_no id k /\
  (live k -> exists g p u, bus k = Some (g, p) /\ look sol (@so_u V R) g p = Some u /\ shows id (S_node u (injected vadd v0 res id))) /\
  (~ live k -> shows id Null).
Proof.
  intros Hin. destruct (record_number (GExact Node) Node id inp eq_refl Hin) as (k & Hk & _). exists k. split; auto.
  edestruct (shows_node ck data c Hc HL at_ padd p0 popp s OK sol SZ vadd v0 taps id k Hk) as (sh & Esh & HS). unfold output_node in Esh.
  rewrite (user_topo _ _ _ _ _ s OK) in Esh by (eapply node_total; eauto). cbn [bindO fst snd] in Esh. split; intros Hl.
  - destruct (is_on k Hl) as (g & p & E). rewrite E in Esh. destruct (look_u _ _ _ _ _ s OK sol SZ k g p E) as [u Eu]. rewrite Eu in Esh. cbn [bindO] in Esh.
    rewrite (injected_total ck data c Hc HL at_ padd p0 popp s OK sol SZ vadd v0 taps id k Hk) in Esh. simpl in Esh. injection Esh as <-. eauto 10.
  - rewrite (is_off k Hl) in Esh. injection Esh as <-. exact HS.
Qed.

(** Branch: the flows of the branch of the calculation that connects the buses of its own nodes; nothing when it is not energised. *)
Theorem C45_branches t id f to si sj : derives GBranch t = true -> In (id, IBranch f to) (data t) ->
  at_branch_status at_ (mkEntry t id (IBranch f to)) = (si, sj) ->
  exists k i j, number_of GBranch id k /\ node_no f i /\ node_no to j /\
  ((si = true /\ live i) \/ (sj = true /\ live j) -> exists g q b ei ej, branch_coupling places k = Some (g, q) /\
     nth_error (branch_bus_idx places g) q = Some (ei, ej) /\ branch_end bus g si i ei /\ branch_end bus g sj j ej /\
     look sol (@so_branch V R) g q = Some b /\ shows id (S_branch b)) /\
  (~ ((si = true /\ live i) \/ (sj = true /\ live j)) -> shows id Null).
Proof.
  intros Hd Hin Hst. destruct (record_number GBranch t id _ Hd Hin) as (k & Hk & Ek). pose proof (ok_reg _ _ _ _ _ _ OK) as RG.
  destruct (Forall2_nth_l _ _ _ _ _ (rg_branch _ _ _ _ _ RG) Ek) as ([i j] & Eij & f' & to' & [= <- <-] & Hf & Ht). cbn [fst snd] in *. exists k, i, j. split; auto. split; auto. split; auto.
  assert (Ec : nth_error (branch_connected (st_conn s)) k = Some (si, sj)) by (rewrite (rg_branch_on _ _ _ _ _ RG), nth_error_map, Ek; simpl; congruence).
  destruct (shows_branch ck data c Hc HL at_ padd p0 popp s OK sol SZ vadd v0 taps id k Hk) as (sh & Esh & HS). rewrite <- !bus_live. pose proof (aa_branches _ _ _ _ _ (ok_att _ _ _ _ _ _ OK)) as BA. split; intros Hon.
  - destruct (ba_on _ _ _ _ BA k i j si sj Eij Ec Hon) as (g & q & ei & ej & E1 & E2 & E3 & E4). unfold output_at in Esh. rewrite E1 in Esh.
    destruct (look sol so_branch g q) as [b|] eqn:Eb; [|discriminate]. simpl in Esh. injection Esh as <-. exists g, q, b, ei, ej. repeat (split; auto).
  - rewrite (ba_off _ _ _ _ BA k i j si sj Eij Ec Hon) in Esh. simpl in Esh. injection Esh as <-. exact HS.
Qed.

(** Three-winding transformer: side by side, the flows of the branches between the bus of its own node and its star point. *)
Theorem C45_branch3 t id n1 n2 n3 cs : derives GBranch3 t = true -> In (id, IBranch3 n1 n2 n3) (data t) ->
  at_branch3_status at_ (mkEntry t id (IBranch3 n1 n2 n3)) = cs ->
  exists k i1 i2 i3, number_of GBranch3 id k /\ node_no n1 i1 /\ node_no n2 i2 /\ node_no n3 i3 /\
  ((exists sd, of_side sd cs = true /\ live (of_side sd (i1, i2, i3))) -> exists g star (bs : flow V * flow V * flow V),
     (forall sd, exists q e, nth_error (branch_bus_idx places g) q = Some (e, Some star) /\ branch_end bus g (of_side sd cs) (of_side sd (i1, i2, i3)) e /\
        owner_pos places (From_branch3 k sd) = Some (g, q) /\ look sol (@so_branch V R) g q = Some (of_side sd bs)) /\
     shows id (S_branch3 (of_side Side1 bs) (of_side Side2 bs) (of_side Side3 bs))) /\
  (~ (exists sd, of_side sd cs = true /\ live (of_side sd (i1, i2, i3))) -> shows id Null).
Proof.
  intros Hd Hin Hst. destruct (record_number GBranch3 t id _ Hd Hin) as (k & Hk & Ek). pose proof (ok_reg _ _ _ _ _ _ OK) as RG.
  destruct (Forall2_nth_l _ _ _ _ _ (rg_branch3 _ _ _ _ _ RG) Ek) as ([[i1 i2] i3] & Eij & ? & ? & ? & [= <- <- <-] & H1 & H2 & H3). cbn [fst snd] in *. exists k, i1, i2, i3. do 4 (split; auto).
  assert (Ec : nth_error (branch3_connected (st_conn s)) k = Some cs) by (rewrite (rg_branch3_on _ _ _ _ _ RG), nth_error_map, Ek; simpl; congruence).
  destruct (shows_branch3 ck data c Hc HL at_ padd p0 popp s OK sol SZ vadd v0 taps id k Hk) as (sh & Esh & HS). pose proof (aa_branches _ _ _ _ _ (ok_att _ _ _ _ _ _ OK)) as BA. split.
  - intros (sd & Hs1 & Hs2). apply bus_live in Hs2. destruct (ba_on3 _ _ _ _ BA k _ _ sd Eij Ec Hs1 Hs2) as (g & star & [[p1 p2] p3] & E1 & E2 & E3).
    destruct (branch3_values _ _ _ _ _ s OK sol SZ k g p1 p2 p3 E1) as (b1 & b2 & b3 & L1 & L2 & L3). exists g, star, (b1, b2, b3). split.
    + intros sd'. destruct (E3 sd') as (e & F1 & F2). exists (of_side sd' (p1, p2, p3)), e. split; auto. split; auto. simpl. rewrite E1. split; auto. destruct sd'; assumption.
    + unfold output_branch3 in Esh. rewrite E1, L1 in Esh. cbn [bindO] in Esh. rewrite L2 in Esh. cbn [bindO] in Esh. rewrite L3 in Esh. simpl in Esh. injection Esh as <-. exact HS.
  - intros Hoff. rewrite (ba_off3 _ _ _ _ BA k _ _ Eij Ec) in Esh.
    + simpl in Esh. injection Esh as <-. exact HS.
    + intros sd Hsd. apply is_off. intros Hl. apply Hoff. eauto.
Qed.

(** Sources, shunts, loads and generators: the power and current of the object of the calculation at the bus of its own node. *)
Theorem C45_sources id n : In (id, IAppliance n) (data Source) -> exists k i, number_of (GExact Source) id k /\ node_no n i /\
  let on := at_source_status at_ (mkEntry Source id (IAppliance n)) = true /\ live i in
  (on -> exists g q p a, snd (sources (st_coupled s)) k = Some (g, q) /\ bus i = Some (g, p) /\ group_at (fst (sources (st_coupled s)) g) q = Some p /\
     look sol (@so_source V R) g q = Some a /\ shows id (S_appliance a)) /\
  (~ on -> shows id Null).
Proof.
  intros Hin. destruct (record_number (GExact Source) Source id _ eq_refl Hin) as (k & Hk & Ek). pose proof (ok_reg _ _ _ _ _ _ OK) as RG.
  destruct (Forall2_nth_l _ _ _ _ _ (rg_source _ _ _ _ _ RG) Ek) as (i & Ei & ? & [= <-] & Hi). exists k, i. split; auto. split; auto.
  assert (Est : nth_error (source_connected (st_conn s)) k = Some (at_source_status at_ (mkEntry Source id (IAppliance n)))) by (rewrite (rg_source_on _ _ _ _ _ RG), nth_error_map, Ek; reflexivity).
  destruct (shows_source ck data c Hc HL at_ padd p0 popp s OK sol SZ vadd v0 taps id k Hk) as (sh & Esh & HS). pose proof (ok_att _ _ _ _ _ _ OK) as AA.
  assert (Hkl : k < length (source_node_idx (st_topo s))) by (apply nth_error_Some; congruence). intros on. split.
  - intros [Ho Hl]. destruct (is_on i Hl) as (g & p & E). rewrite Ho in Est.
    destruct (att_own _ _ _ _ _ _ (aa_sources _ _ _ _ _ AA) k g p Hkl Est) as (q & E1 & E2); [unfold at_node; now rewrite Ei|].
    unfold output_at in Esh. rewrite E1 in Esh. destruct (look sol so_source g q) as [a|] eqn:Ea; [|discriminate]. simpl in Esh. injection Esh as <-. exists g, q, p, a. repeat (split; auto).
  - intros Hoff. assert (E : snd (sources (st_coupled s)) k = None).
    { destruct (at_source_status at_ _) eqn:Eo; [|apply (aa_sources_off _ _ _ _ _ AA); congruence].
      apply (att_off _ _ _ _ _ _ (aa_sources _ _ _ _ _ AA) k Hkl Est). unfold at_node. rewrite Ei. apply is_off. intros Hl. apply Hoff. split; auto. }
    rewrite E in Esh. simpl in Esh. injection Esh as <-. exact HS.
Qed.
Theorem C45_shunts id n : In (id, IAppliance n) (data Shunt) -> exists k i, number_of (GExact Shunt) id k /\ node_no n i /\
  (live i -> exists g q p a, snd (shunts (st_coupled s)) k = Some (g, q) /\ bus i = Some (g, p) /\ group_at (fst (shunts (st_coupled s)) g) q = Some p /\
     look sol (@so_shunt V R) g q = Some a /\ shows id (S_appliance a)) /\
  (~ live i -> shows id Null).
Proof.
  intros Hin. destruct (record_number (GExact Shunt) Shunt id _ eq_refl Hin) as (k & Hk & Ek). pose proof (ok_reg _ _ _ _ _ _ OK) as RG.
  destruct (Forall2_nth_l _ _ _ _ _ (rg_shunt _ _ _ _ _ RG) Ek) as (i & Ei & ? & [= <-] & Hi). exists k, i. split; auto. split; auto.
  destruct (shows_shunt ck data c Hc HL at_ padd p0 popp s OK sol SZ vadd v0 taps id k Hk) as (sh & Esh & HS). pose proof (aa_shunts _ _ _ _ _ (ok_att _ _ _ _ _ _ OK)) as AA.
  assert (Hkl : k < length (shunt_node (st_objects s))) by (apply nth_error_Some; congruence). split.
  - intros Hl. destruct (is_on i Hl) as (g & p & E).
    destruct (att_own _ _ _ _ _ _ AA k g p Hkl I) as (q & E1 & E2); [unfold at_node; now rewrite Ei|].
    unfold output_at in Esh. rewrite E1 in Esh. destruct (look sol so_shunt g q) as [a|] eqn:Ea; [|discriminate]. simpl in Esh. injection Esh as <-. exists g, q, p, a. repeat (split; auto).
  - intros Hoff. rewrite (att_off _ _ _ _ _ _ AA k Hkl I) in Esh; [|unfold at_node; rewrite Ei; now apply is_off]. simpl in Esh. injection Esh as <-. exact HS.
Qed.
Theorem C45_loads_and_generators t id n : derives GGenericLoadGen t = true -> In (id, IAppliance n) (data t) -> exists k i, number_of GGenericLoadGen id k /\ node_no n i /\
  (live i -> exists g q p a, snd (load_gens (st_coupled s)) k = Some (g, q) /\ bus i = Some (g, p) /\ group_at (fst (load_gens (st_coupled s)) g) q = Some p /\
     look sol (@so_load_gen V R) g q = Some a /\ shows id (S_appliance a)) /\
  (~ live i -> shows id Null).
Proof.
  intros Hd Hin. destruct (record_number GGenericLoadGen t id _ Hd Hin) as (k & Hk & Ek). pose proof (ok_reg _ _ _ _ _ _ OK) as RG.
  destruct (Forall2_nth_l _ _ _ _ _ (rg_load_gen _ _ _ _ _ RG) Ek) as (i & Ei & ? & [= <-] & Hi). exists k, i. split; auto. split; auto.
  destruct (shows_load_gen ck data c Hc HL at_ padd p0 popp s OK sol SZ vadd v0 taps id k Hk) as (sh & Esh & HS). pose proof (aa_load_gens _ _ _ _ _ (ok_att _ _ _ _ _ _ OK)) as AA.
  assert (Hkl : k < length (load_gen_node (st_objects s))) by (apply nth_error_Some; congruence). split.
  - intros Hl. destruct (is_on i Hl) as (g & p & E).
    destruct (att_own _ _ _ _ _ _ AA k g p Hkl I) as (q & E1 & E2); [unfold at_node; now rewrite Ei|].
    unfold output_at in Esh. rewrite E1 in Esh. destruct (look sol so_load_gen g q) as [a|] eqn:Ea; [|discriminate]. simpl in Esh. injection Esh as <-. exists g, q, p, a. repeat (split; auto).
  - intros Hoff. rewrite (att_off _ _ _ _ _ _ AA k Hkl I) in Esh; [|unfold at_node; rewrite Ei; now apply is_off]. simpl in Esh. injection Esh as <-. exact HS.
Qed.

(** Different components take different places. *)
Theorem C45_places : (forall id id' k k' a, number_of GBranch id k -> number_of GBranch id' k' -> branch_coupling places k = Some a -> branch_coupling places k' = Some a -> id = id') /\
  (forall id id' k k' g q sd sd', number_of GBranch3 id k -> number_of GBranch3 id' k' ->
     owner_pos places (From_branch3 k sd) = Some (g, q) -> owner_pos places (From_branch3 k' sd') = Some (g, q) -> id = id' /\ sd = sd') /\
  (forall id id' k k' g q sd, number_of GBranch id k -> number_of GBranch3 id' k' -> branch_coupling places k = Some (g, q) -> owner_pos places (From_branch3 k' sd) <> Some (g, q)) /\
  (forall id id' k k' a, number_of (GExact Source) id k -> number_of (GExact Source) id' k' -> snd (sources (st_coupled s)) k = Some a -> snd (sources (st_coupled s)) k' = Some a -> id = id') /\
  (forall id id' k k' a, number_of (GExact Shunt) id k -> number_of (GExact Shunt) id' k' -> snd (shunts (st_coupled s)) k = Some a -> snd (shunts (st_coupled s)) k' = Some a -> id = id') /\
  (forall id id' k k' a, number_of GGenericLoadGen id k -> number_of GGenericLoadGen id' k' -> snd (load_gens (st_coupled s)) k = Some a -> snd (load_gens (st_coupled s)) k' = Some a -> id = id').
Proof.
  pose proof (ok_att _ _ _ _ _ _ OK) as AA. pose proof (aa_branches _ _ _ _ _ AA) as BA.
  assert (X : forall g id id' k, number_of g id k -> number_of g id' k -> id = id') by (intros g id id' k (e & E & <-) (e' & E' & <-); congruence).
  refine (conj _ (conj _ (conj _ (conj _ (conj _ _))))).
  - intros id id' k k' a H H' E E'. assert (Y : From_branch k = From_branch k') by (eapply (ba_once _ _ _ _ BA); simpl; eauto). injection Y as <-. eauto.
  - intros id id' k k' g q sd sd' H H' E E'. pose proof (ba_once _ _ _ _ BA _ _ _ E E') as Y. injection Y as <- <-. eauto.
  - intros id id' k k' g q sd H H' E E'. assert (Y : From_branch k = From_branch3 k' sd) by (eapply (ba_once _ _ _ _ BA); simpl in *; eauto). discriminate.
  - intros id id' k k' a H H' E E'. assert (Z : forall k a, snd (sources (st_coupled s)) k = Some a -> nth_error (source_connected (st_conn s)) k = Some true).
    { intros z b Hz. destruct (nth_error (source_connected (st_conn s)) z) as [[]|] eqn:Ez; auto; rewrite (aa_sources_off _ _ _ _ _ AA) in Hz; congruence. }
    assert (k = k'); [|subst; eauto]. apply number_lt in H, H'. rewrite (length_source _ _ _ _ _ s OK) in H, H'. apply (att_once _ _ _ _ _ _ (aa_sources _ _ _ _ _ AA) k k' a); eauto.
  - intros id id' k k' a H H' E E'. pose proof H as L. pose proof H' as L'. apply number_lt in L, L'. rewrite (length_shunt _ _ _ _ _ s OK) in L, L'.
    assert (k = k'); [|subst; eauto]. apply (att_once _ _ _ _ _ _ (aa_shunts _ _ _ _ _ AA) k k' a); auto.
  - intros id id' k k' a H H' E E'. pose proof H as L. pose proof H' as L'. apply number_lt in L, L'. rewrite (length_load_gen _ _ _ _ _ s OK) in L, L'.
    assert (k = k'); [|subst; eauto]. apply (att_once _ _ _ _ _ _ (aa_load_gens _ _ _ _ _ AA) k k' a); auto.
Qed.

(** Voltage sensor: the residual is taken against the voltage reported for its node. *)
Theorem C45_voltage_sensors t id n : derives GGenericVoltageSensor t = true -> In (id, IVoltageSensor n) (data t) ->
  exists sh, shows n sh /\ shows id (match sh with S_node u _ => S_value u | _ => Null end).
Proof.
  intros Hd Hin. pose proof (ok_reg _ _ _ _ _ _ OK) as RG.
  destruct (record_number GGenericVoltageSensor t id _ Hd Hin) as (k & Hk & Ek).
  destruct (shows_kind ck data c Hc HL at_ padd p0 popp s OK sol SZ vadd v0 taps GGenericVoltageSensor (fun _ k => bindO (nth_error (voltage_sensor_node (st_objects s)) k) (output_voltage_sensor s sol))) with (2 := Hk)
    as (e & sh & Ee & _ & HF & HS); [intros []; try discriminate; auto|]. rewrite Ek in Ee. injection Ee as <-.
  destruct (Forall2_nth_l _ _ _ _ _ (rg_voltage _ _ _ _ _ RG) Ek) as (i & Ei & ? & [= <-] & Hi). rewrite Ei in HF. cbn [bindO] in HF.
  destruct (shows_node ck data c Hc HL at_ padd p0 popp s OK sol SZ vadd v0 taps n i Hi) as (shn & En & HSn). exists shn. split; auto.
  unfold output_node in En. rewrite (user_topo _ _ _ _ _ s OK) in En by (eapply node_total; eauto). cbn [bindO fst snd] in En. unfold output_voltage_sensor, output_at in HF.
  destruct (bus i) as [[g p]|]; [|injection En as <-; congruence].
  destruct (look sol so_u g p) as [u|]; [|discriminate]. cbn [bindO] in En. rewrite (injected_total ck data c Hc HL at_ padd p0 popp s OK sol SZ vadd v0 taps n i Hi) in En. simpl in En, HF. injection En as <-. injection HF as <-. exact HS.
Qed.

(** Power sensor: the residual is taken against the power reported for the measured object at the measured side. *)
Theorem C45_power_sensors t id x ty : derives GGenericPowerSensor t = true -> In (id, IPowerSensor x ty) (data t) -> ty <> t_node ->
  exists sh, shows x sh /\ shows id (measured_power ty sh).
Proof.
  intros Hd Hin Hty. pose proof (ok_reg _ _ _ _ _ _ OK) as RG.
  destruct (record_number GGenericPowerSensor t id _ Hd Hin) as (k & Hk & Ek).
  destruct (shows_kind ck data c Hc HL at_ padd p0 popp s OK sol SZ vadd v0 taps GGenericPowerSensor (fun _ k => bindO (nth_error (power_sensors (st_objects s)) k) (fun ot => output_power_sensor s sol (snd ot) (fst ot)))) with (2 := Hk)
    as (e & sh & Ee & _ & HF & HS); [intros []; try discriminate; auto|]. rewrite Ek in Ee. injection Ee as <-.
  destruct (Forall2_nth_l _ _ _ _ _ (rg_power _ _ _ _ _ RG) Ek) as ([j ty'] & Ej & ? & ? & [= <- <-] & HT & Hj). rewrite Ej in HF. cbn [bindO fst snd] in HF, HT, Hj. unfold output_power_sensor, object_place in HF.
  destruct ty, ty'; try destruct HT; try congruence; cbn [measured_kind] in Hj;
    first [destruct (shows_branch ck data c Hc HL at_ padd p0 popp s OK sol SZ vadd v0 taps x j Hj) as (shx & Ex & HSx)
          |destruct (shows_branch3 ck data c Hc HL at_ padd p0 popp s OK sol SZ vadd v0 taps x j Hj) as (shx & Ex & HSx)
          |destruct (shows_source ck data c Hc HL at_ padd p0 popp s OK sol SZ vadd v0 taps x j Hj) as (shx & Ex & HSx)
          |destruct (shows_shunt ck data c Hc HL at_ padd p0 popp s OK sol SZ vadd v0 taps x j Hj) as (shx & Ex & HSx)
          |destruct (shows_load_gen ck data c Hc HL at_ padd p0 popp s OK sol SZ vadd v0 taps x j Hj) as (shx & Ex & HSx)];
    exists shx; (split; [exact HSx|]); clear HSx; unfold output_at, output_branch3 in Ex.
  1,2: destruct (branch_coupling places j) as [[g p]|]; [|injection Ex as <-; simpl; congruence]; destruct (look sol so_branch g p); [|discriminate]; simpl in *; injection Ex as <-; simpl; congruence.
  5,6,7: destruct (branch3_coupling places j) as [[g [[q1 q2] q3]]|]; [|injection Ex as <-; simpl in HF |- *; congruence]; cbn [option_map fst snd] in HF;
    destruct (look sol so_branch g q1); [|discriminate]; cbn [bindO] in Ex; destruct (look sol so_branch g q2); [|discriminate]; cbn [bindO] in Ex; destruct (look sol so_branch g q3); [|discriminate];
    simpl in *; injection Ex as <-; simpl; congruence.
  - destruct (snd (sources (st_coupled s)) j) as [[g p]|]; [|injection Ex as <-; simpl; congruence]. destruct (look sol so_source g p); [|discriminate]. simpl in *. injection Ex as <-. simpl. congruence.
  - destruct (snd (shunts (st_coupled s)) j) as [[g p]|]; [|injection Ex as <-; simpl; congruence]. destruct (look sol so_shunt g p); [|discriminate]. simpl in *. injection Ex as <-. simpl. congruence.
  - destruct (snd (load_gens (st_coupled s)) j) as [[g p]|]; [|injection Ex as <-; simpl; congruence]. destruct (look sol so_load_gen g p); [|discriminate]. simpl in *. injection Ex as <-. simpl. congruence.
  - destruct (snd (load_gens (st_coupled s)) j) as [[g p]|]; [|injection Ex as <-; simpl; congruence]. destruct (look sol so_load_gen g p); [|discriminate]. simpl in *. injection Ex as <-. simpl. congruence.
Qed.
(** Node power sensor: against the injection at the bus of the node. *)
Theorem C45_node_power_sensors t id x : derives GGenericPowerSensor t = true -> In (id, IPowerSensor x t_node) (data t) -> exists i, node_no x i /\
  (live i -> exists g p v, bus i = Some (g, p) /\ look sol (@so_injection V R) g p = Some v /\ shows id (S_value v)) /\ (~ live i -> shows id Null).
Proof.
  intros Hd Hin. pose proof (ok_reg _ _ _ _ _ _ OK) as RG.
  destruct (record_number GGenericPowerSensor t id _ Hd Hin) as (k & Hk & Ek).
  destruct (shows_kind ck data c Hc HL at_ padd p0 popp s OK sol SZ vadd v0 taps GGenericPowerSensor (fun _ k => bindO (nth_error (power_sensors (st_objects s)) k) (fun ot => output_power_sensor s sol (snd ot) (fst ot)))) with (2 := Hk)
    as (e & sh & Ee & _ & HF & HS); [intros []; try discriminate; auto|]. rewrite Ek in Ee. injection Ee as <-.
  destruct (Forall2_nth_l _ _ _ _ _ (rg_power _ _ _ _ _ RG) Ek) as ([j ty'] & Ej & ? & ? & [= <- <-] & HT & Hj). rewrite Ej in HF. cbn [bindO fst snd] in HF, HT, Hj. unfold output_power_sensor, object_place in HF.
  destruct ty'; try destruct HT. cbn [measured_kind] in Hj. exists j. split; auto. split; intros Hl.
  - destruct (is_on j Hl) as (g & p & E). rewrite E in HF. destruct (look sol so_injection g p) as [v|] eqn:Ev; [|discriminate]. injection HF as <-. exists g, p, v. auto.
  - rewrite (is_off j Hl) in HF. injection HF as <-. exact HS.
Qed.

(** Tap regulator: the position found for its transformer. *)
Theorem C45_tap_regulators id x side : In (id, ITapRegulator x side) (data TransformerTapRegulator) ->
  (exists a tp b, taps = a ++ (x, tp) :: b /\ (forall y, In y a -> fst y <> x) /\ shows id (S_tap tp)) \/ ((forall y, In y taps -> fst y <> x) /\ shows id Null).
Proof.
  intros Hin. apply In_nth_error in Hin as [n Hn]. destruct (func_defined ck data c Hc HL at_ padd p0 popp s OK sol SZ vadd v0 taps TransformerTapRegulator n _ eq_refl Hn) as [sh Hsh].
  destruct (res_defined ck data c Hc HL at_ padd p0 popp s OK sol SZ vadd v0 taps TransformerTapRegulator eq_refl) as (l & El & _).
  pose proof (shows_record ck data c Hc at_ padd p0 popp s OK sol SZ vadd v0 taps _ l n _ sh El Hn Hsh) as HS. cbn [fst snd] in *. unfold func in Hsh.
  destruct (component_of ck data c Hc GRegulator TransformerTapRegulator n _ eq_refl Hn) as (k & E & _). rewrite E in Hsh. unfold output_tap_regulator in Hsh. cbn [bindO e_in] in Hsh.
  destruct (find (fun tp => (fst tp =? x)%Z) taps) as [[y tp]|] eqn:Ef; injection Hsh as <-.
  - left. assert (X : forall l, find (fun tp => (fst tp =? x)%Z) l = Some (y, tp) -> exists a b, l = a ++ (x, tp) :: b /\ forall z, In z a -> fst z <> x).
    { clear. induction l as [|[z q] l IH]; simpl; [discriminate|]. destruct (Z.eqb_spec z x) as [->|Hne].
      - intros [= <- <-]. exists [], l. split; [reflexivity|intros z []].
      - intros H. destruct (IH H) as (a & b & -> & Ha). exists ((z, q) :: a), b. split; auto. intros w [<-|Hw]; auto. }
    destruct (X _ Ef) as (a & b & E1 & E2). exists a, tp, b. auto.
  - right. split; auto. intros y Hy Hx. apply (find_none _ _ Ef) in Hy. rewrite Hx in Hy. now rewrite Z.eqb_refl in Hy.
Qed.
(** Voltage regulator: the entry of its generator in the sub-grid of the generator. *)
Theorem C45_voltage_regulators id x : In (id, IVoltageRegulator x) (data VoltageRegulator) -> exists k, number_of GGenericLoadGen x k /\
  match snd (load_gens (st_coupled s)) k with
  | None => shows x Null /\ shows id Null
  | Some (g, _) => exists m, nth_error sol g = Some m /\
      ((exists r, In (x, r) (so_regulator m) /\ shows id (S_regulator r)) \/ ((forall y, In y (so_regulator m) -> fst y <> x) /\ shows id Null))
  end.
Proof.
  intros Hin. pose proof Hin as Hin'. apply In_nth_error in Hin as [n Hn]. destruct (func_defined ck data c Hc HL at_ padd p0 popp s OK sol SZ vadd v0 taps VoltageRegulator n _ eq_refl Hn) as [sh Hsh].
  destruct (res_defined ck data c Hc HL at_ padd p0 popp s OK sol SZ vadd v0 taps VoltageRegulator eq_refl) as (l & El & _).
  pose proof (shows_record ck data c Hc at_ padd p0 popp s OK sol SZ vadd v0 taps _ l n _ sh El Hn Hsh) as HS. cbn [fst snd] in *. unfold func in Hsh.
  destruct (component_of ck data c Hc GRegulator VoltageRegulator n _ eq_refl Hn) as (k0 & E & Ek). rewrite E in Hsh. cbn [bindO fst snd] in *.
  destruct (Forall2_nth_l _ _ _ _ _ (rg_regulator _ _ _ _ _ (ok_reg _ _ _ _ _ _ OK)) Ek) as ([k bb] & Eb & [(y & sd & H1 & _)|(y & [= <-] & _ & Hy)]); [discriminate|].
  rewrite Eb in Hsh. cbn [bindO fst] in *. exists k. split; auto. unfold output_voltage_regulator in Hsh. cbn [e_in] in Hsh.
  destruct (snd (load_gens (st_coupled s)) k) as [[g q]|] eqn:Ec.
  - destruct (nth_error sol g) as [m|]; [|discriminate]. exists m. split; auto. cbn [bindO] in Hsh. destruct (find (fun vr => (fst vr =? x)%Z) (so_regulator m)) as [[y r]|] eqn:Ef; injection Hsh as <-.
    + left. exists r. split; auto. apply find_some in Ef as [Hi Hx]. apply Z.eqb_eq in Hx. simpl in Hx. now subst.
    + right. split; auto. intros y Hyi Hx. apply (find_none _ _ Ef) in Hyi. rewrite Hx in Hyi. now rewrite Z.eqb_refl in Hyi.
  - injection Hsh as <-. split; auto. destruct (shows_load_gen ck data c Hc HL at_ padd p0 popp s OK sol SZ vadd v0 taps x k Hy) as (shx & Ex & HSx). rewrite Ec in Ex. simpl in Ex. now injection Ex as <-.
Qed.

(** Current sensors. Whenever the records exist, the current compared with is the one reported at the measured terminal.
    The voltage handed over for the direction of a local angle is right only for branches whose place in the calculation is numbered like
    the branch itself; refuted in general below. *)
Theorem C45_current_sensors_partial t id x ty l : derives GGenericCurrentSensor t = true -> In (id, ICurrentSensor x ty) (data t) -> res t = Some l ->
  exists shx, shows x shx /\
  match measured_current ty shx with
  | None => shows id Null
  | Some i => exists u, shows id (S_current i u) /\
      forall k g q f to a nd, number_of GBranch x k -> branch_coupling places k = Some (g, q) -> q = k -> g <= 1 ->
        In (x, IBranch f to) (data a) -> derives GBranch a = true -> terminal_node ty (IBranch f to) = Some nd -> exists inj, shows nd (S_node u inj)
  end.
Proof.
  intros Hd Hin Hl. pose proof (ok_reg _ _ _ _ _ _ OK) as RG. pose proof Hin as Hin'.
  apply In_nth_error in Hin as [n Hn]. pose proof Hl as Hl'. rewrite (res_produce ck data c Hc at_ padd p0 popp s OK sol SZ vadd v0 taps) in Hl'. apply (produce_some ck data c Hc) in Hl'.
  destruct (produced_at _ _ _ _ _ _ Hl' Hn) as (sh & _ & Hsh). pose proof (shows_record ck data c Hc at_ padd p0 popp s OK sol SZ vadd v0 taps _ l n _ sh Hl Hn Hsh) as HS. cbn [fst snd] in *.
  destruct (component_of ck data c Hc GGenericCurrentSensor t n _ Hd Hn) as (k & Eb & Ek). cbn [fst snd] in *.
  destruct (Forall2_nth_l _ _ _ _ _ (rg_current _ _ _ _ _ RG) Ek) as ([j ty'] & Ej & ? & ? & [= <- <-] & HT & Hj). cbn [fst snd] in *.
  assert (HF : output_current_sensor c s sol ty' j = Some sh) by (destruct t; try discriminate Hd; unfold func in Hsh; rewrite Eb in Hsh; cbn [bindO] in Hsh; rewrite Ej in Hsh; exact Hsh). clear Hsh.
  unfold output_current_sensor, object_place in HF.
  assert (HB : ty = t_branch_from \/ ty = t_branch_to -> forall idx nodes g, 
     get_seq (is_base GBranch) c (g, j) = Some idx -> nth_error (branch_node_idx (st_topo s)) idx = Some nodes ->
     forall f to a nd u, number_of GBranch x j -> g <= 1 -> In (x, IBranch f to) (data a) -> derives GBranch a = true -> terminal_node ty (IBranch f to) = Some nd ->
     bindO (bus (match ty with t_branch_to => snd nodes | _ => fst nodes end)) (fun gp => look sol (@so_u V R) (fst gp) (snd gp)) = Some u -> exists inj, shows nd (S_node u inj)).
  { intros Hty idx nodes g Eidx Enodes f to a nd u Hxj Hg Ha Hda Hnd Hu.
    assert (idx = j) as ->.
    { unfold get_seq in Eidx. cbn [fst snd] in Eidx. unfold cum_size, size_per_vector in Eidx.
      destruct g as [|[|g]]; [simpl in Eidx; congruence| |lia]. destruct (vectors c); simpl in Eidx; congruence. }
    destruct (record_number GBranch a x _ Hda Ha) as (k' & Hk' & Ek'). assert (k' = j) as -> by (exact (number_unique ck data c Hc _ _ _ _ Hk' Hxj)).
    destruct (Forall2_nth_l _ _ _ _ _ (rg_branch _ _ _ _ _ RG) Ek') as ([i1 i2] & Eij & ? & ? & [= <- <-] & Hf & Hto). cbn [fst snd] in *. rewrite Enodes in Eij. injection Eij as ->. cbn [fst snd] in *.
    assert (HN : forall n i, node_no n i -> bindO (bus i) (fun gp => look sol (@so_u V R) (fst gp) (snd gp)) = Some u -> exists inj, shows n (S_node u inj)).
    { intros n' i Hi Hbi. destruct (shows_node ck data c Hc HL at_ padd p0 popp s OK sol SZ vadd v0 taps n' i Hi) as (shn & En & HSn). unfold output_node in En.
      rewrite (user_topo _ _ _ _ _ s OK) in En by (eapply node_total; eauto). cbn [bindO fst snd] in En. destruct (bus i) as [[g' p']|]; [|discriminate]. cbn [bindO fst snd] in Hbi. rewrite Hbi in En. cbn [bindO] in En.
      rewrite (injected_total ck data c Hc HL at_ padd p0 popp s OK sol SZ vadd v0 taps n' i Hi) in En. simpl in En. injection En as <-. eauto. }
    destruct Hty as [-> | ->]; simpl in Hnd; injection Hnd as <-; eauto. }
  destruct ty, ty'; try destruct HT; try discriminate HF; cbn [measured_kind] in Hj;
    first [destruct (shows_branch ck data c Hc HL at_ padd p0 popp s OK sol SZ vadd v0 taps x j Hj) as (shx & Ex & HSx)
          |destruct (shows_branch3 ck data c Hc HL at_ padd p0 popp s OK sol SZ vadd v0 taps x j Hj) as (shx & Ex & HSx)];
    exists shx; (split; [exact HSx|]); clear HSx; unfold output_at, output_branch3 in Ex.
  1,2: destruct (branch_coupling places j) as [[g p]|] eqn:Ec; [|injection Ex as <-; simpl; congruence];
    destruct (look sol so_branch g p) as [b|]; [|discriminate]; simpl in Ex; injection Ex as <-; cbn [measured_current];
    destruct (get_seq (is_base GBranch) c (g, p)) as [idx|] eqn:Eidx; [|discriminate]; cbn [bindO] in HF; destruct (nth_error (branch_node_idx (st_topo s)) idx) as [nodes|] eqn:Enodes; [|discriminate]; cbn [bindO] in HF;
    match type of HF with option_map _ ?v = _ => destruct v as [u|] eqn:Eu; [|discriminate] end; cbn [option_map] in HF; injection HF as <-; exists u; (split; [exact HS|]);
    intros k' g' q f to a nd Hk' Hc' Hq Hg Ha Hda Hnd; assert (k' = j) as -> by (exact (number_unique ck data c Hc _ _ _ _ Hk' Hj)); rewrite Ec in Hc'; injection Hc' as <- <-; subst p; eauto.
  all: destruct (branch3_coupling places j) as [[g [[q1 q2] q3]]|]; [|injection Ex as <-; simpl in HF |- *; congruence]; cbn [option_map fst snd] in HF;
    destruct (look sol so_branch g q1) as [b1|]; [|discriminate]; cbn [bindO] in Ex; destruct (look sol so_branch g q2) as [b2|]; [|discriminate]; cbn [bindO] in Ex; destruct (look sol so_branch g q3) as [b3|]; [|discriminate];
    simpl in Ex; injection Ex as <-; cbn [measured_current];
    match type of HF with bindO ?v _ = _ => destruct v as [idx|]; [|discriminate] end; cbn [bindO] in HF; destruct (nth_error (branch_node_idx (st_topo s)) idx) as [nodes|]; [|discriminate]; cbn [bindO] in HF;
    match type of HF with option_map _ ?v = _ => destruct v as [u|] eqn:Eu; [|discriminate] end; cbn [option_map] in HF; injection HF as <-; exists u; (split; [exact HS|]); intros; discriminate.
Qed.

(** ** short circuit results: one record per component in input order, one result per component, each taken from the place of the
    component; [fc] are the places of the faults, see C53. *)
Section ShortCircuit.
Variable sc : list (sc_out V).
Hypothesis SS : sc_sized s sc.
Variable fc : list Coupling.idx2d.
Hypothesis FL : length fc = length (data Fault).
Hypothesis FR : forall n g q, nth_error fc n = Some (Some (g, q)) -> exists i, look sc (@sc_fault V) g q = Some i.
Notation sres := (sc_output_result (R := R) c s sc fc).
Notation sshows := (OutputSpec.shows sres).
Theorem C45_short_circuit_records :
  (forall t, exists l, sres t = Some l /\ map (fun es => (e_id (fst es), e_in (fst es))) l = data t) /\
  (forall id a b, sshows id a -> sshows id b -> a = b).
Proof. split; [intros t; eapply sres_defined; eauto|intros id a b; eapply sshows_unique; eauto]. Qed.
Theorem C45_short_circuit :
  (forall id k, node_no id k -> match bus k with None => sshows id Null | Some (g, p) => exists u, look sc (@sc_u V) g p = Some u /\ sshows id (S_sc_node u) end) /\
  (forall id k, number_of GBranch id k -> match branch_coupling places k with
     | None => sshows id Null | Some (g, q) => exists b, look sc (@sc_branch V) g q = Some b /\ sshows id (S_sc_branch b) end) /\
  (forall id k, number_of GBranch3 id k -> match branch3_coupling places k with
     | None => sshows id Null
     | Some (g, ((q1, q2), q3)) => exists b1 b2 b3, look sc (@sc_branch V) g q1 = Some b1 /\ look sc (@sc_branch V) g q2 = Some b2 /\ look sc (@sc_branch V) g q3 = Some b3 /\
         sshows id (S_sc_branch3 b1 b2 b3) end) /\
  (forall id k, number_of (GExact Source) id k -> match snd (sources (st_coupled s)) k with
     | None => sshows id Null | Some (g, q) => exists i, look sc (@sc_source V) g q = Some i /\ sshows id (S_sc_appliance i) end) /\
  (forall id k, number_of (GExact Shunt) id k -> match snd (shunts (st_coupled s)) k with
     | None => sshows id Null | Some (g, q) => exists i, look sc (@sc_shunt V) g q = Some i /\ sshows id (S_sc_appliance i) end) /\
  (forall n id x, nth_error (data Fault) n = Some (id, IFault x) -> exists place, nth_error fc n = Some place /\
     match place with None => sshows id Null | Some (g, q) => exists i, look sc (@sc_fault V) g q = Some i /\ sshows id (S_fault i x) end).
Proof.
  pose proof (ok_reg _ _ _ _ _ _ OK) as RG. refine (conj _ (conj _ (conj _ (conj _ (conj _ _))))).
  - intros id k Hk. set (F := fun k => sc_output_at (R := R) sc (@sc_u V) S_sc_node (bus k)).
    assert (HF : forall sh, F k = Some sh -> sshows id sh).
    { intros sh Hsh. eapply (sshows_kind ck data c Hc HL at_ padd p0 popp s OK sc SS fc FL FR (GExact Node) F); eauto. intros []; try discriminate. intros _ n e Hn. rewrite (exact_index ck data c Hc) by auto.
      unfold sfunc. rewrite (user_topo _ _ _ _ _ s OK) by (unfold n_node_total; rewrite (rg_node _ _ _ _ _ RG); lia). reflexivity. }
    pose proof (sc_value_at (R := R) sc (@sc_u V) S_sc_node (bus k) (sc_look_u _ _ _ _ _ s OK sc SS k)) as X. fold (F k) in X.
    destruct (bus k) as [[g p]|]; [destruct X as (b & E & X)|]; eauto.
  - intros id k Hk. set (F := fun k => sc_output_at (R := R) sc (@sc_branch V) S_sc_branch (branch_coupling places k)).
    assert (HF : forall sh, F k = Some sh -> sshows id sh).
    { intros sh Hsh. eapply (sshows_kind ck data c Hc HL at_ padd p0 popp s OK sc SS fc FL FR GBranch F); eauto. intros []; try discriminate; reflexivity. }
    pose proof (sc_value_at (R := R) sc (@sc_branch V) S_sc_branch (branch_coupling places k) (sc_look_branch _ _ _ _ _ s OK sc SS (From_branch k))) as X. fold (F k) in X.
    destruct (branch_coupling places k) as [[g p]|]; [destruct X as (b & E & X)|]; eauto.
  - intros id k Hk. set (F := fun k => sc_output_branch3 (R := R) sc (branch3_coupling places k)).
    assert (HF : forall sh, F k = Some sh -> sshows id sh).
    { intros sh Hsh. eapply (sshows_kind ck data c Hc HL at_ padd p0 popp s OK sc SS fc FL FR GBranch3 F); eauto. intros []; try discriminate; reflexivity. }
    unfold F, sc_output_branch3 in HF. destruct (branch3_coupling places k) as [[g [[q1 q2] q3]]|] eqn:E; [|eauto].
    destruct (sc_branch3_values _ _ _ _ _ s OK sc SS k g q1 q2 q3 E) as (b1 & b2 & b3 & E1 & E2 & E3). exists b1, b2, b3. do 3 (split; auto). apply HF. rewrite E1, E2, E3. reflexivity.
  - intros id k Hk. set (F := fun k => sc_output_at (R := R) sc (@sc_source V) S_sc_appliance (snd (sources (st_coupled s)) k)).
    assert (HF : forall sh, F k = Some sh -> sshows id sh).
    { intros sh Hsh. eapply (sshows_kind ck data c Hc HL at_ padd p0 popp s OK sc SS fc FL FR (GExact Source) F); eauto. intros []; try discriminate. intros _ n e Hn. now rewrite (exact_index ck data c Hc). }
    assert (Hkl : k < length (source_node_idx (st_topo s))) by (rewrite <- (length_source _ _ _ _ _ s OK); eapply number_lt; eauto).
    pose proof (sc_value_at (R := R) sc (@sc_source V) S_sc_appliance (snd (sources (st_coupled s)) k) (fun g q => sc_look_source _ _ _ _ _ s OK sc SS k g q Hkl)) as X. fold (F k) in X.
    destruct (snd (sources (st_coupled s)) k) as [[g p]|]; [destruct X as (b & E & X)|]; eauto.
  - intros id k Hk. set (F := fun k => sc_output_at (R := R) sc (@sc_shunt V) S_sc_appliance (snd (shunts (st_coupled s)) k)).
    assert (HF : forall sh, F k = Some sh -> sshows id sh).
    { intros sh Hsh. eapply (sshows_kind ck data c Hc HL at_ padd p0 popp s OK sc SS fc FL FR (GExact Shunt) F); eauto. intros []; try discriminate. intros _ n e Hn. now rewrite (exact_index ck data c Hc). }
    assert (Hkl : k < length (shunt_node (st_objects s))) by (rewrite <- (length_shunt _ _ _ _ _ s OK); eapply number_lt; eauto).
    pose proof (sc_value_at (R := R) sc (@sc_shunt V) S_sc_appliance (snd (shunts (st_coupled s)) k) (fun g q => sc_look_shunt _ _ _ _ _ s OK sc SS k g q Hkl)) as X. fold (F k) in X.
    destruct (snd (shunts (st_coupled s)) k) as [[g p]|]; [destruct X as (b & E & X)|]; eauto.
  - intros n id x Hn. assert (Hlt : n < length fc) by (rewrite FL; apply nth_error_Some; congruence). destruct (nth_error fc n) as [place|] eqn:Ep; [|apply nth_error_None in Ep; lia]. exists place. split; auto.
    assert (HF : forall sh, sc_output_at (R := R) sc (@sc_fault V) (fun i => S_fault i x) place = Some sh -> sshows id sh).
    { intros sh Hsh. change id with (fst (id, IFault x)). eapply (sshows_record ck data c Hc HL at_ padd p0 popp s OK sc SS fc FL FR Fault n); eauto. unfold sfunc. rewrite Ep. exact Hsh. }
    pose proof (sc_value_at (R := R) sc (@sc_fault V) (fun i => S_fault i x) place) as X. destruct place as [[g q]|].
    + destruct X as (b & E & X); [intros g' q' [= <- <-]; eapply FR; eauto|]. eauto.
    + apply HF. reflexivity.
Qed.
End ShortCircuit.
End Props.

(** ** a network: line 10 is open at both ends, so line 11 is the first branch of the calculation *)
Definition grid (side : Container.terminal) (t : ctype) : list (Z * cinput) :=
  match t with
  | Node => [(1, IBare); (2, IBare); (3, IBare); (4, IBare)]
  | Line => [(10, IBranch 2 3); (11, IBranch 1 2)]
  | Source => [(20, IAppliance 1)]
  | SymLoad => [(30, IAppliance 2); (32, IAppliance 4)]
  | AsymLoad => [(31, IAppliance 2)]
  | SymPowerSensor => [(40, IPowerSensor 11 t_branch_to); (41, IPowerSensor 2 t_node); (43, IPowerSensor 32 t_load)]
  | SymVoltageSensor => [(42, IVoltageSensor 3); (44, IVoltageSensor 2)]
  | SymCurrentSensor => [(50, ICurrentSensor 11 side)]
  | _ => []
  end%Z.
Definition grid_attributes : attributes Z nat :=
  mkAttributes (fun e => if Z.eqb (e_id e) 10 then (false, false) else (true, true)) (fun _ => 0%Z) (fun _ => (true, true, true)) (fun _ => (0, 0, 0)%Z) (fun _ => true) (fun _ => 0).
Definition grid_sol : list (solver_out Z unit) :=
  [mkSolverOut [100; 200]%Z [11; 12]%Z [mkFlow 1 2 3 4]%Z [mkApp 5 6]%Z [] [mkApp 7 8; mkApp 9 10]%Z []].
Definition on_grid {A} (side : Container.terminal) (f : mcontainer -> model_state -> A) : option A :=
  match create_model no_check (grid side) with
  | Ok c => option_map (f c) (build_state grid_attributes c Z.add 0%Z Z.opp isort (fun _ _ => false))
  | Err _ => None
  end.
Definition grid_results (side : Container.terminal) (t : ctype) : option (option (list (Z * shown Z unit))) :=
  on_grid side (fun c s => option_map (map (fun es => (e_id (fst es), snd es))) (results Z.add 0%Z c s grid_sol [] t)).
Example grid_layouts side : layouts_ok (grid side).
Proof. intros t r; destruct t; simpl; intuition subst; exact I. Qed.
(** the hypotheses of the theorems hold *)
Example grid_hypotheses : exists c s, create_model no_check (grid t_branch_from) = Ok c /\
  build_state grid_attributes c Z.add 0%Z Z.opp isort (fun _ _ => false) = Some s /\ sort_contract isort /\ sized s grid_sol.
Proof.
  destruct (create_model no_check (grid t_branch_from)) as [c|] eqn:Ec; [|vm_compute in Ec; discriminate].
  exists c. destruct (build_state grid_attributes c Z.add 0%Z Z.opp isort (fun _ _ => false)) as [s|] eqn:Es.
  2:{ exfalso. vm_compute in Ec. injection Ec as <-. vm_compute in Es. discriminate. }
  exists s. split; auto. split; auto. split; [exact isort_contract|].
  vm_compute in Ec. injection Ec as <-. vm_compute in Es. injection Es as <-.
  constructor; [reflexivity|]. intros [|g] m mg E1 E2; [|destruct g; discriminate]. vm_compute in E1, E2. injection E1 as <-. injection E2 as <-. vm_compute. auto 10.
Qed.
Example grid_output :
  map (grid_results t_branch_from) [Node; Line; Source; SymLoad; AsymLoad; SymPowerSensor; SymVoltageSensor] =
  map (fun l => Some (Some l))
    [[(1, S_node 200 5); (2, S_node 100 16); (3, Null); (4, Null)];
     [(10, Null); (11, S_branch (mkFlow 1 2 3 4))];
     [(20, S_appliance (mkApp 5 6))];
     [(30, S_appliance (mkApp 7 8)); (32, Null)];
     [(31, S_appliance (mkApp 9 10))];
     [(40, S_value 2); (41, S_value 11); (43, Null)];
     [(42, Null); (44, S_value 100)]]%Z.
Proof. vm_compute. reflexivity. Qed.

(** C45 refuted for current sensors: line 11 leaves node 1 (voltage 200), but the voltage of node 2 (100) is handed over. *)
Theorem C45_current_sensor_refuted : exists u, grid_results t_branch_from SymCurrentSensor = Some (Some [(50, S_current 3 u)]%Z) /\
  (exists inj l, grid_results t_branch_from Node = Some (Some ((1%Z, S_node 200%Z inj) :: l))) /\ u <> 200%Z.
Proof. exists 100%Z. vm_compute. split; [reflexivity|]. split; [eauto|discriminate]. Qed.
(** With the sensor at the other end, the voltage is read of a node that is not part of the calculation. *)
Theorem C45_current_sensor_out_of_range_refuted : grid_results t_branch_to SymCurrentSensor = Some None.
Proof. vm_compute. reflexivity. Qed.

Print Assumptions C45_records.
Print Assumptions C45_unique.
Print Assumptions C45_nodes.
Print Assumptions C45_branches.
Print Assumptions C45_branch3.
Print Assumptions C45_sources.
Print Assumptions C45_shunts.
Print Assumptions C45_loads_and_generators.
Print Assumptions C45_places.
Print Assumptions C45_voltage_sensors.
Print Assumptions C45_power_sensors.
Print Assumptions C45_node_power_sensors.
Print Assumptions C45_tap_regulators.
Print Assumptions C45_voltage_regulators.
Print Assumptions C45_current_sensors_partial.
Print Assumptions C45_short_circuit_records.
Print Assumptions C45_short_circuit.
Print Assumptions C45_current_sensor_refuted.
Print Assumptions C45_current_sensor_out_of_range_refuted.
