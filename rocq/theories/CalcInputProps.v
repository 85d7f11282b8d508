(** C53: the parameters of every component reach the solver at the place of that component, and nothing else does. *)
From Verif Require Import Common NatMap SparseOrdering GroupedIdx GroupedIdxFacts GroupedIdxProps Container ContainerSpec ContainerFacts ContainerProps Topology TopologySpec TopologyFacts TopologyProps
  Coupling CouplingSpec CouplingFacts CouplingProps Registration RegistrationSpec RegistrationFacts Output OutputSpec OutputFacts CalcInput CalcInputSpec CalcInputFacts.

Section Props.
Variable ck : ctype -> Z -> cinput -> option exn.
Variable data : ctype -> list (Z * cinput).
Variable c : mcontainer.
Hypothesis Hc : create_model ck data = Ok c.
Hypothesis HL : layouts_ok data.
Context {P LT : Type} (at_ : attributes P LT) (padd : P -> P -> P) (p0 : P) (popp : P -> P).
Variable sort : list (nat * nat) -> list (nat * nat).
Variable criterion : nat -> nat -> bool.
Hypothesis Hsort : sort_contract sort.
Variable s : model_state (P := P) (LT := LT).
Hypothesis Hs : build_state at_ c padd p0 popp sort criterion = Some s.
Notation n_topo := (length (models (st_search s))).
Notation cp := (st_coupled s).
Notation any := (fun _ : centry => True).
Notation exactly f := (fun (e : centry) v => v = f e).
Lemma state_is_ok : state_ok data at_ padd p0 popp s.
Proof. eapply build_state_sound; eauto. Qed.

(** Power flow. An energised source gives its voltage only when it is switched on. *)
Theorem C53_power_flow {A B C D} (d1 : A) (d2 : B) (d3 : C) (d4 : D) source_param injection_param regulator_param status :
  regulators_allowed c = true ->
  exists i, prepare_power_flow_input c s d1 d2 d3 d4 source_param injection_param regulator_param status = Some i /\
    given data n_topo (GExact Source) (fun e => at_source_status at_ e = true) (at_bus data s) (fst (sources cp)) (snd (sources cp)) (exactly source_param) (pf_source _ _ _ _ i) /\
    given data n_topo GGenericLoadGen any (at_bus data s) (fst (load_gens cp)) (snd (load_gens cp)) (exactly injection_param) (pf_injection _ _ _ _ i) /\
    given data n_topo GGenericLoadGen any (at_bus data s) (fst (load_gens cp)) (snd (load_gens cp)) (exactly status) (pf_status _ _ _ _ i) /\
    given data n_topo GRegulator (fun e => e_type e = VoltageRegulator) (at_generator data s) (fst (voltage_regulators cp)) (snd (voltage_regulators cp))
      (exactly regulator_param) (pf_regulator _ _ _ _ i).
Proof.
  intros HV. pose proof state_is_ok as OK. pose proof (ok_reg _ _ _ _ _ _ OK) as HR. pose proof (ok_att _ _ _ _ _ _ OK) as HA. unfold prepare_power_flow_input; cbv zeta beta.
  destruct (sources_given ck data c Hc at_ padd p0 popp s OK (fun e => Some (source_param e)) (exactly source_param) d1) as (v1 & -> & G1); [eauto|intros; split; congruence|]. cbn [bindO].
  destruct (simple_given ck data c Hc at_ padd p0 popp s OK GGenericLoadGen _ IAppliance (load_gens cp) d2 injection_param (or_introl (fun x => eq_refl)) (rg_load_gen _ _ _ _ _ HR) (aa_load_gens _ _ _ _ _ HA)) as (v2 & -> & G2). cbn [bindO].
  destruct (regulators_given ck data c Hc HL at_ padd p0 popp s OK regulator_param d3 HV) as (v3 & -> & G3). cbn [bindO].
  destruct (simple_given ck data c Hc at_ padd p0 popp s OK GGenericLoadGen _ IAppliance (load_gens cp) d4 status (or_introl (fun x => eq_refl)) (rg_load_gen _ _ _ _ _ HR) (aa_load_gens _ _ _ _ _ HA)) as (v4 & -> & G4). cbn [bindO].
  cbn [bindO]. eexists. split; [reflexivity|]. cbn. auto.
Qed.

(** State estimation. *)
Theorem C53_state_estimation {S V W I} (d1 : S) (d2 : V) (d3 : W) (d4 : I) status voltage_param power_param current_param :
  exists i, prepare_state_estimation_input c s d1 d2 d3 d4 status voltage_param power_param current_param = Some i /\
    given data n_topo (GExact Shunt) any (at_bus data s) (fst (shunts cp)) (snd (shunts cp)) (exactly status) (se_shunt_status _ _ _ _ i) /\
    given data n_topo GGenericLoadGen any (at_bus data s) (fst (load_gens cp)) (snd (load_gens cp)) (exactly status) (se_load_gen_status _ _ _ _ i) /\
    given data n_topo (GExact Source) (fun e => at_source_status at_ e = true) (at_bus data s) (fst (sources cp)) (snd (sources cp)) (exactly status) (se_source_status _ _ _ _ i) /\
    given data n_topo GGenericVoltageSensor any (at_bus data s) (fst (voltage_sensors cp)) (snd (voltage_sensors cp)) (exactly voltage_param) (se_voltage _ _ _ _ i) /\
    (let power tys gr vs := given data n_topo GGenericPowerSensor (sensor_of tys) (at_measured data s) gr (power_sensor_coupling cp) (exactly power_param) vs in
     power [t_source] (sensors_source cp) (se_source_power _ _ _ _ i) /\
     power [t_load; t_generator] (sensors_load_gen cp) (se_load_gen_power _ _ _ _ i) /\
     power [t_shunt] (sensors_shunt cp) (se_shunt_power _ _ _ _ i) /\
     power [t_branch_from; t_branch3_1; t_branch3_2; t_branch3_3] (sensors_branch_from cp) (se_branch_from_power _ _ _ _ i) /\
     power [t_branch_to] (sensors_branch_to cp) (se_branch_to_power _ _ _ _ i) /\
     power [t_node] (sensors_bus cp) (se_bus_injection _ _ _ _ i)) /\
    (let current tys gr vs := given data n_topo GGenericCurrentSensor (sensor_of tys) (at_measured data s) gr (current_sensor_coupling cp) (exactly current_param) vs in
     current [t_branch_from; t_branch3_1; t_branch3_2; t_branch3_3] (current_from cp) (se_branch_from_current _ _ _ _ i) /\
     current [t_branch_to] (current_to cp) (se_branch_to_current _ _ _ _ i)).
Proof.
  pose proof state_is_ok as OK. pose proof (ok_reg _ _ _ _ _ _ OK) as HR. pose proof (ok_att _ _ _ _ _ _ OK) as HA. unfold prepare_state_estimation_input; cbv zeta beta.
  destruct (simple_given ck data c Hc at_ padd p0 popp s OK (GExact Shunt) _ IAppliance (shunts cp) d1 status (or_introl (fun x => eq_refl)) (rg_shunt _ _ _ _ _ HR) (aa_shunts _ _ _ _ _ HA)) as (v1 & -> & G1). cbn [bindO].
  destruct (simple_given ck data c Hc at_ padd p0 popp s OK GGenericLoadGen _ IAppliance (load_gens cp) d1 status (or_introl (fun x => eq_refl)) (rg_load_gen _ _ _ _ _ HR) (aa_load_gens _ _ _ _ _ HA)) as (v2 & -> & G2). cbn [bindO].
  destruct (sources_given ck data c Hc at_ padd p0 popp s OK (fun e => Some (status e)) (exactly status) d1) as (v3 & -> & G3); [eauto|intros; split; congruence|]. cbn [bindO].
  destruct (simple_given ck data c Hc at_ padd p0 popp s OK GGenericVoltageSensor _ IVoltageSensor (voltage_sensors cp) d2 voltage_param (or_intror (fun x => eq_refl)) (rg_voltage _ _ _ _ _ HR) (aa_voltage _ _ _ _ _ HA)) as (v4 & -> & G4). cbn [bindO].
  cbn [bindO].
  pose proof (fun tys tys' f own gr => sensors_given ck data c Hc at_ padd p0 popp s OK GGenericPowerSensor IPowerSensor (power_sensors (st_objects s)) tys tys' f own gr (power_sensor_coupling cp) power_param d3
    (or_introl (fun x ty => eq_refl)) (rg_power _ _ _ _ _ HR)) as PS.
  pose proof (fun tys tys' f own gr => sensors_given ck data c Hc at_ padd p0 popp s OK GGenericCurrentSensor ICurrentSensor (current_sensors (st_objects s)) tys tys' f own gr (current_sensor_coupling cp) current_param d4
    (or_intror (fun x ty => eq_refl)) (rg_current _ _ _ _ _ HR)) as CS.
  Ltac same := intros a b; destruct a, b; cbn; intros []; intuition congruence.
  Ltac sel := intros b; destruct b; cbn; intuition congruence.
  Ltac own := intros k x ty E Hty; unfold at_object, at_branch_side; rewrite E; destruct ty; cbn in Hty; intuition (try discriminate).
  destruct (PS [T_source] [t_source] (fun ty => match ty with T_source => true | _ => false end) _ _ (aa_p_source _ _ _ _ _ HA)) as (v5 & -> & G5); [same|sel|own|]. cbn [bindO].
  destruct (PS [T_load; T_generator] [t_load; t_generator] (fun ty => match ty with T_load | T_generator => true | _ => false end) _ _ (aa_p_load_gen _ _ _ _ _ HA)) as (v6 & -> & G6); [same|sel|own|]. cbn [bindO].
  destruct (PS [T_shunt] [t_shunt] (fun ty => match ty with T_shunt => true | _ => false end) _ _ (aa_p_shunt _ _ _ _ _ HA)) as (v7 & -> & G7); [same|sel|own|]. cbn [bindO].
  destruct (PS [T_branch_from; T_branch3_1; T_branch3_2; T_branch3_3] [t_branch_from; t_branch3_1; t_branch3_2; t_branch3_3] (fun ty => match ty with T_branch_from | T_branch3_1 | T_branch3_2 | T_branch3_3 => true | _ => false end) _ _ (aa_p_from _ _ _ _ _ HA)) as (v8 & -> & G8); [same|sel|own|]. cbn [bindO].
  destruct (PS [T_branch_to] [t_branch_to] (fun ty => match ty with T_branch_to => true | _ => false end) _ _ (aa_p_to _ _ _ _ _ HA)) as (v9 & -> & G9); [same|sel|own|]. cbn [bindO].
  destruct (PS [T_node] [t_node] (fun ty => match ty with T_node => true | _ => false end) _ _ (aa_p_bus _ _ _ _ _ HA)) as (v10 & -> & G10); [same|sel|own|]. cbn [bindO].
  destruct (CS [T_branch_from; T_branch3_1; T_branch3_2; T_branch3_3] [t_branch_from; t_branch3_1; t_branch3_2; t_branch3_3] (fun ty => match ty with T_branch_from | T_branch3_1 | T_branch3_2 | T_branch3_3 => true | _ => false end) _ _ (aa_c_from _ _ _ _ _ HA)) as (v11 & -> & G11); [same|sel|own|]. cbn [bindO].
  destruct (CS [T_branch_to] [t_branch_to] (fun ty => match ty with T_branch_to => true | _ => false end) _ _ (aa_c_to _ _ _ _ _ HA)) as (v12 & -> & G12); [same|sel|own|]. cbn [bindO].
  eexists. split; [reflexivity|]. cbn. repeat (split; [assumption|]). split; repeat (split; [assumption|]); assumption.
Qed.

(** Short circuit. Inactive faults and faults at nodes without supply are left out. [unused] recognises the parameter of an unused entry. *)
Section ShortCircuit.
Context {F Q : Type} (d_f : F) (d_q : Q).
Variable fault_on : centry -> bool.
Variable fault_param : centry -> centry -> F.
Variable source_param : centry -> centry -> Q.
Variable unused : F -> bool.
Theorem C53_short_circuit : unused d_f = true ->
  (forall e n, In e (components data (GExact Fault)) -> fault_on e = true -> node_entry data e n -> unused (fault_param e n) = false) ->
  exists i place, prepare_short_circuit_input c s sort criterion d_f d_q fault_on fault_param source_param unused = Some i /\
    given data n_topo (GExact Fault) (fun e => fault_on e = true) (at_bus data s) (si_fault_buses i) place
      (fun e v => exists n, node_entry data e n /\ v = fault_param e n) (si_faults i) /\
    given data n_topo (GExact Source) (fun e => at_source_status at_ e = true) (at_bus data s) (fst (sources cp)) (snd (sources cp))
      (fun e v => exists n, node_entry data e n /\ v = source_param e n) (si_source i) /\
    length (si_places i) = length (data Fault) /\
    (forall k, k < length (data Fault) -> nth_error (si_places i) k = Some (place k)) /\
    (forall k e, nth_error (components data (GExact Fault)) k = Some e -> (exists g q, place k = Some (g, q)) <-> fault_on e = true /\ exists g p, at_bus data s e g p) /\
    (forall k g q, place k = Some (g, q) -> exists v, at2 (si_faults i) g q = Some v).
Proof.
  intros Hd Hu. pose proof state_is_ok as OK. pose proof (ok_reg _ _ _ _ _ _ OK) as HR. pose proof (ok_att _ _ _ _ _ _ OK) as HA. unfold prepare_short_circuit_input.
  destruct (fault_nodes_ok ck data c Hc HL fault_on) as (nodes & En & _). rewrite En. cbn [bindO]. destruct (fault_places c s sort criterion fault_on nodes) as [gr place] eqn:Ep.
  destruct (faults_given ck data c Hc HL at_ padd p0 popp s OK sort criterion Hsort fault_on d_f fault_param unused Hd Hu nodes gr place En Ep) as (v1 & E1 & G1 & L1 & R1 & O1). rewrite E1. cbn [bindO].
  assert (HS : forall e, In e (components data (GExact Source)) -> exists x nd, e_in e = IAppliance x /\ node_item c x = Some nd /\ node_entry data e nd).
  { intros e He. destruct (refs_of ck data c Hc HL e _ He) as (HRf & HLy & Hdv). apply ctype_eqb_eq in Hdv. rewrite <- Hdv in HLy. destruct (e_in e) eqn:Ei; cbn in HLy; try tauto; try discriminate.
    eexists. destruct (node_item_ok ck data c Hc _ HRf) as (nd & End & Hin & Hid). exists nd. split; [reflexivity|]. split; [exact End|]. eexists. rewrite Ei. eauto. }
  assert (HUn : forall e nd nd', node_entry data e nd -> node_entry data e nd' -> nd = nd').
  { intros e nd nd' (x & Hx & Hi & Hid) (x' & Hx' & Hi' & Hid'). assert (x' = x) by (destruct Hx as [Hx|Hx], Hx' as [Hx'|Hx']; congruence). subst x'.
    apply In_nth_error in Hi as [i Hi], Hi' as [i' Hi']. assert (i = i') by (apply (number_unique ck data c Hc (GExact Node) x); eexists; eauto). congruence. }
  set (pf := fun e => match e_in e with IAppliance x => option_map (source_param e) (node_item c x) | _ => None end).
  assert (Hpf : forall e v, In e (components data (GExact Source)) -> (pf e = Some v <-> exists n, node_entry data e n /\ v = source_param e n)).
  { intros e v He. destruct (HS e He) as (x & nd & Ex & End & Hnd). unfold pf. rewrite Ex, End. cbn [option_map]. split; [intros [= <-]; eauto|]. intros (nd' & Hnd' & ->). now rewrite (HUn e nd nd'). }
  destruct (sources_given ck data c Hc at_ padd p0 popp s OK pf (fun e v => exists n, node_entry data e n /\ v = source_param e n) d_q) as (v2 & E2 & G2); [|exact Hpf|].
  { intros e He. destruct (HS e He) as (x & nd & Ex & End & Hnd). exists (source_param e nd). apply Hpf; eauto. }
  rewrite E2. cbn [bindO]. eexists. exists place. split; [reflexivity|]. cbn [si_fault_buses si_faults si_source si_places].
  assert (HN : size_of (is_base (GExact Fault)) c = length (data Fault)) by (rewrite (size_components ck data c Hc), exact_components; apply map_length).
  assert (HAt : forall k g q, place k = Some (g, q) -> exists v, at2 (map (truncate unused) v1) g q = Some v).
  { intros k g q Hp. destruct (R1 k g q Hp) as [Hg Hq]. destruct G1 as ((GL & _) & _). unfold at2. destruct (nth_error (map (truncate unused) v1) g) as [l|] eqn:El; [|apply nth_error_None in El; lia].
    pose proof (L1 g l El) as Hl. destruct (nth_error l q) as [v|] eqn:Ev; [eauto|apply nth_error_None in Ev; lia]. }
  refine (conj G1 (conj G2 (conj _ (conj _ (conj _ _))))).
  - now rewrite map_length, seq_length.
  - intros k Hk. rewrite nth_error_map, HN. destruct (nth_error (seq 0 (length (data Fault))) k) as [x|] eqn:E; [|apply nth_error_None in E; rewrite seq_length in E; lia]. apply nth_seq in E as [_ ->]. reflexivity.
  - destruct G1 as ((GL & G1) & G1' & G1''). intros k e He. split.
    + intros (g & q & Hp). assert (Hon : fault_on e = true) by (destruct (fault_on e) eqn:Eo; auto; rewrite (O1 k e He Eo) in Hp; discriminate). split; auto.
      destruct (HAt k g q Hp) as [v Hat]. apply G1 in Hat as (k' & e' & p & He' & Hon' & Hp' & _ & Hb & _).
      assert (k = k') as <- by (eapply G1''; eauto). rewrite He in He'. injection He' as <-. eauto.
    + intros (Hon & g & p & Hb). destruct (G1' k e g p He Hon Hb) as [q Hq]. eauto.
  - exact HAt.
Qed.
End ShortCircuit.
End Props.

(** ** a network with two supplied parts: nodes 1-2 and 5-6; node 3 has no supply and source 21 is switched off *)
Definition net (tap : bool) (t : ctype) : list (Z * cinput) :=
  match t with
  | Node => [(1, IBare); (2, IBare); (3, IBare); (5, IBare); (6, IBare)]
  | Line => [(10, IBranch 2 3); (11, IBranch 1 2); (12, IBranch 6 5)]
  | Transformer => if tap then [(13, IBranch 1 2)] else []
  | Source => [(20, IAppliance 1); (21, IAppliance 2); (22, IAppliance 5)]
  | SymLoad => [(30, IAppliance 6); (31, IAppliance 3)]
  | SymGenerator => [(32, IAppliance 2); (33, IAppliance 6)]
  | SymPowerSensor => [(40, IPowerSensor 12 t_branch_to); (41, IPowerSensor 2 t_node); (43, IPowerSensor 31 t_load); (45, IPowerSensor 33 t_generator)]
  | SymVoltageSensor => [(42, IVoltageSensor 3); (44, IVoltageSensor 2)]
  | SymCurrentSensor => [(50, ICurrentSensor 11 t_branch_from)]
  | Fault => [(60, IFault 2); (61, IFault 3); (62, IFault 6); (63, IFault 1); (64, IFault 1)]
  | VoltageRegulator => [(70, IVoltageRegulator 33)]
  | TransformerTapRegulator => if tap then [(71, ITapRegulator 13 1)] else []
  | _ => []
  end%Z.
Definition net_attributes : attributes Z nat :=
  mkAttributes (fun e => if Z.eqb (e_id e) 10 then (false, false) else (true, true)) (fun _ => 0%Z) (fun _ => (true, true, true)) (fun _ => (0, 0, 0)%Z)
    (fun e => negb (Z.eqb (e_id e) 21)) (fun _ => 0).
Definition on_net {A} tap (f : mcontainer -> model_state (P := Z) (LT := nat) -> A) : option A :=
  match create_model no_check (net tap) with
  | Ok c => option_map (f c) (build_state net_attributes c Z.add 0%Z Z.opp isort (fun _ _ => false))
  | Err _ => None
  end.
Definition fault_active (e : centry) : bool := negb (Z.eqb (e_id e) 63).
Definition net_power_flow tap := on_net tap (fun c s => prepare_power_flow_input c s 0%Z 0%Z 0%Z 0%Z e_id e_id e_id e_id).
Definition net_estimation := on_net false (fun c s => prepare_state_estimation_input c s 0%Z 0%Z 0%Z 0%Z e_id e_id e_id e_id).
Definition net_short := on_net false (fun c s => option_map (fun i => (si_faults i, si_source i, si_places i))
  (prepare_short_circuit_input c s isort (fun _ _ => false) (-1, -1)%Z (-1, -1)%Z fault_active (fun e n => (e_id e, e_id n)) (fun e n => (e_id e, e_id n)) (fun p => Z.ltb (fst p) 0))).
Example net_layouts tap : layouts_ok (net tap).
Proof. intros t r; destruct t, tap; simpl; intuition subst; exact I. Qed.
(** the hypotheses of the theorems hold *)
Example net_hypotheses : exists c s, create_model no_check (net false) = Ok c /\
  build_state net_attributes c Z.add 0%Z Z.opp isort (fun _ _ => false) = Some s /\ sort_contract isort /\ regulators_allowed c = true.
Proof.
  destruct (create_model no_check (net false)) as [c|] eqn:Ec; [|vm_compute in Ec; discriminate].
  exists c. destruct (build_state net_attributes c Z.add 0%Z Z.opp isort (fun _ _ => false)) as [s|] eqn:Es.
  2:{ exfalso. vm_compute in Ec. injection Ec as <-. vm_compute in Es. discriminate. }
  exists s. split; auto. split; auto. split; [exact isort_contract|]. vm_compute in Ec. injection Ec as <-. reflexivity.
Qed.
Example net_input : net_power_flow false = Some (Some (mkPf _ _ _ _ [[20]; [22]] [[32]; [33; 30]] [[]; [70]] [[32]; [33; 30]])%Z).
Proof. vm_compute. reflexivity. Qed.
Example net_measurements : net_estimation = Some (Some (mkSe _ _ _ _
  [[]; []] [[32]; [33; 30]] [[20]; [22]] [[44]; []] [[]; []] [[]; [45]] [[]; []] [[]; []] [[]; [40]] [[41]; []] [[50]; []] [[]; []])%Z).
Proof. vm_compute. reflexivity. Qed.
(** fault 61 is at a node without supply and fault 63 is inactive *)
Example net_faults : net_short = Some (Some ([[(60, 2); (64, 1)]; [(62, 6)]]%Z, [[(20, 1)]; [(22, 5)]]%Z, [Some (0, 0); None; Some (1, 0); None; Some (0, 1)])).
Proof. vm_compute. reflexivity. Qed.
(** [regulators_allowed] is needed: the places of the voltage regulators are numbered among all regulators, but the parameters are looked up
    among the voltage regulators only. With one tap regulator in front the lookup is out of range. The check refuses such models. *)
Example regulators_allowed_needed : net_power_flow true = Some None /\ on_net true (fun c _ => regulators_allowed c) = Some false.
Proof. vm_compute. auto. Qed.

Print Assumptions C53_power_flow.
Print Assumptions C53_state_estimation.
Print Assumptions C53_short_circuit.
