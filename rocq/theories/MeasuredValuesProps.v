(** C33: the powers reported by the state estimation for loads, generators and sources. C52: which measurements the estimation uses. *)
From Coq Require Import QArith Qcanon.
From Verif Require Import Common NatMap Ext Statistics StatisticsSpec StatisticsFacts StatisticsProps MeasuredValues MeasuredValuesSpec MeasuredValuesFacts MeasuredValuesSums MeasuredValuesUse.
Local Open Scope nat_scope.

(** The reported powers of the appliances at a bus add up to the estimated injection [s b], for the active ([false]) and the reactive ([true]) part of every phase. *)
Theorem C33_sum phases cabs topo inp : well_formed phases topo inp -> forall st, construct phases cabs topo inp = Some st -> forall s b i p, b < n_bus topo -> connected topo inp b -> p < phases -> finite (part_of i (s b) p) ->
  let flows := load_gen_source topo st s in
  (forall o, In o (load_gens_at topo b) -> finite (part_of i (nth o (fst flows) no_power) p)) /\ (forall o, In o (sources_at topo b) -> finite (part_of i (nth o (snd flows) no_power) p)) /\
  reported topo flows b i p = number (part_of i (s b) p).
Proof. intros WF st E s b i p. apply (balance phases cabs topo inp WF st E s b i p). Qed.
(** If a connected appliance has no usable measurement, the measured ones are reported as measured and the others share the rest equally. *)
Theorem C33_partly_measured phases cabs topo inp : well_formed phases topo inp -> forall st, construct phases cabs topo inp = Some st -> forall s b, b < n_bus topo -> ~ all_measured phases topo inp b ->
  let flows := load_gen_source topo st s in
  (forall o, In o (load_gens_at topo b) -> load_gen_measured phases topo inp o -> nth o (fst flows) no_power = value_of (combine_decomposed phases (load_gen_measurements topo inp o))) /\
  (forall o, In o (sources_at topo b) -> source_measured phases topo inp o -> nth o (snd flows) no_power = value_of (combine_decomposed phases (source_measurements topo inp o))) /\
  exists share, (forall o, In o (load_gens_at topo b) -> load_gen_status inp o = true -> ~ load_gen_measured phases topo inp o -> nth o (fst flows) no_power = share) /\
                (forall o, In o (sources_at topo b) -> source_status inp o = true -> ~ source_measured phases topo inp o -> nth o (snd flows) no_power = share).
Proof. intros WF st E s b. apply (measured_kept phases cabs topo inp WF st E s b). Qed.
(** If all are measured, no other powers with the same sum are closer to the measurements. *)
Theorem C33_all_measured phases cabs topo inp : well_formed phases topo inp -> forall st, construct phases cabs topo inp = Some st -> forall s b i p, b < n_bus topo -> p < phases -> all_measured phases topo inp b -> connected topo inp b -> finite (part_of i (s b) p) ->
  let flows := load_gen_source topo st s in forall x y,
  (qsum (map x (connected_load_gens topo inp b)) + qsum (map y (connected_sources topo inp b)))%Qc = number (part_of i (s b) p) ->
  (deviation phases topo inp b i p (fun o => number (part_of i (nth o (fst flows) no_power) p)) (fun o => number (part_of i (nth o (snd flows) no_power) p)) <= deviation phases topo inp b i p x y)%Qc.
Proof. intros WF st E s b i p Hb Hp A C F. cbv zeta. intros x y Q. now apply (least_change phases cabs topo inp WF st s b i p x y). Qed.
(** Disconnected appliances get no power. *)
Theorem C33_disconnected phases cabs topo inp : well_formed phases topo inp -> forall st, construct phases cabs topo inp = Some st -> forall s b, b < n_bus topo ->
  (forall o, In o (load_gens_at topo b) -> load_gen_status inp o = false -> nth o (fst (load_gen_source topo st s)) no_power = no_power) /\
  (forall o, In o (sources_at topo b) -> source_status inp o = false -> nth o (snd (load_gen_source topo st s)) no_power = no_power).
Proof. intros WF st E s b. apply (disconnected_zero phases cabs topo inp WF st E s b). Qed.

(** The measurements used are the fused ones of the usable sensors, all with variances scaled by one positive factor; the injection of a bus is used if it is measured or all its
    connected appliances are, and both are combined if both are known. *)
Theorem C52_used phases cabs topo inp : well_formed phases topo inp -> well_formed_branches phases topo inp -> forall st, construct phases cabs topo inp = Some st -> exists c, (0 < c)%Qc /\ measurements_used phases topo inp cabs c st.
Proof. intros WF WB st E. exact (used phases cabs topo inp WF WB st E). Qed.
(** With no appliance connected the injection is used as zero with zero variance: an exact constraint. *)
Theorem C52_zero_injection phases cabs topo inp : well_formed phases topo inp -> well_formed_branches phases topo inp -> forall st, construct phases cabs topo inp = Some st -> forall b, b < n_bus topo -> ~ connected topo inp b ->
  let k := nth b (idx_injection st) 0%Z in (0 <= k)%Z /\ exists e, nth_error (power_main st) (Z.to_nat k) = Some e /\ forall i p, p < phases -> value (part i e) p = Fin 0%Qc /\ variance (part i e) p = Fin 0%Qc.
Proof.
  intros WF WB st E b Hb N. cbv zeta. destruct (used phases cabs topo inp WF WB st E) as [c [_ M]]. destruct (mu_injection _ _ _ _ _ _ M b Hb) as [_ [_ [U _]]].
  assert (A : all_measured phases topo inp b) by (split; intros o Ho T; exfalso; apply N; [left|right]; exists o; auto). destruct (U A (or_intror N)) as [d [S [H [e [En P]]]]]. split; [exact H|]. exists e. split; [exact En|]. intros i p Hp. destruct (P i p Hp) as [-> ->]. destruct (S i p Hp) as [-> ->].
  assert (E1 : connected_load_gens topo inp b = []) by (destruct (connected_load_gens topo inp b) as [|o l] eqn:Q; [reflexivity|]; exfalso; apply N; left; exists o; apply filter_In; unfold connected_load_gens in Q; rewrite Q; now left).
  assert (E2 : connected_sources topo inp b = []) by (destruct (connected_sources topo inp b) as [|o l] eqn:Q; [reflexivity|]; exfalso; apply N; right; exists o; apply filter_In; unfold connected_sources in Q; rewrite Q; now left).
  rewrite E1, E2. cbn [map]. change (qsum []) with 0%Qc. rewrite Qcplus_0_l. cbn [emul]. rewrite Qcmult_0_l. auto.
Qed.

(** ** A case: three buses; a measured source and a measured load at bus 0; a measured, an unmeasured and a disconnected load at bus 1; nothing at bus 2; a line 0-1 measured at its from side *)
Definition ex_topo : topology := mkTopo 3 1 0 4 1 (fun _ => []) (fun b => match b with 0 => [0] | 1 => [1; 2; 3] | _ => [] end) (fun b => match b with 0 => [0] | _ => [] end)
  (fun b => match b with 0 => [0] | _ => [] end) (fun b => match b with 0 => [0] | _ => [] end) (fun _ => []) (fun o => match o with 0 => [0] | 1 => [1; 2] | _ => [] end) (fun o => match o with 0 => [0] | _ => [] end)
  (fun b => match b with 0 => [0] | _ => [] end) (fun _ => []) (fun b => match b with 0 => [0] | _ => [] end) (fun _ => []) (fun _ => true) (fun _ => true).
Definition sure (p q v : Z) : decomposed := mkDec (reading p v) (reading q v).
Definition ex_input (current_sensor : decomposed) : input := mkInput (fun _ => true) (fun o => negb (o =? 3)) (fun _ => true) [reading 1 1] [sure 5 1 4] [] [sure (-3) (-1) 1; sure (-2) 0 2; sure (-4) 0 2] [sure 9 2 1] [sure 6 1 1] [] [mkCurrent false current_sensor] [].
Lemma sure_valid n p q v : (0 < v)%Z -> valid_dec n (sure p q v).
Proof. intros H. split; now apply reading_valid. Qed.
Lemma ex_wf c : well_formed 1 ex_topo (ex_input c).
Proof.
  constructor; cbn [ex_topo load_gens_at sources_at shunts_at n_load_gen n_source n_shunt].
  - lia.
  - intros [|[|b]]; split; try (repeat constructor; cbn; intuition lia); cbn; intros o Ho; lia.
  - intros [|b]; split; try (repeat constructor; cbn; intuition lia); cbn; intros o Ho; lia.
  - intros b. split; [constructor|intros ? []].
  - intros [|[|b]] [|[|b']] o; cbn; intuition lia.
  - intros [|b] [|b'] o; cbn; intuition lia.
  - intros b b' o [].
  - intros [|[|o]] d; cbn; intros H; intuition (subst; now apply sure_valid).
  - intros [|o] d; cbn; intros H; intuition (subst; now apply sure_valid).
  - intros o d [].
  - intros [|o] d; cbn; intros H; intuition (subst; now apply sure_valid).
Qed.
Lemma ex_wb c : valid_dec 1 c -> well_formed_branches 1 ex_topo (ex_input c).
Proof.
  intros V. constructor.
  - intros [|b] v; cbn; intros H; [destruct H as [<-|[]]; apply (reading_valid (uniform_real 1) 1 1 ltac:(lia)); cbn; lia|destruct H].
  - intros [|o] d; cbn; intros H; intuition (subst; now apply sure_valid).
  - intros o d [].
  - intros [|o] d; cbn; intros H; [destruct H as [<-|[]]; exact V|destruct H].
  - intros o d [].
Qed.
Lemma ex_built c cabs : exists st, construct 1 cabs ex_topo (ex_input c) = Some st.
Proof. eexists. reflexivity. Qed.
Definition ex_s : nat -> power := fun b => match b with 0 => (fun _ => Fin (Q2Qc 8), fun _ => Fin (Q2Qc 1)) | _ => (fun _ => Fin (Q2Qc (-10)), zeros) end.
Lemma ex_measured_0 c : all_measured 1 ex_topo (ex_input c) 0 /\ connected ex_topo (ex_input c) 0.
Proof.
  split; [|left; exists 0; split; [now left|reflexivity]]. split; intros o Ho T; split; try exact T; destruct Ho as [<-|[]]; intros p _; split; eexists; (split; [left; reflexivity|eexists; reflexivity]).
Qed.
Lemma ex_measured_1 c : ~ all_measured 1 ex_topo (ex_input c) 1 /\ connected ex_topo (ex_input c) 1.
Proof.
  split; [|left; exists 1; split; [now left|reflexivity]]. intros [A _]. destruct (A 2 ltac:(cbn; auto) eq_refl) as [_ U]. destruct (U 0 ltac:(lia)) as [[m [[] _]] _].
Qed.
(** at bus 1 the measured load keeps -3 and the unmeasured one gets the rest *)
Example C33_case cabs : exists st, construct 1 cabs ex_topo (ex_input (sure 1 1 1)) = Some st /\ well_formed 1 ex_topo (ex_input (sure 1 1 1)) /\ well_formed_branches 1 ex_topo (ex_input (sure 1 1 1)) /\
  (all_measured 1 ex_topo (ex_input (sure 1 1 1)) 0 /\ connected ex_topo (ex_input (sure 1 1 1)) 0) /\ (~ all_measured 1 ex_topo (ex_input (sure 1 1 1)) 1 /\ connected ex_topo (ex_input (sure 1 1 1)) 1) /\ ~ connected ex_topo (ex_input (sure 1 1 1)) 2 /\
  map (fun f => fst f 0) (fst (load_gen_source ex_topo st ex_s)) = [Fin (Q2Qc (-2)); Fin (Q2Qc (-3)); Fin (Q2Qc (-7)); Fin 0%Qc] /\ map (fun f => fst f 0) (snd (load_gen_source ex_topo st ex_s)) = [Fin (Q2Qc 10)].
Proof.
  eexists. split; [reflexivity|]. refine (conj (ex_wf _) (conj (ex_wb _ _) (conj (ex_measured_0 _) (conj (ex_measured_1 _) (conj _ (conj _ _)))))).
  - now apply sure_valid. - intros [[o [[] _]]|[o [[] _]]].
  - vm_compute. repeat f_equal; apply Qc_is_canon; reflexivity.
  - vm_compute. repeat f_equal; apply Qc_is_canon; reflexivity.
Qed.
(** ** Where it fails *)
(** A current sensor with infinite variance (no usable measurement) still counts as a measurement of its branch, unlike power and voltage sensors. *)
Theorem C52_infinite_current_refuted : ~ forall phases cabs topo inp st, well_formed phases topo inp -> well_formed_branches phases topo inp -> construct phases cabs topo inp = Some st ->
  forall b, b < n_branch topo -> ~ usable_dec phases (map measurement (pick zero_current (from_current_data inp) (from_current_sensors topo b))) -> nth b (idx_from_current st) 0%Z = unmeasured.
Proof.
  intros H. set (c := mkDec (lost 1) (lost 1)). destruct (ex_built c (fun x _ => x)) as [st E]. assert (V : valid_dec 1 c) by (split; apply lost_valid).
  specialize (H 1 (fun x _ => x) ex_topo (ex_input c) st (ex_wf c) (ex_wb c V) E 0 ltac:(cbn; lia)). assert (N : ~ usable_dec 1 (map measurement (pick zero_current (from_current_data (ex_input c)) (from_current_sensors ex_topo 0)))).
  { intros U. destruct (U 0 ltac:(lia)) as [[m [[<-|[]] [q F]]] _]. discriminate. }
  specialize (H N). unfold construct in E. injection E as <-. vm_compute in H. discriminate.
Qed.
Print Assumptions C33_sum. Print Assumptions C33_partly_measured. Print Assumptions C33_all_measured. Print Assumptions C33_disconnected. Print Assumptions C52_used. Print Assumptions C52_zero_injection. Print Assumptions C52_infinite_current_refuted.
