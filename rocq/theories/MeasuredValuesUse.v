(** Which measurements the estimation uses: proofs. *)
From Coq Require Import QArith Qcanon.
From Verif Require Import Common NatMap Ext Statistics StatisticsSpec StatisticsFacts MeasuredValues MeasuredValuesSpec MeasuredValuesFacts MeasuredValuesSums.
Local Open Scope nat_scope.

(** ** Variances do not depend on the values *)
Definition blank (m : rand_var) : rand_var := mkVar zeros (variance m).
Lemma fold_blank sh ms : forall a a', (forall j, fst a j = fst a' j) -> forall j, fst (fold_left (accumulate sh) ms a) j = fst (fold_left (accumulate sh) (map blank ms) a') j.
Proof. induction ms as [|m ms IH]; intros a a' E; [exact E|]. cbn [map fold_left]. apply IH. intros j. cbn [accumulate fst]. now rewrite E. Qed.
Lemma combine_blank sh ms j : variance (combine sh ms) j = variance (combine sh (map blank ms)) j.
Proof.
  pose proof (fold_blank sh ms (zeros, zeros) (zeros, zeros) (fun _ => eq_refl)) as F. unfold combine. destruct (forallb _ _) eqn:E; destruct (forallb (fun j => normal (fst (fold_left (accumulate sh) (map blank ms) (zeros, zeros)) j)) _) eqn:E'; cbn [variance].
  - now rewrite F. - exfalso. rewrite forallb_forall in E. apply Bool.not_true_iff_false in E'. apply E'. apply forallb_forall. intros x Hx. rewrite <- F. now apply E.
  - exfalso. rewrite forallb_forall in E'. apply Bool.not_true_iff_false in E. apply E. apply forallb_forall. intros x Hx. rewrite F. now apply E'. - reflexivity.
Qed.
Lemma combined_variance sh ms : n_variances sh = 1 -> (forall m, In m ms -> positive (variance m 0)) ->
  (usable ms 0 /\ exists q, variance (combine sh ms) 0 = Fin q /\ (0 < q)%Qc) \/ (~ usable ms 0 /\ variance (combine sh ms) 0 = PInf).
Proof.
  intros N P. rewrite combine_blank. assert (V : forall m, In m (map blank ms) -> valid (mkShape 0 1 (fun _ => 0)) m).
  { intros m Hm. apply in_map_iff in Hm. destruct Hm as [x [<- Hx]]. split; [intros i Hi; cbn in Hi; lia|]. intros j Hj. cbn in Hj. replace j with 0 by lia. exact (P x Hx). }
  assert (E : variance (combine sh (map blank ms)) 0 = variance (combine (mkShape 0 1 (fun _ => 0)) (map blank ms)) 0).
  { assert (G : forall l a a', (forall j, fst a j = fst a' j) -> forall j, fst (fold_left (accumulate sh) l a) j = fst (fold_left (accumulate (mkShape 0 1 (fun _ => 0))) l a') j).
    { clear. induction l as [|m l IH]; intros a a' E; [exact E|]. cbn [fold_left]. apply IH. intros j. cbn [accumulate fst]. now rewrite E. }
    specialize (G (map blank ms) (zeros, zeros) (zeros, zeros) (fun _ => eq_refl)). unfold combine. rewrite N. cbn [n_variances seq forallb]. rewrite (G 0). destruct (normal _ && true); cbn [variance]; [now rewrite (G 0)|reflexivity]. }
  rewrite E. assert (W : well_shaped (mkShape 0 1 (fun _ => 0))) by (intros i Hi; cbn in Hi; lia).
  assert (U : usable ms 0 <-> usable (map blank ms) 0). { split; intros [m [Hm Fm]]; [exists (blank m); split; [now apply in_map|exact Fm]|]. apply in_map_iff in Hm. destruct Hm as [x [<- Hx]]. exists x. auto. }
  destruct (all_usable_dec (mkShape 0 1 (fun _ => 0)) W (map blank ms) V) as [A|A].
  - left. split; [apply U; apply A; cbn; lia|]. destruct (combine_usable _ W _ V A) as [_ C]. rewrite C by (cbn; lia). eexists. split; [reflexivity|]. apply Qc_inv_pos. apply (usable_iff _ _ V 0); [cbn; lia|]. apply A. cbn. lia.
  - right. split; [|destruct (combine_unusable _ W _ V A) as [_ C]; apply C]. intros Q. apply A. intros j Hj. cbn in Hj. replace j with 0 by lia. now apply U.
Qed.

(** ** The smallest variance *)
Definition amount (v : ext) : Prop := v = PInf \/ exists q, v = Fin q /\ (0 <= q)%Qc.
Definition proper (phases : nat) (d : decomposed) : Prop := forall i p, p < phases -> exists q, variance (part i d) p = Fin q /\ (0 <= q)%Qc.
Definition loose (phases : nat) (d : decomposed) : Prop := forall i p, p < phases -> amount (variance (part i d) p).
Lemma amount_add a b : amount a -> amount b -> amount (eadd a b).
Proof. intros [->|[q [-> Hq]]] [->|[r [-> Hr]]]; cbn; [left; reflexivity|left; reflexivity|left; reflexivity|]. right. eexists. split; [reflexivity|]. now apply Qc_add_nonneg. Qed.
Lemma min_ok : forall l m, (forall v, In v l -> amount v) -> (m = PInf \/ exists q, m = Fin q /\ (0 < q)%Qc) ->
  let r := fold_left unconstrained_min l m in (r = PInf \/ exists q, r = Fin q /\ (0 < q)%Qc) /\ (r = PInf -> m = PInf /\ forall v, In v l -> v = PInf \/ v = Fin 0%Qc).
Proof.
  induction l as [|v l IH]; intros m A M; cbn [fold_left].
  - split; [exact M|]. intros E. split; [exact E|intros ? []].
  - assert (M' : (unconstrained_min m v = PInf \/ exists q, unconstrained_min m v = Fin q /\ (0 < q)%Qc) /\ (unconstrained_min m v = PInf -> m = PInf /\ (v = PInf \/ v = Fin 0%Qc))).
    { unfold unconstrained_min. destruct (A v (or_introl eq_refl)) as [->|[q [-> Hq]]].
      - cbn [iszero]. unfold emin. assert (E : elt PInf m = false) by (destruct M as [->|[x [-> _]]]; reflexivity). rewrite E. split; [exact M|]. auto.
      - cbn [iszero]. destruct (qsign q) eqn:Sq.
        + assert (Hq' : (0 < q)%Qc). { destruct (Qc_eq_dec q 0) as [->|N]; [discriminate|]. apply Qcle_lt_or_eq in Hq. destruct Hq as [Hq|Hq]; [assumption|]. symmetry in Hq. contradiction. }
          unfold emin. destruct M as [->|[x [-> Hx]]]; cbn [elt].
          * split; [right; exists q; auto|discriminate].
          * destruct (q ?= x)%Qc; (split; [right; eexists; split; [reflexivity|assumption]|discriminate]).
        + apply qsign_none in Sq. subst q. split; [exact M|]. auto. }
    destruct M' as [M1 M2]. destruct (IH _ (fun x Hx => A x (or_intror Hx)) M1) as [I1 I2]. cbv zeta in *. split; [exact I1|]. intros E. destruct (I2 E) as [J1 J2]. destruct (M2 J1) as [K1 K2]. split; [exact K1|]. intros x [<-|Hx]; auto.
Qed.

Section Use.
Variable phases : nat.
Variable cabs : ext -> ext -> ext.
Variable topo : topology.
Variable inp : input.
Hypothesis WF : well_formed phases topo inp.
Hypothesis WB : well_formed_branches phases topo inp.
Let PH := wf_phases _ _ _ WF.
Notation known := (known phases).
Notation certain := (certain phases).
Notation proper := (proper phases).
Notation loose := (loose phases).
Lemma certain_proper d : certain d -> proper d.
Proof. intros C i p Hp. destruct (C i p Hp) as [_ [q [E L]]]. exists q. split; [assumption|now apply Qclt_le_weak]. Qed.
Lemma proper_loose d : proper d -> loose d.
Proof. intros C i p Hp. destruct (C i p Hp) as [q H]. right. now exists q. Qed.
Lemma valid_loose d : valid_dec phases d -> loose d.
Proof. intros [[_ V1] [_ V2]] [|] p Hp; cbn [part]; [specialize (V2 p Hp)|specialize (V1 p Hp)]; [destruct V2 as [E|[q [E L]]]|destruct V1 as [E|[q [E L]]]]; [left; exact E|right; exists q; split; [exact E|now apply Qclt_le_weak]|left; exact E|right; exists q; split; [exact E|now apply Qclt_le_weak]]. Qed.
Lemma process_one_proper on ds r : (forall d, In d ds -> valid_dec phases d) -> (forall d, In d r -> proper d) -> forall d, In d (snd (process_one phases on ds r)) -> proper d.
Proof.
  intros V R d. unfold process_one. destruct on; cbn [negb]; [|apply R]. destruct ds as [|x ds]; [apply R|]. destruct (usable_dec_dec phases _ V) as [U|U].
  - rewrite (certain_sure _ PH _ (usable_certain phases _ V U)). cbn [snd]. intros H. apply in_app_or in H. destruct H as [H|[<-|[]]]; [now apply R|]. apply certain_proper. now apply usable_certain.
  - rewrite (unusable_uncertain _ PH _ V U). apply R.
Qed.
Lemma process_objects_proper sensors status data : (forall o d, In d (pick zero_dec data (sensors o)) -> valid_dec phases d) -> forall objects ex idx, (forall d, In d ex -> proper d) ->
  forall d, In d (fst (process_objects phases objects sensors status data (ex, idx))) -> proper d.
Proof.
  intros V. unfold process_objects. induction objects as [|o objects IH]; intros ex idx R; cbn [fold_left fst snd]; [exact R|].
  pose proof (process_one_proper (status o) _ ex (V o) R) as P. destruct (process_one phases (status o) (pick zero_dec data (sensors o)) ex) as [k r]. cbn [snd] in P. now apply IH.
Qed.
(** ** The voltages *)
Notation voltage_of := (fused_voltage phases topo inp cabs).
Lemma voltage_variance b : (usable (voltage_measurements topo inp b) 0 /\ exists q, variance (voltage_of b) 0 = Fin q /\ (0 < q)%Qc) \/ (~ usable (voltage_measurements topo inp b) 0 /\ variance (voltage_of b) 0 = PInf).
Proof.
  pose proof (wf_voltage_data _ _ _ WB b) as P. unfold fused_voltage. destruct (existsb _ _); [|now apply combined_variance]. unfold combine_magnitude. cbn [variance].
  set (g := fun m : rand_var => mkVar (cabs_or_real cabs phases (value m)) (variance m)).
  assert (U : usable (voltage_measurements topo inp b) 0 <-> usable (map g (voltage_measurements topo inp b)) 0). { split; intros [m [Hm Fm]]; [exists (g m); split; [now apply in_map|exact Fm]|]. apply in_map_iff in Hm. destruct Hm as [x [<- Hx]]. exists x. auto. }
  rewrite U. apply combined_variance; [reflexivity|]. intros m Hm. apply in_map_iff in Hm. destruct Hm as [x [<- Hx]]. exact (P x Hx).
Qed.
Definition voltage_known (main : list rand_var) (b : nat) (k : Z) : Prop :=
  (~ usable (voltage_measurements topo inp b) 0 /\ k = unmeasured) \/ (usable (voltage_measurements topo inp b) 0 /\ (0 <= k)%Z /\ nth_error main (Z.to_nat k) = Some (voltage_of b)).
Definition steady (v : rand_var) : Prop := exists q, variance v 0 = Fin q /\ (0 < q)%Qc.
Lemma voltages_ok : forall bs st, NoDup bs -> (forall b, In b bs -> b < length (idx_voltage st)) -> (forall v, In v (voltage_main st) -> steady v) ->
  let r := fold_left (process_voltage phases cabs topo inp) bs st in
  (exists t, voltage_main r = voltage_main st ++ t) /\ (forall v, In v (voltage_main r) -> steady v) /\ (forall b, In b bs -> voltage_known (voltage_main r) b (nth b (idx_voltage r) 0%Z)) /\ (forall b, ~ In b bs -> nth b (idx_voltage r) 0%Z = nth b (idx_voltage st) 0%Z) /\
  power_main r = power_main st /\ current_main r = current_main st /\ idx_from r = idx_from st /\ idx_to r = idx_to st.
Proof.
  induction bs as [|x bs IH]; intros st N L S; cbn [fold_left].
  - refine (conj _ (conj S (conj _ (conj _ (conj eq_refl (conj eq_refl (conj eq_refl eq_refl))))))); [exists []; now rewrite app_nil_r|intros ? []|auto].
  - inversion N as [|? ? Nx N']; subst. assert (Lx : x < length (idx_voltage st)) by (apply L; now left).
    assert (P : exists k t, process_voltage phases cabs topo inp st x = mkMeasured (voltage_main st ++ t) (power_main st) (current_main st) (extra st) (appliance_injection st) (upd x k (idx_voltage st)) (idx_injection st) (n_unmeasured st) (idx_from st) (idx_to st) (idx_shunt st) (idx_load_gen st) (idx_source st) (idx_from_current st) (idx_to_current st) /\
              voltage_known (voltage_main st ++ t) x k /\ forall v, In v t -> steady v).
    { unfold process_voltage. fold (voltage_measurements topo inp x). cbv zeta. fold (magnitude_only phases). change (if existsb _ _ then _ else _) with (voltage_of x). destruct (voltage_variance x) as [[U [q [E Q]]]|[U E]]; rewrite E; cbn [isinf].
      - eexists _, [voltage_of x]. split; [reflexivity|]. split; [|intros v [<-|[]]; exists q; auto]. right. refine (conj U (conj _ _)); [lia|]. rewrite Nat2Z.id, nth_error_app2, Nat.sub_diag by lia. reflexivity.
      - exists unmeasured, []. rewrite app_nil_r. split; [reflexivity|]. split; [left; auto|intros ? []]. }
    destruct P as [k [t [-> [K T]]]]. destruct (IH (mkMeasured (voltage_main st ++ t) (power_main st) (current_main st) (extra st) (appliance_injection st) (upd x k (idx_voltage st)) (idx_injection st) (n_unmeasured st) (idx_from st) (idx_to st) (idx_shunt st) (idx_load_gen st) (idx_source st) (idx_from_current st) (idx_to_current st)) N') as [[t' I1] [I2 [I3 [I4 [I5 [I6 [I7 I8]]]]]]].
    + intros b Hb. cbn [idx_voltage]. rewrite upd_length. apply L. now right.
    + cbn [voltage_main]. intros v Hv. apply in_app_or in Hv. destruct Hv; auto.
    + cbv zeta in *. cbn [voltage_main idx_voltage power_main current_main idx_from idx_to] in *. refine (conj _ (conj I2 (conj _ (conj _ (conj I5 (conj I6 (conj I7 I8))))))).
      * exists (t ++ t'). now rewrite I1, app_assoc.
      * intros b [<-|Hb]; [|now apply I3]. rewrite I4 by assumption. rewrite nth_upd_eq by assumption. rewrite I1. destruct K as [K|[K1 [K2 K3]]]; [left; assumption|right]. refine (conj K1 (conj K2 _)). rewrite nth_error_app1; [assumption|]. apply nth_error_Some. congruence.
      * intros b Hb. rewrite I4 by (intros Q; apply Hb; now right). apply nth_upd_neq. intros ->. apply Hb. now left.
Qed.
(** ** The injections *)
Lemma one_index (M : decomposed -> ext) on ds ex k : known on ds ex k -> (on = true -> usable_dec phases ds) ->
  (if (0 <=? k)%Z then number (M (entry ex k)) else 0%Qc) = if on then number (M (combine_decomposed phases ds)) else 0%Qc.
Proof.
  intros [[-> ->]|[[-> [U _]]|[-> [_ [H E]]]]] A; [reflexivity|destruct U; now apply A|]. replace (0 <=? k)%Z with true by lia. unfold entry. now rewrite (nth_error_nth _ _ _ E).
Qed.
Lemma filter_sum {A} (on : A -> bool) (g h : A -> Qc) l : (forall x, In x l -> h x = if on x then g x else 0%Qc) -> qsum (map h l) = qsum (map g (filter on l)).
Proof. induction l as [|x l IH]; intros H; [reflexivity|]. cbn [map filter]. rewrite qsum_cons, IH by (intros y Hy; apply H; now right). rewrite (H x (or_introl eq_refl)). destruct (on x); [now rewrite <- qsum_cons|apply Qcplus_0_l]. Qed.
Lemma bus_sum st b : bus_done phases topo inp st b -> all_measured phases topo inp b -> appliance_sum phases topo inp b (nth b (appliance_injection st) zero_dec).
Proof.
  intros D [A1 A2] i p Hp. rewrite (d_value _ _ _ _ _ D i p Hp), (d_variance _ _ _ _ _ D i p Hp). unfold idx_at, lg_idx, src_idx. rewrite !map_app, !qsum_app, !map_map.
  split; f_equal; f_equal; apply filter_sum; intros o Ho.
  - exact (one_index (fun d => value (part i d) p) _ _ _ _ (d_lg _ _ _ _ _ D o Ho) (fun T => proj2 (A1 o Ho T))).
  - exact (one_index (fun d => value (part i d) p) _ _ _ _ (d_src _ _ _ _ _ D o Ho) (fun T => proj2 (A2 o Ho T))).
  - exact (one_index (fun d => variance (part i d) p) _ _ _ _ (d_lg _ _ _ _ _ D o Ho) (fun T => proj2 (A1 o Ho T))).
  - exact (one_index (fun d => variance (part i d) p) _ _ _ _ (d_src _ _ _ _ _ D o Ho) (fun T => proj2 (A2 o Ho T))).
Qed.
Lemma lg_positive o i p : p < phases -> load_gen_measured phases topo inp o -> (0 < load_gen_variance phases topo inp i p o)%Qc.
Proof. intros Hp [_ U]. destruct (usable_certain phases _ (wf_load_gen_data _ _ _ WF o) U i p Hp) as [_ [q [E L]]]. unfold load_gen_variance. rewrite E. exact L. Qed.
Lemma src_positive o i p : p < phases -> source_measured phases topo inp o -> (0 < source_variance phases topo inp i p o)%Qc.
Proof. intros Hp [_ U]. destruct (usable_certain phases _ (wf_source_data _ _ _ WF o) U i p Hp) as [_ [q [E L]]]. unfold source_variance. rewrite E. exact L. Qed.
Lemma sum_nonneg b i p : p < phases -> all_measured phases topo inp b -> (forall q, In q (map (load_gen_variance phases topo inp i p) (connected_load_gens topo inp b)) -> (0 < q)%Qc) /\ (forall q, In q (map (source_variance phases topo inp i p) (connected_sources topo inp b)) -> (0 < q)%Qc).
Proof.
  intros Hp [A1 A2]. split; intros q Hq; apply in_map_iff in Hq; destruct Hq as [o [<- Ho]]; apply filter_In in Ho; destruct Ho as [Ho T]; [apply lg_positive|apply src_positive]; auto.
Qed.
Lemma sum_sign b i p : p < phases -> all_measured phases topo inp b ->
  let v := (qsum (map (load_gen_variance phases topo inp i p) (connected_load_gens topo inp b)) + qsum (map (source_variance phases topo inp i p) (connected_sources topo inp b)))%Qc in
  (connected topo inp b /\ (0 < v)%Qc) \/ (~ connected topo inp b /\ v = 0%Qc).
Proof.
  intros Hp A. destruct (sum_nonneg b i p Hp A) as [P1 P2]. cbv zeta. assert (W1 := fun q H => Qclt_le_weak _ _ (P1 q H)). assert (W2 := fun q H => Qclt_le_weak _ _ (P2 q H)).
  destruct (connected_load_gens topo inp b) as [|o l] eqn:E1.
  - destruct (connected_sources topo inp b) as [|o l] eqn:E2.
    + right. split; [|reflexivity]. intros [[o [Ho T]]|[o [Ho T]]].
      * assert (I : In o (connected_load_gens topo inp b)) by (apply filter_In; auto). rewrite E1 in I. destruct I.
      * assert (I : In o (connected_sources topo inp b)) by (apply filter_In; auto). rewrite E2 in I. destruct I.
    + left. split.
      * right. exists o. apply filter_In. unfold connected_sources in E2. rewrite E2. now left.
      * change (qsum (map _ [])) with 0%Qc. rewrite Qcplus_0_l. apply (qsum_pos _ (source_variance phases topo inp i p o)); [exact W2|now left|]. apply P2. now left.
  - left. split.
    + left. exists o. apply filter_In. unfold connected_load_gens in E1. rewrite E1. now left.
    + apply Qc_add_pos; [|apply qsum_nonneg; exact W2]. apply (qsum_pos _ (load_gen_variance phases topo inp i p o)); [exact W1|now left|]. apply P1. now left.
Qed.
Lemma zero_test b d i : all_measured phases topo inp b -> appliance_sum phases topo inp b d -> any_zero phases (variance (part i d)) = true <-> ~ connected topo inp b.
Proof.
  intros A S. unfold any_zero. rewrite existsb_exists. split.
  - intros [p [Hp Z]]. apply in_seq in Hp. destruct (S i p ltac:(lia)) as [_ E]. rewrite E in Z. destruct (sum_sign b i p ltac:(lia) A) as [[_ L]|[N _]]; [|assumption]. cbn [iszero] in Z. rewrite (qsign_pos _ L) in Z. discriminate.
  - intros N. exists 0. split; [apply in_seq; lia|]. destruct (S i 0 PH) as [_ E]. rewrite E. destruct (sum_sign b i 0 PH A) as [[C _]|[_ Z]]; [contradiction|]. rewrite Z. reflexivity.
Qed.
Lemma sum_valid b d : all_measured phases topo inp b -> connected topo inp b -> appliance_sum phases topo inp b d -> valid_dec phases d.
Proof.
  intros A C S. assert (G : forall i p, p < phases -> finite (value (part i d) p) /\ positive (variance (part i d) p)).
  { intros i p Hp. destruct (S i p Hp) as [E1 E2]. rewrite E1, E2. split; [eexists; reflexivity|]. right. eexists. split; [reflexivity|]. destruct (sum_sign b i p Hp A) as [[_ L]|[N _]]; [exact L|contradiction]. }
  split; split; intros p Hp; cbn in Hp; first [apply (G false p Hp)|apply (G true p Hp)].
Qed.
Lemma sum_proper b d : all_measured phases topo inp b -> appliance_sum phases topo inp b d -> proper d.
Proof. intros A S i p Hp. destruct (S i p Hp) as [_ E]. rewrite E. eexists. split; [reflexivity|]. destruct (sum_sign b i p Hp A) as [[_ L]|[_ ->]]; [now apply Qclt_le_weak|apply Qcle_refl]. Qed.
(** ** All the entries have finite variances *)
Lemma appliances_proper st b : sized topo st -> b < n_bus topo -> (forall d, In d (power_main st) -> proper d) ->
  (forall d, In d (power_main (process_appliances phases topo inp st b)) -> proper d) /\
  current_main (process_appliances phases topo inp st b) = current_main st /\ idx_from (process_appliances phases topo inp st b) = idx_from st /\ idx_to (process_appliances phases topo inp st b) = idx_to st.
Proof.
  intros S Hb P. destruct (process_bus_ok phases topo inp WF st b S Hb) as [_ [D _]].
  assert (G : forall i p, p < phases -> finite (value (part i (nth b (appliance_injection (process_appliances phases topo inp st b)) zero_dec)) p) /\ exists q, variance (part i (nth b (appliance_injection (process_appliances phases topo inp st b)) zero_dec)) p = Fin q /\ (0 <= q)%Qc).
  { intros i p Hp. rewrite (d_value _ _ _ _ _ D i p Hp), (d_variance _ _ _ _ _ D i p Hp). split; [eexists; reflexivity|]. eexists. split; [reflexivity|]. apply qsum_nonneg. intros q Hq. apply in_map_iff in Hq. destruct Hq as [k [<- Hk]].
    apply (variance_nonneg phases _ b i p Hp). now apply (known_all phases topo inp WF _ b D). }
  clear D. unfold process_appliances in *.
  pose proof (process_objects_proper (shunt_sensors topo) (shunt_status inp) (shunt_data inp) (wf_shunt_data _ _ _ WF) (shunts_at topo b) (power_main st) (idx_shunt st) P) as Pm.
  destruct (process_objects phases (shunts_at topo b) _ _ _ _) as [main shunts]. cbn [fst] in Pm. destruct (process_objects phases (load_gens_at topo b) _ _ _ _) as [ex lgs]. destruct (process_objects phases (sources_at topo b) _ _ _ _) as [ex' srcs].
  unfold combine_appliances in *. cbn [extra idx_load_gen idx_source power_main voltage_main current_main appliance_injection idx_voltage idx_injection n_unmeasured idx_from idx_to idx_shunt idx_from_current idx_to_current] in *.
  destruct (fold_left _ (map _ (sources_at topo b)) _) as [app n]. set (direct := combine_decomposed phases (pick zero_dec (bus_data inp) (bus_sensors topo b))) in *.
  match type of G with context [let '(_, _) := ?c in _] => destruct c as [k main'] eqn:Ec end. cbn [power_main current_main idx_from idx_to appliance_injection] in *. refine (conj _ (conj eq_refl (conj eq_refl eq_refl))).
  rewrite nth_upd_eq in G by (rewrite (s_app _ _ S); assumption). pose proof (wf_bus_data _ _ _ WF b) as V. fold (bus_measurements topo inp b) in direct.
  assert (Pd : uncertain phases direct = false -> usable_dec phases (bus_measurements topo inp b)).
  { intros E. destruct (usable_dec_dec phases _ V) as [U|U]; [assumption|]. pose proof (unusable_uncertain _ PH _ V U) as E'. fold direct in E'. congruence. }
  assert (Pa : forall x, proper x -> forall d, In d (main ++ [x]) -> proper d) by (intros x Hx d Hd; apply in_app_or in Hd; destruct Hd as [Hd|[<-|[]]]; auto).
  destruct (0 <? n).
  - destruct (uncertain phases direct) eqn:Eu; inversion Ec; subst; [exact Pm|]. apply Pa. apply certain_proper. apply usable_certain; auto.
  - destruct (uncertain phases direct || any_zero phases (variance (re app)) || any_zero phases (variance (im app))) eqn:Ez; inversion Ec; subst.
    + apply Pa. intros i p Hp. apply (G i p Hp).
    + apply orb_false_iff in Ez. destruct Ez as [Ez Z2]. apply orb_false_iff in Ez. destruct Ez as [Z0 Z1]. apply Pa. apply certain_proper. apply usable_certain.
      * intros d [<-|[<-|[]]]; [apply decomposed_valid; assumption|].
        assert (NZ : forall i p, p < phases -> iszero (variance (part i app) p) = false).
        { intros i p Hp. apply Bool.not_true_is_false. intros I. assert (A : any_zero phases (variance (part i app)) = true) by (apply existsb_exists; exists p; split; [apply in_seq; lia|assumption]). destruct i; cbn [part] in A; congruence. }
        assert (H : forall i p, p < phases -> finite (value (part i app) p) /\ positive (variance (part i app) p)).
        { intros i p Hp. destruct (G i p Hp) as [F [q [E L]]]. split; [exact F|]. right. exists q. split; [exact E|]. specialize (NZ i p Hp). rewrite E in NZ. cbn [iszero] in NZ. apply Qcle_lt_or_eq in L. destruct L as [L|L]; [assumption|]. subst q. discriminate. }
        split; split; intros p Hp; cbn in Hp; first [apply (H false p Hp)|apply (H true p Hp)].
      * specialize (Pd Z0). pose proof (usable_certain phases _ V Pd) as C. fold direct in C. intros p Hp. cbn [map]. split; eexists; (split; [left; reflexivity|]); [destruct (C false p Hp) as [_ [q [E _]]]|destruct (C true p Hp) as [_ [q [E _]]]]; exists q; exact E.
Qed.
Lemma buses_proper : forall bs st, sized topo st -> (forall b, In b bs -> b < n_bus topo) -> (forall d, In d (power_main st) -> proper d) ->
  let r := fold_left (process_appliances phases topo inp) bs st in (forall d, In d (power_main r) -> proper d) /\ current_main r = current_main st /\ idx_from r = idx_from st /\ idx_to r = idx_to st.
Proof.
  induction bs as [|b bs IH]; intros st S L P; [auto|]. cbn [fold_left]. destruct (appliances_proper st b S (L b (or_introl eq_refl)) P) as [P1 [E1 [E2 E3]]]. destruct (process_bus_ok phases topo inp WF st b S (L b (or_introl eq_refl))) as [S1 _].
  destruct (IH _ S1 (fun x Hx => L x (or_intror Hx)) P1) as [Q1 [F1 [F2 F3]]]. cbv zeta in *. rewrite F1, F2, F3, E1, E2, E3. auto.
Qed.
(** ** The branches *)
Lemma current_loose on cs r k r' : (forall c, In c cs -> valid_dec phases (measurement c)) -> (forall c, In c r -> loose (measurement c)) -> process_one_current phases on cs r = Some (k, r') -> forall c, In c r' -> loose (measurement c).
Proof.
  intros V R. unfold process_one_current. destruct on; cbn [negb]; [|intros [= <- <-]; exact R]. destruct cs as [|c0 cs]; [intros [= <- <-]; exact R|]. unfold combine_currents. destruct (existsb _ _); [discriminate|]. intros [= <- <-] c Hc. apply in_app_or in Hc. destruct Hc as [Hc|[<-|[]]]; [now apply R|]. cbn [measurement].
  apply valid_loose. apply decomposed_valid. intros d Hd. apply (in_map_iff measurement (c0 :: cs)) in Hd. destruct Hd as [x [<- Hx]]. now apply V.
Qed.
Lemma branches_ok : forall bs st st', fold_left (process_branch phases topo inp) bs (Some st) = Some st' -> NoDup bs -> (forall b, In b bs -> b < length (idx_from st) /\ b < length (idx_to st)) ->
  (forall d, In d (power_main st) -> proper d) -> (forall c, In c (current_main st) -> loose (measurement c)) ->
  (exists t, power_main st' = power_main st ++ t) /\ (forall d, In d (power_main st') -> proper d) /\ (forall c, In c (current_main st') -> loose (measurement c)) /\
  (forall b, In b bs -> known (branch_from topo b) (from_measurements topo inp b) (power_main st') (nth b (idx_from st') 0%Z) /\ known (branch_to topo b) (to_measurements topo inp b) (power_main st') (nth b (idx_to st') 0%Z)) /\
  (forall b, ~ In b bs -> nth b (idx_from st') 0%Z = nth b (idx_from st) 0%Z /\ nth b (idx_to st') 0%Z = nth b (idx_to st) 0%Z).
Proof.
  induction bs as [|b bs IH]; intros st st' E N L P C; cbn [fold_left] in E.
  - inversion E; subst. refine (conj _ (conj P (conj C (conj _ _)))); [exists []; now rewrite app_nil_r|intros ? []|auto].
  - assert (NoneFold : forall l, fold_left (process_branch phases topo inp) l None = None) by (clear; induction l; auto). unfold process_branch at 2 in E. inversion N as [|? ? Nb N']; subst. destruct (L b (or_introl eq_refl)) as [Lf Lt].
    pose proof (wf_from_data _ _ _ WB b) as Vf. pose proof (wf_to_data _ _ _ WB b) as Vt. fold (from_measurements topo inp b) in E. fold (to_measurements topo inp b) in E.
    destruct (process_one_ok phases PH (branch_from topo b) _ (power_main st) Vf) as [t1 [E1 K1]]. pose proof (process_one_proper (branch_from topo b) _ (power_main st) Vf P) as P1. destruct (process_one phases (branch_from topo b) _ _) as [kf main1]. cbn [fst snd] in E1, K1, P1. subst main1.
    destruct (process_one_ok phases PH (branch_to topo b) _ (power_main st ++ t1) Vt) as [t2 [E2 K2]]. pose proof (process_one_proper (branch_to topo b) _ _ Vt P1) as P2. destruct (process_one phases (branch_to topo b) _ _) as [kt main2]. cbn [fst snd] in E2, K2, P2. subst main2.
    destruct (process_one_current phases (branch_from topo b) _ _) as [[cf cm]|] eqn:Ef; [|rewrite NoneFold in E; discriminate]. pose proof (current_loose _ _ _ _ _ (wf_from_current _ _ _ WB b) C Ef) as Cf.
    destruct (process_one_current phases (branch_to topo b) _ _) as [[ct cm']|] eqn:Et; [|rewrite NoneFold in E; discriminate]. pose proof (current_loose _ _ _ _ _ (wf_to_current _ _ _ WB b) Cf Et) as Ct.
    apply IH in E; [|exact N'|intros x Hx; cbn [idx_from idx_to]; rewrite !upd_length; apply L; now right|exact P2|exact Ct]. cbn [power_main idx_from idx_to] in E. destruct E as [[t Ep] [Q1 [Q2 [Q3 Q4]]]]. refine (conj _ (conj Q1 (conj Q2 (conj _ _)))).
    + exists (t1 ++ t2 ++ t). now rewrite Ep, !app_assoc.
    + intros x [<-|Hx]; [|now apply Q3]. destruct (Q4 b Nb) as [-> ->]. rewrite !nth_upd_eq by assumption. rewrite Ep. split; [|now apply known_more]. rewrite <- app_assoc. now apply known_more.
    + intros x Hx. destruct (Q4 x) as [-> ->]; [intros Q; apply Hx; now right|]. rewrite !nth_upd_neq by (intros ->; apply Hx; now left). auto.
Qed.
(** ** Scaling *)
Lemma scale_factor st : (forall v, In v (voltage_main st) -> steady v) -> (forall d, In d (power_main st) -> proper d) -> (forall c, In c (current_main st) -> loose (measurement c)) ->
  exists c, (0 < c)%Qc /\ (forall v, In v (voltage_main st) -> emul (variance v 0) (ediv (Fin 1%Qc) (min_variance phases st)) = emul (variance v 0) (Fin c)) /\
    forall d i p, In d (power_main st) -> p < phases -> emul (variance (part i d) p) (ediv (Fin 1%Qc) (min_variance phases st)) = emul (variance (part i d) p) (Fin c).
Proof.
  intros V P C. assert (T : forall d v, loose d -> In v (total_variance phases d) -> amount v).
  { intros d v Ld Hv. apply in_map_iff in Hv. destruct Hv as [p [<- Hp]]. apply in_seq in Hp. apply amount_add; [apply (Ld false)|apply (Ld true)]; lia. }
  unfold min_variance. set (l := map (fun v => variance v 0) (voltage_main st) ++ flat_map (total_variance phases) (power_main st) ++ flat_map (fun c => total_variance phases (measurement c)) (current_main st)).
  assert (A : forall v, In v l -> amount v).
  { intros v Hv. apply in_app_or in Hv. destruct Hv as [Hv|Hv]; [apply in_map_iff in Hv; destruct Hv as [x [<- Hx]]; destruct (V x Hx) as [q [E L]]; right; exists q; split; [exact E|now apply Qclt_le_weak]|].
    apply in_app_or in Hv. destruct Hv as [Hv|Hv]; apply in_flat_map in Hv; destruct Hv as [x [Hx Hv]]; eapply T; try exact Hv; [apply proper_loose; auto|auto]. }
  destruct (min_ok l PInf A (or_introl eq_refl)) as [[M|[q [M Hq]]] Z]; rewrite M in *; clear M.
  - destruct (Z eq_refl) as [_ Z']. exists 1%Qc. split; [reflexivity|]. split.
    + intros v Hv. exfalso. destruct (V v Hv) as [q [E L]]. destruct (Z' (variance v 0)) as [E'|E']; [apply in_or_app; left; exact (in_map (fun v => variance v 0) _ _ Hv)|congruence|]. rewrite E in E'. inversion E'; subst. now apply Qc_pos_ne in L.
    + intros d i p Hd Hp. destruct (P d Hd false p Hp) as [a [Ea La]]. destruct (P d Hd true p Hp) as [b [Eb Lb]]. destruct (Z' (eadd (variance (re d) p) (variance (im d) p))) as [E|E].
      * apply in_or_app. right. apply in_or_app. left. apply in_flat_map. exists d. split; [assumption|]. apply (in_map (fun p => eadd (variance (re d) p) (variance (im d) p))). apply in_seq. lia.
      * cbn [part] in Ea, Eb. rewrite Ea, Eb in E. discriminate.
      * cbn [part] in Ea, Eb. rewrite Ea, Eb in E. cbn [eadd] in E. assert (E' : (a + b)%Qc = 0%Qc) by congruence.
        assert (a = 0%Qc /\ b = 0%Qc) as [-> ->].
        { apply Qcle_lt_or_eq in La. destruct La as [La|La]; [exfalso; pose proof (Qc_add_pos a b La Lb) as Q; rewrite E' in Q; now apply Qc_pos_ne in Q|]. subst a. split; [reflexivity|]. rewrite <- E'. ring. }
        destruct i; cbn [part]; rewrite ?Ea, ?Eb; cbn; f_equal; ring.
  - rewrite ediv_fin by now apply Qc_pos_ne. exists (1 / q)%Qc. split; [|auto]. unfold Qcdiv. rewrite Qcmult_1_l. now apply Qc_inv_pos.
Qed.
Lemma uses_scaled c c0 main k d : (forall d i p, In d main -> p < phases -> emul (variance (part i d) p) c = emul (variance (part i d) p) (Fin c0)) -> (0 <= k)%Z -> nth_error main (Z.to_nat k) = Some d -> uses phases c0 (map (scale_dec c) main) k d.
Proof.
  intros S H E. split; [exact H|]. exists (scale_dec c d). split; [now apply map_nth_error|]. intros i p Hp. pose proof (S d i p (nth_error_In _ _ E) Hp) as Q. destruct i; cbn [part scale_dec scale_var re im value variance] in *; auto.
Qed.
Lemma object_scaled c c0 main t k on ds : (forall d i p, In d (main ++ t) -> p < phases -> emul (variance (part i d) p) c = emul (variance (part i d) p) (Fin c0)) -> known on ds main k -> object_used phases c0 (map (scale_dec c) (main ++ t)) k on ds.
Proof.
  intros S K. apply (known_more phases on ds main t) in K. unfold object_used. destruct K as [[-> ->]|[[-> [U ->]]|[-> [U [H E]]]]].
  - refine (conj (fun _ => eq_refl) (conj _ _)); discriminate.
  - refine (conj _ (conj (fun _ _ => eq_refl) _)); [discriminate|intros _ Q; contradiction].
  - refine (conj _ (conj _ _)); [discriminate|intros _ Q; contradiction|intros _ _; now apply uses_scaled].
Qed.
Lemma used st : construct phases cabs topo inp = Some st -> exists c, (0 < c)%Qc /\ measurements_used phases topo inp cabs c st.
Proof.
  intros Ec. pose proof (fun b => measured_count phases cabs topo inp WF b) as MC. destruct (buses_done phases cabs topo inp WF) as [_ BD]. unfold construct in Ec. set (st0 := process_buses phases cabs topo inp) in *.
  destruct (voltages_ok (seq 0 (n_bus topo)) (empty topo) (seq_NoDup _ _)) as [_ [V2 [V3 [_ [V5 [V6 [V7 V8]]]]]]]; [intros b Hb; cbn; rewrite repeat_length; apply in_seq in Hb; lia|intros ? []|]. cbv zeta in *.
  pose proof (voltages_sized phases cabs topo inp (seq 0 (n_bus topo)) _ (empty_sized topo)) as S1. set (sv := fold_left (process_voltage phases cabs topo inp) (seq 0 (n_bus topo)) (empty topo)) in *.
  assert (LB : forall b, In b (seq 0 (n_bus topo)) -> b < n_bus topo) by (intros b Hb; apply in_seq in Hb; lia).
  destruct (buses_proper (seq 0 (n_bus topo)) sv S1 LB) as [B1 [B2 [B3 B4]]]; [rewrite V5; intros ? []|]. cbv zeta in *. change (fold_left (process_appliances phases topo inp) (seq 0 (n_bus topo)) sv) with st0 in *.
  destruct (process_buses_ok phases topo inp WF (seq 0 (n_bus topo)) sv S1 (seq_NoDup _ _) LB) as [_ [_ [_ [B5 B6]]]]. cbv zeta in *. change (fold_left (process_appliances phases topo inp) (seq 0 (n_bus topo)) sv) with st0 in *.
  destruct (fold_left (process_branch phases topo inp) (seq 0 (n_branch topo)) (Some st0)) as [st1|] eqn:Eb; [|discriminate]. inversion Ec; subst st. clear Ec.
  destruct (branches_alike phases topo inp _ _ _ Eb) as [A [_ Av]].
  destruct (branches_ok _ _ _ Eb (seq_NoDup _ _)) as [[t T] [P1 [P2 [P3 _]]]].
  { intros b Hb. rewrite B3, B4, V7, V8. cbn. rewrite !repeat_length. apply in_seq in Hb. lia. } { exact B1. } { rewrite B2, V6. intros ? []. }
  destruct (scale_factor st1) as [c [Hc [S2 S3]]]; [rewrite Av, B5; exact V2|exact P1|exact P2|]. exists c. split; [exact Hc|].
  pose proof S3 as S3'. rewrite T in S3'. constructor; cbn [normalize voltage_main power_main idx_voltage idx_injection idx_shunt idx_from idx_to].
  - intros b Hb. rewrite (a_voltage _ _ A), B6. specialize (V3 b ltac:(apply in_seq; lia)). unfold voltage_used. destruct V3 as [[U E]|[U [H E]]]; (split; [|]); try (intros Q; contradiction); [intros _; exact E|]. intros _. split; [exact H|].
    rewrite <- B5, <- Av in E. eexists. split; [apply map_nth_error; exact E|]. cbn [scale_var value variance]. split; [reflexivity|]. apply S2. eapply nth_error_In. exact E.
  - intros b Hb. rewrite (a_inj _ _ A). pose proof (BD b Hb) as D. pose proof (injection_more phases _ t _ _ _ _ _ (d_injection _ _ _ _ _ D)) as J. rewrite <- T in J.
    assert (UE := bus_sum st0 b D). specialize (MC b Hb). fold st0 in MC. unfold injection_used. cbv zeta. destruct J as [[N [U K]]|[H J]].
    + assert (NA : ~ all_measured phases topo inp b) by (intros Q; apply MC in Q; lia). refine (conj _ (conj _ (conj _ _))); [intros _ _; exact K|intros _ Q; contradiction|intros Q; contradiction|intros Q; contradiction].
    + destruct J as [[N [U J]]|[[N [U J]]|[N [U [Z1 [Z2 J]]]]]].
      * assert (NA : ~ all_measured phases topo inp b) by (intros Q; apply MC in Q; lia). refine (conj _ (conj _ (conj _ _))); [intros _ Q; contradiction|intros _ _; now apply uses_scaled|intros Q; contradiction|intros Q; contradiction].
      * apply MC in N. specialize (UE N). refine (conj _ (conj _ (conj _ _))); [intros Q; contradiction|intros Q; contradiction|intros _ _; eexists; split; [exact UE|]; now apply uses_scaled|].
        intros _ Ud Cn. exfalso. destruct U as [U|[U|U]]; [contradiction| |]; [apply (zero_test b _ false N UE) in U|apply (zero_test b _ true N UE) in U]; contradiction.
      * apply MC in N. specialize (UE N). refine (conj _ (conj _ (conj _ _))); [intros Q; contradiction|intros Q; contradiction| |intros _ _ _; eexists; split; [exact UE|]; now apply uses_scaled].
        intros _ [Q|Q]; [contradiction|]. apply (zero_test b _ false N UE) in Q. cbn [part] in Q. congruence.
  - intros b o Hb Ho. rewrite (a_shunt _ _ A), T. apply object_scaled; [exact S3'|]. now apply (d_shunt _ _ _ _ _ (BD b Hb)).
  - intros b Hb. rewrite <- (app_nil_r (power_main st1)). apply object_scaled; [rewrite app_nil_r; exact S3|]. apply P3. apply in_seq. lia.
  - intros b Hb. rewrite <- (app_nil_r (power_main st1)). apply object_scaled; [rewrite app_nil_r; exact S3|]. apply P3. apply in_seq. lia.
Qed.
(** ** Least squares *)
Lemma least_change st s b i p x y : construct phases cabs topo inp = Some st -> b < n_bus topo -> p < phases -> all_measured phases topo inp b -> connected topo inp b -> finite (part_of i (s b) p) ->
  (qsum (map x (connected_load_gens topo inp b)) + qsum (map y (connected_sources topo inp b)))%Qc = number (part_of i (s b) p) ->
  let flows := load_gen_source topo st s in
  (deviation phases topo inp b i p (fun o => number (part_of i (nth o (fst flows) no_power) p)) (fun o => number (part_of i (nth o (snd flows) no_power) p)) <= deviation phases topo inp b i p x y)%Qc.
Proof.
  intros Ec Hb Hp A Cn Fs E. cbv zeta. destruct (flows_at phases cabs topo inp WF st Ec s b Hb) as [R1 R2]. pose proof (proj2 (buses_done phases cabs topo inp WF) b Hb) as D. set (st0 := process_buses phases cabs topo inp) in *.
  pose proof (proj2 (measured_count phases cabs topo inp WF b Hb) A) as N. fold st0 in N. pose proof A as [A1 A2].
  set (mu := ((qsum (map (add_value (extra st0) i p) (idx_at topo st0 b)) - number (part_of i (s b) p)) / qsum (map (add_variance (extra st0) i p) (idx_at topo st0 b)))%Qc).
  assert (Q1 : forall o, In o (connected_load_gens topo inp b) -> number (part_of i (nth o (fst (load_gen_source topo st s)) no_power) p) = (load_gen_value phases topo inp i p o - load_gen_variance phases topo inp i p o * mu)%Qc).
  { intros o Ho. apply filter_In in Ho. destruct Ho as [Ho T]. rewrite R1 by assumption. pose proof (lg_in phases cabs topo inp b o Ho) as I. fold st0 in I. pose proof (known_all phases topo inp WF st0 b D _ I) as F.
    destruct (over_value phases topo inp st0 b D (s b) i p Hp Fs _ N F (fun H => total_variance_pos phases topo inp WF st0 b D i p Hp _ I H) (none_unmeasured phases topo inp st0 b D N _ I)) as [q [-> ->]]. cbn [number].
    pose proof (d_lg _ _ _ _ _ D o Ho) as K. pose proof (one_index (fun d => value (part i d) p) _ _ _ _ K (fun T => proj2 (A1 o Ho T))) as O1. pose proof (one_index (fun d => variance (part i d) p) _ _ _ _ K (fun T => proj2 (A1 o Ho T))) as O2.
    cbv beta in O1, O2. rewrite T in O1, O2. fold mu. unfold add_value, add_variance. rewrite O1, O2. reflexivity. }
  assert (Q2 : forall o, In o (connected_sources topo inp b) -> number (part_of i (nth o (snd (load_gen_source topo st s)) no_power) p) = (source_value phases topo inp i p o - source_variance phases topo inp i p o * mu)%Qc).
  { intros o Ho. apply filter_In in Ho. destruct Ho as [Ho T]. rewrite R2 by assumption. pose proof (src_in phases cabs topo inp b o Ho) as I. fold st0 in I. pose proof (known_all phases topo inp WF st0 b D _ I) as F.
    destruct (over_value phases topo inp st0 b D (s b) i p Hp Fs _ N F (fun H => total_variance_pos phases topo inp WF st0 b D i p Hp _ I H) (none_unmeasured phases topo inp st0 b D N _ I)) as [q [-> ->]]. cbn [number].
    pose proof (d_src _ _ _ _ _ D o Ho) as K. pose proof (one_index (fun d => value (part i d) p) _ _ _ _ K (fun T => proj2 (A2 o Ho T))) as O1. pose proof (one_index (fun d => variance (part i d) p) _ _ _ _ K (fun T => proj2 (A2 o Ho T))) as O2.
    cbv beta in O1, O2. rewrite T in O1, O2. fold mu. unfold add_value, add_variance. rewrite O1, O2. reflexivity. }
  set (cl := connected_load_gens topo inp b) in *. set (cs := connected_sources topo inp b) in *.
  set (M := fun a : nat + nat => match a with inl o => load_gen_value phases topo inp i p o | inr o => source_value phases topo inp i p o end).
  set (v := fun a : nat + nat => match a with inl o => load_gen_variance phases topo inp i p o | inr o => source_variance phases topo inp i p o end).
  set (X := fun a : nat + nat => match a with inl o => x o | inr o => y o end).
  destruct (sum_nonneg b i p Hp A) as [W1 W2]. fold cl in W1. fold cs in W2.
  assert (W : forall a, In a (map inl cl ++ map inr cs) -> (0 < v a)%Qc) by (intros a Ha; apply in_app_or in Ha; destruct Ha as [Ha|Ha]; apply in_map_iff in Ha; destruct Ha as [o [<- Ho]]; [apply W1|apply W2]; now apply (in_map _ _ o)).
  assert (SX : qsum (map X (map inl cl ++ map inr cs)) = (qsum (map x cl) + qsum (map y cs))%Qc) by (rewrite map_app, qsum_app, !map_map; reflexivity).
  assert (SM : qsum (map (fun a => M a - v a * mu)%Qc (map inl cl ++ map inr cs)) = number (part_of i (s b) p)).
  { rewrite map_app, qsum_app, !map_map. rewrite <- (proj2 (proj2 (balance phases cabs topo inp WF st Ec s b i p Hb Cn Hp Fs))). unfold reported, sum_over. f_equal; symmetry.
    - rewrite (filter_sum (load_gen_status inp) (fun o => number (part_of i (nth o (fst (load_gen_source topo st s)) no_power) p))).
      + apply qsum_ext. intros o Ho. now apply Q1.
      + intros o Ho. destruct (load_gen_status inp o) eqn:T; [reflexivity|]. rewrite (proj1 (disconnected_zero phases cabs topo inp WF st Ec s b Hb) o Ho T). destruct i; reflexivity.
    - rewrite (filter_sum (source_status inp) (fun o => number (part_of i (nth o (snd (load_gen_source topo st s)) no_power) p))).
      + apply qsum_ext. intros o Ho. now apply Q2.
      + intros o Ho. destruct (source_status inp o) eqn:T; [reflexivity|]. rewrite (proj2 (disconnected_zero phases cabs topo inp WF st Ec s b Hb) o Ho T). destruct i; reflexivity. }
  pose proof (constrained_minimum (map inl cl ++ map inr cs) M v X mu W ltac:(rewrite SX, SM; exact E)) as G. rewrite !map_app, !qsum_app, !map_map in G. cbn [M v X] in G.
  unfold deviation. fold cl cs. match type of G with (?a <= _)%Qc => match goal with |- (?c <= _)%Qc => replace c with a; [exact G|] end end.
  f_equal; apply qsum_ext; intros o Ho; [rewrite Q1 by assumption|rewrite Q2 by assumption]; reflexivity.
Qed.
End Use.
