(** The powers reported at a bus: their sum, the measured ones and the least squares. *)
From Coq Require Import QArith Qcanon.
From Verif Require Import Common NatMap Ext Statistics StatisticsSpec StatisticsFacts MeasuredValues MeasuredValuesSpec MeasuredValuesFacts.
Local Open Scope nat_scope.

(** ** Sums *)
Lemma qsum_count {A} (f : A -> bool) (r : Qc) l : qsum (map (fun x => if f x then r else 0%Qc) l) = (Q2Qc (inject_Z (Z.of_nat (length (filter f l)))) * r)%Qc.
Proof.
  induction l as [|x l IH]; [change (0 = 0 * r)%Qc; ring|]. cbn [map filter]. rewrite qsum_cons, IH. destruct (f x); [|ring]. cbn [length].
  assert (E : Q2Qc (inject_Z (Z.of_nat (S (length (filter f l))))) = (1 + Q2Qc (inject_Z (Z.of_nat (length (filter f l)))))%Qc).
  { apply Qc_is_canon. cbn [this Q2Qc Qcplus]. rewrite !Qred_correct. rewrite Nat2Z.inj_succ. unfold Z.succ. rewrite inject_Z_plus. apply Qplus_comm. }
  rewrite E. ring.
Qed.
Lemma count_ne n : 0 < n -> Q2Qc (inject_Z (Z.of_nat n)) <> 0%Qc.
Proof. intros H E. assert (Q : (inject_Z (Z.of_nat n) == 0)%Q) by (rewrite <- (Qred_correct (inject_Z (Z.of_nat n))); change (Qred (inject_Z (Z.of_nat n))) with (this (Q2Qc (inject_Z (Z.of_nat n)))); rewrite E; reflexivity). unfold Qeq, inject_Z in Q; cbn in Q. lia. Qed.
(** moving from [M - v mu] along a change that sums to zero does not bring one closer to [M] *)
Lemma constrained_minimum {A} (l : list A) (M v x : A -> Qc) (mu : Qc) : (forall a, In a l -> (0 < v a)%Qc) -> qsum (map x l) = qsum (map (fun a => M a - v a * mu)%Qc l) ->
  (qsum (map (fun a => (M a - v a * mu - M a) * (M a - v a * mu - M a) / v a)%Qc l) <= qsum (map (fun a => (x a - M a) * (x a - M a) / v a)%Qc l))%Qc.
Proof.
  intros P E.
  assert (D : forall l, (forall a, In a l -> (0 < v a)%Qc) -> (qsum (map (fun a => (x a - M a) * (x a - M a) / v a) l) = qsum (map (fun a => (M a - v a * mu - M a) * (M a - v a * mu - M a) / v a) l)
             - (1 + 1) * mu * (qsum (map x l) - qsum (map (fun a => M a - v a * mu) l)) + qsum (map (fun a => (x a - (M a - v a * mu)) * (x a - (M a - v a * mu)) / v a) l))%Qc).
  { clear. induction l as [|a l IH]; intros P; [cbn; ring|]. cbn [map]. rewrite !qsum_cons, IH by (intros b Hb; apply P; now right). pose proof (Qc_pos_ne _ (P a (or_introl eq_refl))) as N. field. auto. }
  rewrite (D l P), E. apply Qc_sub_nonneg. match goal with |- (0 <= ?goal)%Qc => replace goal with (qsum (map (fun a => (x a - (M a - v a * mu)) * (x a - (M a - v a * mu)) / v a)%Qc l)) by ring end.
  apply qsum_nonneg. intros q Hq. apply in_map_iff in Hq. destruct Hq as [a [<- Ha]]. apply Qc_mul_nonneg; [apply Qc_square_nonneg|]. apply Qclt_le_weak, Qc_inv_pos. now apply P.
Qed.

Section Sums.
Variable phases : nat.
Variable cabs : ext -> ext -> ext.
Variable topo : topology.
Variable inp : input.
Hypothesis WF : well_formed phases topo inp.
Notation known := (known phases).
Notation fine := (fine phases).
Notation bus_done := (bus_done phases topo inp).
Lemma powers_alike st st' s : alike st st' -> load_gen_source topo st' s = load_gen_source topo st s.
Proof.
  intros A. unfold load_gen_source. generalize (repeat no_power (n_load_gen topo), repeat no_power (n_source topo)). generalize (seq 0 (n_bus topo)). induction l as [|b l IH]; intros f; [reflexivity|]. cbn [fold_left]. rewrite IH. f_equal.
  unfold at_bus. now rewrite (a_app _ _ A), (a_n _ _ A), (a_extra _ _ A), (a_lg _ _ A), (a_src _ _ A).
Qed.
Section Bus.
Variable st : measured.
Variable b : nat.
Hypothesis D : bus_done st b.
Variable s : power.
Variable i : bool.
Variable p : nat.
Hypothesis Hp : p < phases.
Hypothesis Fs : finite (part_of i s p).
Let ks := idx_at topo st b.
Let app := qsum (map (add_value (extra st) i p) ks).
Let var := qsum (map (add_variance (extra st) i p) ks).
Let n := nth b (n_unmeasured st) 0.
Let share : Qc := ((number (part_of i s p) - app) / Q2Qc (inject_Z (Z.of_nat n)))%Qc.
Let mu : Qc := ((app - number (part_of i s p)) / var)%Qc.
Lemma residual_value : 0 < n -> part_of i (residual n (nth b (appliance_injection st) zero_dec) s) p = Fin share.
Proof.
  intros Hn. destruct Fs as [x Ex]. pose proof (d_value _ _ _ _ _ D i p Hp) as V. fold ks app in V. unfold share. rewrite Ex. destruct i; cbn [part_of part residual fst snd number] in *; rewrite Ex, V; cbn [esub eadd eneg]; rewrite ediv_fin by (apply count_ne; exact Hn); f_equal.
Qed.
Lemma not_over k : 0 < n -> fine (extra st) k -> exists q, part_of i (reported_of st s b k) p = Fin q /\ q = (add_value (extra st) i p k + (if is_unmeasured k then share else 0))%Qc.
Proof.
  intros Hn F. unfold reported_of. fold n. replace (0 <? n) with true by lia. unfold non_over_of, add_value. destruct F as [->|[->|[H [d [Ed C]]]]].
  - cbn. exists 0%Qc. split; [destruct i; reflexivity|ring].
  - cbn [Z.leb]. change ((0 <=? unmeasured)%Z) with false. cbn [is_unmeasured]. change (is_unmeasured unmeasured) with true. cbv iota. rewrite residual_value by exact Hn. eexists. split; [reflexivity|ring].
  - replace (0 <=? k)%Z with true by lia. replace (is_unmeasured k) with false by (unfold is_unmeasured, unmeasured; lia). unfold entry. rewrite !(nth_error_nth _ _ _ Ed). destruct (C i p Hp) as [[x Ex] _]. exists x. destruct i; cbn [part part_of value_of fst snd] in *; rewrite Ex; split; try reflexivity; cbn [number]; ring.
Qed.
Lemma multiplier_value : (0 < var)%Qc -> part_of i (multiplier (nth b (appliance_injection st) zero_dec) s) p = Fin mu.
Proof.
  intros Hv. destruct Fs as [x Ex]. pose proof (d_value _ _ _ _ _ D i p Hp) as V. pose proof (d_variance _ _ _ _ _ D i p Hp) as W. fold ks app in V. fold ks var in W. unfold mu. rewrite Ex. destruct i; cbn [part_of part multiplier fst snd number] in *; rewrite Ex, V, W; cbn [esub eadd eneg]; rewrite ediv_fin by (now apply Qc_pos_ne); f_equal.
Qed.
Lemma over_value k : n = 0 -> fine (extra st) k -> ((0 <= k)%Z -> (0 < var)%Qc) -> is_unmeasured k = false ->
  exists q, part_of i (reported_of st s b k) p = Fin q /\ q = (add_value (extra st) i p k - add_variance (extra st) i p k * mu)%Qc.
Proof.
  intros Hn F Hv Hu. unfold reported_of. fold n. replace (0 <? n) with false by lia. unfold over_of, add_value, add_variance. destruct F as [->|[->|[H [d [Ed C]]]]].
  - cbn. exists 0%Qc. split; [destruct i; reflexivity|ring].
  - discriminate.
  - replace (0 <=? k)%Z with true by lia. unfold entry. rewrite !(nth_error_nth _ _ _ Ed). destruct (C i p Hp) as [[x Ex] [q [Eq _]]]. pose proof (multiplier_value (Hv H)) as M. rewrite Ex, Eq. cbn [number].
    exists (x - q * mu)%Qc. destruct i; cbn [part part_of adjusted fst snd] in *; rewrite Ex, Eq, M; split; reflexivity.
Qed.
Lemma variance_nonneg k : fine (extra st) k -> (0 <= add_variance (extra st) i p k)%Qc.
Proof.
  intros F. unfold add_variance. destruct F as [->|[->|[H [d [Ed C]]]]]; [cbn; apply Qcle_refl|cbn; apply Qcle_refl|]. replace (0 <=? k)%Z with true by lia. unfold entry. rewrite (nth_error_nth _ _ _ Ed). destruct (C i p Hp) as [_ [q [-> L]]]. now apply Qclt_le_weak.
Qed.
Lemma variance_pos k : fine (extra st) k -> (0 <= k)%Z -> (0 < add_variance (extra st) i p k)%Qc.
Proof.
  intros F H. unfold add_variance. destruct F as [->|[->|[_ [d [Ed C]]]]]; [unfold disconnected in H; lia|unfold unmeasured in H; lia|]. replace (0 <=? k)%Z with true by lia. unfold entry. rewrite (nth_error_nth _ _ _ Ed). destruct (C i p Hp) as [_ [q [-> L]]]. exact L.
Qed.
Lemma total_variance_pos k : In k ks -> (0 <= k)%Z -> (0 < var)%Qc.
Proof.
  intros Hk H. unfold var. apply (qsum_pos _ (add_variance (extra st) i p k)).
  - intros q Hq. apply in_map_iff in Hq. destruct Hq as [x [<- Hx]]. apply variance_nonneg. now apply (known_all phases topo inp WF st b D).
  - now apply in_map.
  - apply variance_pos; [|assumption]. now apply (known_all phases topo inp WF st b D).
Qed.
Lemma none_unmeasured : n = 0 -> forall k, In k ks -> is_unmeasured k = false.
Proof.
  intros Hn k Hk. apply Bool.not_true_is_false. intros U. unfold n in Hn. rewrite (d_count _ _ _ _ _ D) in Hn. fold ks in Hn. unfold count_unmeasured in Hn. destruct (filter is_unmeasured ks) eqn:E; [|discriminate]. assert (I : In k (filter is_unmeasured ks)) by (apply filter_In; auto). rewrite E in I. destruct I.
Qed.
Lemma reported_finite k : In k ks -> finite (part_of i (reported_of st s b k) p).
Proof.
  intros Hk. pose proof (known_all phases topo inp WF st b D k Hk) as F. destruct (Nat.eq_dec n 0) as [Hn|Hn].
  - destruct (over_value k Hn F (fun H => total_variance_pos k Hk H) (none_unmeasured Hn k Hk)) as [q [E _]]. now exists q.
  - destruct (not_over k ltac:(lia) F) as [q [E _]]. now exists q.
Qed.
Lemma reported_sum : (exists k, In k ks /\ k <> disconnected) -> qsum (map (fun k => number (part_of i (reported_of st s b k) p)) ks) = number (part_of i s p).
Proof.
  intros [k0 [Hk0 N0]]. pose proof (known_all phases topo inp WF st b D) as F. fold ks in F. destruct (Nat.eq_dec n 0) as [Hn|Hn].
  - assert (M0 : (0 <= k0)%Z). { destruct (F k0 Hk0) as [->|[E|[H _]]]; [congruence| |assumption]. pose proof (none_unmeasured Hn k0 Hk0) as U. rewrite E in U. discriminate. }
    pose proof (total_variance_pos k0 Hk0 M0) as Hv.
    rewrite (qsum_ext _ (fun k => add_value (extra st) i p k + (- mu) * add_variance (extra st) i p k)%Qc).
    + rewrite qsum_add, qsum_scale. fold app var. unfold mu. field. now apply Qc_pos_ne.
    + intros k Hk. destruct (over_value k Hn (F k Hk) (fun _ => Hv) (none_unmeasured Hn k Hk)) as [q [-> ->]]. cbn [number]. ring.
  - rewrite (qsum_ext _ (fun k => add_value (extra st) i p k + (if is_unmeasured k then share else 0))%Qc).
    + rewrite qsum_add, qsum_count. fold app. fold (count_unmeasured ks). unfold share. unfold n in *. rewrite (d_count _ _ _ _ _ D) in *. fold ks in Hn |- *. field. apply count_ne. lia.
    + intros k Hk. destruct (not_over k ltac:(lia) (F k Hk)) as [q [-> ->]]. reflexivity.
Qed.
End Bus.

Variable st : measured.
Hypothesis Est : construct phases cabs topo inp = Some st.
Variable s : nat -> power.
Let flows := load_gen_source topo st s.
Let st0 := process_buses phases cabs topo inp.
Lemma flows_at b : b < n_bus topo ->
  (forall o, In o (load_gens_at topo b) -> nth o (fst flows) no_power = reported_of st0 (s b) b (nth o (idx_load_gen st0) 0%Z)) /\ (forall o, In o (sources_at topo b) -> nth o (snd flows) no_power = reported_of st0 (s b) b (nth o (idx_source st0) 0%Z)).
Proof. intros Hb. unfold flows. rewrite (powers_alike st0 st s) by apply (construct_alike phases cabs topo inp st Est). now apply (load_gen_source_ok phases topo inp WF). Qed.
Let done b (Hb : b < n_bus topo) : bus_done st0 b := proj2 (buses_done phases cabs topo inp WF) b Hb.
Lemma lg_in b o : In o (load_gens_at topo b) -> In (nth o (idx_load_gen st0) 0%Z) (idx_at topo st0 b).
Proof. intros Ho. apply in_or_app. left. unfold lg_idx. exact (in_map (fun o => nth o (idx_load_gen st0) 0%Z) _ _ Ho). Qed.
Lemma src_in b o : In o (sources_at topo b) -> In (nth o (idx_source st0) 0%Z) (idx_at topo st0 b).
Proof. intros Ho. apply in_or_app. right. unfold src_idx. exact (in_map (fun o => nth o (idx_source st0) 0%Z) _ _ Ho). Qed.
Lemma on_index on ds ex k : known on ds ex k -> on = true -> k <> disconnected.
Proof. intros [[E _]|[[_ [_ ->]]|[_ [_ [H _]]]]] T; [congruence|discriminate|]. unfold disconnected. lia. Qed.
Lemma balance b i p : b < n_bus topo -> connected topo inp b -> p < phases -> finite (part_of i (s b) p) ->
  (forall o, In o (load_gens_at topo b) -> finite (part_of i (nth o (fst flows) no_power) p)) /\ (forall o, In o (sources_at topo b) -> finite (part_of i (nth o (snd flows) no_power) p)) /\ reported topo flows b i p = number (part_of i (s b) p).
Proof.
  intros Hb C Hp Fs. destruct (flows_at b Hb) as [R1 R2]. refine (conj _ (conj _ _)).
  - intros o Ho. rewrite R1 by assumption. apply reported_finite; auto using lg_in.
  - intros o Ho. rewrite R2 by assumption. apply reported_finite; auto using src_in.
  - rewrite <- (reported_sum st0 b (done b Hb) (s b) i p Hp Fs).
    + unfold reported, sum_over, idx_at, lg_idx, src_idx. rewrite map_app, qsum_app, !map_map. f_equal; apply qsum_ext; intros o Ho; [rewrite R1 by assumption|rewrite R2 by assumption]; reflexivity.
    + destruct C as [[o [Ho T]]|[o [Ho T]]].
      * exists (nth o (idx_load_gen st0) 0%Z). split; [now apply lg_in|]. exact (on_index _ _ _ _ (d_lg _ _ _ _ _ (done b Hb) o Ho) T).
      * exists (nth o (idx_source st0) 0%Z). split; [now apply src_in|]. exact (on_index _ _ _ _ (d_src _ _ _ _ _ (done b Hb) o Ho) T).
Qed.
(** the number of unmeasured appliances is zero exactly when all are measured *)
Lemma measured_count b : b < n_bus topo -> nth b (n_unmeasured st0) 0 = 0 <-> all_measured phases topo inp b.
Proof.
  intros Hb. pose proof (done b Hb) as D. split.
  - intros N. pose proof (none_unmeasured st0 b D N) as U. split; intros o Ho T; split; try assumption.
    + destruct (d_lg _ _ _ _ _ D o Ho) as [[E _]|[[_ [_ E]]|[_ [V _]]]]; [congruence| |assumption]. specialize (U _ (lg_in b o Ho)). rewrite E in U. discriminate.
    + destruct (d_src _ _ _ _ _ D o Ho) as [[E _]|[[_ [_ E]]|[_ [V _]]]]; [congruence| |assumption]. specialize (U _ (src_in b o Ho)). rewrite E in U. discriminate.
  - intros [A1 A2]. rewrite (d_count _ _ _ _ _ D). unfold count_unmeasured. destruct (filter is_unmeasured (idx_at topo st0 b)) as [|k l] eqn:E; [reflexivity|]. exfalso. assert (I : In k (filter is_unmeasured (idx_at topo st0 b))) by (rewrite E; now left). apply filter_In in I. destruct I as [I U].
    apply in_app_or in I. destruct I as [I|I]; apply in_map_iff in I; destruct I as [o [<- Ho]].
    + destruct (d_lg _ _ _ _ _ D o Ho) as [[_ Q]|[[T [V _]]|[_ [_ [Q _]]]]]; [rewrite Q in U; discriminate|apply V; now apply (A1 o Ho T)|unfold is_unmeasured, unmeasured in U; lia].
    + destruct (d_src _ _ _ _ _ D o Ho) as [[_ Q]|[[T [V _]]|[_ [_ [Q _]]]]]; [rewrite Q in U; discriminate|apply V; now apply (A2 o Ho T)|unfold is_unmeasured, unmeasured in U; lia].
Qed.
Lemma off_zero b k ds ex : known false ds ex k -> reported_of st0 (s b) b k = no_power.
Proof. intros [[_ ->]|[[E _]|[E _]]]; try discriminate. unfold reported_of. destruct (0 <? _); reflexivity. Qed.
Lemma disconnected_zero b : b < n_bus topo -> (forall o, In o (load_gens_at topo b) -> load_gen_status inp o = false -> nth o (fst flows) no_power = no_power) /\ (forall o, In o (sources_at topo b) -> source_status inp o = false -> nth o (snd flows) no_power = no_power).
Proof.
  intros Hb. destruct (flows_at b Hb) as [R1 R2]. pose proof (done b Hb) as D. split; intros o Ho T.
  - rewrite R1 by assumption. pose proof (d_lg _ _ _ _ _ D o Ho) as K. rewrite T in K. eapply off_zero; eassumption.
  - rewrite R2 by assumption. pose proof (d_src _ _ _ _ _ D o Ho) as K. rewrite T in K. eapply off_zero; eassumption.
Qed.
Lemma kept b k ds : 0 < nth b (n_unmeasured st0) 0 -> known true ds (extra st0) k -> usable_dec phases ds -> reported_of st0 (s b) b k = value_of (combine_decomposed phases ds).
Proof.
  intros N [[E _]|[[_ [V _]]|[_ [_ [H E]]]]] U; [discriminate|contradiction|]. unfold reported_of. replace (0 <? nth b (n_unmeasured st0) 0) with true by lia. unfold non_over_of. replace (0 <=? k)%Z with true by lia. unfold entry. now rewrite (nth_error_nth _ _ _ E).
Qed.
Lemma shared b k ds : 0 < nth b (n_unmeasured st0) 0 -> known true ds (extra st0) k -> ~ usable_dec phases ds -> reported_of st0 (s b) b k = residual (nth b (n_unmeasured st0) 0) (nth b (appliance_injection st0) zero_dec) (s b).
Proof.
  intros N [[E _]|[[_ [V ->]]|[_ [V _]]]] U; [discriminate| |contradiction]. unfold reported_of. replace (0 <? nth b (n_unmeasured st0) 0) with true by lia. reflexivity.
Qed.
Lemma measured_kept b : b < n_bus topo -> ~ all_measured phases topo inp b ->
  (forall o, In o (load_gens_at topo b) -> load_gen_measured phases topo inp o -> nth o (fst flows) no_power = value_of (combine_decomposed phases (load_gen_measurements topo inp o))) /\
  (forall o, In o (sources_at topo b) -> source_measured phases topo inp o -> nth o (snd flows) no_power = value_of (combine_decomposed phases (source_measurements topo inp o))) /\
  exists share, (forall o, In o (load_gens_at topo b) -> load_gen_status inp o = true -> ~ load_gen_measured phases topo inp o -> nth o (fst flows) no_power = share) /\
                (forall o, In o (sources_at topo b) -> source_status inp o = true -> ~ source_measured phases topo inp o -> nth o (snd flows) no_power = share).
Proof.
  intros Hb NA. destruct (flows_at b Hb) as [R1 R2]. pose proof (done b Hb) as D. assert (N : 0 < nth b (n_unmeasured st0) 0) by (destruct (nth b (n_unmeasured st0) 0) eqn:E; [exfalso; apply NA; now apply measured_count|lia]).
  refine (conj _ (conj _ _)).
  - intros o Ho [T U]. rewrite R1 by assumption. pose proof (d_lg _ _ _ _ _ D o Ho) as K. rewrite T in K. now apply kept.
  - intros o Ho [T U]. rewrite R2 by assumption. pose proof (d_src _ _ _ _ _ D o Ho) as K. rewrite T in K. now apply kept.
  - exists (residual (nth b (n_unmeasured st0) 0) (nth b (appliance_injection st0) zero_dec) (s b)). split; intros o Ho T NM.
    + rewrite R1 by assumption. pose proof (d_lg _ _ _ _ _ D o Ho) as K. rewrite T in K. eapply shared; [assumption|exact K|]. intros U. apply NM. now split.
    + rewrite R2 by assumption. pose proof (d_src _ _ _ _ _ D o Ho) as K. rewrite T in K. eapply shared; [assumption|exact K|]. intros U. apply NM. now split.
Qed.
End Sums.
