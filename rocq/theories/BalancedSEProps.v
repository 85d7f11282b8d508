(** C66: for a grid of symmetric components with balanced measurements the asymmetric (iterative linear) state estimation finds what the symmetric one finds. *)
From Coq Require Import Field.
From Verif Require Import Common NatMap GroupedIdx Numbers ShortCircuit ShortCircuitFacts PowerFlow PowerFlowSpec PowerFlowFacts Balanced BalancedSpec BalancedFacts BalancedGrid BalancedProps YBus YBusSpec
  LinearSE LinearSESpec LinearSEFacts LinearSEProps BalancedSE BalancedSEFacts BalancedSEGrid.
From Verif Require TwoPort TwoPortSpec TwoPortFacts.

Section Props.
Context {C : Type} (o : TwoPort.cx_ops C).
Hypothesis L : TwoPortSpec.cx_laws o.
Hypothesis R : TwoPortSpec.rot_laws o.
Local Notation cj := (TwoPort.c_conj o). Local Notation cabs := (TwoPort.c_abs o). Local Notation a := (a120 o). Local Notation N := (num_of o).
(** a number above zero, decided; real numbers that are at least zero; the real part *)
Variables (positive : C -> bool) (nonneg : C -> Prop) (real : C -> C).
Hypothesis Q : se_laws N cj cabs positive nonneg.
Hypothesis positive_abs : forall x, x <> n_zero N -> positive (cabs x) = true.
Hypothesis abs_rot : forall x, cabs (n_mul N x a) = cabs x.
Let B : balanced_laws N cj cabs a := grid_laws o L R (se_abs _ _ _ _ _ Q) abs_rot.
Local Notation zero := (n_zero N).
Local Notation rot := (rotated N a).

(** the grid, as in C61 *)
Variables (t : math_topo) (branches : list (@branch C)) (shunts : list (C * C)).
Context {S' S'' : Type} (p1 : @model_param C S') (p3 : @model_param (nat -> nat -> C) S'').
Hypothesis params : grid_params o branches shunts p1 p3.
Local Notation n := (mt_n_bus t).
Variables (n_branch : nat) (branch_bus : nat -> bool -> option nat) (shunts_at : nat -> list nat).
Hypothesis ends : branches_ok n branch_bus.

(** the measurements in the symmetric and in the asymmetric calculation: balanced *)
Variables (voltage1 voltage3 : nat -> option (voltage_measurement (C := C))) (power1 power3 : nat -> bool -> option (rand (C := C))).
Variables (current1 current3 : nat -> bool -> option (angle_type * rand (C := C))) (shunt_power1 shunt_power3 injection1 injection3 : nat -> option (rand (C := C))).
Hypothesis voltages : forall b, same_voltage N real a (voltage1 b) (voltage3 b).
Hypothesis powers : forall k s, same_power (power1 k s) (power3 k s).
Hypothesis currents : forall k s, same_current N a (current1 k s) (current3 k s).
Hypothesis shunt_powers : forall k, same_power (shunt_power1 k) (shunt_power3 k).
Hypothesis injections : forall b, same_power (injection1 b) (injection3 b).
Hypothesis usable3 : measurements_ok N nonneg voltage3 power3 current3 shunt_power3 injection3.
(** sensors at sides that are not connected are not used (C52); no voltage is measured as zero *)
Hypothesis sensors_connected : forall k s, power1 k s <> None \/ current1 k s <> None -> exists j, branch_bus k s = Some j /\ j < n.
Hypothesis voltage_not_zero : forall b m, voltage1 b = Some m -> (if full m then volt m 0 else real (volt m 0)) <> zero.
Variables (has_angle : bool) (slack_bus : nat).
Hypothesis slack_there : slack_bus < n.

Local Notation matches := (balanced_for N a n).
Local Notation iteration1 := (LinearSE.iteration N cj cabs positive real 1 n n_branch branch_bus shunts_at (branches1 o p1) (shunts1 o p1) (matrix1 o t p1) voltage1 power1 current1 shunt_power1 injection1 has_angle slack_bus).
Local Notation iteration3 := (LinearSE.iteration N cj cabs positive real 3 n n_branch branch_bus shunts_at (branches3 o p3) (shunts3 o p3) (matrix3 o t p3) voltage3 power3 current3 shunt_power3 injection3 has_angle slack_bus).
Local Notation solution1 := (LinearSE.solution N cj cabs positive real 1 n n_branch branch_bus shunts_at (branches1 o p1) (shunts1 o p1) (matrix1 o t p1) voltage1 power1 current1 shunt_power1 injection1).
Local Notation solution3 := (LinearSE.solution N cj cabs positive real 3 n n_branch branch_bus shunts_at (branches3 o p3) (shunts3 o p3) (matrix3 o t p3) voltage3 power3 current3 shunt_power3 injection3).
Local Notation residuals3 := (LinearSESpec.residuals N cj real (LinearSE.phase_shift N cabs positive) 3 n n_branch branch_bus shunts_at (branches3 o p3) (shunts3 o p3) (matrix3 o t p3) voltage3 power3 current3 shunt_power3 injection3).
(** the quantities measured in the asymmetric calculation determine the voltages *)
Definition observable : Prop := forall u x y, (forall f r, In (f, r) (residuals3 u) -> f x = f y) -> forall b p, b < n -> p < 3 -> x b p = y b p.
Definition not_zero (u : nat -> nat -> C) : Prop := forall b, b < n -> u b 0 <> zero.

Lemma positive_shift x y : positive (cabs x) = true -> positive (cabs y) = true -> positive (cabs (n_mul N x (LinearSE.phase_shift N cabs positive y))) = true.
Proof.
  intros Hx Hy. apply positive_abs. pose proof (phase_shift_nz N cj cabs a positive B (se_positive _ _ _ _ _ Q) y Hy) as H.
  destruct (positive_abs_nz N cj cabs a positive B (se_positive _ _ _ _ _ Q) x Hx) as [H' _]. exact (TwoPortFacts.mul_nz o L x _ H' H).
Qed.
Lemma voltage_usable b m : voltage1 b = Some m -> volt_var m <> zero /\ if full m then positive (cabs (volt m 0)) = true else positive (cabs (real (volt m 0))) = true.
Proof.
  intros E. split.
  - specialize (voltages b). rewrite E in voltages. destruct (voltage3 b) as [m3|] eqn:E3; [|easy]. destruct voltages as (_ & <- & _). exact (proj2 (ok_voltage _ _ _ _ _ _ _ usable3 b m3 E3)).
  - pose proof (voltage_not_zero b m E) as H. destruct (full m); now apply positive_abs.
Qed.
Lemma solutions_match u v x y phi psi : matches u v -> not_zero u -> matches x y -> matches phi psi -> (solution1 u x phi <-> solution3 v y psi).
Proof.
  intros Hv Hu. apply (solution_balanced N cj cabs a positive real B (se_positive _ _ _ _ _ Q) n n_branch branch_bus shunts_at (branches1 o p1) (branches3 o p3) (shunts1 o p1) (shunts3 o p3)
    (matrix1 o t p1) (matrix3 o t p3)
    (branch_param_like o L R (se_abs _ _ _ _ _ Q) abs_rot branches shunts p1 p3 params) (shunt_param_like o L R (se_abs _ _ _ _ _ Q) abs_rot branches shunts p1 p3 params)
    (fun i j => ybus_like o L R (se_abs _ _ _ _ _ Q) abs_rot branches shunts p1 p3 params t i j) voltage1 voltage3 power1 power3 current1 current3 shunt_power1 shunt_power3 injection1 injection3
    voltages powers currents shunt_powers injections sensors_connected voltage_usable u v Hv); [|exact positive_shift].
  intros b Hb. apply positive_abs. now apply Hu.
Qed.
Lemma iterate_matches x y : matches x y -> matches (iterate N cabs has_angle slack_bus x) (iterate N cabs has_angle slack_bus y).
Proof.
  intros H b p Hb Hp. unfold iterate. rewrite (H b p Hb Hp).
  assert (E : angle_offset N cabs has_angle slack_bus y = angle_offset N cabs has_angle slack_bus x).
  { unfold angle_offset. destruct has_angle; [reflexivity|]. rewrite (H slack_bus 0) by lia. reflexivity. }
  rewrite E. symmetry. apply (rot_mul' N cj cabs a B).
Qed.

(** ** One iteration *)
Theorem C66_iteration : forall u v u', matches u v -> not_zero u -> iteration1 u u' ->
  (exists v', iteration3 v v' /\ matches u' v') /\
  (observable -> forall v', iteration3 v v' -> matches u' v').
Proof.
  intros u v u' Hv Hu (x & phi & Hx & ->).
  assert (Mx : matches x (balanced N a x)) by (intros b p Hb Hp; reflexivity). assert (Mp : matches phi (balanced N a phi)) by (intros b p Hb Hp; reflexivity).
  pose proof (proj1 (solutions_match u v x _ phi _ Hv Hu Mx Mp) Hx) as Hy. split.
  - exists (iterate N cabs has_angle slack_bus (balanced N a x)). split; [|now apply iterate_matches]. exists (balanced N a x), (balanced N a phi). split; [exact Hy|reflexivity].
  - intros O v' (y & psi & Hy' & ->). apply iterate_matches. intros b p Hb Hp. change (y b p = balanced N a x b p). apply (O v y (balanced N a x)); [|exact Hb|exact Hp].
    exact (C56_unique N cj cabs positive nonneg Q real 3 n n_branch branch_bus shunts_at (branches3 o p3) (shunts3 o p3) (matrix3 o t p3) voltage3 power3 current3 shunt_power3 injection3 ends usable3 v y psi _ _ Hy' Hy).
Qed.

(** ** The whole estimation, from the start *)
Variables (mean1 mean3 : nat -> C) (forth : nat -> C).
Local Notation estimates1 := (estimates iteration1 (se_start N mean1 forth)).
Local Notation estimates3 := (estimates iteration3 (se_start N mean3 forth)).
Definition balanced_start : Prop := forall p, p < 3 -> mean3 p = rot p (mean1 0).
Lemma starts_match : balanced_start -> matches (se_start N mean1 forth) (se_start N mean3 forth).
Proof. intros H b p Hb Hp. unfold se_start. rewrite H by exact Hp. symmetry. apply (rot_mul' N cj cabs a B). Qed.
Theorem C66_estimation : balanced_start -> forall k u, estimates1 k u -> (forall j w, j < k -> estimates1 j w -> not_zero w) ->
  (exists v, estimates3 k v /\ matches u v) /\
  (observable -> forall v, estimates3 k v -> matches u v).
Proof.
  intros S0 k u Hu Hn. split.
  - induction Hu as [|k u u' Hu IH Hi].
    + exists (se_start N mean3 forth). split; [constructor|now apply starts_match].
    + destruct IH as (v & Hv & Hm); [intros j w Hj; apply Hn; lia|].
      destruct (proj1 (C66_iteration u v u' Hm (Hn k u ltac:(lia) Hu) Hi)) as (v' & Hi' & Hm'). exists v'. split; [|exact Hm']. now apply (es_next _ _ k v).
  - intros O v Hv. revert u Hu Hn. induction Hv as [|k v v' Hv IH Hi]; intros u Hu Hn.
    + inversion Hu; subst. now apply starts_match.
    + inversion Hu as [|k0 u0 u1 Hu0 Hi0]; subst.
      apply (proj2 (C66_iteration u0 v u (IH u0 Hu0 (fun j w Hj => Hn j w ltac:(lia))) (Hn k u0 ltac:(lia) Hu0) Hi0) O). exact Hi.
Qed.

(** ** The results: the currents are balanced, the power is the same in every phase *)
Local Notation flow1 := (flow N 1 branch_bus (branches1 o p1)). Local Notation flow3 := (flow N 3 branch_bus (branches3 o p3)).
Local Notation injected1 := (injected N 1 n (matrix1 o t p1)). Local Notation injected3 := (injected N 3 n (matrix3 o t p3)).
Theorem C66_results : forall u v, matches u v ->
  (forall k s p, p < 3 -> flow3 v k s p = rot p (flow1 u k s 0) /\
     forall j, branch_bus k s = Some j -> n_mul N (v j p) (cj (flow3 v k s p)) = n_mul N (u j 0) (cj (flow1 u k s 0))) /\
  (forall b p, b < n -> p < 3 -> injected3 v b p = rot p (injected1 u b 0) /\ n_mul N (v b p) (cj (injected3 v b p)) = n_mul N (u b 0) (cj (injected1 u b 0))).
Proof.
  intros u v H.
  assert (T : forall m y j p, acts_balanced N a m (y 0 0) -> j < n -> p < 3 -> through N 3 m (v j) p = rot p (through N 1 y (u j) 0)).
  { intros m y j p Ha Hj Hp. unfold through. rewrite (nsum_ext N _ (fun q => n_mul N (m p q) (rot q (u j 0)))) by (intros q Hq; apply in_seq in Hq; rewrite H by lia; reflexivity).
    rewrite Ha by exact Hp. f_equal. symmetry. exact (dot1 N cj cabs a B y (u j)). }
  split.
  - intros k s p Hp. assert (E : flow3 v k s p = rot p (flow1 u k s 0)).
    { unfold flow. rewrite (rot_add N cj cabs a B). f_equal; (destruct (branch_bus k _) as [j|] eqn:E; [|symmetry; apply (rot_zero N cj cabs a B)]);
        (apply T; [apply (branch_param_like o L R (se_abs _ _ _ _ _ Q) abs_rot branches shunts p1 p3 params)|exact (ok_bus _ _ ends k _ j E)|exact Hp]). }
    split; [exact E|]. intros j Ej. rewrite E, (H j p (ok_bus _ _ ends k s j Ej) Hp). apply (rot_power N cj cabs a B).
  - intros b p Hb Hp. assert (E : injected3 v b p = rot p (injected1 u b 0)).
    { unfold injected. rewrite <- (rot_sum N cj cabs a B). apply nsum_ext. intros j Hj. apply in_seq in Hj.
      apply T; [apply (ybus_like o L R (se_abs _ _ _ _ _ Q) abs_rot branches shunts p1 p3 params)|lia|exact Hp]. }
    split; [exact E|]. rewrite E, (H b p Hb Hp). apply (rot_power N cj cabs a B).
Qed.
End Props.
(** Without a measured angle the start is balanced. *)
Theorem C66_start : forall {C} (o : TwoPort.cx_ops C) (L : TwoPortSpec.cx_laws o), balanced_start o (no_angle_mean (num_of o) (a120 o) 1) (no_angle_mean (num_of o) (a120 o) 3).
Proof.
  intros C o L p Hp. pose proof (TwoPortSpec.cl_field o L) as F. assert (E : forall x, TwoPort.c_mul o x (TwoPort.c_1 o) = x) by (intros x; rewrite (Rmul_comm (F_R F)); apply (Rmul_1_l (F_R F))).
  destruct p as [|[|[|p]]]; [| | |lia]; cbn; rewrite ?E; try reflexivity; apply (Rmul_1_l (F_R F)).
Qed.

(** ** Example: the grid of C61's example, two buses at 2 and 1, both voltages measured with angle, the power into the line at its from side, and nothing connected at the second bus *)
Section Example.
Context {C : Type} (o : TwoPort.cx_ops C).
Hypothesis L : TwoPortSpec.cx_laws o.
Hypothesis R : TwoPortSpec.rot_laws o.
Local Notation cj := (TwoPort.c_conj o). Local Notation cabs := (TwoPort.c_abs o). Local Notation a := (a120 o). Local Notation N := (num_of o).
Variables (positive : C -> bool) (nonneg : C -> Prop) (real : C -> C).
Hypothesis Q : se_laws N cj cabs positive nonneg.
Hypothesis abs_rot : forall x, cabs (n_mul N x a) = cabs x.
Let B : balanced_laws N cj cabs a := grid_laws o L R (se_abs _ _ _ _ _ Q) abs_rot.
Let P : pf_laws N cj cabs a := ba_pf N cj cabs a B.
Add Field FieldExampleSE : (nl_field N (pf_num N cj cabs a P)).
Local Notation zero := (n_zero N). Local Notation one := (n_one N). Local Notation two := (n_add N one one).
Local Notation rot := (rotated N a).
Definition se_ends (k : nat) (side : bool) : option nat := if k =? 0 then Some (if side then 1 else 0) else None.
Definition se_shunts (b : nat) : list nat := if b =? 1 then [0] else [].
Definition se_u (b p : nat) : C := match b with 0 => two | _ => one end.
Definition se_voltage1 (b : nat) : option (voltage_measurement (C := C)) := if b <? 2 then Some (mkVolt true (se_u b) one) else None.
Definition se_voltage3 (b : nat) : option (voltage_measurement (C := C)) := if b <? 2 then Some (mkVolt true (fun p => rot p (se_u b 0)) one) else None.
Definition se_power (k : nat) (side : bool) : option (rand (C := C)) := if (k =? 0) && negb side then Some (mkRand (fun _ => two) (fun _ => one)) else None.
Definition se_no_current (k : nat) (side : bool) : option (angle_type * rand (C := C)) := None.
Definition se_no_shunt (k : nat) : option (rand (C := C)) := None.
Definition se_injection (b : nat) : option (rand (C := C)) := if b =? 1 then Some (mkRand (fun _ => zero) (fun _ => zero)) else None.
Local Notation iteration1 := (LinearSE.iteration N cj cabs positive real 1 2 1 se_ends se_shunts (branches1 o (ex_p1 o)) (shunts1 o (ex_p1 o)) (matrix1 o ex_topo (ex_p1 o)) se_voltage1 se_power se_no_current se_no_shunt se_injection true 0).
Lemma se_ends_ok : branches_ok 2 se_ends.
Proof. constructor; unfold se_ends; intros k; destruct (k =? 0); try discriminate; [intros [] b E; injection E as <-; lia|intros b E1 E2; congruence]. Qed.
Lemma se_usable voltage : (forall b m, voltage b = Some m -> volt_var m = one) -> measurements_ok N nonneg voltage se_power se_no_current se_no_shunt se_injection.
Proof.
  intros Hv. assert (U : usable N nonneg one) by (split; [apply (ls_nonneg_one N cj cabs positive nonneg Q)|exact (F_1_neq_0 (nl_field N (pf_num N cj cabs a P)))]).
  constructor; try discriminate.
  - intros b m E. rewrite (Hv b m E). exact U.
  - intros k s m p E. unfold se_power in E. destruct ((k =? 0) && negb s); [|discriminate]. injection E as <-. exact U.
  - intros b m p E. unfold se_injection in E. destruct (b =? 1); [|discriminate]. injection E as <-. apply (nonneg_zero N cj cabs positive nonneg Q).
Qed.
Lemma se_consistent f r : In (f, r) (LinearSESpec.residuals N cj real (LinearSE.phase_shift N cabs positive) 1 2 1 se_ends se_shunts (branches1 o (ex_p1 o)) (shunts1 o (ex_p1 o)) (matrix1 o ex_topo (ex_p1 o))
  se_voltage1 se_power se_no_current se_no_shunt se_injection se_u) -> f se_u = zero.
Proof.
  assert (E : ex_q1 o = mkBranchParam one (n_opp N one) (n_opp N one) one) by exact (f_equal param1 (ex_line_values o L R (se_abs _ _ _ _ _ Q) abs_rot)).
  assert (K1 : cj one = one) by apply (conj_one N cj cabs a P). assert (K0 : cj zero = zero) by apply (conj_zero N cj cabs a P).
  assert (T : two <> zero) by exact (TwoPortSpec.cl_two o L). assert (O : one <> zero) by exact (F_1_neq_0 (nl_field N (pf_num N cj cabs a P))).
  assert (B1 : branches1 o (ex_p1 o) 0 false false 0 0 = one) by (unfold branches1; cbn [ex_p1 p_branch nth_error]; rewrite E; reflexivity).
  assert (B2 : branches1 o (ex_p1 o) 0 false true 0 0 = n_opp N one) by (unfold branches1; cbn [ex_p1 p_branch nth_error]; rewrite E; reflexivity).
  pose proof (ex_matrix1 o L R (se_abs _ _ _ _ _ Q) abs_rot 1 0 ltac:(lia) ltac:(lia)) as M0. pose proof (ex_matrix1 o L R (se_abs _ _ _ _ _ Q) abs_rot 1 1 ltac:(lia) ltac:(lia)) as M1.
  revert B1 B2 M0 M1. generalize (branches1 o (ex_p1 o)) as br, (matrix1 o ex_topo (ex_p1 o)) as ma. intros br ma B1 B2 M0 M1. cbn [ex_y] in M0, M1.
  unfold LinearSESpec.residuals. rewrite !in_app_iff. intros [H|[H|[H|H]]].
  - cbn in H. destruct H as [H|[H|[]]]; injection H as <- <-; match goal with |- ?f = _ => first [change f with (n_sub N two two)|change f with (n_sub N one one)] end; ring.
  - cbn in H. destruct H as [H|[]]. injection H as <- <-.
    change (n_sub N (n_add N (n_add N (n_mul N (br 0 false false 0 0) two) zero) (n_add N (n_mul N (br 0 false true 0 0) one) zero)) (cj (n_div N two two)) = zero).
    replace (n_div N two two) with one by (field; exact T). rewrite B1, B2, K1. ring.
  - cbn in H. contradiction.
  - cbn in H. destruct H as [H|[]]. injection H as <- <-.
    change (n_sub N (n_add N (n_add N (n_mul N (ma 1 0 0 0) two) zero) (n_add N (n_add N (n_mul N (ma 1 1 0 0) one) zero) zero)) (cj (n_div N zero one)) = zero).
    replace (n_div N zero one) with zero by (field; exact O). rewrite M0, M1, K0. ring.
Qed.
Theorem C66_example :
  grid_params o [ex_line o] [(one, one)] (ex_p1 o) (ex_p3 o) /\
  (forall b, same_voltage N real a (se_voltage1 b) (se_voltage3 b)) /\ (forall k s, same_power (se_power k s) (se_power k s)) /\ (forall b, same_power (se_injection b) (se_injection b)) /\
  measurements_ok N nonneg se_voltage3 se_power se_no_current se_no_shunt se_injection /\
  observable o positive real ex_topo (ex_p3 o) 1 se_ends se_shunts se_voltage3 se_power se_no_current se_no_shunt se_injection /\
  exists u', iteration1 se_u u' /\ forall b p, u' b p = se_u b p.
Proof.
  split; [apply ex_params|]. split.
  { intros b. unfold same_voltage, se_voltage1, se_voltage3. destruct (b <? 2); [|exact I]. cbn. repeat split. }
  split. { intros k s. unfold same_power, se_power. destruct ((k =? 0) && negb s); [|exact I]. intros p Hp. split; reflexivity. }
  split. { intros b. unfold same_power, se_injection. destruct (b =? 1); [|exact I]. intros p Hp. split; reflexivity. }
  split. { apply se_usable. intros b m. unfold se_voltage3. destruct (b <? 2); [|discriminate]. intros E. injection E as <-. reflexivity. }
  split.
  { intros u x y H b p Hb Hp. change (mt_n_bus ex_topo) with 2 in Hb.
    set (f := fun z : nat -> nat -> C => n_sub N (z b p) (seen N real (LinearSE.phase_shift N cabs positive) se_voltage3 u b p)).
    assert (E : f x = f y).
    { apply (H f one). unfold LinearSESpec.residuals. apply in_app_iff. left. apply in_flat_map. exists b. split; [apply in_seq; cbn; lia|].
      unfold se_voltage3 at 1. assert (Lb : (b <? 2) = true) by (apply Nat.ltb_lt; exact Hb). rewrite Lb. apply in_map_iff. exists p. split; [reflexivity|apply in_seq; lia]. }
    unfold f in E. revert E. generalize (seen N real (LinearSE.phase_shift N cabs positive) se_voltage3 u b p). intros w E.
    transitivity (n_add N (n_sub N (x b p) w) w); [ring|]. rewrite E. ring. }
  apply (C56_exact N cj cabs positive nonneg Q real 1 2 1 se_ends se_shunts (branches1 o (ex_p1 o)) (shunts1 o (ex_p1 o)) (matrix1 o ex_topo (ex_p1 o)) se_voltage1 se_power se_no_current se_no_shunt se_injection true 0 se_ends_ok); [|exact I].
  apply se_consistent.
Qed.
End Example.
Print Assumptions C66_iteration.
Print Assumptions C66_estimation.
Print Assumptions C66_results.
Print Assumptions C66_start.
Print Assumptions C66_example.
