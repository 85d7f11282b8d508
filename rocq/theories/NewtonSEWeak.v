(** C57: the terms of the rows are those of the measurements, with the derivatives of what they measure. *)
From Coq Require Import Reals Lra Field.
From Verif Require Import Common Numbers NumbersPair LinearSE NewtonReals NewtonSE NewtonSESpec NewtonSEFacts NewtonSERows.
Local Open Scope R_scope.

Local Notation cxo := (pair_num real_num). Local Notation conj := (cconj real_num). Local Notation ctimes := (cmul real_num). Local Notation cplus := (cadd real_num). Local Notation cminus := (csub real_num).
Local Notation sum f l := (nsum real_num (map f l)).

Ltac open_cx := unfold cadd, cmul, csub, copp, cconj; unfold re, im; cbn [fst snd re im cadd cmul csub copp cconj n_add n_mul n_sub n_opp n_zero n_one n_div real_num].
Section Weak.
Variables (n n_branch : nat) (branch_bus : nat -> bool -> option nat) (shunts : nat -> list nat).
Variables (branch_param : nat -> bool -> bool -> nat -> nat -> R * R) (shunt_param : nat -> nat -> nat -> R * R) (ybus : nat -> nat -> nat -> nat -> R * R) (slack_bus : nat).
Variables (voltage : nat -> option (voltage_sensor (R := R))) (branch_power : nat -> bool -> option (flow (R := R))) (branch_current : nat -> bool -> option (angle_type * flow (R := R))).
Variables (shunt_power bus_injection : nat -> option (flow (R := R))) (reference : nat -> R).
Local Notation flow_at := (NewtonSESpec.flow_at 1 branch_bus branch_param). Local Notation injected := (NewtonSESpec.injected 1 n ybus).
Local Notation at_side := (NewtonSESpec.at_side branch_bus). Local Notation through := (NewtonSESpec.through 1).
Local Notation quantity_at := (NewtonSESpec.quantity_at 1 n branch_bus branch_param shunt_param ybus).
Variable xs : nat -> unknown (R := R).
Local Notation x := (here xs). Local Notation D := (NewtonSEFacts.D 1 n branch_bus branch_param shunt_param ybus (here xs)).
Local Notation u := (phasors real_num cos sin xs).
Local Notation flow_jac k side kind b c := (flow_jacobian real_num 1 kind (branch_param k side side) (branch_param k side (negb side)) (u b) (u c) (v (xs b)) (v (xs c))).

(** ** The derivatives in the code *)
Lemma sum_row_1 t : sum_row real_num 1 t 0%nat = cplus (t 0%nat 0%nat) (0, 0). Proof. reflexivity. Qed.
Lemma through_1 y z : through y z 0%nat = cplus (ctimes (y 0%nat 0%nat) (z 0%nat)) (0, 0). Proof. reflexivity. Qed.
Definition of_kind (kind : flow_kind) : nat -> bool -> part -> nat -> quantity :=
  match kind with power_flow => branch_power_of | local_flow => local_current_of | global_flow => global_current_of end.
Definition both (f : part -> nat -> quantity) (F : quantity -> R) : R * R := (F (f active 0%nat), F (f reactive 0%nat)).
Lemma trig a : cos a * cos a = 1 - sin a * sin a. Proof. pose proof (sin2_cos2 a) as H. unfold Rsqr in H. lra. Qed.
Lemma flow_value k side kind i j : branch_bus k side = Some i -> branch_bus k (negb side) = Some j -> v (xs i) 0%nat <> 0 -> v (xs j) 0%nat <> 0 ->
  snd (flow_jac k side kind i j) 0%nat = both (of_kind kind k side) (fun q => quantity_at q x).
Proof.
  intros Ei Ej Vi Vj. unfold both. destruct kind; cbn [flow_jacobian snd of_kind]; unfold NewtonSESpec.quantity_at, NewtonSESpec.flow_at, NewtonSESpec.at_side; rewrite Ei, ?Ej, ?sum_row_1, ?through_1;
    unfold NewtonSE.cplus, columns, hm_complex_form, outer, tconj, rscale, vinv, phasors, phasor, phasor_of, direction_of, here, take, re, im; open_cx; cbn [mag ang];
    apply f_equal2; try ring; field; auto.
Qed.
Lemma flow_derivative k side kind i j z : branch_bus k side = Some i -> branch_bus k (negb side) = Some j -> v (xs i) 0%nat <> 0 -> v (xs j) 0%nat <> 0 ->
  cplus (jac_at (fst (fst (flow_jac k side kind i j))) z i) (jac_at (snd (fst (flow_jac k side kind i j))) z j) = both (of_kind kind k side) (fun q => D q z).
Proof.
  intros Ei Ej Vi Vj. unfold both. destruct kind; cbn [flow_jacobian fst snd of_kind]; unfold NewtonSEFacts.D, NewtonSESpec.flow_at, NewtonSESpec.at_side, dproduct; rewrite Ei, ?Ej, ?through_1;
    unfold jac_at, jac_plus, calculate_jacobian, jacobian_diagonal_component; cbn [dp_dt dp_dv dq_dt dq_dv];
    unfold tplus, diag, vneg, vre, vim, weigh_value, cneg; cbn [Nat.eqb]; rewrite ?sum_row_1;
    unfold NewtonSE.cplus, columns, hm_complex_form, outer, tconj, rscale, vinv, phasors, phasor, phasor_of, direction_of, dphasor, ddirection, here, take, re, im; open_cx; cbn [mag ang];
    apply f_equal2; try ring; field; auto.
Qed.
Local Notation shunt_jac := (NewtonSERows.shunt_jac shunt_param xs).
Lemma shunt_value b k : snd (shunt_jac b k) = both (shunt_power_of b k) (fun q => quantity_at q x).
Proof.
  unfold both, shunt_jac. cbn [snd]. unfold NewtonSESpec.quantity_at. rewrite sum_row_1, !through_1.
  unfold cneg, hm_complex_form, outer, tconj, phasors, phasor, phasor_of, here, take; open_cx; cbn [mag ang]. apply f_equal2; ring.
Qed.
Lemma shunt_derivative b k z : v (xs b) 0%nat <> 0 -> jac_at (fst (shunt_jac b k)) z b = both (shunt_power_of b k) (fun q => D q z).
Proof.
  intros Vb. unfold both, shunt_jac. cbn [fst]. unfold NewtonSEFacts.D, dproduct. rewrite !through_1.
  unfold jac_at, jac_plus, calculate_jacobian, jacobian_diagonal_component; cbn [dp_dt dp_dv dq_dt dq_dv]. unfold tplus, diag, vneg, vre, vim, cneg; cbn [Nat.eqb]; rewrite ?sum_row_1.
  unfold columns, hm_complex_form, outer, tconj, rscale, vinv, phasors, phasor, phasor_of, dphasor, here, take; open_cx; cbn [mag ang]. apply f_equal2; field; exact Vb.
Qed.

(** ** A measurement in the equations *)
Variables (d e : volts).
Definition term (s : quantity * (R * R)) : R := D (fst s) e * (D (fst s) d - (fst (snd s) - quantity_at (fst s) x)) / snd (snd s).
Local Notation of_flow := (NewtonSESpec.of_flow 1).
Lemma sum_of_flow f m : pairing (both f (fun q => D q e)) m (cminus (both f (fun q => D q d)) (cminus (f_value m 0%nat) (both f (fun q => quantity_at q x)))) = sum term (of_flow f m).
Proof.
  unfold NewtonSESpec.of_flow. cbn [seq flat_map app]. rewrite !sum_cons, sum_nil. unfold pairing, term, both. cbn [fst snd]. open_cx. ring.
Qed.
Lemma shunt_is b k m : v (xs b) 0%nat <> 0 -> shunt_power k = Some m -> shunt_term shunt_param shunt_power xs d e b k = sum term (of_flow (shunt_power_of b k) m).
Proof. intros Vb E. unfold shunt_term. rewrite E, !shunt_derivative, shunt_value by exact Vb. apply sum_of_flow. Qed.
Lemma flow_is k side kind m i j : branch_bus k false = Some i -> branch_bus k true = Some j -> v (xs i) 0%nat <> 0 -> v (xs j) 0%nat <> 0 ->
  flow_term branch_param xs d e i j k false (side, kind, m) + flow_term branch_param xs d e j i k true (side, kind, m) = sum term (of_flow (of_kind kind k side) m).
Proof.
  intros Ei Ej Vi Vj. rewrite <- sum_of_flow. unfold flow_term. destruct side; cbn [Bool.eqb].
  - rewrite <- (flow_value k true kind j i Ej Ei Vj Vi), <- (flow_derivative k true kind j i d Ej Ei Vj Vi), <- (flow_derivative k true kind j i e Ej Ei Vj Vi).
    destruct (flow_jac k true kind j i) as [[j_own j_other] f]. cbn [fst snd]. rewrite pairing_left. unfold pairing. open_cx. unfold Rdiv. ring.
  - rewrite <- (flow_value k false kind i j Ei Ej Vi Vj), <- (flow_derivative k false kind i j d Ei Ej Vi Vj), <- (flow_derivative k false kind i j e Ei Ej Vi Vj).
    destruct (flow_jac k false kind i j) as [[j_own j_other] f]. cbn [fst snd]. rewrite pairing_left. unfold pairing. open_cx. unfold Rdiv. ring.
Qed.

(** ** The equations of all rows, tested with [e] *)
Hypothesis v_nonzero : forall b, (b < n)%nat -> v (xs b) 0%nat <> 0.
Hypothesis BR : branches_ok n branch_bus.
Hypothesis SIDES : both_sides branch_bus branch_power branch_current.
Definition measured_voltages : list (quantity * (R * R)) :=
  flat_map (fun b => match voltage b with
    | Some m => flat_map (fun p => (magnitude b p, (if s_full m then real_abs (s_volt m p) else fst (s_volt m p), s_var m)) ::
        (if s_full m then [(angle b p, (real_arg (s_volt m p), s_var m))] else [])) (seq 0 1)
    | None => [] end) (seq 0 n).
Definition measured_flows (k : nat) : list (quantity * (R * R)) :=
  flat_map (fun side => match branch_power k side with Some m => of_flow (branch_power_of k side) m | None => [] end ++
      match branch_current k side with
      | Some (local_angle, m) => of_flow (local_current_of k side) m
      | Some (global_angle, m) => of_flow (global_current_of k side) m
      | None => []
      end) [false; true].
Definition measured_shunts : list (quantity * (R * R)) := flat_map (fun b => flat_map (fun k => match shunt_power k with Some m => of_flow (shunt_power_of b k) m | None => [] end) (shunts b)) (seq 0 n).
Definition measured_injections : list (quantity * (R * R)) := flat_map (fun b => match bus_injection b with Some m => of_flow (injection_of b) m | None => [] end) (seq 0 n).
Lemma measured_is : measured 1 n n_branch shunts voltage branch_power branch_current shunt_power bus_injection =
  measured_voltages ++ flat_map measured_flows (seq 0 n_branch) ++ measured_shunts ++ measured_injections.
Proof. reflexivity. Qed.
Local Notation branch_flows := (NewtonSE.branch_flows branch_power branch_current).
Lemma unmeasured k : branch_bus k false = None \/ branch_bus k true = None -> forall side, branch_power k side = None /\ branch_current k side = None.
Proof.
  intros H side. pose proof (SIDES k side) as G. destruct (branch_power k side) as [m|], (branch_current k side) as [m'|]; try (split; reflexivity);
    destruct G as [G1 G2]; (try (left; discriminate)); (try (right; discriminate)); destruct H as [H|H]; contradiction.
Qed.
Lemma flows_are k : pick2 branch_bus (fun i j => sum (fun s => flow_term branch_param xs d e i j k false s + flow_term branch_param xs d e j i k true s) (branch_flows k)) k false true = sum term (measured_flows k).
Proof.
  unfold pick2. destruct (branch_bus k false) as [i|] eqn:Ei; [destruct (branch_bus k true) as [j|] eqn:Ej|].
  - pose proof (v_nonzero i (ok_bus _ _ BR _ _ _ Ei)) as Vi. pose proof (v_nonzero j (ok_bus _ _ BR _ _ _ Ej)) as Vj.
    rewrite (sum_ext _ (fun s => sum term (of_flow (of_kind (snd (fst s)) k (fst (fst s))) (snd s)))).
    2:{ intros [[side kind] m] _. apply flow_is; assumption. }
    unfold NewtonSE.branch_flows, measured_flows. cbn [flat_map]. rewrite !app_nil_r, !sum_app.
    destruct (branch_power k false) as [m1|], (branch_power k true) as [m2|], (branch_current k false) as [[[|] m3]|], (branch_current k true) as [[[|] m4]|];
      rewrite ?sum_cons, ?sum_nil; cbn [fst snd of_kind]; ring.
  - unfold measured_flows. cbn [flat_map]. destruct (unmeasured k (or_intror _ Ej) false) as [-> ->], (unmeasured k (or_intror _ Ej) true) as [-> ->]. reflexivity.
  - unfold measured_flows. cbn [flat_map]. destruct (unmeasured k (or_introl _ Ei) false) as [-> ->], (unmeasured k (or_introl _ Ei) true) as [-> ->]. reflexivity.
Qed.
(** the angle that is measured, or taken as measured when no angle is *)
Definition virtual_term (b : nat) : R :=
  match voltage b with
  | Some m => if s_full m then 0 else match NewtonSE.angle_measurement real_arg n slack_bus voltage reference b m with Some a => ang e b 0%nat * (ang d b 0%nat - (a 0%nat - theta (xs b) 0%nat)) / s_var m | None => 0 end
  | None => 0
  end.
Lemma voltages_are : sum (voltage_term n slack_bus voltage reference xs d e) (seq 0 n) = sum term measured_voltages + sum virtual_term (seq 0 n).
Proof.
  unfold measured_voltages. rewrite sum_flat, <- sum_plus. apply sum_ext. intros b _. unfold voltage_term, virtual_term. destruct (voltage b) as [m|]; [|rewrite sum_nil; ring].
  cbn [seq flat_map]. rewrite app_nil_r. rewrite sum_cons. unfold term at 1. unfold NewtonSE.angle_measurement, cabs_or_real. destruct (s_full m).
  - rewrite sum_cons, sum_nil. unfold term. cbn [fst snd NewtonSEFacts.D NewtonSESpec.quantity_at mag ang here]. unfold Rdiv. ring.
  - rewrite sum_nil. cbn [fst snd NewtonSEFacts.D NewtonSESpec.quantity_at mag ang here]. unfold re. destruct ((b =? _)%nat && _); unfold Rdiv; ring.
Qed.
Local Notation build_row := (NewtonSE.build_row real_num real_abs real_arg 1 n n_branch branch_bus shunts branch_param shunt_param ybus slack_bus voltage branch_power branch_current shunt_power bus_injection reference xs u).
Theorem rows_are : sum (fun b => row_form n d e b (build_row b)) (seq 0 n) =
  sum term measured_voltages + sum virtual_term (seq 0 n) + sum term (flat_map measured_flows (seq 0 n_branch)) + sum term measured_shunts.
Proof.
  rewrite (sum_ext _ _ _ (fun b Hb => form_row n n_branch branch_bus shunts branch_param shunt_param ybus slack_bus voltage branch_power branch_current shunt_power bus_injection reference xs v_nonzero d e b
    (proj2 (proj1 (in_seq n 0 b) Hb)))).
  rewrite sum_plus, voltages_are.
  rewrite (all_elements n n_branch branch_bus shunts branch_param shunt_param ybus voltage branch_power branch_current shunt_power bus_injection reference xs v_nonzero d e (ok_bus _ _ BR)).
  rewrite (sum_ext _ _ (seq 0 n_branch) (fun k _ => flows_are k)), <- sum_flat.
  assert (E : sum (fun b => sum (shunt_term shunt_param shunt_power xs d e b) (shunts b)) (seq 0 n) = sum term measured_shunts).
  { unfold measured_shunts. rewrite sum_flat. apply sum_ext. intros b Hb. rewrite sum_flat. apply sum_ext. intros k _. apply in_seq in Hb. destruct (shunt_power k) as [m|] eqn:E.
    - apply shunt_is; [apply v_nonzero; lia|exact E].
    - unfold shunt_term. rewrite E. reflexivity. }
  rewrite E. ring.
Qed.
End Weak.
