(** C57: concrete cases of the Newton-Raphson state estimation: two buses and a branch with admittance 1. The voltage of the first bus is measured as 1, the power into the branch as 1, and the injection
    at the second bus as 0. *)
From Coq Require Import Reals Lra.
From Verif Require Import Common Numbers NumbersPair LinearSE NewtonReals NewtonSE NewtonSESpec NewtonSEFacts NewtonSERows NewtonSEWeak NewtonSEInject NewtonSEStep NewtonSEFixed NewtonSEExists NewtonSEProps NewtonExamples.
Local Open Scope R_scope.

Section TwoBuses.
Definition two_branch (k : nat) (side : bool) : option nat := if (k =? 0)%nat then Some (if side then 1%nat else 0%nat) else None.
Definition two_param (k : nat) (s b : bool) (p q : nat) : R * R := if Bool.eqb s b then (1, 0) else (- (1), 0).
Definition two_y (i j p q : nat) : R * R := if (i =? j)%nat then (1, 0) else (- (1), 0).
Definition two_voltage (b : nat) : option (voltage_sensor (R := R)) := if (b =? 0)%nat then Some (mkSensor true (fun _ => (1, 0)) 1) else None.
Definition two_power (k : nat) (side : bool) : option (flow (R := R)) := if (k =? 0)%nat then if side then None else Some (mkFlow (fun _ => (1, 0)) (fun _ => 1) (fun _ => 1)) else None.
Definition two_current (k : nat) (side : bool) : option (angle_type * flow (R := R)) := None.
Definition two_injection (p_var : R) (b : nat) : option (flow (R := R)) := if (b =? 1)%nat then Some (mkFlow (fun _ => (0, 0)) (fun _ => p_var) (fun _ => 0)) else None.
Definition no_shunts (b : nat) : list nat := [].
Definition no_shunt_param (k p q : nat) : R * R := (0, 0).
Definition no_power (k : nat) : option (flow (R := R)) := None.
Definition zeros (b : nat) : R := 0.
Definition two_start := start_x real_num real_abs real_arg zeros two_voltage zeros.
Lemma start_value b p : theta (two_start b) p = 0 /\ v (two_start b) p = 1.
Proof.
  unfold two_start, start_x, two_voltage, cabs_or_real. destruct (b =? 0)%nat; cbn [theta v s_full s_volt].
  - rewrite arg_real, abs_real by lra. split; reflexivity.
  - split; [unfold zeros; cbn; ring|reflexivity].
Qed.
Local Notation D := (NewtonSEFacts.D 1 2 two_branch two_param no_shunt_param two_y (volts_of two_start)).
Local Notation quantity_at := (NewtonSESpec.quantity_at 1 2 two_branch two_param no_shunt_param two_y).
Lemma start_ang b p : ang (volts_of two_start) b p = 0. Proof. apply start_value. Qed.
Lemma start_mag b p : mag (volts_of two_start) b p = 1. Proof. apply start_value. Qed.
Lemma start_phasor b p : phasor_of (volts_of two_start) b p = (1, 0).
Proof. unfold phasor_of. rewrite start_ang, start_mag, cos_0, sin_0. apply f_equal2; ring. Qed.
Lemma start_dphasor e b p : dphasor (volts_of two_start) e b p = (mag e b p, ang e b p).
Proof. unfold dphasor. rewrite start_ang, start_mag, cos_0, sin_0. apply f_equal2; ring. Qed.
Lemma power_slope c e : D (branch_power_of 0 false c 0) e = match c with active => mag e 0%nat 0%nat - mag e 1%nat 0%nat | reactive => ang e 1%nat 0%nat - ang e 0%nat 0%nat end.
Proof.
  cbn [NewtonSEFacts.D]. unfold dproduct, NewtonSESpec.at_side, NewtonSESpec.flow_at, NewtonSESpec.through, two_branch, two_param. cbn [Nat.eqb negb Bool.eqb seq map nsum fold_right]. rewrite !start_phasor, !start_dphasor.
  destruct c; cbn; ring.
Qed.
Lemma injection_slope c e : D (injection_of 1 c 0) e = match c with active => mag e 1%nat 0%nat - mag e 0%nat 0%nat | reactive => ang e 0%nat 0%nat - ang e 1%nat 0%nat end.
Proof.
  cbn [NewtonSEFacts.D]. unfold dproduct, NewtonSESpec.injected, NewtonSESpec.through, two_y. cbn [Nat.eqb seq map nsum fold_right]. rewrite !start_phasor, !start_dphasor. destruct c; cbn; ring.
Qed.
Lemma power_start c : quantity_at (branch_power_of 0 false c 0) (volts_of two_start) = 0.
Proof.
  cbn [NewtonSESpec.quantity_at]. unfold NewtonSESpec.at_side, NewtonSESpec.flow_at, NewtonSESpec.through, two_branch, two_param. cbn [Nat.eqb negb Bool.eqb seq map nsum fold_right]. rewrite !start_phasor.
  destruct c; cbn; ring.
Qed.
Lemma injection_start c : quantity_at (injection_of 1 c 0) (volts_of two_start) = 0.
Proof.
  cbn [NewtonSESpec.quantity_at]. unfold NewtonSESpec.injected, NewtonSESpec.through, two_y. cbn [Nat.eqb seq map nsum fold_right]. rewrite !start_phasor. destruct c; cbn; ring.
Qed.
Lemma two_measurements p_var : 0 <= p_var -> measurements_ok 2 two_voltage two_power two_current no_power (two_injection p_var).
Proof.
  intros P. split.
  - intros b m E. unfold two_voltage in E. destruct (b =? 0)%nat; inversion E. cbn. lra.
  - intros k side m p E. unfold two_power in E. destruct (k =? 0)%nat, side; inversion E. cbn. lra.
  - discriminate.
  - discriminate.
  - intros b m p E. unfold two_injection in E. destruct (b =? 1)%nat; inversion E. cbn. lra.
  - discriminate.
Qed.
Lemma two_branches : branches_ok 2 two_branch.
Proof. split; intros k; unfold two_branch; destruct (k =? 0)%nat; try discriminate; [intros [|] b E; inversion E; lia|intros b E E'; inversion E; inversion E'; lia]. Qed.
Lemma two_sides : both_sides two_branch two_power two_current.
Proof. intros k side [E|E]; [|destruct E; reflexivity]. unfold two_power in E. unfold two_branch. destruct (k =? 0)%nat; [split; discriminate|destruct E; reflexivity]. Qed.
Local Notation reached p_var := (NewtonSE.reached real_num real_abs real_arg cos sin real_zero 1 2 1 two_branch no_shunts two_param no_shunt_param two_y 0 zeros two_voltage two_power two_current no_power (two_injection p_var) zeros zeros).
Local Notation solution p_var := (NewtonSE.solution real_num real_abs real_arg 1 2 1 two_branch no_shunts two_param no_shunt_param two_y 0 two_voltage two_power two_current no_power (two_injection p_var) zeros).
Local Notation iterate p_var := (NewtonSE.iterate real_num real_zero 1 2 0 two_voltage (two_injection p_var)).
Lemma two_reached p_var : reached p_var two_start. Proof. apply reached_start. Qed.
Lemma two_magnitudes b : (b < 2)%nat -> v (two_start b) 0%nat <> 0. Proof. intros _. rewrite (proj2 (start_value b 0%nat)). lra. Qed.
Lemma two_measured p_var : NewtonSESpec.measured 1 2 1 no_shunts two_voltage two_power two_current no_power (two_injection p_var) =
  [(magnitude 0 0, (real_abs (1, 0), 1)); (angle 0 0, (real_arg (1, 0), 1)); (branch_power_of 0 false active 0, (1, 1)); (branch_power_of 0 false reactive 0, (0, 1));
   (injection_of 1 active 0, (0, p_var)); (injection_of 1 reactive 0, (0, 0))].
Proof. reflexivity. Qed.

(** The injection of active power has the variance 1: the step takes half of it from the measured power. *)
Definition half_down : volts := mkVolts (fun _ _ => 0) (fun b _ => if (b =? 1)%nat then - (1 / 2) else 0).
Lemma half_is_step : gauss_newton_step 1 2 1 two_branch no_shunts two_param no_shunt_param two_y two_voltage two_power two_current no_power (two_injection 1) (volts_of two_start) half_down.
Proof.
  exists (NewtonSEFacts.D 1 2 two_branch two_param no_shunt_param two_y (volts_of two_start)). split; [intros s e _; apply slope_D|].
  assert (X : forall e, NewtonSESpec.exact_met 1 2 1 two_branch no_shunts two_param no_shunt_param two_y two_voltage two_power two_current no_power (two_injection 1) D (volts_of two_start) e ->
    ang e 0%nat 0%nat = ang e 1%nat 0%nat).
  { intros e H. pose proof (H (injection_of 1 reactive 0, (0, 0)) ltac:(rewrite two_measured; cbn; auto 10) eq_refl) as E. unfold NewtonSESpec.left_over in E. cbn [fst snd] in E. rewrite injection_slope, injection_start in E. lra. }
  assert (C : forall e, NewtonSESpec.linear_cost 1 2 1 two_branch no_shunts two_param no_shunt_param two_y two_voltage two_power two_current no_power (two_injection 1) D (volts_of two_start) e =
    mag e 0%nat 0%nat * mag e 0%nat 0%nat + ang e 0%nat 0%nat * ang e 0%nat 0%nat + (1 - (mag e 0%nat 0%nat - mag e 1%nat 0%nat)) * (1 - (mag e 0%nat 0%nat - mag e 1%nat 0%nat)) +
    (ang e 1%nat 0%nat - ang e 0%nat 0%nat) * (ang e 1%nat 0%nat - ang e 0%nat 0%nat) + (mag e 1%nat 0%nat - mag e 0%nat 0%nat) * (mag e 1%nat 0%nat - mag e 0%nat 0%nat) +
    (ang e 0%nat 0%nat - ang e 1%nat 0%nat) * (ang e 0%nat 0%nat - ang e 1%nat 0%nat) / 0).
  { intros e. unfold NewtonSESpec.linear_cost. rewrite two_measured. cbn [map]. unfold nsum. cbn [fold_right]. unfold NewtonSESpec.left_over. cbn [fst snd].
    rewrite !power_slope, !injection_slope, !power_start, !injection_start. cbn [NewtonSEFacts.D NewtonSESpec.quantity_at]. rewrite start_ang, start_mag, arg_real, abs_real by lra. cbn [n_add n_zero real_num]. unfold Rdiv. rewrite !Rinv_1. ring. }
  split.
  - intros s I Z. rewrite two_measured in I. destruct I as [<-|[<-|[<-|[<-|[<-|[<-|[]]]]]]]; cbn [fst snd] in Z; try (exfalso; lra).
    unfold NewtonSESpec.left_over. cbn [fst snd]. rewrite injection_slope, injection_start. cbn. ring.
  - intros e H. pose proof (X e H) as E. rewrite !C, E. cbn [ang mag half_down Nat.eqb]. replace (ang e 1%nat 0%nat - ang e 1%nat 0%nat) with 0 by ring. unfold Rdiv. rewrite !Rmult_0_l.
    pose proof (Rle_0_sqr (mag e 0%nat 0%nat)) as A1. pose proof (Rle_0_sqr (ang e 1%nat 0%nat)) as A2. pose proof (Rle_0_sqr (1 - 2 * (mag e 0%nat 0%nat - mag e 1%nat 0%nat))) as A3. unfold Rsqr in *. nra.
Qed.
Example C57_half_step : exists dx, solution 1 two_start (phasors real_num cos sin two_start) dx /\ v (iterate 1 two_start dx 1%nat) 0%nat = 1 / 2 /\ v (iterate 1 two_start dx 0%nat) 0%nat = 1.
Proof.
  destruct (C57_step_found_partial 2 1 two_branch no_shunts two_param no_shunt_param two_y 0 zeros two_voltage two_power two_current no_power (two_injection 1) zeros zeros two_start half_down
    (two_measurements 1 Rle_0_1) two_branches two_sides (two_reached 1) two_magnitudes) as (dx & S & E).
  - intros H. specialize (H 0%nat _ ltac:(lia) eq_refl). discriminate.
  - exact half_is_step.
  - exists dx. split; [exact S|]. destruct (E 1%nat 0%nat) as [_ E1]. destruct (E 0%nat 0%nat) as [_ E0]. unfold change_of in E1, E0. cbn [mag half_down Nat.eqb] in E1, E0.
    rewrite (proj2 (start_value 1%nat 0%nat)) in E1. rewrite (proj2 (start_value 0%nat 0%nat)) in E0. split; lra.
Qed.
(** ... and this solution meets the hypotheses of [C57_gauss_newton_partial]. *)
Example C57_half_step_is_gauss_newton : exists dx, change_of two_start (iterate 1 two_start dx) <> still /\
  gauss_newton_step 1 2 1 two_branch no_shunts two_param no_shunt_param two_y two_voltage two_power two_current no_power (two_injection 1) (volts_of two_start) (change_of two_start (iterate 1 two_start dx)).
Proof.
  destruct C57_half_step as (dx & S & E & _). exists dx. split.
  - intros F. pose proof (f_equal (fun z => mag z 1%nat 0%nat) F) as G. unfold change_of in G. cbn [mag still] in G. rewrite E, (proj2 (start_value 1%nat 0%nat)) in G. lra.
  - exact (C57_gauss_newton_partial 2 1 two_branch no_shunts two_param no_shunt_param two_y 0 zeros two_voltage two_power two_current no_power (two_injection 1) zeros zeros two_start dx
      (two_measurements 1 Rle_0_1) two_branches two_sides (two_reached 1) two_magnitudes S).
Qed.

(** The injection has no variance: the measured power cannot be met, and the start is stationary. *)
Lemma two_stationary : stationary 1 2 1 two_branch no_shunts two_param no_shunt_param two_y two_voltage two_power two_current no_power (two_injection 0) (volts_of two_start).
Proof.
  split.
  - intros s I Z. rewrite two_measured in I. destruct I as [<-|[<-|[<-|[<-|[<-|[<-|[]]]]]]]; cbn [fst snd] in *; try (exfalso; lra); apply injection_start.
  - intros e K. eapply deriv_is; [apply deriv_cost; exact two_branches|]. rewrite two_measured.
    pose proof (K (injection_of 1 active 0, (0, 0)) ltac:(rewrite two_measured; cbn; auto 10) eq_refl) as K1. pose proof (K (injection_of 1 reactive 0, (0, 0)) ltac:(rewrite two_measured; cbn; auto 10) eq_refl) as K2.
    cbn [fst] in K1, K2. pose proof (uniqueness_limite _ _ _ _ K1 (slope_D 1 2 two_branch two_param no_shunt_param two_y _ _ e)) as U1. pose proof (uniqueness_limite _ _ _ _ K2 (slope_D 1 2 two_branch two_param no_shunt_param two_y _ _ e)) as U2.
    rewrite injection_slope in U1, U2. cbn [map]. unfold nsum. cbn [fold_right fst snd]. rewrite !power_slope, !injection_slope, !power_start, !injection_start. cbn [NewtonSEFacts.D NewtonSESpec.quantity_at].
    rewrite start_ang, start_mag, arg_real, abs_real by lra. cbn [n_add n_zero real_num]. rewrite <- U1, <- U2. replace (mag e 0%nat 0%nat) with (mag e 1%nat 0%nat) by lra. unfold Rdiv. rewrite !Rinv_1. ring.
Qed.
Example C57_start_is_fixed : exists dx, solution 0 two_start (phasors real_num cos sin two_start) dx /\ forall b p, theta (iterate 0 two_start dx b) p = theta (two_start b) p /\ v (iterate 0 two_start dx b) p = v (two_start b) p.
Proof.
  apply (C57_stationary_found_partial 2 1 two_branch no_shunts two_param no_shunt_param two_y 0 zeros two_voltage two_power two_current no_power (two_injection 0) zeros zeros two_start
    (two_measurements 0 (Rle_refl 0)) two_branches two_sides (two_reached 0) two_magnitudes); [intros _; apply start_value|exact two_stationary].
Qed.
End TwoBuses.
