(** C57: what is false of the Newton-Raphson state estimation. [C57_open_branch_refuted]: the power of a branch that is connected at one side only is measured and has no part in the step.
    [C57_asymmetric_refuted]: with several phases the step is not that of weighted least squares. [C57_local_current_refuted]: with several phases that differ in magnitude, voltages that meet all
    measurements are left. *)
From Coq Require Import Reals Lra.
From Verif Require Import Common Numbers NumbersPair LinearSE NewtonReals NewtonSE NewtonSESpec NewtonSEFacts NewtonSERows NewtonSEProps NewtonExamples.
Local Open Scope R_scope.

(** The cost of the step is at most that of another change *)
Lemma step_cost np n n_branch branch_bus shunts branch_param shunt_param ybus voltage branch_power branch_current shunt_power bus_injection x d e :
  let D := NewtonSEFacts.D np n branch_bus branch_param shunt_param ybus x in
  let cost := NewtonSESpec.linear_cost np n n_branch branch_bus shunts branch_param shunt_param ybus voltage branch_power branch_current shunt_power bus_injection D x in
  (forall s, In s (NewtonSESpec.measured np n n_branch shunts voltage branch_power branch_current shunt_power bus_injection) -> snd (snd s) <> 0) ->
  gauss_newton_step np n n_branch branch_bus shunts branch_param shunt_param ybus voltage branch_power branch_current shunt_power bus_injection x d -> cost d <= cost e.
Proof.
  intros D cost Z (D' & SL & _ & M).
  assert (E : forall f, NewtonSESpec.linear_cost np n n_branch branch_bus shunts branch_param shunt_param ybus voltage branch_power branch_current shunt_power bus_injection D' x f = cost f).
  { intros f. apply sum_ext. intros s I. unfold NewtonSESpec.left_over. rewrite (uniqueness_limite _ _ _ _ (SL s f I) (slope_D np n branch_bus branch_param shunt_param ybus (fst s) x f)). reflexivity. }
  rewrite <- !E. apply M. intros s I V. destruct (Z s I V).
Qed.

Definition none {A B} (_ : A) : option B := None.
Definition none2 {A B C} (_ : A) (_ : B) : option C := None.
Definition no_y (i j p q : nat) : R * R := (0, 0).
Definition zero_at (b : nat) : R := 0.
Definition no_change (b : nat) : unknown (R := R) := mkX (fun _ => 0) (fun _ => 0) (fun _ => 0) (fun _ => 0).

Section OneBus.
Definition ones (b : nat) : option (voltage_sensor (R := R)) := if (b =? 0)%nat then Some (mkSensor true (fun _ => (1, 0)) 1) else None.
Definition one_start := start_x real_num real_abs real_arg zero_at ones zero_at.
Lemma one_value b p : theta (one_start b) p = 0 /\ v (one_start b) p = 1.
Proof.
  unfold one_start, start_x, ones, cabs_or_real. destruct (b =? 0)%nat; cbn [theta v s_full s_volt].
  - rewrite arg_real, abs_real by lra. split; reflexivity.
  - split; [unfold zero_at; cbn; ring|reflexivity].
Qed.
Lemma one_phi b : phi_p (one_start b) = (fun _ => 0) /\ phi_q (one_start b) = (fun _ => 0). Proof. unfold one_start, start_x. destruct (ones b); split; reflexivity. Qed.
Lemma one_ang b p : ang (volts_of one_start) b p = 0. Proof. apply one_value. Qed.
Lemma one_mag b p : mag (volts_of one_start) b p = 1. Proof. apply one_value. Qed.
Lemma one_phasor_of b p : phasor_of (volts_of one_start) b p = (1, 0).
Proof. unfold phasor_of. rewrite one_ang, one_mag, cos_0, sin_0. apply f_equal2; ring. Qed.
Lemma one_dphasor e b p : dphasor (volts_of one_start) e b p = (mag e b p, ang e b p).
Proof. unfold dphasor. rewrite one_ang, one_mag, cos_0, sin_0. apply f_equal2; ring. Qed.

(** ** A branch that is connected at the from side only, with admittance 1 and measured power 2 *)
Definition open_bus (k : nat) (side : bool) : option nat := if (k =? 0)%nat && negb side then Some 0%nat else None.
Definition open_param (k : nat) (s b : bool) (p q : nat) : R * R := if negb s && negb b then (1, 0) else (0, 0).
Definition open_power (k : nat) (side : bool) : option (flow (R := R)) := if (k =? 0)%nat && negb side then Some (mkFlow (fun _ => (2, 0)) (fun _ => 1) (fun _ => 1)) else None.
Theorem C57_open_branch_refuted : exists n n_branch branch_bus shunts branch_param shunt_param ybus slack_bus phase_shift voltage branch_power branch_current shunt_power bus_injection mean_angle_shift reference xs dx,
  measurements_ok n voltage branch_power branch_current shunt_power bus_injection /\ branches_ok n branch_bus /\
  NewtonSE.reached real_num real_abs real_arg cos sin real_zero 1 n n_branch branch_bus shunts branch_param shunt_param ybus slack_bus phase_shift voltage branch_power branch_current shunt_power
    bus_injection mean_angle_shift reference xs /\
  (forall b, (b < n)%nat -> v (xs b) 0%nat <> 0) /\
  NewtonSE.solution real_num real_abs real_arg 1 n n_branch branch_bus shunts branch_param shunt_param ybus slack_bus voltage branch_power branch_current shunt_power bus_injection reference
    xs (phasors real_num cos sin xs) dx /\
  ~ gauss_newton_step 1 n n_branch branch_bus shunts branch_param shunt_param ybus voltage branch_power branch_current shunt_power bus_injection (volts_of xs)
      (change_of xs (NewtonSE.iterate real_num real_zero 1 n slack_bus voltage bus_injection xs dx)).
Proof.
  exists 1%nat, 1%nat, open_bus, (fun _ => []), open_param, (fun _ _ _ => (0, 0)), no_y, 0%nat, zero_at, ones, open_power, none2, none, none, zero_at, zero_at, one_start, no_change.
  split; [|split; [|split; [|split; [|split]]]].
  - split; try discriminate.
    + intros b m E. unfold ones in E. destruct (b =? 0)%nat; inversion E. cbn. lra.
    + intros k side m p E. unfold open_power in E. destruct ((k =? 0)%nat && negb side); inversion E. cbn. lra.
  - split; intros k; unfold open_bus.
    + intros side b E. destruct ((k =? 0)%nat && negb side); inversion E. lia.
    + intros b _ E. rewrite andb_false_r in E. discriminate.
  - apply reached_start.
  - intros b _. rewrite (proj2 (one_value b 0%nat)). lra.
  - intros b p Hb Hp. destruct b; [|lia]. destruct p; [|lia].
    cbv -[Rplus Rmult Rminus Ropp Rdiv Rinv IZR real_abs real_arg cos sin]. rewrite arg_real, abs_real by lra. repeat split; field.
  - intros H. apply step_cost with (e := mkVolts (fun _ _ => 0) (fun _ _ => 2 / 5)) in H.
    + cbv -[Rplus Rmult Rminus Ropp Rdiv Rinv IZR Rle real_abs real_arg cos sin] in H. rewrite arg_real, abs_real in H by lra. rewrite cos_0, sin_0 in H. lra.
    + intros s I. cbn in I. destruct I as [<-|[<-|[<-|[<-|[]]]]]; cbn; lra.
Qed.

(** ** Three phases: a shunt with admittance 2 and 1 between the phases. The variances of the power differ between the phases, so that the weights have to be applied before the transposed derivatives. *)
Definition tri_y (k p q : nat) : R * R := if (p =? q)%nat then (2, 0) else (1, 0).
Definition tri_value (p : nat) : R * R := match p with 0%nat => (- (157 / 20), 0) | 1%nat => (- (21 / 4), 0) | _ => (- (5), 0) end.
Definition tri_power (k : nat) : option (flow (R := R)) := if (k =? 0)%nat then Some (mkFlow tri_value (fun p => if (p =? 2)%nat then 2 else 1) (fun _ => 1)) else None.
Definition tri_shunts (b : nat) : list nat := if (b =? 0)%nat then [0%nat] else [].
Definition tri_dx (b : nat) : unknown (R := R) := mkX (fun _ => 0) (fun p => match p with 0%nat => 3 / 5 | 1%nat => 1 / 10 | _ => 1 / 20 end) (fun _ => 0) (fun _ => 0).
Theorem C57_asymmetric_refuted : exists n n_branch branch_bus shunts branch_param shunt_param ybus slack_bus phase_shift voltage branch_power branch_current shunt_power bus_injection mean_angle_shift reference xs dx,
  measurements_ok n voltage branch_power branch_current shunt_power bus_injection /\ branches_ok n branch_bus /\ both_sides branch_bus branch_power branch_current /\
  NewtonSE.reached real_num real_abs real_arg cos sin real_zero 3 n n_branch branch_bus shunts branch_param shunt_param ybus slack_bus phase_shift voltage branch_power branch_current shunt_power
    bus_injection mean_angle_shift reference xs /\
  (forall b p, (b < n)%nat -> v (xs b) p <> 0) /\
  NewtonSE.solution real_num real_abs real_arg 3 n n_branch branch_bus shunts branch_param shunt_param ybus slack_bus voltage branch_power branch_current shunt_power bus_injection reference
    xs (phasors real_num cos sin xs) dx /\
  ~ gauss_newton_step 3 n n_branch branch_bus shunts branch_param shunt_param ybus voltage branch_power branch_current shunt_power bus_injection (volts_of xs)
      (change_of xs (NewtonSE.iterate real_num real_zero 3 n slack_bus voltage bus_injection xs dx)).
Proof.
  exists 1%nat, 0%nat, none2, tri_shunts, (fun _ _ _ _ _ => (0, 0)), tri_y, no_y, 0%nat, zero_at, ones, none2, none2, tri_power, none, zero_at, zero_at, one_start, tri_dx.
  split; [|split; [|split; [|split; [|split; [|split]]]]].
  - split; try discriminate.
    + intros b m E. unfold ones in E. destruct (b =? 0)%nat; inversion E. cbn. lra.
    + intros k m p E. unfold tri_power in E. destruct (k =? 0)%nat; inversion E. cbn [f_p_var f_q_var]. destruct (p =? 2)%nat; lra.
  - split; discriminate.
  - intros k side [H|H]; destruct H; reflexivity.
  - apply reached_start.
  - intros b p _. rewrite (proj2 (one_value b p)). lra.
  - intros b p Hb Hp. destruct b; [|lia]. destruct p as [|[|[|p]]]; [| | |lia];
      cbv -[Rplus Rmult Rminus Ropp Rdiv Rinv IZR real_abs real_arg cos sin]; rewrite arg_real, abs_real by lra; rewrite cos_0, sin_0; repeat split; field.
  - intros H. apply step_cost with (e := mkVolts (fun _ _ => 0) (fun _ p => match p with 0%nat => 3 / 5 | 1%nat => 1 / 10 | _ => 51 / 1000 end)) in H.
    + cbv -[Rplus Rmult Rminus Ropp Rdiv Rinv IZR Rle real_abs real_arg cos sin] in H. rewrite arg_real, abs_real in H by lra. rewrite cos_0, sin_0 in H. lra.
    + intros s I. cbn in I. repeat (destruct I as [<-|I]; [cbn; lra|]). destruct I.
Qed.
End OneBus.

(** ** Three phases, two buses: the local current of the first phase is driven by the voltage 2 of the second phase *)
Section LocalCurrent.
Definition uneven (p : nat) : R * R := if (p =? 1)%nat then (2, 0) else (1, 0).
Definition uneven_voltage (b : nat) : option (voltage_sensor (R := R)) := Some (mkSensor true uneven 1).
Definition pair_bus (k : nat) (side : bool) : option nat := if (k =? 0)%nat then Some (if side then 1%nat else 0%nat) else None.
Definition pair_param (k : nat) (s b : bool) (p q : nat) : R * R := if negb s && negb b && ((p =? 0)%nat && (q =? 1)%nat || (p =? 1)%nat && (q =? 0)%nat) then (1, 0) else (0, 0).
Definition pair_current (k : nat) (side : bool) : option (angle_type * flow (R := R)) :=
  if (k =? 0)%nat && negb side then Some (local_angle, mkFlow (fun p => match p with 0%nat => (2, 0) | 1%nat => (1, 0) | _ => (0, 0) end) (fun _ => 1) (fun _ => 1)) else None.
Definition pair_start := start_x real_num real_abs real_arg zero_at uneven_voltage zero_at.
Theorem C57_local_current_refuted : exists n n_branch branch_bus shunts branch_param shunt_param ybus slack_bus phase_shift voltage branch_power branch_current shunt_power bus_injection mean_angle_shift reference xs,
  measurements_ok n voltage branch_power branch_current shunt_power bus_injection /\ branches_ok n branch_bus /\ both_sides branch_bus branch_power branch_current /\
  NewtonSE.reached real_num real_abs real_arg cos sin real_zero 3 n n_branch branch_bus shunts branch_param shunt_param ybus slack_bus phase_shift voltage branch_power branch_current shunt_power
    bus_injection mean_angle_shift reference xs /\
  (forall b p, (b < n)%nat -> v (xs b) p <> 0) /\
  (forall s, In s (NewtonSESpec.measured 3 n n_branch shunts voltage branch_power branch_current shunt_power bus_injection) ->
    NewtonSESpec.quantity_at 3 n branch_bus branch_param shunt_param ybus (fst s) (volts_of xs) = fst (snd s)) /\
  forall dx, NewtonSE.solution real_num real_abs real_arg 3 n n_branch branch_bus shunts branch_param shunt_param ybus slack_bus voltage branch_power branch_current shunt_power bus_injection reference
    xs (phasors real_num cos sin xs) dx ->
  ~ forall b p, (b < n)%nat -> (p < 3)%nat -> theta (NewtonSE.iterate real_num real_zero 3 n slack_bus voltage bus_injection xs dx b) p = theta (xs b) p /\
      v (NewtonSE.iterate real_num real_zero 3 n slack_bus voltage bus_injection xs dx b) p = v (xs b) p.
Proof.
  assert (V : forall b p, theta (pair_start b) p = 0 /\ v (pair_start b) p = fst (uneven p)).
  { intros b p. unfold pair_start, start_x, uneven_voltage, cabs_or_real, uneven. cbn [theta v s_full s_volt]. destruct (p =? 1)%nat; cbn [fst]; rewrite arg_real, abs_real by lra; split; reflexivity. }
  exists 2%nat, 1%nat, pair_bus, (fun _ => []), pair_param, (fun _ _ _ => (0, 0)), no_y, 0%nat, zero_at, uneven_voltage, none2, pair_current, none, none, zero_at, zero_at, pair_start.
  split; [|split; [|split; [|split; [|split; [|split]]]]].
  - split; try discriminate.
    + intros b m E. inversion E. cbn. lra.
    + intros k side t m p E. unfold pair_current in E. destruct ((k =? 0)%nat && negb side); inversion E. cbn. lra.
    + intros k side m E. unfold pair_current in E. destruct ((k =? 0)%nat && negb side); inversion E.
  - split; intros k; unfold pair_bus; destruct (k =? 0)%nat; try discriminate; [intros [|] b E; inversion E; lia|intros b E E'; inversion E; inversion E'; lia].
  - intros k side [E|E]; [destruct E; reflexivity|]. unfold pair_current in E. unfold pair_bus. destruct (k =? 0)%nat; [split; discriminate|destruct E; reflexivity].
  - apply reached_start.
  - intros b p _. rewrite (proj2 (V b p)). unfold uneven. destruct (p =? 1)%nat; cbn; lra.
  - intros s I. cbn in I.
    repeat (destruct I as [<-|I]; [cbv -[Rplus Rmult Rminus Ropp Rdiv Rinv IZR real_abs real_arg cos sin]; rewrite ?arg_real, ?abs_real by lra; rewrite ?cos_0, ?sin_0; try reflexivity; ring|]). destruct I.
  - intros dx SOL F.
    assert (Z : forall b p, (b < 2)%nat -> (p < 3)%nat -> theta (dx b) p = 0 /\ v (dx b) p = 0).
    { intros b p Hb Hp. destruct (F b p Hb Hp) as [F1 F2]. unfold NewtonSE.iterate, NewtonSE.vplus in F1, F2. cbn [theta v] in F1, F2. unfold NewtonSE.angle_offset in F1. cbn [n_add n_sub n_zero real_num has_angle seq existsb uneven_voltage s_full orb] in F1, F2. split; lra. }
    pose proof (Z 0 0 ltac:(lia) ltac:(lia))%nat as Z00. pose proof (Z 0 1 ltac:(lia) ltac:(lia))%nat as Z01. pose proof (Z 0 2 ltac:(lia) ltac:(lia))%nat as Z02.
    pose proof (Z 1 0 ltac:(lia) ltac:(lia))%nat as Z10. pose proof (Z 1 1 ltac:(lia) ltac:(lia))%nat as Z11. pose proof (Z 1 2 ltac:(lia) ltac:(lia))%nat as Z12. clear Z F.
    destruct (SOL 0%nat 1%nat ltac:(lia) ltac:(lia)) as (_ & E & _). clear SOL. cbv zeta in E. revert E.
    unfold total, NewtonSE.vplus, NewtonSE.mvec. cbn [seq map]. unfold nsum. cbn [fold_right n_add n_mul n_zero real_num].
    destruct Z00 as [A B], Z01 as [A' B'], Z02 as [A'' B'']. rewrite A, A', A'', B, B', B''. clear A A' A'' B B' B''.
    destruct Z10 as [A B], Z11 as [A' B'], Z12 as [A'' B'']. rewrite A, A', A'', B, B', B''. clear A A' A'' B B' B''.
    generalize (phi_p (dx 0%nat) 0%nat) (phi_p (dx 0%nat) 1%nat) (phi_p (dx 0%nat) 2%nat) (phi_q (dx 0%nat) 0%nat) (phi_q (dx 0%nat) 1%nat) (phi_q (dx 0%nat) 2%nat).
    generalize (phi_p (dx 1%nat) 0%nat) (phi_p (dx 1%nat) 1%nat) (phi_p (dx 1%nat) 2%nat) (phi_q (dx 1%nat) 0%nat) (phi_q (dx 1%nat) 1%nat) (phi_q (dx 1%nat) 2%nat). intros.
    revert E. cbv -[Rplus Rmult Rminus Ropp Rdiv Rinv IZR real_abs real_arg cos sin]. rewrite !arg_real, !abs_real by lra. rewrite cos_0, sin_0. lra.
Qed.
End LocalCurrent.
Print Assumptions C57_open_branch_refuted.
Print Assumptions C57_asymmetric_refuted.
Print Assumptions C57_local_current_refuted.
