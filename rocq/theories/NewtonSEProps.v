(** C57: The Newton-Raphson state estimation. In a symmetric calculation an iteration makes the step of the Gauss-Newton method, and voltages it leaves as they are
    are a stationary point of the weighted squares of the residuals of all measurements, with the measurements without variance met. *)
From Coq Require Import Reals Lra.
From Verif Require Import Common Numbers NumbersPair LinearSE NewtonReals NewtonSE NewtonSESpec NewtonSEFacts NewtonSERows NewtonSEWeak NewtonSEInject NewtonSEStep NewtonSEFixed NewtonSEExists.
Local Open Scope R_scope.

Section Props.
Variables (n n_branch : nat) (branch_bus : nat -> bool -> option nat) (shunts : nat -> list nat).
Variables (branch_param : nat -> bool -> bool -> nat -> nat -> R * R) (shunt_param : nat -> nat -> nat -> R * R) (ybus : nat -> nat -> nat -> nat -> R * R).
Variables (slack_bus : nat) (phase_shift : nat -> R).
Variables (voltage : nat -> option (voltage_sensor (R := R))) (branch_power : nat -> bool -> option (flow (R := R))) (branch_current : nat -> bool -> option (angle_type * flow (R := R))).
Variables (shunt_power bus_injection : nat -> option (flow (R := R))) (mean_angle_shift reference : nat -> R).
Local Notation reached := (NewtonSE.reached real_num real_abs real_arg cos sin real_zero 1 n n_branch branch_bus shunts branch_param shunt_param ybus slack_bus phase_shift voltage branch_power branch_current shunt_power
  bus_injection mean_angle_shift reference).
Local Notation solution := (NewtonSE.solution real_num real_abs real_arg 1 n n_branch branch_bus shunts branch_param shunt_param ybus slack_bus voltage branch_power branch_current shunt_power bus_injection reference).
Local Notation iterate := (NewtonSE.iterate real_num real_zero 1 n slack_bus voltage bus_injection).
Local Notation phasors := (NewtonSE.phasors real_num cos sin).
Local Notation gauss_newton_step := (NewtonSESpec.gauss_newton_step 1 n n_branch branch_bus shunts branch_param shunt_param ybus voltage branch_power branch_current shunt_power bus_injection).
Local Notation stationary := (NewtonSESpec.stationary 1 n n_branch branch_bus shunts branch_param shunt_param ybus voltage branch_power branch_current shunt_power bus_injection).

(** the voltages of the unknowns, and the change from one to another *)
Definition volts_of (xs : nat -> unknown (R := R)) : volts := mkVolts (fun b => theta (xs b)) (fun b => v (xs b)).
Definition change_of (xs xs' : nat -> unknown (R := R)) : volts := mkVolts (fun b p => theta (xs' b) p - theta (xs b) p) (fun b p => v (xs' b) p - v (xs b) p).

Lemma reached_phi xs : reached xs -> phi_ok bus_injection xs.
Proof.
  induction 1 as [|xs d H IH S].
  - intros b m _. unfold start_x. destruct (voltage b); split; reflexivity.
  - intros b m Hm. destruct (IH b m Hm) as [P Q]. unfold NewtonSE.iterate. cbn [phi_p phi_q]. rewrite Hm. unfold all_zero. cbn [seq forallb]. rewrite !andb_true_r. unfold real_zero. split; intros Z.
    + destruct (Req_EM_T (f_p_var m 0%nat) 0); [contradiction|]. apply P. exact Z.
    + destruct (Req_EM_T (f_q_var m 0%nat) 0); [contradiction|]. apply Q. exact Z.
Qed.
Local Notation offset := (NewtonSE.angle_offset real_num n slack_bus voltage).
Lemma offset_zero xs dx : NewtonSE.has_angle n voltage = true -> offset xs dx = 0.
Proof. intros H. unfold NewtonSE.angle_offset. rewrite H. reflexivity. Qed.
Lemma change_agrees xs dx : agree n (change_of xs (iterate xs dx)) (change dx (offset xs dx)).
Proof.
  intros b _. unfold change_of, change, combine, NewtonSE.iterate, NewtonSE.vplus. cbn [ang mag theta v here rotation n_add n_sub real_num]. split; ring.
Qed.

Theorem C57_gauss_newton_partial xs dx :
  measurements_ok n voltage branch_power branch_current shunt_power bus_injection -> branches_ok n branch_bus -> both_sides branch_bus branch_power branch_current ->
  reached xs -> (forall b, (b < n)%nat -> v (xs b) 0%nat <> 0) -> solution xs (phasors xs) dx ->
  gauss_newton_step (volts_of xs) (change_of xs (iterate xs dx)).
Proof.
  intros OK BR SIDES H V S. pose proof (reached_phi xs H) as P. exists (fun q e => NewtonSEFacts.D 1 n branch_bus branch_param shunt_param ybus (volts_of xs) q e).
  assert (A : forall s, In s (NewtonSESpec.measured 1 n n_branch shunts voltage branch_power branch_current shunt_power bus_injection) ->
    NewtonSEFacts.D 1 n branch_bus branch_param shunt_param ybus (volts_of xs) (fst s) (change_of xs (iterate xs dx)) =
    NewtonSEFacts.D 1 n branch_bus branch_param shunt_param ybus (volts_of xs) (fst s) (change dx (offset xs dx))).
  { intros s I. apply (D_near n branch_bus branch_param shunt_param ybus BR); [|apply change_agrees].
    exact (measured_near n n_branch shunts voltage branch_power branch_current shunt_power bus_injection s I). }
  split; [intros s e _; apply slope_D|]. split.
  - intros s I Z. unfold NewtonSESpec.left_over. rewrite (A s I).
    exact (exact_change n n_branch branch_bus shunts branch_param shunt_param ybus slack_bus voltage branch_power branch_current shunt_power bus_injection reference xs dx V OK S (offset xs dx) (offset_zero xs dx) s I Z).
  - intros e X. eapply Rle_trans; [|exact (least n n_branch branch_bus shunts branch_param shunt_param ybus slack_bus voltage branch_power branch_current shunt_power bus_injection reference xs dx V OK BR SIDES S P
      (offset xs dx) (offset_zero xs dx) e X)].
    apply Req_le. unfold NewtonSESpec.linear_cost. apply sum_ext. intros s I. unfold NewtonSESpec.left_over. rewrite (A s I). reflexivity.
Qed.

Theorem C57_stationary_partial xs dx :
  measurements_ok n voltage branch_power branch_current shunt_power bus_injection -> branches_ok n branch_bus -> both_sides branch_bus branch_power branch_current ->
  reached xs -> (forall b, (b < n)%nat -> v (xs b) 0%nat <> 0) -> solution xs (phasors xs) dx ->
  (forall b, (b < n)%nat -> theta (iterate xs dx b) 0%nat = theta (xs b) 0%nat /\ v (iterate xs dx b) 0%nat = v (xs b) 0%nat) ->
  stationary (volts_of xs).
Proof.
  intros OK BR SIDES H V S F. pose proof (reached_phi xs H) as P.
  assert (A : agree n (change dx (offset xs dx)) still).
  { intros b Hb. destruct (change_agrees xs dx b Hb) as [E1 E2]. destruct (F b Hb) as [F1 F2]. rewrite <- E1, <- E2. unfold change_of. cbn [ang mag still]. rewrite F1, F2. split; ring. }
  assert (N : forall s, In s (NewtonSESpec.measured 1 n n_branch shunts voltage branch_power branch_current shunt_power bus_injection) ->
    NewtonSEFacts.D 1 n branch_bus branch_param shunt_param ybus (volts_of xs) (fst s) (change dx (offset xs dx)) = 0).
  { intros s I. pose proof (measured_near n n_branch shunts voltage branch_power branch_current shunt_power bus_injection s I) as M.
    rewrite (D_near n branch_bus branch_param shunt_param ybus BR (volts_of xs) (fst s) _ _ M A). apply (D_still n branch_bus branch_param shunt_param ybus BR (volts_of xs) (fst s) M). }
  split.
  - intros s I Z. pose proof (exact_change n n_branch branch_bus shunts branch_param shunt_param ybus slack_bus voltage branch_power branch_current shunt_power bus_injection reference xs dx V OK S
      (offset xs dx) (offset_zero xs dx) s I Z) as E. unfold NewtonSESpec.left_over in E. pose proof (N s I) as E0. unfold volts_of in *. unfold here in E. rewrite E0 in E. clear - E. lra.
  - intros e K. pose proof (deriv_cost n n_branch branch_bus shunts branch_param shunt_param ybus voltage branch_power branch_current shunt_power bus_injection (volts_of xs) e) as C.
    assert (W : keeps n n_branch branch_bus shunts branch_param shunt_param ybus voltage branch_power branch_current shunt_power bus_injection xs e).
    { intros s I Z. pose proof (slope_D 1 n branch_bus branch_param shunt_param ybus (fst s) (volts_of xs) e) as L. exact (uniqueness_limite _ _ _ _ L (K s I Z)). }
    pose proof (weak_form n n_branch branch_bus shunts branch_param shunt_param ybus slack_bus voltage branch_power branch_current shunt_power bus_injection reference xs dx V OK BR SIDES S P e W) as Q.
    assert (E : nsum real_num (map (fun s => NewtonSEFacts.D 1 n branch_bus branch_param shunt_param ybus (volts_of xs) (fst s) e *
        (0 - (fst (snd s) - NewtonSESpec.quantity_at 1 n branch_bus branch_param shunt_param ybus (fst s) (volts_of xs))) / snd (snd s))
      (NewtonSESpec.measured 1 n n_branch shunts voltage branch_power branch_current shunt_power bus_injection)) = 0).
    { etransitivity; [|exact Q]. apply sum_ext. intros s I. unfold term. pose proof (N s I) as E0. change (volts_of xs) with (here xs) in E0 |- *.
      rewrite (D_change n n_branch branch_bus shunts branch_param shunt_param ybus voltage branch_power branch_current shunt_power bus_injection xs dx OK (offset xs dx) (offset_zero xs dx) s I) in E0.
      rewrite E0. reflexivity. }
    rewrite E, Rmult_0_r in C. exact C.
Qed.

(** The other way: every Gauss-Newton step, turned such that the angle of the source is zero when no angle is measured, solves the equations of an iteration; so does no change at a stationary point. *)
Local Notation D xs := (NewtonSEFacts.D 1 n branch_bus branch_param shunt_param ybus (volts_of xs)).
Local Notation measured := (NewtonSESpec.measured 1 n n_branch shunts voltage branch_power branch_current shunt_power bus_injection).
Local Notation quantity_at := (NewtonSESpec.quantity_at 1 n branch_bus branch_param shunt_param ybus).
Definition turned_to_source (xs : nat -> unknown (R := R)) (d : volts) : Prop :=
  (forall b m, (b < n)%nat -> voltage b = Some m -> s_full m = false) -> theta (xs slack_bus) 0%nat + ang d slack_bus 0%nat = 0.
Lemma no_angle : NewtonSE.has_angle n voltage = false -> forall b m, (b < n)%nat -> voltage b = Some m -> s_full m = false.
Proof.
  intros H b m Hb Hm. destruct (s_full m) eqn:E; [|reflexivity]. unfold NewtonSE.has_angle in H. rewrite <- H. symmetry. apply existsb_exists. exists b. split; [apply in_seq; clear - Hb; lia|]. rewrite Hm. exact E.
Qed.
Lemma found_change xs dx d t : turned_to_source xs d -> (NewtonSE.has_angle n voltage = true -> t = 0) -> here dx = combine t d rotation ->
  forall b p, ang (change_of xs (iterate xs dx)) b p = ang d b p /\ mag (change_of xs (iterate xs dx)) b p = mag d b p.
Proof.
  intros T Z E b p. assert (E1 : forall b p, theta (dx b) p = ang d b p + t) by (intros b' p'; pose proof (f_equal (fun e => ang e b' p') E) as F; cbn in F; rewrite F; ring).
  assert (E2 : forall b p, v (dx b) p = mag d b p) by (intros b' p'; pose proof (f_equal (fun e => mag e b' p') E) as F; cbn in F; rewrite F; ring).
  unfold change_of, NewtonSE.iterate, NewtonSE.angle_offset, NewtonSE.vplus. cbn [ang mag theta v n_add n_sub real_num]. rewrite !E1, E2. split; [|ring].
  destruct (NewtonSE.has_angle n voltage) eqn:H; [rewrite (Z eq_refl); cbn [n_zero real_num]; ring|]. pose proof (T (no_angle H)) as T'. clear - T'. lra.
Qed.
Theorem C57_step_found_partial xs d :
  measurements_ok n voltage branch_power branch_current shunt_power bus_injection -> branches_ok n branch_bus -> both_sides branch_bus branch_power branch_current ->
  reached xs -> (forall b, (b < n)%nat -> v (xs b) 0%nat <> 0) -> turned_to_source xs d -> gauss_newton_step (volts_of xs) d ->
  exists dx, solution xs (phasors xs) dx /\ forall b p, ang (change_of xs (iterate xs dx)) b p = ang d b p /\ mag (change_of xs (iterate xs dx)) b p = mag d b p.
Proof.
  intros OK BR SIDES H V T (D' & SL & X & M).
  assert (EQ : forall s e, In s measured -> D' (fst s) e = D xs (fst s) e) by (intros s e I; exact (uniqueness_limite _ _ _ _ (SL s e I) (slope_D 1 n branch_bus branch_param shunt_param ybus (fst s) (volts_of xs) e))).
  assert (EX : forall s, In s measured -> snd (snd s) = 0 -> D xs (fst s) d - (fst (snd s) - quantity_at (fst s) (volts_of xs)) = 0).
  { intros s I Z. pose proof (X s I Z) as E. unfold NewtonSESpec.left_over in E. rewrite (EQ s d I) in E. clear - E. lra. }
  destruct (some_solution n n_branch branch_bus shunts branch_param shunt_param ybus slack_bus voltage branch_power branch_current shunt_power bus_injection reference xs V BR SIDES OK (reached_phi xs H) d EX) as (dx & S & E).
  - intros e K. change (here xs) with (volts_of xs) in *. set (B := nsum real_num _). set (Q := nsum real_num (map (fun s => D xs (fst s) e * D xs (fst s) e / snd (snd s)) measured)).
    assert (C : forall t, 0 <= 2 * t * B + t * t * Q).
    { intros t. assert (XE : NewtonSESpec.exact_met 1 n n_branch branch_bus shunts branch_param shunt_param ybus voltage branch_power branch_current shunt_power bus_injection D' (volts_of xs) (combine t d e)).
      { intros s I Z. unfold NewtonSESpec.left_over. rewrite (EQ _ _ I), D_linear. pose proof (K s I Z) as K'. change (here xs) with (volts_of xs) in K'. rewrite K'. pose proof (EX s I Z) as E'. clear - E'. lra. }
      pose proof (M _ XE) as L. unfold NewtonSESpec.linear_cost in L.
      assert (E1 : nsum real_num (map (fun s => NewtonSESpec.left_over 1 n branch_bus branch_param shunt_param ybus D' (volts_of xs) (combine t d e) s * NewtonSESpec.left_over 1 n branch_bus branch_param shunt_param ybus D' (volts_of xs) (combine t d e) s / snd (snd s)) measured) =
        nsum real_num (map (fun s => NewtonSESpec.left_over 1 n branch_bus branch_param shunt_param ybus D' (volts_of xs) d s * NewtonSESpec.left_over 1 n branch_bus branch_param shunt_param ybus D' (volts_of xs) d s / snd (snd s)) measured) + (2 * t * B + t * t * Q)).
      { unfold B, Q. rewrite <- !sum_times, <- !sum_plus. apply sum_ext. intros s I. unfold NewtonSESpec.left_over, term_of. rewrite !(EQ s _ I), D_linear. change (here xs) with (volts_of xs). unfold Rdiv. ring. }
      rewrite E1 in L. clear - L. lra. }
    clearbody B Q. clear - C. pose proof (C 1) as C1. pose proof (C (- (1))) as C2. assert (Q0 : 0 <= Q) by lra. destruct (Rtotal_order B 0) as [L|[E|L]]; [|exact E|]; exfalso.
    + destruct (Req_EM_T Q 0) as [Z|Z]; [rewrite Z in *; lra|]. pose proof (C (- B / Q)) as C3. assert (E : 2 * (- B / Q) * B + - B / Q * (- B / Q) * Q = - (B * B / Q)) by (field; exact Z). rewrite E in C3.
      assert (P : 0 < B * B / Q) by (apply Rmult_lt_0_compat; [nra|apply Rinv_0_lt_compat; lra]). lra.
    + destruct (Req_EM_T Q 0) as [Z|Z]; [rewrite Z in *; lra|]. pose proof (C (- B / Q)) as C3. assert (E : 2 * (- B / Q) * B + - B / Q * (- B / Q) * Q = - (B * B / Q)) by (field; exact Z). rewrite E in C3.
      assert (P : 0 < B * B / Q) by (apply Rmult_lt_0_compat; [nra|apply Rinv_0_lt_compat; lra]). lra.
  - exists dx. split; [exact S|]. refine (found_change xs dx d _ T _ E). intros HA. unfold turn. rewrite HA. reflexivity.
Qed.
Theorem C57_stationary_found_partial xs :
  measurements_ok n voltage branch_power branch_current shunt_power bus_injection -> branches_ok n branch_bus -> both_sides branch_bus branch_power branch_current ->
  reached xs -> (forall b, (b < n)%nat -> v (xs b) 0%nat <> 0) -> ((forall b m, (b < n)%nat -> voltage b = Some m -> s_full m = false) -> theta (xs slack_bus) 0%nat = 0) -> stationary (volts_of xs) ->
  exists dx, solution xs (phasors xs) dx /\ forall b p, theta (iterate xs dx b) p = theta (xs b) p /\ v (iterate xs dx b) p = v (xs b) p.
Proof.
  intros OK BR SIDES H V T [X M].
  assert (N : forall s, In s measured -> D xs (fst s) still = 0).
  { intros s I. apply (D_still n branch_bus branch_param shunt_param ybus BR). exact (measured_near n n_branch shunts voltage branch_power branch_current shunt_power bus_injection s I). }
  destruct (some_solution n n_branch branch_bus shunts branch_param shunt_param ybus slack_bus voltage branch_power branch_current shunt_power bus_injection reference xs V BR SIDES OK (reached_phi xs H) still) as (dx & S & E).
  - intros s I Z. change (here xs) with (volts_of xs). rewrite (N s I). pose proof (X s I Z) as E. clear - E. lra.
  - intros e K. pose proof (deriv_cost n n_branch branch_bus shunts branch_param shunt_param ybus voltage branch_power branch_current shunt_power bus_injection (volts_of xs) e) as C.
    assert (W : forall s, In s measured -> snd (snd s) = 0 -> NewtonSESpec.slope 1 n branch_bus branch_param shunt_param ybus (fst s) (volts_of xs) e 0).
    { intros s I Z. eapply deriv_is; [apply slope_D|]. exact (K s I Z). }
    pose proof (uniqueness_limite _ _ _ _ C (M e W)) as U.
    assert (E : nsum real_num (map (term_of n branch_bus branch_param shunt_param ybus xs still e) measured) = nsum real_num (map (fun s => D xs (fst s) e * (0 - (fst (snd s) - quantity_at (fst s) (volts_of xs))) / snd (snd s)) measured)).
    { apply sum_ext. intros s I. unfold term_of. change (here xs) with (volts_of xs). rewrite (N s I). reflexivity. }
    rewrite E. clear - U. lra.
  - exists dx. split; [exact S|]. assert (TS : turned_to_source xs still) by (intros G; cbn [ang still]; rewrite (T G); ring).
    intros b p.
    assert (TZ : NewtonSE.has_angle n voltage = true -> turn n slack_bus voltage reference xs still = 0) by (intros HA; unfold turn; rewrite HA; reflexivity).
    destruct (found_change xs dx still _ TS TZ E b p) as [E1 E2].
    unfold change_of in E1, E2. cbn [ang mag still] in E1, E2. clear - E1 E2. split; lra.
Qed.

(** Without a measured angle the angle of the source is zero after every iteration. *)
Theorem C57_reference_angle xs dx : (forall b m, (b < n)%nat -> voltage b = Some m -> s_full m = false) -> theta (iterate xs dx slack_bus) 0%nat = 0.
Proof.
  intros H. assert (E : NewtonSE.has_angle n voltage = false).
  { unfold NewtonSE.has_angle. destruct (existsb _ (seq 0 n)) eqn:E; [|reflexivity]. apply existsb_exists in E. destruct E as (b & I & E). apply in_seq in I. destruct (voltage b) as [m|] eqn:Em; [|discriminate].
    rewrite (H b m) in E; [discriminate| |exact Em]. clear - I. lia. }
  unfold NewtonSE.iterate, NewtonSE.angle_offset. rewrite E. cbn [theta n_add n_sub real_num]. ring.
Qed.
End Props.
Print Assumptions C57_gauss_newton_partial.
Print Assumptions C57_stationary_partial.
Print Assumptions C57_reference_angle.
Print Assumptions C57_step_found_partial.
Print Assumptions C57_stationary_found_partial.
