(** C56: an iteration of the iterative linear state estimation finds the weighted least squares estimate. *)
From Coq Require Import Field.
From Verif Require Import Common Numbers ShortCircuit LinearSE LinearSESpec LinearSEFacts.

Section Props.
Context {C : Type} (o : num_ops C) (cj cabs : C -> C) (positive : C -> bool) (nonneg : C -> Prop).
Hypothesis P : se_laws o cj cabs positive nonneg.
Variables (real : C -> C) (np n n_branch : nat) (branch_bus : nat -> bool -> option nat) (shunts : nat -> list nat).
Variables (branch_param : nat -> bool -> bool -> nat -> nat -> C) (shunt_param : nat -> nat -> nat -> C) (ybus : nat -> nat -> nat -> nat -> C).
Variables (voltage : nat -> option (voltage_measurement (C := C))) (branch_power : nat -> bool -> option (rand (C := C))) (branch_current : nat -> bool -> option (angle_type * rand (C := C))).
Variables (shunt_power bus_injection : nat -> option (rand (C := C))) (has_angle : bool) (slack_bus : nat).
Hypothesis branches : branches_ok n branch_bus.
Hypothesis measurements : measurements_ok o nonneg voltage branch_power branch_current shunt_power bus_injection.
Local Notation direction := (phase_shift o cabs positive).
Local Notation iteration := (LinearSE.iteration o cj cabs positive real np n n_branch branch_bus shunts branch_param shunt_param ybus voltage branch_power branch_current shunt_power bus_injection has_angle slack_bus).
Local Notation solution := (LinearSE.solution o cj cabs positive real np n n_branch branch_bus shunts branch_param shunt_param ybus voltage branch_power branch_current shunt_power bus_injection).
Local Notation residuals := (LinearSESpec.residuals o cj real direction np n n_branch branch_bus shunts branch_param shunt_param ybus voltage branch_power branch_current shunt_power bus_injection).
Local Notation least_squares := (LinearSESpec.least_squares o cj nonneg real direction np n n_branch branch_bus shunts branch_param shunt_param ybus voltage branch_power branch_current shunt_power bus_injection).

Add Field NumFieldLp : (nl_field o (se_num _ _ _ _ _ P)).
Lemma offset_one x : x <> n_zero o -> n_mul o (n_div o (cabs x) x) (cj (n_div o (cabs x) x)) = n_one o.
Proof.
  intros H. rewrite (div_inv o cj cabs positive nonneg P), (se_conj_mul _ _ _ _ _ P), (se_abs_real _ _ _ _ _ P), (cj_inv o cj cabs positive nonneg P x H).
  transitivity (n_mul o (n_mul o (cabs x) (cabs x)) (n_mul o (n_inv o x) (n_inv o (cj x)))); [ring|]. rewrite (se_abs _ _ _ _ _ P). field. split; [|exact H].
  intros E. apply H. rewrite <- (se_conj_conj _ _ _ _ _ P x), E. apply (cj_zero o cj cabs positive nonneg P).
Qed.

(** The voltages after an iteration are a least squares estimate; with measured angles exactly, without angles up to one rotation of all voltages that makes the
    voltage of the slack bus its magnitude. *)
Theorem C56_least_squares : forall u u', iteration u u' ->
  exists x, least_squares u x /\
    if has_angle then forall b p, u' b p = x b p
    else x slack_bus 0 <> n_zero o -> u' slack_bus 0 = cabs (x slack_bus 0) /\ exists c, n_mul o c (cj c) = n_one o /\ forall b p, u' b p = n_mul o (x b p) c.
Proof.
  intros u u' (x & phi & Hx & ->). exists x. split.
  - exact (solution_least_squares o cj cabs positive nonneg P np real n n_branch branch_bus shunts branch_param shunt_param ybus voltage branch_power branch_current shunt_power bus_injection
      (ok_bus _ _ branches) (ok_ends _ _ branches) measurements u x phi Hx).
  - unfold iterate, angle_offset. destruct has_angle; [intros b p; ring|]. intros N. split.
    + field. exact N.
    + exists (n_div o (cabs (x slack_bus 0)) (x slack_bus 0)). split; [apply offset_one; exact N|reflexivity].
Qed.
(** Two solutions of the equations of an iteration agree on everything that is measured. *)
Theorem C56_unique : forall u x phi y psi, solution u x phi -> solution u y psi -> forall f v, In (f, v) (residuals u) -> f x = f y.
Proof.
  exact (solutions_agree o cj cabs positive nonneg P np real n n_branch branch_bus shunts branch_param shunt_param ybus voltage branch_power branch_current shunt_power bus_injection
      (ok_bus _ _ branches) (ok_ends _ _ branches) measurements).
Qed.
(** Voltages that meet all measurements are the result of an iteration from there, without a measured angle if the slack bus has angle zero. *)
Theorem C56_exact : forall u, (forall f v, In (f, v) (residuals u) -> f u = n_zero o) ->
  (if has_angle then True else u slack_bus 0 <> n_zero o /\ cabs (u slack_bus 0) = u slack_bus 0) ->
  exists u', iteration u u' /\ forall b p, u' b p = u b p.
Proof.
  intros u H A. exists (iterate o cabs has_angle slack_bus u). split.
  - exists u, (fun _ _ => n_zero o). split; [|reflexivity].
    exact (exact_solution o cj cabs positive nonneg P np real n n_branch branch_bus shunts branch_param shunt_param ybus voltage branch_power branch_current shunt_power bus_injection
      (ok_bus _ _ branches) (ok_ends _ _ branches) u H).
  - intros b p. unfold iterate, angle_offset. destruct has_angle; [ring|]. destruct A as [N E]. rewrite E. field. exact N.
Qed.
End Props.

(** ** Examples *)
Section Example.
Context {C : Type} (o : num_ops C) (cj cabs : C -> C) (positive : C -> bool) (nonneg : C -> Prop).
Hypothesis P : se_laws o cj cabs positive nonneg.
Variable real : C -> C.
Add Field NumFieldLx : (nl_field o (se_num _ _ _ _ _ P)).
Local Notation zero := (n_zero o). Local Notation one := (n_one o). Local Notation two := (n_add o one one).
(** two buses with a branch; voltages measured at both as 2 and 0, the current into the branch as 0; the second bus has no appliances *)
Definition ls_branch_bus (k : nat) (side : bool) : option nat := if k =? 0 then Some (if side then 1 else 0) else None.
Definition ls_param (k : nat) (s b : bool) (p q : nat) : C := if Bool.eqb s b then one else n_opp o one.
Definition ls_ybus (i j p q : nat) : C := if i =? j then one else n_opp o one.
Definition ls_voltage (b : nat) : option (voltage_measurement (C := C)) := Some (mkVolt true (fun _ => if b =? 0 then two else zero) one).
Definition ls_current (k : nat) (side : bool) : option (angle_type * rand (C := C)) := if side then None else Some (global_angle, mkRand (fun _ => zero) (fun _ => one)).
Definition ls_injection (b : nat) : option (rand (C := C)) := if b =? 1 then Some (mkRand (fun _ => zero) (fun _ => zero)) else None.
Definition ls_u (b p : nat) : C := one.
Definition ls_phi (b p : nat) : C := if b =? 1 then n_opp o one else zero.
Lemma ls_solution : LinearSE.solution o cj cabs positive real 1 2 1 ls_branch_bus (fun _ => []) ls_param (fun _ _ _ => zero) ls_ybus ls_voltage (fun _ _ => None) ls_current (fun _ => None) ls_injection ls_u ls_u ls_phi.
Proof.
  assert (J0 : cj zero = zero) by apply (cj_zero o cj cabs positive nonneg P). assert (J1 : cj one = one) by apply (cj_one o cj cabs positive nonneg P).
  assert (JM : cj (n_opp o one) = n_opp o one) by (rewrite (cj_opp o cj cabs positive nonneg P), J1; reflexivity).
  assert (N1 : one <> zero) by exact (F_1_neq_0 (nl_field o (se_num _ _ _ _ _ P))).
  assert (Z : cj (n_div o zero zero) = zero). { rewrite (div_inv o cj cabs positive nonneg P). replace (n_mul o zero (n_inv o zero)) with zero by ring. exact J0. }
  intros b p Hb Hp. assert (p = 0) by lia. subst p.
  destruct b as [|[|b]]; [| |lia]; split; cbn; unfold nsum, vadd, tadd, vzero, tdiag, tzero, dot3, dot3v, hermitian, diagonal_inverse, ls_param, ls_ybus, ls_u; cbn; unfold nsum; cbn;
    rewrite ?Z, ?J0, ?J1, ?JM; field; exact N1.
Qed.
Lemma ls_branches : branches_ok 2 ls_branch_bus.
Proof. constructor; unfold ls_branch_bus; intros k; destruct (k =? 0); try discriminate; [intros [] b E; injection E as <-; lia|intros b E1 E2; congruence]. Qed.
Lemma ls_nonneg_one : nonneg one.
Proof. replace one with (n_mul o one (cj one)); [apply (se_nonneg_square _ _ _ _ _ P)|]. rewrite (cj_one o cj cabs positive nonneg P). ring. Qed.
Lemma ls_measurements : measurements_ok o nonneg ls_voltage (fun _ _ => None) ls_current (fun _ => None) ls_injection.
Proof.
  assert (N1 : one <> zero) by exact (F_1_neq_0 (nl_field o (se_num _ _ _ _ _ P))).
  constructor; try discriminate.
  - intros b m E. injection E as <-. split; [apply ls_nonneg_one|exact N1].
  - intros k [] t m p E; [discriminate|]. injection E as <- <-. split; [apply ls_nonneg_one|exact N1].
  - intros b m p E. unfold ls_injection in E. destruct (b =? 1); [|discriminate]. injection E as <-. apply (nonneg_zero o cj cabs positive nonneg P).
Qed.
End Example.
