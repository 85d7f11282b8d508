(** Model of the Newton-Raphson state estimation: math_solver/newton_raphson_se_solver.hpp 103-825, block_matrix.hpp 27-92,
    common/three_phase_tensor.hpp 254-290, 462-468.
    Simplifications, as in NewtonRaphson.v and LinearSE.v:
    - double is a field with the functions cos, sin; std::complex<double> is a pair (NumbersPair.v);
    - the matrix is given by all its blocks: a block that is not stored, or is a fill-in, is zero;
    - a row of the matrix and of the right-hand side is written from the row alone, so that the loop over the buses (272-401) is one function of the row;
    - the elements of an entry of the admittance matrix are listed by branch, y_bus.hpp 133-147 lists them in another order (C18);
    - the linear solver is taken as exact (C22), without the perturbation of a grid that is not fully observable;
    - measured values are those of MeasuredValues (C52): a measurement that is there has finite variances;
    - a value per phase is a function of the phase, used for the phases below [np] (1 in a symmetric, 3 in an asymmetric calculation).
    The loop around the iterations and its tolerance are in Calculation.v. *)
From Verif Require Import Common Numbers NumbersPair LinearSE.

Section NewtonSE.
Context {R : Type} (o : num_ops R).
Local Notation "a + b" := (n_add o a b) : num_scope. Local Notation "a * b" := (n_mul o a b) : num_scope. Local Notation "a - b" := (n_sub o a b) : num_scope.
Local Notation "a / b" := (n_div o a b) : num_scope. Local Notation "- a" := (n_opp o a) : num_scope.
Local Notation zero := (n_zero o). Local Notation one := (n_one o).
Local Open Scope num_scope.
Local Notation cx := (NumbersPair.cx (R := R)). Local Notation cxo := (pair_num o). Local Notation conj := (cconj o).
(** cabs, arg, cos, sin, == 0.0 *)
Variables (cabs arg : cx -> R) (rcos rsin : R -> R) (is_zero : R -> bool).
Variable np : nat.

Definition value : Type := nat -> R.
Definition cvalue : Type := nat -> cx.
Definition rtensor : Type := nat -> nat -> R.
Definition ctensor : Type := nat -> nat -> cx.
Definition v0 : value := fun _ => zero.
Definition t0 : rtensor := fun _ _ => zero.
Definition vplus (x y : value) : value := fun p => x p + y p.
Definition vminus (x y : value) : value := fun p => x p - y p.
Definition vneg (x : value) : value := fun p => - x p.
Definition vinv (x : value) : value := fun p => one / x p.
Definition vre (z : cvalue) : value := fun p => re (z p).
Definition vim (z : cvalue) : value := fun p => im (z p).
Definition tplus (x y : rtensor) : rtensor := fun p q => x p q + y p q.
(** three_phase_tensor.hpp 66-80: a tensor with a vector, or a number, on its diagonal *)
Definition diag (v : value) : rtensor := fun p q => if p =? q then v p else zero.
Definition rscale (k : R) (z : cx) : cx := (re z * k, im z * k).
(** three_phase_tensor.hpp 261-280: dot of two tensors, of a tensor and a vector, of a tensor and a diagonal tensor, of a diagonal tensor and a tensor or vector *)
Definition mmul (a b : rtensor) : rtensor := fun p q => nsum o (map (fun k => a p k * b k q) (seq 0 np)).
Definition mvec (a : rtensor) (v : value) : value := fun p => nsum o (map (fun k => a p k * v k) (seq 0 np)).
Definition columns (t : ctensor) (v : value) : ctensor := fun p q => rscale (v q) (t p q).
Definition weigh (v : value) (t : rtensor) : rtensor := fun p q => v p * t p q.
Definition weigh_value (v : value) (z : cvalue) : cvalue := fun p => rscale (v p) (z p).
(** three_phase_tensor.hpp 286-291, 293-303 *)
Definition sum_row (t : ctensor) : cvalue := fun p => nsum cxo (map (t p) (seq 0 np)).
Definition outer (a b : cvalue) : ctensor := fun p q => cmul o (a p) (b q).
Definition tconj (z : cvalue) : cvalue := fun p => conj (z p).
Definition cplus (a b : ctensor) : ctensor := fun p q => cadd o (a p q) (b p q).
Definition cneg (a : ctensor) : ctensor := fun p q => copp o (a p q).

(** ** The sub-grid: a branch has a from side, [false], and a to side, [true] *)
Variables (n n_branch : nat).
Variable branch_bus : nat -> bool -> option nat.
Variable shunts_per_bus : nat -> list nat.
(** branch_param[branch].value[2 * side + bus side] *)
Variable branch_param : nat -> bool -> bool -> ctensor.
Variable shunt_param : nat -> ctensor.
Variable ybus : nat -> nat -> ctensor.
Variables (slack_bus : nat) (phase_shift : nat -> R).

(** ** The measured values *)
(** statistics.hpp 116-132: a power or current with the variances of its real and imaginary part *)
Record flow : Type := mkFlow { f_value : cvalue; f_p_var : value; f_q_var : value }.
(** measured_values.hpp 81: with or without an angle; the variance is that of all phases *)
Record voltage_sensor : Type := mkSensor { s_full : bool; s_volt : cvalue; s_var : R }.
Variable voltage : nat -> option voltage_sensor.
Variable branch_power : nat -> bool -> option flow.
Variable branch_current : nat -> bool -> option (angle_type * flow).
Variable shunt_power : nat -> option flow.
Variable bus_injection : nat -> option flow.
(** measured_values.hpp 76, 114-120 *)
Definition has_angle : bool := existsb (fun b => match voltage b with Some m => s_full m | None => false end) (seq 0 n).
Definition has_voltage (b : nat) : bool := match voltage b with Some _ => true | None => false end.
Definition first_voltage : nat := match find has_voltage (seq 0 n) with Some b => b | None => n end.
Variable mean_angle_shift : value.
(** arg(ComplexValue<sym>{1.0}) *)
Variable reference : value.

(** ** The unknowns: 39-58 *)
Record unknown : Type := mkX { theta : value; v : value; phi_p : value; phi_q : value }.
Definition phasor (x : unknown) : cvalue := fun p => (v x p * rcos (theta x p), v x p * rsin (theta x p)).
(** statistics.hpp: cabs_or_real *)
Definition cabs_or_real (m : voltage_sensor) : value := fun p => if s_full m then cabs (s_volt m p) else re (s_volt m p).
(** 232-262 *)
Definition start_x (b : nat) : unknown :=
  match voltage b with
  | Some m => mkX (if s_full m then fun p => arg (s_volt m p) else fun p => mean_angle_shift p + phase_shift b) (cabs_or_real m) v0 v0
  | None => mkX (fun p => mean_angle_shift p + phase_shift b) (fun _ => one) v0 v0
  end.

(** ** The matrix and the right-hand side: 60-100 *)
Record jacobian : Type := mkJac { dp_dt : rtensor; dp_dv : rtensor; dq_dt : rtensor; dq_dv : rtensor }.
Record gain : Type := mkGain { g_pt : rtensor; g_pv : rtensor; g_qt : rtensor; g_qv : rtensor; q_pt : rtensor; q_pv : rtensor; q_qt : rtensor; q_qv : rtensor; r_p : rtensor; r_q : rtensor }.
Record rhs : Type := mkRhs { eta_t : value; eta_v : value; tau_p : value; tau_q : value }.
Record row : Type := mkRow { r_gain : nat -> gain; r_rhs : rhs }.
Definition no_gain : gain := mkGain t0 t0 t0 t0 t0 t0 t0 t0 t0 t0.
Definition no_row : row := mkRow (fun _ => no_gain) (mkRhs v0 v0 v0 v0).
Definition at_entry (r : row) (c : nat) (f : gain -> gain) : row := mkRow (fun k => if k =? c then f (r_gain r k) else r_gain r k) (r_rhs r).
Definition at_rhs (r : row) (f : rhs -> rhs) : row := mkRow (r_gain r) (f (r_rhs r)).

(** 776-778 *)
Definition hm_complex_form (y : ctensor) (uiuj : ctensor) : ctensor := fun p q => cmul o (conj (y p q)) (uiuj p q).
(** 762-769 *)
Definition calculate_jacobian (hm nl : ctensor) : jacobian :=
  mkJac (fun p q => im (hm p q)) (fun p q => re (nl p q)) (fun p q => - re (hm p q)) (fun p q => im (nl p q)).
(** 147-153 *)
Definition jac_plus (a b : jacobian) : jacobian := mkJac (tplus (dp_dt a) (dp_dt b)) (tplus (dp_dv a) (dp_dv b)) (tplus (dq_dt a) (dq_dt b)) (tplus (dq_dv a) (dq_dv b)).
(** 687-695 *)
Definition jacobian_diagonal_component (f_v_inv f : cvalue) : jacobian := mkJac (diag (vneg (vim f))) (diag (vre f_v_inv)) (diag (vre f)) (diag (vim f_v_inv)).
(** 703-714: the tensors are not transposed *)
Definition transpose_multiply_weight (j : jacobian) (m : flow) : jacobian :=
  let w_p := vinv (f_p_var m) in let w_q := vinv (f_q_var m) in mkJac (weigh w_p (dp_dt j)) (weigh w_q (dq_dt j)) (weigh w_p (dp_dv j)) (weigh w_q (dq_dv j)).
(** 722-728 *)
Definition add_lhs (w f : jacobian) (b : gain) : gain :=
  mkGain (tplus (g_pt b) (tplus (mmul (dp_dt w) (dp_dt f)) (mmul (dp_dv w) (dq_dt f)))) (tplus (g_pv b) (tplus (mmul (dp_dt w) (dp_dv f)) (mmul (dp_dv w) (dq_dv f))))
         (tplus (g_qt b) (tplus (mmul (dq_dt w) (dp_dt f)) (mmul (dq_dv w) (dq_dt f)))) (tplus (g_qv b) (tplus (mmul (dq_dt w) (dp_dv f)) (mmul (dq_dv w) (dq_dv f))))
         (q_pt b) (q_pv b) (q_qt b) (q_qv b) (r_p b) (r_q b).
(** 737-743 *)
Definition add_rhs (w : jacobian) (m : flow) (f : cvalue) (r : rhs) : rhs :=
  let delta : cvalue := fun p => csub o (f_value m p) (f p) in
  mkRhs (vplus (eta_t r) (vplus (mvec (dp_dt w) (vre delta)) (mvec (dp_dv w) (vim delta)))) (vplus (eta_v r) (vplus (mvec (dq_dt w) (vre delta)) (mvec (dq_dv w) (vim delta)))) (tau_p r) (tau_q r).
(** 745-750 *)
Definition add_injection_jacobian (j : jacobian) (b : gain) : gain :=
  mkGain (g_pt b) (g_pv b) (g_qt b) (g_qv b) (tplus (q_pt b) (dp_dt j)) (tplus (q_pv b) (dp_dv j)) (tplus (q_qt b) (dq_dt j)) (tplus (q_qv b) (dq_dv j)) (r_p b) (r_q b).
Definition set_r (p q : rtensor) (b : gain) : gain := mkGain (g_pt b) (g_pv b) (g_qt b) (g_qv b) (q_pt b) (q_pv b) (q_qt b) (q_qv b) p q.

Section Iteration.
Variables (xs : nat -> unknown) (u : nat -> cvalue).
(** 647-679 *)
Definition angle_measurement (b : nat) (m : voltage_sensor) : option value :=
  if s_full m then Some (fun p => arg (s_volt m p))
  else if (b =? (if has_voltage slack_bus then slack_bus else first_voltage)) && negb has_angle then Some reference else None.
Definition add_voltage (b : nat) (r : row) : row :=
  match voltage b with
  | None => r
  | Some m =>
      let w := one / s_var m in
      let w_theta := match angle_measurement b m with Some _ => w | None => zero end in
      let delta_theta := match angle_measurement b m with Some a => vminus a (theta (xs b)) | None => v0 end in
      let delta_v := vminus (cabs_or_real m) (v (xs b)) in
      at_rhs (at_entry r b (fun k => mkGain (tplus (g_pt k) (diag (fun _ => w_theta))) (g_pv k) (g_qt k) (tplus (g_qv k) (diag (fun _ => w)))
                                       (q_pt k) (q_pv k) (q_qt k) (q_qv k) (r_p k) (r_q k)))
        (fun e => mkRhs (vplus (eta_t e) (mvec (diag (fun _ => w_theta)) delta_theta)) (vplus (eta_v e) (mvec (diag (fun _ => w)) delta_v)) (tau_p e) (tau_q e))
  end.
(** 459-471 *)
Definition add_shunt (b : nat) (ys : ctensor) (m : flow) (r : row) : row :=
  let hm := hm_complex_form (cneg ys) (outer (u b) (tconj (u b))) in
  let nl := columns hm (vinv (v (xs b))) in
  let f := sum_row hm in
  let j := jac_plus (calculate_jacobian hm nl) (jacobian_diagonal_component (sum_row nl) f) in
  let w := transpose_multiply_weight j m in
  at_rhs (at_entry r b (add_lhs w j)) (add_rhs w m f).
(** 504-515, 532-545, 561-568: the derivatives of a flow with respect to the voltages at its own side and at the other, and the flow *)
Inductive flow_kind : Type := power_flow | local_flow | global_flow.
Definition flow_jacobian (k : flow_kind) (y_own y_other : ctensor) (u_own u_other : cvalue) (v_own v_other : value) : jacobian * jacobian * cvalue :=
  let hm_own := hm_complex_form y_own (outer u_own (tconj u_own)) in
  let hm_other := hm_complex_form y_other (outer u_own (tconj u_other)) in
  match k with
  | power_flow =>
      let f := sum_row (cplus hm_own hm_other) in
      (jac_plus (calculate_jacobian hm_own (columns hm_own (vinv v_own))) (jacobian_diagonal_component (weigh_value (vinv v_own) f) f),
       calculate_jacobian hm_other (columns hm_other (vinv v_other)), f)
  | local_flow =>
      let hat_own := columns hm_own (vinv v_own) in
      let hat_other := columns hm_other (vinv v_own) in
      let f := sum_row (cplus hat_own hat_other) in
      let j := calculate_jacobian hat_own (columns hat_own (vinv v_own)) in
      (mkJac (tplus (dp_dt j) (diag (vneg (vim f)))) (dp_dv j) (tplus (dq_dt j) (diag (vre f))) (dq_dv j),
       calculate_jacobian hat_other (columns hat_other (vinv v_other)), f)
  | global_flow =>
      let i_own : ctensor := fun p q => cmul o (y_own p q) (u_own q) in
      let i_other : ctensor := fun p q => cmul o (y_other p q) (u_other q) in
      (calculate_jacobian (cneg i_own) (columns i_own (vinv v_own)), calculate_jacobian (cneg i_other) (columns i_other (vinv v_other)), sum_row (cplus i_own i_other))
  end.
(** 579-587 *)
Definition multiply_add_branch_blocks (b c : nat) (left right : jacobian) (m : flow) (f : cvalue) (r : row) : row :=
  let w := transpose_multiply_weight left m in
  at_rhs (at_entry (at_entry r b (add_lhs w left)) c (add_lhs w right)) (add_rhs w m f).
(** 517-523, 547-553, 570-576: [b0] is the side of the branch at the row, [side] the side of the measurement *)
Definition add_flow (b c k : nat) (b0 : bool) (side : bool) (kind : flow_kind) (m : flow) (r : row) : row :=
  let own := if Bool.eqb side b0 then b else c in
  let other := if Bool.eqb side b0 then c else b in
  match flow_jacobian kind (branch_param k side side) (branch_param k side (negb side)) (u own) (u other) (v (xs own)) (v (xs other)) with
  | (j_own, j_other, f) => if Bool.eqb side b0 then multiply_add_branch_blocks b c j_own j_other m f r else multiply_add_branch_blocks b c j_other j_own m f r
  end.
(** 327-381: the measurements of a branch in the order of the code *)
Definition branch_flows (k : nat) : list (bool * flow_kind * flow) :=
  flat_map (fun side => match branch_power k side with Some m => [(side, power_flow, m)] | None => [] end) [false; true] ++
  flat_map (fun side => match branch_current k side with
    | Some (local_angle, m) => [(side, local_flow, m)] | Some (global_angle, m) => [(side, global_flow, m)] | None => [] end) [false; true].
(** 316-387: the entries of a branch at one bus, bff and btt, are passed over *)
Definition add_element (b c : nat) (r : row) (e : element) : row :=
  match e with
  | Shunt k => match shunt_power k with Some m => add_shunt b (shunt_param k) m r | None => r end
  | Branch k b0 b1 => if Bool.eqb b0 b1 then r else fold_left (fun r s => add_flow b c k b0 (fst (fst s)) (snd (fst s)) (snd s) r) (branch_flows k) r
  end.
(** 435-449 *)
Definition add_injection_row (b c : nat) (r : row) : row :=
  let hm := hm_complex_form (ybus b c) (outer (u b) (tconj (u c))) in
  let f := sum_row hm in
  at_rhs
    (at_entry (at_entry r c (add_injection_jacobian (calculate_jacobian hm (columns hm (vinv (v (xs c)))))))
       b (add_injection_jacobian (jacobian_diagonal_component (weigh_value (vinv (v (xs b))) f) f)))
    (fun e => mkRhs (eta_t e) (eta_v e) (vminus (tau_p e) (vre f)) (vminus (tau_q e) (vim f))).
(** 417-422 *)
Definition add_injection_diagonal (b : nat) (m : flow) (r : row) : row :=
  at_rhs (at_entry r b (set_r (diag (vneg (f_p_var m))) (diag (vneg (f_q_var m)))))
    (fun e => mkRhs (eta_t e) (eta_v e) (vplus (tau_p e) (vre (f_value m))) (vplus (tau_q e) (vim (f_value m)))).
(** 390-399, 410-413 *)
Definition add_injection (b c : nat) (r : row) : row :=
  match bus_injection b with
  | Some m => let r1 := add_injection_row b c r in if b =? c then add_injection_diagonal b m r1 else r1
  | None => if b =? c then at_entry r b (set_r (diag (fun _ => - one)) (diag (fun _ => - one))) else r
  end.
(** 284-400 *)
Definition add_column (b : nat) (r : row) (c : nat) : row :=
  add_injection b c (fold_left (add_element b c) (elements n_branch branch_bus shunts_per_bus b c) (if b =? c then add_voltage b r else r)).
Definition build_row (b : nat) : row := fold_left (add_column b) (seq 0 n) no_row.
(** 592-598, 96-99: the transpose of a block [[a, b], [c, d]] is [[a^T, c^T], [b^T, d^T]] *)
Definition transpose (t : rtensor) : rtensor := fun p q => t q p.
Definition qt_pt (i j : nat) : rtensor := transpose (q_pt (r_gain (build_row j) i)).
Definition qt_pv (i j : nat) : rtensor := transpose (q_qt (r_gain (build_row j) i)).
Definition qt_qt (i j : nat) : rtensor := transpose (q_pv (r_gain (build_row j) i)).
Definition qt_qv (i j : nat) : rtensor := transpose (q_qv (r_gain (build_row j) i)).
(** 603-614 *)
Definition add_multiplier (b : nat) (e : rhs) (c : nat) : rhs :=
  mkRhs (vplus (eta_t e) (vplus (mvec (qt_pt b c) (phi_p (xs c))) (mvec (qt_pv b c) (phi_q (xs c))))) (vplus (eta_v e) (vplus (mvec (qt_qt b c) (phi_p (xs c))) (mvec (qt_qv b c) (phi_q (xs c)))))
    (tau_p e) (tau_q e).
Definition rhs_of (b : nat) : rhs := fold_left (add_multiplier b) (seq 0 n) (r_rhs (build_row b)).
(** the equations that 198 solves *)
Definition total (f : nat -> value) : value := fun p => nsum o (map (fun j => f j p) (seq 0 n)).
Definition solution (d : nat -> unknown) : Prop :=
  forall b p, b < n -> p < np ->
    let k := r_gain (build_row b) in let e := rhs_of b in
    total (fun j => vplus (vplus (mvec (g_pt (k j)) (theta (d j))) (mvec (g_pv (k j)) (v (d j)))) (vplus (mvec (qt_pt b j) (phi_p (d j))) (mvec (qt_pv b j) (phi_q (d j))))) p = eta_t e p /\
    total (fun j => vplus (vplus (mvec (g_qt (k j)) (theta (d j))) (mvec (g_qv (k j)) (v (d j)))) (vplus (mvec (qt_qt b j) (phi_p (d j))) (mvec (qt_qv b j) (phi_q (d j))))) p = eta_v e p /\
    total (fun j => vplus (vplus (mvec (q_pt (k j)) (theta (d j))) (mvec (q_pv (k j)) (v (d j)))) (mvec (r_p (k j)) (phi_p (d j)))) p = tau_p e p /\
    total (fun j => vplus (vplus (mvec (q_qt (k j)) (theta (d j))) (mvec (q_qv (k j)) (v (d j)))) (mvec (r_q (k j)) (phi_q (d j)))) p = tau_q e p.
End Iteration.

(** ** The step: 780-820 *)
Definition all_zero (x : value) : bool := forallb (fun p => is_zero (x p)) (seq 0 np).
Definition angle_offset (xs d : nat -> unknown) : R := if has_angle then zero else theta (xs slack_bus) 0 + theta (d slack_bus) 0.
Definition iterate (xs d : nat -> unknown) : nat -> unknown := fun b =>
  mkX (fun p => theta (xs b) p + (theta (d b) p - angle_offset xs d)) (vplus (v (xs b)) (v (d b)))
    (match bus_injection b with Some m => if all_zero (f_p_var m) then vplus (phi_p (xs b)) (phi_p (d b)) else phi_p (xs b) | None => phi_p (xs b) end)
    (match bus_injection b with Some m => if all_zero (f_q_var m) then vplus (phi_q (xs b)) (phi_q (d b)) else phi_q (xs b) | None => phi_q (xs b) end).
Definition phasors (xs : nat -> unknown) : nat -> cvalue := fun b => phasor (xs b).
(** ** The unknowns of a run: the start and what an iteration makes of them *)
Inductive reached : (nat -> unknown) -> Prop :=
| reached_start : reached start_x
| reached_step : forall xs d, reached xs -> solution xs (phasors xs) d -> reached (iterate xs d).
End NewtonSE.
Arguments mkFlow {R}. Arguments mkSensor {R}. Arguments mkX {R}. Arguments mkJac {R}. Arguments mkGain {R}. Arguments mkRhs {R}. Arguments mkRow {R}.
