(** Conversion between the values in SI units that the user gives and reads and the per-unit values the
    solvers work with: parameters of loads, generators, shunts, sources, faults and sensors, and
    [get_output] / [get_sc_output] of the components.  No proofs here.

    The paths cited are below power_grid_model_c/power_grid_model/include/power_grid_model/.
    Simplifications: doubles are real numbers, so there is no rounding and no NaN; values that may be
    "not given" are options; the energized flag, ids and update functions are left out. *)
From Coq Require Import Reals List.
Import ListNotations.
Local Open Scope R_scope.

(** ** Complex numbers, std::complex<double>, as pairs *)
Definition C : Type := (R * R)%type.
Definition re (z : C) : R := fst z.
Definition im (z : C) : R := snd z.
Definition cadd (a b : C) : C := (re a + re b, im a + im b).
Definition csub (a b : C) : C := (re a - re b, im a - im b).
Definition cmul (a b : C) : C := (re a * re b - im a * im b, re a * im b + im a * re b).
Definition cscale (k : R) (z : C) : C := (k * re z, k * im z).
Definition conj (z : C) : C := (re z, - im z).
Definition norm2 (z : C) : R := re z * re z + im z * im z.
(** std::abs / cabs: common/three_phase_tensor.hpp:241-249. *)
Definition cabs (z : C) : R := sqrt (norm2 z).
Definition cinv (z : C) : C := (re z / norm2 z, - im z / norm2 z).
Definition cdiv (a b : C) : C := cmul a (cinv b).
(** exp(1.0i * angle) *)
Definition cexp (angle : R) : C := (cos angle, sin angle).
(** std::arg: the angle in (-pi, pi], zero for zero *)
Definition arg (z : C) : R :=
  if Rlt_dec (im z) 0 then - acos (re z / cabs z) else acos (re z / cabs z).

(** ** One value, or one per phase: RealValue<sym>, ComplexValue<sym>;
    common/three_phase_tensor.hpp:21-172 *)
Inductive symmetry := symmetric | asymmetric.
Definition val (y : symmetry) (A : Type) : Type :=
  match y with symmetric => A | asymmetric => (A * A * A)%type end.
Definition vmap {A B : Type} (f : A -> B) (y : symmetry) : val y A -> val y B :=
  match y with
  | symmetric => fun x => f x
  | asymmetric => fun x => (f (fst (fst x)), f (snd (fst x)), f (snd x))
  end.
Definition vmap2 {A B D : Type} (f : A -> B -> D) (y : symmetry) : val y A -> val y B -> val y D :=
  match y with
  | symmetric => fun a b => f a b
  | asymmetric => fun a b =>
      (f (fst (fst a)) (fst (fst b)), f (snd (fst a)) (snd (fst b)), f (snd a) (snd b))
  end.
(** sum_val, max_val, mean_val: common/three_phase_tensor.hpp:282-302 *)
Definition sum_val (y : symmetry) : val y R -> R :=
  match y with symmetric => fun x => x | asymmetric => fun x => fst (fst x) + snd (fst x) + snd x end.
Definition max_val (y : symmetry) : val y R -> R :=
  match y with
  | symmetric => fun x => x
  | asymmetric => fun x => Rmax (Rmax (fst (fst x)) (snd (fst x))) (snd x)
  end.
Definition mean_val (y : symmetry) : val y R -> R :=
  match y with symmetric => fun x => x | asymmetric => fun x => (fst (fst x) + snd (fst x) + snd x) / 3 end.
Definition mean_cval (y : symmetry) (x : val y C) : C :=
  (mean_val y (vmap re y x), mean_val y (vmap im y x)).

(** the rotations a and a^2: common/common.hpp:81-82 *)
Definition a2 : C := (- (1 / 2), - sqrt 3 / 2).
Definition a1 : C := (- (1 / 2), sqrt 3 / 2).
(** a complex number taken as three phases, Vector(std::complex const&):
    common/three_phase_tensor.hpp:57-62 *)
Definition three_phases (x : C) : val asymmetric C := (x, cmul x a2, cmul x a1).
(** the same value in every phase, std::piecewise_construct and RealValue<asymmetric_t>{x}:
    common/three_phase_tensor.hpp:54-56, 173-188 *)
Definition piecewise {A : Type} (x : A) : val asymmetric A := (x, x, x).
(** pos_seq: common/three_phase_tensor.hpp:327-331 *)
Definition pos_seq (y : symmetry) : val y C -> C :=
  match y with
  | symmetric => fun x => x
  | asymmetric => fun x =>
      cscale (/ 3) (cadd (cadd (fst (fst x)) (cmul (snd (fst x)) a1)) (cmul (snd x) a2))
  end.
(** phase_mod_2pi: common/three_phase_tensor.hpp:231-236 *)
Definition phase_mod_2pi (phase : R) : R := arg (cexp phase).

(** ** Bases: common/common.hpp:93-96 *)
Definition base_power_3p : R := 1000000.
Definition base_power_1p : R := base_power_3p / 3.
Definition u_scale (y : symmetry) : R := match y with symmetric => 1 | asymmetric => / sqrt 3 end.
Definition base_power (y : symmetry) : R :=
  match y with symmetric => base_power_3p | asymmetric => base_power_1p end.
(** common/common.hpp:86 *)
Definition numerical_tolerance : R := 1 / 100000000.
(** base_i_ of appliances (component/appliance.hpp:34), of both sides of branches (component/line.hpp:27,
    link.hpp:23, transformer.hpp:68-69, generic_branch.hpp:49-50, three_winding_transformer.hpp:91-93)
    and of faults (component/fault.hpp:87), from the rated voltage of the node *)
Definition base_i (u_rated : R) : R := base_power_3p / u_rated / sqrt 3.
(** CurrentSensor::base_current_: component/current_sensor.hpp:93 *)
Definition base_current (u_rated : R) : R := base_power_3p * / sqrt 3 / u_rated.

(** ** Node::get_output: component/node.hpp:36-47 *)
Record node_output (y : symmetry) := mkNodeOutput {
  n_u_pu : val y R; n_u : val y R; n_u_angle : val y R; n_p : val y R; n_q : val y R }.
Arguments mkNodeOutput {y}. Arguments n_u_pu {y}. Arguments n_u {y}. Arguments n_u_angle {y}.
Arguments n_p {y}. Arguments n_q {y}.
Definition node_get_output (y : symmetry) (u_rated : R) (u_pu bus_injection : val y C) : node_output y :=
  let v := vmap cabs y u_pu in
  mkNodeOutput v (vmap (fun x => u_scale y * u_rated * x) y v) (vmap arg y u_pu)
    (vmap (fun s => base_power y * re s) y bus_injection)
    (vmap (fun s => base_power y * im s) y bus_injection).

(** Node::get_sc_output: component/node.hpp:48-61; a symmetric result is taken as three phases *)
Record node_sc_output := mkNodeSc { nsc_u_pu : val asymmetric R; nsc_u : val asymmetric R;
  nsc_u_angle : val asymmetric R }.
Definition to_phases (y : symmetry) : val y C -> val asymmetric C :=
  match y with symmetric => three_phases | asymmetric => fun x => x end.
Definition node_get_sc_output (y : symmetry) (u_rated : R) (u_pu : val y C) : node_sc_output :=
  let u := to_phases y u_pu in
  let v := vmap cabs asymmetric u in
  mkNodeSc v (vmap (fun x => u_scale asymmetric * u_rated * x) asymmetric v) (vmap arg asymmetric u).

(** ** Sides of branches: component/branch.hpp:93-112, component/branch3.hpp:112-141 *)
Record side_output (y : symmetry) := mkSide {
  b_p : val y R; b_q : val y R; b_i : val y R; b_s : val y R }.
Arguments mkSide {y}. Arguments b_p {y}. Arguments b_q {y}. Arguments b_i {y}. Arguments b_s {y}.
Definition side_get_output (y : symmetry) (u_rated : R) (s i : val y C) : side_output y :=
  mkSide (vmap (fun x => base_power y * re x) y s) (vmap (fun x => base_power y * im x) y s)
    (vmap (fun x => base_i u_rated * cabs x) y i) (vmap (fun x => base_power y * cabs x) y s).
(** what the loading of a branch refers to: line.hpp:41, link.hpp:28, transformer.hpp:95,
    generic_branch.hpp:59 with [None] for a rated power that is not given (also asym_line.hpp as line.hpp) *)
Inductive branch_rating := rated_current (i_n : R) | unrated | rated_power (sn : option R).
Definition loading (r : branch_rating) (max_s max_i : R) : R :=
  match r with
  | rated_current i_n => max_i / i_n
  | unrated => 0
  | rated_power None => 0
  | rated_power (Some sn) => max_s / sn
  end.
(** Branch::get_output: component/branch.hpp:93-112 *)
Record branch_output (y : symmetry) := mkBranch {
  br_from : side_output y; br_to : side_output y; br_loading : R }.
Arguments mkBranch {y}. Arguments br_from {y}. Arguments br_to {y}. Arguments br_loading {y}.
Definition branch_get_output (y : symmetry) (r : branch_rating) (u1 u2 : R) (s_f i_f s_t i_t : val y C)
  : branch_output y :=
  let f := side_get_output y u1 s_f i_f in
  let t := side_get_output y u2 s_t i_t in
  let max_s := Rmax (sum_val y (b_s f)) (sum_val y (b_s t)) in
  let max_i := Rmax (max_val y (b_i f)) (max_val y (b_i t)) in
  mkBranch f t (loading r max_s max_i).
(** Branch3::get_output: component/branch3.hpp:95-97, 112-141; three_winding_transformer.hpp:123-125 *)
Record branch3_output (y : symmetry) := mkBranch3 {
  b3_1 : side_output y; b3_2 : side_output y; b3_3 : side_output y;
  b3_loading_1 : R; b3_loading_2 : R; b3_loading_3 : R; b3_loading : R }.
Arguments mkBranch3 {y}. Arguments b3_1 {y}. Arguments b3_2 {y}. Arguments b3_3 {y}.
Arguments b3_loading_1 {y}. Arguments b3_loading_2 {y}. Arguments b3_loading_3 {y}. Arguments b3_loading {y}.
Definition branch3_get_output (y : symmetry) (sn1 sn2 sn3 u1 u2 u3 : R) (s1 i1 s2 i2 s3 i3 : val y C)
  : branch3_output y :=
  let o1 := side_get_output y u1 s1 i1 in
  let o2 := side_get_output y u2 s2 i2 in
  let o3 := side_get_output y u3 s3 i3 in
  let l1 := sum_val y (b_s o1) / sn1 in
  let l2 := sum_val y (b_s o2) / sn2 in
  let l3 := sum_val y (b_s o3) / sn3 in
  mkBranch3 o1 o2 o3 l1 l2 l3 (Rmax (Rmax l1 l2) l3).

(** ** Appliances: component/appliance.hpp:66-91; injection_direction in load_gen.hpp:120,141,
    source.hpp:139, shunt.hpp:109 *)
Inductive appliance := generator | load | source | shunt.
Definition injection_direction (k : appliance) : R :=
  match k with generator => 1 | load => -1 | source => 1 | shunt => -1 end.
Record appliance_output (y : symmetry) := mkAppliance {
  a_p : val y R; a_q : val y R; a_s : val y R; a_i : val y R; a_pf : val y R }.
Arguments mkAppliance {y}. Arguments a_p {y}. Arguments a_q {y}. Arguments a_s {y}. Arguments a_i {y}.
Arguments a_pf {y}.
Definition power_factor (p s : R) : R := if Rlt_dec s numerical_tolerance then 0 else p / s.
Definition appliance_get_output (y : symmetry) (k : appliance) (u_rated : R) (s i : val y C)
  : appliance_output y :=
  let p := vmap (fun x => base_power y * re x * injection_direction k) y s in
  let q := vmap (fun x => base_power y * im x * injection_direction k) y s in
  let s_abs := vmap (fun x => base_power y * cabs x) y s in
  mkAppliance p q s_abs (vmap (fun x => base_i u_rated * cabs x) y i) (vmap2 power_factor y p s_abs).

(** currents of appliances, sides of branches and faults in a short circuit: appliance.hpp:92-107,
    branch.hpp:122-139, branch3.hpp:143-170, fault.hpp:85-106.  [direction] is 1 for sides and faults. *)
Record current_sc_output := mkCurrentSc { sc_i : val asymmetric R; sc_i_angle : val asymmetric R }.
Definition get_sc_output (y : symmetry) (direction u_rated : R) (i : val y C) : current_sc_output :=
  let ip := to_phases y i in
  mkCurrentSc (vmap (fun x => base_i u_rated * cabs x) asymmetric ip)
    (vmap (fun x => arg (cscale direction x)) asymmetric ip).

(** ** Loads and generators: set_power and calc_param, component/load_gen.hpp:85-97, 117-139 *)
Definition vcomplex (y : symmetry) : val y R -> val y R -> val y C := vmap2 pair y.
Definition s_specified (ly : symmetry) (k : appliance) (p q : val ly R) : val ly C :=
  vmap2 (fun p q => (p * (injection_direction k / base_power ly), q * (injection_direction k / base_power ly)))
    ly p q.
Definition to_calculation (ly cy : symmetry) : val ly C -> val cy C :=
  match ly, cy with
  | symmetric, symmetric => fun x => x
  | asymmetric, symmetric => fun x => mean_cval asymmetric x
  | symmetric, asymmetric => fun x => piecewise x
  | asymmetric, asymmetric => fun x => x
  end.
Definition load_calc_param (ly cy : symmetry) (k : appliance) (p q : val ly R) : val cy C :=
  to_calculation ly cy (s_specified ly k p q).
(** calculate_load_gen_result: math_solver/common_solver_functions.hpp:386-409 *)
Inductive load_type := const_pq | const_y | const_i.
Definition load_power (t : load_type) (s u : C) : C :=
  match t with
  | const_pq => s
  | const_y => cscale (cabs u * cabs u) s
  | const_i => cscale (cabs u) s
  end.
Definition load_result (t : load_type) (cy : symmetry) (s u : val cy C) : val cy C * val cy C :=
  let s' := vmap2 (load_power t) cy s u in (s', vmap2 (fun s u => conj (cdiv s u)) cy s' u).

(** ** Voltage regulator: component/voltage_regulator.hpp:69-76, q_min and q_max as the solvers get them, in
    calculations of both symmetries *)
Definition regulator_limit (q : R) : R := q / base_power_3p.

(** ** Shunt: component/shunt.hpp:32, 37-49, 86-97; result in math_solver/y_bus.hpp:531-546 *)
Definition base_y (u_rated : R) : R := base_i u_rated / (u_rated / sqrt 3).
Definition shunt_y (u_rated g b : R) : C := cscale (/ base_y u_rated) (g, b).
(** symmetric: y1; asymmetric: ComplexTensor((2 y1 + y0) / 3, (y0 - y1) / 3) times the voltages *)
Definition tensor_dot (s m : C) (u : val asymmetric C) : val asymmetric C :=
  let '(ua, ub, uc) := u in
  (cadd (cmul s ua) (cadd (cmul m ub) (cmul m uc)),
   cadd (cmul m ua) (cadd (cmul s ub) (cmul m uc)),
   cadd (cmul m ua) (cadd (cmul m ub) (cmul s uc))).
Definition shunt_current (y : symmetry) (u_rated g1 b1 g0 b0 : R) : val y C -> val y C :=
  let y1 := shunt_y u_rated g1 b1 in
  let y0 := shunt_y u_rated g0 b0 in
  match y with
  | symmetric => fun u => cscale (-1) (cmul y1 u)
  | asymmetric => fun u =>
      vmap (cscale (-1)) asymmetric
        (tensor_dot (cscale (/ 3) (cadd (cscale 2 y1) y0)) (cscale (/ 3) (csub y0 y1)) u)
  end.
Definition shunt_result (y : symmetry) (u_rated g1 b1 g0 b0 : R) (u : val y C) : val y C * val y C :=
  let i := shunt_current y u_rated g1 b1 g0 b0 u in (vmap2 (fun u i => cmul u (conj i)) y u i, i).

(** ** Source: component/source.hpp:64, 73-92, and the admittance from sk, rx_ratio, z01_ratio
    (common/calculation_parameters of source: component/source.hpp:41-61) *)
Definition source_z1 (sk rx_ratio : R) : C :=
  let z_abs := base_power_3p / sk in
  let x1 := z_abs / sqrt (rx_ratio * rx_ratio + 1) in
  (x1 * rx_ratio, x1).
Definition source_y1 (sk rx_ratio : R) : C := cinv (source_z1 sk rx_ratio).
Definition source_y0 (sk rx_ratio z01_ratio : R) : C := cscale (/ z01_ratio) (source_y1 sk rx_ratio).
Definition source_u_ref (u_ref u_ref_angle : R) : C := cscale u_ref (cexp u_ref_angle).
Inductive voltage_scaling := scaling_minimum | scaling_maximum.
Definition c_factor (u_rated : R) (v : voltage_scaling) : R :=
  match v with
  | scaling_maximum => 11 / 10
  | scaling_minimum => if Rle_dec u_rated 1000 then 95 / 100 else 1
  end.

(** ** Fault: component/fault.hpp:59-67, an impedance that is not zero *)
Definition fault_y (u_rated r x : R) : C := cscale (u_rated * u_rated / base_power_3p) (cinv (r, x)).

(** ** Power sensors: component/power_sensor.hpp:57-63, 81-92, 128-136, 138-193 *)
Inductive terminal := at_load | at_shunt | at_generator | at_source | at_branch_side | at_node.
Definition convert_direction (t : terminal) : R := match t with at_load => -1 | at_shunt => -1 | _ => 1 end.
Definition s_measured (ss : symmetry) (t : terminal) (p q : val ss R) : val ss C :=
  vmap2 (fun p q => (convert_direction t * (1 / base_power ss) * p,
                     convert_direction t * (1 / base_power ss) * q)) ss p q.
Definition power_calc_value (ss cs : symmetry) (t : terminal) (p q : val ss R) : val cs C :=
  to_calculation ss cs (s_measured ss t p q).
(** variances of the active (or reactive) power: of the sigma given for it, or half the square of the
    sigma of the apparent power.  The value "infinite" for an infinite sigma is left out. *)
Definition power_variance (ss cs : symmetry) (apparent_sigma : R) (given : option (val ss R)) : val cs R :=
  let norm x := x * (1 / base_power ss) in
  match given with
  | None =>
      let v := norm apparent_sigma * norm apparent_sigma / 2 in
      match cs with symmetric => v | asymmetric => piecewise v end
  | Some sg =>
      let sq := vmap (fun x => norm x * norm x) ss sg in
      match ss, cs return val ss R -> val cs R with
      | symmetric, symmetric => fun x => x
      | asymmetric, symmetric => fun x => mean_val asymmetric x
      | symmetric, asymmetric => fun x => piecewise x
      | asymmetric, asymmetric => fun x => x
      end sq
  end.
(** s_measured_ - s, an element-wise difference with a single value taken for every phase, then
    process_mean_val: component/power_sensor.hpp:182-191, common/three_phase_tensor.hpp:304-311 *)
Definition power_difference (ss cs : symmetry) : val ss C -> val cs C -> val cs C :=
  match ss, cs with
  | symmetric, symmetric => fun m s => csub m s
  | asymmetric, symmetric => fun m s => mean_cval asymmetric (vmap (fun x => csub x s) asymmetric m)
  | symmetric, asymmetric => fun m s => vmap (fun x => csub m x) asymmetric s
  | asymmetric, asymmetric => fun m s => vmap2 csub asymmetric m s
  end.
Definition power_residual (ss cs : symmetry) (t : terminal) (p q : val ss R) (s : val cs C)
  : val cs R * val cs R :=
  let d := vmap (fun x => cscale (convert_direction t * base_power cs) x) cs
             (power_difference ss cs (s_measured ss t p q) s) in
  (vmap re cs d, vmap im cs d).

(** ** Voltage sensors: component/voltage_sensor.hpp:80-90, 119-172; [None] for an angle not measured *)
Definition u_pu_measured (ss : symmetry) (u_rated : R) (u : val ss R) : val ss R :=
  vmap (fun x => x * (1 / (u_rated * u_scale ss))) ss u.
Definition polar (m a : R) : C := cscale m (cexp a).
(** the magnitude alone is kept in the real part when no angle is measured *)
Inductive voltage_value (y : symmetry) := phasor (u : val y C) | magnitude (u : val y R).
Arguments phasor {y}. Arguments magnitude {y}.
Definition voltage_calc_value (ss cs : symmetry) (u_rated : R) (u : val ss R) (angle : option (val ss R))
  : voltage_value cs :=
  let m := u_pu_measured ss u_rated u in
  match angle with
  | Some a =>
      match cs return voltage_value cs with
      | symmetric => @phasor symmetric (pos_seq ss (vmap2 polar ss m a))
      | asymmetric => @phasor asymmetric (to_phases ss (vmap2 polar ss m a))
      end
  | None =>
      match cs return voltage_value cs with
      | symmetric => @magnitude symmetric (mean_val ss m)
      | asymmetric => @magnitude asymmetric
          (match ss return val ss R -> val asymmetric R with
           | symmetric => fun m => piecewise m | asymmetric => fun m => m end m)
      end
  end.
(** get_sym_output: component/voltage_sensor.hpp:150-163; the angle residual is NaN without an angle *)
Definition voltage_residual_sym (ss : symmetry) (u_rated : R) (um : val ss R) (angle : option (val ss R)) (u : C)
  : R * option R :=
  match voltage_calc_value ss symmetric u_rated um angle with
  | phasor u1 => ((cabs u1 - cabs u) * u_rated, Some (phase_mod_2pi (arg u1 - arg u)))
  | magnitude m => ((m - cabs u) * u_rated, None)
  end.
(** get_asym_output: component/voltage_sensor.hpp:165-172; the measured values of a symmetric sensor are
    one number, which the difference takes for every phase *)
Definition same_in_phases (ss : symmetry) : val ss R -> val asymmetric R :=
  match ss with symmetric => fun x => piecewise x | asymmetric => fun x => x end.
Definition voltage_residual_asym (ss : symmetry) (u_rated : R) (um : val ss R) (angle : option (val ss R))
  (u : val asymmetric C) : val asymmetric R * option (val asymmetric R) :=
  let m := same_in_phases ss (u_pu_measured ss u_rated um) in
  (vmap2 (fun m u => (m - cabs u) * u_rated / sqrt 3) asymmetric m u,
   option_map (fun a => vmap2 (fun a u => phase_mod_2pi (a - arg u)) asymmetric (same_in_phases ss a) u) angle).
(** the variance of every voltage measurement: component/voltage_sensor.hpp:130, 141 *)
Definition voltage_variance (ss : symmetry) (u_rated u_sigma : R) : R :=
  let s := u_sigma * (1 / (u_rated * u_scale ss)) in s * s.

(** ** Current sensors: component/current_sensor.hpp:91-99, 145-187; the phasor of the measurement in the
    calculation (common/statistics.hpp: PolarComplexRandVar to DecomposedComplexRandVar) is that of the
    sensor for the same symmetry, three phases of it for a symmetric sensor in an asymmetric
    calculation, and the positive sequence for an asymmetric sensor in a symmetric calculation *)
Definition current_calc_value (ss cs : symmetry) (u_rated : R) (i angle : val ss R) : val cs C :=
  let m := vmap2 polar ss (vmap (fun x => x * (1 / base_current u_rated)) ss i) angle in
  match cs return val cs C with
  | symmetric => pos_seq ss m
  | asymmetric => to_phases ss m
  end.
Inductive angle_type := local_angle | global_angle.
Definition local_current (t : angle_type) (i u : C) : C :=
  match t with
  | global_angle => i
  | local_angle => cmul (conj i) (cos (arg u), sin (arg u))
  end.
Definition current_residual (ss cs : symmetry) (t : angle_type) (u_rated : R) (im angle : val ss R) (i u : val cs C)
  : val cs R * val cs R :=
  let m := current_calc_value ss cs u_rated im angle in
  let o := vmap2 (local_current t) cs i u in
  (vmap2 (fun m o => (cabs m - cabs o) * base_current u_rated) cs m o,
   vmap2 (fun m o => phase_mod_2pi (arg m - arg o)) cs m o).
