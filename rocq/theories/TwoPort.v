(** Model of the admittances of branches in exact arithmetic:
    component/branch.hpp 69-79, 187-240, line.hpp, link.hpp, generic_branch.hpp, asym_line.hpp 95-126, transformer.hpp 254-343,
    three_winding_transformer.hpp 313-437 and branch3.hpp 96-106. The derivation of the per-unit admittances from the rated values is in [Ratings.v], the taps are in [Taps.v];
    here a branch has its per-unit series and shunt admittances, seen from the to side, and its ratio. *)
From Verif Require Import Common.

Section TwoPort.
(** DoubleComplex; a double is a number that is its own conjugate *)
Context {C : Type}.
Record cx_ops : Type := mkCx {
  c_0 : C; c_1 : C;
  c_add : C -> C -> C; c_sub : C -> C -> C; c_mul : C -> C -> C; c_div : C -> C -> C; c_neg : C -> C; c_inv : C -> C;
  c_conj : C -> C;
  c_abs : C -> C;                                  (* cabs *)
  c_small : C -> bool;                             (* cabs(y) < numerical_tolerance, common.hpp 86 *)
  c_eq0 : C -> bool;                               (* y == DoubleComplex{0.0, 0.0} *)
  c_rot : Z -> C }.                                (* std::exp(1.0i * (n * deg_30)) *)
Variable o : cx_ops.
Local Notation "a + b" := (c_add o a b). Local Notation "a - b" := (c_sub o a b). Local Notation "a * b" := (c_mul o a b).
Local Notation "a / b" := (c_div o a b). Local Notation "- a" := (c_neg o a).
Local Notation one := (c_1 o). Local Notation zero := (c_0 o).
Definition two : C := one + one.
Definition three : C := two + one.
Definition ten : C := (three + two) * two.
Definition half : C := one / two.                  (* 0.5 *)

(** calculation_parameters.hpp: BranchCalcParam, value[0..3] *)
Record two_port (T : Type) : Type := mkTwoPort { yff : T; yft : T; ytf : T; ytt : T }.
Arguments mkTwoPort {T}. Arguments yff {T}. Arguments yft {T}. Arguments ytf {T}. Arguments ytt {T}.
Definition map_two_port {A B : Type} (f : A -> B) (p : two_port A) : two_port B := mkTwoPort (f (yff p)) (f (yft p)) (f (ytf p)) (f (ytt p)).
Definition two_port0 : two_port C := mkTwoPort zero zero zero zero.

(** branch.hpp 187-219 *)
Definition calc_param_y_sym (from_status to_status : bool) (y_series y_shunt tap_ratio : C) : two_port C :=
  let tap := c_abs o tap_ratio in
  if negb (from_status && to_status) then
    if from_status || to_status then
      let branch_shunt := if c_small o y_shunt then zero else half * y_shunt + one / (one / y_series + two / y_shunt) in
      mkTwoPort (if from_status then (one / tap / tap) * branch_shunt else zero) zero zero (if to_status then branch_shunt else zero)
    else two_port0
  else
    let ytt := y_series + half * y_shunt in
    mkTwoPort ((one / tap / tap) * ytt) ((- one / c_conj o tap_ratio) * y_series) ((- one / tap_ratio) * y_series) ytt.

(** common/three_phase_tensor.hpp: values and tensors over the phases; the constructor with two numbers (63-67) has the first on the diagonal *)
Inductive phase : Type := PhA | PhB | PhC.
Definition phase_eqb (p q : phase) : bool := match p, q with PhA, PhA | PhB, PhB | PhC, PhC => true | _, _ => false end.
Definition vec : Type := phase -> C.
Definition mat : Type := phase -> phase -> C.
Definition tensor2 (s m : C) : mat := fun p q => if phase_eqb p q then s else m.
Definition mat0 : mat := fun _ _ => zero.
Definition dotv (m : mat) (u : vec) : vec := fun p => m p PhA * u PhA + m p PhB * u PhB + m p PhC * u PhC.
Definition dotm (a b : mat) : mat := fun p q => a p PhA * b PhA q + a p PhB * b PhB q + a p PhC * b PhC q.
Definition addm (a b : mat) : mat := fun p q => a p q + b p q.
Definition negm (a : mat) : mat := fun p q => - a p q.
Definition scale (c : C) (a : mat) : mat := fun p q => c * a p q.
(** Eigen's inverse of a matrix of three rows: cofactors divided by the determinant *)
Definition det (m : mat) : C :=
  m PhA PhA * (m PhB PhB * m PhC PhC - m PhB PhC * m PhC PhB)
  - m PhA PhB * (m PhB PhA * m PhC PhC - m PhB PhC * m PhC PhA)
  + m PhA PhC * (m PhB PhA * m PhC PhB - m PhB PhB * m PhC PhA).
Definition cofactor_t (m : mat) : mat := fun p q =>
  match p, q with
  | PhA, PhA => m PhB PhB * m PhC PhC - m PhB PhC * m PhC PhB
  | PhA, PhB => m PhA PhC * m PhC PhB - m PhA PhB * m PhC PhC
  | PhA, PhC => m PhA PhB * m PhB PhC - m PhA PhC * m PhB PhB
  | PhB, PhA => m PhB PhC * m PhC PhA - m PhB PhA * m PhC PhC
  | PhB, PhB => m PhA PhA * m PhC PhC - m PhA PhC * m PhC PhA
  | PhB, PhC => m PhA PhC * m PhB PhA - m PhA PhA * m PhB PhC
  | PhC, PhA => m PhB PhA * m PhC PhB - m PhB PhB * m PhC PhA
  | PhC, PhB => m PhA PhB * m PhC PhA - m PhA PhA * m PhC PhB
  | PhC, PhC => m PhA PhA * m PhB PhB - m PhA PhB * m PhB PhA
  end.
Definition inv (m : mat) : mat := fun p q => cofactor_t m p q / det m.
(** common/matrix_utils.hpp 12-18; the second takes the entry (1, 2) twice and leaves out (0, 2) *)
Definition average_of_diagonal_of_matrix (m : mat) : C := (m PhA PhA + m PhB PhB + m PhC PhC) / three.
Definition average_of_off_diagonal_of_matrix (m : mat) : C := (m PhA PhB + m PhB PhC + m PhB PhA + m PhB PhC + m PhC PhA + m PhC PhB) / (two * three).
(** common.hpp 81-82: a = exp(120 degrees), a2 = exp(240 degrees) *)
Definition a120 : C := c_rot o 4.
Definition a240 : C := c_rot o 8.
(** three_phase_tensor.hpp 449-459 *)
Definition get_sym_matrix : mat := fun p q =>
  match p, q with
  | PhA, _ | _, PhA => one
  | PhB, PhB => a240 | PhB, PhC => a120
  | PhC, PhB => a120 | PhC, PhC => a240
  end.
Definition get_sym_matrix_inv : mat := fun p q =>
  (match p, q with
  | PhA, _ | _, PhA => one
  | PhB, PhB => a120 | PhB, PhC => a240
  | PhC, PhB => a240 | PhC, PhC => a120
  end) / three.

(** branch.hpp 221-240 *)
Definition calc_param_y_asym (from_status to_status : bool) (y1_series y1_shunt y0_series y0_shunt tap_ratio : C) : two_port mat :=
  let param1 := calc_param_y_sym from_status to_status y1_series y1_shunt tap_ratio in
  let param0 := calc_param_y_sym from_status to_status y0_series y0_shunt tap_ratio in
  let t (y1 y0 : C) : mat := tensor2 ((two * y1 + y0) / three) ((y0 - y1) / three) in
  mkTwoPort (t (yff param1) (yff param0)) (t (yft param1) (yft param0)) (t (ytf param1) (ytf param0)) (t (ytt param1) (ytt param0)).

(** the winding types: common/enum.hpp *)
Inductive winding : Type := Wye | WyeN | Delta | ZigZag | ZigZagN.
Definition is_wye_n (w : winding) : bool := match w with WyeN => true | _ => false end.
Definition is_delta (w : winding) : bool := match w with Delta => true | _ => false end.
Definition is_zigzag_n (w : winding) : bool := match w with ZigZagN => true | _ => false end.
(** transformer.hpp 318-328 *)
Definition zero_seq_available (this_side other_side : winding) : bool :=
  match this_side with
  | WyeN => is_wye_n other_side || is_delta other_side
  | ZigZagN => true
  | _ => false
  end.

(** The branches, with what their constructors and [transformer_params] compute. *)
Record transformer_par : Type := mkTransformerPar {
  tp_y_series : C; tp_y_shunt : C; tp_y0_shunt : C; tp_k : C; tp_clock : Z;
  tp_winding_from : winding; tp_winding_to : winding;
  tp_z_grounding_from : C; tp_z_grounding_to : C;
  tp_low_susceptance : C }.                        (* 317, times the imaginary unit *)
Inductive branch_kind : Type :=
  | KLine (y1_series y1_shunt y0_series y0_shunt : C)
  | KLink (y_link : C)                             (* common.hpp 101 *)
  | KGeneric (y1_series y1_shunt ratio : C)        (* ratio = k * exp(i theta) *)
  | KAsymLine (y_series_abc y_shunt_abc : mat)
  | KTransformer (t : transformer_par).

(** transformer.hpp 254-257 *)
Definition transformer_sym (fs ts : bool) (t : transformer_par) : two_port C :=
  calc_param_y_sym fs ts (tp_y_series t) (tp_y_shunt t) (tp_k t * c_rot o (tp_clock t)).
(** 264-315: the zero sequence before the low susceptance *)
Definition transformer_param0_path (fs ts : bool) (t : transformer_par) : two_port C :=
  let k := tp_k t in
  let path (y0 zg : C) : C := one / (one / y0 + zg) in
  let p :=
    if is_wye_n (tp_winding_from t) && is_wye_n (tp_winding_to t) then
      let flip := ((tp_clock t =? 2) || (tp_clock t =? 6) || (tp_clock t =? 10))%Z in
      let z0_series := one / tp_y_series t + three * (tp_z_grounding_to t + tp_z_grounding_from t / k / k) in
      calc_param_y_sym fs ts (one / z0_series) (tp_y0_shunt t) (k * c_rot o (if flip then 6 else 0)%Z)
    else if is_wye_n (tp_winding_from t) && fs then
      let y0 := if is_delta (tp_winding_to t) then tp_y0_shunt t + tp_y_series t else tp_y0_shunt t in
      if c_eq0 o y0 then two_port0
      else mkTwoPort (path y0 (three * tp_z_grounding_from t / k / k) / k / k) zero zero zero
    else if is_wye_n (tp_winding_to t) && ts then
      let y0 := if is_delta (tp_winding_from t) then tp_y0_shunt t + tp_y_series t else tp_y0_shunt t in
      if c_eq0 o y0 then two_port0
      else mkTwoPort zero zero zero (path y0 (three * tp_z_grounding_to t))
    else two_port0 in
  let p :=
    if is_zigzag_n (tp_winding_from t) && fs then
      mkTwoPort (one / ((one / tp_y_series t) / ten + three * tp_z_grounding_from t / k / k) / k / k) (yft p) (ytf p) (ytt p)
    else p in
  if is_zigzag_n (tp_winding_to t) && ts then
    mkTwoPort (yff p) (yft p) (ytf p) (one / ((one / tp_y_series t) / ten + three * tp_z_grounding_to t))
  else p.
(** 317-334 *)
Definition transformer_param0 (fs ts : bool) (t : transformer_par) : two_port C :=
  let p := transformer_param0_path fs ts t in
  let from_lacks := negb (zero_seq_available (tp_winding_from t) (tp_winding_to t)) && fs in
  let to_lacks := negb (zero_seq_available (tp_winding_to t) (tp_winding_from t)) && ts in
  mkTwoPort (if from_lacks then yff p + tp_low_susceptance t else yff p) (yft p) (ytf p) (if to_lacks then ytt p + tp_low_susceptance t else ytt p).
(** 258-263, 336-352 *)
Definition transformer_asym (fs ts : bool) (t : transformer_par) : two_port mat :=
  let param1 := transformer_sym fs ts t in
  let param2 := calc_param_y_sym fs ts (tp_y_series t) (tp_y_shunt t) (tp_k t * c_rot o (- tp_clock t)) in
  let param0 := transformer_param0 fs ts t in
  let y012 (y0 y1 y2 : C) : mat := fun p q => match p, q with PhA, PhA => y0 | PhB, PhB => y1 | PhC, PhC => y2 | _, _ => zero end in
  let yabc (y0 y1 y2 : C) : mat := dotm (dotm get_sym_matrix (y012 y0 y1 y2)) get_sym_matrix_inv in
  mkTwoPort (yabc (yff param0) (yff param1) (yff param2)) (yabc (yft param0) (yft param1) (yft param2))
    (yabc (ytf param0) (ytf param1) (ytf param2)) (yabc (ytt param0) (ytt param1) (ytt param2)).

(** asym_line.hpp 95-101 *)
Definition asym_line_sym (fs ts : bool) (y_series_abc y_shunt_abc : mat) : two_port C :=
  calc_param_y_sym fs ts
    (average_of_diagonal_of_matrix y_series_abc - average_of_off_diagonal_of_matrix y_series_abc)
    (average_of_diagonal_of_matrix y_shunt_abc - average_of_off_diagonal_of_matrix y_shunt_abc) one.
(** asym_line.hpp 103-126: the shunt of a branch open at one side is used only if every entry of the matrix reaches the tolerance *)
Definition all_phases (f : phase -> bool) : bool := f PhA && f PhB && f PhC.
Definition asym_line_asym (fs ts : bool) (y_series_abc y_shunt_abc : mat) : two_port mat :=
  if negb (fs && ts) then
    if fs || ts then
      let branch_shunt :=
        if all_phases (fun p => all_phases (fun q => negb (c_small o (y_shunt_abc p q)))) then
          addm (scale half y_shunt_abc) (inv (addm (inv y_series_abc) (scale two (inv y_shunt_abc))))
        else mat0 in
      mkTwoPort (if fs then branch_shunt else mat0) mat0 mat0 (if ts then branch_shunt else mat0)
    else mkTwoPort mat0 mat0 mat0 mat0
  else
    let ytt := addm y_series_abc (scale half y_shunt_abc) in
    mkTwoPort ytt (negm y_series_abc) (negm y_series_abc) ytt.

(** sym_calc_param and asym_calc_param of each class: line.hpp 63-68, link.hpp, generic_branch.hpp 77-81 (None: NotImplementedError) *)
Definition sym_calc_param (fs ts : bool) (b : branch_kind) : two_port C :=
  match b with
  | KLine y1 ysh1 _ _ => calc_param_y_sym fs ts y1 ysh1 one
  | KLink y => calc_param_y_sym fs ts y zero one
  | KGeneric y ysh ratio => calc_param_y_sym fs ts y ysh ratio
  | KAsymLine ys ysh => asym_line_sym fs ts ys ysh
  | KTransformer t => transformer_sym fs ts t
  end.
Definition asym_calc_param (fs ts : bool) (b : branch_kind) : option (two_port mat) :=
  match b with
  | KLine y1 ysh1 y0 ysh0 => Some (calc_param_y_asym fs ts y1 ysh1 y0 ysh0 one)
  | KLink y => Some (calc_param_y_asym fs ts y zero y zero one)
  | KGeneric _ _ _ => None
  | KAsymLine ys ysh => Some (asym_line_asym fs ts ys ysh)
  | KTransformer t => Some (transformer_asym fs ts t)
  end.
(** branch.hpp 69-79, 82-84 *)
Definition energized (fs ts connected_to_source : bool) : bool := connected_to_source && (fs || ts).
Definition calc_param_sym (fs ts connected_to_source : bool) (b : branch_kind) : two_port C :=
  if energized fs ts connected_to_source then sym_calc_param fs ts b else two_port0.
Definition calc_param_asym (fs ts connected_to_source : bool) (b : branch_kind) : option (two_port mat) :=
  if energized fs ts connected_to_source then asym_calc_param fs ts b else Some (mkTwoPort mat0 mat0 mat0 mat0).

(** three_winding_transformer.hpp 313-437, branch3.hpp 96-106: three transformers to the dummy node, connected there always *)
Definition branch3_calc_param_sym (s1 s2 s3 connected_to_source : bool) (t1 t2 t3 : transformer_par) : list (two_port C) :=
  if connected_to_source && (s1 || s2 || s3) then
    [calc_param_sym s1 true true (KTransformer t1); calc_param_sym s2 true true (KTransformer t2); calc_param_sym s3 true true (KTransformer t3)]
  else [two_port0; two_port0; two_port0].
Definition branch3_calc_param_asym (s1 s2 s3 connected_to_source : bool) (t1 t2 t3 : transformer_par) : list (two_port mat) :=
  if connected_to_source && (s1 || s2 || s3) then
    [transformer_asym s1 true t1; transformer_asym s2 true t2; transformer_asym s3 true t3]
  else let z := mkTwoPort mat0 mat0 mat0 mat0 in [z; z; z].
End TwoPort.
Arguments cx_ops : clear implicits.
Arguments mkTwoPort {T}. Arguments yff {T}. Arguments yft {T}. Arguments ytf {T}. Arguments ytt {T}.
