(** Model of how the constructors of the branches turn their input, in ohms, farads and rated values, into per-unit admittances:
    component/line.hpp 26-37, generic_branch.hpp 36-56, asym_line.hpp 27-43, 58-93, line_utils.hpp 12-19, common/three_phase_tensor.hpp 70-74, 95-98, 245-247,
    transformer.hpp 42-92, 166-173, 183-251, 317, three_winding_transformer.hpp 286-416, common/common.hpp 86, 93-107. No proofs here.
    Doubles are real numbers, as in [Units.v], so there is no rounding; a value that may be left out (NaN) is an option. Statuses are those of [TwoPort.v]. *)
From Coq Require Import Reals ZArith Bool List.
From Verif Require Import Common Component TwoPort Taps Units.
Import ListNotations.
Local Open Scope R_scope.

(** std::complex<double> for [TwoPort.v]; deg_30 is pi / 6 *)
Definition cneg (z : C) : C := (- re z, - im z).
Definition c_is_zero (z : C) : bool := if Req_EM_T (re z) 0 then (if Req_EM_T (im z) 0 then true else false) else false.
Definition is_below_tolerance (z : C) : bool := if Rlt_dec (cabs z) numerical_tolerance then true else false.
Definition complex_ops : cx_ops C :=
  mkCx (0, 0) (1, 0) cadd csub cmul cdiv cneg cinv conj (fun z => (cabs z, 0)) is_below_tolerance c_is_zero (fun n => cexp (IZR n * (PI / 6))).
(** double for [Taps.v] *)
Definition real_ops : r_ops R := mkR 0 1 Rplus Rminus Rmult Rdiv Ropp Rinv Rmin IZR.

(** ** Line::Line, component/line.hpp 26-37; None: ConflictVoltage. [f] is the system frequency *)
Record line_in : Type := mkLineIn { li_r1 : R; li_x1 : R; li_c1 : R; li_tan1 : R; li_r0 : R; li_x0 : R; li_c0 : R; li_tan0 : R }.
Definition line_series (u r x : R) : C := cscale (/ base_y u) (cinv (r, x)).
Definition line_shunt (f u c tan : R) : C := cscale (2 * PI * f * c / base_y u) (tan, 1).
Definition line_new (f u1 u2 : R) (i : line_in) : option (@branch_kind C) :=
  if Rlt_dec numerical_tolerance (Rabs (u1 - u2)) then None
  else Some (KLine (line_series u1 (li_r1 i) (li_x1 i)) (line_shunt f u1 (li_c1 i) (li_tan1 i))
                   (line_series u1 (li_r0 i) (li_x0 i)) (line_shunt f u1 (li_c0 i) (li_tan0 i))).

(** ** Link: common/common.hpp 100-101, component/link.hpp *)
Definition g_link : R := 1000000 / (base_power_3p / 10000 / 10000).
Definition link_new : @branch_kind C := KLink (g_link, g_link).

(** ** GenericBranch::GenericBranch, component/generic_branch.hpp 36-56, 77-79. The angle is reduced by fmod(theta, 2 pi), which truncates towards zero, and exp takes it from there *)
Record generic_in : Type := mkGenericIn { gi_r1 : R; gi_x1 : R; gi_g1 : R; gi_b1 : R; gi_k : option R; gi_theta : option R }.
Definition truncate (x : R) : Z := if Rle_dec 0 x then Int_part x else (- Int_part (- x))%Z.
Definition fmod (x m : R) : R := x - IZR (truncate (x / m)) * m.
Definition or_else (x : option R) (d : R) : R := match x with Some v => v | None => d end.
Definition generic_new (u2 : R) (i : generic_in) : @branch_kind C :=
  let theta := match gi_theta i with Some t => fmod t (2 * PI) | None => 0 end in
  KGeneric (cscale (/ base_y u2) (cinv (gi_r1 i, gi_x1 i))) (cscale (/ base_y u2) (gi_g1 i, gi_b1 i)) (cscale (or_else (gi_k i) 1) (cexp theta)).

(** ** AsymLine::AsymLine, component/asym_line.hpp 27-43, 58-93. The input has a lower triangle for r and for x, with the neutral or without it; the neutral
    is taken into account if r_na or x_na is given. [tri]: diagonal, then ba, ca, cb; [tri4]: also nn, na, nb, nc *)
Record tri : Type := mkTri { t_aa : R; t_bb : R; t_cc : R; t_ba : R; t_ca : R; t_cb : R }.
Record tri4 : Type := mkTri4 { t4_abc : tri; t_nn : R; t_na : R; t_nb : R; t_nc : R }.
Inductive series_in : Type := three_wires (r x : tri) | four_wires (r x : tri4).
Inductive capacitance_in : Type := sequences (c0 c1 : R) | matrix (c : tri).
(** the constructor of a symmetric tensor from six numbers: common/three_phase_tensor.hpp 72-74 *)
Definition tensor6 {T : Type} (s1 s2 s3 m12 m13 m23 : T) : phase -> phase -> T := fun p q =>
  match p, q with
  | PhA, PhA => s1 | PhA, PhB => m12 | PhA, PhC => m13
  | PhB, PhA => m12 | PhB, PhB => s2 | PhB, PhC => m23
  | PhC, PhA => m13 | PhC, PhB => m23 | PhC, PhC => s3
  end.
Definition of_tri (t : tri) : phase -> phase -> R := tensor6 (t_aa t) (t_bb t) (t_cc t) (t_ba t) (t_ca t) (t_cb t).
(** 95-98: the wires a, b, c, n *)
Inductive wire : Type := conductor (p : phase) | neutral.
Definition of_tri4 (t : tri4) : wire -> wire -> R := fun v w =>
  let to_neutral p := match p with PhA => t_na t | PhB => t_nb t | PhC => t_nc t end in
  match v, w with
  | conductor p, conductor q => of_tri (t4_abc t) p q
  | conductor p, neutral | neutral, conductor p => to_neutral p
  | neutral, neutral => t_nn t
  end.
(** component/line_utils.hpp 12-19 *)
Definition kron_reduction (y : wire -> wire -> C) : @mat C :=
  let at_ p q := y (conductor p) (conductor q) in
  let y_aa := tensor6 (at_ PhA PhA) (at_ PhB PhB) (at_ PhC PhC) (at_ PhB PhA) (at_ PhC PhA) (at_ PhC PhB) in
  let y_ab p := y (conductor p) neutral in
  let y_ba p := y neutral (conductor p) in
  let y_bb_inv := cinv (y neutral neutral) in
  fun p q => csub (y_aa p q) (cmul (cmul (y_ba p) (y_ab q)) y_bb_inv).
(** 58-81 *)
Definition compute_z_series_from_input (i : series_in) : @mat C :=
  match i with
  | three_wires r x => fun p q => (of_tri r p q, of_tri x p q)
  | four_wires r x => kron_reduction (fun v w => (of_tri4 r v w, of_tri4 x v w))
  end.
(** 83-93 *)
Definition compute_c_matrix_from_input (i : capacitance_in) : phase -> phase -> R :=
  match i with
  | sequences c0 c1 => tensor2 ((2 * c1 + c0) / 3) ((c0 - c1) / 3)
  | matrix c => of_tri c
  end.
(** 27-43; None: ConflictVoltage *)
Definition asym_line_new (f u1 u2 : R) (z : series_in) (c : capacitance_in) : option (@branch_kind C) :=
  if Rlt_dec numerical_tolerance (Rabs (u1 - u2)) then None
  else Some (KAsymLine (fun p q => cscale (1 / base_y u1) (inv complex_ops (compute_z_series_from_input z) p q))
                       (fun p q => cscale (1 / base_y u1) (0, 2 * PI * f * compute_c_matrix_from_input c p q))).

(** ** Transformer: component/transformer.hpp 42-92, 166-173, 183-251, 317 *)
Record transformer_in : Type := mkTransformerIn {
  tr_u1 : R; tr_u2 : R; tr_sn : R; tr_uk : R; tr_pk : R; tr_i0 : R; tr_p0 : R;
  tr_i0_zero : option R; tr_p0_zero : option R;
  tr_from : winding; tr_to : winding; tr_clock : Z;
  tr_tap_at_from : bool; tr_taps : taps_in; tr_tap_size : R;
  tr_uk_min : option R; tr_uk_max : option R; tr_pk_min : option R; tr_pk_max : option R;
  tr_r_from : option R; tr_x_from : option R; tr_r_to : option R; tr_x_to : option R }.
(** 166-173 *)
Definition calculate_z_pu (r x : option R) (u : R) : C :=
  let base_z := u * u / base_power_3p in (or_else r 0 / base_z, or_else x 0 / base_z).
(** 204-220, in ohms at the to side; cabs(uk) of a double *)
Definition z_series (uk pk u2 sn : R) : C :=
  let uk_sign := if Rle_dec 0 uk then 1 else -1 in
  let z_series_abs := Rabs uk * u2 * u2 / sn in
  let r := pk * u2 * u2 / sn / sn in
  let z_series_imag_squared := z_series_abs * z_series_abs - r * r in
  (r, uk_sign * (if Rlt_dec 0 z_series_imag_squared then sqrt z_series_imag_squared else 0)).
(** 224-232 and 234-245, in siemens at the to side *)
Definition y_shunt (i0 p0 u2 sn : R) : C :=
  let y_shunt_abs := i0 * sn / u2 / u2 in
  let g := p0 / u2 / u2 in
  let y_shunt_imag_squared := y_shunt_abs * y_shunt_abs - g * g in
  (g, if Rlt_dec 0 y_shunt_imag_squared then - sqrt y_shunt_imag_squared else 0).
(** 185-198: the rated voltages at the tap position *)
Definition tap_voltages (t : taps) (i : transformer_in) : R * R :=
  if tr_tap_at_from i then (tap_voltage real_ops t (tr_u1 i) (tr_tap_size i), tr_u2 i) else (tr_u1 i, tap_voltage real_ops t (tr_u2 i) (tr_tap_size i)).
(** 42-92 and 183-251: the constructor, then [transformer_params] at the tap position it leaves; after updates at the position they leave, see C27 *)
Definition transformer_at (t : taps) (clock : Z) (i : transformer_in) (u1_rated u2_rated : R) : @transformer_par C :=
  let base_i_to := base_i u2_rated in
  let base_y_to := base_i_to * base_i_to / base_power_1p in
  let '(u1, u2) := tap_voltages t i in
  let k := (u1 / u2) / (u1_rated / u2_rated) in
  let i0_zero := or_else (tr_i0_zero i) (tr_i0 i) in
  let p0_zero := or_else (tr_p0_zero i) (tr_p0 i + tr_pk i * (i0_zero * i0_zero - tr_i0 i * tr_i0 i)) in
  let uk := adjust real_ops t (tr_uk i) (or_else (tr_uk_min i) (tr_uk i)) (or_else (tr_uk_max i) (tr_uk i)) in
  let pk := adjust real_ops t (tr_pk i) (or_else (tr_pk_min i) (tr_pk i)) (or_else (tr_pk_max i) (tr_pk i)) in
  let per_unit y := cscale (/ base_y_to) y in
  mkTransformerPar (per_unit (cinv (z_series uk pk u2 (tr_sn i)))) (per_unit (y_shunt (tr_i0 i) (tr_p0 i) u2 (tr_sn i)))
    (per_unit (y_shunt i0_zero p0_zero u2 (tr_sn i))) (k, 0) clock (tr_from i) (tr_to i)
    (calculate_z_pu (tr_r_from i) (tr_x_from i) u1_rated) (calculate_z_pu (tr_r_to i) (tr_x_to i) u2_rated)
    (0, - (1 / 100000000) * tr_sn i / base_power_3p / tr_uk i).
(** None: InvalidTransformerClock *)
Definition transformer_calc (i : transformer_in) (u1_rated u2_rated : R) : option (@transformer_par C) :=
  match transformer_new (tr_taps i) (tr_clock i) (tr_from i) (tr_to i) with
  | Some (t, clock) => Some (transformer_at t clock i u1_rated u2_rated)
  | None => None
  end.

(** ** ThreeWindingTransformer: component/three_winding_transformer.hpp 232-284 (adjustment of uk and pk for the tap left to [Taps.v]: given here as they are at the
    tap position, and so are the rated voltages), 304-416 *)
Record three_winding_in : Type := mkThreeWindingIn {
  w3_u1 : R; w3_u2 : R; w3_u3 : R; w3_sn1 : R; w3_sn2 : R; w3_sn3 : R;
  w3_uk12 : R; w3_uk13 : R; w3_uk23 : R; w3_pk12 : R; w3_pk13 : R; w3_pk23 : R; w3_i0 : R; w3_p0 : R;
  w3_w1 : winding; w3_w2 : winding; w3_w3 : winding; w3_clock12 : Z; w3_clock13 : Z;
  w3_r1 : option R; w3_x1 : option R; w3_r2 : option R; w3_x2 : option R; w3_r3 : option R; w3_x3 : option R }.
Definition leg (u1 u2 sn uk pk i0 p0 : R) (from to : winding) (clock : Z) (r x : option R) : transformer_in :=
  mkTransformerIn u1 u2 sn uk pk i0 p0 None None from to clock true (mkTapsIn 0 0 0 0) 0 None None None None r x (Some 0) (Some 0).
Definition convert_to_two_winding_transformers (i : three_winding_in) : transformer_in * transformer_in * transformer_in :=
  let '(uk1, uk2, uk3) := calculate_uk real_ops (w3_sn1 i) (w3_sn2 i) (w3_sn3 i) (w3_uk12 i) (w3_uk13 i) (w3_uk23 i) in
  let '(pk1, pk2, pk3) := calculate_pk real_ops (w3_sn1 i) (w3_sn2 i) (w3_sn3 i) (w3_pk12 i) (w3_pk13 i) (w3_pk23 i) in
  (leg (w3_u1 i) (w3_u1 i) (w3_sn1 i) uk1 pk1 (w3_i0 i) (w3_p0 i) WyeN WyeN 0 (w3_r1 i) (w3_x1 i),
   leg (w3_u2 i) (w3_u1 i) (w3_sn2 i) uk2 pk2 0 0 (w3_w2 i) (w3_w1 i) (12 - w3_clock12 i) (w3_r2 i) (w3_x2 i),
   leg (w3_u3 i) (w3_u1 i) (w3_sn3 i) uk3 pk3 0 0 (w3_w3 i) (w3_w1 i) (12 - w3_clock13 i) (w3_r3 i) (w3_x3 i)).
