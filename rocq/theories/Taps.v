(** Model of the construction of transformers, of what a tap position means, and of the star equivalent of three-winding transformers:
    component/transformer.hpp 42-92, 183-208, component/three_winding_transformer.hpp 34-118, 232-330, component/transformer_utils.hpp 33-60, common/common.hpp 157-160.
    Updates are [transformer_update] and [transformer3_update] of [Component.v]. Doubles are numbers of a field. *)
From Verif Require Import Common Component TwoPort.

(** common/common.hpp 157-160, for integers; % truncates towards zero *)
Definition map_to_cyclic_range (value period : Z) : Z := Z.rem (Z.rem value period + period) period.
(** transformer_utils.hpp 49-60 *)
Definition is_wye (w : winding) : bool := match w with Wye | WyeN => true | _ => false end.
Definition is_valid_clock (clock : Z) (winding_from winding_to : winding) : bool :=
  Bool.eqb (Z.rem clock 2 =? 0)%Z (Bool.eqb (is_wye winding_from) (is_wye winding_to)).

(** what the constructors read: the taps, the clock numbers and the windings (int8 values; na_IntS is -128) *)
Record taps_in : Type := mkTapsIn { ti_pos : Z; ti_min : Z; ti_max : Z; ti_nom : Z }.
Record taps : Type := mkTaps { tp_tap : tap; tp_nom : Z; tp_direction : Z }.
(** transformer.hpp 65-68, 82-87, 91 and three_winding_transformer.hpp 66-70, 98-104, 117 *)
Definition taps_new (i : taps_in) : taps :=
  let nom := if (ti_nom i =? na_IntS)%Z then 0%Z else ti_nom i in
  let pos := if (ti_pos i =? na_IntS)%Z then (if (ti_nom i =? na_IntS)%Z then 0%Z else ti_nom i) else ti_pos i in
  mkTaps (mkTap (tap_limit (ti_min i) (ti_max i) pos) (ti_min i) (ti_max i)) nom (if (ti_min i <? ti_max i)%Z then 1%Z else (-1)%Z).
(** transformer.hpp 42-92; None: InvalidTransformerClock *)
Definition transformer_new (i : taps_in) (clock : Z) (winding_from winding_to : winding) : option (taps * Z) :=
  if is_valid_clock clock winding_from winding_to then Some (taps_new i, map_to_cyclic_range clock 12) else None.
(** three_winding_transformer.hpp 34-118 *)
Definition three_winding_new (i : taps_in) (clock_12 clock_13 : Z) (w1 w2 w3 : winding) : option (taps * Z * Z) :=
  if negb (is_valid_clock clock_12 w1 w2) then None
  else if negb (is_valid_clock clock_13 w1 w3) then None
  else Some (taps_new i, map_to_cyclic_range clock_12 12, map_to_cyclic_range clock_13 12).
(** three_winding_transformer.hpp 313-403, the clocks: T1 has clock 0 and windings YNyn, T2 and T3 have the reversed clocks and windings; None: a constructor throws *)
Definition converted_clocks (clock_12 clock_13 : Z) (w1 w2 w3 : winding) : option (list Z) :=
  match transformer_new (mkTapsIn 0 0 0 0) 0 WyeN WyeN, transformer_new (mkTapsIn 0 0 0 0) (12 - clock_12) w2 w1, transformer_new (mkTapsIn 0 0 0 0) (12 - clock_13) w3 w1 with
  | Some (_, c1), Some (_, c2), Some (_, c3) => Some [c1; c2; c3]
  | _, _, _ => None
  end.

Section Values.
(** double *)
Context {R : Type}.
Record r_ops : Type := mkR {
  r_0 : R; r_1 : R; r_add : R -> R -> R; r_sub : R -> R -> R; r_mul : R -> R -> R; r_div : R -> R -> R; r_neg : R -> R; r_inv : R -> R;
  r_min : R -> R -> R;
  r_z : Z -> R }.                                  (* conversion of an integer *)
Variable o : r_ops.
Local Notation "a + b" := (r_add o a b). Local Notation "a - b" := (r_sub o a b). Local Notation "a * b" := (r_mul o a b). Local Notation "a / b" := (r_div o a b).

(** transformer_utils.hpp 33-47; the positions are integers converted to double, which is exact *)
Definition tap_adjust_impedance (tap_pos tap_min tap_max tap_nom : Z) (xk xk_min xk_max : R) : R :=
  if ((tap_pos <=? Z.max tap_nom tap_max) && (Z.min tap_nom tap_max <=? tap_pos))%Z then
    if (tap_max =? tap_nom)%Z then xk
    else xk + r_z o (tap_pos - tap_nom) * ((xk_max - xk) / r_z o (tap_max - tap_nom))
  else if (tap_min =? tap_nom)%Z then xk
  else xk + r_z o (tap_pos - tap_nom) * ((xk_min - xk) / r_z o (tap_min - tap_nom)).
Definition adjust (t : taps) (xk xk_min xk_max : R) : R :=
  tap_adjust_impedance (tap_pos (tp_tap t)) (tap_min (tp_tap t)) (tap_max (tp_tap t)) (tp_nom t) xk xk_min xk_max.
(** transformer.hpp 188-198 and three_winding_transformer.hpp 315-328: the rated voltage of the side with the tap changer *)
Definition tap_voltage (t : taps) (u tap_size : R) : R :=
  u + r_z o (tp_direction t * (tap_pos (tp_tap t) - tp_nom t)) * tap_size.
(** transformer.hpp 186-199: the off nominal ratio *)
Definition off_nominal_ratio (t : taps) (tap_at_from : bool) (u1 u2 tap_size u1_rated u2_rated : R) : R :=
  let u1' := if tap_at_from then tap_voltage t u1 tap_size else u1 in
  let u2' := if tap_at_from then u2 else tap_voltage t u2 tap_size in
  (u1' / u2') / (u1_rated / u2_rated).

(** three_winding_transformer.hpp 232-257; [uk_12] ... are already adjusted for the tap; 0.5 * x is x / 2 *)
Definition calculate_uk (sn_1 sn_2 sn_3 uk_12_tap uk_13_tap uk_23_tap : R) : R * R * R :=
  let uk_12 := uk_12_tap * sn_1 / r_min o sn_1 sn_2 in
  let uk_13 := uk_13_tap * sn_1 / r_min o sn_1 sn_3 in
  let uk_23 := uk_23_tap * sn_1 / r_min o sn_2 sn_3 in
  let half x := x / (r_1 o + r_1 o) in
  let uk_T1_prime := half (uk_12 + uk_13 - uk_23) in
  let uk_T2_prime := half (uk_12 + uk_23 - uk_13) in
  let uk_T3_prime := half (uk_13 + uk_23 - uk_12) in
  (uk_T1_prime, uk_T2_prime * (sn_2 / sn_1), uk_T3_prime * (sn_3 / sn_1)).
(** three_winding_transformer.hpp 259-284 *)
Definition calculate_pk (sn_1 sn_2 sn_3 pk_12_tap pk_13_tap pk_23_tap : R) : R * R * R :=
  let pk_12 := pk_12_tap * (sn_1 / r_min o sn_1 sn_2) * (sn_1 / r_min o sn_1 sn_2) in
  let pk_13 := pk_13_tap * (sn_1 / r_min o sn_1 sn_3) * (sn_1 / r_min o sn_1 sn_3) in
  let pk_23 := pk_23_tap * (sn_1 / r_min o sn_2 sn_3) * (sn_1 / r_min o sn_2 sn_3) in
  let half x := x / (r_1 o + r_1 o) in
  let pk_T1_prime := half (pk_12 + pk_13 - pk_23) in
  let pk_T2_prime := half (pk_12 + pk_23 - pk_13) in
  let pk_T3_prime := half (pk_13 + pk_23 - pk_12) in
  (pk_T1_prime, pk_T2_prime * (sn_2 / sn_1) * (sn_2 / sn_1), pk_T3_prime * (sn_3 / sn_1) * (sn_3 / sn_1)).
(** transformer.hpp 214-217: the series resistance, in ohms at the to side *)
Definition series_resistance (pk u2 sn : R) : R := pk * u2 * u2 / sn / sn.
End Values.
Arguments r_ops : clear implicits.
