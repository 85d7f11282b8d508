(** What it takes for an asymmetric iterative linear state estimation to be the symmetric one, three times: the measurements in both.
    The start of the estimation: math_solver/iterative_linear_se_solver.hpp 122-128; the iterations from there: 130-143. No proofs here. *)
From Verif Require Import Common Numbers ShortCircuit PowerFlow LinearSE BalancedSpec.

Section Measurements.
Context {C : Type} (o : num_ops C) (real : C -> C) (a : C).
Local Notation rot := (rotated o a).
Local Notation rand := (LinearSE.rand (C := C)).
Local Notation voltage_measurement := (LinearSE.voltage_measurement (C := C)).
(** A measurement in a symmetric calculation and the one in an asymmetric calculation. Voltage with angle: the phases b and c lag; without: the same magnitude in every phase *)
Definition same_voltage (m1 m3 : option voltage_measurement) : Prop :=
  match m1, m3 with
  | None, None => True
  | Some m1, Some m3 => full m3 = full m1 /\ volt_var m3 = volt_var m1 /\
      (if full m1 then forall p, p < 3 -> volt m3 p = rot p (volt m1 0) else forall p, p < 3 -> real (volt m3 p) = real (volt m1 0))
  | _, _ => False
  end.
(** power: the same in every phase, in per unit of that phase *)
Definition same_power (m1 m3 : option rand) : Prop :=
  match m1, m3 with
  | None, None => True
  | Some m1, Some m3 => forall p, p < 3 -> value m3 p = value m1 0 /\ variance m3 p = variance m1 0
  | _, _ => False
  end.
(** current: with an angle of its own phases b and c lag, with an angle relative to the voltage the phases are equal *)
Definition same_current (m1 m3 : option (angle_type * rand)) : Prop :=
  match m1, m3 with
  | None, None => True
  | Some (t1, m1), Some (t3, m3) => t3 = t1 /\
      forall p, p < 3 -> value m3 p = (match t1 with global_angle => rot p (value m1 0) | local_angle => value m1 0 end) /\ variance m3 p = variance m1 0
  | _, _ => False
  end.
(** 122-128: [mean p] = exp(i mean_angle_shift) of phase [p], [forth b] = exp(i phase_shift[b]) *)
Definition se_start (mean : nat -> C) (forth : nat -> C) : nat -> vec (C := C) := fun b p => n_mul o (mean p) (forth b).
(** measured_values.hpp 67: without a measured angle, ComplexValue<sym>{1.0} *)
Definition no_angle_mean (np : nat) : nat -> C := if np =? 1 then fun _ => n_one o else phasor o a (n_one o).
End Measurements.

Section Loop.
Context {C : Type} (step : (nat -> nat -> C) -> (nat -> nat -> C) -> Prop) (start : nat -> nat -> C).
(** 130-143: the voltages after [k] iterations *)
Inductive estimates : nat -> (nat -> nat -> C) -> Prop :=
  | es_start : estimates 0 start
  | es_next k u u' : estimates k u -> step u u' -> estimates (S k) u'.
End Loop.
