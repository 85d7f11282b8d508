(** Specification for C62: volts, amperes and the tests of the nameplate, without the model's per-unit system. The circuits are those of [TwoPortSpec.v]. *)
From Coq Require Import Reals.
From Verif Require Import Common TwoPort TwoPortSpec Units Ratings.
Local Open Scope R_scope.

(** The voltage between phase and earth, in volts, that a per-unit phasor stands for at a node of rated voltage [u_rated], and the current in amperes: the base
    power is one MVA. See [C62_reported] for what the user is told of them. *)
Definition volts (u_rated : R) (u : C) : C := cscale (u_rated / sqrt 3) u.
Definition amps (u_rated : R) (i : C) : C := cscale (1000000 / (sqrt 3 * u_rated)) i.

(** In the short-circuit test of a transformer its rated current flows and the voltage across it is [uk] times the rated voltage; the losses are [pk]. A negative
    [uk] stands for a capacitive reactance. [z] in ohms, at the side of rated voltage [u]. *)
Definition rated_current (sn u : R) : R := sn / (sqrt 3 * u).
Definition short_circuit_test (uk pk sn u : R) (z : C) : Prop :=
  sqrt 3 * (cabs z * rated_current sn u) = Rabs uk * u /\
  3 * (re z * (rated_current sn u * rated_current sn u)) = pk /\
  (0 <= uk -> 0 <= im z) /\ (uk <= 0 -> im z <= 0).
(** In the no-load test the rated voltage is applied and the current is [i0] times the rated current; the losses are [p0]. *)
Definition no_load_test (i0 p0 sn u : R) (y : C) : Prop :=
  cabs y * (u / sqrt 3) = i0 * rated_current sn u /\
  3 * (re y * ((u / sqrt 3) * (u / sqrt 3))) = p0 /\
  im y <= 0.

(** the circuit of a branch in volts and amperes, in a given position of the switches: series impedance [z] in ohms and shunt admittance [y] in siemens at the to side *)
Definition si_circuit (fs ts : bool) (z y n : C) (u1_rated u2_rated : R) (u_from u_to i_from i_to : C) : Prop :=
  pi_circuit complex_ops fs ts (cinv z) y n (volts u1_rated u_from) (volts u2_rated u_to) (amps u1_rated i_from) (amps u2_rated i_to).
(** wires coupled by a matrix of impedances: the voltage along each of them is the sum of what the currents in all of them induce. The neutral is earthed
    at both ends, so there is no voltage along it. *)
Definition along_phases (z : phase -> phase -> C) (du i : phase -> C) : Prop :=
  forall p, du p = cadd (cadd (cmul (z p PhA) (i PhA)) (cmul (z p PhB) (i PhB))) (cmul (z p PhC) (i PhC)).
Definition along_wires (z : wire -> wire -> C) (du i : phase -> C) : Prop :=
  exists i_n, forall w : wire,
    (match w return C with conductor p => du p | neutral => (0, 0) end : C)
    = cadd (cadd (cadd (cmul (z w (conductor PhA)) (i PhA)) (cmul (z w (conductor PhB)) (i PhB))) (cmul (z w (conductor PhC)) (i PhC))) (cmul (z w neutral) i_n).

(** With one side open the calculation leaves out a shunt admittance of less than 1e-8 in per unit; and the open end must not resonate with the series impedance. *)
Definition open_end_regular (fs ts : bool) (u2_rated : R) (z y : C) : Prop :=
  fs && ts = true \/
  ((y = (0, 0) \/ 1 / 100000000 * (1000000 / (u2_rated * u2_rated)) <= cabs y) /\ cadd y (cscale 2 (cinv z)) <> (0, 0)).
