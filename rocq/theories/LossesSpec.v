(** Specification for C63: a component that has only resistances and no source inside cannot give active power to the grid. *)
From Coq Require Import Reals.
From Verif Require Import Common TwoPort TwoPortSpec Units Ratings.
Local Open Scope R_scope.

(** the active power that flows into a component at a terminal with voltage [u], where the current [i] flows into it; in three phases the sum *)
Definition active (u i : C) : R := re (cmul u (conj i)).
Definition active3 (u i : phase -> C) : R := active (u PhA) (i PhA) + active (u PhB) (i PhB) + active (u PhC) (i PhC).
(** Whatever the voltages at its two sides, a branch takes at one side at least as much active power as it gives at the other. *)
Definition passive (p : two_port C) : Prop := forall u_from u_to i_from i_to : C,
  injects complex_ops p u_from u_to i_from i_to -> 0 <= active u_from i_from + active u_to i_to.
Definition passive3 (p : two_port mat) : Prop := forall u_from u_to i_from i_to : phase -> C,
  injects3 complex_ops p u_from u_to i_from i_to -> 0 <= active3 u_from i_from + active3 u_to i_to.
(** resistances of coupled wires: no currents make them give power *)
Definition dissipative (r : phase -> phase -> R) : Prop := forall x : phase -> R,
  0 <= x PhA * (r PhA PhA * x PhA + r PhA PhB * x PhB + r PhA PhC * x PhC) + x PhB * (r PhB PhA * x PhA + r PhB PhB * x PhB + r PhB PhC * x PhC)
       + x PhC * (r PhC PhA * x PhA + r PhC PhB * x PhB + r PhC PhC * x PhC).
Definition dissipative4 (r : wire -> wire -> R) : Prop := forall x : wire -> R,
  let row v := x v * (r v (conductor PhA) * x (conductor PhA) + r v (conductor PhB) * x (conductor PhB) + r v (conductor PhC) * x (conductor PhC) + r v neutral * x neutral) in
  0 <= row (conductor PhA) + row (conductor PhB) + row (conductor PhC) + row neutral.
(** Whatever the switches and the voltages, a branch does not generate active power, in symmetric calculations and, if it takes part in them, in asymmetric ones. *)
Definition never_generates (b : @branch_kind C) : Prop := forall from_status to_status connected_to_source : bool,
  passive (calc_param_sym complex_ops from_status to_status connected_to_source b) /\
  forall p, calc_param_asym complex_ops from_status to_status connected_to_source b = Some p -> passive3 p.
