(** What an iteration of the iterative linear state estimation has to find: weighted least squares. *)
From Verif Require Import Common Numbers ShortCircuit LinearSE.

Section Spec.
Context {C : Type} (o : num_ops C).
Local Notation "a + b" := (n_add o a b) : num_scope. Local Notation "a * b" := (n_mul o a b) : num_scope. Local Notation "a - b" := (n_sub o a b) : num_scope.
Local Notation "a / b" := (n_div o a b) : num_scope. Local Notation "- a" := (n_opp o a) : num_scope.
Local Notation zero := (n_zero o). Local Notation one := (n_one o).
Local Open Scope num_scope.
Variables (cj cabs : C -> C) (positive : C -> bool) (nonneg : C -> Prop).
(** The numbers: conjugation is an automorphism, |x|^2 = x conj(x); the numbers that are real and at least zero; zero is decided. *)
Record se_laws : Prop := {
  se_num : num_laws o;
  se_conj_add : forall x y, cj (x + y) = cj x + cj y;
  se_conj_mul : forall x y, cj (x * y) = cj x * cj y;
  se_conj_conj : forall x, cj (cj x) = x;
  se_abs : forall x, cabs x * cabs x = x * cj x;
  se_abs_real : forall x, cj (cabs x) = cabs x;
  se_positive : forall x, positive x = true -> x <> zero;
  se_nonneg_real : forall x, nonneg x -> cj x = x;
  se_nonneg_square : forall x, nonneg (x * cj x);
  se_nonneg_add : forall x y, nonneg x -> nonneg y -> nonneg (x + y);
  se_nonneg_mul : forall x y, nonneg x -> nonneg y -> nonneg (x * y);
  se_nonneg_anti : forall x, nonneg x -> nonneg (- x) -> x = zero;
  se_zero : forall x : C, x = zero \/ x <> zero }.
Definition le (x y : C) : Prop := nonneg (y - x).
Definition abs2 (x : C) : C := x * cj x.

Variables (real direction : C -> C) (np n n_branch : nat) (branch_bus : nat -> bool -> option nat) (shunts : nat -> list nat).
Variables (branch_param : nat -> bool -> bool -> nat -> nat -> C) (shunt_param : nat -> nat -> nat -> C) (ybus : nat -> nat -> nat -> nat -> C).
Variables (voltage : nat -> option (voltage_measurement (C := C))) (branch_power : nat -> bool -> option (rand (C := C))) (branch_current : nat -> bool -> option (angle_type * rand (C := C))).
Variables (shunt_power bus_injection : nat -> option (rand (C := C))).
Local Notation volts := (nat -> nat -> C).

(** ** The grid at the voltages [z] *)
Definition through (y : nat -> nat -> C) (z : nat -> C) (p : nat) : C := nsum o (map (fun q => y p q * z q) (seq 0 np)).
(** the current into a branch at a side: the side that is not connected has no part in it *)
Definition flow (z : volts) (k : nat) (side : bool) (p : nat) : C :=
  let part b := match branch_bus k b with Some j => through (branch_param k side b) (z j) p | None => zero end in part false + part true.
(** the current into the grid at a bus *)
Definition injected (z : volts) (b p : nat) : C := nsum o (map (fun j => through (ybus b j) (z j) p) (seq 0 n)).

(** ** The measurements as phasors, with the angles of the voltages [u] *)
Definition seen (u : volts) (b p : nat) : C :=
  match voltage b with None => u b p | Some m => if full m then volt m p else real (volt m p) * direction (u b p) end.
(** the current that has the power [s] at the voltage [u] *)
Definition current_of (s u : C) : C := cj (s / u).
Definition at_side (u : volts) (k : nat) (side : bool) (p : nat) : C := match branch_bus k side with Some j => seen u j p | None => zero end.
(** the measured currents of a side with their variances *)
Definition flows (u : volts) (k : nat) (side : bool) : list (nat -> C * C) :=
  match branch_power k side with Some m => [fun p => (current_of (value m p) (at_side u k side p), variance m p)] | None => [] end ++
  match branch_current k side with
  | Some (global_angle, m) => [fun p => (value m p, variance m p)]
  | Some (local_angle, m) => [fun p => (cj (value m p) * direction (at_side u k side p), variance m p)]
  | None => []
  end.

(** ** The residuals with their variances *)
Definition residuals (u : volts) : list ((volts -> C) * C) :=
  flat_map (fun b => match voltage b with Some m => map (fun p => (fun z : volts => z b p - seen u b p, volt_var m)) (seq 0 np) | None => [] end) (seq 0 n) ++
  flat_map (fun k => flat_map (fun side => flat_map (fun m => map (fun p => (fun z : volts => flow z k side p - fst (m p), snd (m p))) (seq 0 np)) (flows u k side)) [false; true])
    (seq 0 n_branch) ++
  flat_map (fun b => flat_map (fun k => match shunt_power k with
    | Some m => map (fun p => (fun z : volts => - through (shunt_param k) (z b) p - current_of (value m p) (seen u b p), variance m p)) (seq 0 np) | None => [] end) (shunts b)) (seq 0 n) ++
  flat_map (fun b => match bus_injection b with
    | Some m => map (fun p => (fun z : volts => injected z b p - current_of (value m p) (seen u b p), variance m p)) (seq 0 np) | None => [] end) (seq 0 n).
(** The weighted sum of their squares. A residual without variance has to be zero, its term is then 0 whatever 1/0 is. *)
Definition cost (u z : volts) : C := nsum o (map (fun r => abs2 (fst r z) / snd r) (residuals u)).
Definition exact_met (u z : volts) : Prop := forall f v, In (f, v) (residuals u) -> v = zero -> f z = zero.
Definition least_squares (u x : volts) : Prop := exact_met u x /\ forall z, exact_met u z -> le (cost u x) (cost u z).
(** ** The measurements that are used have a variance that is not zero; the injection of a bus without appliances has none. *)
Definition usable (v : C) : Prop := nonneg v /\ v <> zero.
Record measurements_ok : Prop := {
  ok_voltage : forall b m, voltage b = Some m -> usable (volt_var m);
  ok_power : forall k side m p, branch_power k side = Some m -> usable (variance m p);
  ok_current : forall k side t m p, branch_current k side = Some (t, m) -> usable (variance m p);
  ok_shunt : forall k m p, shunt_power k = Some m -> usable (variance m p);
  ok_injection : forall b m p, bus_injection b = Some m -> nonneg (variance m p) }.
(** ** The sides of a branch are connected to buses of the sub-grid, to two different ones *)
Record branches_ok : Prop := {
  ok_bus : forall k side b, branch_bus k side = Some b -> b < n;
  ok_ends : forall k b, branch_bus k false = Some b -> branch_bus k true = Some b -> False }.
End Spec.
