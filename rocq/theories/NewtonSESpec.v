(** What an iteration of the Newton-Raphson state estimation has to find: a step of the Gauss-Newton method for weighted least squares. *)
From Coq Require Import Reals.
From Verif Require Import Common Numbers NumbersPair LinearSE NewtonReals NewtonSE.
Local Open Scope R_scope.

Section Spec.
Local Notation cxo := (pair_num real_num). Local Notation conj := (cconj real_num). Local Notation ctimes := (cmul real_num). Local Notation cplus := (cadd real_num).
Variables (np n n_branch : nat) (branch_bus : nat -> bool -> option nat) (shunts : nat -> list nat).
Variables (branch_param : nat -> bool -> bool -> nat -> nat -> R * R) (shunt_param : nat -> nat -> nat -> R * R) (ybus : nat -> nat -> nat -> nat -> R * R).
Variables (voltage : nat -> option (voltage_sensor (R := R))) (branch_power : nat -> bool -> option (flow (R := R))) (branch_current : nat -> bool -> option (angle_type * flow (R := R))).
Variables (shunt_power bus_injection : nat -> option (flow (R := R))).

(** ** The voltages of the grid: angles and magnitudes *)
Record volts : Type := mkVolts { ang : nat -> nat -> R; mag : nat -> nat -> R }.
Definition direction_of (x : volts) (b p : nat) : R * R := (cos (ang x b p), sin (ang x b p)).
Definition phasor_of (x : volts) (b p : nat) : R * R := (mag x b p * cos (ang x b p), mag x b p * sin (ang x b p)).
Definition through (y : nat -> nat -> R * R) (z : nat -> R * R) (p : nat) : R * R := nsum cxo (map (fun q => ctimes (y p q) (z q)) (seq 0 np)).
(** the current into a branch at a side: the side that is not connected has no part in it *)
Definition flow_at (z : nat -> nat -> R * R) (k : nat) (side : bool) (p : nat) : R * R :=
  let part b := match branch_bus k b with Some j => through (branch_param k side b) (z j) p | None => (0, 0) end in cplus (part side) (part (negb side)).
(** the current into the grid at a bus *)
Definition injected (z : nat -> nat -> R * R) (b p : nat) : R * R := nsum cxo (map (fun j => through (ybus b j) (z j) p) (seq 0 n)).
Definition at_side (z : nat -> nat -> R * R) (k : nat) (side : bool) (p : nat) : R * R := match branch_bus k side with Some j => z j p | None => (0, 0) end.

(** ** What is measured *)
Inductive part : Type := active | reactive.
Definition take (c : part) (z : R * R) : R := match c with active => fst z | reactive => snd z end.
Inductive quantity : Type :=
| magnitude (b p : nat) | angle (b p : nat)
| branch_power_of (k : nat) (side : bool) (c : part) (p : nat)
| local_current_of (k : nat) (side : bool) (c : part) (p : nat)
| global_current_of (k : nat) (side : bool) (c : part) (p : nat)
| shunt_power_of (b k : nat) (c : part) (p : nat)
| injection_of (b : nat) (c : part) (p : nat).
(** a local current is the current relative to the voltage of its side, conjugated; the power of a shunt is what it gives *)
Definition quantity_at (q : quantity) (x : volts) : R :=
  match q with
  | magnitude b p => mag x b p
  | angle b p => ang x b p
  | branch_power_of k side c p => take c (ctimes (at_side (phasor_of x) k side p) (conj (flow_at (phasor_of x) k side p)))
  | local_current_of k side c p => take c (ctimes (at_side (direction_of x) k side p) (conj (flow_at (phasor_of x) k side p)))
  | global_current_of k side c p => take c (flow_at (phasor_of x) k side p)
  | shunt_power_of b k c p => - take c (ctimes (phasor_of x b p) (conj (through (shunt_param k) (phasor_of x b) p)))
  | injection_of b c p => take c (ctimes (phasor_of x b p) (conj (injected (phasor_of x) b p)))
  end.
(** The quantities that are measured, with the measured value and the variance. The angle of a voltage has the variance of the voltage. *)
Definition of_flow (f : part -> nat -> quantity) (m : flow (R := R)) : list (quantity * (R * R)) :=
  flat_map (fun p => [(f active p, (fst (f_value m p), f_p_var m p)); (f reactive p, (snd (f_value m p), f_q_var m p))]) (seq 0 np).
Definition measured : list (quantity * (R * R)) :=
  flat_map (fun b => match voltage b with
    | Some m => flat_map (fun p => (magnitude b p, (if s_full m then real_abs (s_volt m p) else fst (s_volt m p), s_var m)) ::
        (if s_full m then [(angle b p, (real_arg (s_volt m p), s_var m))] else [])) (seq 0 np)
    | None => [] end) (seq 0 n) ++
  flat_map (fun k => flat_map (fun side => match branch_power k side with Some m => of_flow (branch_power_of k side) m | None => [] end ++
      match branch_current k side with
      | Some (local_angle, m) => of_flow (local_current_of k side) m
      | Some (global_angle, m) => of_flow (global_current_of k side) m
      | None => []
      end) [false; true]) (seq 0 n_branch) ++
  flat_map (fun b => flat_map (fun k => match shunt_power k with Some m => of_flow (shunt_power_of b k) m | None => [] end) (shunts b)) (seq 0 n) ++
  flat_map (fun b => match bus_injection b with Some m => of_flow (injection_of b) m | None => [] end) (seq 0 n).

(** ** The derivative of a quantity along a change of the voltages *)
Definition along (x e : volts) (t : R) : volts := mkVolts (fun b p => ang x b p + t * ang e b p) (fun b p => mag x b p + t * mag e b p).
Definition slope (q : quantity) (x e : volts) (l : R) : Prop := derivable_pt_lim (fun t => quantity_at q (along x e t)) 0 l.
(** what is left of a measurement after the change [e], with the quantity taken as linear with the derivatives [D] *)
Definition left_over (D : quantity -> volts -> R) (x e : volts) (s : quantity * (R * R)) : R := fst (snd s) - quantity_at (fst s) x - D (fst s) e.
(** a measurement without variance is met *)
Definition exact_met (D : quantity -> volts -> R) (x e : volts) : Prop := forall s, In s measured -> snd (snd s) = 0 -> left_over D x e s = 0.
Definition linear_cost (D : quantity -> volts -> R) (x e : volts) : R := nsum real_num (map (fun s => left_over D x e s * left_over D x e s / snd (snd s)) measured).
(** The change [d] of the voltages [x] is the one after which the weighted squares of what is left are the least, among all changes after which the measurements without
    variance are met. *)
Definition gauss_newton_step (x d : volts) : Prop := exists D : quantity -> volts -> R,
  (forall s e, In s measured -> slope (fst s) x e (D (fst s) e)) /\ exact_met D x d /\ forall e, exact_met D x e -> linear_cost D x d <= linear_cost D x e.
(** The weighted squares of the residuals of the voltages [x] *)
Definition cost (x : volts) : R := nsum real_num (map (fun s => (fst (snd s) - quantity_at (fst s) x) * (fst (snd s) - quantity_at (fst s) x) / snd (snd s)) measured).
(** The measurements without variance are met, and in no direction that keeps them the weighted squares change at first order. *)
Definition stationary (x : volts) : Prop :=
  (forall s, In s measured -> snd (snd s) = 0 -> quantity_at (fst s) x = fst (snd s)) /\
  forall e, (forall s, In s measured -> snd (snd s) = 0 -> slope (fst s) x e 0) -> derivable_pt_lim (fun t => cost (along x e t)) 0 0.

(** ** The hypotheses *)
(** the variances; the injection of a bus without appliances has none *)
Record measurements_ok : Prop := {
  ok_voltage : forall b m, voltage b = Some m -> 0 < s_var m;
  ok_power : forall k side m p, branch_power k side = Some m -> 0 < f_p_var m p /\ 0 < f_q_var m p;
  ok_current : forall k side t m p, branch_current k side = Some (t, m) -> 0 < f_p_var m p /\ 0 < f_q_var m p;
  ok_shunt : forall k m p, shunt_power k = Some m -> 0 < f_p_var m p /\ 0 < f_q_var m p;
  ok_injection : forall b m p, bus_injection b = Some m -> 0 <= f_p_var m p /\ 0 <= f_q_var m p;
  (** currents with a global angle need a voltage with an angle (observability.hpp) *)
  ok_global : forall k side m, branch_current k side = Some (global_angle, m) -> exists b s, (b < n)%nat /\ voltage b = Some s /\ s_full s = true }.
Record branches_ok : Prop := {
  ok_bus : forall k side b, branch_bus k side = Some b -> (b < n)%nat;
  ok_ends : forall k b, branch_bus k false = Some b -> branch_bus k true = Some b -> False }.
(** a branch with a sensor is connected at both sides *)
Definition both_sides : Prop := forall k side, branch_power k side <> None \/ branch_current k side <> None -> branch_bus k false <> None /\ branch_bus k true <> None.
End Spec.
