(** Specification: sensors that are enough for the state estimation. *)
From Verif Require Import Common Numbers ShortCircuit LinearSE LinearSESpec EstimateOrderSpec.

Section Spec.
Context {C : Type} (o : num_ops C) (cj : C -> C) (np n : nat) (e : problem C).
Local Notation zero := (n_zero o).
Local Notation volts := (nat -> nat -> C).
(** an injection at bus [b] that is known exactly in phase [p], as that of a bus without appliances *)
Definition exact (b p : nat) : Prop := exists m, pr_injection e b = Some m /\ variance m p = zero.
(** No exactly known injection follows from the other ones: a combination of them that is zero at all voltages has only weights zero. *)
Definition independent : Prop := forall w : volts,
  (forall b p, b < n -> p < np -> exact b p \/ w b p = zero) ->
  (forall z : volts, nsum o (map (fun b => nsum o (map (fun p => n_mul o (cj (LinearSESpec.injected o np n (pr_y e) z b p)) (w b p)) (seq 0 np))) (seq 0 n)) = zero) ->
  forall b p, b < n -> p < np -> w b p = zero.

(** ** Buses with a voltage that follows from measurements, one after the other *)
(** a matrix of admittances that only has no currents without voltages; with one phase: an admittance that is not zero *)
Definition injective (y : nat -> nat -> C) : Prop := forall v, (forall p, p < np -> LinearSESpec.through o np y v p = zero) -> forall p, p < np -> v p = zero.
Definition flow_measured (k : nat) (side : bool) : Prop := pr_power e k side <> None \/ pr_current e k side <> None.
Inductive known : nat -> Prop :=
  (** the voltage is measured *)
  | known_voltage b : b < n -> pr_voltage e b <> None -> known b
  (** a power or current is measured at a side of a branch to a bus with a known voltage *)
  | known_flow b c k side t : known b -> c < n -> k < pr_branches e -> pr_bus e k side = Some b -> pr_bus e k (negb side) = Some c ->
      flow_measured k t -> injective (pr_branch e k t (negb side)) -> known c
  (** the power of a shunt of the bus is measured *)
  | known_shunt b k : b < n -> In k (pr_shunts e b) -> pr_shunt_power e k <> None -> injective (pr_shunt e k) -> known b
  (** the injection of a bus is measured or zero, and of the bus and its neighbours all but one have known voltages *)
  | known_injection b c : b < n -> c < n -> pr_injection e b <> None -> (forall j, j < n -> j <> c -> known j \/ (forall p q, pr_y e b j p q = zero)) ->
      injective (pr_y e b c) -> known c.
End Spec.
