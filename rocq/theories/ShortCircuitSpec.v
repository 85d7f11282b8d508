(** What faults mean: the phases they connect, the conditions at the faulted bus and the balance of currents. *)
From Verif Require Import Common Component Numbers ShortCircuit.

(** docs/user_manual/components.md 1116-1127: which phases (0, 1, 2 for a, b, c) a fault connects, by its type and the given phase; an unspecified phase is the default.
    None: not supported. *)
Definition unspecified (phase : Z) : bool := ((phase =? -1) || (phase =? na_IntS))%Z.
Definition documented_phases (t : fault_type) (phase : Z) : option (list nat) :=
  match t with
  | three_phase => if unspecified phase || (phase =? 0)%Z then Some [0; 1; 2] else None
  | single_phase_to_ground =>
      if unspecified phase || (phase =? 1)%Z then Some [0] else if (phase =? 2)%Z then Some [1] else if (phase =? 3)%Z then Some [2] else None
  | two_phase | two_phase_to_ground =>
      if unspecified phase || (phase =? 6)%Z then Some [1; 2] else if (phase =? 4)%Z then Some [0; 1] else if (phase =? 5)%Z then Some [0; 2] else None
  end.

Section Spec.
Context {C : Type} (o : num_ops C).
Local Notation "a + b" := (n_add o a b) : num_scope. Local Notation "a * b" := (n_mul o a b) : num_scope. Local Notation "a - b" := (n_sub o a b) : num_scope.
Local Notation zero := (n_zero o).
Local Open Scope num_scope.

(** The conditions of a fault between the phases [p1] (and [p2]) of a bus with voltages [u], with the current [i] into the fault. *)
Definition boundary (np : nat) (t : fault_type) (p1 p2 : nat) (y : admittance) (u i : nat -> C) : Prop :=
  match t with
  | three_phase => forall p, p < np -> match y with Bolted => u p = zero | Through y => i p = y * u p end
  | single_phase_to_ground =>
      (forall p, p < np -> p <> p1 -> i p = zero) /\ match y with Bolted => u p1 = zero | Through y => i p1 = y * u p1 end
  | two_phase =>
      (forall p, p < np -> p <> p1 -> p <> p2 -> i p = zero) /\ i p1 + i p2 = zero /\
      match y with Bolted => u p1 = u p2 | Through y => i p1 = y * (u p1 - u p2) end
  | two_phase_to_ground =>
      (forall p, p < np -> p <> p1 -> p <> p2 -> i p = zero) /\ u p1 = u p2 /\
      match y with Bolted => u p1 = zero | Through y => i p1 + i p2 = y * u p1 end
  end.
(** the phases that a fault of this type connects, in a calculation with [np] phases *)
Definition phases_fit (np : nat) (t : fault_type) (p1 p2 : nat) : Prop :=
  match t with
  | three_phase => np = 1 \/ np = 3
  | single_phase_to_ground => np = 3 /\ p1 < 3
  | _ => np = 3 /\ p1 < 3 /\ p2 < 3 /\ p1 <> p2
  end.
(** The current that flows from bus [b] into the grid is the sum of what the sources at the bus give minus what its faults take. *)
Definition balanced (np n : nat) (ybus : nat -> nat -> nat -> nat -> C) (u : nat -> nat -> C) (sources : list (nat -> C)) (faults : list (nat -> C)) (b : nat) : Prop :=
  forall p, p < np ->
  nsum o (map (fun j => nsum o (map (fun q => ybus b j p q * u j q) (seq 0 np))) (seq 0 n)) = nsum o (map (fun i => i p) sources) - nsum o (map (fun i => i p) faults).
Definition is_bolted (y : admittance (C := C)) : bool := match y with Bolted => true | Through _ => false end.
(** A source that does not couple the phases, as with equal zero and positive sequence impedances. *)
Definition uncoupled (y : nat -> nat -> C) : Prop := forall p q, p <> q -> y p q = zero.
End Spec.
