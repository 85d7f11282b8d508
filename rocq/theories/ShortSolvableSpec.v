(** Specification for C65: the outcomes of a short circuit that the laws of circuits allow. *)
From Coq Require Import Reals.
From Verif Require Import Common Component Numbers ShortCircuit ShortCircuitSpec Units.
(** Voltages [u] at the buses and currents [i] into the faults: at every bus the currents balance, every source gives the current of its admittance and voltage, every fault
    meets the conditions of its type. *)
Definition outcome {C} (o : num_ops C) (np n : nat) (ybus : nat -> nat -> nat -> nat -> C) (sources : nat -> list nat) (y_source : nat -> nat -> nat -> C) (u_source : nat -> nat -> C)
    (faults : nat -> list nat) (y_fault : nat -> admittance) (t : fault_type) (p1 p2 : nat) (u : nat -> nat -> C) (i : nat -> nat -> nat -> C) : Prop :=
  forall b, b < n ->
  balanced o np n ybus u (map (fun s p => n_sub o (nsum o (map (fun q => n_mul o (y_source s p q) (u_source s q)) (seq 0 np))) (nsum o (map (fun q => n_mul o (y_source s p q) (u b q)) (seq 0 np)))) (sources b))
    (map (i b) (faults b)) b /\
  forall f, In f (faults b) -> boundary o np t p1 p2 (y_fault f) (u b) (i b f).
(** What both theorems conclude: the prepared equations have exactly one solution. There are no two outcomes. And, if sources at buses with bolted faults to ground do not couple the phases
    (see C43), the reported voltages and currents are an outcome, so the only one. *)
Definition one_outcome {C} (o : num_ops C) (np n : nat) (ybus : nat -> nat -> nat -> nat -> C) (sources : nat -> list nat) (y_source : nat -> nat -> nat -> C) (u_source : nat -> nat -> C)
    (faults : nat -> list nat) (y_fault : nat -> admittance) (ft : fault_type) (p1 p2 : nat) : Prop :=
  let e := prepare o np ybus sources y_source u_source faults y_fault ft p1 p2 n in
  let allowed := outcome o np n ybus sources y_source u_source faults y_fault ft p1 p2 in
  exists x, solves o np n e x /\ (forall x', solves o np n e x' -> forall b p, (b < n) -> (p < np) -> x' b p = x b p) /\
  (forall u i u' i', allowed u i -> allowed u' i' ->
     forall b p, (b < n) -> (p < np) -> u b p = u' b p /\ nsum o (map (fun f => i b f p) (faults b)) = nsum o (map (fun f => i' b f p) (faults b))) /\
  ((forall b, (b < n) -> ft = single_phase_to_ground \/ ft = two_phase_to_ground -> (exists f, In f (faults b) /\ y_fault f = Bolted) -> forall s, In s (sources b) -> uncoupled o (y_source s)) ->
   let out := run_short_circuit o np ybus sources y_source u_source faults y_fault ft p1 p2 n x in allowed (out_u out) (out_fault out)).
(** the impedance of a fault does not generate active power *)
Definition passive_fault (y : admittance (C := Units.C)) : Prop := match y with Bolted => True | Through y => (0 <= re y)%R end.
