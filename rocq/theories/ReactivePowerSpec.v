(** What the division of reactive power among the voltage regulators of a bus means. *)
From Coq Require Import QArith Qabs.
From Verif Require Import Common ReactivePower.
Close Scope Q_scope. Open Scope nat_scope.

Definition qsum (l : list Q) : Q := fold_right Qplus 0%Q l.
(** the sum over the phases *)
Definition all_phases (np : nat) (q : nat -> Q) : Q := qsum (map q (seq 0 np)).
(** [l] is a load or generator of the bus that is switched on and controlled by the switched on regulator [r]. *)
Definition regulates (load_gens : list nat) (status : nat -> bool) (regulator_of : nat -> option regulator) (l : nat) (r : regulator) : Prop :=
  In l load_gens /\ status l = true /\ regulator_of l = Some r /\ r_status r = true.
Definition at_limit (r : regulator) (q : Q) : Prop := (exists m, q_max r = Some m /\ (q == m)%Q) \/ (exists m, q_min r = Some m /\ (q == m)%Q).
(** within the limits that are given, up to a tolerance *)
Definition within (tol : Q) (r : regulator) (q : Q) : Prop :=
  (forall m, q_max r = Some m -> (q <= m + tol)%Q) /\ (forall m, q_min r = Some m -> (m - tol <= q)%Q).
Definition contains_zero (r : regulator) : Prop := (forall m, q_max r = Some m -> (0 <= m)%Q) /\ (forall m, q_min r = Some m -> (m <= 0)%Q).
(** the limit that binds when power is to be supplied ([up]) or taken up; amounts are counted in that direction *)
Definition amount (up : bool) (q : Q) : Q := if up then q else (- q)%Q.
Definition bound (up : bool) (r : regulator) : option Q := if up then q_max r else q_min r.
(** The even division: everybody takes the same [level], unless that exceeds its limit, which it takes then. *)
Definition even (tol : Q) (up : bool) (level : Q) (r : regulator) (q : Q) : Prop :=
  ((q == level)%Q /\ within tol r q) \/ (exists m, bound up r = Some m /\ (q == m)%Q /\ (amount up m + tol < amount up level)%Q).
(** the reactive power that the regulated loads and generators have to supply *)
Definition unregulated (load_gens : list nat) (status : nat -> bool) (regulator_of : nat -> option regulator) : list nat :=
  filter (fun l => match regulator_of l with Some r => negb (status l && r_status r) | None => true end) load_gens.
Definition required (load_gens : list nat) (status : nat -> bool) (regulator_of : nat -> option regulator) (s : nat -> power) (injection : nat -> Q) (p : nat) : Q :=
  (injection p - qsum (map (fun l => pw_q (s l) p) (unregulated load_gens status regulator_of)))%Q.
(** the reactive power that is required in the direction [up] is within the sum of the limits *)
Definition regulated (load_gens : list nat) (status : nat -> bool) (regulator_of : nat -> option regulator) : list nat :=
  filter (fun l => match regulator_of l with Some r => status l && r_status r | None => false end) load_gens.
Definition allowed (tol : Q) (up : bool) (regs : list nat) (regulator_of : nat -> option regulator) (q : Q) : Prop :=
  (exists l r, In l regs /\ regulator_of l = Some r /\ bound up r = None) \/
  (exists limit : nat -> Q, (forall l r, In l regs -> regulator_of l = Some r -> bound up r = Some (limit l)) /\ (amount up q <= amount up (qsum (map limit regs)) + tol)%Q).
