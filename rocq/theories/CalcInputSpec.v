(** What the input of the solvers has to contain. *)
From Verif Require Import Common Container Topology TopologySpec TopologyProps Coupling CouplingSpec Registration RegistrationSpec.

Definition at2 {A} (vs : list (list A)) (g q : nat) : option A := match nth_error vs g with Some l => nth_error l q | None => None end.

(** The vectors [vs] of [n] math models contain exactly the parameters of the components of this kind with [takes], each at its own place,
    and the place belongs to the object [p] (bus, load, branch, ...) of math model [g] that the component belongs to. *)
Definition filled {A} (data : ctype -> list (Z * cinput)) (n : nat) (kind : gettable) (takes : centry -> Prop) (belongs : centry -> nat -> nat -> Prop)
    (gr : nat -> grouped) (place : nat -> option (nat * nat)) (param : centry -> A -> Prop) (vs : list (list A)) : Prop :=
  length vs = n /\
  forall g q v, at2 vs g q = Some v <-> exists k e p, nth_error (components data kind) k = Some e /\ takes e /\ place k = Some (g, q) /\
    group_at (gr g) q = Some p /\ belongs e g p /\ param e v.
(** A component that takes part and whose object is in the calculation has a place. *)
Definition all_placed (data : ctype -> list (Z * cinput)) (kind : gettable) (takes : centry -> Prop) (belongs : centry -> nat -> nat -> Prop)
    (place : nat -> option (nat * nat)) : Prop :=
  forall k e g p, nth_error (components data kind) k = Some e -> takes e -> belongs e g p -> exists q, place k = Some (g, q).
(** Different components have different places. *)
Definition own_places (data : ctype -> list (Z * cinput)) (kind : gettable) (takes : centry -> Prop) (place : nat -> option (nat * nat)) : Prop :=
  forall k k' e e' a, nth_error (components data kind) k = Some e -> nth_error (components data kind) k' = Some e' -> takes e -> takes e' ->
    place k = Some a -> place k' = Some a -> k = k'.
Definition given {A} (data : ctype -> list (Z * cinput)) n kind takes belongs gr place (param : centry -> A -> Prop) vs : Prop :=
  filled data n kind takes belongs gr place param vs /\ all_placed data kind takes belongs place /\ own_places data kind takes place.

Section Places.
Context {P LT : Type}.
Variable data : ctype -> list (Z * cinput).
Variable s : model_state (P := P) (LT := LT).
(** An appliance or voltage sensor belongs to the bus of its node. *)
Definition at_bus (e : centry) (g p : nat) : Prop :=
  exists x i, (e_in e = IAppliance x \/ e_in e = IVoltageSensor x \/ e_in e = IFault x) /\ number_of data (GExact Node) x i /\ bus (st_search s) i = Some (g, p).
(** A voltage regulator belongs to the load or generator that it regulates. *)
Definition at_generator (e : centry) (g p : nat) : Prop :=
  exists x i, e_in e = IVoltageRegulator x /\ number_of data GGenericLoadGen x i /\ snd (load_gens (st_coupled s)) i = Some (g, p).
(** A sensor belongs to the place of the measured object; sensors of three-winding transformers to the branch of the measured side. *)
Definition object_at (ty : Container.terminal) (x : Z) (g p : nat) : Prop :=
  let b := cp_branches (st_coupled s) in
  match ty with
  | t_branch_from | t_branch_to => exists i, number_of data GBranch x i /\ owner_pos b (From_branch i) = Some (g, p)
  | t_branch3_1 => exists i, number_of data GBranch3 x i /\ owner_pos b (From_branch3 i Side1) = Some (g, p)
  | t_branch3_2 => exists i, number_of data GBranch3 x i /\ owner_pos b (From_branch3 i Side2) = Some (g, p)
  | t_branch3_3 => exists i, number_of data GBranch3 x i /\ owner_pos b (From_branch3 i Side3) = Some (g, p)
  | t_source => exists i, number_of data (GExact Source) x i /\ snd (sources (st_coupled s)) i = Some (g, p)
  | t_shunt => exists i, number_of data (GExact Shunt) x i /\ snd (shunts (st_coupled s)) i = Some (g, p)
  | t_load | t_generator => exists i, number_of data GGenericLoadGen x i /\ snd (load_gens (st_coupled s)) i = Some (g, p)
  | t_node => exists i, number_of data (GExact Node) x i /\ bus (st_search s) i = Some (g, p)
  | t_invalid => False
  end.
Definition at_measured (e : centry) (g p : nat) : Prop :=
  exists x ty, (e_in e = IPowerSensor x ty \/ e_in e = ICurrentSensor x ty) /\ object_at ty x g p.
Definition sensor_of (tys : list Container.terminal) (e : centry) : Prop :=
  exists x ty, (e_in e = IPowerSensor x ty \/ e_in e = ICurrentSensor x ty) /\ In ty tys.
(** The node of a fault or appliance. *)
Definition node_entry (e n : centry) : Prop := exists x, (e_in e = IAppliance x \/ e_in e = IFault x) /\ In n (components data (GExact Node)) /\ e_id n = x.
End Places.
