(** What the scenarios of a batch should give, in terms of the components only. *)
From Verif Require Import Common Container ContainerSpec Component ComponentSpec ComponentFacts MainModel UpdateData UpdateSpec
  UpdateFacts UpdateDataFacts CacheSpec.
From Coq Require Import String.

Section Spec.
Context {O : DOps} {T P Opt R : Type} (orc : oracles T P Opt R).
Notation comps := (forall t, list (comp t)).
Notation mm := (mm (T := T) (P := P)).
Variable data : ctype -> list (Z * cinput).

(** What a user can do to a model besides batches: permanent updates and calculations. *)
Definition public_op (o : op (Opt := Opt)) : Prop :=
  match o with OpUpdate cached _ _ => cached = false | OpRestore _ => False | OpCalculate _ => True end.

(** [c'] is [c0] with the records of scenario [s] applied: every component has the values that the records meant for it
    ask for. *)
Definition scenario_components (d : upd_data) (s : nat) (c0 c' : comps) : Prop :=
  (forall t, List.length (c' t) = List.length (c0 t)) /\
  forall t i old, nth_error (c0 t) i = Some old ->
    exists new, nth_error (c' t) i = Some new /\ is_updated t old (meant_for data t (scenario_of (d t) s) i) new.

(** The conditions under which a scenario can be undone exactly (C07). *)
Definition undoable (d : upd_data) (n : nat) (c0 : comps) : Prop :=
  (forall t i x, nth_error (c0 t) i = Some x -> well_formed t x /\ exact_factors t x /\ shunt_defined t x) /\
  (forall s, s < n -> forall t i x, nth_error (c0 t) i = Some x ->
     Forall (fun u => base_available t x u /\ regulator_status_given t u) (meant_for data t (scenario_of (d t) s) i)) /\
  (forall s, s < n -> forall t r, In r (scenario_of (d t) s) -> regulator_status_given t (snd r)) /\
  (forall x, In x (c0 Fault) -> fault_sane x) /\
  (forall s, s < n -> forall i, List.length (meant_for data Fault (scenario_of (d Fault) s) i) <= 1).

(** The dataset with only scenario [s]. *)
Definition only_scenario (d : upd_data) (s : nat) : upd_data :=
  fun t => match d t with None => None | Some r => Some [nth s r []] end.

(** The results buffer and the report of a batch whose scenarios end as [f] says. *)
Definition results_of (f : nat -> res (list R)) (out : list (list R)) : list (list R) :=
  map (fun so => match f (fst so) with Ok r => r | Err _ => snd so end) (combine (seq 0 (List.length out)) out).
Definition report_of (what : exn -> string) (f : nat -> res (list R)) (n : nat) : option (list (nat * string)) :=
  match flat_map (fun s => match f s with Ok _ => [] | Err e => [(s, what e)] end) (seq 0 n) with
  | [] => None
  | l => Some l
  end.
End Spec.
