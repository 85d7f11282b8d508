(** Specification of what a well-formed input dataset is, independent of how the model is built. *)
From Verif Require Import Common Container.

Section Spec.
  Variable data : ctype -> list (Z * cinput).

  (** The [n]-th record of type [t] has id [id]. *)
  Definition record_at (t : ctype) (n : nat) (id : Z) : Prop :=
    option_map fst (nth_error (data t) n) = Some id.

  (** Some record with this id exists and is of kind [g]. *)
  Definition has_kind (g : gettable) (id : Z) : Prop :=
    exists t n, record_at t n id /\ derives g t = true.

  (** No id is used twice, within a type or across types. *)
  Definition ids_unique : Prop :=
    forall id t1 n1 t2 n2, record_at t1 n1 id -> record_at t2 n2 id -> t1 = t2 /\ n1 = n2.

  (** The references of one record point to records of the kind they must point to. *)
  Definition references_ok (inp : cinput) : Prop :=
    match inp with
    | IBare => True
    | IBranch f to => has_kind (GExact Node) f /\ has_kind (GExact Node) to
    | IBranch3 n1 n2 n3 =>
        has_kind (GExact Node) n1 /\ has_kind (GExact Node) n2 /\ has_kind (GExact Node) n3
    | IAppliance n | IVoltageSensor n | IFault n => has_kind (GExact Node) n
    | IPowerSensor o term =>
        ~ has_kind (GExact Link) o /\
        match term with
        | t_branch_from | t_branch_to => has_kind GBranch o
        | t_branch3_1 | t_branch3_2 | t_branch3_3 => has_kind GBranch3 o
        | t_source => has_kind (GExact Source) o
        | t_shunt => has_kind (GExact Shunt) o
        | t_load => has_kind GGenericLoad o
        | t_generator => has_kind GGenericGenerator o
        | t_node => has_kind (GExact Node) o
        | t_invalid => False
        end
    | ICurrentSensor o term =>
        ~ has_kind (GExact Link) o /\
        match term with
        | t_branch_from | t_branch_to => has_kind GBranch o
        | t_branch3_1 | t_branch3_2 | t_branch3_3 => has_kind GBranch3 o
        | _ => False
        end
    | ITapRegulator o side =>
        (has_kind (GExact Transformer) o /\ (side = 0 \/ side = 1)%Z) \/
        (has_kind (GExact ThreeWindingTransformer) o /\ (side = 0 \/ side = 1 \/ side = 2)%Z)
    | IVoltageRegulator o => has_kind GGenericLoadGen o
    end.

  (** The object a regulator regulates. *)
  Definition regulated_id (inp : cinput) : option Z :=
    match inp with ITapRegulator o _ | IVoltageRegulator o => Some o | _ => None end.

  (** No two regulators of one type regulate the same object. *)
  Definition one_regulator_each : Prop :=
    forall t n1 n2 r1 r2 o,
      nth_error (data t) n1 = Some r1 -> nth_error (data t) n2 = Some r2 ->
      regulated_id (snd r1) = Some o -> regulated_id (snd r2) = Some o -> n1 = n2.

  (** The record layout that goes with each type (auxiliary/input.hpp). *)
  Definition layout_ok (t : ctype) (inp : cinput) : Prop :=
    match t, inp with
    | Node, IBare => True
    | (Line | AsymLine | Link | GenericBranch | Transformer), IBranch _ _ => True
    | ThreeWindingTransformer, IBranch3 _ _ _ => True
    | (Shunt | Source | SymGenerator | AsymGenerator | SymLoad | AsymLoad), IAppliance _ => True
    | (SymPowerSensor | AsymPowerSensor), IPowerSensor _ _ => True
    | (SymVoltageSensor | AsymVoltageSensor), IVoltageSensor _ => True
    | (SymCurrentSensor | AsymCurrentSensor), ICurrentSensor _ _ => True
    | Fault, IFault _ => True
    | TransformerTapRegulator, ITapRegulator _ _ => True
    | VoltageRegulator, IVoltageRegulator _ => True
    | _, _ => False
    end.
  Definition layouts_ok : Prop := forall t r, In r (data t) -> layout_ok t (snd r).
End Spec.

(** All records of kind [g], in storage order: type by type, and in input order within a type. *)
Definition items_of_kind (data : ctype -> list (Z * cinput)) (g : gettable) : list (ctype * Z) :=
  flat_map (fun t => if derives g t then map (fun r => (t, fst r)) (data t) else []) all_ctypes.
