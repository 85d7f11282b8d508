(** Model of the component container: container.hpp and main_core/input.hpp. *)
From Verif Require Import Common.

(** Idx2D of common/common.hpp: (group, pos). *)
Definition idx2d : Type := nat * nat.

Section Generic.
  Context {A : Type}.

  (** container.hpp 226-228: the tuple of vectors (one per storage type, here a list of lists in the order of
      StorageableTypes) and the id map. The unordered_map is a finite map, here an association list with
      unique keys; its iteration order is never observed by the modelled functions. *)
  Record container : Type := mkContainer {
    vectors : list (list A);
    idmap : list (Z * idx2d)
  }.

  (** Default constructed container with [n] storage types. *)
  Definition empty_container (n : nat) : container := mkContainer (repeat [] n) [].

  (** unordered_map::find *)
  Fixpoint map_find (m : list (Z * idx2d)) (id : Z) : option idx2d :=
    match m with
    | [] => None
    | (k, v) :: m' => if Z.eqb k id then Some v else map_find m' id
    end.

  Definition vec (c : container) (g : nat) : list A := nth g (vectors c) [].

  (** container.hpp 88-103: emplace. [group] is the compile-time position of the storage type. [mk] is the outcome
      of the constructor called at 100 with the forwarded arguments: an exception leaves the container as it was
      (strong guarantee of emplace_back; the map is only written afterwards, at 102). *)
  Definition emplace (c : container) (group : nat) (id : Z) (mk : res A) : res container :=
    match map_find (idmap c) id with
    | Some _ => Err (ConflictID id)
    | None =>
        let! x := mk in
        Ok (mkContainer (upd group (vec c group ++ [x]) (vectors c))
                        ((id, (group, length (vec c group))) :: idmap c))
    end.

  (** container.hpp 132-138 *)
  Definition get_idx_by_id (c : container) (id : Z) : res idx2d :=
    match map_find (idmap c) id with
    | Some i => Ok i
    | None => Err (IDNotFound id)
    end.

  (** container.hpp 139-145 and 271-272: [is_base] is the array std::is_base_of_v<Gettable, Storageable>. *)
  Definition get_idx_by_id_as (is_base : nat -> bool) (c : container) (id : Z) : res idx2d :=
    let! i := get_idx_by_id c id in
    if is_base (fst i) then Ok i else Err (IDWrongType id).

  (** container.hpp 105-119: get_item by Idx2D. [None] stands for out of range access or for the null function
      pointer of a storage type that does not derive from Gettable (undefined behaviour, assert at 110/117). *)
  Definition get_item (is_base : nat -> bool) (c : container) (i : idx2d) : option A :=
    if is_base (fst i) then
      match nth_error (vectors c) (fst i) with
      | Some v => nth_error v (snd i)
      | None => None
      end
    else None.

  (** container.hpp 278-284: size_per_vector *)
  Definition size_per_vector (is_base : nat -> bool) (c : container) : list nat :=
    map (fun g => if is_base g then length (vec c g) else 0) (seq 0 (length (vectors c))).

  (** container.hpp 291-298: accumulate_size_per_vector; [0] followed by the inclusive scan. *)
  Fixpoint inclusive_scan (acc : nat) (l : list nat) : list nat :=
    match l with
    | [] => []
    | x :: l' => (acc + x) :: inclusive_scan (acc + x) l'
    end.
  Definition cum_size (is_base : nat -> bool) (c : container) : list nat :=
    0 :: inclusive_scan 0 (size_per_vector is_base c).

  (** container.hpp 286-290 and 170-173: size of a type *)
  Definition size_of (is_base : nat -> bool) (c : container) : nat :=
    fold_left Nat.add (size_per_vector is_base c) 0.

  (** container.hpp 177-181: get_seq. [None]: read past the cumulative array. *)
  Definition get_seq (is_base : nat -> bool) (c : container) (i : idx2d) : option nat :=
    match nth_error (cum_size is_base c) (fst i) with
    | Some s => Some (s + snd i)
    | None => None
    end.

  (** container.hpp 192-200: get_idx_2d_by_seq. [None]: the assert at 197 fails (seq is not below the size). *)
  Definition get_idx_2d_by_seq (is_base : nat -> bool) (c : container) (s : nat) : option idx2d :=
    let cum := cum_size is_base c in
    let found := upper_bound cum s in
    if found <? length cum then
      let group := found - 1 in
      match nth_error cum group with
      | Some base => Some (group, s - base)
      | None => None
      end
    else None.

  (** container.hpp 160-167: get_item_by_seq *)
  Definition get_item_by_seq (is_base : nat -> bool) (c : container) (s : nat) : option A :=
    match get_idx_2d_by_seq is_base c s with
    | Some i => get_item is_base c i
    | None => None
    end.

  (** container.hpp 207-211: get_start_idx; [g] is the first storage type derived from the sub type. *)
  Definition get_start_idx (is_base : nat -> bool) (c : container) (g : nat) : option nat :=
    nth_error (cum_size is_base c) g.
End Generic.
Arguments container : clear implicits.

(** ** The component types *)

(** all_components.hpp 37-40: AllComponents, in storage order. *)
Inductive ctype : Type :=
| Node | Line | AsymLine | Link | GenericBranch | Transformer | ThreeWindingTransformer
| Shunt | Source | SymGenerator | AsymGenerator | SymLoad | AsymLoad | SymPowerSensor
| AsymPowerSensor | SymVoltageSensor | AsymVoltageSensor | SymCurrentSensor
| AsymCurrentSensor | Fault | TransformerTapRegulator | VoltageRegulator.

Definition all_ctypes : list ctype :=
  [Node; Line; AsymLine; Link; GenericBranch; Transformer; ThreeWindingTransformer;
   Shunt; Source; SymGenerator; AsymGenerator; SymLoad; AsymLoad; SymPowerSensor;
   AsymPowerSensor; SymVoltageSensor; AsymVoltageSensor; SymCurrentSensor;
   AsymCurrentSensor; Fault; TransformerTapRegulator; VoltageRegulator].

(** container.hpp 52-53: get_cls_pos_v *)
Definition ctype_idx (t : ctype) : nat :=
  match t with
  | Node => 0 | Line => 1 | AsymLine => 2 | Link => 3 | GenericBranch => 4 | Transformer => 5
  | ThreeWindingTransformer => 6 | Shunt => 7 | Source => 8 | SymGenerator => 9 | AsymGenerator => 10
  | SymLoad => 11 | AsymLoad => 12 | SymPowerSensor => 13 | AsymPowerSensor => 14 | SymVoltageSensor => 15
  | AsymVoltageSensor => 16 | SymCurrentSensor => 17 | AsymCurrentSensor => 18 | Fault => 19
  | TransformerTapRegulator => 20 | VoltageRegulator => 21
  end.

Definition ctype_eqb (a b : ctype) : bool := Nat.eqb (ctype_idx a) (ctype_idx b).

(** all_components.hpp 42-44 with the class hierarchy of component/*.hpp: the retrievable base types. *)
Inductive gettable : Type :=
| GExact (t : ctype)
| GBase | GBranch | GBranch3 | GAppliance | GGenericLoadGen | GGenericLoad | GGenericGenerator
| GGenericPowerSensor | GGenericVoltageSensor | GGenericCurrentSensor | GRegulator.

(** std::is_base_of_v<Gettable, Storageable> *)
Definition derives (g : gettable) (t : ctype) : bool :=
  match g with
  | GExact t' => ctype_eqb t' t
  | GBase => true
  | GBranch => match t with Line | AsymLine | Link | GenericBranch | Transformer => true | _ => false end
  | GBranch3 => match t with ThreeWindingTransformer => true | _ => false end
  | GAppliance => match t with
                  | Shunt | Source | SymGenerator | AsymGenerator | SymLoad | AsymLoad => true | _ => false end
  | GGenericLoadGen => match t with SymGenerator | AsymGenerator | SymLoad | AsymLoad => true | _ => false end
  | GGenericLoad => match t with SymLoad | AsymLoad => true | _ => false end
  | GGenericGenerator => match t with SymGenerator | AsymGenerator => true | _ => false end
  | GGenericPowerSensor => match t with SymPowerSensor | AsymPowerSensor => true | _ => false end
  | GGenericVoltageSensor => match t with SymVoltageSensor | AsymVoltageSensor => true | _ => false end
  | GGenericCurrentSensor => match t with SymCurrentSensor | AsymCurrentSensor => true | _ => false end
  | GRegulator => match t with TransformerTapRegulator | VoltageRegulator => true | _ => false end
  end.

(** container.hpp 271-272: the bool array, indexed by group. *)
Definition is_base (g : gettable) (group : nat) : bool :=
  match nth_error all_ctypes group with
  | Some t => derives g t
  | None => false
  end.

(** ** Building the model: main_core/input.hpp *)

(** common/enum.hpp 43-54: MeasuredTerminalType; [t_invalid] stands for every value outside of the enumeration. *)
Inductive terminal : Type :=
| t_branch_from | t_branch_to | t_source | t_shunt | t_load | t_generator
| t_branch3_1 | t_branch3_2 | t_branch3_3 | t_node | t_invalid.

(** common/enum.hpp 27: ControlSide is an integer, from = side_1 = 0, to = side_2 = 1, side_3 = 2. *)
Definition control_side : Type := Z.

(** What add_component looks at per component type (the numeric attributes are not relevant here). *)
Inductive cinput : Type :=
| IBare                                         (* Node *)
| IBranch (from to : Z)                         (* derived from Branch *)
| IBranch3 (n1 n2 n3 : Z)
| IAppliance (node : Z)
| IVoltageSensor (obj : Z)
| IPowerSensor (obj : Z) (term : terminal)
| ICurrentSensor (obj : Z) (term : terminal)
| IFault (obj : Z)
| ITapRegulator (obj : Z) (side : control_side)
| IVoltageRegulator (obj : Z).

Record centry : Type := mkEntry { e_type : ctype; e_id : Z; e_in : cinput }.

Notation mcontainer := (container centry).

(** get_component<T>(components, id): container.hpp 151-158, throws or returns a reference. The returned entry is
    needed to follow node references of a measured branch. *)
Definition get_component (g : gettable) (c : mcontainer) (id : Z) : res centry :=
  let! i := get_idx_by_id_as (is_base g) c id in
  match get_item (is_base g) c i with
  | Some e => Ok e
  | None => Err (OtherError 0) (* unreachable for a container built by emplace, see ContainerFacts *)
  end.

(** Node of a branch side / branch3 side, component/branch.hpp and branch3.hpp node(side). *)
Definition branch_node (e : centry) (from : bool) : res Z :=
  match e_in e with
  | IBranch f t => Ok (if from then f else t)
  | _ => Err (OtherError 0)
  end.
Definition branch3_node (e : centry) (side : nat) : res Z :=
  match e_in e with
  | IBranch3 n1 n2 n3 => Ok (match side with 0 => n1 | 1 => n2 | _ => n3 end)
  | _ => Err (OtherError 0)
  end.

Section Build.
  (** The checks inside the constructors that depend on attributes not represented in [cinput] (e.g. the clock of a
      transformer, component/transformer.hpp 82-84, or the phases of a fault, component/fault.hpp 157-230): any function, so every theorem holds
      whatever these checks are. *)
  Variable ctor_check : ctype -> Z -> cinput -> option exn.

(** The constructors (component/*.hpp): keep id and references; may refuse through [ctor_check]. *)
Definition construct (t : ctype) (id : Z) (inp : cinput) : res centry :=
  match ctor_check t id inp with
  | Some e => Err e
  | None => Ok (mkEntry t id inp)
  end.

(** main_core/input.hpp 61-234, body of the loop for one input record of type [t]: checks the references, then
    emplaces. The rated voltages that are read from the referenced nodes and handed to the constructors are not
    modelled. *)
Definition add_one (t : ctype) (c : mcontainer) (x : Z * cinput) : res mcontainer :=
  let (id, inp) := x in
  let put := emplace c (ctype_idx t) id (construct t id inp) in
  match inp with
  | IBare => put                                                              (* 66-67 *)
  | IBranch f to =>                                                           (* 68-76 *)
      let! _ := get_component (GExact Node) c f in
      let! _ := get_component (GExact Node) c to in put
  | IBranch3 n1 n2 n3 =>                                                      (* 77-81 *)
      let! _ := get_component (GExact Node) c n1 in
      let! _ := get_component (GExact Node) c n2 in
      let! _ := get_component (GExact Node) c n3 in put
  | IAppliance n =>                                                           (* 82-84 *)
      let! _ := get_component (GExact Node) c n in put
  | IVoltageSensor o =>                                                       (* 85-87 *)
      let! _ := get_component (GExact Node) c o in put
  | IPowerSensor o term =>                                                    (* 88-131 *)
      let! i := get_idx_by_id c o in
      if Nat.eqb (fst i) (ctype_idx Link) then Err InvalidMeasuredObject
      else
        let! _ :=
          match term with
          | t_branch_from | t_branch_to => get_component GBranch c o
          | t_branch3_1 | t_branch3_2 | t_branch3_3 => get_component GBranch3 c o
          | t_shunt => get_component (GExact Shunt) c o
          | t_source => get_component (GExact Source) c o
          | t_load => get_component GGenericLoad c o
          | t_generator => get_component GGenericGenerator c o
          | t_node => get_component (GExact Node) c o
          | t_invalid => Err MissingCaseForEnumError
          end in put
  | ICurrentSensor o term =>                                                  (* 132-163 *)
      let! i := get_idx_by_id c o in
      if Nat.eqb (fst i) (ctype_idx Link) then Err InvalidMeasuredObject
      else
        let! n :=
          match term with
          | t_branch_from => let! e := get_component GBranch c o in branch_node e true
          | t_branch_to => let! e := get_component GBranch c o in branch_node e false
          | t_branch3_1 => let! e := get_component GBranch3 c o in branch3_node e 0
          | t_branch3_2 => let! e := get_component GBranch3 c o in branch3_node e 1
          | t_branch3_3 => let! e := get_component GBranch3 c o in branch3_node e 2
          | _ => Err MissingCaseForEnumError
          end in
        let! _ := get_component (GExact Node) c n in put
  | IFault o =>                                                               (* 164-167 *)
      let! _ := get_component (GExact Node) c o in put
  | ITapRegulator o side =>                                                   (* 168-215 *)
      let! i := get_idx_by_id c o in
      let! n :=
        if Nat.eqb (fst i) (ctype_idx Transformer) then
          let! e := get_component (GExact Transformer) c o in
          match side with
          | 0%Z => branch_node e true
          | 1%Z => branch_node e false
          | _ => Err MissingCaseForEnumError
          end
        else if Nat.eqb (fst i) (ctype_idx ThreeWindingTransformer) then
          let! e := get_component (GExact ThreeWindingTransformer) c o in
          match side with
          | 0%Z => branch3_node e 0
          | 1%Z => branch3_node e 1
          | 2%Z => branch3_node e 2
          | _ => Err MissingCaseForEnumError
          end
        else Err (InvalidRegulatedObject o) in
      let! _ := get_component (GExact Node) c n in put
  | IVoltageRegulator o =>                                                    (* 216-232 *)
      let! i := get_idx_by_id c o in
      if (Nat.eqb (fst i) (ctype_idx SymGenerator) || Nat.eqb (fst i) (ctype_idx AsymGenerator)
          || Nat.eqb (fst i) (ctype_idx SymLoad) || Nat.eqb (fst i) (ctype_idx AsymLoad))
      then put
      else Err (InvalidRegulatedObject o)
  end.

(** The regulated objects collected in 58, 171, 219. *)
Definition regulated_ref (c : mcontainer) (x : Z * cinput) : list idx2d :=
  match snd x with
  | ITapRegulator o _ | IVoltageRegulator o =>
      match map_find (idmap c) o with Some i => [i] | None => [] end
  | _ => []
  end.

Definition idx2d_eqb (a b : idx2d) : bool := Nat.eqb (fst a) (fst b) && Nat.eqb (snd a) (snd b).
Fixpoint has_dup (l : list idx2d) : bool :=
  match l with
  | [] => false
  | a :: l' => existsb (idx2d_eqb a) l' || has_dup l'
  end.

(** main_core/input.hpp 51-242: all records of one type, then the check on duplicate regulated objects. *)
Definition add_component (c : mcontainer) (ti : ctype * list (Z * cinput)) : res mcontainer :=
  let (t, inputs) := ti in
  let! c' := foldM (add_one t) inputs c in
  (* the regulated objects (171, 219) exist before the regulators of this type are added, so looking them up in the final
     container gives the same indices *)
  if has_dup (flat_map (regulated_ref c') inputs) then Err DuplicativelyRegulatedObject else Ok c'.

(** main_model_impl.hpp 124-133: components are added type by type in the order of AllComponents; a type that is
    absent from the dataset contributes no records. *)
Definition create_model (data : ctype -> list (Z * cinput)) : res mcontainer :=
  foldM add_component (map (fun t => (t, data t)) all_ctypes) (empty_container (length all_ctypes)).

End Build.

(** main_model_impl.hpp 218-228: get_indexer for component type [t]. *)
Fixpoint mapM {A B} (f : A -> res B) (l : list A) : res (list B) :=
  match l with
  | [] => Ok []
  | a :: l' => let! b := f a in let! bs := mapM f l' in Ok (b :: bs)
  end.
Definition get_indexer (c : mcontainer) (t : ctype) (ids : list Z) : res (list nat) :=
  mapM (fun id => let! i := get_idx_by_id_as (is_base (GExact t)) c id in Ok (snd i)) ids.
