(** What the result records have to say. *)
From Verif Require Import Common Container Topology TopologyProps Coupling Registration RegistrationSpec Output.

Section Spec.
Context {V R P LT : Type} (vadd : V -> V -> V) (v0 : V).
Variable res : ctype -> option (list (centry * shown V R)).

(** The results contain, for component [id], the values [sh]. *)
Definition shows (id : Z) (sh : shown V R) : Prop := exists t l n e, res t = Some l /\ nth_error l n = Some (e, sh) /\ e_id e = id.

(** The powers shown for the appliances of type [t] at this node, in order. *)
Definition powers_at (node : Z) (t : ctype) : list V :=
  match res t with
  | Some l => flat_map (fun es => match e_in (fst es), snd es with
      | IAppliance x, S_appliance a => if Z.eqb x node then [a_s a] else [] | _, _ => [] end) l
  | None => []
  end.
(** All powers of sources, loads and generators at this node, added one after the other. *)
Definition injected (node : Z) : V := fold_left vadd (flat_map (powers_at node) [Source; SymLoad; SymGenerator; AsymLoad; AsymGenerator]) v0.

(** What a power sensor of this type has to be compared with, given what is shown for the measured object. *)
Definition measured_power (ty : Container.terminal) (sh : shown V R) : shown V R :=
  match ty, sh with
  | t_branch_from, S_branch b => S_value (s_f b)
  | t_branch_to, S_branch b => S_value (s_t b)
  | t_branch3_1, S_branch3 b _ _ | t_branch3_2, S_branch3 _ b _ | t_branch3_3, S_branch3 _ _ b => S_value (s_f b)
  | (t_source | t_shunt | t_load | t_generator), S_appliance a => S_value (a_s a)
  | _, _ => Null
  end.
(** Likewise the current at the measured terminal. *)
Definition measured_current (ty : Container.terminal) (sh : shown V R) : option V :=
  match ty, sh with
  | t_branch_from, S_branch b => Some (i_f b)
  | t_branch_to, S_branch b => Some (i_t b)
  | t_branch3_1, S_branch3 b _ _ | t_branch3_2, S_branch3 _ b _ | t_branch3_3, S_branch3 _ _ b => Some (i_f b)
  | _, _ => None
  end.
(** The node at the measured terminal. *)
Definition terminal_node (ty : Container.terminal) (inp : cinput) : option Z :=
  match ty, inp with
  | t_branch_from, IBranch f _ => Some f
  | t_branch_to, IBranch _ t => Some t
  | t_branch3_1, IBranch3 a _ _ => Some a
  | t_branch3_2, IBranch3 _ a _ => Some a
  | t_branch3_3, IBranch3 _ _ a => Some a
  | _, _ => None
  end.
End Spec.

(** The solver returns one result per math model and, in it, one value per math object. *)
Record sized {V R P LT} (s : model_state (P := P) (LT := LT)) (sol : list (solver_out V R)) : Prop := {
  sz_models : length sol = length (models (st_search s));
  sz_each : forall g m mg, nth_error sol g = Some m -> nth_error (models (st_search s)) g = Some mg ->
    length (so_u m) = n_bus mg /\ length (so_injection m) = n_bus mg /\
    length (so_branch m) = length (branch_bus_idx (cp_branches (st_coupled s)) g) /\
    length (so_source m) = element_size (fst (sources (st_coupled s)) g) /\
    length (so_shunt m) = element_size (fst (shunts (st_coupled s)) g) /\
    length (so_load_gen m) = element_size (fst (load_gens (st_coupled s)) g) }.
Record sc_sized {V P LT} (s : model_state (P := P) (LT := LT)) (sc : list (sc_out V)) : Prop := {
  ssz_models : length sc = length (models (st_search s));
  ssz_each : forall g m mg, nth_error sc g = Some m -> nth_error (models (st_search s)) g = Some mg ->
    length (sc_u m) = n_bus mg /\
    length (sc_branch m) = length (branch_bus_idx (cp_branches (st_coupled s)) g) /\
    length (sc_source m) = element_size (fst (sources (st_coupled s)) g) /\
    length (sc_shunt m) = element_size (fst (shunts (st_coupled s)) g) }.
