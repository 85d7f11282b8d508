(** What a calculation must return, computed from the components only, without any cache; and histories of a model. *)
From Verif Require Import Common Container Component MainModel.

Section Spec.
Context {O : DOps} {T P Opt R : Type} (orc : oracles T P Opt R).
Notation comps := (forall t, list (comp t)).
Notation mm := (mm (T := T) (P := P)).

(** Sub-grids one after the other, each with the current parameters. *)
Fixpoint solve_all (sym : bool) (top : T) (y : list (list (option P))) (c : comps) (opts : Opt) (gs : list nat)
  : res (list R) :=
  match gs with
  | [] => Ok []
  | g :: gs' =>
      let m := restrict orc top g y in
      match (if uses_fact orc top g opts then prefactor orc sym top g m else None) with
      | Some e => Err e
      | None =>
          let! r := solve orc sym top g m m c opts in
          let! rs := solve_all sym top y c opts gs' in Ok (r :: rs)
      end
  end.

(** The calculation without caches: topology, parameters and factorisation are computed anew. *)
Definition pure_calculation (opts : Opt) (c : comps) : res (list R) :=
  match check_opts orc opts c with
  | Some e => Err e
  | None =>
      let sym := sym_of orc opts c in
      let top := build_topo orc (connections_of c) in
      match get_math_param orc sym top c with
      | None => Err NotImplementedError
      | Some y =>
          match check_valid orc c with
          | Some e => Err e
          | None => solve_all sym top y c opts (seq 0 (n_math orc top))
          end
      end
  end.

(** What can happen to a model object. *)
Inductive op : Type :=
| OpUpdate (cached : bool) (us : forall t, list (comp_upd t)) (sq : ctype -> list nat)
| OpRestore (sq : ctype -> list nat)
| OpCalculate (opts : Opt).

(** [None]: undefined behaviour (a record without position, excluded for batches by C12). Exceptions of an operation
    do not end the history. *)
Definition step (st : mm) (o : op) : option mm :=
  match o with
  | OpUpdate cached us sq =>
      match update_components cached us sq st with (_, UB) => None | (st', _) => Some st' end
  | OpRestore sq => match restore_components sq st with (_, UB) => None | (st', _) => Some st' end
  | OpCalculate opts => match calculate orc opts st with (_, None) => None | (st', Some _) => Some st' end
  end.
Fixpoint run (st : mm) (ops : list op) : option mm :=
  match ops with
  | [] => Some st
  | o :: ops' => match step st o with None => None | Some st' => run st' ops' end
  end.

(** The update does not give a new short circuit power, rx ratio or zero sequence ratio of a source. *)
Definition no_source_impedance (u : comp_upd Source) : Prop :=
  isnan (sou_sk u) = true /\ isnan (sou_rx u) = true /\ isnan (sou_z01 u) = true.
Definition leaves_source_impedance (o : op) : Prop :=
  match o with
  | OpUpdate _ us _ => Forall no_source_impedance (us Source)
  | _ => True
  end.
End Spec.
