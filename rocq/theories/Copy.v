(** A model and a copy of it: the callbacks copied with the admittance matrices still refer to the solvers of the
    original. *)
From Verif Require Import Common Container Component MainModel CacheSpec.

Section Copy.
Context {O : DOps} {T P Opt R : Type} (orc : oracles T P Opt R).
Notation comps := (forall t, list (comp t)).
Notation mm := (mm (T := T) (P := P)).
Notation cache := (cache (T := T) (P := P)).
Notation op := (op (Opt := Opt)).

(** The sub-grids whose copied callbacks run during prepare_solvers (calculation_preparation.hpp 239-279 with
    math_solver/y_bus.hpp 342-353, 361-396, 400-431 and 585-591): the matrices exist, the parameters are not up to date,
    and the callbacks are those copied from the original. *)
Definition foreign_calls (sym : bool) (c : comps) (k : cache) : list nat :=
  let k := if topo_valid k then k else rebuild_topology orc c k in
  match topo_cache k with
  | None => []
  | Some top =>
      match prepare_y_bus orc sym c top k with
      | None => []
      | Some k =>
          let n := n_math orc top in
          if (negb (n =? n_solvers k sym) || par_valid k sym || own_cb k sym)%bool then []
          else if match prev_mode k with Some m => Bool.eqb m sym | None => false end then
            match get_increment orc sym top c (changed_idx k) with
            | None => []
            | Some inc => filter (affected orc top inc) (seq 0 n)
            end
          else match get_math_param orc sym top c with None => [] | Some _ => seq 0 n end
      end
  end.
Definition foreign_calls_of (o : op) (st : mm) : bool * list nat :=
  match o with
  | OpCalculate opts =>
      let sym := sym_of orc opts (m_comps st) in
      (sym, match check_opts orc opts (m_comps st) with
            | Some _ => []
            | None => foreign_calls sym (m_comps st) (m_cache st)
            end)
  | _ => (false, [])
  end.

(** parameters_changed (iterative_current_pf_solver.hpp 162) of solvers of a model. *)
Definition raise_flags (sym : bool) (gs : list nat) (st : mm) : mm :=
  let k := m_cache st in
  set_cache st (mkCache (topo_valid k) (par_valid k) (prev_mode k) (changed_idx k) (topo_cache k) (ybus k) (n_solvers k)
    (fact k) (bset (dirty k) sym (fun g => existsb (Nat.eqb g) gs || dirty k sym g)%bool) (own_cb k)).

(** Original (if not destroyed), copy, and whether the solvers that existed when the copy was made still exist: they are
    destroyed with the original (model.cpp PGM_destroy_model) or when its topology is rebuilt
    (calculation_preparation.hpp 118-128). *)
Record world : Type := mkWorld { w_orig : option mm; w_copy : mm; w_solvers : bool }.
(** model.cpp PGM_copy_model *)
Definition copied (st : mm) : world := mkWorld (Some st) (copy_mm st) true.

Inductive wop : Type := OnOriginal (o : op) | OnCopy (o : op) | DestroyOriginal.

(** The operation makes the model rebuild its topology (calculation_preparation.hpp 244-246). *)
Definition rebuilds (o : op) (st : mm) : bool :=
  match o with
  | OpCalculate opts => match check_opts orc opts (m_comps st) with Some _ => false | None => negb (topo_valid (m_cache st)) end
  | _ => false
  end.

(** [None]: undefined behaviour (here also: use of a destroyed solver or model). *)
Definition wstep (w : world) (x : wop) : option world :=
  match x with
  | OnOriginal o =>
      match w_orig w with
      | None => None
      | Some st =>
          match step orc st o with
          | None => None
          | Some st' => Some (mkWorld (Some st') (w_copy w) (w_solvers w && negb (rebuilds o st))%bool)
          end
      end
  | OnCopy o =>
      match step orc (w_copy w) o with
      | None => None
      | Some c' =>
          let '(sym, gs) := foreign_calls_of o (w_copy w) in
          match gs with
          | [] => Some (mkWorld (w_orig w) c' (w_solvers w))
          | _ =>
              match w_solvers w, w_orig w with
              | true, Some st => Some (mkWorld (Some (raise_flags sym gs st)) c' true)
              | _, _ => None
              end
          end
      end
  | DestroyOriginal => Some (mkWorld None (w_copy w) false)
  end.
Fixpoint wrun (w : world) (xs : list wop) : option world :=
  match xs with
  | [] => Some w
  | x :: xs' => match wstep w x with None => None | Some w' => wrun w' xs' end
  end.

Definition original_ops (xs : list wop) : list op :=
  flat_map (fun x => match x with OnOriginal o => [o] | _ => [] end) xs.
Definition copy_ops (xs : list wop) : list op :=
  flat_map (fun x => match x with OnCopy o => [o] | _ => [] end) xs.
End Copy.
