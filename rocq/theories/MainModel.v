(** Model of MainModelImpl: updates, undo, solver caches and calculation
    (main_model_impl.hpp, main_core/update.hpp, calculation_preparation.hpp, main_core/y_bus.hpp). *)
From Verif Require Import Common Container Component.
From Coq Require Import Eqdep_dec.

(** ** Values per component type (the std::array / tuple indexed by component type) *)

Definition ctype_eq_dec (a b : ctype) : {a = b} + {a <> b}.
Proof. decide equality. Defined.

Definition tset {F : ctype -> Type} (f : forall t, F t) (t : ctype) (v : F t) : forall t', F t' :=
  fun t' => match ctype_eq_dec t t' with
            | left e => match e in _ = x return F x with eq_refl => v end
            | right _ => f t'
            end.

(** How a call ends: normally, with an exception, or in undefined behaviour (read past the end of a span). *)
Inductive outcome : Type := Fine | Throw (e : exn) | UB.

Section Model.
Context {O : DOps}.

Notation comps := (forall t, list (comp t)).

(** ** main_core/update.hpp 261-284 (with 30-42): apply records to the components addressed by [seq] *)

Record vres (t : ctype) : Type := mkVres {
  vr_vec : list (comp t);     (* the components afterwards *)
  vr_change : change;         (* the returned UpdateChange *)
  vr_changed : list nat;      (* positions written to changed_it *)
  vr_out : outcome }.
Arguments mkVres {t}. Arguments vr_vec {t}. Arguments vr_change {t}. Arguments vr_changed {t}. Arguments vr_out {t}.

(** Idx2D of the sequence is represented by its position: the group always is the one of type [t]. *)
Fixpoint update_vec (t : ctype) (v : list (comp t)) (us : list (comp_upd t)) (sq : list nat) : vres t :=
  match us with
  | [] => mkVres v no_change [] Fine
  | u :: us' =>
      match sq with
      | [] => mkVres v no_change [] UB                       (* sequence_idx[seq] past the end, 40 *)
      | i :: sq' =>
          match nth_error v i with
          | None => mkVres v no_change [] UB
          | Some c =>
              let '(c', ch, ex) := update t c u in
              match ex with
              | Some e => mkVres (upd i c' v) no_change [] (Throw e)
              | None =>
                  let r := update_vec t (upd i c' v) us' sq' in
                  mkVres (vr_vec r) (change_or ch (vr_change r))
                         (if (param ch || topo ch)%bool then i :: vr_changed r else vr_changed r) (vr_out r)
              end
          end
      end
  end.

(** main_core/update.hpp 299-312: the inverse records, all computed from the same components. [None]: out of range. *)
Fixpoint inverse_vec (t : ctype) (v : list (comp t)) (us : list (comp_upd t)) (sq : list nat)
  : option (list (comp_upd t)) :=
  match us with
  | [] => Some []
  | u :: us' =>
      match sq with
      | [] => None
      | i :: sq' =>
          match nth_error v i, inverse_vec t v us' sq' with
          | Some c, Some l => Some (inverse t c u :: l)
          | _, _ => None
          end
      end
  end.

(** ** Solver caches *)

(** What prepare_solvers reads from the components.
    main_core/topology.hpp construct_components_connections: statuses of branches, branch3s and sources (the phase
    shifts are constants of the components). *)
Record connections : Type := mkConn {
  cn_branch : list (bool * bool); cn_branch3 : list (bool * bool * bool); cn_source : list bool }.
Definition br_pair (b : branch) : bool * bool := (b_from b, b_to b).
Definition br3_triple (b : branch3) : bool * bool * bool := (b3_1 b, b3_2 b, b3_3 b).
Definition connections_of (c : comps) : connections :=
  mkConn (map br_pair (c Line) ++ map br_pair (c AsymLine) ++ map br_pair (c Link) ++ map br_pair (c GenericBranch)
          ++ map (fun x => br_pair (tr_branch x)) (c Transformer))
         (map (fun x => br3_triple (t3_branch x)) (c ThreeWindingTransformer))
         (map so_status (c Source)).

(** What the admittance parameters of a component depend on: calc_param of branch.hpp 84-112, transformer.hpp,
    three_winding_transformer.hpp, shunt.hpp 37-51 and math_param of source.hpp 42-50. *)
Inductive pkey : Type :=
| KBranch (from to : bool)
| KTrafo (from to : bool) (tap : Z)
| KTrafo3 (s1 s2 s3 : bool) (tap : Z)
| KShunt (status : bool) (y : option (D * D * D * D))
| KSource (sk rx z01 : D).
Definition key_of (t : ctype) : comp t -> option pkey :=
  match t with
  | Line | AsymLine | Link | GenericBranch => fun c => Some (KBranch (b_from c) (b_to c))
  | Transformer => fun c => Some (KTrafo (b_from (tr_branch c)) (b_to (tr_branch c)) (tap_pos (tr_tap c)))
  | ThreeWindingTransformer => fun c =>
      Some (KTrafo3 (b3_1 (t3_branch c)) (b3_2 (t3_branch c)) (b3_3 (t3_branch c)) (tap_pos (t3_tap c)))
  | Shunt => fun c => Some (KShunt (sh_status c) (sh_y c))
  | Source => fun c => Some (KSource (so_sk c) (so_rx c) (so_z01 c))
  | _ => fun _ => None
  end.

(** The parts of the solver preparation and of the mathematics that this model leaves open. The theorems hold for every
    choice.
    [group_of top t pos]: the sub-grid (math id group) of the component, [None] if it is not energised (group -1).
    [n_math]: number of sub-grids.
    [calc_par sym t pos key]: calc_param of the component at [pos] (its constant data belongs to [pos]); [None] is the
    NotImplementedError of a generic branch in an asymmetric calculation (generic_branch.hpp 81), the only exception
    calc_param throws.
    [check_valid]: calculation_preparation.hpp 218-232.
    [sym_of], [check_opts]: the symmetry used for the options (main_model_impl.hpp 351-378) and the checks before
    the solvers are prepared.
    [uses_fact]: the math solver for this sub-grid and these options keeps a factorised matrix between runs
    (iterative_current, linear_current: math_solver.hpp 112-178).
    [prefactor]: prefactorize of that matrix (iterative_current_pf_solver.hpp 95-125); [Some e] if it throws.
    [solve]: prepare_input, one math solver run and the output for one sub-grid, from the topology, the parameters of
    the factorised matrix, the admittance parameters and the components. *)
Record oracles (T P Opt R : Type) : Type := mkOracles {
  build_topo : connections -> T;
  group_of : T -> ctype -> nat -> option nat;
  n_math : T -> nat;
  calc_par : bool -> ctype -> nat -> pkey -> option P;
  check_valid : comps -> option exn;
  sym_of : Opt -> comps -> bool;
  check_opts : Opt -> comps -> option exn;
  uses_fact : T -> nat -> Opt -> bool;
  prefactor : bool -> T -> nat -> list (list (option P)) -> option exn;
  solve : bool -> T -> nat -> list (list (option P)) -> list (list (option P)) -> comps -> Opt -> res R }.
Arguments build_topo {T P Opt R}. Arguments group_of {T P Opt R}. Arguments n_math {T P Opt R}.
Arguments calc_par {T P Opt R}. Arguments check_valid {T P Opt R}. Arguments solve {T P Opt R}.
Arguments sym_of {T P Opt R}. Arguments check_opts {T P Opt R}. Arguments uses_fact {T P Opt R}.
Arguments prefactor {T P Opt R}.

Section WithOracles.
Context {T P Opt R : Type} (orc : oracles T P Opt R).

(** Admittance parameters of the admittance matrices, per component type (in the order of [all_ctypes]) and position;
    [None]: not part of any sub-grid or no parameter.
    (Class YBus keeps them per sub-grid and branch/shunt/source; the sum into matrix entries is modelled in YBus.v.) *)
Definition pvec : Type := list (list (option P)).

(** Outer [None]: exception. *)
Definition par_at (sym : bool) (top : T) (t : ctype) (pos : nat) (c : comp t) : option (option P) :=
  match group_of orc top t pos, key_of t c with
  | Some _, Some k => match calc_par orc sym t pos k with Some p => Some (Some p) | None => None end
  | _, _ => Some None
  end.
Fixpoint par_list (sym : bool) (top : T) (t : ctype) (pos : nat) (l : list (comp t)) : option (list (option P)) :=
  match l with
  | [] => Some []
  | c :: l' =>
      match par_at sym top t pos c, par_list sym top t (S pos) l' with
      | Some p, Some ps => Some (p :: ps)
      | _, _ => None
      end
  end.
(** main_core/y_bus.hpp 186-206: get_math_param. (C++ visits branches, branch3s, shunts, sources; here all types in
    storage order; types without parameters contribute nothing. All exceptions are the same.) *)
Fixpoint param_types (sym : bool) (top : T) (c : comps) (ts : list ctype) : option pvec :=
  match ts with
  | [] => Some []
  | t :: ts' =>
      match par_list sym top t 0 (c t), param_types sym top c ts' with
      | Some l, Some y => Some (l :: y)
      | _, _ => None
      end
  end.
Definition get_math_param (sym : bool) (top : T) (c : comps) : option pvec := param_types sym top c all_ctypes.

(** main_core/y_bus.hpp 167-184 and YBus::update_admittance_increment (math_solver/y_bus.hpp 361-396): parameters of
    the changed components are recomputed, all of them before the matrix is touched, then written over the old ones. *)
Fixpoint inc_positions (sym : bool) (top : T) (t : ctype) (v : list (comp t)) (ps : list nat)
  : option (list (ctype * nat * option P)) :=
  match ps with
  | [] => Some []
  | pos :: ps' =>
      match nth_error v pos with
      | None => inc_positions sym top t v ps' (* unreachable: positions come from update_vec *)
      | Some x =>
          match par_at sym top t pos x, inc_positions sym top t v ps' with
          | Some p, Some r => Some ((t, pos, p) :: r)
          | _, _ => None
          end
      end
  end.
Fixpoint inc_types (sym : bool) (top : T) (c : comps) (changed : ctype -> list nat) (ts : list ctype)
  : option (list (ctype * nat * option P)) :=
  match ts with
  | [] => Some []
  | t :: ts' =>
      match inc_positions sym top t (c t) (changed t), inc_types sym top c changed ts' with
      | Some a, Some b => Some (a ++ b)
      | _, _ => None
      end
  end.
Definition get_increment (sym : bool) (top : T) (c : comps) (changed : ctype -> list nat)
  : option (list (ctype * nat * option P)) := inc_types sym top c changed all_ctypes.
Definition apply_one (y : pvec) (e : ctype * nat * option P) : pvec :=
  let '(t, pos, p) := e in
  match p with
  | None => y                                      (* not energised: nothing is pushed *)
  | Some _ => upd (ctype_idx t) (upd pos p (nth (ctype_idx t) y [])) y
  end.
Definition apply_increment (y : pvec) (inc : list (ctype * nat * option P)) : pvec := fold_left apply_one inc y.

(** math_solver/y_bus.hpp 455-480: the sub-grids in which an admittance entry is recomputed. Changed branches and
    shunts have entries in the matrix, changed sources do not. *)
Definition entry_affected (top : T) (g : nat) (e : ctype * nat * option P) : bool :=
  let '(t, pos, p) := e in
  match p, t with
  | None, _ | _, Source => false
  | Some _, _ => match group_of orc top t pos with Some g' => g' =? g | None => false end
  end.
Definition affected (top : T) (inc : list (ctype * nat * option P)) (g : nat) : bool :=
  existsb (entry_affected top g) inc.

(** The parameters that belong to one sub-grid (MathModelParam of its YBus). *)
Fixpoint restrict_list (top : T) (g : nat) (t : ctype) (pos : nat) (l : list (option P)) : list (option P) :=
  match l with
  | [] => []
  | p :: l' =>
      (match group_of orc top t pos with
       | Some g' => if g' =? g then p else None
       | None => None
       end) :: restrict_list top g t (S pos) l'
  end.
Fixpoint restrict_types (top : T) (g : nat) (ts : list ctype) (y : pvec) : pvec :=
  match ts, y with
  | t :: ts', l :: y' => restrict_list top g t 0 l :: restrict_types top g ts' y'
  | _, _ => []
  end.
Definition restrict (top : T) (g : nat) (y : pvec) : pvec := restrict_types top g all_ctypes y.

(** SolversCacheStatus (calculation_preparation.hpp 47-50) together with what it describes: the cached topology
    (state.math_topology, topo_comp_coup), the admittance matrices and the solvers of both symmetries
    (main_core/math_state.hpp). [true] = symmetric. [fact sym g]: the parameters of the matrix that the solver of
    sub-grid [g] has factorised, if any; [dirty]: its parameters_changed_ flag (iterative_current_pf_solver.hpp).
    [own_cb]: the parameters-changed callbacks registered at the matrices refer to the solvers of this same object
    (calculation_preparation.hpp 261-264). *)
Record cache : Type := mkCache {
  topo_valid : bool; par_valid : bool -> bool; prev_mode : option bool; changed_idx : ctype -> list nat;
  topo_cache : option T; ybus : bool -> option pvec; n_solvers : bool -> nat;
  fact : bool -> nat -> option pvec; dirty : bool -> nat -> bool; own_cb : bool -> bool }.

Definition bset {A} (f : bool -> A) (b : bool) (v : A) : bool -> A := fun b' => if Bool.eqb b b' then v else f b'.

(** Default member initialisers. *)
Definition fresh_cache : cache :=
  mkCache false (fun _ => false) None (fun _ => []) None (fun _ => None) (fun _ => 0)
          (fun _ _ => None) (fun _ _ => true) (fun _ => true).

Definition set_flags (k : cache) (tv : bool) (pv : bool -> bool) : cache :=
  mkCache tv pv (prev_mode k) (changed_idx k) (topo_cache k) (ybus k) (n_solvers k) (fact k) (dirty k) (own_cb k).
Definition set_changed (k : cache) (ci : ctype -> list nat) : cache :=
  mkCache (topo_valid k) (par_valid k) (prev_mode k) ci (topo_cache k) (ybus k) (n_solvers k) (fact k) (dirty k)
          (own_cb k).

(** calculation_preparation.hpp 96-114 *)
Definition cache_update (k : cache) (ch : change) : cache :=
  if (topo ch || negb (topo_valid k))%bool then set_flags k false (fun _ => false)
  else if param ch then set_flags k true (fun _ => false)
  else set_flags k true (par_valid k).

Definition add_changed (k : cache) (t : ctype) (l : list nat) : cache :=
  set_changed k (tset (F := fun _ => list nat) (changed_idx k) t (changed_idx k t ++ l)).

(** ** The model object: main_model_impl.hpp 463-473 *)
Record mm : Type := mkMM {
  m_comps : comps;                          (* state_.components *)
  m_inv : forall t, list (comp_upd t);      (* cached_inverse_update_ *)
  m_chg : change;                           (* cached_state_changes_ *)
  m_cache : cache }.

(** A model after set_construction_complete (main_model_impl.hpp 203-212). *)
Definition fresh_mm (c : comps) : mm := mkMM c (fun _ => []) no_change fresh_cache.

(** main_model_impl.hpp 139-161: update_component for one component type. *)
Definition update_component (cached : bool) (t : ctype) (us : list (comp_upd t)) (sq : list nat) (st : mm)
  : mm * outcome :=
  match (if cached then inverse_vec t (m_comps st t) us sq else Some []) with
  | None => (st, UB)
  | Some inv =>
      let minv := tset (m_inv st) t (m_inv st t ++ inv) in
      let r := update_vec t (m_comps st t) us sq in
      let comps' := tset (m_comps st) t (vr_vec r) in
      let k := add_changed (m_cache st) t (vr_changed r) in
      match vr_out r with
      | Fine =>
          (mkMM comps' minv (if cached then change_or (m_chg st) (vr_change r) else m_chg st)
                (cache_update k (vr_change r)), Fine)
      | o => (mkMM comps' minv (m_chg st) k, o)
      end
  end.

(** Run a function for all component types in order, stop at the first exception. *)
Fixpoint for_types {S : Type} (f : ctype -> S -> S * outcome) (l : list ctype) (st : S) : S * outcome :=
  match l with
  | [] => (st, Fine)
  | t :: l' => match f t st with (st', Fine) => for_types f l' st' | x => x end
  end.

(** main_model_impl.hpp 182-188: update_components with given sequences; [us t] are the records of the scenario. *)
Definition update_components (cached : bool) (us : forall t, list (comp_upd t)) (sq : ctype -> list nat) (st : mm)
  : mm * outcome :=
  for_types (fun t => update_component cached t (us t) (sq t)) all_ctypes st.

(** main_model_impl.hpp 240-250: restore_component *)
Definition restore_component (sq : ctype -> list nat) (t : ctype) (st : mm) : mm * outcome :=
  match m_inv st t with
  | [] => (st, Fine)
  | inv =>
      match update_component false t inv (sq t) st with
      | (st', Fine) => (mkMM (m_comps st') (tset (m_inv st') t []) (m_chg st') (m_cache st'), Fine)
      | x => x
      end
  end.
(** main_model_impl.hpp 254-261: restore_components *)
Definition restore_components (sq : ctype -> list nat) (st : mm) : mm * outcome :=
  match for_types (restore_component sq) all_ctypes st with
  | (st', Fine) => (mkMM (m_comps st') (m_inv st') no_change (cache_update (m_cache st') (m_chg st')), Fine)
  | x => x
  end.

(** calculation_preparation.hpp 130-156: rebuild_topology (with reset_solvers 118-128) *)
Definition rebuild_topology (c : comps) (k : cache) : cache :=
  mkCache true (fun _ => false) (prev_mode k) (changed_idx k)
          (Some (build_topo orc (connections_of c))) (fun _ => None) (fun _ => 0)
          (fun _ _ => None) (fun _ _ => true) (own_cb k).

Definition set_ybus (k : cache) (sym : bool) (y : pvec) : cache :=
  mkCache (topo_valid k) (par_valid k) (prev_mode k) (changed_idx k) (topo_cache k) (bset (ybus k) sym (Some y))
          (n_solvers k) (fact k) (dirty k) (own_cb k).

(** main_core/y_bus.hpp 143-165: prepare_y_bus builds the matrices if the vector is empty (which is the case after a
    reset and, trivially, if there is no sub-grid). *)
Definition prepare_y_bus (sym : bool) (c : comps) (top : T) (k : cache) : option cache :=
  match (if n_math orc top =? 0 then None else ybus k sym) with
  | Some _ => Some k
  | None => match get_math_param sym top c with Some y => Some (set_ybus k sym y) | None => None end
  end.

(** calculation_preparation.hpp 249-265: new solvers, nothing factorised yet, own callbacks. *)
Definition create_solvers (sym : bool) (n : nat) (k : cache) : cache :=
  mkCache (topo_valid k) (par_valid k) (prev_mode k) (changed_idx k) (topo_cache k) (ybus k) (bset (n_solvers k) sym n)
          (bset (fact k) sym (fun _ => None)) (bset (dirty k) sym (fun _ => true)) (bset (own_cb k) sym true).

(** math_solver/y_bus.hpp 400-431: after the entries of the sub-grids [hit] have been recomputed, the registered
    callbacks raise the flag of the solvers they refer to. *)
Definition notify (sym : bool) (hit : nat -> bool) (k : cache) : cache :=
  if own_cb k sym then
    mkCache (topo_valid k) (par_valid k) (prev_mode k) (changed_idx k) (topo_cache k) (ybus k) (n_solvers k) (fact k)
            (bset (dirty k) sym (fun g => hit g || dirty k sym g)%bool) (own_cb k)
  else k.

(** calculation_preparation.hpp 266-273 *)
Definition refresh_y_bus (sym : bool) (c : comps) (top : T) (k : cache) : option cache :=
  if match prev_mode k with Some m => Bool.eqb m sym | None => false end then
    match get_increment sym top c (changed_idx k) with
    | None => None
    | Some inc =>
        match ybus k sym with
        | None => Some k
        | Some y => Some (notify sym (affected top inc) (set_ybus k sym (apply_increment y inc)))
        end
    end
  else
    match get_math_param sym top c with
    | None => None
    | Some y => Some (notify sym (fun _ => true) (set_ybus k sym y))
    end.

Definition not_implemented : exn := NotImplementedError.

(** calculation_preparation.hpp 239-279: prepare_solvers. The cache is modified in place, so it is returned together
    with an exception if there is one. A topology flag without topology cannot occur (excluded by the invariant in the
    proofs): [UB]. *)
Definition prepare_solvers (sym : bool) (c : comps) (k : cache) : cache * outcome :=
  let k := if topo_valid k then k else rebuild_topology c k in
  match topo_cache k with
  | None => (k, UB)
  | Some top =>
      match prepare_y_bus sym c top k with
      | None => (k, Throw not_implemented)
      | Some k =>
          let n := n_math orc top in
          match (if negb (n =? n_solvers k sym) then Some (create_solvers sym n k)
                 else if negb (par_valid k sym) then refresh_y_bus sym c top k
                 else Some k) with
          | None => (k, Throw not_implemented)
          | Some k =>
              let k := mkCache (topo_valid k) (bset (par_valid k) sym true) (Some sym) (fun _ => [])
                               (topo_cache k) (ybus k) (n_solvers k) (fact k) (dirty k) (own_cb k) in
              match check_valid orc c with
              | Some e => (k, Throw e)
              | None => (k, Fine)
              end
          end
      end
  end.

Definition set_fact (k : cache) (sym : bool) (g : nat) (y : pvec) : cache :=
  mkCache (topo_valid k) (par_valid k) (prev_mode k) (changed_idx k) (topo_cache k) (ybus k) (n_solvers k)
          (bset (fact k) sym (fun g' => if g' =? g then Some y else fact k sym g'))
          (bset (dirty k) sym (fun g' => if g' =? g then false else dirty k sym g')) (own_cb k).

(** The matrix a solver works with. Solvers that keep a factorised matrix renew it only if their flag is raised
    (iterative_current_pf_solver.hpp 95-125). *)
Definition matrix_for (sym : bool) (top : T) (g : nat) (y : pvec) (opts : Opt) (k : cache) : cache * res pvec :=
  if uses_fact orc top g opts then
    match (if dirty k sym g then None else fact k sym g) with
    | Some m => (k, Ok m)
    | None =>
        match prefactor orc sym top g (restrict top g y) with
        | Some e => (k, Err e)
        | None => (set_fact k sym g (restrict top g y), Ok (restrict top g y))
        end
    end
  else (k, Ok (restrict top g y)).

(** main_model_impl.hpp 288-315: one solver run per sub-grid; the first exception ends it. *)
Fixpoint solve_groups (sym : bool) (top : T) (y : pvec) (c : comps) (opts : Opt) (gs : list nat) (k : cache)
  : cache * res (list R) :=
  match gs with
  | [] => (k, Ok [])
  | g :: gs' =>
      match matrix_for sym top g y opts k with
      | (k, Err e) => (k, Err e)
      | (k, Ok m) =>
          match solve orc sym top g m (restrict top g y) c opts with
          | Err e => (k, Err e)
          | Ok r =>
              match solve_groups sym top y c opts gs' k with
              | (k, Ok rs) => (k, Ok (r :: rs))
              | x => x
              end
          end
      end
  end.

Definition set_cache (st : mm) (k : cache) : mm := mkMM (m_comps st) (m_inv st) (m_chg st) k.

(** main_model_impl.hpp 351-378 and 288-315: calculate, with the result or the exception; [None]: undefined
    behaviour. (Without the tap optimizer, see TapOptimizer.v. The topology and admittance oracles stand for the
    modules modelled in Topology.v and YBus.v.) *)
Definition calculate (opts : Opt) (st : mm) : mm * option (res (list R)) :=
  match check_opts orc opts (m_comps st) with
  | Some e => (st, Some (Err e))
  | None =>
      let sym := sym_of orc opts (m_comps st) in
      match prepare_solvers sym (m_comps st) (m_cache st) with
      | (k, UB) => (set_cache st k, None)
      | (k, Throw e) => (set_cache st k, Some (Err e))
      | (k, Fine) =>
          match topo_cache k, ybus k sym with
          | Some top, Some y =>
              let '(k', r) := solve_groups sym top y (m_comps st) opts (seq 0 (n_math orc top)) k in
              (set_cache st k', Some r)
          | _, _ => (set_cache st k, None)
          end
      end
  end.

(** Copy construction of a model (main_model.hpp 55-61, math_state.hpp, math_solver.hpp clone): everything is copied,
    the solvers with their factorised matrices too; the callbacks copied with the matrices still refer to the solvers of
    the original. *)
Definition copy_mm (st : mm) : mm :=
  let k := m_cache st in
  mkMM (m_comps st) (m_inv st) (m_chg st)
       (mkCache (topo_valid k) (par_valid k) (prev_mode k) (changed_idx k) (topo_cache k) (ybus k) (n_solvers k)
                (fact k) (dirty k) (fun _ => false)).

End WithOracles.
End Model.
Arguments mkVres {O t}. Arguments vr_vec {O t}. Arguments vr_change {O t}. Arguments vr_changed {O t}. Arguments vr_out {O t}.
Arguments mkOracles {O T P Opt R}. Arguments build_topo {O T P Opt R}. Arguments group_of {O T P Opt R}. Arguments n_math {O T P Opt R}.
Arguments calc_par {O T P Opt R}. Arguments check_valid {O T P Opt R}. Arguments solve {O T P Opt R}.
Arguments sym_of {O T P Opt R}. Arguments check_opts {O T P Opt R}. Arguments uses_fact {O T P Opt R}.
Arguments prefactor {O T P Opt R}.
Arguments mkCache {T P}. Arguments topo_valid {T P}. Arguments par_valid {T P}. Arguments prev_mode {T P}.
Arguments changed_idx {T P}. Arguments topo_cache {T P}. Arguments ybus {T P}. Arguments n_solvers {T P}.
Arguments fact {T P}. Arguments dirty {T P}. Arguments own_cb {T P}.
Arguments mkMM {O T P}. Arguments m_comps {O T P}. Arguments m_inv {O T P}. Arguments m_chg {O T P}. Arguments m_cache {O T P}.
