(** Model of what happens between PGM_calculate and a solver: the options (power_grid_model_c/src/model.cpp 96-183, 336-344), the choice of the solver
    (main_model_impl.hpp 277-378, 399-437, calculation.hpp 29-126, math_solver/math_solver.hpp 32-220), the check of the voltage regulators
    (calculation_preparation.hpp 158-232, 276-277) and the loop of the iterative power flow solvers (math_solver/iterative_pf_solver.hpp 33-90,
    iterative_current_pf_solver.hpp 148-160, newton_raphson_pf_solver.hpp 306-319, 325-349).
    Doubles are [spec_float] of the standard library; only comparisons of doubles occur here. *)
From Coq Require Import Floats.SpecFloat.
From Verif Require Import Common.

(** ** Errors *)
Inductive calc_error : Type :=
| IllegalOperation          (* input_sanitization.hpp 40-54: value out of range of the enumeration *)
| InvalidArguments          (* a tap changing strategy without power flow *)
| MissingCaseForEnum
| ExperimentalFeature
| InvalidMeasuredTerminal
| InvalidCalculationMethod
| InvalidShortCircuitType
| UnsupportedRegulatorCombination
| ConflictingURef (id1 id2 : Z)
| UnsupportedLoadGenType (id : Z)
| UnsupportedRegulatorSource (node : Z)
| IDNotFound
| IterationDiverge (max_iter : Z)
| SolverError.               (* anything a solver throws in an iteration *)
Definition out (A : Type) : Type := (A + calc_error)%type.
Definition bindo {A B} (x : out A) (f : A -> out B) : out B := match x with inl a => f a | inr e => inr e end.

(** ** The state that is looked at *)
(** component/voltage_regulator.hpp 22-101, regulator.hpp *)
Record vregulator : Type := mkVR { vr_id : Z; vr_status : bool; vr_object : Z; vr_u_ref : spec_float; vr_q_min : spec_float; vr_q_max : spec_float }.
Record csource : Type := mkCS { cs_node : Z; cs_status : bool }.
Record situation : Type := mkSit {
  regulators : list vregulator;
  n_tap_regulators : nat;
  load_gens : list (Z * (Z * Z));          (* id, node, type *)
  csources : list csource;
  fault_types : list Z;
  batch_q_limits : bool;                   (* some update in the batch sets a limit of a regulator *)
  node_sensors : bool;                     (* some power or current sensor at a node *)
  subgrids : list (list Z)                 (* the types of the loads and generators of each energised sub-grid *)
}.

(** ** C34: the check of the voltage regulators *)
Definition get_load_gen (s : situation) (id : Z) : option (Z * Z) :=
  option_map snd (find (fun x => (fst x =? id)%Z) (load_gens s)).
(** double != double *)
Definition dbl_neq (a b : spec_float) : bool := negb (SFeqb a b).
Definition visited : Type := list (Z * (Z * spec_float)).
Definition find_node (v : visited) (node : Z) : option (Z * spec_float) := option_map snd (find (fun x => (fst x =? node)%Z) v).
(** calculation_preparation.hpp 163-188 *)
Fixpoint check_u_ref_per_node (s : situation) (rs : list vregulator) (v : visited) : out visited :=
  match rs with
  | [] => inl v
  | r :: rs' =>
      if negb (vr_status r) then check_u_ref_per_node s rs' v
      else match get_load_gen s (vr_object r) with
           | None => inr IDNotFound
           | Some (node, _) =>
               match find_node v node with
               | Some (id0, u0) => if dbl_neq u0 (vr_u_ref r) then inr (ConflictingURef id0 (vr_id r)) else check_u_ref_per_node s rs' v
               | None => check_u_ref_per_node s rs' ((node, (vr_id r, vr_u_ref r)) :: v)
               end
           end
  end.
(** 190-203; const_pq is 0 *)
Fixpoint check_load_gen_type (s : situation) (rs : list vregulator) : out unit :=
  match rs with
  | [] => inl tt
  | r :: rs' =>
      if negb (vr_status r) then check_load_gen_type s rs'
      else match get_load_gen s (vr_object r) with
           | None => inr IDNotFound
           | Some (_, t) => if (t =? 0)%Z then check_load_gen_type s rs' else inr (UnsupportedLoadGenType (vr_id r))
           end
  end.
(** 205-216 *)
Fixpoint check_sources (ss : list csource) (v : visited) : out unit :=
  match ss with
  | [] => inl tt
  | x :: ss' => if cs_status x && (if find_node v (cs_node x) then true else false) then inr (UnsupportedRegulatorSource (cs_node x)) else check_sources ss' v
  end.
(** 219-232 *)
Definition check_state_validity (s : situation) : out unit :=
  if 0 <? length (regulators s) then
    if 0 <? n_tap_regulators s then inr UnsupportedRegulatorCombination
    else bindo (check_u_ref_per_node s (regulators s) []) (fun v =>
         bindo (check_load_gen_type s (regulators s)) (fun _ => check_sources (csources s) v))
  else inl tt.

(** ** C40: the choice of the solver *)
Inductive solver : Type := NewtonRaphsonPF | LinearPF | IterativeCurrentPF | IterativeLinearSE | NewtonRaphsonSE | ShortCircuitIEC60909.
(** one call of a solver of a sub-grid: its kind, symmetry, tolerance and limit (where the solver takes them) *)
Record run : Type := mkRun { run_solver : solver; run_symmetric : bool; run_tol : option spec_float; run_max_iter : option Z }.

(** power_grid_model_c/src/options.hpp *)
Record pgm_options : Type := mkOpt {
  o_type : Z; o_method : Z; o_symmetric : Z; o_err_tol : spec_float; o_max_iter : Z; o_scaling : Z; o_strategy : Z; o_experimental : Z }.
(** main_model_fwd.hpp: MainModelOptions *)
Record options : Type := mkOptions { c_type : Z; c_symmetric : bool; c_method : Z; c_optimize : bool; c_strategy : Z; c_err_tol : spec_float; c_max_iter : Z }.

(** input_sanitization.hpp 37-48, 68-72: the underlying type is int8_t *)
Definition safe_enum (v : Z) : out Z := if ((-128 <=? v) && (v <=? 127))%Z then inl v else inr IllegalOperation.
(** model.cpp 109-116 *)
Definition check_calculate_valid_options (o : pgm_options) : out unit :=
  if negb (o_strategy o =? 0)%Z && negb (o_type o =? 0)%Z then inr InvalidArguments else inl tt.
(** 120-129 *)
Definition get_calculation_symmetry (o : pgm_options) : out bool :=
  if (o_symmetric o =? 0)%Z then inl false else if (o_symmetric o =? 1)%Z then inl true else inr MissingCaseForEnum.
(** 135-149 *)
Definition get_optimizer_type (o : pgm_options) : out bool :=
  if (o_strategy o =? 0)%Z then inl false else if ((1 <=? o_strategy o) && (o_strategy o <=? 4))%Z then inl true else inr MissingCaseForEnum.
(** 151-167; the values of OptimizerStrategy (common/enum.hpp) *)
Definition get_optimizer_strategy (o : pgm_options) : out Z :=
  if (o_strategy o =? 0)%Z then inl 0%Z else if (o_strategy o =? 1)%Z then inl 0%Z else if (o_strategy o =? 3)%Z then inl 2%Z
  else if (o_strategy o =? 2)%Z then inl 1%Z else if (o_strategy o =? 4)%Z then inl 5%Z else inr MissingCaseForEnum.
(** 173-183 *)
Definition extract_calculation_options (o : pgm_options) : out options :=
  bindo (safe_enum (o_type o)) (fun t =>
  bindo (get_calculation_symmetry o) (fun sym =>
  bindo (safe_enum (o_method o)) (fun m =>
  bindo (get_optimizer_type o) (fun opt =>
  bindo (get_optimizer_strategy o) (fun strat =>
  bindo (safe_enum (o_scaling o)) (fun _ => inl (mkOptions t sym m opt strat (o_err_tol o) (o_max_iter o)))))))).
(** main_model_impl.hpp 399-423 *)
Definition is_nan_f (x : spec_float) : bool := match x with S754_nan => true | _ => false end.
Definition check_no_experimental_features_used (s : situation) (c : options) : out unit :=
  let limits := existsb (fun r => negb (is_nan_f (vr_q_min r)) || negb (is_nan_f (vr_q_max r))) (regulators s) || batch_q_limits s in
  if ((c_type c =? 0)%Z && negb (c_symmetric c)) && limits then inr ExperimentalFeature else inl tt.
(** model.cpp 96-107, main_model_impl.hpp 425-437 *)
Definition check_experimental_support (s : situation) (o : pgm_options) (c : options) : out unit :=
  if (o_experimental o =? 0)%Z then check_no_experimental_features_used s c
  else if (o_experimental o =? 1)%Z then if node_sensors s then inr InvalidMeasuredTerminal else inl tt
  else inr MissingCaseForEnum.

(** math_solver.hpp 34-37, 43-65; const_y is 1. linear_current is the iterative current method with an infinite tolerance and one iteration (150-155). *)
Definition run_power_flow (c : options) (load_types : list Z) : out run :=
  let m := if forallb (fun t => (t =? 1)%Z) load_types then 0%Z else c_method c in
  if (m =? -128)%Z || (m =? 1)%Z then inl (mkRun NewtonRaphsonPF (c_symmetric c) (Some (c_err_tol c)) (Some (c_max_iter c)))
  else if (m =? 0)%Z then inl (mkRun LinearPF (c_symmetric c) None None)
  else if (m =? 4)%Z then inl (mkRun IterativeCurrentPF (c_symmetric c) (Some (S754_infinity false)) (Some 1%Z))
  else if (m =? 3)%Z then inl (mkRun IterativeCurrentPF (c_symmetric c) (Some (c_err_tol c)) (Some (c_max_iter c)))
  else inr InvalidCalculationMethod.
(** 67-82 *)
Definition run_state_estimation (c : options) : out run :=
  if (c_method c =? -128)%Z || (c_method c =? 2)%Z then inl (mkRun IterativeLinearSE (c_symmetric c) (Some (c_err_tol c)) (Some (c_max_iter c)))
  else if (c_method c =? 1)%Z then inl (mkRun NewtonRaphsonSE (c_symmetric c) (Some (c_err_tol c)) (Some (c_max_iter c)))
  else inr InvalidCalculationMethod.
(** 84-100 *)
Definition run_short_circuit (c : options) : out run :=
  if negb (c_method c =? -128)%Z && negb (c_method c =? 5)%Z then inr InvalidCalculationMethod
  else inl (mkRun ShortCircuitIEC60909 (c_symmetric c) None None).

(** calculation.hpp 44-59, 81-126: the solver of the calculation type *)
Definition solve (c : options) (load_types : list Z) : out run :=
  if (c_type c =? 0)%Z then run_power_flow c load_types
  else if (c_type c =? 1)%Z then run_state_estimation c
  else if (c_type c =? 2)%Z then run_short_circuit c
  else inr MissingCaseForEnum.
Fixpoint solve_all (c : options) (subs : list (list Z)) : out (list run) :=
  match subs with
  | [] => inl []
  | l :: subs' => bindo (solve c l) (fun r => bindo (solve_all c subs') (fun rs => inl (r :: rs)))
  end.
(** main_model_impl.hpp 288-315, one calculation: prepare_solvers with its check, then the solver of each sub-grid. What prepares the solver input is not modelled. *)
Definition calculate_ (s : situation) (c : options) : out (list run) :=
  bindo (check_state_validity s) (fun _ => solve_all c (subgrids s)).
(** fault.get_fault_type(), fault.hpp 161-170 *)
Fixpoint all_three_phase (ts : list Z) : out bool :=
  match ts with
  | [] => inl true
  | t :: ts' => if ((0 <=? t) && (t <=? 3))%Z then if (t =? 0)%Z then all_three_phase ts' else inl false else inr InvalidShortCircuitType
  end.
(** 351-378: std::ranges::all_of stops at the first fault that is not three-phase. The selector (calculation.hpp 44-59) refuses an unknown type before anything is prepared.
    The calculations of a tap search are calculations [calculate_] with the same options or with the linear method (TapSearch.v); here is the one without tap search. *)
Definition calculate (s : situation) (c : options) : out (list run) :=
  bindo (if (c_type c =? 2)%Z then all_three_phase (fault_types s) else inl (c_symmetric c)) (fun sym =>
  let c := mkOptions (c_type c) sym (c_method c) (c_optimize c) (c_strategy c) (c_err_tol c) (c_max_iter c) in
  if ((c_type c =? 0)%Z && negb (c_method c =? 1)%Z) && (0 <? length (regulators s)) then inr InvalidCalculationMethod
  else if ((0 <=? c_type c) && (c_type c <=? 2))%Z then calculate_ s c
  else inr MissingCaseForEnum).
(** model.cpp 336-344, for a single calculation *)
Definition calculate_impl (s : situation) (o : pgm_options) : out (list run) :=
  bindo (check_calculate_valid_options o) (fun _ =>
  bindo (extract_calculation_options o) (fun c =>
  bindo (check_experimental_support s o c) (fun _ => calculate s c))).

(** ** C38: the loop of the iterative power flow solvers *)
(** std::max(dev, max_dev) is (dev < max_dev) ? max_dev : dev; iterative_current_pf_solver.hpp 149-156, newton_raphson_pf_solver.hpp 326-339 *)
Definition max_deviation (devs : list spec_float) : spec_float :=
  fold_left (fun m d => if SFltb d m then m else d) devs (S754_zero false).
Section Loop.
(** what an iteration does to the voltages, and the deviation of each bus; [None]: an exception *)
Context {St : Type} (step : St -> option (St * list spec_float)).
Variables (err_tol : spec_float) (max_iter : Z).
(** outcome of the loop: the state with the number of iterations, an error after a number of iterations, or that the fuel is used up *)
Inductive outcome : Type := Finished (s : St) (iterations : Z) | Failed (e : calc_error) (iterations : Z) | OutOfFuel.

(** iterative_pf_solver.hpp 52-74 with the deviation of the iterative current method; [dev] is max_dev, [n] is num_iter *)
Fixpoint pf_loop (fuel : nat) (s : St) (dev : spec_float) (n : Z) : outcome :=
  if SFltb err_tol dev || (n =? 0)%Z then
    match fuel with
    | 0 => OutOfFuel
    | S fuel' =>
        if (n =? max_iter)%Z then Failed (IterationDiverge max_iter) n
        else match step s with
             | None => Failed SolverError n
             | Some (s', devs) => pf_loop fuel' s' (max_deviation devs) (n + 1)
             end
    end
  else Finished s n.
Definition iterative_current_loop (fuel : nat) (s : St) : outcome := pf_loop fuel s (S754_infinity false) 0.

(** newton_raphson_pf_solver.hpp 306-319, 343-348: the countdown to the check of the reactive power limits. The iteration gets whether the limits are checked in it. *)
Variable nr_step : bool -> St -> option (St * list spec_float).
Variable cache_run : bool.
Fixpoint nr_loop (fuel : nat) (s : St) (countdown : Z) (dev : spec_float) (n : Z) : outcome :=
  if SFltb err_tol dev || (n =? 0)%Z then
    match fuel with
    | 0 => OutOfFuel
    | S fuel' =>
        if (n =? max_iter)%Z then Failed (IterationDiverge max_iter) n
        else
          let cd := if (0 <? countdown)%Z then (countdown - 1)%Z else countdown in
          match nr_step (cd =? 0)%Z s with
          | None => Failed SolverError n
          | Some (s', devs) =>
              let m := max_deviation devs in
              if SFleb m err_tol && (0 <? cd)%Z && negb cache_run then nr_loop fuel' s' 0 (S754_infinity false) (n + 1)
              else nr_loop fuel' s' cd m (n + 1)
          end
    end
  else Finished s n.
(** 264-265: [limits] is has_usable_limits *)
Definition newton_raphson_loop (fuel : nat) (limits : bool) (s : St) : outcome :=
  nr_loop fuel s (if limits then 2 else -1)%Z (S754_infinity false) 0.
End Loop.
Arguments Finished {St}. Arguments Failed {St}. Arguments OutOfFuel {St}.
