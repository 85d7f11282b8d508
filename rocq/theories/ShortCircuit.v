(** Model of faults and of the short circuit solver: component/fault.hpp 38-77, 160-196, math_solver/short_circuit_solver.hpp 44-447 and
    math_solver/common_solver_functions.hpp 33-42.
    Simplifications:
    - double and std::complex are a field, an infinite fault admittance is the constructor [Bolted];
    - the matrix is given by all its blocks: the code visits the entries of column b through the transposed positions of row b
      (y_bus.lu_transpose_entry(), [C19]); entries that are not stored are zero and every operation on a column keeps zeros;
    - the linear solver is taken as exact ([C22]): the theorems speak of any solution of the prepared equations;
    - one value per phase: a vector is a function of the phase, used for the phases below [np] (1 in a symmetric, 3 in an asymmetric calculation). *)
From Verif Require Import Common Component Numbers.

(** common/enum.hpp: FaultType, FaultPhase without nan and default_value *)
Inductive fault_type : Type := three_phase | single_phase_to_ground | two_phase | two_phase_to_ground.
Inductive fault_phase : Type := abc | ph_1a | ph_1b | ph_1c | ph_2ab | ph_2ac | ph_2bc.
Definition fault_type_of (t : Z) : option fault_type :=
  if (t =? 0)%Z then Some three_phase else if (t =? 1)%Z then Some single_phase_to_ground else if (t =? 2)%Z then Some two_phase
  else if (t =? 3)%Z then Some two_phase_to_ground else None.
Definition fault_phase_of (p : Z) : option fault_phase :=
  if (p =? 0)%Z then Some abc else if (p =? 1)%Z then Some ph_1a else if (p =? 2)%Z then Some ph_1b else if (p =? 3)%Z then Some ph_1c
  else if (p =? 4)%Z then Some ph_2ab else if (p =? 5)%Z then Some ph_2ac else if (p =? 6)%Z then Some ph_2bc else None.

Section FaultComponent.
Context {O : DOps}.
(** component/fault.hpp 38-48: an input record is given by the same attributes as an update record. The zero of a missing impedance is [dzero]. *)
Definition fault_create (dzero : D) (u : fault_upd) : fault * option exn :=
  let f := mkFault (to_bool (fau_status u)) (fau_type u) (if (fau_phase u =? na_IntS)%Z then (-1)%Z else fau_phase u) (fau_object u)
             (if isnan (fau_r u) then dzero else fau_r u) (if isnan (fau_x u) then dzero else fau_x u) in
  (f, check_sanity (fa_type f) (fa_phase f)).
(** 161-170; InvalidShortCircuitType is [OtherError 1] *)
Definition get_fault_type (f : fault) : res fault_type :=
  match fault_type_of (fa_type f) with Some t => Ok t | None => Err (OtherError 1) end.
(** 171-196; the value is that of the enumeration *)
Definition get_fault_phase (f : fault) : res Z :=
  if (fa_phase f =? -1)%Z then
    match fault_type_of (fa_type f) with
    | Some three_phase => Ok 0%Z
    | Some single_phase_to_ground => Ok 1%Z
    | Some two_phase | Some two_phase_to_ground => Ok 6%Z
    | None => Err (OtherError 1)
    end
  else Ok (fa_phase f).
(** 50-57: the type and phase of the calculation parameters *)
Definition fault_calc_param (f : fault) : res (fault_type * Z) :=
  match get_fault_type f with
  | Ok t => match get_fault_phase f with Ok p => Ok (t, p) | Err e => Err e end
  | Err e => Err e
  end.
End FaultComponent.

(** short_circuit_solver.hpp 371-412: phase_1 and phase_2; None is -1 *)
Definition set_phase_index (p : Z) : option nat * option nat :=
  if (p =? 1)%Z then (Some 0, None) else if (p =? 2)%Z then (Some 1, None) else if (p =? 3)%Z then (Some 2, None)
  else if (p =? 4)%Z then (Some 0, Some 1) else if (p =? 5)%Z then (Some 0, Some 2) else if (p =? 6)%Z then (Some 1, Some 2)
  else (None, None).
(** 414-446: the type and phases of the calculation; InvalidShortCircuitPhaseOrType is [OtherError 2]. Without faults the type is nan and nothing reads it. *)
Definition fault_type_eqb (a b : fault_type) : bool :=
  match a, b with
  | three_phase, three_phase | single_phase_to_ground, single_phase_to_ground | two_phase, two_phase | two_phase_to_ground, two_phase_to_ground => true
  | _, _ => false
  end.
Definition extract_type_phase (faults : list (fault_type * Z)) : res (option (fault_type * Z)) :=
  match faults with
  | [] => Ok None
  | first :: _ =>
      if negb (forallb (fun f => fault_type_eqb (fst f) (fst first) && (snd f =? snd first)%Z) faults) then Err (OtherError 2)
      else if ((snd first =? -1) || (snd first =? na_IntS))%Z then Err (OtherError 2)
      else Ok (Some first)
  end.

Section Solver.
Context {C : Type} (o : num_ops C).
Local Notation "a + b" := (n_add o a b) : num_scope. Local Notation "a * b" := (n_mul o a b) : num_scope. Local Notation "a - b" := (n_sub o a b) : num_scope.
Local Notation "a / b" := (n_div o a b) : num_scope. Local Notation "- a" := (n_opp o a) : num_scope.
Local Notation zero := (n_zero o). Local Notation one := (n_one o).
Local Open Scope num_scope.
Definition vec : Type := nat -> C.
Definition tensor : Type := nat -> nat -> C.
Variable np : nat.
(** three_phase_tensor.hpp: dot *)
Definition dot (y : tensor) (u : vec) : vec := fun p => nsum o (map (fun q => y p q * u q) (seq 0 np)).
Definition vadd (u v : vec) : vec := fun p => u p + v p.
Definition vsub (u v : vec) : vec := fun p => u p - v p.
Definition vzero : vec := fun _ => zero.
Definition vset (u : vec) (p : nat) (x : C) : vec := fun q => if q =? p then x else u q.
Definition tadd (a b : tensor) : tensor := fun p q => a p q + b p q.
Definition tzero : tensor := fun _ _ => zero.
Definition tdiag (x : C) : tensor := fun p q => if p =? q then x else zero.
Definition tset (a : tensor) (p q : nat) (x : C) : tensor := fun r c => if (r =? p) && (c =? q) then x else a r c.
(** col(q) = 0; col(q1) += col(q2) *)
Definition col_zero (q : nat) (a : tensor) : tensor := fun r c => if c =? q then zero else a r c.
Definition col_add (q1 q2 : nat) (a : tensor) : tensor := fun r c => if c =? q1 then a r c + a r q2 else a r c.

(** FaultCalcParam::y_fault, fault.hpp 58-68 *)
Inductive admittance : Type := Bolted | Through (y : C).

(** What the solver gets: the admittance matrix, and per bus its sources (admittance and reference voltage) and faults *)
Variable ybus : nat -> nat -> tensor.
Variable sources_per_bus : nat -> list nat.
Variable y_source : nat -> tensor.
Variable u_source : nat -> vec.
Variable fault_buses : nat -> list nat.
Variable y_fault : nat -> admittance.
Variables (ftype : fault_type) (phase_1 phase_2 : nat).

(** matrix, right hand side and infinite_admittance_fault_counter *)
Record equations : Type := mkEq { e_mat : nat -> nat -> tensor; e_rhs : nat -> vec; e_bolted : nat -> nat }.
Definition set_block (m : nat -> nat -> tensor) (i j : nat) (a : tensor) : nat -> nat -> tensor := fun r c => if (r =? i) && (c =? j) then a else m r c.
(** all blocks of column [b] *)
Definition map_col (m : nat -> nat -> tensor) (b : nat) (f : tensor -> tensor) : nat -> nat -> tensor := fun r c => if c =? b then f (m r c) else m r c.
Definition set_rhs (r : nat -> vec) (b : nat) (u : vec) : nat -> vec := fun i => if i =? b then u else r i.

(** common_solver_functions.hpp 33-42 *)
Definition add_sources (b : nat) (e : equations) : equations :=
  fold_left (fun e s => mkEq (set_block (e_mat e) b b (tadd (e_mat e b b) (y_source s)))
                             (set_rhs (e_rhs e) b (vadd (e_rhs e b) (dot (y_source s) (u_source s)))) (e_bolted e))
    (sources_per_bus b) e.
(** 122-185 *)
Definition add_fault_with_infinite_impedance (b : nat) (e : equations) : equations :=
  let m := e_mat e in let u := e_rhs e b in
  match ftype with
  | three_phase => mkEq (set_block (map_col m b (fun _ => tzero)) b b (tdiag (- one))) (set_rhs (e_rhs e) b vzero) (e_bolted e)
  | single_phase_to_ground =>
      let m1 := map_col m b (col_zero phase_1) in
      mkEq (set_block m1 b b (tset (m1 b b) phase_1 phase_1 (- one))) (set_rhs (e_rhs e) b (vset u phase_1 zero)) (e_bolted e)
  | two_phase =>
      let m1 := map_col m b (fun a => col_zero phase_2 (col_add phase_1 phase_2 a)) in
      mkEq (set_block m1 b b (tset (tset (m1 b b) phase_1 phase_2 (- one)) phase_2 phase_2 one))
           (set_rhs (e_rhs e) b (vset (vset u phase_2 (u phase_2 + u phase_1)) phase_1 zero)) (e_bolted e)
  | two_phase_to_ground =>
      let m1 := map_col m b (fun a => col_zero phase_2 (col_zero phase_1 a)) in
      mkEq (set_block m1 b b (tset (tset (m1 b b) phase_1 phase_1 (- one)) phase_2 phase_2 (- one)))
           (set_rhs (e_rhs e) b (vset (vset u phase_1 zero) phase_2 zero)) (e_bolted e)
  end.
(** 187-231 *)
Definition add_fault (y : C) (b : nat) (e : equations) : equations :=
  let m := e_mat e in let u := e_rhs e b in
  match ftype with
  | three_phase => mkEq (set_block m b b (tadd (m b b) (tdiag y))) (e_rhs e) (e_bolted e)
  | single_phase_to_ground => mkEq (set_block m b b (tset (m b b) phase_1 phase_1 (m b b phase_1 phase_1 + y))) (e_rhs e) (e_bolted e)
  | two_phase =>
      let d1 := tset (m b b) phase_1 phase_1 (m b b phase_1 phase_1 + y) in
      let d2 := tset d1 phase_2 phase_2 (d1 phase_2 phase_2 + y) in
      let d3 := tset d2 phase_1 phase_2 (d2 phase_1 phase_2 - y) in
      let d4 := tset d3 phase_2 phase_1 (d3 phase_2 phase_1 - y) in
      mkEq (set_block m b b d4) (e_rhs e) (e_bolted e)
  | two_phase_to_ground =>
      let m1 := map_col m b (fun a => col_zero phase_2 (col_add phase_1 phase_2 a)) in
      let d1 := tset (m1 b b) phase_1 phase_2 (- one) in
      let d2 := tset d1 phase_2 phase_2 one in
      let d3 := tset d2 phase_2 phase_1 (d2 phase_2 phase_1 + y) in
      mkEq (set_block m1 b b d3) (set_rhs (e_rhs e) b (vset (vset u phase_2 (u phase_2 + u phase_1)) phase_1 zero)) (e_bolted e)
  end.
(** 102-120: the loop ends at the first fault with an infinite admittance *)
Fixpoint add_faults (faults : list nat) (b : nat) (e : equations) : equations :=
  match faults with
  | [] => e
  | f :: faults' =>
      match y_fault f with
      | Bolted => add_fault_with_infinite_impedance b (mkEq (e_mat e) (e_rhs e) (fun i => if i =? b then S (e_bolted e i) else e_bolted e i))
      | Through y => add_faults faults' b (add_fault y b e)
      end
  end.
(** 84-100, with 60: copy_y_bus *)
Definition prepare (n : nat) : equations :=
  fold_left (fun e b => add_faults (fault_buses b) b (add_sources b e)) (seq 0 n) (mkEq ybus (fun _ => vzero) (fun _ => 0)).

(** 239-301: what one fault makes of the voltage of its bus; [x] is the solution at the bus, [k] the counter *)
Definition fault_voltage (k : nat) (f : nat) (u : vec) : vec :=
  match y_fault f, ftype with
  | Bolted, three_phase => vzero
  | Bolted, single_phase_to_ground => vset u phase_1 zero
  | Bolted, two_phase => vset u phase_2 (u phase_1)
  | Bolted, two_phase_to_ground => vset (vset u phase_1 zero) phase_2 zero
  | Through _, two_phase_to_ground => if 0 <? k then u else vset u phase_2 (u phase_1)
  | Through _, _ => u
  end.
(** 239-301: the current after the first loop *)
Definition fault_current_1 (x : vec) (k : nat) (f : nat) : vec :=
  match y_fault f with
  | Bolted =>
      let c (p : nat) := (- one) * x p / nnum o k in
      match ftype with
      | three_phase => c
      | single_phase_to_ground => vset vzero phase_1 (c phase_1)
      | two_phase => vset (vset vzero phase_1 (c phase_2)) phase_2 ((- one) * c phase_2)
      | two_phase_to_ground => vset (vset vzero phase_1 (c phase_1)) phase_2 (c phase_2)
      end
  | Through y =>
      if 0 <? k then vzero
      else
        match ftype with
        | three_phase => fun p => y * x p
        | single_phase_to_ground => vset vzero phase_1 (y * x phase_1)
        | two_phase => vset (vset vzero phase_1 (y * x phase_1 - y * x phase_2)) phase_2 (y * x phase_2 - y * x phase_1)
        | two_phase_to_ground => vset (vset vzero phase_1 ((- one) * x phase_2)) phase_2 ((- one) * ((- one) * x phase_2) + y * x phase_1)
        end
  end.
(** 303-313 *)
Definition source_current (u : vec) (s : nat) : vec := vsub (dot (y_source s) (u_source s)) (dot (y_source s) u).
Definition i_source_bus (u : vec) (b : nat) : vec := fold_left (fun i s => vadd i (source_current u s)) (sources_per_bus b) vzero.
Definition i_source_inject (b : nat) : vec := fold_left (fun i s => vadd i (dot (y_source s) (u_source s))) (sources_per_bus b) vzero.
(** 317-364: the current after the second loop; [nf] is the number of faults at the bus *)
Definition fault_current (b : nat) (x u : vec) (k nf : nat) (f : nat) : vec :=
  let i := fault_current_1 x k f in
  match y_fault f with
  | Bolted =>
      match ftype with
      | three_phase => fun p => i p + i_source_bus u b p / nnum o k
      | single_phase_to_ground => vset i phase_1 (i phase_1 + i_source_bus u b phase_1 / nnum o k)
      | two_phase =>
          let i' := vset i phase_1 (i phase_1 + i_source_inject b phase_1 / nnum o k) in
          vset i' phase_2 (i' phase_2 - i_source_inject b phase_1 / nnum o k)
      | two_phase_to_ground =>
          let i' := vset i phase_1 (i phase_1 + i_source_bus u b phase_1) in
          vset i' phase_2 (i' phase_2 + i_source_bus u b phase_2)
      end
  | Through _ =>
      match ftype with
      | two_phase_to_ground =>
          if 0 <? k then i
          else let i' := vset i phase_1 (i phase_1 + i_source_inject b phase_1 / nnum o nf) in
               vset i' phase_2 (i' phase_2 - i_source_inject b phase_1 / nnum o nf)
      | _ => i
      end
  end.
(** 233-369, branch and shunt flows aside: the voltage of each bus, the current of each fault of a bus and of each source of a bus. A fault belongs to one bus, and
    each pass of the loops writes the current of its own fault only. *)
Record sc_output : Type := mkOut { out_u : nat -> vec; out_fault : nat -> nat -> vec; out_source : nat -> nat -> vec }.
Definition calculate_result (bolted : nat -> nat) (x : nat -> vec) : sc_output :=
  let u b := fold_left (fun u f => fault_voltage (bolted b) f u) (fault_buses b) (x b) in
  mkOut u (fun b f => fault_current b (x b) (u b) (bolted b) (length (fault_buses b)) f) (fun b s => source_current (u b) s).

(** 44-71: the solution of the prepared equations, then the results *)
Definition solves (n : nat) (e : equations) (x : nat -> vec) : Prop :=
  forall b p, b < n -> p < np -> nsum o (map (fun j => dot (e_mat e b j) (x j) p) (seq 0 n)) = e_rhs e b p.
Definition run_short_circuit (n : nat) (x : nat -> vec) : sc_output := calculate_result (e_bolted (prepare n)) x.
End Solver.
Arguments Bolted {C}. Arguments Through {C}.
