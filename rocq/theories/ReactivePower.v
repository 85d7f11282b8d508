(** Model of how the reactive power of a voltage controlled bus is checked against limits and divided among its voltage regulators:
    math_solver/common_solver_functions.hpp 162-381, newton_raphson_pf_solver.hpp 400-445 (limits of a bus), 593-700 (check of the limits).
    Simplifications:
    - doubles are rational numbers, NaN (a limit that is not given) is [None]; rounding and infinite values are not modelled;
    - a value per phase is a function of the phase, used for the phases below [np] (1 in a symmetric, 3 in an asymmetric calculation);
    - the currents of the load_gens, conj(s / u), are those of PowerFlow.v (load_gen_i) for the power found here. *)
From Coq Require Import QArith Qabs.
From Verif Require Import Common.
Close Scope Q_scope. Open Scope nat_scope.

Definition value : Type := nat -> Q.
Definition vzero : value := fun _ => 0%Q.
Definition vplus (a b : value) : value := fun p => (a p + b p)%Q.
Definition vminus (a b : value) : value := fun p => (a p - b p)%Q.
Definition gtb (a b : Q) : bool := negb (Qle_bool a b).
Definition ltb (a b : Q) : bool := negb (Qle_bool b a).

Section Alloc.
(** 1: symmetric, 3: asymmetric; common/common.hpp 86: numerical_tolerance *)
Variables (np : nat) (tol : Q).

(** common_solver_functions.hpp 218-224 *)
Definition total_q (q : value) : Q := if np =? 1 then q 0 else (q 0%nat + q 1%nat + q 2%nat)%Q.
(** 226-240 *)
Definition distribute_q (q_scalar : Q) (base : value) : value :=
  if np =? 1 then fun _ => q_scalar
  else
    let base_total := total_q base in
    if gtb (Qabs base_total) tol then let scale := (q_scalar / base_total)%Q in fun p => (base p * scale)%Q
    else fun _ => (q_scalar / 3)%Q.

(** calculation_parameters.hpp: VoltageRegulatorCalcParam without the id of the generator *)
Record regulator : Type := mkReg { r_status : bool; q_min : option Q; q_max : option Q }.
(** 162-168: RegulatorQState, with the parameters of the regulator instead of its index; is_regulating always holds *)
Record q_state : Type := mkSt { st_load : nat; st_reg : regulator; st_free : bool; st_q : value }.
Inductive violation : Type := none | lower | upper.

Definition exceeds (q : Q) (limit : option Q) : bool := match limit with Some m => gtb q (m + tol)%Q | None => false end.
Definition below (q : Q) (limit : option Q) : bool := match limit with Some m => ltb q (m - tol)%Q | None => false end.
Definition limit_or_zero (limit : option Q) : Q := match limit with Some m => m | None => 0%Q end.
(** one regulator in a pass of the loop, 335-366: its new state, what is left of its share, whether it has reached a limit *)
Definition offer (share : value) (s : q_state) : q_state * value * bool :=
  let next := vplus (st_q s) share in
  let clamp m := let q := distribute_q m next in (mkSt (st_load s) (st_reg s) false q, vminus share (vminus q (st_q s)), true) in
  if exceeds (total_q next) (q_max (st_reg s)) then clamp (limit_or_zero (q_max (st_reg s)))
  else if below (total_q next) (q_min (st_reg s)) then clamp (limit_or_zero (q_min (st_reg s)))
  else (mkSt (st_load s) (st_reg s) true next, vzero, false).
(** a pass, 334-370; [num] is num_regulating_gens *)
Fixpoint pass (share : value) (sts : list q_state) (unallocated : value) (num : nat) : list q_state * value * nat :=
  match sts with
  | [] => ([], unallocated, num)
  | s :: sts' =>
      if st_free s then
        let '(s', rest, hit) := offer share s in
        let '(r, u, m) := pass share sts' (if hit : bool then vplus unallocated rest else unallocated) (if hit then num - 1 else num) in
        (s' :: r, u, m)
      else let '(r, u, m) := pass share sts' unallocated num in (s :: r, u, m)
  end.
Inductive allocation : Type := Done (sts : list q_state) (rest : value) (num : nat) | Thrown | OutOfFuel.
(** 331-380 *)
Fixpoint distribute (fuel : nat) (q_remaining : value) (num : nat) (sts : list q_state) : allocation :=
  if gtb (Qabs (total_q q_remaining)) tol && (0 <? num) then
    match fuel with
    | 0 => OutOfFuel
    | S fuel' =>
        let share : value := fun p => (q_remaining p / inject_Z (Z.of_nat num))%Q in
        let '(sts', q_unallocated, num') := pass share sts vzero num in
        if ltb (Qabs (total_q (vminus q_remaining q_unallocated))) tol then Thrown
        else distribute fuel' q_unallocated num' sts'
    end
  else Done sts q_remaining num.
(** 318-381, with the regulators as initialised at 203-211 and 325-327; the limit_violated of each regulator stays none (369) *)
Definition allocate_q_iterative_distribution (q_remaining : value) (regs : list (nat * regulator)) : allocation :=
  distribute (length regs + 1) q_remaining (length regs) (map (fun r => mkSt (fst r) (snd r) true vzero) regs).
(** 291-316 *)
Definition allocate_q_bus_limit_violated (v : violation) (load_s_q : nat -> value) (regs : list (nat * regulator)) : list q_state :=
  map (fun r => mkSt (fst r) (snd r) false
    (distribute_q (limit_or_zero (match v with upper => q_max (snd r) | _ => q_min (snd r) end)) (load_s_q (fst r)))) regs.

(** ** The result of a bus *)
(** what is reported for a load_gen: active and reactive power; 'None' where the model of a failed calculation stops *)
Record power : Type := mkPower { pw_p : value; pw_q : value }.
(** 170-216: the load_gens of the bus whose generator and regulator are on, in order; [regulator_of] is the map of 428-433 *)
Fixpoint regulating (load_gens : list nat) (status : nat -> bool) (regulator_of : nat -> option regulator) : list (nat * regulator) :=
  match load_gens with
  | [] => []
  | l :: ls =>
      match regulator_of l with
      | Some r => if status l && r_status r then (l, r) :: regulating ls status regulator_of else regulating ls status regulator_of
      | None => regulating ls status regulator_of
      end
  end.
Fixpoint others_q (load_gens : list nat) (status : nat -> bool) (regulator_of : nat -> option regulator) (s : nat -> power) : value :=
  match load_gens with
  | [] => vzero
  | l :: ls =>
      match regulator_of l with
      | Some r => if status l && r_status r then others_q ls status regulator_of s else vplus (pw_q (s l)) (others_q ls status regulator_of s)
      | None => vplus (pw_q (s l)) (others_q ls status regulator_of s)
      end
  end.
(** 270-288 *)
Definition apply_q (s : nat -> power) (sts : list q_state) : nat -> power :=
  fold_left (fun s st => fun l => if l =? st_load st then mkPower (pw_p (s l)) (st_q st) else s l) sts s.
Inductive bus_result : Type := Reported (s : nat -> power) (limits : nat -> violation) | CalculationError | Diverges.
(** 242-289: [s] are the powers of the load_gens before, [injection_q] the reactive power that the grid takes from the bus, [v] the limit of the bus that is violated *)
Definition calculate_voltage_regulator_result (load_gens : list nat) (status : nat -> bool) (regulator_of : nat -> option regulator)
    (s : nat -> power) (injection_q : value) (v : violation) : bus_result :=
  let regs := regulating load_gens status regulator_of in
  match regs with
  | [] => Reported s (fun _ => none)
  | _ :: _ =>
      match v with
      | none =>
          match allocate_q_iterative_distribution (vminus injection_q (others_q load_gens status regulator_of s)) regs with
          | Done sts _ _ => Reported (apply_q s sts) (fun _ => none)
          | Thrown => CalculationError
          | OutOfFuel => Diverges
          end
      | _ => Reported (apply_q s (allocate_q_bus_limit_violated v (fun l => pw_q (s l)) regs)) (fun l => if existsb (fun r => l =? fst r) regs then v else none)
      end
  end.

(** ** The limits of a bus *)
(** newton_raphson_pf_solver.hpp 413-433: a sum with NaN is NaN *)
Definition sum_limits (limits : list (option Q)) : option Q :=
  fold_left (fun a b => match a, b with Some x, Some y => Some (x + y)%Q | _, _ => None end) limits (Some 0%Q).
Definition bus_q_min (regs : list (nat * regulator)) : option Q := sum_limits (map (fun r => q_min (snd r)) regs).
Definition bus_q_max (regs : list (nat * regulator)) : option Q := sum_limits (map (fun r => q_max (snd r)) regs).
(** 593-608 *)
Definition violated_limit (q : value) (lo hi : option Q) : violation :=
  if exceeds (total_q q) hi then upper else if below (total_q q) lo then lower else none.
(** 610-665: [mismatch] is del_x_pq_[bus].q, the specified minus the calculated reactive power of the bus; 
    416, 436-442, 615: a bus without active regulators or without limits is skipped; so is a bus with a source, or one whose limit was found violated before *)
Definition enforce_q_limits (load_gens : list nat) (status : nat -> bool) (regulator_of : nat -> option regulator) (s : nat -> power) (mismatch : value) : violation :=
  let regs := regulating load_gens status regulator_of in
  match regs, bus_q_min regs, bus_q_max regs with
  | [], _, _ => none
  | _, None, None => none
  | _, lo, hi => violated_limit (vminus (fold_right (fun r acc => vplus (pw_q (s (fst r))) acc) vzero regs) mismatch) lo hi
  end.
End Alloc.
