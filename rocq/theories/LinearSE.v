(** Model of the iterative linear state estimation: math_solver/iterative_linear_se_solver.hpp 60-453, measured_values.hpp 159-187,
    common/statistics.hpp 104-132, 251-293 (the conversions used here), common/three_phase_tensor.hpp 68-78, 219-228.
    Simplifications, as in ShortCircuit.v and PowerFlow.v:
    - std::complex<double> is a field with a conjugation and an absolute value; a double is a complex number that is its own conjugate;
    - the matrix is given by all its blocks: a block that is not stored, or is a fill-in, is zero;
    - the elements of an entry of the admittance matrix are listed by branch, y_bus.hpp 133-147 lists them in another order (C18);
    - the linear solver is taken as exact (C22), without the perturbation of a grid that is not fully observable;
    - measured values are those of MeasuredValues (C52): a measurement that is there has a finite variance;
    - a value per phase is a function of the phase, used for the phases below [np] (1 in a symmetric, 3 in an asymmetric calculation).
    The loop around the iterations and its tolerance are in Calculation.v. *)
From Verif Require Import Common Numbers ShortCircuit.

Section LinearSE.
Context {C : Type} (o : num_ops C).
Local Notation "a + b" := (n_add o a b) : num_scope. Local Notation "a * b" := (n_mul o a b) : num_scope. Local Notation "a - b" := (n_sub o a b) : num_scope.
Local Notation "a / b" := (n_div o a b) : num_scope. Local Notation "- a" := (n_opp o a) : num_scope.
Local Notation zero := (n_zero o). Local Notation one := (n_one o).
Local Open Scope num_scope.
Local Notation vec := (ShortCircuit.vec (C := C)). Local Notation tensor := (ShortCircuit.tensor (C := C)).
(** conjugate, absolute value, abs > 0, real part *)
Variables (cj cabs : C -> C) (positive : C -> bool) (real : C -> C).
Variable np : nat.

(** ** The sub-grid: a branch has a from side, [false], and a to side, [true] *)
Variables (n n_branch : nat).
Variable branch_bus : nat -> bool -> option nat.
Variable shunts_per_bus : nat -> list nat.
(** branch_param[branch].value[2 * side + bus side] *)
Variable branch_param : nat -> bool -> bool -> tensor.
Variable shunt_param : nat -> tensor.
Variable ybus : nat -> nat -> tensor.

(** ** The measured values *)
(** statistics.hpp 104-108; a power with its variance per phase, 128-131: the sum of the variances of active and reactive power *)
Record rand : Type := mkRand { value : vec; variance : vec }.
(** measured_values.hpp 81: with or without an angle; the variance is that of all phases *)
Record voltage_measurement : Type := mkVolt { full : bool; volt : vec; volt_var : C }.
Inductive angle_type : Type := local_angle | global_angle.
Variable voltage : nat -> option voltage_measurement.
Variable branch_power : nat -> bool -> option rand.
Variable branch_current : nat -> bool -> option (angle_type * rand).
Variable shunt_power : nat -> option rand.
Variable bus_injection : nat -> option rand.

(** three_phase_tensor.hpp 219-228 *)
Definition phase_shift (x : C) : C := if positive (cabs x) then x / cabs x else one.
(** measured_values.hpp 159-187, 397-400 *)
Definition linearize (u : nat -> vec) (b : nat) : vec :=
  match voltage b with
  | None => u b
  | Some m => if full m then volt m else fun p => real (volt m p) * phase_shift (u b p)
  end.
(** 402-426: the variance does not depend on the voltage *)
Definition power_to_current (m : rand) (u : vec) : rand := mkRand (fun p => cj (value m p / u p)) (variance m).
(** 428-444, statistics.hpp 254-257, 284-293 *)
Definition global_current (m : angle_type * rand) (u : vec) : rand :=
  match fst m with
  | global_angle => snd m
  | local_angle => mkRand (fun p => cj (value (snd m) p) * phase_shift (u p)) (fun p => variance (snd m) p * (phase_shift (u p) * cj (phase_shift (u p))))
  end.

(** ** The elements of an entry: y_bus.hpp 133-147 *)
Inductive element : Type := Shunt (k : nat) | Branch (k : nat) (b0 b1 : bool).
(** topo.branch_bus_idx, -1 is [None] *)
Definition at_bus (k : nat) (side : bool) (b : nat) : bool := match branch_bus k side with Some j => j =? b | None => false end.
Definition elements (r c : nat) : list element :=
  (if r =? c then map Shunt (shunts_per_bus r) else []) ++
  flat_map (fun k => flat_map (fun bb => if at_bus k (fst bb) r && at_bus k (snd bb) c then [Branch k (fst bb) (snd bb)] else [])
    [(false, false); (false, true); (true, false); (true, true)]) (seq 0 n_branch).

(** ** The matrix: 56-72, 184-290 *)
Record gain : Type := mkGain { g : tensor; qh : tensor; q : tensor; r : tensor }.
(** three_phase_tensor.hpp: hermitian_transpose *)
Definition hermitian (t : tensor) : tensor := fun p q => cj (t q p).
(** dot of a tensor, a diagonal tensor and a tensor *)
Definition dot3 (a : tensor) (w : vec) (b : tensor) : tensor := fun p q => nsum o (map (fun k => a p k * w k * b k q) (seq 0 np)).
(** 180-182 *)
Definition diagonal_inverse (v : vec) : vec := fun p => one / v p.
(** 237-252: the variance of a current sensor is taken without the scaling of 428-444 (446-452) *)
Definition branch_variances (k : nat) (side : bool) : list vec :=
  match branch_power k side with Some m => [variance m] | None => [] end ++ match branch_current k side with Some m => [variance (snd m)] | None => [] end.
(** 208-254 *)
Definition gain_element (t : tensor) (e : element) : tensor :=
  match e with
  | Shunt k => match shunt_power k with Some m => tadd o t (dot3 (hermitian (shunt_param k)) (diagonal_inverse (variance m)) (shunt_param k)) | None => t end
  | Branch k b0 b1 =>
      fold_left (fun t side =>
        fold_left (fun t v => tadd o t (dot3 (hermitian (branch_param k side b0)) (diagonal_inverse v) (branch_param k side b1))) (branch_variances k side) t) [false; true] t
  end.
(** 202-207 *)
Definition gain_voltage (row col : nat) : tensor :=
  match voltage row with Some m => if row =? col then tdiag o (one / volt_var m) else tzero o | None => tzero o end.
(** 255-276 *)
Definition q_block (row col : nat) : tensor := match bus_injection row with Some _ => ybus row col | None => tzero o end.
Definition r_block (row col : nat) : tensor :=
  if row =? col then match bus_injection row with Some m => fun p q => if p =? q then - variance m p else zero | None => tdiag o (- one) end else tzero o.
(** 189-289 *)
Definition gain_block (row col : nat) : gain :=
  mkGain (fold_left gain_element (elements row col) (gain_voltage row col)) (hermitian (q_block col row)) (q_block row col) (r_block row col).

(** ** The right-hand side: 292-364 *)
Record rhs : Type := mkRhs { eta : vec; tau : vec }.
Definition vminus (x y : vec) : vec := fun p => x p - y p.
(** dot of a tensor, a diagonal tensor and a vector *)
Definition dot3v (a : tensor) (w : vec) (v : vec) : vec := fun p => nsum o (map (fun k => a p k * w k * v k) (seq 0 np)).
Definition measured_voltage (u : nat -> vec) (b : option nat) : vec := match b with Some j => linearize u j | None => vzero o end.
(** 338-356; a sensor of a side that is not connected is not used (measured_values.hpp, C52) *)
Definition branch_currents (u : nat -> vec) (k : nat) (side : bool) : list rand :=
  match branch_power k side with Some m => [power_to_current m (measured_voltage u (branch_bus k side))] | None => [] end ++
  match branch_current k side with Some m => [global_current m (measured_voltage u (branch_bus k side))] | None => [] end.
(** 311-358 *)
Definition rhs_element (u : nat -> vec) (b : nat) (v : vec) (e : element) : vec :=
  match e with
  | Shunt k =>
      match shunt_power k with
      | Some m => let c := power_to_current m (linearize u b) in vminus v (dot3v (hermitian (shunt_param k)) (diagonal_inverse (variance c)) (value c))
      | None => v
      end
  | Branch k b0 _ =>
      fold_left (fun v side =>
        fold_left (fun v c => vadd o v (dot3v (hermitian (branch_param k side b0)) (diagonal_inverse (variance c)) (value c))) (branch_currents u k side) v) [false; true] v
  end.
(** 301-363 *)
Definition rhs_block (u : nat -> vec) (b : nat) : rhs :=
  mkRhs (fold_left (rhs_element u b) (elements b b) (match voltage b with Some m => fun p => linearize u b p / volt_var m | None => vzero o end))
    (match bus_injection b with Some m => value (power_to_current m (linearize u b)) | None => vzero o end).

(** ** One iteration: 135-141, 366-395 *)
(** the equations that 139 solves *)
Definition solution (u : nat -> vec) (x phi : nat -> vec) : Prop :=
  forall b p, b < n -> p < np ->
    nsum o (map (fun j => dot o np (g (gain_block b j)) (x j) p + dot o np (qh (gain_block b j)) (phi j) p) (seq 0 n)) = eta (rhs_block u b) p /\
    nsum o (map (fun j => dot o np (q (gain_block b j)) (x j) p + dot o np (r (gain_block b j)) (phi j) p) (seq 0 n)) = tau (rhs_block u b) p.
Variables (has_angle : bool) (slack_bus : nat).
(** 368-383 *)
Definition angle_offset (x : nat -> vec) : C := if has_angle then one else cabs (x slack_bus 0) / x slack_bus 0.
(** 385-393 *)
Definition iterate (x : nat -> vec) : nat -> vec := fun b p => x b p * angle_offset x.
Definition iteration (u u' : nat -> vec) : Prop := exists x phi, solution u x phi /\ u' = iterate x.
End LinearSE.
Arguments mkRand {C}. Arguments mkVolt {C}.
