(** Model of the linear and the iterative current power flow and of the results that every power flow reports:
    math_solver/linear_pf_solver.hpp 67-115, iterative_current_pf_solver.hpp 95-205, common_solver_functions.hpp 33-160, 383-446,
    calculation_parameters.hpp 216-227 (admittance of a source), common/three_phase_tensor.hpp 45-53, 449-459.
    Simplifications, as in ShortCircuit.v:
    - std::complex<double> is a field with a conjugation and an absolute value;
    - the matrix is given by all its blocks, entries that are not stored are zero (C19);
    - the linear solver is taken as exact (C22): the theorems speak of any solution of the prepared equations;
    - a value per phase is a function of the phase, used for the phases below [np] (1 in a symmetric, 3 in an asymmetric calculation).
    The voltage regulators of a bus, which change the reactive power of its generators, are in ReactivePower.v. *)
From Verif Require Import Common Numbers ShortCircuit.

Section PowerFlow.
Context {C : Type} (o : num_ops C).
Local Notation "a + b" := (n_add o a b) : num_scope. Local Notation "a * b" := (n_mul o a b) : num_scope. Local Notation "a - b" := (n_sub o a b) : num_scope.
Local Notation "a / b" := (n_div o a b) : num_scope. Local Notation "- a" := (n_opp o a) : num_scope.
Local Notation zero := (n_zero o). Local Notation one := (n_one o).
Local Notation two := (n_add o one one). Local Notation three := (n_add o (n_add o one one) one).
Local Open Scope num_scope.
(** conjugate, absolute value, exp(2 pi i / 3) *)
Variables (cj cabs : C -> C) (a : C).
Variable np : nat.

(** three_phase_tensor.hpp 47-53: one complex number as a balanced three-phase phasor *)
Definition phasor (x : C) : vec := fun p => match p with 0 => x | 1 => x * (a * a) | _ => x * a end.
(** calculation_parameters.hpp 216-227 *)
Definition y_ref (y1 y0 : C) : tensor :=
  if np =? 1 then fun _ _ => y1
  else fun p q => if p =? q then (two * y1 + y0) / three else (y0 - y1) / three.
(** common/enum.hpp: LoadGenType *)
Inductive load_type : Type := const_pq | const_y | const_i.

(** The sub-grid *)
Variable n : nat.
Variable ybus : nat -> nat -> tensor (C := C).
Variables (sources_per_bus loads_per_bus : nat -> list nat).
Variables (y1 y0 u_source : nat -> C).
Variable s_injection : nat -> vec (C := C).
Definition source_y (s : nat) : tensor := y_ref (y1 s) (y0 s).
Definition source_u (s : nat) : vec := phasor (u_source s).

(** 44-51: add_diag *)
Definition add_linear_loads (b : nat) (e : equations) : equations :=
  fold_left (fun e l => mkEq (set_block (e_mat e) b b (fun p q => if p =? q then e_mat e b b p q + - cj (s_injection l p) else e_mat e b b p q)) (e_rhs e) (e_bolted e))
    (loads_per_bus b) e.
(** 53-66, linear_pf_solver.hpp 80-82; u is zero after its resize *)
Definition prepare_linear : equations :=
  fold_left (fun e b => add_sources o np sources_per_bus source_y source_u b (add_linear_loads b e)) (seq 0 n) (mkEq ybus (fun _ => vzero o) (fun _ => 0)).

(** ** Iterative current *)
(** iterative_current_pf_solver.hpp 105-115: the matrix is independent of the iteration *)
Definition iterative_matrix : nat -> nat -> tensor :=
  fold_left (fun m b => fold_left (fun m s => set_block m b b (tadd o (m b b) (source_y s))) (sources_per_bus b) m) (seq 0 n) ybus.
(** 172-197: the current of a load at the voltages [u] of its bus *)
Definition load_current (ty : load_type) (l : nat) (u : vec) : vec :=
  fun p => match ty with
           | const_pq => cj (s_injection l p / u p)
           | const_y => cj (s_injection l p) * u p
           | const_i => cj (s_injection l p * cabs (u p) / u p)
           end.
(** 126-141, 199-205 *)
Variable load_gen_type : nat -> load_type.
Definition iterative_rhs (u : nat -> vec) (b : nat) : vec :=
  fold_left (fun i s => vadd o i (dot o np (source_y s) (source_u s))) (sources_per_bus b)
    (fold_left (fun i l => vadd o i (load_current (load_gen_type l) l (u b))) (loads_per_bus b) (vzero o)).
(** one iteration: [u'] is the solution for the voltages [u] *)
Definition iteration (u u' : nat -> vec) : Prop :=
  solves o np n (mkEq iterative_matrix (iterative_rhs u) (fun _ => 0)) u'.

(** ** Results *)
Variable result_type : nat -> load_type.
Variable u : nat -> vec (C := C).
(** y_bus.hpp 482-489 *)
Definition network_current (b : nat) : vec := fun p => nsum o (map (fun j => dot o np (ybus b j) (u j) p) (seq 0 n)).
Definition bus_injection (b : nat) : vec := fun p => cj (network_current b p) * u b p.
(** common_solver_functions.hpp 383-409 *)
Definition load_gen_s (b l : nat) : vec :=
  fun p => match result_type l with
           | const_pq => s_injection l p
           | const_y => s_injection l p * (u b p * cj (u b p))
           | const_i => s_injection l p * cabs (u b p)
           end.
Definition load_gen_i (b l : nat) : vec := fun p => cj (load_gen_s b l p / u b p).
(** 143-152 *)
Definition i_load_gen_bus (b : nat) : vec := fun p => nsum o (map (fun l => load_gen_i b l p) (loads_per_bus b)).
Definition i_inj_t (b : nat) : vec := fun p => cj (bus_injection b p / u b p) - i_load_gen_bus b p.
(** 83-101 *)
Definition multiple_source_sym (b s : nat) : C :=
  let y_ref_t := nsum o (map y1 (sources_per_bus b)) in
  let z_ref_t := one / y_ref_t in
  let i_ref_t := nsum o (map (fun s => u_source s * y1 s) (sources_per_bus b)) in
  let y_ref_i_over_y_ref_t := y1 s * z_ref_t in
  let i_inj_i_lhs := y_ref_i_over_y_ref_t * (u_source s * y_ref_t - i_ref_t) in
  i_inj_i_lhs + y_ref_i_over_y_ref_t * i_inj_t b 0.
(** three_phase_tensor.hpp 449-459 *)
Definition sym_matrix : tensor :=
  fun r c => match r, c with 0, _ => one | _, 0 => one | 1, 1 => a * a | 1, _ => a | _, 1 => a | _, _ => a * a end.
Definition sym_matrix_inv : tensor :=
  fun r c => match r, c with 0, _ => one / three | _, 0 => one / three | 1, 1 => a / three | 1, _ => a * a / three | _, 1 => a * a / three | _, _ => a / three end.
(** 110-139 *)
Definition multiple_source_asym (b s : nat) : vec :=
  let y_0_t := nsum o (map y0 (sources_per_bus b)) in
  let y_1_t := nsum o (map y1 (sources_per_bus b)) in
  let i_ref_1_t := nsum o (map (fun s => u_source s * y1 s) (sources_per_bus b)) in
  let i_inj_t_012 := dot o 3 sym_matrix_inv (i_inj_t b) in
  let over_1 := y1 s / y_1_t in
  let i_inj_i_1_lhs := over_1 * (u_source s * y_1_t - i_ref_1_t) in
  let i_0 := (y0 s / y_0_t) * i_inj_t_012 0 in
  let i_1 := i_inj_i_1_lhs + over_1 * i_inj_t_012 1 in
  let i_2 := (y1 s / y_1_t) * i_inj_t_012 2 in
  dot o 3 sym_matrix (fun k => match k with 0 => i_0 | 1 => i_1 | _ => i_2 end).
(** 153-159 *)
Definition source_i (b s : nat) : vec :=
  if length (sources_per_bus b) =? 1 then i_inj_t b
  else if np =? 1 then fun _ => multiple_source_sym b s
  else multiple_source_asym b s.
Definition source_s (b s : nat) : vec := fun p => u b p * cj (source_i b s p).
End PowerFlow.
