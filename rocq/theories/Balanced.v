(** Model of the start of the iterative current power flow and of the measure for its end:
    math_solver/iterative_current_pf_solver.hpp 148-160, 206-225, iterative_pf_solver.hpp 44-74.
    Simplifications, as in PowerFlow.v: exact numbers; the linear solver is exact; a value per phase is a function of the phase. No proofs here. *)
From Verif Require Import Common Numbers ShortCircuit PowerFlow.

Section Balanced.
Context {C : Type} (o : num_ops C) (cj cabs : C -> C) (a : C).
(** std::max on absolute values *)
Variable cmax : C -> C -> C.
Variables (np n : nat) (ybus : nat -> nat -> tensor (C := C)) (sources_per_bus loads_per_bus : nat -> list nat) (y1 y0 u_source : nat -> C) (s_injection : nat -> vec (C := C)) (load_gen_type : nat -> load_type).
(** exp(1.0i * -phase_shift[bus]) and exp(1.0i * phase_shift[bus]) *)
Variables (back forth : nat -> C).

(** 208-217: the average over all sources; input.source.size() is the number of sources of the sub-grid, all of which are at one of its buses *)
Definition flat_u_ref : C :=
  n_div o (nsum o (flat_map (fun b => map (fun s => n_mul o (u_source s) (back b)) (sources_per_bus b)) (seq 0 n)))
    (nnum o (length (flat_map sources_per_bus (seq 0 n)))).
(** 219-223; ComplexValue<sym> of a complex number *)
Definition flat_start (b : nat) : vec := let x := n_mul o flat_u_ref (forth b) in if np =? 1 then fun _ => x else phasor o a x.
(** 148-160; max_val: common/three_phase_tensor.hpp 289-293 *)
Definition max_val (v : vec) : C := if np =? 1 then v 0 else cmax (cmax (v 0) (v 1)) (v 2).
Definition max_dev (u u' : nat -> vec) : C :=
  fold_left (fun m b => cmax (max_val (fun p => cabs (n_sub o (u' b p) (u b p)))) m) (seq 0 n) (n_zero o).
(** iterative_pf_solver.hpp 44-74: the voltages after [k] iterations *)
Inductive iterates : nat -> (nat -> vec) -> Prop :=
  | it_start : iterates 0 flat_start
  | it_next k u u' : iterates k u -> iteration o cj cabs a np n ybus sources_per_bus loads_per_bus y1 y0 u_source s_injection load_gen_type u u' -> iterates (S k) u'.
End Balanced.
