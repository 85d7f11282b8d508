(** What the choice of a calculation, the check of regulators and the iteration mean to a user. *)
From Coq Require Import Floats.SpecFloat.
From Verif Require Import Common Calculation.

(** ** Methods (power_grid_model_c/include/power_grid_model_c/basics.h 153-171, docs/user_manual/calculations.md)
    types: 0 power flow, 1 state estimation, 2 short circuit; methods: -128 default, 0 linear, 1 Newton-Raphson, 2 iterative linear, 3 iterative current, 4 linear current, 5 IEC 60909 *)
Definition documented_solver (type method : Z) : option solver :=
  match type, method with
  | 0, (-128) | 0, 1 => Some NewtonRaphsonPF
  | 0, 0 => Some LinearPF
  | 0, 3 | 0, 4 => Some IterativeCurrentPF
  | 1, (-128) | 1, 2 => Some IterativeLinearSE
  | 1, 1 => Some NewtonRaphsonSE
  | 2, (-128) | 2, 5 => Some ShortCircuitIEC60909
  | _, _ => None
  end%Z.
Definition constant_impedance (load_types : list Z) : Prop := Forall (fun t => t = 1%Z) load_types.
(** the tolerance and the limit that a run should have *)
Definition documented_settings (sv : solver) (method : Z) (err_tol : spec_float) (max_iter : Z) : option spec_float * option Z :=
  match sv with
  | LinearPF | ShortCircuitIEC60909 => (None, None)
  | IterativeCurrentPF => if (method =? 4)%Z then (Some (S754_infinity false), Some 1%Z) else (Some err_tol, Some max_iter)
  | _ => (Some err_tol, Some max_iter)
  end.

(** ** Regulators *)
(** the node of the load or generator that a regulator controls *)
Definition regulates_at (s : situation) (r : vregulator) (node : Z) : Prop := exists t, In (vr_object r, (node, t)) (load_gens s).
Definition agree (s : situation) (r1 r2 : vregulator) : Prop :=
  vr_status r1 = true -> vr_status r2 = true -> forall node, regulates_at s r1 node -> regulates_at s r2 node -> SFeqb (vr_u_ref r1) (vr_u_ref r2) = true.
Definition acceptable (s : situation) : Prop :=
  regulators s = [] \/
  (n_tap_regulators s = 0 /\
   ForallOrdPairs (agree s) (regulators s) /\
   (forall r node t, In r (regulators s) -> vr_status r = true -> In (vr_object r, (node, t)) (load_gens s) -> t = 0%Z) /\
   (forall r node x, In r (regulators s) -> vr_status r = true -> regulates_at s r node -> In x (csources s) -> cs_status x = true -> cs_node x <> node)).
(** what C46 gives for every model that was created *)
Definition well_formed (s : situation) : Prop :=
  NoDup (map fst (load_gens s)) /\ (forall r, In r (regulators s) -> exists node, regulates_at s r node).

(** ** Iterations *)
(** [n] iterations lead from [s] to [s'] *)
Inductive iterations {St : Type} (step : St -> option (St * list spec_float)) : nat -> St -> St -> Prop :=
| it_zero s : iterations step 0 s s
| it_next n s s1 s2 devs : iterations step n s s1 -> step s1 = Some (s2, devs) -> iterations step (S n) s s2.
Definition not_nan (x : spec_float) : Prop := x <> S754_nan.
(** the same for an iteration that may or may not check the limits *)
Inductive nr_iterations {St : Type} (step : bool -> St -> option (St * list spec_float)) : nat -> St -> St -> Prop :=
| nr_it_zero s : nr_iterations step 0 s s
| nr_it_next n s s1 s2 checked devs : nr_iterations step n s s1 -> step checked s1 = Some (s2, devs) -> nr_iterations step (S n) s s2.
