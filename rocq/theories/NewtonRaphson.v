(** Model of the Newton-Raphson power flow: math_solver/newton_raphson_pf_solver.hpp 230-877, common/three_phase_tensor.hpp 219-247, 286-351.
    Simplifications:
    - double is a field with an order [gtb] (given as a test), an absolute value and the functions cos, sin; NaN (a value that is not given) is [None];
      std::complex<double> is a pair (NumbersPair.v);
    - the matrix is given by all its blocks, entries that are not stored (and fill-ins) are zero (C19): a fill-in is set to zero by the code, and the block that the
      model computes for an admittance zero is zero;
    - each row of the matrix and of the right-hand side is written from the row alone, so that the loops over the buses (473-547) are one function of the row;
    - the linear solver is taken as exact (C22): the relation [step] allows any solution of the prepared equations;
    - a value per phase is a function of the phase, used for the phases below [np] (1 in a symmetric, 3 in an asymmetric calculation);
    - iterative_pf_solver.hpp 33-51 runs each calculation on a copy of the solver: a run starts from the state of the constructor (230-247).
    The loop around the iterations, its tolerance and its countdown are in Calculation.v. *)
From Verif Require Import Common Numbers NumbersPair ShortCircuit PowerFlow.

Section Newton.
Context {R : Type} (o : num_ops R).
Local Notation "a + b" := (n_add o a b) : num_scope. Local Notation "a * b" := (n_mul o a b) : num_scope. Local Notation "a - b" := (n_sub o a b) : num_scope.
Local Notation "a / b" := (n_div o a b) : num_scope. Local Notation "- a" := (n_opp o a) : num_scope.
Local Notation zero := (n_zero o). Local Notation one := (n_one o). Local Notation two := (n_add o one one). Local Notation three := (n_add o (n_add o one one) one).
Local Open Scope num_scope.
Local Notation cx := (NumbersPair.cx (R := R)). Local Notation cxo := (pair_num o). Local Notation conj := (cconj o).

(** cabs, arg, cos, sin; the order; std::abs; common/common.hpp: numerical_tolerance *)
Variables (cabs arg : cx -> R) (rcos rsin : R -> R) (gtb : R -> R -> bool) (rabs : R -> R) (tol : R).
Variable np : nat.

Definition value : Type := nat -> R.
Definition cvalue : Type := nat -> cx.
Definition rtensor : Type := nat -> nat -> R.
Definition ctensor : Type := nat -> nat -> cx.
Definition v0 : value := fun _ => zero.
Definition vplus (x y : value) : value := fun p => x p + y p.
Definition vminus (x y : value) : value := fun p => x p - y p.
Definition vneg (x : value) : value := fun p => - x p.
Definition vtimes (x y : value) : value := fun p => x p * y p.
Definition vre (z : cvalue) : value := fun p => re (z p).
Definition vim (z : cvalue) : value := fun p => im (z p).
Definition tplus (x y : rtensor) : rtensor := fun p q => x p q + y p q.
(** three_phase_tensor.hpp 286-291, 338-351 *)
Definition sum_row (t : rtensor) : value := fun p => nsum o (map (t p) (seq 0 np)).
Definition add_diag (t : rtensor) (v : value) : rtensor := fun p q => if p =? q then t p q + v p else t p q.
Definition total (v : value) : R := if np =? 1 then v 0 else v 0 + v 1 + v 2.

(** 175-194: PolarPhasor: (theta, v), (p, q) or (i_real, i_imag) *)
Record polar : Type := mkPolar { pa : value; pb : value }.
(** 206-225: PFJacBlock: h, n, m, l, in the linear start real_real, real_imag, imag_real, imag_imag *)
Record block : Type := mkBlock { bh : rtensor; bn : rtensor; bm : rtensor; bl : rtensor }.
Definition zero_block : block := mkBlock (fun _ _ => zero) (fun _ _ => zero) (fun _ _ => zero) (fun _ _ => zero).
Definition block_add (x y : block) : block := mkBlock (tplus (bh x) (bh y)) (tplus (bn x) (bn y)) (tplus (bm x) (bm y)) (tplus (bl x) (bl y)).
(** a row of the matrix and of the right-hand side *)
Record row : Type := mkRow { r_jac : nat -> block; r_del : polar }.
Definition set_entry (f : nat -> block) (j : nat) (b : block) : nat -> block := fun k => if k =? j then b else f k.

(** ** The sub-grid and the input of the calculation *)
Variable n : nat.
Variable ybus : nat -> nat -> ctensor.
Variables (sources_per_bus loads_per_bus : nat -> list nat).
Variables (source_y : nat -> ctensor) (source_u : nat -> cvalue).
Variables (load_gen_type : nat -> load_type) (s_injection : nat -> cvalue) (status : nat -> bool).
(** calculation_parameters.hpp: VoltageRegulatorCalcParam without the id of the generator *)
Record regulator : Type := mkReg { g_status : bool; g_u_ref : cx; g_q_min : option R; g_q_max : option R }.
Variables (regulators_of : nat -> list nat) (regs : nat -> regulator).

(** ** The state: 377-400 *)
Inductive bus_type : Type := slack | pq | pv.
Inductive violation : Type := none | lower | upper.
Record control : Type := mkCtl { c_type : bus_type; c_u_ref : cx; c_has_limits : bool; c_recalc : bool; c_violated : violation; c_q_min : option R; c_q_max : option R }.
Record state : Type := mkState { x : nat -> polar; rows : nat -> row; ctl : nat -> control; clamped : nat -> option value; countdown : Z }.
Definition oplus (a b : option R) : option R := match a, b with Some x, Some y => Some (x + y) | _, _ => None end.
Definition start_control : control := mkCtl pq (zero, zero) false false none (Some zero) (Some zero).
(** the active regulators of a bus, with their load_gens, in the order of the loops (413-433, 647-664) *)
Definition active (b : nat) : list (nat * nat) :=
  flat_map (fun l => if status l then map (fun g => (l, g)) (filter (fun g => g_status (regs g)) (regulators_of l)) else []) (loads_per_bus b).
(** 402-445 *)
Definition bus_control (b : nat) : control :=
  match sources_per_bus b with
  | _ :: _ => mkCtl slack (zero, zero) false false none (Some zero) (Some zero)
  | [] =>
      let c := fold_left (fun c lg => mkCtl pv (g_u_ref (regs (snd lg))) false false none (oplus (c_q_min c) (g_q_min (regs (snd lg)))) (oplus (c_q_max c) (g_q_max (regs (snd lg)))))
                 (active b) start_control in
      match c_type c with
      | pv => mkCtl pv (c_u_ref c) (match c_q_min c, c_q_max c with None, None => false | _, _ => true end) false none (c_q_min c) (c_q_max c)
      | _ => c
      end
  end.
(** 264-265, 402-445: has_usable_limits *)
Definition start_countdown : Z := if existsb (fun b => c_has_limits (bus_control b)) (seq 0 n) then 2 else -1.

(** ** The start: 255-303 *)
(** 854-863 *)
Definition linear_block (y : ctensor) : block := mkBlock (fun p q => re (y p q)) (fun p q => - im (y p q)) (fun p q => im (y p q)) (fun p q => re (y p q)).
(** 706-742 *)
Definition is_regulated (l : nat) : bool := existsb (fun g => g_status (regs g) && status l) (regulators_of l).
Definition add_linear_load (b : block) (l : nat) : block :=
  let s : cvalue := if is_regulated l then fun p => (re (s_injection l p), zero) else s_injection l in
  let y : cvalue := fun p => copp o (conj (s p)) in
  mkBlock (add_diag (bh b) (vre y)) (add_diag (bn b) (vneg (vim y))) (add_diag (bm b) (vim y)) (add_diag (bl b) (vre y)).
(** 744-762, 865-871 *)
Definition add_linear_source (bd : block * polar) (s : nat) : block * polar :=
  let (b, d) := bd in
  let i := dot cxo np (source_y s) (source_u s) in
  (block_add b (linear_block (source_y s)), mkPolar (vplus (pa d) (vre i)) (vplus (pb d) (vim i))).
Definition linear_row (b : nat) : row :=
  let m : nat -> block := fun j => linear_block (ybus b j) in
  let (d, r) := fold_left add_linear_source (sources_per_bus b) (fold_left add_linear_load (loads_per_bus b) (m b), mkPolar v0 v0) in
  mkRow (set_entry m b d) r.
(** a solution of the equations of the rows *)
Definition solution (rs : nat -> row) (d : nat -> polar) : Prop :=
  forall b p, b < n -> p < np ->
    nsum o (map (fun j => nsum o (map (fun q => bh (r_jac (rs b) j) p q * pa (d j) q + bn (r_jac (rs b) j) p q * pb (d j) q) (seq 0 np))) (seq 0 n)) = pa (r_del (rs b)) p /\
    nsum o (map (fun j => nsum o (map (fun q => bm (r_jac (rs b) j) p q * pa (d j) q + bl (r_jac (rs b) j) p q * pb (d j) q) (seq 0 np))) (seq 0 n)) = pb (r_del (rs b)) p.
(** three_phase_tensor.hpp 219-225 *)
Definition phase_shift (z : cx) : cx := if gtb (cabs z) zero then (re z / cabs z, im z / cabs z) else (one, zero).
(** 289-302, 447-453: the first voltages, from a solution of the linear equations, and the state *)
Definition start_u (d : nat -> polar) (b : nat) : cvalue :=
  fun p => let u : cx := (pa (d b) p, pb (d b) p) in
           match c_type (bus_control b) with pv => cmul o (c_u_ref (bus_control b)) (phase_shift u) | _ => u end.
Definition start_state (d : nat -> polar) : state :=
  mkState (fun b => mkPolar (fun p => arg (start_u d b p)) (fun p => cabs (start_u d b p))) linear_row bus_control (fun _ => None) start_countdown.

(** ** One iteration *)
(** 462-471 *)
Definition calculate_hnml (y : ctensor) (ui uj : cvalue) : block :=
  let power_flow : ctensor := fun p q => cmul o (cmul o (ui p) (conj (uj q))) (conj (y p q)) in
  mkBlock (fun p q => im (power_flow p q)) (fun p q => re (power_flow p q)) (fun p q => - re (power_flow p q)) (fun p q => im (power_flow p q)).
(** 473-521, for one row *)
Definition network_row (u : nat -> cvalue) (b : nat) : row :=
  let r := fold_left (fun r j =>
             let blk := calculate_hnml (ybus b j) (u b) (u j) in
             mkRow (set_entry (r_jac r) j blk) (mkPolar (vminus (pa (r_del r)) (sum_row (bn blk))) (vminus (pb (r_del r)) (sum_row (bh blk)))))
           (seq 0 n) (mkRow (fun _ => zero_block) (mkPolar v0 v0)) in
  let d := r_del r in let k := r_jac r b in
  mkRow (set_entry (r_jac r) b (mkBlock (add_diag (bh k) (pb d)) (add_diag (bn k) (vneg (pa d))) (add_diag (bm k) (vneg (pa d))) (add_diag (bl k) (vneg (pb d))))) d.
(** 764-822: [v] is the magnitude of the voltage of the bus *)
Definition add_load (clamped : nat -> option value) (v : value) (bd : block * polar) (l : nat) : block * polar :=
  let (k, d) := bd in
  let s := s_injection l in
  match clamped l with
  | Some q => (k, mkPolar (vplus (pa d) (vre s)) (vplus (pb d) q))
  | None =>
      match load_gen_type l with
      | const_pq => (k, mkPolar (vplus (pa d) (vre s)) (vplus (pb d) (vim s)))
      | const_y =>
          (mkBlock (bh k) (add_diag (bn k) (fun p => - re (s p) * two * v p * v p)) (bm k) (add_diag (bl k) (fun p => - im (s p) * two * v p * v p)),
           mkPolar (vplus (pa d) (fun p => re (s p) * v p * v p)) (vplus (pb d) (fun p => im (s p) * v p * v p)))
      | const_i =>
          (mkBlock (bh k) (add_diag (bn k) (fun p => - re (s p) * v p)) (bm k) (add_diag (bl k) (fun p => - im (s p) * v p)),
           mkPolar (vplus (pa d) (fun p => re (s p) * v p)) (vplus (pb d) (fun p => im (s p) * v p)))
      end
  end.
(** 824-852 *)
Definition add_source (u : cvalue) (bd : block * polar) (s : nat) : block * polar :=
  let (k, d) := bd in
  let mm := calculate_hnml (source_y s) u u in
  let ms := calculate_hnml (fun p q => copp o (source_y s p q)) u (source_u s) in
  let p_cal := sum_row (tplus (bn mm) (bn ms)) in
  let q_cal := sum_row (tplus (bh mm) (bh ms)) in
  let mm' := mkBlock (add_diag (bh mm) (vneg q_cal)) (add_diag (bn mm) p_cal) (add_diag (bm mm) p_cal) (add_diag (bl mm) q_cal) in
  (block_add k mm', mkPolar (vminus (pa d) p_cal) (vminus (pb d) q_cal)).
(** 523-547, for one bus *)
Definition build_row (xs : nat -> polar) (clamped : nat -> option value) (u : nat -> cvalue) (b : nat) : row :=
  let r := network_row u b in
  let (k, d) := fold_left (add_source (u b)) (sources_per_bus b) (fold_left (add_load clamped (pb (xs b))) (loads_per_bus b) (r_jac r b, r_del r)) in
  mkRow (set_entry (r_jac r) b k) d.
Definition clear_recalc (c : control) : control := mkCtl (c_type c) (c_u_ref c) (c_has_limits c) false (c_violated c) (c_q_min c) (c_q_max c).
(** 523-547 *)
Definition build (partial : bool) (u : nat -> cvalue) (st : state) : state :=
  mkState (x st) (fun b => if partial && negb (c_recalc (ctl st b)) then rows st b else build_row (x st) (clamped st) u b)
    (fun b => if partial then clear_recalc (ctl st b) else ctl st b) (clamped st) (countdown st).
(** 589-604 *)
Definition violated_limit (q : value) (lo hi : option R) : violation :=
  if match hi with Some m => gtb (total q) (m + tol) | None => false end then upper
  else if match lo with Some m => gtb (m - tol) (total q) | None => false end then lower else none.
(** 661-693: the reactive power of a load_gen at its limit; a limit that is not given, NaN, is never used (C55) and would give NaN *)
Definition clamp (limit : R) (l : nat) : value :=
  if np =? 1 then fun _ => limit
  else
    let base := vim (s_injection l) in
    if gtb (rabs (total base)) tol then let scale := limit / total base in fun p => base p * scale
    else fun _ => limit / three.
Definition clamp_at (v : violation) (lg : nat * nat) : option value :=
  option_map (fun m => clamp m (fst lg)) (match v with upper => g_q_max (regs (snd lg)) | _ => g_q_min (regs (snd lg)) end).
(** 606-704, for one bus; None: UnsupportedLoadGenTypeForVoltageRegulator *)
Definition enforce_bus (st : state) (b : nat) : option state :=
  let c := ctl st b in
  match c_type c, c_has_limits c with
  | pv, true =>
      if forallb (fun lg => match load_gen_type (fst lg) with const_pq => true | _ => false end) (active b) then
        let specified := fold_left (fun q lg => vplus q (vim (s_injection (fst lg)))) (active b) v0 in
        let q_required := vminus specified (pb (r_del (rows st b))) in
        match violated_limit q_required (c_q_min c) (c_q_max c) with
        | none => Some st
        | v =>
            Some (mkState (x st) (rows st)
              (fun i => if i =? b then mkCtl pq (c_u_ref c) (c_has_limits c) true v (c_q_min c) (c_q_max c) else ctl st i)
              (fold_left (fun cl lg => fun l => if l =? fst lg then clamp_at v lg else cl l) (active b) (clamped st)) (countdown st))
        end
      else None
  | _, _ => Some st
  end.
Fixpoint enforce (bs : list nat) (st : state) : option state :=
  match bs with [] => Some st | b :: bs' => match enforce_bus st b with Some st' => enforce bs' st' | None => None end end.
Definition switched (st : state) : bool := existsb (fun b => c_recalc (ctl st b)) (seq 0 n).
(** 549-587, for one bus; the tensor of 578 is the one of a vector, with the vector on its diagonal *)
Definition pv_row (v : value) (b : nat) (r : row) : row :=
  mkRow (fun j => mkBlock (bh (r_jac r j)) (bn (r_jac r j)) (fun _ _ => zero)
           (if b =? j then fun p q => if p =? q then v p else zero else fun _ _ => zero))
    (mkPolar (pa (r_del r)) v0).
Definition apply_pv_constraints (st : state) : state :=
  mkState (x st) (fun b => match c_type (ctl st b) with pv => pv_row (pb (x st b)) b (rows st b) | _ => rows st b end) (ctl st) (clamped st) (countdown st).
(** 306-319: prepare_matrix_and_rhs; the limits are checked in an iteration if the countdown has come to 0 *)
Definition count (c : Z) : Z := if (0 <? c)%Z then (c - 1)%Z else c.
Definition prepare (u : nat -> cvalue) (st : state) : option state :=
  let st1 := build false u st in
  let st2 := mkState (x st1) (rows st1) (ctl st1) (clamped st1) (count (countdown st1)) in
  match (if (countdown st2 =? 0)%Z then enforce (seq 0 n) st2 else Some st2) with
  | None => None
  | Some st3 => Some (apply_pv_constraints (if switched st3 then build true u st3 else st3))
  end.
(** 325-349: iterate_unknown; what becomes of the deviation is in Calculation.v *)
Definition moved (xs d : nat -> polar) : nat -> polar :=
  fun b => mkPolar (vplus (pa (xs b)) (pa (d b))) (vplus (pb (xs b)) (vtimes (pb (xs b)) (pb (d b)))).
Definition phasors (xs : nat -> polar) (b : nat) : cvalue := fun p => (pb (xs b) p * rcos (pa (xs b) p), pb (xs b) p * rsin (pa (xs b) p)).
Definition move (st : state) (d : nat -> polar) (countdown' : Z) : state := mkState (moved (x st) d) (rows st) (ctl st) (clamped st) countdown'.
(** the countdown after the iteration: 343-347 sets it to 0 where the voltages have converged before the check *)
Definition next_countdown (c c' : Z) : Prop := c' = c \/ (0 < c)%Z /\ c' = 0%Z.
(** ** The states of a run, with the voltages: the start and what an iteration makes of them *)
Inductive reached : state -> (nat -> cvalue) -> Prop :=
| reached_start : forall d, solution linear_row d -> reached (start_state d) (start_u d)
| reached_step : forall st u st1 d c', reached st u -> prepare u st = Some st1 -> solution (rows st1) d -> next_countdown (countdown st1) c' ->
    reached (move st1 d c') (phasors (moved (x st1) d)).
End Newton.
Arguments mkPolar {R}. Arguments mkBlock {R}. Arguments mkRow {R}. Arguments mkReg {R}. Arguments mkCtl {R}. Arguments mkState {R}.
