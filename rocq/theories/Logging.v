(** Model of the loggers (common/logging.hpp, calculation_info.hpp, text_logger.hpp, multi_threaded_logging.hpp), of the
    timer (common/timer.hpp) and of what the worker threads of a batch log (job_dispatch.hpp 88-138). *)
From Verif Require Import Common.
From Coq Require Import String.
Local Open Scope Z_scope.

(** common/logging.hpp 15-45: LogEvent, the underlying int16. The literals 0000, 0100 and 0200 of the code are octal. *)
Definition ev_unknown : Z := -1.
Definition ev_total : Z := 0.
Definition ev_build_model : Z := 1000.
Definition ev_total_single_calculation_in_thread : Z := 64.     (* 0100 *)
Definition ev_total_batch_calculation_in_thread : Z := 128.     (* 0200 *)
Definition ev_copy_model : Z := 1100.
Definition ev_update_model : Z := 1200.
Definition ev_restore_model : Z := 1201.
Definition ev_scenario_exception : Z := 1300.
Definition ev_recover_from_bad : Z := 1400.
Definition ev_prepare : Z := 2100.
Definition ev_create_math_solver : Z := 2210.
Definition ev_math_calculation : Z := 2200.
Definition ev_math_solver : Z := 2220.
Definition ev_initialize_calculation : Z := 2221.
Definition ev_preprocess_measured_value : Z := 2231.
Definition ev_prepare_matrix : Z := 2222.
Definition ev_prepare_matrix_including_prefactorization : Z := 2232.
Definition ev_prepare_matrices : Z := 2242.
Definition ev_initialize_voltages : Z := 2223.
Definition ev_calculate_rhs : Z := 2224.
Definition ev_prepare_lhs_rhs : Z := 2244.
Definition ev_solve_sparse_linear_equation : Z := 2225.
Definition ev_solve_sparse_linear_equation_prefactorized : Z := 2235.
Definition ev_iterate_unknown : Z := 2226.
Definition ev_calculate_math_result : Z := 2227.
Definition ev_produce_output : Z := 3000.
Definition ev_iterative_pf_solver_max_num_iter : Z := 2246.
Definition ev_max_num_iter : Z := 2248.

(** What is logged: an event alone, with a message, or with a number (logging.hpp 53-56). [le_time] is the time at which it
    is logged, which only the text logger uses (text_logger.hpp 67-80). Simplification: numbers (durations in the code,
    doubles, and counts) are exact, in some unit that makes them whole. *)
Inductive log_body : Type :=
| BNothing
| BMessage (text : string)
| BNumber (v : Z).
Record log_event : Type := mkLogEvent { le_time : Z; le_tag : Z; le_body : log_body }.

(** calculation_info.hpp 45-84: log_impl, by the labels of the switch. *)
Definition accumulated_tags : list Z :=
  [ev_total; ev_build_model; ev_total_single_calculation_in_thread; ev_total_batch_calculation_in_thread; ev_copy_model;
   ev_update_model; ev_restore_model; ev_scenario_exception; ev_recover_from_bad; ev_prepare; ev_create_math_solver;
   ev_math_calculation; ev_math_solver; ev_initialize_calculation; ev_preprocess_measured_value; ev_prepare_matrix;
   ev_prepare_matrix_including_prefactorization; ev_prepare_matrices; ev_initialize_voltages; ev_calculate_rhs;
   ev_prepare_lhs_rhs; ev_solve_sparse_linear_equation; ev_solve_sparse_linear_equation_prefactorized;
   ev_iterate_unknown; ev_calculate_math_result; ev_produce_output].
Definition maximized_tags : list Z := [ev_iterative_pf_solver_max_num_iter; ev_max_num_iter].
Definition tag_in (t : Z) (l : list Z) : bool := existsb (Z.eqb t) l.

(** std::map<LogEvent, double>: the entries in the order of the keys. *)
Definition info := list (Z * Z).
(** [f (data_[t])], where operator[] first adds a 0 for a new key (calculation_info.hpp 85-89). *)
Fixpoint change (f : Z -> Z) (t : Z) (d : info) : info :=
  match d with
  | [] => [(t, f 0)]
  | (t', v) :: d' =>
      if t <? t' then (t, f 0) :: d
      else if t =? t' then (t', f v) :: d'
      else (t', v) :: change f t d'
  end.
(** calculation_info.hpp 45-89 *)
Definition log_number (t v : Z) (d : info) : info :=
  if tag_in t accumulated_tags then change (fun x => x + v) t d
  else if tag_in t maximized_tags then change (fun x => Z.max v x) t d
  else d.
(** calculation_info.hpp 34-40: only numbers count. *)
Definition info_log (e : log_event) (d : info) : info :=
  match le_body e with BNumber v => log_number (le_tag e) v d | _ => d end.
(** calculation_info.hpp 95-103: merge_into, of another logger. *)
Definition info_merge (source destination : info) : info :=
  fold_left (fun d x => log_number (fst x) (snd x) d) source destination.

(** text_logger.hpp 23-109: a text of lines, one for each event (59-62, 78-80), and the handler that gets them: [None] if there is
    none, else whether it throws for a text. [tl_handed] are the lines that the handler has been given and has accepted; it is
    not in the code. Simplification: a line is kept as the event it shows; the caller of a flush that throws goes on. *)
Record text_log : Type := mkText {
  tl_data : list log_event; tl_handler : option (list log_event -> bool); tl_handed : list log_event }.
Definition text_log1 (e : log_event) (d : text_log) : text_log :=
  mkText (tl_data d ++ [e]) (tl_handler d) (tl_handed d).
(** text_logger.hpp 83-86 *)
Definition text_clear (d : text_log) : text_log := mkText [] (tl_handler d) (tl_handed d).
(** text_logger.hpp 88-100 *)
Definition text_flush (d : text_log) : text_log :=
  match tl_handler d with
  | Some throws =>
      if throws (tl_data d) then text_clear d
      else text_clear (mkText (tl_data d) (tl_handler d) (tl_handed d ++ tl_data d))
  | None => text_clear d
  end.
(** text_logger.hpp 45-57: the destructor. *)
Definition text_destroy (d : text_log) : text_log :=
  match tl_handler d, tl_data d with
  | Some _, _ :: _ => text_flush d
  | _, _ => text_clear d
  end.
(** text_logger.hpp 102-108: merge_into, of another logger. *)
Definition text_merge (source destination : text_log) : text_log :=
  mkText (tl_data destination ++ tl_data source) (tl_handler destination) (tl_handed destination).

(** multi_threaded_logging.hpp 24-90, for any type of logger [L]. The logger of one thread is made by create_child (67), used
    by one thread and destroyed, which merges it under the mutex (46-52, 84-89): every action is atomic. [sync] can be
    called before (53). Threads' loggers are numbered; a number is used once. Simplification: the methods of the logger
    itself do not take the mutex (71-74) and are only called while no logger of a thread is destroyed; copies and moves of a
    thread's logger are left out (nothing in the code makes them). *)
Section Threads.
Context {L Op : Type}.
Variable new_child : L.                      (* the default constructor *)
Variable log1 : log_event -> L -> L.
Variable merge : L -> L -> L.                (* source, destination *)
Variable do_op : Op -> L -> L.               (* clear, flush *)

Inductive action : Type :=
| MainLog (e : log_event)
| MainDo (o : Op)
| Create (i : nat)
| ChildLog (i : nat) (e : log_event)
| Sync (i : nat)
| Destroy (i : nat).
Inductive child : Type := Unborn | Alive (l : L) | Dead.
Record loggers : Type := mkLoggers { lg_base : L; lg_children : nat -> child }.

Definition set_child (i : nat) (c : child) (f : nat -> child) : nat -> child :=
  fun j => if Nat.eqb j i then c else f j.

(** [None]: use of a logger that does not exist. *)
Definition act (a : action) (s : loggers) : option loggers :=
  match a with
  | MainLog e => Some (mkLoggers (log1 e (lg_base s)) (lg_children s))                     (* 71-74 *)
  | MainDo o => Some (mkLoggers (do_op o (lg_base s)) (lg_children s))
  | Create i =>                                                                            (* 67, 28 *)
      match lg_children s i with
      | Unborn => Some (mkLoggers (lg_base s) (set_child i (Alive new_child) (lg_children s)))
      | _ => None
      end
  | ChildLog i e =>
      match lg_children s i with
      | Alive l => Some (mkLoggers (lg_base s) (set_child i (Alive (log1 e l)) (lg_children s)))
      | _ => None
      end
  | Sync i =>                                                                              (* 53, 84-89 *)
      match lg_children s i with
      | Alive l => Some (mkLoggers (merge l (lg_base s)) (lg_children s))
      | _ => None
      end
  | Destroy i =>                                                                           (* 46-52 *)
      match lg_children s i with
      | Alive l => Some (mkLoggers (merge l (lg_base s)) (set_child i Dead (lg_children s)))
      | _ => None
      end
  end.
Fixpoint acts (tr : list action) (s : loggers) : option loggers :=
  match tr with
  | [] => Some s
  | a :: tr' => match act a s with None => None | Some s' => acts tr' s' end
  end.
Definition fresh_loggers (base : L) : loggers := mkLoggers base (fun _ => Unborn).
End Threads.
Arguments action : clear implicits.
Arguments child : clear implicits.
Arguments loggers : clear implicits.

(** MultiThreadedCalculationInfo (calculation_info.hpp 106-113) *)
Inductive info_op : Type := InfoClear.
Definition info_acts (tr : list (action info_op)) (s : loggers info) : option (loggers info) :=
  acts [] info_log info_merge (fun _ _ => []) tr s.
(** MultiThreadedTextLogger (text_logger.hpp 111-118) *)
Inductive text_op : Type := TextClear | TextFlush.
Definition text_acts (tr : list (action text_op)) (s : loggers text_log) : option (loggers text_log) :=
  acts (mkText [] None []) text_log1 text_merge
       (fun o => match o with TextClear => text_clear | TextFlush => text_flush end) tr s.

(** job_dispatch.hpp 88-138: what worker [w] of [k] does with its logger, for [n] scenarios. [copied] and [total] are what it
    logs for the copy of the model (99-105) and in the end (97, 136), [scenario s] what it logs for scenario [s] (131-134).
    Simplification: what is logged for a scenario does not depend on the worker; that is so for the iterations. *)
Section Workers.
Variable copied total : nat -> log_event.
Variable scenario : nat -> list log_event.
Fixpoint from_start (start stride fuel n : nat) : list nat :=
  match fuel with
  | O => []
  | S fuel' => if Nat.ltb start n then start :: from_start (start + stride) stride fuel' n else []
  end.
Definition worker_events (w k n : nat) : list log_event :=
  copied w :: flat_map scenario (from_start w k n n) ++ [total w].
Definition worker_acts {Op} (w k n : nat) : list (action Op) :=
  Create w :: map (ChildLog w) (worker_events w k n) ++ [Destroy w].
End Workers.

(** common/timer.hpp 17-62: timers in numbered variables. A timer is its code and its start, and [None] if log_ is null; [tm_logged] is
    what has been logged: code, start and end. *)
Record timers : Type := mkTimers { tm_vars : nat -> option (Z * Z); tm_logged : list (Z * Z * Z) }.
Inductive timer_op : Type :=
| TStart (x : nat) (code now : Z)       (* a new timer in a variable that has none *)
| TStop (x : nat) (now : Z)             (* stop() or the destructor *)
| TMoveTo (x y : nat)                   (* y is constructed from x *)
| TAssign (x y : nat) (now : Z).        (* y = std::move(x) *)
Definition set_timer (x : nat) (t : option (Z * Z)) (f : nat -> option (Z * Z)) : nat -> option (Z * Z) :=
  fun y => if Nat.eqb y x then t else f y.
(** timer.hpp 54-61 *)
Definition timer_stop (x : nat) (now : Z) (s : timers) : timers :=
  match tm_vars s x with
  | Some (code, start) => mkTimers (set_timer x None (tm_vars s)) (tm_logged s ++ [(code, start, now)])
  | None => s
  end.
(** [None]: a timer is constructed in a variable that has a running one. *)
Definition timer_step (o : timer_op) (s : timers) : option timers :=
  match o with
  | TStart x code now =>
      match tm_vars s x with
      | None => Some (mkTimers (set_timer x (Some (code, now)) (tm_vars s)) (tm_logged s))
      | Some _ => None
      end
  | TStop x now => Some (timer_stop x now s)
  | TMoveTo x y =>                                                                         (* 28-29 *)
      match tm_vars s y with
      | None => Some (mkTimers (set_timer y (tm_vars s x) (set_timer x None (tm_vars s))) (tm_logged s))
      | Some _ => None
      end
  | TAssign x y now =>                                                                     (* 32-46 *)
      let s' := timer_stop y now s in
      let s'' := mkTimers (set_timer y (tm_vars s' x) (tm_vars s')) (tm_logged s') in
      Some (mkTimers (set_timer x None (tm_vars s'')) (tm_logged s''))
  end.
Fixpoint timer_run (os : list timer_op) (s : timers) : option timers :=
  match os with
  | [] => Some s
  | o :: os' => match timer_step o s with None => None | Some s' => timer_run os' s' end
  end.
