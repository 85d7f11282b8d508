(** Model of the batch dispatcher (job_dispatch.hpp): worker threads that share the scenarios of a batch. *)
From Verif Require Import Common.
From Coq Require Import String.

Section Dispatch.
Context {A R : Type}.

(** What the dispatcher uses of an adapter (job_interface.hpp, job_adapter.hpp 34-149). [None] is undefined behaviour.
    [j_start] is the copy of the base adapter that a worker makes (job_dispatch.hpp 99-105), [j_recover a] is the
    adapter after [a] has been assigned a new copy of the base (117-121).  Simplification: copying does not throw. *)
Record job : Type := mkJob {
  j_start : A;
  j_recover : A -> A;
  j_setup : nat -> A -> option (A * option exn);
  j_run : nat -> A -> option (A * res R);
  j_winddown : A -> option (A * option exn) }.

Variable j : job.
(** job_dispatch.hpp 77-83: the text kept for an exception (what(), or "unknown exception"). *)
Variable what : exn -> string.

(** job_dispatch.hpp 166-172 *)
Definition n_threads (hardware : Z) (n_scenarios : nat) (threading : Z) : nat :=
  if ((threading <? 0) || (threading =? 1) || ((threading =? 0) && (hardware <? 2)))%Z%bool then 1
  else Z.to_nat (Z.min (if (threading =? 0)%Z then hardware else threading) (Z.of_nat n_scenarios)).

(** Where a worker is in single_thread_job (131-134) and call_with (190-201): before its first copy; before the check
    of the loop condition; after setup; after run; in the exception handler; after the message has been stored; in the
    inner handler; left the loop. *)
Inductive phase : Type :=
| Created
| AtLoop (a : A)
| SetUp (a : A)
| HasRun (a : A)
| Caught (e : exn) (a : A)
| Stored (a : A)
| CaughtAgain (a : A)
| Finished.
Record worker : Type := mkWorker { wk_scenario : nat; wk_phase : phase }.

(** The memory shared by the workers: results of the scenarios (the caller's buffers), messages (job_dispatch.hpp 58),
    and the workers. [g_log] records which worker started which scenario; it is not in the code. *)
Record shared : Type := mkShared {
  g_out : list R; g_msgs : list string; g_workers : list worker; g_log : list (nat * nat) }.

Definition outcome_phase (o : option exn) (ok : A -> phase) (a : A) : phase :=
  match o with None => ok a | Some e => Caught e a end.

(** One step of worker [w], with [stride] workers and [n] scenarios. [None]: undefined behaviour, also a write outside
    the results or messages. *)
Definition step_worker (n stride : nat) (w : nat) (g : shared) : option shared :=
  match nth_error (g_workers g) w with
  | None => Some g
  | Some (mkWorker s ph) =>
      let go ph' := mkShared (g_out g) (g_msgs g) (upd w (mkWorker s ph') (g_workers g)) (g_log g) in
      let next a := mkShared (g_out g) (g_msgs g) (upd w (mkWorker (s + stride) (AtLoop a)) (g_workers g)) (g_log g) in
      match ph with
      | Created => Some (go (AtLoop (j_start j)))                                                   (* 105 *)
      | AtLoop a =>
          if s <? n then                                                                            (* 131 *)
            match j_setup j s a with                                                                (* 191 *)
            | None => None
            | Some (a', o) =>
                Some (mkShared (g_out g) (g_msgs g) (upd w (mkWorker s (outcome_phase o SetUp a')) (g_workers g))
                               (g_log g ++ [(w, s)]))
            end
          else Some (go Finished)
      | SetUp a =>
          match j_run j s a with                                                                    (* 192 *)
          | None => None
          | Some (a', Err e) => Some (go (Caught e a'))
          | Some (a', Ok r) =>
              if s <? List.length (g_out g) then
                Some (mkShared (upd s r (g_out g)) (g_msgs g) (upd w (mkWorker s (HasRun a')) (g_workers g)) (g_log g))
              else None
          end
      | HasRun a =>
          match j_winddown j a with                                                                 (* 193 *)
          | None => None
          | Some (a', Some e) => Some (go (Caught e a'))
          | Some (a', None) => Some (next a')
          end
      | Caught e a =>                                                                               (* 195, 80/82 *)
          if s <? List.length (g_msgs g) then
            Some (mkShared (g_out g) (upd s (what e) (g_msgs g)) (upd w (mkWorker s (Stored a)) (g_workers g)) (g_log g))
          else None
      | Stored a =>
          match j_winddown j a with                                                                 (* 197 *)
          | None => None
          | Some (a', Some _) => Some (go (CaughtAgain a'))
          | Some (a', None) => Some (next a')
          end
      | CaughtAgain a => Some (next (j_recover j a))                                                (* 199 *)
      | Finished => Some g
      end
  end.

(** A schedule: which worker makes the next step. *)
Fixpoint exec (n stride : nat) (sched : list nat) (g : shared) : option shared :=
  match sched with
  | [] => Some g
  | w :: sched' => match step_worker n stride w g with None => None | Some g' => exec n stride sched' g' end
  end.

(** job_dispatch.hpp 58 and 142-160: worker number i starts at scenario i; the only worker of a sequential run at 0. *)
Definition start_dispatch (n k : nat) (out : list R) : shared :=
  mkShared out (repeat EmptyString n) (map (fun i => mkWorker i Created) (seq 0 k)) [].
Definition is_finished (w : worker) : bool := match wk_phase w with Finished => true | _ => false end.
(** thread.join() of every worker returns (156-158). *)
Definition all_joined (g : shared) : bool := forallb is_finished (g_workers g).

(** job_dispatch.hpp 208-224: the failed scenarios and messages of the BatchCalculationError; [None] if none is thrown. *)
Definition failures (msgs : list string) : list (nat * string) :=
  filter (fun x => negb (String.eqb (snd x) EmptyString)) (combine (seq 0 (List.length msgs)) msgs).
Definition handle_batch_exceptions (msgs : list string) : option (list (nat * string)) :=
  match failures msgs with [] => None | l => Some l end.

(** job_dispatch.hpp 57-65: the threaded part of a batch calculation. [None]: undefined behaviour, or the schedule
    stops before all workers have been joined. *)
Definition dispatch (hardware : Z) (n : nat) (threading : Z) (sched : list nat) (out : list R)
  : option (list R * option (list (nat * string)) * list (nat * nat)) :=
  let k := n_threads hardware n threading in
  match exec n k sched (start_dispatch n k out) with
  | None => None
  | Some g => if all_joined g then Some (g_out g, handle_batch_exceptions (g_msgs g), g_log g) else None
  end.
End Dispatch.
Arguments job : clear implicits.
Arguments phase : clear implicits.
Arguments worker : clear implicits.
Arguments shared : clear implicits.
