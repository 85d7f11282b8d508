(** Model of a batch calculation on a model: the adapter of job_adapter.hpp in the dispatcher of job_dispatch.hpp. *)
From Verif Require Import Common Container Component MainModel UpdateData JobDispatch.
From Coq Require Import String.

Section Batch.
Context {O : DOps} {T P Opt R : Type} (orc : oracles T P Opt R).
Notation mm := (mm (T := T) (P := P)).
Notation adapter := (adapter (T := T) (P := P)).

Definition of_outcome {A} (r : A * outcome) : option (A * option exn) :=
  match r with (a, Fine) => Some (a, None) | (a, Throw e) => Some (a, Some e) | (_, UB) => None end.

(** job_adapter.hpp 34-41: copy construction; the lookup of the current scenario is not copied. *)
Definition copy_adapter (a : adapter) : adapter :=
  mkAdapter (copy_mm (ad_model a)) (ad_props a) (ad_all a) (fun _ => []).
(** job_adapter.hpp 62-73: move assignment keeps the lookup of the current scenario of the adapter assigned to. *)
Definition assign_adapter (old new : adapter) : adapter :=
  mkAdapter (ad_model new) (ad_props new) (ad_all new) (ad_cur old).

(** job_adapter.hpp 90-93 *)
Definition run_adapter (opts : Opt) (a : adapter) : option (adapter * res (list R)) :=
  match calculate orc opts (ad_model a) with
  | (_, None) => None
  | (st, Some r) => Some (mkAdapter st (ad_props a) (ad_all a) (ad_cur a), r)
  end.

(** job_dispatch.hpp 99-129 with the adapter of job_adapter.hpp. Simplification: the base adapter is constant while
    the workers run. (In the code, callbacks of the copies raise flags in solvers of the base, see Copy.v; with solvers
    that do not keep a factorised matrix these flags have no effect.) *)
Definition batch_job (c : mcontainer) (d : upd_data) (opts : Opt) (base : adapter) : job adapter (list R) :=
  mkJob (copy_adapter base) (fun a => assign_adapter a (copy_adapter base))
        (fun s a => of_outcome (setup c d s a)) (fun _ a => run_adapter opts a) (fun a => of_outcome (winddown a)).

Inductive batch_result : Type :=
| Undefined                    (* undefined behaviour, or the schedule stops before the workers have finished *)
| Refused (e : exn)            (* the call throws before any scenario is calculated *)
| Single (r : res (list R))    (* no update data: one calculation *)
| Batch (out : list (list R)) (failed : option (list (nat * string))).

(** auxiliary/dataset.hpp: no component in the update dataset. *)
Definition no_data (d : upd_data) : bool :=
  forallb (fun t => match d t with None => true | Some _ => false end) all_ctypes.

(** job_adapter.hpp 106-110: exceptions of the first calculation that are ignored. *)
Definition ignored_at_first (e : exn) : bool :=
  match e with SparseMatrixError | NotObservableError => true | _ => false end.

(** job_dispatch.hpp 37-68: batch_calculation. [n] is the batch size of the update dataset, [cache_opts] the options of
    the first calculation (main_model_impl.hpp 381-387), [out] the results buffer, [sched] the order in which the
    workers make their steps. *)
Definition batch_calculation (what : exn -> string) (cache_opts : Opt -> Opt) (c : mcontainer) (d : upd_data) (n : nat)
    (opts : Opt) (hardware threading : Z) (sched : list nat) (out : list (list R)) (st : mm) : mm * batch_result :=
  if no_data d then
    match calculate orc opts st with
    | (st', None) => (st', Undefined)
    | (st', Some r) => (st', Single r)
    end
  else if n =? 0 then (st, Batch out None)
  else
    match calculate orc (cache_opts opts) st with
    | (st', None) => (st', Undefined)
    | (st', Some r) =>
        match (match r with Err e => if ignored_at_first e then None else Some e | Ok _ => None end) with
        | Some e => (st', Refused e)
        | None =>
            match prepare c d st' with
            | Err e => (st', Refused e)
            | Ok base =>
                (st', match dispatch (batch_job c d opts base) what hardware n threading sched out with
                      | None => Undefined
                      | Some (out', failed, _) => Batch out' failed
                      end)
            end
        end
    end.
End Batch.
