(** Model of the error state of a handle of the C API (power_grid_model_c/src/handle.hpp, handle.cpp). *)
From Verif Require Import Common.
From Coq Require Import String.

(** What a call may throw. [StdException]: a subclass of std::exception with its text; [OutOfRange]: std::out_of_range,
    a subclass that meta_data.cpp 46 treats separately; [BatchCalculationError] (common/exception.hpp) with the failed
    scenarios and their messages; [NotStd]: anything else. *)
Inductive thrown : Type :=
| StdException (what : string)
| OutOfRange (what : string)
| BatchCalculationError (what : string) (failed : list nat) (msgs : list string)
| NotStd.

(** handle.hpp 22-29. [h_c_str] is the vector of C strings handed out by PGM_batch_errors (mutable, 27). *)
Record handle : Type := mkHandle {
  h_code : Z; h_msg : string; h_failed : list nat; h_errs : list string; h_c_str : list string }.

(** basics.h: enum PGM_ErrorCode *)
Definition no_error : Z := 0.
Definition regular_error : Z := 1.
Definition batch_error : Z := 2.

(** handle.hpp 32-36: PGM_Handle{} *)
Definition cleared : handle := mkHandle no_error EmptyString [] [] [].

(** handle.hpp 53-60 *)
Definition handle_regular_error (code : Z) (text extra : string) (h : handle) : handle :=
  mkHandle code (String.append text extra) (h_failed h) (h_errs h) (h_c_str h).
(** handle.hpp 62-65; the text ends with a newline in the code. *)
Definition handle_unknown_error (h : handle) : handle :=
  mkHandle regular_error "Unknown error!" (h_failed h) (h_errs h) (h_c_str h).

(** The exception handlers that a call can use: handle.hpp 38-51, model.cpp 203-218, meta_data.cpp 40-55. *)
Inductive handler : Type := DefaultHandler | BatchHandler | RangedHandler.
Definition wrong_index : string := " You supplied wrong name and/or index!".
Definition what_of (t : thrown) : string :=
  match t with StdException w | OutOfRange w | BatchCalculationError w _ _ => w | NotStd => EmptyString end.
Definition run_handler (k : handler) (t : thrown) (h : handle) : handle :=
  match t with
  | NotStd => handle_unknown_error h
  | BatchCalculationError w f m =>
      match k with
      | BatchHandler => let h1 := handle_regular_error batch_error w EmptyString h in
                        mkHandle (h_code h1) (h_msg h1) f m (h_c_str h1)
      | _ => handle_regular_error regular_error w EmptyString h
      end
  | OutOfRange w =>
      match k with
      | RangedHandler => handle_regular_error regular_error w wrong_index h
      | _ => handle_regular_error regular_error w EmptyString h
      end
  | StdException w => handle_regular_error regular_error w EmptyString h
  end.

(** handle.hpp 72-91: call_with_catch with a handle that may be null; [body] is the outcome of the functor, [empty] the
    value-initialised return value. *)
Definition call_with_catch {V} (h : option handle) (body : V + thrown) (empty : V) (k : thrown -> handle -> handle)
  : option handle * V :=
  let h := match h with Some _ => Some cleared | None => None end in
  match body with
  | inl v => (h, v)
  | inr t => (match h with Some h => Some (k t h) | None => None end, empty)
  end.

(** What a user can do with one handle: an API call through call_with_catch; the two calls that take a handle without
    using it (meta_data.cpp 67, 161); clearing it; reading the messages (handle.cpp 50-59). *)
Inductive use : Type :=
| ApiCall (k : handler) (outcome : option thrown)
| IgnoringCall
| ClearError
| ReadBatchErrors.

Definition step_handle (u : use) (h : handle) : handle :=
  match u with
  | ApiCall k o =>
      match fst (call_with_catch (Some h) (match o with None => inl tt | Some t => inr t end) tt (run_handler k)) with
      | Some h' => h' | None => h
      end
  | IgnoringCall => h
  | ClearError => cleared                                                            (* handle.cpp 60 *)
  | ReadBatchErrors => mkHandle (h_code h) (h_msg h) (h_failed h) (h_errs h) (h_errs h)   (* handle.cpp 54-57 *)
  end.
Definition run_handle (us : list use) (h : handle) : handle := fold_left (fun h u => step_handle u h) us h.

(** handle.cpp 38-59: the queries; a null handle gives 0 or null. *)
Definition PGM_error_code (h : option handle) : Z := match h with Some h => h_code h | None => 0 end.
Definition PGM_error_message (h : option handle) : option string := option_map h_msg h.
Definition PGM_n_failed_scenarios (h : option handle) : nat := match h with Some h => List.length (h_failed h) | None => 0 end.
Definition PGM_failed_scenarios (h : option handle) : option (list nat) := option_map h_failed h.
Definition PGM_batch_errors (h : option handle) : option (list string) :=
  option_map (fun h => h_c_str (step_handle ReadBatchErrors h)) h.
