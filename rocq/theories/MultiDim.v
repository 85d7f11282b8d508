(** Model of batches with several dimensions (power_grid_model_c/src/model.cpp 186-340). *)
From Verif Require Import Common Container Component MainModel UpdateData JobDispatch Batch Handle.
From Coq Require Import String.

Section MultiDim.
(** [M]: models, [D]: batch datasets, [R]: the results of one scenario. *)
Context {M D R : Type}.
(** batch_size() of a dataset *)
Variable size : D -> nat.
(** model.cpp 317-321: a copy of the model with scenario [i] of a dataset applied as a permanent update; [None] is
    undefined behaviour. *)
Variable updated_copy : D -> nat -> M -> option (M * option exn).
(** model.cpp 186-201: a batch with one dimension; gives the buffer of results and what is thrown. *)
Variable one_dim : D -> list R -> M -> option (list R * option thrown).
Variable what : exn -> string.

(** model.cpp 277-287: the number of combinations of the remaining dimensions. *)
Definition stride_size (rest : list D) : nat := fold_left (fun s d => s * size d) rest 1.

(** model.cpp 229-270: MDBatchExceptionHandler. Note that line 261 appends IdxRange{stride_size_}, without the offset. *)
Definition md_handler (offset stride : nat) (t : thrown) (h : handle) : handle :=
  match t with
  | BatchCalculationError w f m =>
      let h1 := handle_regular_error batch_error w EmptyString h in
      mkHandle (h_code h1) (h_msg h1) (h_failed h1 ++ map (fun i => i + offset) f) (h_errs h1 ++ m) (h_c_str h1)
  | StdException w | OutOfRange w =>
      let h1 := handle_regular_error batch_error w EmptyString h in
      mkHandle (h_code h1) (h_msg h1) (h_failed h1 ++ seq 0 stride) (h_errs h1 ++ repeat w stride) (h_c_str h1)
  | NotStd => handle_unknown_error h
  end.

(** auxiliary/dataset.hpp 528-554: the part of the results from scenario [b] on, [n] scenarios long; an access outside
    the buffer is undefined behaviour. *)
Definition slice (b n : nat) (out : list R) : option (list R) :=
  if b + n <=? List.length out then Some (firstn n (skipn b out)) else None.
Definition write_slice (b : nat) (s out : list R) : list R := firstn b out ++ s ++ skipn (b + List.length s) out.

(** model.cpp 290-331. The loop over the first dimension; [inner] is the recursive call. Each iteration clears the local
    handle first (call_with_catch, handle.hpp 80-82). *)
Fixpoint outer_loop (inner : list R -> M -> option (list R * option thrown)) (d : D) (stride : nat) (m : M)
    (is : list nat) (out : list R) (h : handle) : option (list R * handle) :=
  match is with
  | [] => Some (out, h)
  | i :: is' =>
      match slice (i * stride) stride out with
      | None => None
      | Some s =>
          match updated_copy d i m with
          | None => None
          | Some (_, Some e) =>
              outer_loop inner d stride m is' out (md_handler (i * stride) stride (StdException (what e)) cleared)
          | Some (m', None) =>
              match inner s m' with
              | None => None
              | Some (s', t) =>
                  outer_loop inner d stride m is' (write_slice (i * stride) s' out)
                    (match t with None => cleared | Some t => md_handler (i * stride) stride t cleared end)
              end
          end
      end
  end.
(** [d] is the first dimension, [rest] the others; a calculation without batch data or with one dimension is passed on. *)
Fixpoint multi_dim (d : D) (rest : list D) (out : list R) (m : M) : option (list R * option thrown) :=
  match rest with
  | [] => one_dim d out m
  | d2 :: rest' =>
      match outer_loop (multi_dim d2 rest') d (stride_size rest) m (seq 0 (size d)) out cleared with
      | None => None
      | Some (out', h) =>
          Some (out', if (h_code h =? no_error)%Z then None else Some (BatchCalculationError (h_msg h) (h_failed h) (h_errs h)))
      end
  end.
End MultiDim.

(** The same with the models of MainModel.v and batches of Batch.v; a dimension is a dataset and its batch size. *)
Section Models.
Context {O : DOps} {T P Opt R : Type} (orc : oracles T P Opt R).
Notation mm := (mm (T := T) (P := P)).
Variable what : exn -> string.
(** the text of a BatchCalculationError (job_dispatch.hpp 215) *)
Variable combined : list (nat * string) -> string.
Variable cache_opts : Opt -> Opt.
Variable c : mcontainer.
Variable opts : Opt.
Variables hardware threading : Z.
Variable sched : list nat.

(** dataset.hpp 499-525: scenario [i] as a dataset of its own *)
Definition individual_scenario (d : upd_data) (i : nat) : upd_data :=
  fun t => match d t with None => None | Some r => Some [nth i r []] end.
Definition updated_copy_mm (d : upd_data * nat) (i : nat) (st : mm) : option (mm * option exn) :=
  of_outcome (update_model c (individual_scenario (fst d) i) (copy_mm st)).
Definition one_dim_mm (d : upd_data * nat) (out : list (list R)) (st : mm) : option (list (list R) * option thrown) :=
  match snd (batch_calculation orc what cache_opts c (fst d) (snd d) opts hardware threading sched out st) with
  | Undefined => None
  | Refused e => Some (out, Some (StdException (what e)))
  | Single (Ok r) => Some (match out with [] => [] | _ :: o => r :: o end, None)
  | Single (Err e) => Some (out, Some (StdException (what e)))
  | Batch out' None => Some (out', None)
  | Batch out' (Some f) => Some (out', Some (BatchCalculationError (combined f) (map fst f) (map snd f)))
  end.
Definition multi_dim_mm (d : upd_data * nat) (rest : list (upd_data * nat)) (out : list (list R)) (st : mm) :=
  multi_dim snd updated_copy_mm one_dim_mm what d rest out st.
End Models.
