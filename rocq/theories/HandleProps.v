(** Property C41: the error state of a handle describes the last call. *)
From Verif Require Import Common Handle.
From Coq Require Import String.

(** What a user should see after a call that ended with [o]: nothing after success, and after a failure the text of the
    exception; the failed scenarios and their messages after a failed batch. *)
Record answers : Type := mkAnswers {
  a_code : Z; a_msg : option string; a_n : nat; a_failed : option (list nat); a_errs : option (list string) }.
Definition ask (h : handle) : answers :=
  mkAnswers (PGM_error_code (Some h)) (PGM_error_message (Some h)) (PGM_n_failed_scenarios (Some h))
            (PGM_failed_scenarios (Some h)) (PGM_batch_errors (Some h)).
Definition describes (k : handler) (o : option thrown) (a : answers) : Prop :=
  match o with
  | None => a = mkAnswers 0 (Some EmptyString) 0 (Some []) (Some [])
  | Some (BatchCalculationError w f m) =>
      (k = BatchHandler -> a = mkAnswers 2 (Some w) (List.length f) (Some f) (Some m)) /\
      (k <> BatchHandler -> a = mkAnswers 1 (Some w) 0 (Some []) (Some []))
  | Some (StdException w) => a = mkAnswers 1 (Some w) 0 (Some []) (Some [])
  | Some (OutOfRange w) => a_code a = 1%Z /\ (exists more, a_msg a = Some (String.append w more)) /\ a_n a = 0 /\
                           a_failed a = Some [] /\ a_errs a = Some []
  | Some NotStd => a = mkAnswers 1 (Some "Unknown error!"%string) 0 (Some []) (Some [])
  end.

Lemma append_nil s : String.append s EmptyString = s.
Proof. induction s; simpl; congruence. Qed.

(** For every state of the handle and every history of calls: the next API call determines the answers, and reading
    them (any number of times) does not change them. *)
Theorem C41_last_call_described : forall h0 history k o reads, Forall (eq ReadBatchErrors) reads ->
  describes k o (ask (run_handle reads (step_handle (ApiCall k o) (run_handle history h0)))).
Proof.
  intros h0 hist k o reads HF. generalize (run_handle hist h0). intros h.
  assert (X : forall h1, ask (run_handle reads h1) = ask h1).
  { induction HF as [|u reads <- _ IH]; intros h1; auto. change (run_handle (ReadBatchErrors :: reads) h1) with (run_handle reads (step_handle ReadBatchErrors h1)).
    rewrite IH. reflexivity. }
  rewrite X. destruct o as [[w|w|w f m|]|]; cbn -[String.append]; auto.
  - destruct k; cbn -[String.append]; unfold ask; cbn -[String.append]; now rewrite append_nil.
  - destruct k; cbn -[String.append]; repeat split; eauto.
  - destruct k; split; intros H; try congruence; unfold ask; cbn -[String.append]; now rewrite append_nil.
Qed.

(** The code is zero exactly after success. *)
Theorem C41_code_zero_iff_success : forall h0 history k o,
  PGM_error_code (Some (step_handle (ApiCall k o) (run_handle history h0))) = 0%Z <-> o = None.
Proof.
  intros. destruct o as [[w|w|w f m|]|]; destruct k; cbn -[String.append]; unfold no_error, regular_error, batch_error; split; congruence.
Qed.

(** A call returns the value of the function after success and the empty value (null or zero) after a failure, with or
    without a handle; it never throws ([call_with_catch] is total). Clearing makes the handle as good as new. *)
Theorem C41_returned_value : forall V (h : option handle) (body : V + thrown) empty k,
  snd (call_with_catch h body empty k) = match body with inl v => v | inr _ => empty end /\
  (h = None -> fst (call_with_catch h body empty k) = None).
Proof. intros V h [v|t] e k; split; auto; intros ->; reflexivity. Qed.
Theorem C41_clear : forall h history, ask (step_handle ClearError (run_handle history h)) = ask cleared /\
  describes DefaultHandler None (ask cleared).
Proof. intros. split; reflexivity. Qed.

(** Refuted for the two calls that take a handle but ignore it (PGM_meta_n_datasets, PGM_is_little_endian): they always
    succeed, but the handle goes on describing an earlier failure. *)
Theorem C41_ignoring_call_refuted :
  let h := run_handle [ApiCall DefaultHandler (Some (StdException "wrong")); IgnoringCall] cleared in
  PGM_error_code (Some h) = 1%Z /\ ~ describes DefaultHandler None (ask h).
Proof. split; [reflexivity|]. intros H. discriminate H. Qed.

(** A history as in the theorem: a failed batch, a failed lookup, then a batch that fails at scenarios 1 and 3. *)
Example C41_demo :
  ask (run_handle [ApiCall BatchHandler (Some (BatchCalculationError "bad" [0] ["e"%string])); ReadBatchErrors;
                   ApiCall RangedHandler (Some (OutOfRange "x"));
                   ApiCall BatchHandler (Some (BatchCalculationError "two" [1; 3] ["p"; "q"]%string)); ReadBatchErrors] cleared) =
  mkAnswers 2 (Some "two"%string) 2 (Some [1; 3]) (Some ["p"; "q"]%string).
Proof. reflexivity. Qed.

Print Assumptions C41_last_call_described.
Print Assumptions C41_code_zero_iff_success.
Print Assumptions C41_returned_value.
Print Assumptions C41_clear.
Print Assumptions C41_ignoring_call_refuted.
