(** What a batch should do, without threads: each scenario on a copy of the base of its own. *)
From Verif Require Import Common JobDispatch.
From Coq Require Import String.

Section Spec.
Context {A R : Type} (j : job A R).

(** One scenario on adapter [a]: set up, run, undo; if any of the three throws, undo, and take a new copy of the base
    if that throws too. Gives the adapter afterwards, the result that was produced, and the exception that was thrown. *)
Definition one_scenario (s : nat) (a : A) : option (A * option R * option exn) :=
  let undo_failed r e a :=
    match j_winddown j a with
    | None => None
    | Some (a', None) => Some (a', r, Some e)
    | Some (a', Some _) => Some (j_recover j a', r, Some e)
    end in
  match j_setup j s a with
  | None => None
  | Some (a1, Some e) => undo_failed None e a1
  | Some (a1, None) =>
      match j_run j s a1 with
      | None => None
      | Some (a2, Err e) => undo_failed None e a2
      | Some (a2, Ok r) =>
          match j_winddown j a2 with
          | None => None
          | Some (a3, None) => Some (a3, Some r, None)
          | Some (a3, Some e) => undo_failed (Some r) e a3
          end
      end
  end.

(** Result and exception of scenario [s] when it is the only one, on a new copy of the base. *)
Definition alone (s : nat) : option (option R * option exn) :=
  match one_scenario s (j_start j) with Some (_, r, e) => Some (r, e) | None => None end.
Definition result_alone (s : nat) : option R := match alone s with Some (r, _) => r | None => None end.
Definition failure_alone (s : nat) : option exn := match alone s with Some (_, e) => e | None => None end.

(** Scenarios do not influence later ones through the adapter: there is a set of adapters, with the copies of the base
    in it, that running a scenario does not leave and in which each scenario behaves as on a new copy. *)
Definition isolated (n : nat) : Prop :=
  exists Good : A -> Prop, Good (j_start j) /\
    forall s a, s < n -> Good a ->
      exists a' r e, one_scenario s a = Some (a', r, e) /\ alone s = Some (r, e) /\ Good a'.

(** The buffer of results afterwards: what was there stays for scenarios without a result. *)
Definition expected_results (n : nat) (out : list R) : list R :=
  map (fun so => match result_alone (fst so) with Some r => r | None => snd so end) (combine (seq 0 n) out).
(** The failed scenarios in ascending order, with the texts of their exceptions. *)
Definition expected_failures (what : exn -> string) (n : nat) : list (nat * string) :=
  flat_map (fun s => match failure_alone s with Some e => [(s, what e)] | None => [] end) (seq 0 n).
End Spec.
