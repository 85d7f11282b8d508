(** What a batch with several dimensions should give. *)
From Verif Require Import Common Handle.
From Coq Require Import String.

Section Spec.
Context {M D R : Type}.
Variable size : D -> nat.
Variable updated_copy : D -> nat -> M -> option (M * option exn).
Variable what : exn -> string.
(** Scenario [s] of a batch with one dimension on model [m]: its result, and its message if it fails. *)
Variable scenario : D -> nat -> M -> option R * option string.

(** The number of combinations of scenarios. *)
Fixpoint combinations (ds : list D) : nat := match ds with [] => 1 | d :: ds' => size d * combinations ds' end.

(** Combination [p]: scenario p / (combinations of the rest) of the first dimension applied to a copy of the model, then
    combination p mod (combinations of the rest) of the other dimensions. *)
Fixpoint combination (d : D) (rest : list D) (p : nat) (m : M) : option R * option string :=
  match rest with
  | [] => scenario d p m
  | d2 :: rest' =>
      match updated_copy d (p / combinations rest) m with
      | Some (m', None) => combination d2 rest' (p mod combinations rest) m'
      | Some (_, Some e) => (None, Some (what e))
      | None => (None, None)
      end
  end.

(** The buffer of results: unchanged where there is no result. *)
Definition filled (result : nat -> option R) (out out' : list R) : Prop :=
  List.length out' = List.length out /\
  forall p o, nth_error out p = Some o -> nth_error out' p = Some (match result p with Some r => r | None => o end).
(** The failing positions below [n], in ascending order. *)
Definition failing (failure : nat -> option string) (n : nat) : list (nat * string) :=
  flat_map (fun p => match failure p with Some msg => [(p, msg)] | None => [] end) (seq 0 n).
(** Nothing is thrown if nothing failed; otherwise an error with exactly the failures. *)
Definition reports (l : list (nat * string)) (t : option thrown) : Prop :=
  match l with
  | [] => t = None
  | _ => exists w, t = Some (BatchCalculationError w (map fst l) (map snd l))
  end.

(** The contract of a batch with one dimension (C09, C10). *)
Definition one_dim_as_specified (Good : M -> Prop) (one_dim : D -> list R -> M -> option (list R * option thrown)) : Prop :=
  forall d out m, Good m -> List.length out = size d ->
    exists out' t, one_dim d out m = Some (out', t) /\ filled (fun p => fst (scenario d p m)) out out' /\
                   reports (failing (fun p => snd (scenario d p m)) (size d)) t.

(** No update of an outer dimension throws. *)
Fixpoint outer_updates_ok (d : D) (rest : list D) (m : M) : Prop :=
  match rest with
  | [] => True
  | d2 :: rest' => forall i, i < size d -> exists m', updated_copy d i m = Some (m', None) /\ outer_updates_ok d2 rest' m'
  end.
Definition innermost (d : D) (rest : list D) : D := last rest d.
End Spec.
