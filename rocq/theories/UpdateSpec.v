(** Which records of an update are meant for which component (independent of how the code finds them). *)
From Verif Require Import Common Container ContainerSpec Component.

Section Spec.
Context {O : DOps}.
(** The input records the model was created from. *)
Variable data : ctype -> list (Z * cinput).

Definition no_id (id : Z) : Prop := id = na_IntID.

(** The records of one scenario for one type can be used: either none has an id and there is exactly one per component,
    or all have an id and each is the id of a component of this type. *)
Definition ids_usable (t : ctype) (ids : list Z) : Prop :=
  (Forall no_id ids /\ length ids = length (data t)) \/
  (Forall (fun id => ~ no_id id) ids /\ Forall (fun id => exists n, record_at data t n id) ids).

(** The records meant for component number [i] of type [t], in order: those with its id; or, if no ids are
    given, record number [i]. *)
Definition meant_for (t : ctype) (rs : list (Z * comp_upd t)) (i : nat) : list (comp_upd t) :=
  if forallb (fun r => Z.eqb (fst r) na_IntID) rs then
    match nth_error rs i with Some r => [snd r] | None => [] end
  else
    match nth_error (data t) i with
    | Some x => map snd (filter (fun r => Z.eqb (fst r) (fst x)) rs)
    | None => []
    end.
End Spec.
