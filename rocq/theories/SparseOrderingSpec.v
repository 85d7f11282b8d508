(** What an elimination order with its fill-ins should be. *)
From Verif Require Import Common NatMap.

Section Spec.
(** the matrix pattern before elimination, symmetric *)
Variable edge : nat -> nat -> Prop.
Variable order : list nat.

(** [x] is eliminated before [y]. *)
Definition before (x y : nat) : Prop := exists l1 l2, order = l1 ++ x :: l2 /\ In y l2.

(** Entries of the pattern after elimination: those of the matrix, and (v, w) for two different rows v, w that are
    coupled to a row u eliminated earlier than both. *)
Inductive filled : nat -> nat -> Prop :=
| filled_edge v w : edge v w -> filled v w
| filled_fill u v w : before u v -> before u w -> v <> w -> filled u v -> filled u w -> filled v w.

(** [fills] are exactly the additional entries of the pattern, each pair listed once. *)
Record complete_fill_in (fills : list (nat * nat)) : Prop := {
  fill_exact : forall v w, filled v w <-> edge v w \/ In (v, w) fills \/ In (w, v) fills;
  fill_new : forall v w, In (v, w) fills -> ~ edge v w;
  fill_once : NoDup fills /\ forall v w, In (v, w) fills -> ~ In (w, v) fills }.
End Spec.

(** The symmetric pattern given by adjacency lists. *)
Definition given (d : list (nat * list nat)) (v w : nat) : Prop := exists l, In (v, l) d /\ In w l.
Definition pattern (d : list (nat * list nat)) (v w : nat) : Prop := given d v w \/ given d w v.
