(** Which nodes the closed links join, and which nodes are fed when links count as connections. *)
From Verif Require Import Common Topology TopologySpec Supernodes.

Section Spec.
Variable t : user_topo.
Variable conn : list (bool * bool).          (* switch status of the two ends of each link *)

(** a link that is closed at both ends joins [x] and [y] *)
Definition closed_link (x y : nat) : Prop := exists k, nth_error conn k = Some (true, true) /\
  (nth_error (ut_links t) k = Some (x, y) \/ nth_error (ut_links t) k = Some (y, x)).
Inductive merged (x : nat) : nat -> Prop :=
| merged_nil : merged x x
| merged_step y z : merged x y -> closed_link y z -> merged x z.

Record links_well_formed : Prop := {
  lw_len : length conn = length (ut_links t);
  lw_ends : forall k x y, nth_error (ut_links t) k = Some (x, y) -> x < n_node (ut_graph t) /\ y < n_node (ut_graph t) }.

(** ways through the whole network: branches and three-winding transformers (as in TopologySpec) and links *)
Context {P : Type} (popp : P -> P) (c : comp_conn (P := P)).
Inductive way (x : nat) : nat -> Prop :=
| way_nil : way x x
| way_link y z : way x y -> closed_link y z -> way x z
| way_branch y z h : way x y -> link popp (ut_graph t) c y z h -> way x z.
Definition fed (x : nat) : Prop := exists k s, source_at (ut_graph t) c k s /\ way s x.
End Spec.
