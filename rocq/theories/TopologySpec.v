(** What the sub-grids of a network, their buses and their phase shifts are, in terms of the components. *)
From Verif Require Import Common Topology.

(** The three sides of a three-winding transformer. *)
Inductive side3 := Side1 | Side2 | Side3.
Definition of_side {A} (s : side3) (a : A * A * A) : A :=
  match s with Side1 => fst (fst a) | Side2 => snd (fst a) | Side3 => snd a end.

Section Spec.
Context {P : Type} (padd : P -> P -> P) (p0 : P) (popp : P -> P).
Variable t : comp_topo.
Variable c : comp_conn (P := P).

(** The vectors of the connections belong to the components and the node numbers exist. *)
Record well_formed : Prop := {
  wf_branch : forall k i j, nth_error (branch_node_idx t) k = Some (i, j) -> i < n_node t /\ j < n_node t;
  wf_branch3 : forall k b s, nth_error (branch3_node_idx t) k = Some b -> of_side s b < n_node t;
  wf_source : forall k i, nth_error (source_node_idx t) k = Some i -> i < n_node t;
  wf_branch_len : length (branch_connected c) = length (branch_node_idx t) /\ length (branch_phase_shift c) = length (branch_node_idx t);
  wf_branch3_len : length (branch3_connected c) = length (branch3_node_idx t) /\ length (branch3_phase_shift c) = length (branch3_node_idx t);
  wf_source_len : length (source_connected c) = length (source_node_idx t) }.

(** [link x y h]: a component that is closed at both ends connects [x] and [y] and adds [h] to the phase.
    The internal node of the [k]-th three-winding transformer is number [n_node + k]. A branch from a node to itself
    connects nothing. *)
Inductive link : nat -> nat -> P -> Prop :=
| link_to k i j h : nth_error (branch_node_idx t) k = Some (i, j) -> nth_error (branch_connected c) k = Some (true, true) ->
    nth_error (branch_phase_shift c) k = Some h -> i <> j -> link i j (popp h)
| link_from k i j h : nth_error (branch_node_idx t) k = Some (i, j) -> nth_error (branch_connected c) k = Some (true, true) ->
    nth_error (branch_phase_shift c) k = Some h -> i <> j -> link j i h
| link_in k b s cs hs : nth_error (branch3_node_idx t) k = Some b -> nth_error (branch3_connected c) k = Some cs ->
    nth_error (branch3_phase_shift c) k = Some hs -> of_side s cs = true -> link (of_side s b) (n_node t + k) (popp (of_side s hs))
| link_out k b s cs hs : nth_error (branch3_node_idx t) k = Some b -> nth_error (branch3_connected c) k = Some cs ->
    nth_error (branch3_phase_shift c) k = Some hs -> of_side s cs = true -> link (n_node t + k) (of_side s b) (of_side s hs).

(** [path x y h]: links lead from [x] to [y], with total phase shift [h]. *)
Inductive path (x : nat) : nat -> P -> Prop :=
| path_nil : path x x p0
| path_step y z h h' : path x y h -> link y z h' -> path x z (padd h h').

(** the [k]-th source is switched on and is at node [x] *)
Definition source_at (k x : nat) : Prop := nth_error (source_connected c) k = Some true /\ nth_error (source_node_idx t) k = Some x.

Definition connected (x y : nat) : Prop := exists h, path x y h.
Definition energised (x : nat) : Prop := exists k s, source_at k s /\ connected s x.
End Spec.
