(** Power balance at the nodes of a topological node. *)
From Verif Require Import Common LinkSolver.
From Coq Require Export Ring_theory.

Section Spec.
Context {F : Type}.
(** complex numbers in exact arithmetic: a commutative ring that contains the integers (division is only used to choose between
    the possible flows) *)
Record flow_laws (o : flow_ops F) : Prop := {
  fl_ring : ring_theory (f_0 o) (f_z o 1) (f_add o) (f_mul o) (f_sub o) (f_neg o) eq;
  fl_z0 : f_z o 0 = f_0 o;
  fl_zadd : forall a b, f_z o (a + b) = f_add o (f_z o a) (f_z o b);
  fl_zmul : forall a b, f_z o (a * b) = f_mul o (f_z o a) (f_z o b) }.
Variable o : flow_ops F.

(** sum of the flows into [v] minus sum of the flows out of [v]; [x]: the flow of each link, from its from node to its to node *)
Fixpoint net_inflow (es : list (nat * nat)) (x : list F) (v : nat) : F :=
  match es, x with
  | (from, to) :: es', f :: x' =>
      let rest := net_inflow es' x' v in
      let rest := if from =? v then f_sub o rest f else rest in
      if to =? v then f_add o rest f else rest
  | _, _ => f_0 o
  end.
(** [loads]: what is injected at each node from outside *)
Definition balanced (es : list (nat * nat)) (loads x : list F) : Prop :=
  length x = length es /\ forall v load, nth_error loads v = Some load -> f_add o (net_inflow es x v) load = f_0 o.
Definition total (l : list F) : F := fold_right (f_add o) (f_0 o) l.

(** the links join two nodes *)
Inductive joined (es : list (nat * nat)) (u : nat) : nat -> Prop :=
| joined_nil : joined es u u
| joined_to v w : joined es u v -> In (v, w) es -> joined es u w
| joined_from v w : joined es u v -> In (w, v) es -> joined es u w.

Record link_graph (es : list (nat * nat)) (n : nat) : Prop := {
  lg_ends : forall a b, In (a, b) es -> a < n /\ b < n /\ a <> b;
  lg_connected : forall u v, u < n -> v < n -> joined es u v }.

(** links without a cycle: none joins two nodes that the links before it join already *)
Definition acyclic (es : list (nat * nat)) : Prop := forall k a b, nth_error es k = Some (a, b) -> ~ joined (firstn k es) a b.

(** The run never eliminates a node that has a link contracted to a point. *)
Definition step_clean (s : fw_state F) (i : nat) : bool :=
  mem i (w_contracted s) || forallb (fun f => negb (mem f (w_contracted s))) (w_adj s (snd (edge_at (w_edges s) i))).
Fixpoint runs_clean (s : fw_state F) (idx : list nat) : bool :=
  match idx with [] => true | i :: idx' => step_clean s i && runs_clean (forward_step o s i) idx' end.
Definition clean_run (es : list (nat * nat)) (loads : list F) : bool := runs_clean (forward_init o es loads) (seq 0 (length es)).
End Spec.
