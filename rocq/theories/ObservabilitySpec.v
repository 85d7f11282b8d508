(** Topological observability: when the sensors determine the voltages of all buses. *)
From Coq Require Import Relations.
From Verif Require Import Common.

Section Spec.
Variables (n n_branch : nat) (branch_bus : nat -> bool -> option nat) (flow injection phasor : nat -> bool).
(** the branch is connected to both buses *)
Definition joins (k a b : nat) : Prop := k < n_branch /\ ((branch_bus k false = Some a /\ branch_bus k true = Some b) \/ (branch_bus k false = Some b /\ branch_bus k true = Some a)).
(** The sensor that determines the flow through a branch: one on the branch, or the injection at one of its ends *)
Inductive sensor : Type := flow_on (k : nat) | injection_at (b : nat).
Definition determines (k : nat) (s : sensor) : Prop :=
  match s with
  | flow_on k' => k' = k /\ flow k = true
  | injection_at b => b < n /\ injection b = true /\ exists c, joins k b c
  end.
(** the buses that are linked by branches with a determined flow *)
Definition linked (l : list (nat * sensor)) : nat -> nat -> Prop := clos_refl_sym_trans nat (fun a b => exists k s, In (k, s) l /\ joins k a b).
(** Each sensor is used for one branch. The branches with a determined flow link each bus to a bus with a measured angle, or all buses with each other when no angle is measured. *)
Definition observable : Prop := exists l : list (nat * sensor),
  (forall k s, In (k, s) l -> determines k s) /\ NoDup (map snd l) /\
  ((forall b, b < n -> exists c, c < n /\ phasor c = true /\ linked l b c) \/
   ((forall a, a < n -> phasor a = false) /\ forall a b, a < n -> b < n -> linked l a b)).

(** ** The hypotheses *)
Record grid_ok : Prop := {
  ok_bus : forall k side b, branch_bus k side = Some b -> b < n;
  ok_ends : forall k b, branch_bus k false = Some b -> branch_bus k true = Some b -> False;
  ok_some : 0 < n }.
(** all buses are connected *)
Definition connected : Prop := forall a b, a < n -> b < n -> clos_refl_sym_trans nat (fun a b => exists k, joins k a b) a b.
(** A radial grid, numbered from the leaves to the root: each bus but the last has branches to one later bus. *)
Definition radial : Prop := forall b, S b < n -> exists up, b < up /\ (exists k, joins k b up) /\ forall c k, b < c -> joins k b c -> c = up.
End Spec.
