(** Specification for C64: which grids have exactly one solution of the equations of the linear power flow. *)
From Coq Require Import Reals.
From Verif Require Import Common Numbers ShortCircuit YBus Units.
Local Open Scope R_scope.

Section Spec.
Variable o : num_ops C.
Variable np : nat. (* phases *)
(** the active power of a current [i] at a voltage [u], over the phases *)
Definition power (u i : nat -> C) : R := fold_right Rplus 0 (map (fun p => re (cmul (u p) (conj (i p)))) (seq 0 np)).
(** how an admittance acts on the phases: one number in a symmetric calculation, a tensor in an asymmetric one *)
Context {Y : Type} (ten : Y -> nat -> nat -> C).
(** what a branch takes from the grid at both sides *)
Definition takes (q : branch_param (Y := Y)) (uf ut : nat -> C) : R :=
  power uf (vadd o (dot o np (ten (yff q)) uf) (dot o np (ten (yft q)) ut)) + power ut (vadd o (dot o np (ten (ytf q)) uf) (dot o np (ten (ytt q)) ut)).
Definition passive_branch (q : branch_param (Y := Y)) : Prop := forall uf ut, 0 <= takes q uf ut.
Definition passive_admittance (y : Y) : Prop := forall u, 0 <= power u (dot o np (ten y) u).
(** any voltage makes it take active power *)
Definition resistive (y : Y) : Prop := forall u, (exists p, (p < np)%nat /\ u p <> (0, 0)) -> 0 < power u (dot o np (ten y) u).
(** The buses that are connected to a source: by branches that are closed at both sides and, while the side towards the source is short-circuited, take
    active power for any voltage at the other side. *)
Inductive supplied (branches : list ((option nat * option nat) * branch_param (Y := Y))) (has_source : nat -> Prop) : nat -> Prop :=
| at_source b : has_source b -> supplied branches has_source b
| to_side i j q : In ((Some i, Some j), q) branches -> supplied branches has_source i -> resistive (ytt q) -> supplied branches has_source j
| from_side i j q : In ((Some i, Some j), q) branches -> supplied branches has_source j -> resistive (yff q) -> supplied branches has_source i.
End Spec.
