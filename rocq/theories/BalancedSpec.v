(** Balanced three-phase quantities: what it means that an asymmetric calculation finds what a symmetric one finds. *)
From Verif Require Import Common Numbers PowerFlowSpec.

Section Spec.
Context {C : Type} (o : num_ops C) (cj cabs : C -> C) (a : C).
Local Notation "a * b" := (n_mul o a b) : num_scope.
Local Open Scope num_scope.
(** The numbers: besides [pf_laws], [a] is on the unit circle: its conjugate is its square, and it does not change the modulus. *)
Record balanced_laws : Prop := {
  ba_pf : pf_laws o cj cabs a;
  ba_conj : cj a = a * a;
  ba_abs : forall x, cabs (x * a) = cabs x }.
(** phase [p] of the balanced quantity with [x] in phase a: phase b lags by 120 degrees, phase c by 240 *)
Definition rotated (p : nat) (x : C) : C := match p with 0 => x | 1 => a * a * x | _ => a * x end.
(** the balanced three-phase voltages with the voltages [u] of a symmetric calculation in phase a *)
Definition balanced (u : nat -> nat -> C) : nat -> nat -> C := fun b p => rotated p (u b 0).
(** [v] are the balanced voltages for [u] at the [n] buses *)
Definition balanced_for (n : nat) (u v : nat -> nat -> C) : Prop := forall b p, b < n -> p < 3 -> v b p = rotated p (u b 0).
(** the three-phase admittance [m] acts on balanced voltages as the admittance [y] *)
Definition acts_balanced (m : nat -> nat -> C) (y : C) : Prop :=
  forall x p, p < 3 -> nsum o (map (fun q => m p q * rotated q x) (seq 0 3)) = rotated p (y * x).
End Spec.
